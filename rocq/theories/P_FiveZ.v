(** Schoof's comparisons for l = 5 in terms of the number of points. *)
From Coq Require Import ZArith Znumtheory List ZifyBool Ring.
From mathcomp Require Import all_ssreflect all_algebra closed_field separable finfield.
From mathcomp Require Import zify.
From Verif Require Import Prelude M_Term M_DivPoly Spec P_Variable P_FSum P_Poly P_Rem P_Subst P_Subst2 P_NormalProps P_DivProps P_SchoofId2 SpecSchoof P_HasseZ P_HasseFin P_HasseGcd P_Group P_Tors3 P_EK P_Clos P_FPoly P_Three P_XMatch P_Five P_PsiVal P_FiveVal P_FiveSep P_FiveAbs P_FiveMatch P_TrClos P_FrobChar P_FrobAll.
Set Implicit Arguments. Unset Strict Implicit. Unset Printing Implicit Defensive.
Import GRing.Theory.

Lemma d5Z (u v : nat) (m : int) (M : Z) : m = (u%:Z - v%:Z)%R -> M = (Z.of_nat u - Z.of_nat v)%Z -> d5 m <-> (5 | M)%Z.
Proof.
move=> -> ->; split.
- case=> -[k|k] e; [exists (Z.of_nat k)|exists (- Z.of_nat k - 1)%Z]; lia.
- case=> k e; have [h|h] : (0 <= k \/ k < 0)%Z by lia.
    by exists (Posz (Z.to_nat k)); lia.
  by exists (- Posz (Z.to_nat (- k)))%R; lia.
Qed.
Section FZ.
Variable q : Z.
Hypothesis pq : Znumtheory.prime q.
Hypothesis q5 : (5 < q)%Z.
Variables a b : Z.
Hypothesis disc : ~ (q | 4 * (a * a * a) + 27 * (b * b))%Z.
Let n := Z.to_nat q.
Let pn : prime.prime n := prime_nat pq.
Notation F := 'F_n.
Notation rd := (@red q).
Local Open Scope ring_scope.
Definition TZ : Z := (q - Z.of_nat (length (zsols a b q)))%Z.
Let po : odd n.
Proof. case: (even_prime pn) => // h; exfalso; rewrite /n in h; lia. Qed.
Let h := n./2.
Let nh : n = (2 * h).+1. Proof. by rewrite -{1}(odd_double_half n) po /h; lia. Qed.
Let qh : #|F| = (2 * h).+1. Proof. by rewrite (card_Fp pn) -nh. Qed.
Let h0 : (0 < h)%nat. Proof. by move: nh; rewrite /n; lia. Qed.
Let qc : #|F| \in [char F]. Proof. by rewrite (card_Fp pn) char_Fp. Qed.
Let c2 := t_c2 pq (q3' q5).
Let dd := t_dd pq disc.
Lemma TZ_tr : exists u v : nat, tr h (rd a) (rd b) = u%:Z - v%:Z /\ TZ = (Z.of_nat u - Z.of_nat v)%Z.
Proof.
exists n.+1, (ncard h (rd a) (rd b)); rewrite /tr (card_Fp pn) /TZ zsols_length /sols (card_curve qh h0 _ _ c2) /ncard; split; first by move: (_ + _)%nat; clear; lia.
move: (_ + _)%nat; rewrite /n; clear -q5; lia.
Qed.
Definition scalZ : Prop := exists w, (1 <= w <= 2)%Z /\ (5 | w * w - q)%Z /\ w_matches a a b q 5 w.
Theorem five_Z : 
  (forall j, (1 <= j <= 2)%Z -> x_matches a b q 5 j <-> ((5 | TZ - j)%Z \/ (5 | TZ + j)%Z) \/ scalZ) /\
  (scalZ -> (q mod 5 = 1 /\ ((5 | TZ - 2) \/ (5 | TZ + 2)))%Z \/ (q mod 5 = 4 /\ ((5 | TZ - 1) \/ (5 | TZ + 1)))%Z).
Proof.
have [K [i [u nu]]] := tr_closure [countFieldType of F].
have cp : #|F| \in [char K] by rewrite (fmorph_char i).
have inj : injective (@FracField.tofrac [idomainType of {poly F}]) by move=> x y /eqP; rewrite tofrac_eq => /eqP.
have char0 := char_alg qh h0 qc cp inj (@frac_ex _) (ex_intro _ u nu).
pose V := gpt (c2K i c2) (nsK (i := i) dd).
pose phi : {additive V -> V} := [additive of frob_additive (c2K i c2) (nsK (i := i) dd) (frA i (t_cp pq i) (t_card pq) (rd a)) (frA i (t_cp pq i) (t_card pq) (rd b))].
pose SS : V -> Prop := S5 (pq := pq) (q5 := q5) (disc := disc) (i := i).
pose r := (q mod 5)%Z.
have hr : (1 <= r <= 4)%Z.
  have hb := Z.mod_pos_bound q 5 ltac:(lia); rewrite /r; suff : (q mod 5 <> 0)%Z by lia.
  by move=> /(Z.mod_divide q 5 ltac:(lia)) /(prime_divisors q pq) [|[|[|]]]; lia.
pose m : int := (Z.to_nat r)%:Z.
have qm : exists k : int, (#|F|%:Z : int) = k * 5 + m.
  exists (Z.to_nat (q / 5))%:Z; rewrite (card_Fp pn) /m /n /r; have := Z.div_mod q 5 ltac:(lia); have := Z.div_pos q 5 ltac:(lia) ltac:(lia); clear -hr q5; lia.
have m14 : 1 <= m <= 4 by rewrite /m; clear -hr; lia.
have phi_inj : injective phi by exact: frob_inj.
have S50 P : SS P -> P <> 0 by case=> X [Y [e _]] e0; move: e; rewrite e0.
have c5 := c5K pq q5 i.
have onS P : SS P -> exists X Y, [/\ ev P = Some (X, Y), psi5K (i (rd a)) (i (rd b)) X = 0 & Y * Y = X * X * X + i (rd a) * X + i (rd b)].
  by case=> X [Y [e h5]]; exists X, Y; split=> //; exact: ev_onK e.
have S55 P : SS P -> P *+ 5 = 0 by move=> /onS [X [Y [e h5 o]]]; exact: (five_5 o h5 e).
have S5ex : exists P, SS P.
  have [X hX] := P5_root (i (rd a)) (i (rd b)) (c2K i c2) c5.
  have [Y o] := D5_s a b i X.
  have onP : onb (i (rd a)) (i (rd b)) (Some (X, Y)) by rewrite /=; apply/eqP.
  by exists (EP onP : V), X, Y.
have alg P : SS P -> alge i (ev P).
  move=> SP; have [X [Y [e h5 o]]] := onS P SP; rewrite e /=.
  have aX : mxpoly.algebraicOver i X.
    have [d ed] := P_SchoofId3.psi_ok a b 5 ltac:(lia).
    exists (pj q 0 d); last by rewrite /root (D5_h pq q5 i ed) h5.
    apply/eqP => z; have := D5 pq q5 i ed; rewrite z rmorph0 => /esym; exact: (P5_fix (c2K i c2) c5 (nsK (i := i) dd)).
  split=> //; exact: alg_fib o aX.
pose phiA := frob_additive (c2K i c2) (nsK (i := i) dd) (frA i cp (erefl #|F|) (rd a)) (frA i cp (erefl #|F|) (rd b)).
have ph P : phiA P = phi P.
  apply: ev_inj; rewrite /= ; case: (ev P) => [[x y]|] //=; congr (Some (_, _)); rewrite !Frobenius_autE (card_Fp pn) //.
have char P : SS P -> phi (phi P) - phi P *~ tr h (rd a) (rd b) + P *~ #|F|%:Z = 0.
  move=> /alg aP; have e : phiA (phiA P) - phiA P *~ tr h (rd a) (rd b) + P *~ #|F|%:Z = 0 := char0 _ _ c2 dd P aP.
  by rewrite !ph in e.
have XM j : (1 <= j <= 2)%Z -> x_matches a b q 5 j <-> forall P, SS P -> P *~ m = phi (phi P) \/ P *~ m + phi (phi P) = phi (P *~ (Z.to_nat j)%:Z) \/ P *~ m + phi (phi P) = - phi (P *~ (Z.to_nat j)%:Z).
  move=> hj; have hj' : (1 <= j <= 4)%Z by clear -hj; lia.
  exact (five_match pq q5 disc i hj' hr).
have WM w : (1 <= w <= 2)%Z -> w_matches a a b q 5 w <-> forall P, SS P -> phi P = P *~ (Z.to_nat w)%:Z \/ phi P = - (P *~ (Z.to_nat w)%:Z).
  move=> hw; have hw' : (1 <= w <= 4)%Z by clear -hw; lia.
  exact (five_w pq q5 disc i hw').
have [u0 [v0 [eT eZ]]] := TZ_tr.
have dj (j : Z) : (0 <= j)%Z -> d5 (tr h (rd a) (rd b) - (Z.to_nat j)%:Z) <-> (5 | TZ - j)%Z.
  move=> hj; apply: (@d5Z u0 (v0 + Z.to_nat j)%nat); rewrite ?eT ?eZ; clear -hj; lia.
have dj' (j : Z) : (0 <= j)%Z -> d5 (tr h (rd a) (rd b) + (Z.to_nat j)%:Z) <-> (5 | TZ + j)%Z.
  move=> hj; apply: (@d5Z (u0 + Z.to_nat j)%nat v0); rewrite ?eT ?eZ; clear -hj; lia.
have cs := abs_cases S50 S55 S5ex char qm m14.
have rm k : m = k%:Z -> r = Z.of_nat k by rewrite /m; clear -hr; lia.
have ww w : (1 <= w <= 2)%Z -> (5 | w * w - q)%Z -> w_matches a a b q 5 w <-> scal phi SS m.
  move=> hw hd; rewrite WM //; apply: (abs_w S50 S55 S5ex char qm m14).
  case: hd => k e; have e5 := Z.div_mod q 5 ltac:(lia).
  suff [k' e'] : exists k' : int, ((Z.to_nat w)%:Z * (Z.to_nat w)%:Z - (Z.to_nat r)%:Z = k' * 5)%R by exists k'.
  have e2 : (w * w - r = (k + q / 5) * 5)%Z by rewrite /r; lia.
  have [h1|h1] : (0 <= k + q / 5 \/ k + q / 5 < 0)%Z by lia.
    exists (Posz (Z.to_nat (k + q / 5))); clear -h1 e2 hr hw; nia.
  exists (- Posz (Z.to_nat (- (k + q / 5))))%R; clear -h1 e2 hr hw; nia.
have sc : scalZ <-> scal phi SS m.
  split; first by case=> w [hw [hd hm]]; apply/(ww w hw hd).
  move=> hs; case: (cs hs) => -[em _]; have er := rm _ em.
    have hd : (5 | 1 * 1 - q)%Z by exists (- (q / 5))%Z; have := Z.div_mod q 5 ltac:(lia); rewrite -/r er; clear; lia.
    by exists 1%Z; split=> //; split=> //; apply/(ww 1%Z).
  have hd : (5 | 2 * 2 - q)%Z by exists (- (q / 5))%Z; have := Z.div_mod q 5 ltac:(lia); rewrite -/r er; clear; lia.
  by exists 2%Z; split=> //; split=> //; apply/(ww 2%Z).
split=> [j hj|/sc hs].
  rewrite XM // (abs_match phi_inj S50 S55 char qm) -sc (dj j) ?(dj' j) //; lia.
case: (cs hs) => -[em D]; have er := rm _ em; [left|right]; split=> //.
  by case: D => [/(dj 2%Z)|/(dj' 2%Z)] D; [left|right]; apply: D.
by case: D => [/(dj 1%Z)|/(dj' 1%Z)] D; [left|right]; apply: D.
Qed.
End FZ.
