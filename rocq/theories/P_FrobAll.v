(** The characteristic equation of Frobenius at every algebraic point of the curve over an algebraically closed field with a transcendental element. *)
From Coq Require Import ZArith Field_theory Ring Field.
From mathcomp Require Import all_ssreflect all_algebra all_field zify.
From Verif Require Import P_Group P_HasseId P_HasseGcd P_HasseStep P_HasseDeg P_HasseFrob P_HasseFin P_EK P_Clos P_Smap P_FrobW P_FrobComp P_FrobTau P_FrobChar.
Set Implicit Arguments. Unset Strict Implicit. Unset Printing Implicit Defensive.
Import GRing.Theory.
Local Open Scope ring_scope.

Section AllId.
Variable K : Type.
Variables (k0 k1 : K) (kadd kmul ksub : K -> K -> K) (kopp : K -> K) (kdiv : K -> K -> K) (kinv : K -> K).
Variable Kf : field_theory k0 k1 kadd kmul ksub kopp kdiv kinv (@eq K).
Add Field Kfield_all : Kf.
Notation "0" := k0. Notation "1" := k1.
Infix "+" := kadd. Infix "*" := kmul. Infix "-" := ksub. Infix "/" := kdiv. Notation "- x" := (kopp x).
Lemma aA (a y : K) : a * (y * y * (y * y)) = a * (y * y * (y * y)). Proof. ring. Qed.
Lemma aB (b y : K) : b * (y * y * (y * y) * (y * y)) = b * (y * y * y * (y * y * y)). Proof. ring. Qed.
Lemma ag (x y : K) : y <> 0 -> y * y * x / (y * y) = x /\ y * y * (y * y) / (y * y * y) = y. Proof. intros. split; field; auto. Qed.
(** M = y^h *)
Lemma a_comm (u v y M : K) : y <> 0 -> M <> 0 ->
  u / (M * M * (M * M)) / (y * y) = u / (y * (M * M) * (y * (M * M))) /\ v / (M * M * (M * M) * (M * M)) / (y * y * y) = v / (y * (M * M) * (y * (M * M)) * (y * (M * M))).
Proof. intros. split; field; auto. Qed.
End AllId.

Section All.
Variable F : finFieldType.
Notation q := #|F|.
Variable h : nat.
Hypothesis qh : q = (2 * h).+1.
Hypothesis h0 : (0 < h)%N.
Hypothesis qc : q \in [char F].
Variables a b : F.
Hypothesis c2 : 1 + 1 != 0 :> F.
Hypothesis disc : (1 + 1) * (1 + 1) * (a * a * a) + (1 + 1 + 1) * (1 + 1 + 1) * (1 + 1 + 1) * (b * b) != 0.
Variables (K : closedFieldType) (i : {rmorphism F -> K}).
Hypothesis cp : q \in [char K].
Notation A := (i a). Notation B := (i b).
Notation V := (gpt (c2K i c2) (nsK (i := i) disc)).
Notation fr := [rmorphism of Frobenius_aut cp].
Notation phi := (frob_additive (c2K i c2) (nsK (i := i) disc) (frA i cp (erefl q) a) (frA i cp (erefl q) b)).
Notation ft := (field_ft K).
Notation alg := (algebraicOver i).
Notation tr := (tr h a b).

Variables (K0 : fieldType) (io : {rmorphism {poly F} -> K0}).
Hypothesis io_inj : injective io.
Hypothesis io_frac : forall x : K0, exists n d, d != 0 /\ x = io n / io d.
Section Generic.
Variables (G : V) (x y : K).
Hypothesis eG : ev G = Some (x, y).
Hypothesis nx : ~ alg x.
Lemma comm_x : commr_rmorph i x. Proof. by move=> z; exact: mulrC. Qed.
Definition hx : {rmorphism {poly F} -> K} := horner_rmorphism comm_x.
Lemma hx_inj : injective hx.
Proof.
apply: raddf_inj => p e; apply/eqP/negPn/negP => p0; apply: nx; exists p => //.
exact/eqP.
Qed.
Definition sG : {rmorphism K0 -> K} := liftr io_inj io_frac hx_inj.
Lemma sGE p : sG (io p) = hx p. Proof. exact: liftrE. Qed.
Lemma hxC c : hx c%:P = i c. Proof. by rewrite /hx /= horner_morphC. Qed.
Lemma hxX : hx 'X = x. Proof. by rewrite /hx /= horner_morphX. Qed.
Notation kl := (kl a b io).
Lemma sG_kl : sG kl = y * y.
Proof.
rewrite {1}/P_HasseDeg.kl sGE /lam !(rmorphD, rmorphM) hxX !hxC.
by have := ev_on G; rewrite eG => /= ->.
Qed.
Lemma yG0 : y <> 0.
Proof.
move=> e; have := sG_kl; rewrite e mul0r => /eqP; rewrite fmorph_eq0; exact/negP/(klb a b io_inj).
Qed.
Lemma sG_A : sG (kA a b io) = A * (y * y * (y * y)).
Proof. by rewrite /P_HasseDeg.kA !rmorphM sG_kl /P_HasseDeg.ka sGE hxC. Qed.
Lemma sG_B : sG (kB a b io) = B * (y * y * y * (y * y * y)).
Proof. rewrite /P_HasseDeg.kB !rmorphM sG_kl /P_HasseDeg.kb sGE hxC; exact: (aB ft). Qed.
Notation W := (W c2 disc io_inj).
Notation g := (g c2 disc io_inj : W).
Definition mG : {additive W -> V} := smap_additive (k2w c2 io_inj) (@nsw F a b disc K0 io io_inj) (c2K i c2) (nsK (i := i) disc) yG0 sG_A sG_B.
Lemma ev_mG P : ev (mG P) = spt sG y (ev P). Proof. by []. Qed.
Lemma mG_g : mG g = G.
Proof.
apply: ev_inj; rewrite ev_mG eG; have -> : ev g = Some (kl * kt io, kl * kl) by [].
rewrite /spt !rmorphM sG_kl /P_HasseDeg.kt sGE hxX.
by have [-> ->] := ag ft x yG0.
Qed.
Notation tau := (tau c2 disc io_inj (cpK qc io) qh (@Fq F) : {additive W -> W}).
Lemma mG_tau P : mG (tau P) = phi (mG P).
Proof.
apply: ev_inj; rewrite ev_mG ev_tau /= ; case: (ev P) => [[u v]|] //.
have M0 : y ^+ h <> 0 by apply/eqP; rewrite expf_neq0 //; apply/eqP/yG0.
have eL : sG (kl ^+ h) = y ^+ h * y ^+ h by rewrite rmorphX sG_kl exprMn.
have ey : fr y = y * (y ^+ h * y ^+ h) by rewrite P_Clos.frE (pow_p qh).
have e2 w : fr (w / (y * y)) = w ^+ q / (fr y * fr y) by rewrite rmorphM fmorphV !rmorphM [fr w]P_Clos.frE.
have e3 w : fr (w / (y * y * y)) = w ^+ q / (fr y * fr y * fr y) by rewrite rmorphM fmorphV !rmorphM [fr w]P_Clos.frE.
rewrite /spt /fpt e2 e3 ey !rmorphM !fmorphV !rmorphM eL ?Frobenius_autE ?rmorphX.
by have [-> ->] := a_comm ft (sG u ^+ q) (sG v ^+ q) yG0 M0.
Qed.
Lemma char_G : phi (phi G) - phi G *~ tr + G *~ q%:Z = 0.
Proof.
have := congr1 mG (char_eq qh h0 qc c2 disc io_inj io_frac).
by rewrite raddfD raddfB !raddfMz !mG_tau mG_g raddf0.
Qed.
End Generic.

Definition alge (P : option (K * K)) : Prop := if P is Some (x, y) then alg x /\ alg y else True.
Lemma alg_fib x y : y * y = x * x * x + A * x + B -> alg x -> alg y.
Proof.
move=> e ax; have : alg (y * y).
  rewrite e; apply: algebraic_add; last exact: algebraic_id.
  by apply: algebraic_add; do ?apply: algebraic_mul => //; exact: algebraic_id.
move=> [p p0 rp]; exists (p \Po 'X^2).
  by rewrite comp_poly_eq0 // size_polyXn.
by rewrite map_comp_poly map_polyXn /root horner_comp hornerXn expr2.
Qed.
Lemma alge_GA P Q : alge P -> alge Q -> alge (GA A P Q).
Proof.
have aA := algebraic_id i a.
have a1 := algebraic1 i.
case: P => [[x1 y1]|] //; case: Q => [[x2 y2]|] //= [ax1 ay1] [ax2 ay2].
have T l : alg l -> alge (Some (P_Group.third _ *%R (fun x y => x - y) x1 y1 x2 l)).
  move=> al; split=> /=.
    by do !apply: algebraic_sub => //; apply: algebraic_mul.
  by apply: algebraic_sub => //; apply: algebraic_mul => //; do !apply: algebraic_sub => //; apply: algebraic_mul.
case: (kd x1 x2) => _; first case: (kd y1 (- y2)) => _ //; apply: T; apply: algebraic_div.
- by apply: algebraic_add => //; do !apply: algebraic_mul => //; do !apply: algebraic_add.
- by apply: algebraic_mul => //; apply: algebraic_add.
- exact: algebraic_sub.
- exact: algebraic_sub.
Qed.
Lemma alge_N P : alge P -> alge (GN P).
Proof. by case: P => [[x y]|] //= [h1 h2]; split=> //; apply: algebraic_opp. Qed.
Hypothesis trans : exists u : K, ~ alg u.
(** The characteristic equation at every algebraic point. *)
Theorem char_alg (P : V) : alge (ev P) -> phi (phi P) - phi P *~ tr + P *~ q%:Z = 0.
Proof.
move=> aP; have [u nu] := trans; have [v ev_] := sqrtK (u * u * u + A * u + B).
have onG : onb A B (Some (u, v)) by apply/eqP.
pose G : V := EP onG.
have gG := char_G (erefl (ev G)) nu.
case E : (ev (P + G : V)) => [[x y]|]; last first.
  exfalso; have : P + G = 0 by apply: ev_inj.
  move/eqP; rewrite addr_eq0 => /eqP e; move: aP; by rewrite e => /= -[/nu].
have nx : ~ alg x.
  move=> ax; have ay : alg y by apply: (alg_fib _ ax); have := ev_on (P + G : V); rewrite E.
  have : alge (ev (P + G - P : V)) by rewrite evD E; apply: alge_GA => //; rewrite evN; exact: alge_N.
  by rewrite addrAC subrr add0r => -[/nu].
have gx := char_G E nx.
have eP : P = (P + G) - G by rewrite addrK.
rewrite eP !(raddfB phi) !mulrzBl; move: gx gG.
move: (P + G : V) => R; move: (phi (phi R)) (phi (phi G)) (phi R *~ tr) (phi G *~ tr) (R *~ q%:Z) (G *~ q%:Z) => A1 A2 A3 A4 A5 A6 e1 e2.
rewrite opprD opprK [X in X + _]addrACA addrACA. rewrite e1 add0r; apply/eqP; rewrite -oppr_eq0 !opprD !opprK e2 //.
Qed.
End All.
