(** Schoof's last test for l = 5, w = 1: x^q - x against the fifth division polynomial. *)
From Coq Require Import ZArith Znumtheory List ZifyBool.
From mathcomp Require Import all_ssreflect all_algebra closed_field separable.
From mathcomp Require Import zify.
From Verif Require Import Prelude M_Term M_DivPoly Spec P_FSum P_Subst2 P_NormalProps P_DivProps P_SchoofId2 SpecSchoof P_HasseZ P_FinF P_Tors3 P_EK P_Clos P_FPoly P_Three P_Three3 P_Five P_FiveVal P_FiveSep P_FiveMatch P_TrClos P_SchoofId3.
Set Implicit Arguments. Unset Strict Implicit. Unset Printing Implicit Defensive.
Import GRing.Theory.

Section Size.
Variables (K : closedFieldType) (A B : K).
Local Open Scope ring_scope.
Hypothesis c5 : (1 + 1) * (1 + 1) + 1 != 0 :> K.
Hypothesis c3 : 1 + 1 + 1 != 0 :> K.
Lemma sz_add (p r : {poly K}) (n : nat) : (size p <= n)%nat -> (size r <= n)%nat -> (size (p + r)%R <= n)%nat.
Proof. by move=> h1 h2; rewrite (leq_trans (size_add _ _)) // geq_max h1. Qed.
Lemma sz_sub (p r : {poly K}) (n : nat) : (size p <= n)%nat -> (size r <= n)%nat -> (size (p - r)%R <= n)%nat.
Proof. by move=> h1 h2; apply: sz_add; rewrite ?size_opp. Qed.
Lemma sz_scX (c : K) (k n : nat) : (k < n)%nat -> (size (c *: 'X^k)%R <= n)%nat.
Proof. by move=> h; rewrite (leq_trans (size_scale_leq _ _)) // size_polyXn. Qed.
Lemma sz_scX1 (c : K) (n : nat) : (1 < n)%nat -> (size (c *: 'X)%R <= n)%nat.
Proof. by move=> h; rewrite (leq_trans (size_scale_leq _ _)) // size_polyX. Qed.
Lemma sz_C (c : K) (n : nat) : (0 < n)%nat -> (size (c%:P)%R <= n)%nat.
Proof. by move=> h; rewrite (leq_trans (size_polyC_leq1 _)). Qed.
Lemma fP_lc : lead_coef (fP A B) = 1 /\ size (fP A B) = 4%nat.
Proof.
have -> : fP A B = 'X^3 + (A *: 'X + B%:P) by rewrite /fP -!expr2 -exprSr mul_polyC addrA.
have h : (size (A *: 'X + B%:P)%R < size ('X^3 : {poly K})%R)%nat.
  by rewrite size_polyXn; apply: sz_add; [exact: sz_scX1|exact: sz_C].
by rewrite lead_coefDl // size_addl // lead_coefXn size_polyXn.
Qed.
Lemma oP_lc : lead_coef (oP A B) = 1 /\ size (oP A B) = 7%nat.
Proof.
rewrite /oP -!addrA.
set r := (X in 'X^6 + X).
have h : (size r < size ('X^6 : {poly K})%R)%nat.
  rewrite size_polyXn /r; repeat (apply: sz_add; first by rewrite ?size_opp; first [exact: sz_scX|exact: sz_scX1]).
  by rewrite size_opp; exact: sz_C.
by rewrite lead_coefDl // size_addl // lead_coefXn size_polyXn.
Qed.
Lemma pP_lc : lead_coef (psiP A B) = 1 + 1 + 1 /\ size (psiP A B) = 5%nat.
Proof.
have -> : psiP A B = (1 + 1 + 1) *: 'X^4 + (((1 + 1) * (1 + 1 + 1) * A) *: 'X^2 + (((1 + 1) * (1 + 1) * (1 + 1 + 1) * B) *: 'X - (A * A)%:P)) by rewrite /psiP !addrA.
set h4 := (X in X + _); set r := (X in _ + X).
have s4 : size h4 = 5%nat by rewrite /h4 size_scale // size_polyXn.
have h : (size r < size h4)%nat.
  by rewrite s4 /r; apply: sz_add; [exact: sz_scX|apply: sz_add; [first [exact: sz_scX1|exact: sz_scX]|rewrite ?size_opp; exact: sz_C]].
by rewrite lead_coefDl // size_addl // s4 lead_coefZ lead_coefXn mulr1.
Qed.
Lemma coefT (p r : {poly K}) : p != 0 -> r != 0 -> (p * r)`_((size p).-1 + (size r).-1) = lead_coef p * lead_coef r.
Proof.
move=> p0 r0; rewrite -lead_coefM lead_coefE size_mul //; congr (_`_ _).
by move: p0 r0; rewrite -!size_poly_eq0; case: (size p) (size r) => [|u] [|v] // _ _; rewrite addSnnS /=; lia.
Qed.
Lemma P5_size : size (P5 A B) = 13%nat.
Proof.
have [lf sf] := fP_lc. have [lo so] := oP_lc. have [lp sp] := pP_lc.
have f0 : fP A B != 0 by rewrite -size_poly_eq0 sf.
have o0 : oP A B != 0 by rewrite -size_poly_eq0 so.
have p0 : psiP A B != 0 by rewrite -size_poly_eq0 sp.
have s1 : size (fP A B * fP A B) = 7%nat by rewrite size_mul // sf.
have s2 : size (fP A B * fP A B * oP A B) = 13%nat by rewrite size_mul ?mulf_neq0 // s1 so.
have s3 : size (psiP A B * psiP A B) = 9%nat by rewrite size_mul // sp.
have s4 : size (psiP A B * psiP A B * psiP A B) = 13%nat by rewrite size_mul ?mulf_neq0 // s3 sp.
have le : (size (P5 A B) <= 13)%nat by rewrite /P5 sz_sub ?s4 // (leq_trans (size_scale_leq _ _)) // s2.
have cf : (P5 A B)`_12 = (1 + 1) * (1 + 1) + 1.
  rewrite /P5 coefB coefZ.
  have -> : (fP A B * fP A B * oP A B)`_12 = 1.
    have := @coefT (fP A B * fP A B) (oP A B) (mulf_neq0 f0 f0) o0; rewrite s1 so => ->; by rewrite lead_coefM lf lo !mulr1.
  have -> : (psiP A B * psiP A B * psiP A B)`_12 = (1 + 1 + 1) * (1 + 1 + 1) * (1 + 1 + 1).
    have := @coefT (psiP A B * psiP A B) (psiP A B) (mulf_neq0 p0 p0) p0; rewrite s3 sp => ->; by rewrite lead_coefM lp.
  by rewrite -(natrD _ 1 1) -(natrD _ 2 1) -!natrM mulr1 -natrB // -(natrD _ 4 1).
apply/eqP; rewrite eqn_leq le ltnNge; apply/negP => l12.
by move: c5; rewrite -cf seq.nth_default ?eqxx.
Qed.
End Size.

Lemma psi5_map (E K : fieldType) (f : {rmorphism E -> K}) u v w : psi5K (f u) (f v) (f w) = f (psi5K u v w).
Proof. by rewrite /psi5K /p5 /fK /om2 /psi3 !(rmorphN, rmorphD, rmorphB, rmorphM, rmorph1). Qed.
(** The fifth division polynomial psi_2^3 psi_4 - psi_3^3 with y^2 replaced by x^3 + a x + b. *)
Definition psi5z (a b x : Z) : Z :=
  (32 * ((x * x * x + a * x + b) * (x * x * x + a * x + b)) * (x ^ 6 + 5 * a * x ^ 4 + 20 * b * x ^ 3 - 5 * a ^ 2 * x ^ 2 - 4 * a * b * x - 8 * b ^ 2 - a ^ 3)
   - (3 * x ^ 4 + 6 * a * x ^ 2 + 12 * b * x - a ^ 2) ^ 3)%Z.

Section W5.
Variable q : Z.
Hypothesis pq : Znumtheory.prime q.
Hypothesis q5 : (5 < q)%Z.
Let n := Z.to_nat q.
Notation F := 'F_n.
Notation rd := (@red q).
Variables a b c : Z.
Local Open Scope ring_scope.
Let rD := red_add pq. Let rM := red_mul pq. Let r1 := red_1 pq.
Lemma psi5_red x : psi5K (rd c) (rd b) (rd x) = rd (psi5z c b x).
Proof.
rewrite /psi5z.
rewrite (_ : 32 = (1 + 1) * (1 + 1) * (1 + 1) * (1 + 1) * (1 + 1))%Z //.
rewrite (_ : (x ^ 6 + 5 * c * x ^ 4 + 20 * b * x ^ 3 - 5 * c ^ 2 * x ^ 2 - 4 * c * b * x - 8 * b ^ 2 - c ^ 3) =
  (x * x * x * x * x * x + ((1 + 1) * (1 + 1) + 1) * c * (x * x * x * x) + (1 + 1) * (1 + 1) * ((1 + 1) * (1 + 1) + 1) * b * (x * x * x) + - (((1 + 1) * (1 + 1) + 1) * (c * c) * (x * x)) + - ((1 + 1) * (1 + 1) * c * b * x) + - ((1 + 1) * (1 + 1) * (1 + 1) * (b * b)) + - (c * c * c)))%Z; last by ring.
rewrite (_ : (3 * x ^ 4 + 6 * c * x ^ 2 + 12 * b * x - c ^ 2) ^ 3 = 
  ((1 + 1 + 1) * x * x * x * x + (1 + 1) * (1 + 1 + 1) * c * x * x + (1 + 1) * (1 + 1) * (1 + 1 + 1) * b * x + - (c * c)) * ((1 + 1 + 1) * x * x * x * x + (1 + 1) * (1 + 1 + 1) * c * x * x + (1 + 1) * (1 + 1) * (1 + 1 + 1) * b * x + - (c * c)) * ((1 + 1 + 1) * x * x * x * x + (1 + 1) * (1 + 1 + 1) * c * x * x + (1 + 1) * (1 + 1) * (1 + 1 + 1) * b * x + - (c * c)))%Z; last by ring.
by rewrite -Z.add_opp_r !(rD, rM, r1, red_opp pq) /psi5K /p5 /fK /om2 /psi3 !mulrA.
Qed.
Lemma five_d d : psi c b 5 = Ok d -> size (pj q 0 d) = 13%nat /\ forall x, (pj q 0 d).[rd x] = rd (psi5z c b x).
Proof.
move=> ed; have [K [i _]] : exists (K : closedFieldType) (i : {rmorphism F -> K}), True by have [K [i _]] := tr_closure [countFieldType of F]; exists K, i.
have e := D5 pq q5 i ed; split.
  have h3 : 1 + 1 + 1 != 0 :> K by have := t_c3 pq (q3' q5); rewrite -(fmorph_eq0 i) !rmorphD rmorph1.
  by rewrite -(size_map_poly i) e; apply: P5_size => //; exact: (c5K pq q5 i).
move=> x; have inj : forall u v : F, i u = i v -> u = v by move=> u v; exact: fmorph_inj.
by rewrite -psi5_red; apply: inj; rewrite -horner_map /= e P5_h psi5_map.
Qed.
Lemma mapIn (l : list Z) (z : F) : z \in [seq rd x | x <- l] -> exists x, List.In x l /\ z = rd x.
Proof. by elim: l => [|x l IH] //=; rewrite inE => /orP [/eqP ->|/IH [y [h e]]]; [exists x; split=> //; left|exists y; split=> //; right]. Qed.
Lemma w_five : w_matches c a b q 5 1 <-> exists l : list Z, length l = 12%nat /\ NoDup l /\ forall x, List.In x l -> (0 <= x < q)%Z /\ (q | psi5z c b x)%Z.
Proof.
have [d ed] := psi_ok c b 5 ltac:(lia).
have [_ [e1' _]] := c48_psi_base a b.
have od : only_x d by have [r [e [_ h]]] := c48_psi_odd c b 5 ltac:(lia) erefl; have -> : d = r by congruence.
pose u := fsub (conv (xpow q) (fpow (fmono 1 0 0 0) 2)) (fmono 1 1 0 0).
have W : w_matches c a b q 5 1 <-> multiple q c b d u.
  split.
  - case=> d' [psw [phw [h1 [h2 [h3 h]]]]]; rewrite phi1 in h3.
    have q1' : d' = d by congruence. have q2 : psw = fmono 1 0 0 0 by congruence. have q4 : phw = fmono 1 1 0 0 by congruence. subst.
    rewrite -(xmul_multiple c b q d u od) ?(xmul_multiple a b q d u od) //; move=> m c0; rewrite /u /fsub /fneg /xpow /fmono /=; do 2 (case; [case=> <- _ /=; do !split => //; lia|]); case.
  - move=> h; exists d, (fmono 1 0 0 0), (fmono 1 1 0 0); do !split=> //; rewrite /w_match.
    move: h; rewrite -/u; rewrite -(xmul_multiple c b q d u od) -?(xmul_multiple a b q d u od) //; move=> m c0; rewrite /u /fsub /fneg /xpow /fmono /=; do 2 (case; [case=> <- _ /=; do !split => //; lia|]); case.
have ku : keys01 u.
  by move=> m c0; rewrite /u /fsub /fneg /xpow /fmono /=; do 2 (case; [case=> <- _ /=; do !split => //; lia|]); case.
rewrite W -(xmul_multiple c b q d u od ku) (xmul_dvd pq od ku).
have -> : pj q 1 u = 0 by rewrite /pj /u /fsub /fneg /xpow /fmono /= !big_cons big_nil.
have -> : pj q 0 u = 'X^#|F| - 'X.
  rewrite /u pj_cat (t_card pq) -[RHS]/(_ + _); congr (_ + _).
    have -> : conv (xpow q) (fpow (fmono 1 0 0 0) 2) = fmono 1 (Z.of_nat n) 0 0.
      by rewrite /xpow /fmono /= /mmul /=; congr [:: (mkMono _ _ _ _, _)]; rewrite /n; lia.
    by rewrite (pj_mono q) r1 scale1r.
  by rewrite (pj_mono q _ 1) (red_opp pq) r1 scaleN1r expr1.
have [sd hd] := five_d ed.
have bk x : rd (back x) = x := red_back pq x.
split.
- case; rewrite finField_genPoly => /dvdp_prod_XsubC [m e] _.
  have := eqp_size e; rewrite sd size_prod_XsubC => -[s12].
  set l := mask m _ in e s12 *.
  have ul : uniq l by apply: mask_uniq; exact: index_enum_uniq.
  exists (List.map (@back q) l); split; first by rewrite List.map_length; symmetry.
  split.
    apply: FinFun.Injective_map_NoDup; first by move=> x y h; rewrite -[x]bk h bk.
    move: ul; clear; elim: l => [|x l IH] /=; first by move=> _; constructor.
    by case/andP=> h1 h2; constructor; [move=> h; move/negP: h1; apply; move: h; clear; elim: l => [|y l IH] //= [->|/IH h]; rewrite inE ?eqxx ?h ?orbT|exact: IH].
  move=> z /List.in_map_iff [x [<- hx]]; split; first exact: (back_bound pq).
  apply/(red_eq0 pq); rewrite -hd bk; apply/eqP; rewrite -[_ == _]/(root _ x) (eqp_root e) root_prod_XsubC.
  by move: hx; clear; elim: l => [|y l IH] //= [->|/IH h]; rewrite inE ?eqxx ?h ?orbT.
- case=> l [sl [nl hl]]; split; last by rewrite dvdp0.
  pose r := [seq rd x | x <- l].
  have sr : size r = 12%nat by rewrite size_map -sl.
  have ur : uniq r.
    have hl' : forall x, List.In x l -> (0 <= x < q)%Z by move=> x /hl [].
    rewrite /r; move: nl hl'; clear -pq n; elim: l => [|x l IH] //= /NoDup_cons_iff [n1 n2] h.
    rewrite (IH n2) ?andbT; last by move=> y hy; apply: h; right.
    apply/negP => /mapIn [y [hy' e]]; apply: n1.
    have -> : x = y by rewrite -(back_red pq (h x (or_introl erefl))) -(back_red pq (h y (or_intror hy'))) e.
    exact: hy'.
  have ar : all (root (pj q 0 d)) r.
    apply/allP => z /mapIn [x [hx ->]]; apply/eqP; rewrite hd; apply/(red_eq0 pq).
    by case: (hl x hx).
  have dv : \prod_(z <- r) ('X - z%:P) %| pj q 0 d by apply: uniq_roots_dvdp; rewrite ?uniq_rootsE.
  have eq : \prod_(z <- r) ('X - z%:P) %= pj q 0 d by rewrite -dvdp_size_eqp // size_prod_XsubC sr sd.
  rewrite -(eqp_dvdl _ eq); apply: uniq_roots_dvdp; last by rewrite uniq_rootsE.
  by apply/allP => z _; rewrite rootE !hornerE hornerXn expf_card subrr.
Qed.
End W5.
