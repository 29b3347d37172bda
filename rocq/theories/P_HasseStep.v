(** Hasse's bound, part 1: degrees of the points P + n Q over the field of rational functions (Manin's argument). *)
From mathcomp Require Import all_ssreflect all_algebra zify.
From Coq Require Import Field_theory Ring Field.
From Verif Require Import P_Group P_HasseId P_HasseGcd.
Set Implicit Arguments. Unset Strict Implicit. Unset Printing Implicit Defensive.
Import GRing.Theory.
Local Open Scope ring_scope.

Section Sizes.
Variable F : fieldType.
Variables a b : F.
Notation A := (a%:P). Notation B := (b%:P).
Definition lam : {poly F} := 'X * 'X * 'X + A * 'X + B.
Definition FF : {poly F} := ('X * 'X - A) * ('X * 'X - A) - (1 + 1) * (1 + 1) * (1 + 1) * B * 'X.
Definition MM (X Z : {poly F}) : {poly F} := X - 'X * Z.
Definition NN (X Z : {poly F}) : {poly F} := ('X * X - A * Z) * ('X * X - A * Z) - (1 + 1) * (1 + 1) * B * Z * (X + 'X * Z).
Definition SS (X Z : {poly F}) : {poly F} := (1 + 1) * ((X + 'X * Z) * ('X * X + A * Z) + (1 + 1) * B * (Z * Z)).

(** Sizes. *)
Lemma size_lam : size lam = 4%N.
Proof.
rewrite /lam -addrA size_addl -?expr2 -?exprSr ?size_polyXn //.
apply: leq_ltn_trans (size_add _ _) _; rewrite gtn_max (leq_ltn_trans (size_polyC_leq1 _)) // andbT.
apply: leq_ltn_trans (size_mul_leq _ _) _; rewrite size_polyX addn2 /= ltnS ltnS.
by apply: leq_trans (size_polyC_leq1 _) _.
Qed.
Lemma size_CM (c : F) (p : {poly F}) : (size (c%:P * p)%R <= size p)%N.
Proof. by rewrite mul_polyC size_scale_leq. Qed.
Lemma two_polyC : 1 + 1 = (1 + 1)%:P :> {poly F}.
Proof. by rewrite polyCD polyC1. Qed.
Lemma size_XM (p : {poly F}) : p != 0 -> size ('X * p) = (size p).+1.
Proof. by move=> p0; rewrite mulrC size_mulX. Qed.
Lemma size_XM_leq (p : {poly F}) : (size ('X * p)%R <= (size p).+1)%N.
Proof. by have [->|/size_XM->] := eqVneq p 0; rewrite ?mulr0 ?size_poly0. Qed.
Lemma size_subl (p q : {poly F}) : (size q < size p)%N -> size (p - q) = size p.
Proof. by move=> h; rewrite size_addl ?size_opp. Qed.
Lemma size_mulF (p q : {poly F}) : p != 0 -> q != 0 -> size (p * q) = (size p + size q).-1.
Proof. exact: size_mul. Qed.
Lemma size_mul_le (p q : {poly F}) m n : (size p <= m)%N -> (size q <= n)%N -> (size (p * q)%R <= (m + n).-1)%N.
Proof. move=> h1 h2; apply: leq_trans (size_mul_leq _ _) _; lia. Qed.
Lemma size_add_le (p q : {poly F}) m : (size p <= m)%N -> (size q <= m)%N -> (size (p + q)%R <= m)%N.
Proof. move=> h1 h2; apply: leq_trans (size_add _ _) _; lia. Qed.
Lemma size_NN (X Z : {poly F}) : (size Z < size X)%N -> size (NN X Z) = (size X + size X).+1.
Proof.
move=> h; have X0 : X != 0 by rewrite -size_poly_gt0; apply: leq_ltn_trans h.
have s1 : size ('X * X - A * Z) = (size X).+1.
  by rewrite size_subl ?size_XM // ltnS (leq_trans (size_CM _ _)) // ltnW.
have n0 : 'X * X - A * Z != 0 by rewrite -size_poly_gt0 s1.
have s2 : size (('X * X - A * Z) * ('X * X - A * Z)) = (size X + size X).+1 by rewrite size_mul // s1; lia.
rewrite /NN size_subl s2 // ltnS -!mulrA two_polyC.
apply: leq_trans (size_CM _ _) _; apply: leq_trans (size_CM _ _) _; apply: leq_trans (size_CM _ _) _.
apply: leq_trans (@size_mul_le _ _ (size Z) (size X) _ _) _ => //; last by lia.
by apply: size_add_le => //; apply: leq_trans (size_XM_leq _) _.
Qed.
Lemma size_SS (X Z : {poly F}) : (size Z < size X)%N -> (size (SS X Z) <= size X + size X)%N.
Proof.
move=> h; have X0 : X != 0 by rewrite -size_poly_gt0; apply: leq_ltn_trans h.
rewrite /SS {1}two_polyC; apply: leq_trans (size_CM _ _) _; apply: leq_trans (size_add _ _) _; rewrite geq_max; apply/andP; split.
  apply: leq_trans (@size_mul_le _ _ (size X) (size X).+1 _ _) _; last by lia.
    by apply: size_add_le => //; apply: leq_trans (size_XM_leq _) _.
  apply: size_add_le; first exact: size_XM_leq.
  by apply: leq_trans (size_CM _ _) _; lia.
rewrite two_polyC -mulrA; apply: leq_trans (size_CM _ _) _; apply: leq_trans (size_CM _ _) _.
apply: leq_trans (size_mul_leq _ _) _; lia.
Qed.

End Sizes.

Section Poly.
Variable F : fieldType.
Variables a b : F.
Hypothesis c2 : 1 + 1 != 0 :> F.
Hypothesis disc : (1 + 1) * (1 + 1) * (a * a * a) + (1 + 1 + 1) * (1 + 1 + 1) * (1 + 1 + 1) * (b * b) != 0.
Notation R := (poly_comRingType (GRing.Field.comRingType F)).
Add Ring pr3 : (frozen_rt R).
Ltac rr := freezeX F; freeze constr:(R); ring.
Notation A := (a%:P). Notation B := (b%:P).
Notation lam := (lam a b). Notation FF := (FF a b). Notation NN := (NN a b). Notation SS := (SS a b).
Lemma two_unit : @eqp F (1 + 1) 1.
Proof. by rewrite -size_poly_eq1 -polyC1 -polyCD size_polyC c2. Qed.
Lemma dvd_two (g p : {poly F}) : g %| (1 + 1) * p -> g %| p.
Proof. by rewrite (eqp_dvdr _ (eqp_mulr p two_unit)) mul1r. Qed.
Lemma cop_F_lam : coprimep FF lam.
Proof.
rewrite -gcdp_eqp1 -size_poly_eq1 -dvdp1.
have : gcdp FF lam %| ((1 + 1) * (1 + 1) * (A * A * A) + (1 + 1 + 1) * (1 + 1 + 1) * (1 + 1 + 1) * (B * B) : {poly F}).
  have -> : ((1 + 1) * (1 + 1) * (A * A * A) + (1 + 1 + 1) * (1 + 1 + 1) * (1 + 1 + 1) * (B * B) : {poly F}) =
    ((1 + 1 + 1) * ('X * 'X) + (1 + 1) * (1 + 1) * A) * FF - ((1 + 1 + 1) * ('X * 'X * 'X) - ((1 + 1) * (1 + 1) + 1) * A * 'X - (1 + 1 + 1) * (1 + 1 + 1) * (1 + 1 + 1) * B) * lam.
    by rewrite /P_HasseStep.FF /P_HasseStep.lam; rr.
  apply: dvdp_sub; apply: dvdp_mull; [exact: dvdp_gcdl|exact: dvdp_gcdr].
have -> : (1 + 1) * (1 + 1) * (A * A * A) + (1 + 1 + 1) * (1 + 1 + 1) * (1 + 1 + 1) * (B * B) = ((1 + 1) * (1 + 1) * (a * a * a) + (1 + 1 + 1) * (1 + 1 + 1) * (1 + 1 + 1) * (b * b))%:P.
  by rewrite !(polyCD, polyCM, polyC1).
by move/dvdp_trans; apply; rewrite dvdp1 size_polyC disc.
Qed.
Lemma prim_MNS X Z : coprimep X Z -> prim3 (MM X Z * MM X Z) (NN X Z) (SS X Z).
Proof.
move=> cXZ g gM gN gS.
have cMZ : coprimep (MM X Z) Z.
  rewrite coprimep_sym /MM (_ : X - 'X * Z = (- 'X) * Z + X); last by rr.
  by rewrite coprimep_addl_mul coprimep_sym.
have ch : coprimep g (MM X Z).
  rewrite -gcdp_eqp1; set h := gcdp _ _.
  have hg : h %| g by exact: dvdp_gcdl.
  have hM : h %| MM X Z by exact: dvdp_gcdr.
  have hZ : coprimep h (Z * Z) by rewrite coprimepMr andbb; apply: coprimep_dvdr hM _; rewrite // coprimep_sym.
  have hF : h %| FF.
    rewrite -(Gauss_dvdpr _ hZ); have := dvdp_trans hg gN.
    have -> : NN X Z = Z * Z * FF + MM X Z * ('X * ('X * X - A * Z) + ('X * 'X * Z - A * Z) * 'X - (1 + 1) * (1 + 1) * B * Z) by rewrite /P_HasseStep.NN /MM /P_HasseStep.FF; rr.
    by rewrite (dvdp_addl _ (dvdp_mulr _ hM)).
  have hl : h %| lam.
    rewrite -(Gauss_dvdpr _ hZ); have := dvdp_trans hg gS.
    have -> : SS X Z = (1 + 1) * ((1 + 1) * (Z * Z * lam)) + MM X Z * ((1 + 1) * ('X * X + A * Z + (1 + 1) * 'X * 'X * Z)) by rewrite /P_HasseStep.SS /MM /P_HasseStep.lam; rr.
    rewrite (dvdp_addl _ (dvdp_mulr _ hM)).
    by move=> /dvd_two /dvd_two.
  have := cop_F_lam; rewrite -gcdp_eqp1 -!size_poly_eq1 -!dvdp1; apply: dvdp_trans.
  by rewrite dvdp_gcd hF hl.
have c : coprimep g (MM X Z * MM X Z) by rewrite coprimepMr ch.
by rewrite -size_poly_eq1 -dvdp1 -(Gauss_dvdpr 1 c) mulr1.
Qed.

(** The reduced fractions of x(P + Q) and x(P - Q), from those of x(P): the step of the quadratic recurrence. *)
Lemma poly_step (X Z U V C D : {poly F}) : coprimep X Z -> (size Z < size X)%N -> MM X Z != 0 -> 
  coprimep U V -> V != 0 -> coprimep C D -> D != 0 -> (size D < size C)%N ->
  (U * D + V * C) * (MM X Z * MM X Z) = SS X Z * (V * D) -> U * C * (MM X Z * MM X Z) = NN X Z * (V * D) ->
  (size V < size U)%N /\ (size U + size C = (size X + size X).+2)%N.
Proof.
move=> cXZ sXZ M0 cUV V0 cCD D0 sCD eS eN.
have e : V * D %= MM X Z * MM X Z.
  apply: (@prim3_eqp _ _ (U * C) (U * D + V * C) _ (NN X Z) (SS X Z)); [exact: prim3_frac|exact: prim_MNS|by rewrite mulrC -eN mulrC|by rewrite mulrC -eS mulrC].
have VD0 : V * D != 0 by rewrite mulf_neq0.
have eqs (p q : {poly F}) : p * (MM X Z * MM X Z) = q * (V * D) -> size p = size q.
  move=> h; apply: eqp_size; rewrite -(@eqp_mul2r _ (V * D)) // -h; exact: eqp_mull.
have sN := eqs _ _ eN.
have sS := eqs _ _ eS.
have U0 : U != 0 by apply/negP=> /eqP h; move: sN; rewrite h mul0r size_poly0 size_NN.
have C0 : C != 0 by rewrite -size_poly_gt0; apply: leq_ltn_trans sCD.
have sUC : (size U + size C = (size X + size X).+2)%N.
  move: sN; rewrite size_mul // size_NN //; have : (0 < size U)%N by rewrite size_poly_gt0.
  by case: (size U) => // n _; rewrite !addSn /= => ->.
split=> //; rewrite ltnNge; apply/negP=> sUV.
have sV : (0 < size V)%N by rewrite size_poly_gt0.
have sU : (0 < size U)%N by rewrite size_poly_gt0.
have sD : (0 < size D)%N by rewrite size_poly_gt0.
have h1 : (size (U * D)%R < size (V * C)%R)%N.
  rewrite (size_mulF U0 D0) (size_mulF V0 C0); lia.
have := size_SS a b sXZ; rewrite -sS addrC (size_addl h1) (size_mulF V0 C0); lia.
Qed.
End Poly.
