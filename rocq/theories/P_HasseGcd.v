(** Polynomials over a field: a ring tactic for mathcomp polynomials and facts about common divisors. *)
From mathcomp Require Import all_ssreflect all_algebra.
From Coq Require Import Field_theory Ring Field.
Set Implicit Arguments. Unset Strict Implicit. Unset Printing Implicit Defensive.
Import GRing.Theory.
Local Open Scope ring_scope.

Lemma ring_rt (R : comRingType) : ring_theory (0 : R) 1 +%R *%R (fun x y => x - y) -%R eq.
Proof. split=> // *; [exact: add0r|exact: addrC|exact: addrA|exact: mul1r|exact: mulrC|exact: mulrA|exact: mulrDl|exact: subrr]. Qed.
Lemma field_ft (K : fieldType) : field_theory (0 : K) 1 +%R *%R (fun x y => x - y) -%R (fun x y => x / y) GRing.inv eq.
Proof. split=> //; [exact: ring_rt|apply/eqP; exact: oner_neq0|by move=> p /eqP p0; rewrite mulVf]. Qed.

(** Frozen copies of the operations, for the ring tactic. *)
Section Frozen.
Variable R : comRingType.
Definition radd : R -> R -> R := +%R.
Definition rmul : R -> R -> R := *%R.
Definition rsub : R -> R -> R := fun x y => x - y.
Definition ropp : R -> R := -%R.
Definition r0 : R := 0. Definition r1 : R := 1.
Lemma frozen_rt : ring_theory r0 r1 radd rmul rsub ropp eq. Proof. exact: ring_rt. Qed.
End Frozen.
Ltac freeze R := match goal with |- @eq ?T ?x ?y =>
 change (@eq (GRing.ComRing.sort R) x y);
 repeat (change (@GRing.add _) with (@radd R));
 repeat (change (@GRing.mul _) with (@rmul R));
 repeat (change (@GRing.opp _) with (@ropp R)); repeat change (@GRing.zero _) with (@r0 R); repeat change (@GRing.one _) with (@r1 R) end.

Definition fX (F : fieldType) : {poly F} := 'X.
Definition fC (F : fieldType) (c : F) : {poly F} := c%:P.
Ltac freezeX F := repeat change (polyX _) with (fX F); repeat change (@polyC _) with (@fC F).

Section Gcd.
Variable F : fieldType.
Notation R := (poly_comRingType (GRing.Field.comRingType F)).
Add Ring pr2 : (frozen_rt R).
Ltac rr := freeze constr:(R); ring.
Implicit Types U V W g : {poly F}.
Lemma cop_dvd g U V W : coprimep U V -> g %| U * W -> g %| V * W -> g %| W.
Proof.
move=> cUV gU gV; have e1 : W * gcdp U V %= W.
  rewrite -{2}[W]mulr1; apply: eqp_mull; by rewrite gcdp_eqp1.
by rewrite -(eqp_dvdr _ e1) (eqp_dvdr _ (mulp_gcdr U V W)) dvdp_gcd !(mulrC W) gU gV.
Qed.
(** Two proportional triples without common factor. *)
Definition prim3 U V W := forall g, g %| U -> g %| V -> g %| W -> g %= 1.
Lemma prim3_dvd U1 U2 U3 V1 V2 V3 : prim3 V1 V2 V3 -> U1 * V2 = V1 * U2 -> U1 * V3 = V1 * U3 -> V1 %| U1.
Proof.
move=> pV e2 e3.
have c : coprimep V1 (gcdp V2 V3).
  rewrite -gcdp_eqp1; apply: pV; first exact: dvdp_gcdl.
    by apply: dvdp_trans (dvdp_gcdr _ _) (dvdp_gcdl _ _).
  by apply: dvdp_trans (dvdp_gcdr _ _) (dvdp_gcdr _ _).
rewrite -(Gauss_dvdpl _ c) (eqp_dvdr _ (mulp_gcdr _ _ _)) dvdp_gcd e2 e3.
by rewrite !dvdp_mulr.
Qed.
Lemma prim3_eqp U1 U2 U3 V1 V2 V3 : prim3 U1 U2 U3 -> prim3 V1 V2 V3 -> U1 * V2 = V1 * U2 -> U1 * V3 = V1 * U3 -> U1 %= V1.
Proof.
move=> pU pV e2 e3; rewrite /eqp (prim3_dvd pV e2 e3) andbT.
by apply: (prim3_dvd pU (esym e2) (esym e3)).
Qed.
Lemma prim3_frac A B C D : coprimep A B -> coprimep C D -> prim3 (B * D) (A * C) (A * D + B * C).
Proof.
move=> cAB cCD g gBD gAC gs.
have gB : g %| B.
  apply: (@cop_dvd g (C * C) D); rewrite ?coprimepMl ?cCD //; last by rewrite mulrC.
  have -> : C * C * B = C * (A * D + B * C) - D * (A * C) by rr.
  by rewrite dvdp_sub // dvdp_mull.
have gA : g %| A.
  apply: (@cop_dvd g (D * D) C); rewrite ?coprimepMl ?(coprimep_sym D) ?cCD //; last by rewrite mulrC.
  have -> : D * D * A = D * (A * D + B * C) - C * (B * D) by rr.
  by rewrite dvdp_sub // dvdp_mull.
have e : gcdp A B %= 1 by rewrite gcdp_eqp1.
by rewrite -size_poly_eq1 -dvdp1 -(eqp_dvdr g e) dvdp_gcd gA gB.
Qed.
End Gcd.
