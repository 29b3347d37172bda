(** Properties C90-C92: isomorphic curves, quadratic twists, supersingular families *)
From Coq Require Import Znumtheory ZifyBool Permutation.
From Verif Require Import Prelude M_Bigint M_Variable M_Term M_Poly M_Curve Spec SpecCurve SpecTwist P_Bigint P_Variable P_Curve P_Curve2 P_Curve3 P_CurveProps P_Euler.
From Verif Require Import P_TwistProps.
Open Scope Z_scope.

(** C90: a change of variables (x, y) -> (u^2 x, u^3 y) carries points of one curve exactly to points of the other. *)
Theorem C90_on_curve : forall p u a b a' b' E E' P, prime p -> iso_curves p u a b a' b' -> curve_of a b p E -> curve_of a' b' p E' ->
  is_on_curve E' (iso_point u P) = is_on_curve E P.
Proof. exact c90_on_curve. Qed.
Print Assumptions C90_on_curve.
(** C90: and it respects plus: the images of two points add up to the image of their sum, and plus panics on the images exactly when it panics on the points. *)
Theorem C90_plus : forall p u a b a' b' E E' P Q, prime p -> p <> 2 -> iso_curves p u a b a' b' -> curve_of a b p E -> curve_of a' b' p E' ->
  (plus E' (iso_point u P) (iso_point u Q) = Panic <-> plus E P Q = Panic) /\
  forall R, plus E P Q = Ok R -> exists R', plus E' (iso_point u P) (iso_point u Q) = Ok R' /\ affine p R' = affine p (iso_point u R).
Proof. exact c90_plus. Qed.
Print Assumptions C90_plus.
(** C90: and scalar multiples, in every case (also where multiply_scalar is not the multiple, C59). *)
Theorem C90_multiply : forall p u a b a' b' E E' P n, elliptic a b p -> iso_curves p u a b a' b' -> curve_of a b p E -> curve_of a' b' p E' ->
  is_on_curve E P = Ok true -> 0 <= n ->
  exists R R', multiply_scalar E P n = Ok R /\ multiply_scalar E' (iso_point u P) n = Ok R' /\ affine p R' = affine p (iso_point u R).
Proof. exact c90_multiply. Qed.
Print Assumptions C90_multiply.
(** C90: the order reported for a point is the order reported for its image. *)
Theorem C90_order : forall p u a b a' b' E E' P fuel, prime p -> p <> 2 -> iso_curves p u a b a' b' -> curve_of a b p E -> curve_of a' b' p E' ->
  is_on_curve E P = Ok true -> point_order fuel E' (iso_point u P) = point_order fuel E P.
Proof. exact c90_order. Qed.
Print Assumptions C90_order.
(** C90: isomorphic curves (in particular, curves whose coefficients agree modulo p: u = 1) have the same cardinality. *)
Theorem C90_cardinality : forall p u a b a' b' E E', p <> 2 -> iso_curves p u a b a' b' -> ec_new a b p = Ok E -> ec_new a' b' p = Ok E' -> cardinality E' = cardinality E.
Proof. exact c90_cardinality. Qed.
Print Assumptions C90_cardinality.
Example C90_case : iso_curves 5 2 1 1 1 (-1) /\ is_on_curve (new_raw 1 1 5) (mkPt 0 1 1) = Ok true /\
  point_order 20 (new_raw 1 1 5) (mkPt 0 1 1) = Ok 9 /\ point_order 20 (new_raw 1 (-1) 5) (iso_point 2 (mkPt 0 1 1)) = Ok 9.
Proof. exact c90_case. Qed.
Theorem C91_twist : forall p d a b a' b' E E', p <> 2 -> twisted p d a b a' b' -> ec_new a b p = Ok E -> ec_new a' b' p = Ok E' -> cardinality E + cardinality E' = 2 * p + 2.
Proof. exact c91_twist. Qed.
Print Assumptions C91_twist.
(** C91: two curves with the same j_invariant() other than 0 and 1728 have the same cardinality or cardinalities adding up to 2 p + 2. *)
Theorem C91_same_j : forall p a b a' b' E E' j, elliptic a b p -> elliptic a' b' p -> ec_new a b p = Ok E -> ec_new a' b' p = Ok E' ->
  ec_j_invariant E = Ok j -> ec_j_invariant E' = Ok j -> ~ (p | j) -> ~ (p | j - 1728) ->
  cardinality E' = cardinality E \/ cardinality E + cardinality E' = 2 * p + 2.
Proof. exact c91_same_j. Qed.
Print Assumptions C91_same_j.
(** C91: every curve over GF(p), p odd, has a twist, with the same j_invariant(). *)
Theorem C91_exists : forall p a b E, elliptic a b p -> ec_new a b p = Ok E -> exists d a' b' E', twisted p d a b a' b' /\ elliptic a' b' p /\ ec_new a' b' p = Ok E' /\
  cardinality E + cardinality E' = 2 * p + 2 /\ ec_j_invariant E' = ec_j_invariant E.
Proof. exact c91_exists. Qed.
Print Assumptions C91_exists.
Example C91_case : twisted 5 2 1 1 4 3 /\ exists E E', ec_new 1 1 5 = Ok E /\ ec_new 4 3 5 = Ok E' /\ cardinality E = 9 /\ cardinality E' = 3 /\ ec_j_invariant E = ec_j_invariant E'.
Proof. exact c91_case. Qed.
(** C92: a curve y^2 = x^3 + a x over GF(p) with p = 3 (mod 4) has exactly p + 1 points. *)
Theorem C92_b_zero : forall p a b E, p mod 4 = 3 -> (p | b) -> ec_new a b p = Ok E -> cardinality E = p + 1.
Proof. exact c92_b_zero. Qed.
Print Assumptions C92_b_zero.
(** C92: a curve y^2 = x^3 + b over GF(p) with p = 2 (mod 3), p odd, has exactly p + 1 points. *)
Theorem C92_a_zero : forall p a b E, p <> 2 -> p mod 3 = 2 -> (p | a) -> ec_new a b p = Ok E -> cardinality E = p + 1.
Proof. exact c92_a_zero. Qed.
Print Assumptions C92_a_zero.
Example C92_case : exists E E', ec_new 1 0 7 = Ok E /\ cardinality E = 8 /\ ec_new 0 1 5 = Ok E' /\ cardinality E' = 6.
Proof. exact c92_case. Qed.
