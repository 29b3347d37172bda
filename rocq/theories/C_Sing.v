(** C110: singular curves *)
From Coq Require Import Znumtheory ZifyBool Permutation.
From Verif Require Import Prelude M_Bigint M_Variable M_Term M_Poly M_Curve Spec SpecCurve SpecTwist P_Bigint P_Variable P_Curve P_Curve2 P_Curve3 P_CurveProps P_Euler P_TwistProps.
From Verif Require Import P_SingProps.
Open Scope Z_scope.

(** C110: the constructor accepts singular curves; with p | a (a cusp) it lists p + 1 points. *)
Theorem C110_cusp : forall a b p E, p <> 2 -> (p | a) -> (p | 4 * a ^ 3 + 27 * b ^ 2) -> ec_new a b p = Ok E -> cardinality E = p + 1.
Proof. exact c110_cusp. Qed.
Print Assumptions C110_cusp.
(** C110: otherwise (a node, p > 3) it lists p points if -2 a b is a square modulo p, and p + 2 if not. *)
Theorem C110_node : forall a b p E, 3 < p -> ~ (p | a) -> (p | 4 * a ^ 3 + 27 * b ^ 2) -> ec_new a b p = Ok E ->
  ((exists s, (p | s * s + 2 * a * b)) -> cardinality E = p) /\
  ((~ exists s, (p | s * s + 2 * a * b)) -> cardinality E = p + 2).
Proof. exact c110_node. Qed.
Print Assumptions C110_node.
(** C110: over GF(2) every curve gets 3 points. *)
Theorem C110_two : forall a b E, ec_new a b 2 = Ok E -> cardinality E = 3.
Proof. exact c110_two. Qed.
Print Assumptions C110_two.
(** C110: for every a, the cardinalities of the p curves y^2 = x^3 + a x + b, b = 0, ..., p - 1, add up to p (p + 1). *)
Theorem C110_average : forall a p curves, prime p ->
  Forall2 (fun b E => ec_new a (Z.of_nat b) p = Ok E) (seq 0 (Z.to_nat p)) curves ->
  fold_right Z.add 0 (map cardinality curves) = p * (p + 1).
Proof. exact c110_average. Qed.
Print Assumptions C110_average.
Example C110_case : exists E E1 E2 E3, ec_new 0 0 5 = Ok E /\ cardinality E = 6 /\
  (5 | 4 * 2 ^ 3 + 27 * 2 ^ 2) /\ ec_new 2 2 5 = Ok E1 /\ cardinality E1 = 7 /\
  (7 | 4 * 1 ^ 3 + 27 * 5 ^ 2) /\ (7 | 2 * 2 + 2 * 1 * 5) /\ ec_new 1 5 7 = Ok E2 /\ cardinality E2 = 7 /\ ec_new 1 0 2 = Ok E3 /\ cardinality E3 = 3.
Proof. exact c110_case. Qed.
(** C110: on a cusp, plus adds the parameters x / y: the sum of two points with x <> 0 is infinity or again such a point. *)
Theorem C110_cusp_plus : forall a b p E P Q, prime p -> p <> 2 -> (p | a) -> (p | b) -> curve_of a b p E ->
  is_on_curve E P = Ok true -> is_on_curve E Q = Ok true -> is_infinity P = false -> is_infinity Q = false -> ~ (p | px P) -> ~ (p | px Q) ->
  exists R, plus E P Q = Ok R /\
    (is_infinity R = true -> (p | px P * py Q + px Q * py P)) /\
    (is_infinity R = false -> ~ (p | px R) /\ (p | px R * (py P * py Q) - py R * (px P * py Q + px Q * py P))).
Proof. exact c110_cusp_plus. Qed.
Print Assumptions C110_cusp_plus.
(** C110: so every point with x <> 0 on a cusp has order p. *)
Theorem C110_cusp_order : forall a b p E P, prime p -> p <> 2 -> (p | a) -> (p | b) -> curve_of a b p E ->
  is_on_curve E P = Ok true -> is_infinity P = false -> ~ (p | px P) -> exists fuel, point_order fuel E P = Ok p.
Proof. exact c110_cusp_order. Qed.
Print Assumptions C110_cusp_order.
Example C110_cusp_case : is_on_curve (new_raw 0 0 7) (mkPt 2 1 1) = Ok true /\ plus (new_raw 0 0 7) (mkPt 2 1 1) (mkPt 1 1 1) = Ok (mkPt 4 6 1) /\ point_order 7 (new_raw 0 0 7) (mkPt 2 1 1) = Ok 7.
Proof. exact c110_cusp_case. Qed.
