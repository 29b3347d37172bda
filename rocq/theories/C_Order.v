(** C127: orders of multiples, sums and negatives *)
From Coq Require Import Znumtheory ZifyBool.
From Verif Require Import Prelude M_Bigint M_Curve Spec SpecCurve P_Bigint P_Variable P_Group P_Fp P_Curve P_Curve2 P_Curve3 P_Curve4 P_CurveProps P_AbGroup P_TorsionProps.
From Verif Require Import P_OrderProps.
Open Scope Z_scope.

(** C127: for k >= 1, multiply_scalar(P, k) is infinite exactly when the order n of P divides k or 2^(log2 k) (the latter is the case in which it is wrong, C59). *)
Theorem C127_infinite : forall a b p E P f n k R, elliptic a b p -> curve_of a b p E -> is_on_curve E P = Ok true -> point_order f E P = Ok n ->
  1 <= k -> multiply_scalar E P k = Ok R -> (is_infinity R = true <-> (n | k) \/ (n | 2 ^ Z.log2 k)).
Proof. exact c127_infinite. Qed.
Print Assumptions C127_infinite.
(** C127: the order of multiply_scalar(P, k), k >= 1, is n / gcd(n, k) for the order n of P, and 1 in the exceptional case. *)
Theorem C127_multiple : forall a b p E P f n k Q, elliptic a b p -> curve_of a b p E -> is_on_curve E P = Ok true -> point_order f E P = Ok n ->
  1 <= k -> multiply_scalar E P k = Ok Q ->
  exists m, (exists f', point_order f' E Q = Ok m) /\ (forall f' m', point_order f' E Q = Ok m' -> m' = m) /\
    ((n | 2 ^ Z.log2 k) -> m = 1) /\ (~ (n | 2 ^ Z.log2 k) -> m = n / Z.gcd n k).
Proof. exact c127_multiple. Qed.
Print Assumptions C127_multiple.
(** C127: two multiples of a point of odd order n are the same point exactly when the scalars agree modulo n. *)
Theorem C127_equal : forall a b p E P f n k l R S, elliptic a b p -> curve_of a b p E -> is_on_curve E P = Ok true -> point_order f E P = Ok n -> Z.odd n = true ->
  0 <= k -> 0 <= l -> multiply_scalar E P k = Ok R -> multiply_scalar E P l = Ok S -> (affine p R = affine p S <-> (n | k - l)).
Proof. exact c127_equal. Qed.
Print Assumptions C127_equal.
(** C127: the sum of points of coprime orders m and n has order m n (unless the second argument is the point at infinity, C56). *)
Theorem C127_sum : forall a b p E P Q R f g m n, elliptic a b p -> curve_of a b p E -> is_on_curve E P = Ok true -> is_on_curve E Q = Ok true ->
  is_infinity P = true \/ is_infinity Q = false -> point_order f E P = Ok m -> point_order g E Q = Ok n -> rel_prime m n -> plus E P Q = Ok R ->
  (exists h, point_order h E R = Ok (m * n)) /\ forall h k, point_order h E R = Ok k -> k = m * n.
Proof. exact c127_sum. Qed.
Print Assumptions C127_sum.
(** C127: a point and its negative have the same order. *)
Theorem C127_negate : forall a b p E P N f n, elliptic a b p -> curve_of a b p E -> is_on_curve E P = Ok true -> point_order f E P = Ok n -> negate E P = Ok N ->
  (exists h, point_order h E N = Ok n) /\ forall h k, point_order h E N = Ok k -> k = n.
Proof. exact c127_negate. Qed.
Print Assumptions C127_negate.
Example C127_case : let E := new_raw 1 1 5 in let P := mkPt 0 1 1 in let E2 := new_raw 0 1 5 in
  elliptic 1 1 5 /\ elliptic 0 1 5 /\ is_on_curve E P = Ok true /\ point_order 20 E P = Ok 9 /\ multiply_scalar E P 6 = Ok (mkPt 2 4 1) /\ point_order 20 E (mkPt 2 4 1) = Ok 3 /\
  multiply_scalar E2 (mkPt 2 3 1) 3 = Ok (mkPt 4 0 1) /\ point_order 20 E2 (mkPt 2 3 1) = Ok 6 /\
  plus E2 (mkPt 4 0 1) (mkPt 0 1 1) = Ok (mkPt 2 2 1) /\ point_order 20 E2 (mkPt 4 0 1) = Ok 2 /\ point_order 20 E2 (mkPt 0 1 1) = Ok 3 /\ point_order 20 E2 (mkPt 2 2 1) = Ok 6.
Proof. exact c127_case. Qed.
