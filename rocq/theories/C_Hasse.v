(** Properties C86-C88: Hasse's bound and the parity of the number of points *)
From Coq Require Import Znumtheory ZifyBool.
From Verif Require Import Prelude M_Bigint M_Curve Spec SpecCurve P_Bigint P_Curve2 P_CurveProps P_SeaProps P_HasseZ.
From Verif Require Import P_HasseProps.
Open Scope Z_scope.

(** C86: the number of points differs from p + 1 by at most 2 sqrt p. *)
Theorem C86_hasse : forall a b p E, elliptic a b p -> ec_new a b p = Ok E -> (p + 1 - cardinality E) ^ 2 <= 4 * p.
Proof. exact c86_hasse. Qed.
Print Assumptions C86_hasse.
(** C86: the same, as an interval for cardinality(). *)
Theorem C86_interval : forall a b p E, elliptic a b p -> ec_new a b p = Ok E ->
  p + 1 - Z.sqrt (4 * p) <= cardinality E <= p + 1 + Z.sqrt (4 * p).
Proof. exact c86_interval. Qed.
Print Assumptions C86_interval.
(** C86: for p >= 5 there is always a point other than the one at infinity. *)
Theorem C86_finite_point : forall a b p E, elliptic a b p -> 5 <= p -> ec_new a b p = Ok E ->
  exists P, In P (ec_points E) /\ is_infinity P = false.
Proof. exact c86_finite_point. Qed.
Print Assumptions C86_finite_point.
Example C86_case : elliptic 1 1 5 /\ exists E, ec_new 1 1 5 = Ok E /\ cardinality E = 9 /\ (5 + 1 - cardinality E) ^ 2 = 9.
Proof. exact c86_case. Qed.
(** C87: counting points from residues of the trace (the last step of Schoof's algorithm): given the right residues modulo pairwise
    coprime l whose product exceeds 4 sqrt p, chinese_remainder returns a class that contains exactly one candidate within
    Hasse's bound, and it gives cardinality(). *)
Theorem C87_residues : forall a b p E v, elliptic a b p -> ec_new a b p = Ok E ->
  Forall (fun m => 0 < mr_l m) v -> ForallOrdPairs (fun m m' => rel_prime (mr_l m) (mr_l m')) v ->
  (forall m, In m v -> (mr_l m | (p + 1 - cardinality E) - mr_r m)) -> 16 * p < fold_right Z.mul 1 (map mr_l v) ^ 2 ->
  exists M r, chinese_remainder v = Ok (mkMod M r) /\
    (exists t, t ^ 2 <= 4 * p /\ (M | t - r)) /\
    forall t, t ^ 2 <= 4 * p -> (M | t - r) -> cardinality E = p + 1 - t.
Proof. exact c87_residues. Qed.
Print Assumptions C87_residues.
(** C87: a single point of large order determines cardinality(): it is the only multiple of the order within Hasse's bound. *)
Theorem C87_large_order : forall a b p E P n fuel, elliptic a b p -> ec_new a b p = Ok E -> is_on_curve E P = Ok true ->
  point_order fuel E P = Ok n -> 16 * p < n ^ 2 ->
  forall N, (n | N) -> (p + 1 - N) ^ 2 <= 4 * p -> N = cardinality E.
Proof. exact c87_large_order. Qed.
Print Assumptions C87_large_order.
(** C87: every order point_order returns lies within the upper end of Hasse's bound. *)
Theorem C87_order_bound : forall a b p E P n fuel, elliptic a b p -> ec_new a b p = Ok E -> is_on_curve E P = Ok true ->
  point_order fuel E P = Ok n -> 1 <= n <= p + 1 + Z.sqrt (4 * p).
Proof. exact c87_order_bound. Qed.
Print Assumptions C87_order_bound.
Example C87_case : let v := [mkMod 2 1; mkMod 5 2] in
  (exists E, ec_new 1 1 5 = Ok E /\ forall m, In m v -> (mr_l m | (5 + 1 - cardinality E) - mr_r m)) /\
  16 * 5 < fold_right Z.mul 1 (map mr_l v) ^ 2 /\ chinese_remainder v = Ok (mkMod 10 (-3)) /\ (-3) ^ 2 <= 4 * 5.
Proof. exact c87_case. Qed.
(** C88: on an elliptic curve cardinality() is even exactly when x^3 + a x + b has a root modulo p. *)
Theorem C88_parity : forall a b p E, elliptic a b p -> ec_new a b p = Ok E ->
  ((2 | cardinality E) <-> exists x, (p | x ^ 3 + a * x + b)).
Proof. exact c88_parity. Qed.
Print Assumptions C88_parity.
Example C88_case : exists E, ec_new 1 1 5 = Ok E /\ cardinality E = 9 /\ (forall x, ~ (5 | x ^ 3 + 1 * x + 1)).
Proof. exact c88_case. Qed.
