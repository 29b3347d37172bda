(** C51-C66, C76: elliptic curves. *)
From Coq Require Import Znumtheory ZifyBool.
From Verif Require Import Prelude M_Bigint M_Variable M_Term M_Poly M_Curve Spec SpecCurve P_Bigint P_Variable P_Subst P_Group P_Fp P_Curve P_Curve2 P_Curve3 P_Curve4.
From Verif Require Import P_CurveProps.
Open Scope Z_scope.

(** C51: for p <> 0 (also negative, composite), is_on_curve always answers, true exactly for z = 0 or the curve equation modulo p. *)
Theorem C51_decides : forall a b p E P, p <> 0 -> curve_of a b p E ->
  exists c, is_on_curve E P = Ok c /\ (c = true <-> pz P = 0 \/ curve_eqn a b p (px P) (py P)).
Proof. exact c51_decides. Qed.
Print Assumptions C51_decides.
(** C51: only the residues modulo p matter (and whether z is 0). *)
Theorem C51_residues : forall a b p E x y z k l, 0 < p -> curve_of a b p E ->
  is_on_curve E (mkPt (x + k * p) (y + l * p) z) = is_on_curve E (mkPt x y z).
Proof. exact c51_residues. Qed.
Print Assumptions C51_residues.
(** C51: over the modulus 0 every finite point is rejected by a panic. *)
Theorem C51_zero_modulus : forall a b P, pz P <> 0 -> is_on_curve (new_raw a b 0) P = Panic.
Proof. exact c51_zero_modulus. Qed.
Print Assumptions C51_zero_modulus.
Example C51_case : is_on_curve (new_raw 1 1 5) (mkPt (-5) 6 3) = Ok true /\ is_on_curve (new_raw 1 1 5) (mkPt 1 0 1) = Ok false.
Proof. exact c51_case. Qed.
(** C52: plus panics exactly when an argument is off the curve (p > 0 prime). *)
Theorem C52_panics : forall a b p E P Q, prime p -> p <> 2 -> curve_of a b p E ->
  (plus E P Q = Panic <-> is_on_curve E P = Ok false \/ is_on_curve E Q = Ok false).
Proof. exact c52_panics. Qed.
Print Assumptions C52_panics.
(** C52: on points of the curve plus returns a point of the curve. *)
Theorem C52_closed : forall a b p E P Q, prime p -> p <> 2 -> curve_of a b p E ->
  is_on_curve E P = Ok true -> is_on_curve E Q = Ok true -> exists R, plus E P Q = Ok R /\ is_on_curve E R = Ok true.
Proof. exact c52_closed. Qed.
Print Assumptions C52_closed.
(** C52: and for finite arguments the result is the chord-and-tangent sum, either (0,1,0) or (x,y,1) with residues in [0,p). *)
Theorem C52_chord_tangent : forall a b p E P Q, prime p -> p <> 2 -> curve_of a b p E -> pz P <> 0 -> pz Q <> 0 ->
  is_on_curve E P = Ok true -> is_on_curve E Q = Ok true ->
  exists R, plus E P Q = Ok R /\ ec_sum a p (affine p P) (affine p Q) (affine p R) /\
    (R = infinity \/ (pz R = 1 /\ 0 <= px R < p /\ 0 <= py R < p)).
Proof. exact c52_chord_tangent. Qed.
Print Assumptions C52_chord_tangent.
Example C52_case : curve_of 1 1 5 (new_raw 1 1 5) /\ is_on_curve (new_raw 1 1 5) (mkPt 0 1 1) = Ok true /\
  plus (new_raw 1 1 5) (mkPt 0 1 1) (mkPt 0 1 1) = Ok (mkPt 4 2 1) /\ plus (new_raw 1 1 5) (mkPt 0 1 1) (mkPt 4 2 1) = Ok (mkPt 2 1 1).
Proof. exact c52_case. Qed.
(** C53: for every prime p (2 included) and all finite points, on the curve or not, the order of the arguments is irrelevant. *)
Theorem C53_commutative : forall a b p E P Q, prime p -> curve_of a b p E -> pz P <> 0 -> pz Q <> 0 -> plus E P Q = plus E Q P.
Proof. exact c53_commutative. Qed.
Print Assumptions C53_commutative.
Example C53_case : plus (new_raw 1 1 5) (mkPt 0 1 1) (mkPt 4 2 1) = Ok (mkPt 2 1 1) /\ plus (new_raw 1 1 5) (mkPt 4 2 1) (mkPt 0 1 1) = Ok (mkPt 2 1 1).
Proof. exact c53_case. Qed.
(** C54: negate keeps the curve (for every p > 0), negates the affine point, and applied twice gives the point back. *)
Theorem C54_negate : forall a b p E P, 0 < p -> curve_of a b p E -> is_on_curve E P = Ok true ->
  exists R, negate E P = Ok R /\ is_on_curve E R = Ok true /\ affine p R = ec_neg p (affine p P) /\
  exists S, negate E R = Ok S /\ affine p S = affine p P.
Proof. exact c54_negate. Qed.
Print Assumptions C54_negate.
(** C54: P + (-P) is infinity; and for finite points on the curve nothing but -P does that. *)
Theorem C54_inverse : forall a b p E P, prime p -> p <> 2 -> curve_of a b p E -> is_on_curve E P = Ok true ->
  exists N R, negate E P = Ok N /\ plus E P N = Ok R /\ is_infinity R = true.
Proof. exact c54_inverse. Qed.
Print Assumptions C54_inverse.
Theorem C54_only_inverse : forall a b p E P Q R, prime p -> p <> 2 -> curve_of a b p E -> pz P <> 0 -> pz Q <> 0 ->
  plus E P Q = Ok R -> is_infinity R = true -> affine p Q = ec_neg p (affine p P).
Proof. exact c54_only_inverse. Qed.
Print Assumptions C54_only_inverse.
Example C54_case : negate (new_raw 1 1 5) (mkPt 4 2 1) = Ok (mkPt 4 3 1) /\ plus (new_raw 1 1 5) (mkPt 4 2 1) (mkPt 4 3 1) = Ok infinity.
Proof. exact c54_case. Qed.
(** C55: any representation of infinity on the left returns the right argument unchanged (p > 0, also composite). *)
Theorem C55_left_identity : forall a b p E O Q, 0 < p -> curve_of a b p E -> is_infinity O = true -> is_on_curve E Q = Ok true ->
  plus E O Q = Ok Q.
Proof. exact c55_left_identity. Qed.
Print Assumptions C55_left_identity.
Example C55_case : plus (new_raw 1 1 5) (mkPt 7 9 0) (mkPt (-1) 2 1) = Ok (mkPt (-1) 2 1).
Proof. exact c55_case. Qed.
(** C56 is false: infinity on the right turns a finite point into infinity. *)
Theorem C56_right_identity_refuted : exists a b p E P, elliptic a b p /\ curve_of a b p E /\ is_on_curve E P = Ok true /\ is_infinity P = false /\
  exists R, plus E P infinity = Ok R /\ is_infinity R = true /\ affine p R <> affine p P.
Proof. exact c56_right_identity_refuted. Qed.
Print Assumptions C56_right_identity_refuted.
(** C56, what holds: for every finite point of every curve the answer is (P.x, O.y, 0), a representation of infinity, never P; infinity + infinity is infinity. *)
Theorem C56_right_identity_partial : forall a b p E P O, 0 < p -> curve_of a b p E -> is_on_curve E P = Ok true -> is_infinity O = true ->
  plus E P O = Ok (if is_infinity P then O else mkPt (px P) (py O) 0).
Proof. exact c56_right_identity_partial. Qed.
Print Assumptions C56_right_identity_partial.
Example C56_case : is_on_curve (new_raw 1 1 5) (mkPt 2 4 1) = Ok true /\ plus (new_raw 1 1 5) (mkPt 2 4 1) infinity = Ok (mkPt 2 1 0).
Proof. exact c56_case. Qed.
(** C57: associativity wherever no addition has a finite left and an infinite right argument. *)
Theorem C57_associative : forall a b p E P Q R PQ QR, elliptic a b p -> curve_of a b p E ->
  is_on_curve E P = Ok true -> is_on_curve E Q = Ok true -> is_on_curve E R = Ok true ->
  plus E P Q = Ok PQ -> plus E Q R = Ok QR ->
  pz P = 0 \/ pz Q <> 0 -> pz Q = 0 \/ pz R <> 0 -> pz PQ = 0 \/ pz R <> 0 -> pz P = 0 \/ pz QR <> 0 ->
  exists U V, plus E PQ R = Ok U /\ plus E P QR = Ok V /\ affine p U = affine p V.
Proof. exact c57_associative. Qed.
Print Assumptions C57_associative.
(** C57: in particular for finite P, Q, R with Q + R finite, whatever P + Q is. *)
Theorem C57_finite : forall a b p E P Q R QR, elliptic a b p -> curve_of a b p E ->
  is_on_curve E P = Ok true -> is_on_curve E Q = Ok true -> is_on_curve E R = Ok true ->
  is_infinity P = false -> is_infinity Q = false -> is_infinity R = false -> plus E Q R = Ok QR -> is_infinity QR = false ->
  exists PQ U V, plus E P Q = Ok PQ /\ plus E PQ R = Ok U /\ plus E P QR = Ok V /\ affine p U = affine p V.
Proof. exact c57_finite. Qed.
Print Assumptions C57_finite.
Example C57_case : let E := new_raw 1 1 5 in let P := mkPt 0 1 1 in let Q := mkPt 4 2 1 in let R := mkPt 2 1 1 in
  plus E P Q = Ok (mkPt 2 1 1) /\ plus E Q R = Ok (mkPt 3 1 1) /\ plus E (mkPt 2 1 1) R = Ok (mkPt 2 4 1) /\ plus E P (mkPt 3 1 1) = Ok (mkPt 2 4 1).
Proof. exact c57_case. Qed.
(** C58: for n >= 1 with 2^(log2 n) P finite, and for n = 0, multiply_scalar(P, n) is the n-fold sum. *)
Theorem C58_iterated_addition : forall a b p E P n, elliptic a b p -> curve_of a b p E -> is_on_curve E P = Ok true -> 0 <= n ->
  (1 <= n -> ~ ec_mult a p (affine p P) (Z.to_nat (2 ^ Z.log2 n)) None) ->
  exists R, multiply_scalar E P n = Ok R /\ is_on_curve E R = Ok true /\ ec_mult a p (affine p P) (Z.to_nat n) (affine p R).
Proof. exact c58_iterated_addition. Qed.
Print Assumptions C58_iterated_addition.
(** C58: for points of odd order there is no exception. *)
Theorem C58_odd_order : forall a b p E P m n, elliptic a b p -> curve_of a b p E -> is_on_curve E P = Ok true -> 0 <= n ->
  ec_order a p (affine p P) m -> Z.odd m = true ->
  exists R, multiply_scalar E P n = Ok R /\ ec_mult a p (affine p P) (Z.to_nat n) (affine p R).
Proof. exact c58_odd_order. Qed.
Print Assumptions C58_odd_order.
(** C58, C59: the points of order 9 of a curve with 9 points. *)
Example C58_case : multiply_scalar (new_raw 1 1 5) (mkPt 0 1 1) 7 = Ok (mkPt 4 3 1) /\ multiply_scalar (new_raw 1 1 5) (mkPt 0 1 1) 8 = Ok (mkPt 0 4 1).
Proof. exact c58_case. Qed.
(** C59 is false: 3P for a point P of order 2 is P, multiply_scalar answers infinity. *)
Theorem C59_all_points_refuted : exists a b p E P, elliptic a b p /\ curve_of a b p E /\ is_on_curve E P = Ok true /\
  ec_mult a p (affine p P) 3 (affine p P) /\ is_infinity P = false /\ exists R, multiply_scalar E P 3 = Ok R /\ is_infinity R = true.
Proof. exact c59_all_points_refuted. Qed.
Print Assumptions C59_all_points_refuted.
(** C59, what holds, for every point and every n >= 1: multiply_scalar returns a point on the curve; it is nP if
    2^(log2 n) P is finite, and infinity otherwise. *)
Theorem C59_all_points_partial : forall a b p E P n, elliptic a b p -> curve_of a b p E -> is_on_curve E P = Ok true -> 1 <= n ->
  exists R, multiply_scalar E P n = Ok R /\ is_on_curve E R = Ok true /\
    (~ ec_mult a p (affine p P) (Z.to_nat (2 ^ Z.log2 n)) None -> ec_mult a p (affine p P) (Z.to_nat n) (affine p R)) /\
    (ec_mult a p (affine p P) (Z.to_nat (2 ^ Z.log2 n)) None -> is_infinity R = true).
Proof. exact c59_all_points_partial. Qed.
Print Assumptions C59_all_points_partial.
(** C59: nP = O is always recognised as infinity. *)
Theorem C59_zero_multiple : forall a b p E P n, elliptic a b p -> curve_of a b p E -> is_on_curve E P = Ok true -> 0 <= n ->
  ec_mult a p (affine p P) (Z.to_nat n) None -> exists R, multiply_scalar E P n = Ok R /\ is_infinity R = true.
Proof. exact c59_zero_multiple. Qed.
Print Assumptions C59_zero_multiple.
Example C59_case : multiply_scalar (new_raw 0 1 5) (mkPt 4 0 1) 3 = Ok (mkPt 4 1 0) /\ multiply_scalar (new_raw 0 1 5) (mkPt 4 0 1) 4 = Ok infinity.
Proof. exact c59_case. Qed.
(** C60 is false: (-1)P is P. *)
Theorem C60_negative_refuted : exists a b p E P R N, elliptic a b p /\ curve_of a b p E /\ is_on_curve E P = Ok true /\
  multiply_scalar E P (-1) = Ok R /\ multiply_scalar E P 1 = Ok P /\ negate E P = Ok N /\ affine p R <> affine p N.
Proof. exact c60_negative_refuted. Qed.
Print Assumptions C60_negative_refuted.
(** C60, what holds: the sign of the scalar is ignored, for every point and n. *)
Theorem C60_negative_partial : forall a b p E P n, elliptic a b p -> curve_of a b p E -> is_on_curve E P = Ok true ->
  multiply_scalar E P (- n) = multiply_scalar E P n.
Proof. exact c60_negative_partial. Qed.
Print Assumptions C60_negative_partial.
Example C60_case : multiply_scalar (new_raw 1 1 5) (mkPt 0 1 1) (-7) = Ok (mkPt 4 3 1).
Proof. exact c60_case. Qed.
(** C61: new returns for every prime below 2^64 and panics otherwise; points() lists (0,1,0) and the solutions (x, y, 1), once each. *)
Theorem C61_new_returns : forall a b p, (prime p /\ p < 2 ^ 64 <-> exists E, ec_new a b p = Ok E) /\ (~ (prime p /\ p < 2 ^ 64) <-> ec_new a b p = Panic).
Proof. exact c61_new_returns. Qed.
Print Assumptions C61_new_returns.
Theorem C61_points : forall a b p E, ec_new a b p = Ok E -> NoDup (ec_points E) /\
  forall P, In P (ec_points E) <-> P = infinity \/ (pz P = 1 /\ 0 <= px P < p /\ 0 <= py P < p /\ curve_eqn a b p (px P) (py P)).
Proof. exact c61_points. Qed.
Print Assumptions C61_points.
(** C61: cardinality() is one more than the number of solutions, whatever duplicate-free list enumerates them, and at most 2p+1. *)
Theorem C61_cardinality : forall a b p E (L : list (Z * Z)), ec_new a b p = Ok E -> NoDup L ->
  (forall x y, In (x, y) L <-> 0 <= x < p /\ 0 <= y < p /\ curve_eqn a b p x y) ->
  cardinality E = Z.of_nat (length L) + 1 /\ cardinality E <= 2 * p + 1.
Proof. exact c61_cardinality. Qed.
Print Assumptions C61_cardinality.
Example C61_case : exists E, ec_new 1 1 5 = Ok E /\ ec_points E = [mkPt 0 1 1; mkPt 0 4 1; mkPt 2 1 1; mkPt 2 4 1; mkPt 3 1 1; mkPt 3 4 1; mkPt 4 2 1; mkPt 4 3 1; infinity] /\ cardinality E = 9.
Proof. exact c61_case. Qed.
(** C62: point_order terminates on every point of the curve and returns its order. *)
Theorem C62_point_order : forall a b p E P, elliptic a b p -> curve_of a b p E -> is_on_curve E P = Ok true ->
  exists n, ec_order a p (affine p P) n /\ (exists fuel, point_order fuel E P = Ok n) /\ forall fuel m, point_order fuel E P = Ok m -> m = n.
Proof. exact c62_point_order. Qed.
Print Assumptions C62_point_order.
Example C62_case : point_order 9 (new_raw 1 1 5) (mkPt 0 1 1) = Ok 9 /\ point_order 9 (new_raw 1 1 5) (mkPt 2 1 1) = Ok 3.
Proof. exact c62_case. Qed.
Theorem C63_lagrange : forall a b p E P, elliptic a b p -> ec_new a b p = Ok E -> is_on_curve E P = Ok true ->
  (exists n fuel, point_order fuel E P = Ok n /\ (n | cardinality E)) /\
  (forall n fuel, point_order fuel E P = Ok n -> (n | cardinality E)) /\
  exists R, multiply_scalar E P (cardinality E) = Ok R /\ is_infinity R = true.
Proof. exact c63_lagrange. Qed.
Print Assumptions C63_lagrange.
Example C63_case : exists E, ec_new 1 1 5 = Ok E /\ cardinality E = 9 /\ point_order 9 E (mkPt 2 1 1) = Ok 3 /\ multiply_scalar E (mkPt 0 1 1) 9 = Ok infinity.
Proof. exact c63_case. Qed.
(** C64 is false: (0,0) is not 3-torsion but is listed. *)
Theorem C64_torsion_refuted : exists a b p E L P, elliptic a b p /\ ec_new a b p = Ok E /\ division_points E 3 = Ok L /\ In P L /\
  ~ ec_mult a p (affine p P) 3 None.
Proof. exact c64_torsion_refuted. Qed.
Print Assumptions C64_torsion_refuted.
(** C64, what holds: division_points(n) always returns, lists each point at most once, lists every n-torsion point of points(), and any other
    listed point has order 2^k for some 2^k <= n not dividing n. *)
Theorem C64_torsion_partial : forall a b p E n, elliptic a b p -> ec_new a b p = Ok E -> 1 <= n ->
  exists L, division_points E n = Ok L /\ NoDup L /\ (forall P, In P L -> In P (ec_points E)) /\
    (forall P, In P (ec_points E) -> ec_mult a p (affine p P) (Z.to_nat n) None -> In P L) /\
    (forall P, In P L -> ec_mult a p (affine p P) (Z.to_nat n) None \/
       exists k, 0 < k /\ 2 ^ k <= n /\ ~ (2 ^ k | n) /\ ec_order a p (affine p P) (2 ^ k)).
Proof. exact c64_torsion_partial. Qed.
Print Assumptions C64_torsion_partial.
(** C64: so on a curve without points of order 2, and for n a power of two on every curve, the list is exactly the n-torsion. *)
Theorem C64_exact : forall a b p E n, elliptic a b p -> ec_new a b p = Ok E -> 1 <= n ->
  (forall P, In P (ec_points E) -> ~ ec_order a p (affine p P) 2) \/ (exists k, 0 <= k /\ n = 2 ^ k) ->
  exists L, division_points E n = Ok L /\ NoDup L /\ forall P, In P L <-> In P (ec_points E) /\ ec_mult a p (affine p P) (Z.to_nat n) None.
Proof. exact c64_exact. Qed.
Print Assumptions C64_exact.
Example C64_case : exists E, ec_new 1 1 5 = Ok E /\ division_points E 3 = Ok [mkPt 2 1 1; mkPt 2 4 1; infinity].
Proof. exact c64_case. Qed.
(** C65 is false: the curve y^2 = x^3 + x + 1 over GF(5) has 9 points and a cyclic 3-torsion of 3 points; isogeny(3) has 6 points. *)
Theorem C65_isogeny_refuted : exists a b p E L E', elliptic a b p /\ ec_new a b p = Ok E /\ division_points E 3 = Ok L /\ length L = 3%nat /\
  (forall P, In P L -> exists R, multiply_scalar E P 3 = Ok R /\ is_infinity R = true) /\
  isogeny E 3 = Ok E' /\ cardinality E' <> cardinality E.
Proof. exact c65_isogeny_refuted. Qed.
Print Assumptions C65_isogeny_refuted.
(** C65, what holds: isogeny(l) returns, for every l, a completely enumerated curve over the same field. *)
Theorem C65_isogeny_partial : forall a b p E l, elliptic a b p -> ec_new a b p = Ok E ->
  exists a' b' E', isogeny E l = Ok E' /\ ec_new a' b' p = Ok E'.
Proof. exact c65_isogeny_partial. Qed.
Print Assumptions C65_isogeny_partial.
(** C65: even a trivial kernel (l = 1, or no l-torsion) gives the singular curve y^2 = x^3 instead of the curve itself (0 <= a, b < p). *)
Theorem C65_trivial_kernel : forall a b p E l, elliptic a b p -> 0 <= a < p -> 0 <= b < p -> ec_new a b p = Ok E ->
  division_points E l = Ok [infinity] -> isogeny E l = ec_new 0 0 p.
Proof. exact c65_trivial_kernel. Qed.
Print Assumptions C65_trivial_kernel.
Example C65_case : exists E, ec_new 1 1 5 = Ok E /\ division_points E 1 = Ok [infinity] /\ isogeny E 1 = ec_new 0 0 5.
Proof. exact c65_case. Qed.
(** C66: the value, and its invariance under (a, b) -> (a u^4, b u^6). *)
Theorem C66_j_value : forall a b p E, prime p -> nonsingular a b p -> curve_of a b p E ->
  exists j, ec_j_invariant E = Ok j /\ 0 <= j < p /\ (p | j * (4 * a ^ 3 + 27 * b ^ 2) - 1728 * (4 * a ^ 3)).
Proof. exact c66_j_value. Qed.
Print Assumptions C66_j_value.
Theorem C66_isomorphism : forall a b p u E E', prime p -> nonsingular a b p -> ~ (p | u) -> curve_of a b p E -> curve_of (a * u ^ 4) (b * u ^ 6) p E' ->
  nonsingular (a * u ^ 4) (b * u ^ 6) p /\ ec_j_invariant E' = ec_j_invariant E.
Proof. exact c66_isomorphism. Qed.
Print Assumptions C66_isomorphism.
Example C66_case : ec_j_invariant (new_raw 1 1 5) = Ok 2 /\ ec_j_invariant (new_raw (1 * 2 ^ 4) (1 * 2 ^ 6) 5) = Ok 2.
Proof. exact c66_case. Qed.
(** C76 is false: over GF(2) doubling a point with odd y leaves the curve (or misses infinity). *)
Theorem C76_characteristic_two_refuted : exists a b E P R, curve_of a b 2 E /\ is_on_curve E P = Ok true /\ plus E P P = Ok R /\ is_on_curve E R = Ok false.
Proof. exact c76_characteristic_two_refuted. Qed.
Print Assumptions C76_characteristic_two_refuted.
(** C76, what holds over GF(2): every other sum (different points, an even y, or an infinite argument) stays on the curve. *)
Theorem C76_characteristic_two_partial : forall a b E P Q, curve_of a b 2 E -> is_on_curve E P = Ok true -> is_on_curve E Q = Ok true ->
  affine 2 P <> affine 2 Q \/ is_infinity P = true \/ Z.even (py P) = true -> exists R, plus E P Q = Ok R /\ is_on_curve E R = Ok true.
Proof. exact c76_characteristic_two_partial. Qed.
Print Assumptions C76_characteristic_two_partial.
Example C76_case : is_on_curve (new_raw 1 1 2) (mkPt 0 1 1) = Ok true /\ plus (new_raw 1 1 2) (mkPt 0 1 1) (mkPt 1 1 1) = Ok (mkPt 1 1 1).
Proof. exact c76_case. Qed.
