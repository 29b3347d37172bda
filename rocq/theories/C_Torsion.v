(** C100-C101: torsion points, group structure *)
From Coq Require Import Znumtheory ZifyBool.
From Verif Require Import Prelude M_Bigint M_Variable M_Term M_Poly M_DivPoly M_Curve Spec SpecCurve P_Bigint P_Variable P_Group P_Fp P_Curve P_Curve2 P_Curve3 P_Curve4 P_CurveProps P_HasseProps P_AbGroup P_Torsion.
From Verif Require Import P_TorsionProps.
Open Scope Z_scope.

(** C100: at most n^2 of the listed points are n-torsion, for n up to 65534 prime to p. *)
Theorem C100_bound : forall a b p E n L, elliptic a b p -> ec_new a b p = Ok E -> 1 <= n <= 65534 -> ~ (p | n) -> NoDup L ->
  (forall P, In P L -> In P (ec_points E) /\ ec_mult a p (affine p P) (Z.to_nat n) None) -> Z.of_nat (length L) <= n ^ 2.
Proof. exact c100_bound. Qed.
Print Assumptions C100_bound.
(** C100: the number of n-torsion points divides n^2, for every n >= 1 whose prime factors are at most 65534; for every n >= 1 when p < 2^47. *)
Theorem C100_divides : forall a b p E n L, elliptic a b p -> ec_new a b p = Ok E -> 1 <= n ->
  p < 2 ^ 47 \/ (forall l, prime l -> (l | n) -> l <= 65534) -> NoDup L ->
  (forall P, In P L <-> In P (ec_points E) /\ ec_mult a p (affine p P) (Z.to_nat n) None) -> (Z.of_nat (length L) | n ^ 2).
Proof. exact c100_divides. Qed.
Print Assumptions C100_divides.
(** C100: for a prime l there are 1, l or l^2 points of l-torsion; for l = p only 1 or p. *)
Theorem C100_prime : forall a b p E l L, elliptic a b p -> ec_new a b p = Ok E -> prime l -> p < 2 ^ 47 \/ l <= 65534 \/ l = p -> NoDup L ->
  (forall P, In P L <-> In P (ec_points E) /\ ec_mult a p (affine p P) (Z.to_nat l) None) ->
  Z.of_nat (length L) = 1 \/ Z.of_nat (length L) = l \/ (Z.of_nat (length L) = l ^ 2 /\ l <> p).
Proof. exact c100_prime. Qed.
Print Assumptions C100_prime.
(** C100: so division_points(n) has at most n^2 elements where it is exact (C64), and never more than 2 n^2. *)
Theorem C100_division_points : forall a b p E n, elliptic a b p -> ec_new a b p = Ok E -> 1 <= n <= 65534 -> ~ (p | n) ->
  exists L, division_points E n = Ok L /\ Z.of_nat (length L) <= n ^ 2 + (2 ^ Z.log2 n) ^ 2 /\
  ((forall P, In P (ec_points E) -> ~ ec_order a p (affine p P) 2) \/ (exists k, 0 <= k /\ n = 2 ^ k) -> Z.of_nat (length L) <= n ^ 2 /\ (Z.of_nat (length L) | n ^ 2)).
Proof. exact c100_division_points. Qed.
Print Assumptions C100_division_points.
(** On y^2 = x^3 - x over GF(7) all four 2-torsion points are listed: the bound is reached. *)
Example C100_case : exists E, ec_new (-1) 0 7 = Ok E /\ elliptic (-1) 0 7 /\ ~ (7 | 2) /\ division_points E 2 = Ok [mkPt 0 0 1; mkPt 1 0 1; mkPt 6 0 1; infinity].
Proof. exact c100_case. Qed.
(** C101: some listed point has an order m that every order of a point of the curve divides. *)
Theorem C101_exponent : forall a b p E, elliptic a b p -> ec_new a b p = Ok E ->
  exists P m fuel, In P (ec_points E) /\ point_order fuel E P = Ok m /\
    forall Q n f, is_on_curve E Q = Ok true -> point_order f E Q = Ok n -> (n | m).
Proof. exact c101_exponent. Qed.
Print Assumptions C101_exponent.
(** C101: every prime factor of cardinality() is the order of a listed point. *)
Theorem C101_cauchy : forall a b p E l, elliptic a b p -> ec_new a b p = Ok E -> prime l -> (l | cardinality E) -> exists P fuel, In P (ec_points E) /\ point_order fuel E P = Ok l.
Proof. exact c101_cauchy. Qed.
Print Assumptions C101_cauchy.
(** C101: for p < 2^47: with m the largest order, cardinality() is m d with d dividing m. *)
Theorem C101_structure : forall a b p E, elliptic a b p -> ec_new a b p = Ok E -> p < 2 ^ 47 ->
  exists P m d fuel, In P (ec_points E) /\ point_order fuel E P = Ok m /\ cardinality E = m * d /\ (d | m) /\
    (forall Q n f, is_on_curve E Q = Ok true -> point_order f E Q = Ok n -> (n | m)).
Proof. exact c101_structure. Qed.
Print Assumptions C101_structure.
(** y^2 = x^3 - x over GF(7) has 8 = 4 * 2 points; (4, 2) has order 4. *)
Example C101_case : exists E, ec_new (-1) 0 7 = Ok E /\ cardinality E = 8 /\ point_order 9 E (mkPt 4 2 1) = Ok 4 /\ In (mkPt 4 2 1) (ec_points E) /\
  forallb (fun P => match point_order 9 E P with Ok n => 4 mod n =? 0 | _ => false end) (ec_points E) = true.
Proof. exact c101_case. Qed.
