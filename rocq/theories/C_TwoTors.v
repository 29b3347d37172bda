(** C125: points of order 2, the discriminant, and torsion as a divisor of the cardinality *)
From Coq Require Import Znumtheory Zpow_facts ZifyBool Permutation.
From Verif Require Import Prelude M_Bigint M_Variable M_Term M_Poly M_DivPoly M_Curve Spec SpecCurve P_Bigint P_Variable P_Group P_Fp P_Curve P_Curve2 P_Curve3 P_Curve4 P_CurveProps P_HasseProps P_Euler P_AbGroup P_Torsion P_TorsionProps P_TorsCount P_Cubic P_TwoTors.
From Verif Require Import P_TwoTorsProps.
Open Scope Z_scope.

(** C125: division_points(2) lists the point at infinity and one point for every root of x^3 + a x + b modulo p. *)
Theorem C125_roots : forall a b p E L R, elliptic a b p -> ec_new a b p = Ok E -> division_points E 2 = Ok L ->
  NoDup R -> (forall x, In x R <-> 0 <= x < p /\ (p | x ^ 3 + a * x + b)) -> Z.of_nat (length L) = 1 + Z.of_nat (length R).
Proof. exact c125_roots. Qed.
Print Assumptions C125_roots.
(** C125: when - (4 a^3 + 27 b^2) is a square modulo p, division_points(2) has 1 or 4 entries, otherwise exactly 2. *)
Theorem C125_discriminant : forall a b p E L, elliptic a b p -> ec_new a b p = Ok E -> division_points E 2 = Ok L ->
  ((exists s, (p | s ^ 2 + (4 * a ^ 3 + 27 * b ^ 2))) <-> length L = 1%nat \/ length L = 4%nat) /\
  ((~ exists s, (p | s ^ 2 + (4 * a ^ 3 + 27 * b ^ 2))) <-> length L = 2%nat).
Proof. exact c125_discriminant. Qed.
Print Assumptions C125_discriminant.
(** C125: so, when - (4 a^3 + 27 b^2) is not a square, cardinality() is even; when it is one, cardinality() is odd or divisible by 4. *)
Theorem C125_cardinality : forall a b p E, elliptic a b p -> ec_new a b p = Ok E ->
  ((exists s, (p | s ^ 2 + (4 * a ^ 3 + 27 * b ^ 2))) -> ~ (2 | cardinality E) \/ (4 | cardinality E)) /\
  ((~ exists s, (p | s ^ 2 + (4 * a ^ 3 + 27 * b ^ 2))) -> (2 | cardinality E)).
Proof. exact c125_cardinality. Qed.
Print Assumptions C125_cardinality.
(** C125: the number of n-torsion points divides cardinality(), for every n >= 1; ... *)
Theorem C125_torsion_divides : forall a b p E n L, elliptic a b p -> ec_new a b p = Ok E -> 1 <= n -> NoDup L ->
  (forall P, In P L <-> In P (ec_points E) /\ ec_mult a p (affine p P) (Z.to_nat n) None) -> (Z.of_nat (length L) | cardinality E).
Proof. exact c125_torsion_divides. Qed.
Print Assumptions C125_torsion_divides.
(** C125: ... so does the length of division_points(n) when cardinality() is odd or n is a power of two. *)
Theorem C125_division_points : forall a b p E n L, elliptic a b p -> ec_new a b p = Ok E -> 1 <= n ->
  ~ (2 | cardinality E) \/ (exists k, 0 <= k /\ n = 2 ^ k) -> division_points E n = Ok L -> (Z.of_nat (length L) | cardinality E).
Proof. exact c125_division_points. Qed.
Print Assumptions C125_division_points.
(** Over GF(5): y^2 = x^3 + x + 1 (discriminant 4 = 2^2, no root, 9 points), y^2 = x^3 + x (discriminant 1, three roots, 4 points) and y^2 = x^3 + 1 (discriminant 3, not a square, one root, 6 points). *)
Example C125_case : exists E1 E2 E3, ec_new 1 1 5 = Ok E1 /\ ec_new 1 0 5 = Ok E2 /\ ec_new 0 1 5 = Ok E3 /\
  (exists L, division_points E1 2 = Ok L /\ length L = 1%nat) /\ (exists L, division_points E2 2 = Ok L /\ length L = 4%nat) /\ (exists L, division_points E3 2 = Ok L /\ length L = 2%nat) /\
  cardinality E1 = 9 /\ cardinality E2 = 4 /\ cardinality E3 = 6 /\ (5 | 2 ^ 2 + (4 * 1 ^ 3 + 27 * 1 ^ 2)) /\ (5 | 1 ^ 2 + (4 * 1 ^ 3 + 27 * 0 ^ 2)) /\
  (forall s, ~ (5 | s ^ 2 + (4 * 0 ^ 3 + 27 * 1 ^ 2))) /\ elliptic 1 1 5 /\ elliptic 1 0 5 /\ elliptic 0 1 5.
Proof. exact c125_case. Qed.
