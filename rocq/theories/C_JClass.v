(** C126: which j-invariants occur, and what they say about the curve *)
From Coq Require Import Znumtheory ZifyBool.
From Verif Require Import Prelude M_Bigint M_Curve Spec SpecCurve SpecTwist P_Bigint P_Variable P_Curve P_Curve2 P_Curve3 P_Curve4 P_CurveProps P_Euler P_TwistProps.
From Verif Require Import P_JClassProps.
Open Scope Z_scope.

(** C126: for every prime p > 3 every residue is the j_invariant() of a curve over GF(p). *)
Theorem C126_surjective : forall p j, prime p -> 3 < p -> 0 <= j < p -> exists a b, elliptic a b p /\ forall E, curve_of a b p E -> ec_j_invariant E = Ok j.
Proof. exact c126_surjective. Qed.
Print Assumptions C126_surjective.
(** C126: j_invariant() is 0 exactly when a = 0 modulo p, ... *)
Theorem C126_zero : forall a b p E, elliptic a b p -> 3 < p -> curve_of a b p E -> (ec_j_invariant E = Ok 0 <-> (p | a)).
Proof. exact c126_zero. Qed.
Print Assumptions C126_zero.
(** C126: ... and 1728 modulo p exactly when b = 0 modulo p. *)
Theorem C126_1728 : forall a b p E, elliptic a b p -> 3 < p -> curve_of a b p E -> (ec_j_invariant E = Ok (1728 mod p) <-> (p | b)).
Proof. exact c126_1728. Qed.
Print Assumptions C126_1728.
(** C126: over GF(3) every curve has j_invariant() 0. *)
Theorem C126_three : forall a b E, elliptic a b 3 -> curve_of a b 3 E -> ec_j_invariant E = Ok 0.
Proof. exact c126_three. Qed.
Print Assumptions C126_three.
(** C126: for p > 3, two curves with a, b, a', b' not divisible by p (that is, j_invariant() other than 0 and 1728) have the same j_invariant()
    exactly when one is the image of the other under a change of variables (x, y) -> (u^2 x, u^3 y) or a quadratic twist of it. *)
Theorem C126_classification : forall a b a' b' p E E', elliptic a b p -> elliptic a' b' p -> 3 < p -> curve_of a b p E -> curve_of a' b' p E' ->
  ~ (p | a) -> ~ (p | b) -> ~ (p | a') -> ~ (p | b') ->
  (ec_j_invariant E' = ec_j_invariant E <-> (exists u, iso_curves p u a b a' b') \/ (exists d, twisted p d a b a' b')).
Proof. exact c126_classification. Qed.
Print Assumptions C126_classification.
Example C126_case : elliptic 3 1 7 /\ ec_j_invariant (new_raw 3 1 7) = Ok 2 /\ twisted 7 3 3 1 6 6 /\ ec_j_invariant (new_raw 6 6 7) = Ok 2 /\ iso_curves 7 2 3 1 6 1 /\ ec_j_invariant (new_raw 6 1 7) = Ok 2 /\
  ec_j_invariant (new_raw 0 1 7) = Ok 0 /\ ec_j_invariant (new_raw 1 0 7) = Ok (1728 mod 7).
Proof. exact c126_case. Qed.
