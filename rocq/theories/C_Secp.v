(** C67: secp256k1. *)
From Coq Require Import Znumtheory ZifyBool.
From Verif Require Import Prelude M_Bigint M_Variable M_Term M_Poly M_Curve Spec SpecCurve P_Bigint P_Curve P_Curve2 P_Curve3 P_Prime.
From Verif Require Import P_SecpProps.
Open Scope Z_scope.

(** C67: Secp256k1::new() returns the curve y^2 = x^3 + 7 over the prime field p = 2^256 - 2^32 - 977, which is an elliptic curve, with the standard
    base point of SEC 2, which is on the curve. *)
Theorem C67_parameters : exists E g, secp256k1_new = Ok (E, g) /\ E = new_raw 0 7 (2 ^ 256 - 2 ^ 32 - 977) /\ elliptic 0 7 (2 ^ 256 - 2 ^ 32 - 977) /\
  g = mkPt 0x79BE667EF9DCBBAC55A06295CE870B07029BFCDB2DCE28D959F2815B16F81798 0x483ADA7726A3C4655DA4FBFC0E1108A8FD17B448A68554199C47D08FFB10D4B8 1 /\
  is_on_curve E g = Ok true.
Proof. exact c67_parameters. Qed.
Print Assumptions C67_parameters.
(** C67: multiply_scalar is the n-fold sum for every point of this curve and every n >= 0, without exception. *)
Theorem C67_multiply : forall E g P n, secp256k1_new = Ok (E, g) -> is_on_curve E P = Ok true -> 0 <= n ->
  exists R, multiply_scalar E P n = Ok R /\ is_on_curve E R = Ok true /\ ec_mult 0 (2 ^ 256 - 2 ^ 32 - 977) (affine (2 ^ 256 - 2 ^ 32 - 977) P) (Z.to_nat n) (affine (2 ^ 256 - 2 ^ 32 - 977) R).
Proof. exact c67_multiply. Qed.
Print Assumptions C67_multiply.
(** C67: scalars add: nP + mP = (n+m)P whenever mP is finite (or nP infinite), and mixed products commute: n(mP) = m(nP). *)
Theorem C67_homomorphism : forall E g P n m A B, secp256k1_new = Ok (E, g) -> is_on_curve E P = Ok true -> 0 <= n -> 0 <= m ->
  multiply_scalar E P n = Ok A -> multiply_scalar E P m = Ok B -> is_infinity A = true \/ is_infinity B = false ->
  exists C D, plus E A B = Ok C /\ multiply_scalar E P (n + m) = Ok D /\ affine (2 ^ 256 - 2 ^ 32 - 977) C = affine (2 ^ 256 - 2 ^ 32 - 977) D.
Proof. exact c67_homomorphism. Qed.
Print Assumptions C67_homomorphism.
(** C67: Diffie-Hellman: multiplying by n and then by m, or by m and then by n, gives the same point, that of the product n m. *)
Theorem C67_diffie_hellman : forall E g P n m A B, secp256k1_new = Ok (E, g) -> is_on_curve E P = Ok true -> 0 <= n -> 0 <= m ->
  multiply_scalar E P n = Ok A -> multiply_scalar E P m = Ok B ->
  exists U V W, multiply_scalar E A m = Ok U /\ multiply_scalar E B n = Ok V /\ multiply_scalar E P (n * m) = Ok W /\
    affine (2 ^ 256 - 2 ^ 32 - 977) U = affine (2 ^ 256 - 2 ^ 32 - 977) V /\ affine (2 ^ 256 - 2 ^ 32 - 977) U = affine (2 ^ 256 - 2 ^ 32 - 977) W.
Proof. exact c67_diffie_hellman. Qed.
Print Assumptions C67_diffie_hellman.
(** C67: a concrete point: 1 g = g. *)
Example C67_case : exists E g, secp256k1_new = Ok (E, g) /\ multiply_scalar E g 1 = Ok g /\ is_infinity g = false.
Proof. exact c67_case. Qed.
