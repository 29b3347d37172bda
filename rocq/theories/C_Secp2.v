(** Property C89: the secp256k1 group *)
From Coq Require Import Znumtheory ZifyBool.
From Verif Require Import Prelude M_Bigint M_Variable M_Term M_Poly M_Curve Spec SpecCurve P_Bigint P_Curve P_Curve2 P_Curve3 P_CurveProps P_Prime P_HasseZ P_HasseProps P_SecpProps P_SecpN.
From Verif Require Import P_Secp2Props.
Open Scope Z_scope.

(** C89: the order n of SEC 2 is prime, and the curve y^2 = x^3 + 7 has exactly n points: n - 1 pairs of residues and the point at infinity. *)
Theorem C89_count : let p := 2 ^ 256 - 2 ^ 32 - 977 in let n := 0xFFFFFFFFFFFFFFFFFFFFFFFFFFFFFFFEBAAEDCE6AF48A03BBFD25E8CD0364141 in
  prime n /\ exists L, NoDup L /\ (forall x y, In (x, y) L <-> 0 <= x < p /\ 0 <= y < p /\ curve_eqn 0 7 p x y) /\ Z.of_nat (length L) + 1 = n.
Proof. exact c89_count. Qed.
Print Assumptions C89_count.
(** C89: every finite point of the curve has order n: point_order returns n, multiply_scalar by n gives infinity, and no smaller multiple does. *)
Theorem C89_order : forall E g P, let p := 2 ^ 256 - 2 ^ 32 - 977 in let n := 0xFFFFFFFFFFFFFFFFFFFFFFFFFFFFFFFEBAAEDCE6AF48A03BBFD25E8CD0364141 in
  secp256k1_new = Ok (E, g) -> is_on_curve E P = Ok true -> is_infinity P = false ->
  ec_order 0 p (affine p P) n /\ (exists fuel, point_order fuel E P = Ok n) /\
  (exists R, multiply_scalar E P n = Ok R /\ is_infinity R = true) /\
  forall k R, 0 < k < n -> multiply_scalar E P k = Ok R -> is_infinity R = false.
Proof. exact c89_order. Qed.
Print Assumptions C89_order.
(** C89: every finite point (g in particular) generates the curve: every point Q is multiply_scalar(P, k) for exactly one k in [0, n). *)
Theorem C89_generator : forall E g P Q, let p := 2 ^ 256 - 2 ^ 32 - 977 in let n := 0xFFFFFFFFFFFFFFFFFFFFFFFFFFFFFFFEBAAEDCE6AF48A03BBFD25E8CD0364141 in
  secp256k1_new = Ok (E, g) -> is_on_curve E P = Ok true -> is_infinity P = false -> is_on_curve E Q = Ok true ->
  exists! k, 0 <= k < n /\ exists R, multiply_scalar E P k = Ok R /\ affine p R = affine p Q.
Proof. exact c89_generator. Qed.
Print Assumptions C89_generator.
(** C89: two multiples of a finite point are the same point exactly when the scalars agree modulo n; in particular scalars may be reduced modulo n. *)
Theorem C89_scalars : forall E g P j k A B, let p := 2 ^ 256 - 2 ^ 32 - 977 in let n := 0xFFFFFFFFFFFFFFFFFFFFFFFFFFFFFFFEBAAEDCE6AF48A03BBFD25E8CD0364141 in
  secp256k1_new = Ok (E, g) -> is_on_curve E P = Ok true -> is_infinity P = false -> 0 <= j -> 0 <= k ->
  multiply_scalar E P j = Ok A -> multiply_scalar E P k = Ok B -> (affine p A = affine p B <-> (n | j - k)).
Proof. exact c89_scalars. Qed.
Print Assumptions C89_scalars.
(** C89: the check of an ECDSA signature succeeds: for a key Q = d g, a nonce k and a signature (r, s) of z with s k = z + r d (mod n),
    with 0 < r, s < n and w = inverse(s, n), the point (z w) g + (r w) Q computed with multiply_scalar and plus is k g (so its x is the one r was taken from). *)
Theorem C89_signature : forall E g d k z r s w Q R U V, let p := 2 ^ 256 - 2 ^ 32 - 977 in let n := 0xFFFFFFFFFFFFFFFFFFFFFFFFFFFFFFFEBAAEDCE6AF48A03BBFD25E8CD0364141 in
  secp256k1_new = Ok (E, g) -> 0 < d < n -> 0 < k < n -> 0 <= z -> 0 < r < n -> 0 < s < n -> (n | s * k - (z + r * d)) -> inverse s n = Ok w ->
  multiply_scalar E g d = Ok Q -> multiply_scalar E g k = Ok R ->
  multiply_scalar E g (z * w mod n) = Ok U -> multiply_scalar E Q (r * w mod n) = Ok V ->
  exists X, plus E U V = Ok X /\ affine p X = affine p R.
Proof. exact c89_signature. Qed.
Print Assumptions C89_signature.
Example C89_case : exists E g, secp256k1_new = Ok (E, g) /\ is_on_curve E g = Ok true /\ is_infinity g = false.
Proof. exact c89_case. Qed.
(** C89: the hypotheses of the signature theorem are met, e.g. with d = 2, k = 1, z = 5, r = 7, s = 19. *)
Example C89_case_signature : exists E g w Q R U V, let n := 0xFFFFFFFFFFFFFFFFFFFFFFFFFFFFFFFEBAAEDCE6AF48A03BBFD25E8CD0364141 in
  secp256k1_new = Ok (E, g) /\ (n | 19 * 1 - (5 + 7 * 2)) /\ inverse 19 n = Ok w /\
  multiply_scalar E g 2 = Ok Q /\ multiply_scalar E g 1 = Ok R /\ multiply_scalar E g (5 * w mod n) = Ok U /\ multiply_scalar E Q (7 * w mod n) = Ok V.
Proof. exact c89_case_signature. Qed.
