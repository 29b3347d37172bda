(** Properties C118-C120: arithmetic of the q-series *)
From Coq Require Import Znumtheory ZifyBool Setoid Morphisms Ring Permutation.
From Verif Require Import Prelude M_Bigint M_Variable M_Term M_Poly M_QSeries Spec P_Bigint P_Variable P_FSum P_Poly P_Rem P_PolyProps P_Subst P_Subst2 P_Subst3 P_SubstProps P_Mod P_Gcd P_Q P_QProps P_QArith.
From Verif Require Import P_QArithProps.
Open Scope Z_scope.

(** C118: the coefficients of delta1 obey n d(n) = -24 (sigma(1) d(n-1) + ... + sigma(n) d(0)), so 24 divides n d(n); d(0) = 1. *)
Theorem C118_delta : forall N d, 0 <= N -> 2 * N + 1 <= i32_max -> delta1 N = Ok d ->
  coef d (qmono 0) = 1 /\
  (forall n, 0 <= n <= N -> n * coef d (qmono n) = -24 * fold_right Z.add 0 (map (fun k => sigma 1 k * coef d (qmono (n - k))) (upto n))) /\
  (forall n, 0 <= n <= N -> (24 | n * coef d (qmono n))).
Proof. exact c118_delta. Qed.
Print Assumptions C118_delta.
(** C118: the coefficients of delta1_inverse obey n i(n) = +24 (sigma(1) i(n-1) + ... + sigma(n) i(0)), so 24 divides n i(n); i(0) = 1. *)
Theorem C118_inverse : forall N i, 0 <= N -> 2 * N + 1 <= i32_max -> delta1_inverse N = Ok i ->
  coef i (qmono 0) = 1 /\
  (forall n, 0 <= n <= N -> n * coef i (qmono n) = 24 * fold_right Z.add 0 (map (fun k => sigma 1 k * coef i (qmono (n - k))) (upto n))) /\
  (forall n, 0 <= n <= N -> (24 | n * coef i (qmono n))).
Proof. exact c118_inverse. Qed.
Print Assumptions C118_inverse.
(** C118: a series is determined by these recurrences: whatever starts with 1 and obeys the first one is the series delta1 computes. *)
Theorem C118_unique : forall N d (f : Z -> Z), 0 <= N -> 2 * N + 1 <= i32_max -> delta1 N = Ok d -> f 0 = 1 ->
  (forall n, 1 <= n <= N -> n * f n = -24 * fold_right Z.add 0 (map (fun k => sigma 1 k * f (n - k)) (upto n))) ->
  forall n, 0 <= n <= N -> coef d (qmono n) = f n.
Proof. exact c118_unique. Qed.
Print Assumptions C118_unique.
Example C118_case : exists d, delta1 6 = Ok d /\ map (fun n => coef d (qmono n)) [0; 1; 2; 3; 4; 5; 6] = [1; -24; 252; -1472; 4830; -6048; -16744] /\
  6 * -16744 = -24 * (1 * -6048 + 3 * 4830 + 4 * -1472 + 7 * 252 + 6 * -24 + 12 * 1) /\ 2 * 6 + 1 <= i32_max.
Proof. exact c118_case. Qed.
(** C119: sigma_divisor is multiplicative on coprime arguments. *)
Theorem C119_multiplicative : forall a b k x y, 0 <= k -> 0 < a -> 0 < b -> a * b < i32_max -> rel_prime a b ->
  sigma_divisor a k = Ok x -> sigma_divisor b k = Ok y -> sigma_divisor (a * b) k = Ok (x * y).
Proof. exact c119_multiplicative. Qed.
Print Assumptions C119_multiplicative.
(** C119: on a prime power, the sum 1 + p^k + p^2k + ... + p^ek. *)
Theorem C119_prime_power : forall p e k, prime p -> 0 <= k -> p ^ Z.of_nat e < i32_max ->
  sigma_divisor (p ^ Z.of_nat e) k = Ok (fold_right Z.add 0 (map (fun i => p ^ (k * Z.of_nat i)) (seq 0 (S e)))).
Proof. exact c119_prime_power. Qed.
Print Assumptions C119_prime_power.
(** C119: it recognises primes: for n >= 2 the value is 1 + n^k exactly when n is prime. *)
Theorem C119_prime_test : forall n k, 0 <= k -> 2 <= n < i32_max -> (sigma_divisor n k = Ok (1 + n ^ k) <-> prime n).
Proof. exact c119_prime_test. Qed.
Print Assumptions C119_prime_test.
Example C119_case : sigma_divisor 4 3 = Ok 73 /\ sigma_divisor 9 3 = Ok 757 /\ sigma_divisor 36 3 = Ok (73 * 757) /\ sigma_divisor 7 3 = Ok (1 + 7 ^ 3) /\ sigma_divisor 4 3 <> Ok (1 + 4 ^ 3).
Proof. exact c119_case. Qed.
(** C120: eisenstein4 is 1 modulo 240, and j_invariant1 agrees with delta1_inverse modulo 720 at every order it computes. *)
Theorem C120_mod720 : forall N e i r, 0 <= N -> 3 * N + 1 <= i32_max -> eisenstein4 N = Ok e -> delta1_inverse N = Ok i -> j_invariant1 N = Ok r ->
  feqm 240 e (fconst 1) /\ (forall n, n <= N -> (720 | coef r (qmono n) - coef i (qmono n))).
Proof. exact c120_mod720. Qed.
Print Assumptions C120_mod720.
(** C120: hence (n + 1) times the coefficient of q^n in j is a multiple of 24, at every order. *)
Theorem C120_j24 : forall N j n, -1 <= N -> 3 * (N + 1) + 1 <= i32_max -> j_invariant N = Ok j -> (24 | (n + 1) * coef j (qmono n)).
Proof. exact c120_j24. Qed.
Print Assumptions C120_j24.
Example C120_case : exists j, j_invariant 4 = Ok j /\ coef j (qmono 4) = 20245856256 /\ (24 | 5 * 20245856256) /\ 20245856256 mod 24 = 0 /\ 196884 mod 24 <> 0 /\ (24 | 2 * 196884).
Proof. exact c120_case. Qed.
