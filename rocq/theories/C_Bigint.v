(** Property theorems C01-C07 (src/bigint.rs). *)
From Coq Require Import Znumtheory.
From Verif Require Import Prelude M_Bigint M_Variable P_Bigint P_Variable.
Open Scope Z_scope.

(** C01: b.power(n) = b^n for n >= 0 (both overloads), b for a negative n; never panics, never hangs. *)
Theorem C01_power : forall b n,
  (0 <= n -> power b n = Ok (b ^ n) /\ power_i32 b n = Ok (b ^ n)) /\
  (n < 0 -> power b n = Ok b /\ power_i32 b n = Ok b).
Proof. exact (fun b n => conj (fun H => conj (power_spec b n H) (power_i32_spec b n H))
                              (fun H => conj (power_neg b n H) (power_neg b n H))). Qed.
Print Assumptions C01_power.
Example C01_case : power (-3) 5 = Ok (-243) /\ power 7 (-2) = Ok 7.
Proof. split; reflexivity. Qed.

(** C02: power_modulo is the canonical residue. *)
Theorem C02_power_modulo : forall b n p, 0 <= n -> 2 <= p ->
  exists r, power_modulo b n p = Ok r /\ 0 <= r < p /\ r = b ^ n mod p.
Proof. exact power_modulo_canonical. Qed.
Print Assumptions C02_power_modulo.
Theorem C02_power_modulo_zero_modulus : forall b n, 1 <= n -> power_modulo b n 0 = Panic.
Proof. exact power_modulo_panic. Qed.
Print Assumptions C02_power_modulo_zero_modulus.
Example C02_case : power_modulo (-3) 5 7 = Ok 2 /\ (-3) ^ 5 mod 7 = 2 /\ 0 <= 5 /\ 2 <= 7.
Proof. repeat split; try reflexivity; lia. Qed.

(** C03: the inverse modulo a prime. *)
Theorem C03_inverse : forall p a, prime p -> ~ (p | a) ->
  exists r, inverse a p = Ok r /\ 0 <= r < p /\ (p | a * r - 1) /\
            (forall r', 0 <= r' < p -> (p | a * r' - 1) -> r' = r).
Proof. exact inverse_exists_unique. Qed.
Print Assumptions C03_inverse.
Theorem C03_inverse_small_modulus : forall a p, p < 2 -> inverse a p = Panic.
Proof. exact inverse_small. Qed.
Print Assumptions C03_inverse_small_modulus.
Theorem C03_inverse_of_zero : forall p a, prime p -> p <> 2 -> (p | a) -> inverse a p = Ok 0.
Proof. exact (fun p a => inverse_zero a p). Qed.
Print Assumptions C03_inverse_of_zero.
Example C03_case : prime 5 /\ ~ (5 | -3) /\ inverse (-3) 5 = Ok 3.
Proof. split; [apply is_prime_spec; reflexivity|]. split; [intros [k Hk]; lia | reflexivity]. Qed.

(** C04 is false of the code: 2 is a unit modulo 9 but inverse(2, 9) is not its inverse.
    The exact condition under which [inverse] inverts is [m | a^(m-1) - 1]. *)
Theorem C04_inverse_any_modulus_refuted : exists a m r, 2 <= m /\ rel_prime a m /\
  inverse a m = Ok r /\ ~ (m | a * r - 1).
Proof. exact inverse_composite_refuted. Qed.
Print Assumptions C04_inverse_any_modulus_refuted.
Theorem C04_inverse_any_modulus_partial : forall a m, 2 <= m ->
  exists r, inverse a m = Ok r /\ 0 <= r < m /\ ((m | a * r - 1) <-> (m | a ^ (m - 1) - 1)).
Proof. exact inverse_exact. Qed.
Print Assumptions C04_inverse_any_modulus_partial.
Example C04_case : 2 <= 15 /\ inverse 4 15 = Ok 4 /\ (15 | 4 ^ 14 - 1).
Proof. split; [lia|]. split; [reflexivity|]. exists 17895697. reflexivity. Qed.

(** C05: extended_gcd terminates with a Bezout triple. *)
Theorem C05_extended_gcd : forall a b, exists g x y, extended_gcd a b = Ok (g, x, y) /\
  a * x + b * y = g /\ Z.abs g = Z.gcd a b /\ (0 <= a -> 0 <= b -> g = Z.gcd a b).
Proof. exact extended_gcd_spec. Qed.
Print Assumptions C05_extended_gcd.
Example C05_case : extended_gcd (-12) (-18) = Ok (-6, -1, 1) /\ Z.gcd (-12) (-18) = 6.
Proof. split; reflexivity. Qed.

(** C06: chinese_remainder solves every system with pairwise coprime positive moduli, uniquely. *)
Theorem C06_chinese_remainder : forall v,
  Forall (fun m => 0 < mr_l m) v ->
  ForallOrdPairs (fun m m' => rel_prime (mr_l m) (mr_l m')) v ->
  exists r, chinese_remainder v = Ok (mkMod (fold_right Z.mul 1 (map mr_l v)) r) /\
    (forall m, In m v -> (mr_l m | r - mr_r m)) /\
    (forall s, (forall m, In m v -> (mr_l m | s - mr_r m)) ->
               (fold_right Z.mul 1 (map mr_l v) | s - r)).
Proof. exact crt_spec. Qed.
Print Assumptions C06_chinese_remainder.
Example C06_case : let v := [mkMod 3 2; mkMod 5 3; mkMod 7 2] in
  Forall (fun m => 0 < mr_l m) v /\ ForallOrdPairs (fun m m' => rel_prime (mr_l m) (mr_l m')) v /\
  chinese_remainder v = Ok (mkMod 105 (-82)).
Proof.
  cbv zeta. split; [repeat constructor|]. split; [|reflexivity].
  repeat first [apply FOP_nil | apply FOP_cons | apply Forall_nil | apply Forall_cons];
    apply Zgcd_1_rel_prime; reflexivity.
Qed.

(** C07 is false of the code: the residue returned can be negative. *)
Theorem C07_crt_canonical_refuted : exists v l r,
  Forall (fun m => 2 <= mr_l m /\ 0 <= mr_r m < mr_l m) v /\
  ForallOrdPairs (fun m m' => rel_prime (mr_l m) (mr_l m')) v /\
  chinese_remainder v = Ok (mkMod l r) /\ ~ (0 <= r < l).
Proof. exact crt_not_canonical. Qed.
Print Assumptions C07_crt_canonical_refuted.
(** What holds instead: reducing the returned r modulo l gives the canonical solution. *)
Theorem C07_crt_canonical_partial : forall v,
  Forall (fun m => 0 < mr_l m) v ->
  ForallOrdPairs (fun m m' => rel_prime (mr_l m) (mr_l m')) v ->
  exists l r, chinese_remainder v = Ok (mkMod l r) /\ 0 <= r mod l < l /\
    (forall m, In m v -> (mr_l m | r mod l - mr_r m)) /\
    (forall s, 0 <= s < l -> (forall m, In m v -> (mr_l m | s - mr_r m)) -> s = r mod l).
Proof. exact crt_mod_canonical. Qed.
Print Assumptions C07_crt_canonical_partial.
