(** Lemmas behind the property theorems C67. *)
From Coq Require Import Znumtheory ZifyBool.
From Verif Require Import Prelude M_Bigint M_Variable M_Term M_Poly M_Curve Spec SpecCurve P_Bigint P_Curve P_Curve2 P_Curve3 P_Prime.
Open Scope Z_scope.

Definition gx : Z := 0x79BE667EF9DCBBAC55A06295CE870B07029BFCDB2DCE28D959F2815B16F81798.
Definition gy : Z := 0x483ADA7726A3C4655DA4FBFC0E1108A8FD17B448A68554199C47D08FFB10D4B8.
Lemma sp_eq : sp = 2 ^ 256 - 2 ^ 32 - 977. Proof. reflexivity. Qed.
Lemma secp_nonsing : nonsingular 0 7 sp.
Proof. intros D. apply Z.divide_pos_le in D; [|reflexivity]. apply D. reflexivity. Qed.
Lemma secp_elliptic : elliptic 0 7 sp.
Proof. split; [exact prime_sp|]. split; [discriminate|exact secp_nonsing]. Qed.
Lemma secp_new : secp256k1_new = Ok (new_raw 0 7 sp, mkPt gx gy 1).
Proof. unfold secp256k1_new. rewrite !power_i32_spec by lia. cbn [bind]. rewrite sp_eq. reflexivity. Qed.
Lemma secp_pos : 0 < sp. Proof. reflexivity. Qed.
Lemma secp_g_on : on_curve 0 7 sp (affine sp (mkPt gx gy 1)).
Proof. apply affine_on; [exact secp_pos|]. right. cbn [px py]. apply Z.mod_divide; [discriminate|]. vm_compute. reflexivity. Qed.
(** No point of the curve is its own negative. *)
Lemma secp_no_two P : on_curve 0 7 sp P -> esum 0 sp prime_sp P P = None -> P = None.
Proof.
  intros HP H. apply (esum_none 0 7 sp prime_sp ltac:(discriminate)) in H; [|exact HP|exact HP]. destruct P as [[x y]|]; [|reflexivity]. exfalso.
  cbn [ec_neg] in H. injection H as H. destruct HP as (Bx & By & C).
  assert (D: (sp | y - - y)). { apply mod_eq_divide; [discriminate|]. rewrite (Z.mod_small y sp) by exact By. exact H. }
  replace (y - - y) with (2 * y) in D by ring. apply prime_mult in D; [|exact prime_sp]. destruct D as [D|D]; [apply Z.divide_pos_le in D; [apply D; reflexivity|lia]|].
  apply (no_root_secp x). unfold curve_eqn in C. replace (x * x * x + 7) with (y * y - (y * y - (x * x * x + 0 * x + 7))) by ring. apply Z.divide_sub_r; [apply Z.divide_mul_l, D|exact C].
Qed.
Lemma secp_top P k : on_curve 0 7 sp P -> emul 0 sp prime_sp (2 ^ k) P = None -> P = None.
Proof.
  intros HP. assert (P2: sp <> 2) by discriminate. induction k as [|k IH]; intros H.
  - cbn [Nat.pow] in H. rewrite (emul_1 0 sp prime_sp) in H by (apply (on_canon 0 7 sp), HP). exact H.
  - apply IH. rewrite Nat.pow_succ_r' in H. rewrite (emul_mul 0 7 sp prime_sp P2 secp_nonsing) in H by exact HP.
    set (T := emul 0 sp prime_sp (2 ^ k) P) in *. assert (OT: on_curve 0 7 sp T) by (apply (emul_on 0 7 sp prime_sp P2), HP).
    apply secp_no_two; [exact OT|]. rewrite emul_S, (emul_1 0 sp prime_sp) in H by (apply (on_canon 0 7 sp), OT). exact H.
Qed.
Lemma secp_mult P n : on_curve 0 7 sp (affine sp P) -> 0 <= n -> exists R, multiply_scalar (new_raw 0 7 sp) P n = Ok R /\ affine sp R = emul 0 sp prime_sp (Z.to_nat n) (affine sp P).
Proof.
  intros HP Hn. destruct (mult_value 0 7 sp (new_raw 0 7 sp) (new_raw_fields 0 7 sp) prime_sp ltac:(discriminate) secp_nonsing P n HP Hn) as (R & ER & AR).
  exists R. split; [exact ER|]. rewrite AR. destruct (n =? 0) eqn:N0; [replace n with 0 by lia; reflexivity|]. destruct (emul 0 sp prime_sp (top n) (affine sp P)) eqn:T; [reflexivity|].
  unfold top in T. rewrite Z2Nat.inj_pow in T by (try lia; apply Z.log2_nonneg). change (Z.to_nat 2) with 2%nat in T. apply secp_top in T; [|exact HP]. rewrite T. symmetry. apply emul_none.
Qed.
(** C67: Secp256k1::new() returns the curve y^2 = x^3 + 7 over the prime field p = 2^256 - 2^32 - 977, which is an elliptic curve, with the standard
    base point of SEC 2, which is on the curve. *)
Lemma c67_parameters : exists E g, secp256k1_new = Ok (E, g) /\ E = new_raw 0 7 (2 ^ 256 - 2 ^ 32 - 977) /\ elliptic 0 7 (2 ^ 256 - 2 ^ 32 - 977) /\
  g = mkPt 0x79BE667EF9DCBBAC55A06295CE870B07029BFCDB2DCE28D959F2815B16F81798 0x483ADA7726A3C4655DA4FBFC0E1108A8FD17B448A68554199C47D08FFB10D4B8 1 /\
  is_on_curve E g = Ok true.
Proof.
  exists (new_raw 0 7 sp), (mkPt gx gy 1). split; [exact secp_new|]. rewrite <- sp_eq. split; [reflexivity|]. split; [exact secp_elliptic|]. split; [reflexivity|].
  apply (is_on_true 0 7 sp); [apply new_raw_fields|exact secp_pos|exact secp_g_on].
Qed.
(** C67: multiply_scalar is the n-fold sum for every point of this curve and every n >= 0, without exception. *)
Lemma c67_multiply : forall E g P n, secp256k1_new = Ok (E, g) -> is_on_curve E P = Ok true -> 0 <= n ->
  exists R, multiply_scalar E P n = Ok R /\ is_on_curve E R = Ok true /\ ec_mult 0 (2 ^ 256 - 2 ^ 32 - 977) (affine (2 ^ 256 - 2 ^ 32 - 977) P) (Z.to_nat n) (affine (2 ^ 256 - 2 ^ 32 - 977) R).
Proof.
  intros E g P n HE HP Hn. rewrite secp_new in HE. injection HE as <- <-. rewrite <- sp_eq. pose proof (new_raw_fields 0 7 sp) as HF. pose proof (is_on_inv 0 7 sp _ P HF secp_pos HP) as OP.
  destruct (secp_mult P n OP Hn) as (R & ER & AR). exists R. split; [exact ER|]. split.
  - apply (is_on_true 0 7 sp); [exact HF|exact secp_pos|]. rewrite AR. apply (emul_on 0 7 sp prime_sp ltac:(discriminate)), OP.
  - rewrite (ec_mult_iff 0 7 sp prime_sp ltac:(discriminate)) by exact OP. exact AR.
Qed.
(** C67: scalars add: nP + mP = (n+m)P whenever mP is finite (or nP infinite), and mixed products commute: n(mP) = m(nP). *)
Lemma c67_homomorphism : forall E g P n m A B, secp256k1_new = Ok (E, g) -> is_on_curve E P = Ok true -> 0 <= n -> 0 <= m ->
  multiply_scalar E P n = Ok A -> multiply_scalar E P m = Ok B -> is_infinity A = true \/ is_infinity B = false ->
  exists C D, plus E A B = Ok C /\ multiply_scalar E P (n + m) = Ok D /\ affine (2 ^ 256 - 2 ^ 32 - 977) C = affine (2 ^ 256 - 2 ^ 32 - 977) D.
Proof.
  intros E g P n m A B HE HP Hn Hm EA EB HC. rewrite secp_new in HE. injection HE as <- <-. rewrite <- sp_eq. pose proof (new_raw_fields 0 7 sp) as HF. pose proof (is_on_inv 0 7 sp _ P HF secp_pos HP) as OP.
  destruct (secp_mult P n OP Hn) as (R & ER & AR). rewrite EA in ER. injection ER as <-. destruct (secp_mult P m OP Hm) as (R & ER & AB). rewrite EB in ER. injection ER as <-.
  destruct (secp_mult P (n + m) OP ltac:(lia)) as (D & ED & AD). assert (P2: sp <> 2) by discriminate.
  destruct (plus_ok 0 7 sp _ HF prime_sp P2 A B) as (C & EC & AC & _).
  - rewrite AR. apply (emul_on 0 7 sp prime_sp P2), OP.
  - rewrite AB. apply (emul_on 0 7 sp prime_sp P2), OP.
  - unfold is_infinity in HC. lia.
  - exists C, D. split; [exact EC|]. split; [exact ED|]. rewrite AC, AD, AR, AB. rewrite Z2Nat.inj_add by lia. symmetry. apply (emul_add 0 7 sp prime_sp P2 secp_nonsing), OP.
Qed.
(** C67: Diffie-Hellman: multiplying by n and then by m, or by m and then by n, gives the same point, that of the product n m. *)
Lemma c67_diffie_hellman : forall E g P n m A B, secp256k1_new = Ok (E, g) -> is_on_curve E P = Ok true -> 0 <= n -> 0 <= m ->
  multiply_scalar E P n = Ok A -> multiply_scalar E P m = Ok B ->
  exists U V W, multiply_scalar E A m = Ok U /\ multiply_scalar E B n = Ok V /\ multiply_scalar E P (n * m) = Ok W /\
    affine (2 ^ 256 - 2 ^ 32 - 977) U = affine (2 ^ 256 - 2 ^ 32 - 977) V /\ affine (2 ^ 256 - 2 ^ 32 - 977) U = affine (2 ^ 256 - 2 ^ 32 - 977) W.
Proof.
  intros E g P n m A B HE HP Hn Hm EA EB. rewrite secp_new in HE. injection HE as <- <-. rewrite <- sp_eq. pose proof (new_raw_fields 0 7 sp) as HF. pose proof (is_on_inv 0 7 sp _ P HF secp_pos HP) as OP.
  destruct (secp_mult P n OP Hn) as (R & ER & AR). rewrite EA in ER. injection ER as <-. destruct (secp_mult P m OP Hm) as (R & ER & AB). rewrite EB in ER. injection ER as <-.
  assert (P2: sp <> 2) by discriminate.
  destruct (secp_mult A m) as (U & EU & AU); [rewrite AR; apply (emul_on 0 7 sp prime_sp P2), OP|exact Hm|].
  destruct (secp_mult B n) as (V & EV & AV); [rewrite AB; apply (emul_on 0 7 sp prime_sp P2), OP|exact Hn|].
  destruct (secp_mult P (n * m) OP ltac:(nia)) as (W & EW & AW).
  exists U, V, W. split; [exact EU|]. split; [exact EV|]. split; [exact EW|]. rewrite AU, AV, AW, AR, AB. rewrite <- !(emul_mul 0 7 sp prime_sp P2 secp_nonsing) by exact OP.
  rewrite Z2Nat.inj_mul by lia. rewrite (Nat.mul_comm (Z.to_nat m)). split; reflexivity.
Qed.
(** C67: a concrete point: 1 g = g. *)
Example c67_case : exists E g, secp256k1_new = Ok (E, g) /\ multiply_scalar E g 1 = Ok g /\ is_infinity g = false.
Proof. exists (new_raw 0 7 sp), (mkPt gx gy 1). split; [exact secp_new|]. split; reflexivity. Qed.
