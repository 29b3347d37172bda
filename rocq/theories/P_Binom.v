(** The binomial theorem for formal sums and the Frobenius map modulo a prime. *)
From Coq Require Import Znumtheory ZifyBool Setoid Morphisms Ring.
From Verif Require Import Prelude M_Bigint M_Variable M_Term M_Poly Spec P_Bigint P_Variable P_FSum.
Open Scope Z_scope.

Fixpoint binom (n k : nat) : Z :=
  match k with
  | O => 1
  | S k' => match n with O => 0 | S n' => binom n' k' + binom n' k end
  end.
Lemma binom_0_r n : binom n 0 = 1. Proof. destruct n; reflexivity. Qed.
Lemma binom_SS n k : binom (S n) (S k) = binom n k + binom n (S k). Proof. reflexivity. Qed.
Lemma binom_gt n : forall k, (n < k)%nat -> binom n k = 0.
Proof. induction n as [|n IH]; intros [|k] H; try lia; [reflexivity|]. rewrite binom_SS, !IH by lia. reflexivity. Qed.
Lemma binom_nn n : binom n n = 1.
Proof. induction n as [|n IH]; [reflexivity|]. rewrite binom_SS, IH, binom_gt by lia. reflexivity. Qed.
Lemma binom_absorb n : forall k, Z.of_nat (S k) * binom (S n) (S k) = Z.of_nat (S n) * binom n k.
Proof.
  induction n as [|n IH]; intros k.
  - destruct k; [reflexivity|]. rewrite binom_SS, !(binom_gt 0) by lia. lia.
  - destruct k as [|k].
    + rewrite binom_SS, !binom_0_r. specialize (IH 0%nat). rewrite binom_0_r in IH. lia.
    + rewrite (binom_SS (S n) (S k)), (binom_SS n k). pose proof (IH k) as A. pose proof (IH (S k)) as B. rewrite (binom_SS n k) in A. rewrite (binom_SS n (S k)) in B |- *. 
      rewrite ?Nat2Z.inj_succ in *. nia.
Qed.
Lemma binom_prime p k : prime (Z.of_nat p) -> (0 < k < p)%nat -> (Z.of_nat p | binom p k).
Proof.
  intros Pp H. destruct p as [|p]; [lia|]. destruct k as [|k]; [lia|]. pose proof (binom_absorb p k) as A.
  assert (D : (Z.of_nat (S p) | Z.of_nat (S k) * binom (S p) (S k))) by (rewrite A; apply Z.divide_factor_l).
  destruct (prime_mult _ Pp _ _ D) as [D1|D1]; [|exact D1]. apply Z.divide_pos_le in D1; lia.
Qed.

Fixpoint fs (f : nat -> fsum) (n : nat) : fsum := match n with O => [] | S n => fadd (fs f n) (f n) end.
Lemma fs_proper n f g k : (forall i, (i < k)%nat -> feqm n (f i) (g i)) -> feqm n (fs f k) (fs g k).
Proof. induction k as [|k IH]; intros H; cbn [fs]; [reflexivity|]. rewrite IH, H by (intros; try apply H; lia). reflexivity. Qed.
Lemma fconst_add a b : feq (fconst (a + b)) (fadd (fconst a) (fconst b)).
Proof. intros m. unfold fadd, fconst. cbn [coef app]. destruct (mono_eqb mone m); lia. Qed.
Lemma fconst_0 : feq (fconst 0) [].
Proof. intros m. unfold fconst. cbn [coef]. destruct (mono_eqb mone m); lia. Qed.
Section Binomial.
Variables u v : fsum.
Definition bt (n k : nat) : fsum := conv (fconst (binom n k)) (conv (fpow u k) (fpow v (n - k))).
Lemma bt_step n k : (k < n)%nat -> feq (bt (S n) (S k)) (fadd (conv u (bt n k)) (conv v (bt n (S k)))).
Proof.
  intros H. unfold bt. rewrite binom_SS, fconst_add. replace (S n - S k)%nat with (S (n - S k)) by lia. replace (n - k)%nat with (S (n - S k)) by lia. cbn [fpow]. ring.
Qed.
Lemma bs_step n : forall k, (k <= n)%nat -> feq (fs (bt (S n)) (S k)) (fadd (conv u (fs (bt n) k)) (conv v (fs (bt n) (S k)))).
Proof.
  induction k as [|k IH]; intros H.
  - cbn [fs]. unfold bt. rewrite !binom_0_r. replace (S n - 0)%nat with (S (n - 0)) by lia. cbn [fpow]. ring.
  - change (fs (bt (S n)) (S (S k))) with (fadd (fs (bt (S n)) (S k)) (bt (S n) (S k))). rewrite IH by lia. rewrite bt_step by lia. cbn [fs]. ring.
Qed.
Lemma binomial n : feq (fpow (fadd u v) n) (fs (bt n) (S n)).
Proof.
  induction n as [|n IH].
  - unfold bt. cbn. intros m. cbn. destruct (mono_eqb _ m); cbn; try lia. 
  - cbn [fpow]. rewrite IH. change (fs (bt (S n)) (S (S n))) with (fadd (fs (bt (S n)) (S n)) (bt (S n) (S n))). rewrite bs_step by lia.
    assert (T : feq (bt (S n) (S n)) (conv u (bt n n))).
    { unfold bt. rewrite !binom_nn, !Nat.sub_diag. cbn [fpow]. ring. }
    rewrite T. cbn [fs]. ring.
Qed.
End Binomial.
Lemma feqm_fconst_0 n c : (n | c) -> feqm n (fconst c) [].
Proof. intros (k & ->) m. unfold fconst. cbn [coef]. destruct (mono_eqb mone m); rewrite Z.sub_0_r, Z.add_0_r; [exists k; ring|apply Z.divide_0_r]. Qed.
Lemma freshman u v p : prime (Z.of_nat p) -> feqm (Z.of_nat p) (fpow (fadd u v) p) (fadd (fpow u p) (fpow v p)).
Proof.
  intros Pp. pose proof (prime_ge_2 _ Pp). rewrite (feq_feqm (Z.of_nat p) _ _ (binomial u v p)).
  assert (G : forall k, (0 < k <= p)%nat -> feqm (Z.of_nat p) (fs (bt u v p) k) (fpow v p)).
  { intros k. induction k as [|k IH]; [lia|]. intros Hk. cbn [fs]. destruct (Nat.eq_dec k 0) as [-> | N].
    - cbn [fs]. unfold bt. rewrite binom_0_r, Nat.sub_0_r. cbn [fpow]. apply feq_feqm. ring.
    - rewrite IH by lia. unfold bt. rewrite (feqm_fconst_0 (Z.of_nat p) (binom p k)) by (apply binom_prime; [exact Pp|lia]). apply feq_feqm. ring. }
  cbn [fs]. rewrite G by lia. unfold bt. rewrite binom_nn, Nat.sub_diag. cbn [fpow]. apply feq_feqm. ring.
Qed.
(** Monomials in x and y only. *)
Definition xy (a : fsum) : Prop := forall m c, In (m, c) a -> mq m = 0 /\ mv m = None.
Lemma fpow_term m c n : mq m = 0 -> mv m = None -> feq (fpow [(m, c)] n) [(frob (Z.of_nat n) m, c ^ Z.of_nat n)].
Proof.
  intros Q V. induction n as [|n IH].
  - intros k. unfold frob. cbn. rewrite !Z.mul_0_r, Q, V. reflexivity.
  - cbn [fpow]. rewrite IH. intros k. cbn [conv flat_map map app coef fst snd]. rewrite Nat2Z.inj_succ, Z.pow_succ_r by lia.
    replace (mmul m (frob (Z.of_nat n) m)) with (frob (Z.succ (Z.of_nat n)) m); [reflexivity|]. unfold frob, mmul. cbn [mx my mq mv]. rewrite Q, V. cbn [vmul]. f_equal; ring.
Qed.
Lemma fermat_full p c : prime p -> (p | c ^ p - c).
Proof.
  intros Pp. pose proof (prime_ge_2 p Pp). destruct (Zdivide_dec p c) as [D|D].
  - apply Z.divide_sub_r; [|exact D]. replace p with (Z.succ (p - 1)) at 2 by lia. rewrite Z.pow_succ_r by lia. apply Z.divide_mul_l, D.
  - replace (c ^ p - c) with (c * (c ^ (p - 1) - 1)). { apply Z.divide_mul_r, fermat_little; assumption. } replace p with (Z.succ (p - 1)) at 2 by lia. rewrite Z.pow_succ_r by lia. ring.
Qed.
(** f^p = f(x^p, y^p) modulo p. *)
Lemma frobenius p a : prime p -> xy a -> feqm p (fpow a (Z.to_nat p)) (fmap (frob p) a).
Proof.
  intros Pp. pose proof (prime_ge_2 p Pp). assert (NP : Z.of_nat (Z.to_nat p) = p) by lia. induction a as [|(m, c) a IH]; intros H0.
  - cbn [fmap map]. destruct (Z.to_nat p) eqn:E; [lia|]. cbn [fpow]. reflexivity.
  - change ((m, c) :: a) with (fadd [(m, c)] a). pose proof (freshman [(m, c)] a (Z.to_nat p)) as F. rewrite NP in F. rewrite F by exact Pp. rewrite IH by (intros k d I; apply (H0 k d); right; exact I).
    destruct (H0 m c (or_introl eq_refl)) as (Q & V). rewrite (feq_feqm p _ _ (fpow_term m c (Z.to_nat p) Q V)). rewrite NP. change (fmap (frob p) (fadd [(m, c)] a)) with (fadd (fmap (frob p) [(m, c)]) (fmap (frob p) a)). apply fadd_proper; [|reflexivity].
    intros k. cbn [fmap map coef fst snd]. destruct (mono_eqb _ k); rewrite ?Z.add_0_r; [apply fermat_full, Pp|apply Z.divide_0_r].
Qed.
