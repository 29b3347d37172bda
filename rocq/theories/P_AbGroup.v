(** Finite abelian groups, elementarily: exponent, Cauchy's theorem, size of the l-torsion. *)
From Coq Require Import ZArith Znumtheory List ListDec Lia Arith.
Import ListNotations.
Open Scope nat_scope.

Lemma divide_Z a b : Nat.divide a b <-> (Z.of_nat a | Z.of_nat b)%Z.
Proof.
  split.
  - intros (k & ->). exists (Z.of_nat k). apply Nat2Z.inj_mul.
  - intros (k & H). destruct (Nat.eq_dec b 0) as [->|B]; [exists 0; reflexivity|].
    assert (0 < k)%Z by nia. exists (Z.to_nat k). apply Nat2Z.inj. rewrite Nat2Z.inj_mul, Z2Nat.id by lia. exact H.
Qed.
Definition nprime (l : nat) : Prop := prime (Z.of_nat l).
Lemma nprime_ge l : nprime l -> 2 <= l.
Proof. intros H. apply prime_ge_2 in H. lia. Qed.
Lemma nprime_factor s : 2 <= s -> exists l, nprime l /\ Nat.divide l s.
Proof.
  intros H. destruct (prime_dec (Z.of_nat s)) as [P|N]; [exists s; split; [exact P|apply Nat.divide_refl]|].
  revert H N. induction s as [s IH] using lt_wf_ind. intros H N. destruct (not_prime_divide (Z.of_nat s) ltac:(lia) N) as (d & Hd & D).
  assert (DN : Nat.divide (Z.to_nat d) s). { apply divide_Z. rewrite Z2Nat.id by lia. exact D. }
  destruct (prime_dec d) as [Pd|Nd].
  - exists (Z.to_nat d). split; [unfold nprime; rewrite Z2Nat.id by lia; exact Pd|exact DN].
  - destruct (IH (Z.to_nat d) ltac:(lia) ltac:(lia)) as (l & Pl & Dl); [rewrite Z2Nat.id by lia; exact Nd|]. exists l. split; [exact Pl|]. eapply Nat.divide_trans; eassumption.
Qed.
Lemma split_power l m : 2 <= l -> 1 <= m -> exists j m', m = l ^ j * m' /\ ~ Nat.divide l m'.
Proof.
  intros Hl. induction m as [m IH] using lt_wf_ind. intros Hm.
  destruct (Zdivide_dec (Z.of_nat l) (Z.of_nat m)) as [D|N].
  - apply divide_Z in D. destruct D as (k & ->). destruct (IH k) as (j & m' & E & N); [nia|nia|]. exists (S j), m'. split; [|exact N]. rewrite E at 1. cbn [Nat.pow]. ring.
  - exists 0, m. split; [cbn; lia|]. intros D. apply N, divide_Z, D.
Qed.
Lemma gcd_prime_power l i m : nprime l -> ~ Nat.divide l m -> Nat.gcd (l ^ i) m = 1.
Proof.
  intros Pl N. assert (G : Nat.gcd l m = 1).
  { assert (D1 : Nat.divide (Nat.gcd l m) l) by apply Nat.gcd_divide_l. assert (D2 : Nat.divide (Nat.gcd l m) m) by apply Nat.gcd_divide_r.
    pose proof (proj1 (divide_Z _ _) D1) as D. apply (prime_divisors _ Pl) in D. pose proof (nprime_ge l Pl). destruct D as [D|[D|[D|D]]]; try lia. exfalso. apply N. replace l with (Nat.gcd l m) at 1 by lia. exact D2. }
  induction i as [|i IH]; [apply Nat.gcd_1_l|]. cbn [Nat.pow].
  (* gcd (l * l^i) m = 1 *)
  assert (D : Nat.divide (Nat.gcd (l * l ^ i) m) 1).
  { set (g := Nat.gcd (l * l ^ i) m). assert (Gm : Nat.divide g m) by apply Nat.gcd_divide_r. assert (Gl : Nat.divide g (l * l ^ i)) by apply Nat.gcd_divide_l.
    assert (C : Nat.gcd g l = 1). { apply Nat.divide_1_r. rewrite <- G. apply Nat.gcd_greatest; [apply Nat.gcd_divide_r|]. eapply Nat.divide_trans; [apply Nat.gcd_divide_l|exact Gm]. }
    pose proof (Nat.gauss g l (l ^ i) Gl C) as X. rewrite <- IH. apply Nat.gcd_greatest; assumption. }
  apply Nat.divide_1_r, D.
Qed.
Lemma coprime_mul_divide a b n : Nat.gcd a b = 1 -> Nat.divide a n -> Nat.divide b n -> Nat.divide (a * b) n.
Proof.
  intros G (k & ->) D. rewrite Nat.mul_comm in D. apply Nat.gauss in D; [|rewrite Nat.gcd_comm; exact G]. destruct D as (j & ->). exists j. ring.
Qed.
(** s divides m when every prime power dividing s divides m. *)
Lemma prime_powers_divide m : forall s, 1 <= s -> (forall l i, nprime l -> Nat.divide (l ^ i) s -> Nat.divide (l ^ i) m) -> Nat.divide s m.
Proof.
  induction s as [s IH] using lt_wf_ind. intros Hs H. destruct (Nat.eq_dec s 1) as [-> | N1]; [exists m; lia|].
  destruct (nprime_factor s ltac:(lia)) as (l & Pl & Dl). pose proof (nprime_ge l Pl) as L2. destruct (split_power l s L2 Hs) as (j & s' & E & N).
  destruct j as [|j]. { cbn in E. rewrite Nat.add_0_r in E. subst s'. contradiction. }
  assert (S1 : 1 <= s'). { destruct s' as [|s']; [exfalso; rewrite Nat.mul_0_r in E; clear - E Hs; lia|clear; lia]. } pose proof (Nat.pow_nonzero l j ltac:(lia)) as PZ.
  assert (LT : s' < s). { rewrite E. cbn [Nat.pow]. set (q := l ^ j) in *. assert (X : 2 <= l * q) by (clearbody q; clear - PZ L2; nia). clear - X S1; nia. }
  rewrite E. apply coprime_mul_divide; [apply gcd_prime_power; assumption| |].
  - apply H; [exact Pl|]. rewrite E. exists s'. ring.
  - apply IH; [exact LT|exact S1|]. intros l' i Pl' D. apply H; [exact Pl'|]. rewrite E. apply Nat.divide_mul_r, D.
Qed.

Section Group.
Variable T : Type.
Variable op : T -> T -> T.
Variable e : T.
Variable inv : T -> T.
Variable on : T -> Prop.
Variable dec : forall x y : T, {x = y} + {x <> y}.
Variable G : list T.
Hypothesis on_e : on e.
Hypothesis on_op : forall x y, on x -> on y -> on (op x y).
Hypothesis on_inv : forall x, on x -> on (inv x).
Hypothesis comm : forall x y, on x -> on y -> op x y = op y x.
Hypothesis assoc : forall x y z, on x -> on y -> on z -> op (op x y) z = op x (op y z).
Hypothesis e_l : forall x, on x -> op e x = x.
Hypothesis inv_l : forall x, on x -> op (inv x) x = e.
Hypothesis G_nodup : NoDup G.
Hypothesis G_in : forall x, In x G <-> on x.

Fixpoint mul (n : nat) (x : T) : T := match n with O => e | S k => op x (mul k x) end.
Lemma mul_on n x : on x -> on (mul n x).
Proof. intros H. induction n; cbn; auto. Qed.
Hint Resolve on_e on_op on_inv mul_on : core.
Lemma mul_add m n x : on x -> mul (m + n) x = op (mul m x) (mul n x).
Proof. intros H. induction m as [|m IH]; cbn; [rewrite e_l; auto|]. rewrite IH, assoc; auto. Qed.
Lemma mul_e n : mul n e = e.
Proof. induction n as [|n IH]; cbn; [reflexivity|]. rewrite IH, e_l; auto. Qed.
Lemma mul_mul m n x : on x -> mul (m * n) x = mul m (mul n x).
Proof. intros H. induction m as [|m IH]; cbn; [reflexivity|]. rewrite mul_add, IH; auto. Qed.
Lemma mul_op n x y : on x -> on y -> mul n (op x y) = op (mul n x) (mul n y).
Proof.
  intros Hx Hy. induction n as [|n IH]; cbn; [rewrite e_l; auto|]. rewrite IH.
  rewrite (assoc x y), <- (assoc y (mul n x)), (comm y (mul n x)), (assoc (mul n x) y), <- (assoc x); auto.
Qed.
Lemma e_r x : on x -> op x e = x.
Proof. intros H. rewrite comm; auto. Qed.
Lemma cancel x y z : on x -> on y -> on z -> op x y = op x z -> y = z.
Proof. intros Hx Hy Hz E. rewrite <- (e_l y), <- (e_l z), <- (inv_l x), !assoc, E by auto. reflexivity. Qed.
Lemma mul_cancel m n x : on x -> mul (m + n) x = e -> mul m x = e -> mul n x = e.
Proof. intros H E1 E2. rewrite mul_add, E2, e_l in E1; auto. Qed.

Definition ord (x : T) (n : nat) : Prop := 1 <= n /\ mul n x = e /\ forall k, mul k x = e -> Nat.divide n k.
(** Least positive n with a decidable property of n x. *)
Lemma least (P : nat -> Prop) : (forall n, P n \/ ~ P n) -> forall n, 1 <= n -> P n -> exists k, 1 <= k /\ P k /\ forall j, 1 <= j < k -> ~ P j.
Proof.
  intros D n Hn Pn. assert (F : forall m, (exists k, 1 <= k <= m /\ P k /\ forall j, 1 <= j < k -> ~ P j) \/ forall j, 1 <= j <= m -> ~ P j).
  { induction m as [|m IH]; [right; lia|]. destruct IH as [(k & Hk & X)|N]; [left; exists k; split; [lia|exact X]|]. destruct (D (S m)) as [Q|Q].
    - left. exists (S m). split; [lia|]. split; [exact Q|]. intros j Hj. apply N. lia.
    - right. intros j Hj. destruct (Nat.eq_dec j (S m)) as [-> | NE]; [exact Q|apply N; lia]. }
  destruct (F n) as [(k & Hk & X)|N]; [exists k; split; [lia|exact X]|]. exfalso. apply (N n); [lia|exact Pn].
Qed.
Lemma torsion x : on x -> exists n, 1 <= n <= length G /\ mul n x = e.
Proof.
  intros H. destruct (ListDec.NoDup_dec dec (map (fun n => mul n x) (seq 0 (S (length G))))) as [ND|ND].
  - exfalso. assert (L : length (map (fun n => mul n x) (seq 0 (S (length G)))) <= length G).
    { apply NoDup_incl_length; [exact ND|]. intros y Hy. apply in_map_iff in Hy as (n & <- & _). apply G_in, mul_on, H. }
    rewrite map_length, seq_length in L. lia.
  - assert (X : forall N, ~ NoDup (map (fun n => mul n x) (seq 0 N)) -> exists i j, i < j < N /\ mul i x = mul j x).
    { induction N as [|N IH]; [intros Q; exfalso; apply Q; constructor|]. intros Q. rewrite seq_S, map_app in Q. cbn [map Nat.add] in Q.
      destruct (ListDec.NoDup_dec dec (map (fun n => mul n x) (seq 0 N))) as [ND'|ND'].
      - destruct (in_dec dec (mul N x) (map (fun n => mul n x) (seq 0 N))) as [I|I].
        + apply in_map_iff in I as (i & E & I). apply in_seq in I. exists i, N. split; [lia|exact E].
        + exfalso. apply Q. apply NoDup_rev in ND'. rewrite <- (rev_involutive (map (fun n => mul n x) (seq 0 N) ++ [mul N x])). apply NoDup_rev. rewrite rev_app_distr. cbn [rev app]. constructor; [rewrite <- in_rev; exact I|exact ND'].
      - destruct (IH ND') as (i & j & Hij & E). exists i, j. split; [lia|exact E]. }
    destruct (X _ ND) as (i & j & Hij & E). exists (j - i). split; [lia|]. apply (cancel (mul i x)); auto. rewrite <- mul_add, e_r by auto. replace (i + (j - i)) with j by lia. symmetry. exact E.
Qed.
Lemma ord_exists x : on x -> exists n, ord x n /\ n <= length G.
Proof.
  intros H. destruct (torsion x H) as (n & Hn & E). destruct (least (fun k => mul k x = e)) with (n := n) as (k & Hk & Ek & M); [intros k; destruct (dec (mul k x) e); auto|lia|exact E|].
  exists k. assert (KN : k <= n). { destruct (Nat.le_gt_cases k n); [assumption|]. exfalso. apply (M n); [lia|exact E]. }
  split; [|lia]. split; [exact Hk|]. split; [exact Ek|]. intros j Ej. pose proof (Nat.div_mod_eq j k) as DM. pose proof (Nat.mod_upper_bound j k ltac:(lia)) as B.
  assert (R : mul (j mod k) x = e).
  { apply (mul_cancel (k * (j / k))); [exact H|rewrite <- DM; exact Ej|]. rewrite Nat.mul_comm, mul_mul, Ek by exact H. apply mul_e. }
  destruct (Nat.eq_dec (j mod k) 0) as [Z|Z]; [exists (j / k); lia|]. exfalso. apply (M (j mod k)); [lia|exact R].
Qed.
Lemma ord_unique x m n : ord x m -> ord x n -> m = n.
Proof. intros (A & B & C) (D & E & F). apply Nat.divide_antisym; auto. Qed.
Lemma ord_part x r s : on x -> ord x (r * s) -> ord (mul s x) r.
Proof.
  intros Hx (H1 & H2 & H3). assert (1 <= r) by (destruct r; lia). assert (1 <= s) by (destruct s; nia). split; [assumption|]. split; [rewrite <- mul_mul by exact Hx; exact H2|].
  intros k Hk. rewrite <- mul_mul in Hk by exact Hx. apply H3 in Hk. apply Nat.mul_divide_cancel_r in Hk; [exact Hk|lia].
Qed.
Lemma ord_coprime x y r s : on x -> on y -> Nat.gcd r s = 1 -> ord x r -> ord y s -> ord (op x y) (r * s).
Proof.
  intros Hx Hy Gc (R1 & R2 & R3) (S1 & S2 & S3). split; [nia|]. split.
  - rewrite mul_op by assumption. rewrite (Nat.mul_comm r s) at 1. rewrite !mul_mul, R2, S2, !mul_e, e_l by assumption. reflexivity.
  - intros k Hk. apply coprime_mul_divide; [exact Gc| |].
    + apply (Nat.gauss r s); [|exact Gc]. apply R3. rewrite mul_mul by exact Hx. 
      assert (E : mul s (mul k (op x y)) = e) by (rewrite Hk; apply mul_e). rewrite mul_op in E by assumption. rewrite mul_op in E by auto.
      rewrite <- (mul_mul s k y), Nat.mul_comm, mul_mul, S2, mul_e, e_r in E by auto. exact E.
    + apply (Nat.gauss s r); [|rewrite Nat.gcd_comm; exact Gc]. apply S3. rewrite mul_mul by exact Hy.
      assert (E : mul r (mul k (op x y)) = e) by (rewrite Hk; apply mul_e). rewrite mul_op in E by assumption. rewrite mul_op in E by auto.
      rewrite <- (mul_mul r k x), Nat.mul_comm, mul_mul, R2, mul_e, e_l in E by auto. exact E.
Qed.
(** An element whose order is a multiple of every order. *)
Lemma exponent : exists x m, on x /\ ord x m /\ forall y n, on y -> ord y n -> Nat.divide n m.
Proof.
  assert (MX : exists x m, on x /\ ord x m /\ forall y n, on y -> ord y n -> n <= m).
  { assert (ST : forall B, (exists x m, on x /\ ord x m /\ B <= m /\ forall y n, on y -> ord y n -> n <= m) \/ (forall y n, on y -> ord y n -> n < B) \/ B = 0 \/ exists x m, on x /\ ord x m /\ B <= m).
    { intros B. destruct (Nat.eq_dec B 0); [tauto|].
      assert (D : forall L : list T, (forall x, In x L -> on x) -> (exists x m, on x /\ ord x m /\ B <= m) \/ forall x n, In x L -> ord x n -> n < B).
      { induction L as [|x L IH]; intros HL; [right; intros x n0 []|]. destruct IH as [Y|N]; [intros y Hy; apply HL; right; exact Hy|left; exact Y|].
        destruct (ord_exists x) as (k & Ok & _); [apply HL; left; reflexivity|]. destruct (Nat.le_gt_cases B k); [left; exists x, k; split; [apply HL; left; reflexivity|split; assumption]|].
        right. intros y n0 [<-|Iy] Oy; [rewrite (ord_unique _ _ _ Oy Ok); assumption|exact (N y n0 Iy Oy)]. }
      destruct (D G) as [Y|N]; [intros x Hx; apply G_in, Hx|right; right; right; exact Y|]. right. left. intros y n0 Hy. apply N, G_in, Hy. }
    assert (I : forall d B, B + d = S (length G) -> (exists x m, on x /\ ord x m /\ B <= m) -> exists x m, on x /\ ord x m /\ forall y n, on y -> ord y n -> n <= m).
    { induction d as [|d IH]; intros B HB (x & m & Hx & Om & Bm).
      - exfalso. destruct (ord_exists x Hx) as (m' & Om' & Lm). rewrite (ord_unique _ _ _ Om Om') in Bm. lia.
      - destruct (ST (B + 1)) as [(x' & m' & A & A2 & _ & A3)|[N|[Z|Y]]].
        + exists x', m'. auto.
        + exists x, m. split; [exact Hx|]. split; [exact Om|]. intros y n Hy Oy. pose proof (N y n Hy Oy). lia.
        + lia.
        + apply (IH (B + 1)); [lia|exact Y]. }
    apply (I (length G) 1); [lia|]. destruct (ord_exists e on_e) as (n & On & _). exists e, n. split; [exact on_e|]. split; [exact On|apply On]. }
  destruct MX as (x & m & Hx & Om & M). exists x, m. split; [exact Hx|]. split; [exact Om|]. intros y s Hy Oy. apply prime_powers_divide; [apply Oy|].
  intros l i Pl (c & Ec). pose proof (nprime_ge l Pl) as L2. destruct (split_power l m L2 (proj1 Om)) as (j & m' & Em & N).
  destruct (Nat.le_gt_cases i j) as [LE|GT].
  - rewrite Em. exists (l ^ (j - i) * m'). replace j with (j - i + i) at 1 by lia. rewrite Nat.pow_add_r. ring.
  - exfalso. assert (O1 : ord (mul (l ^ j) x) m') by (apply ord_part; [exact Hx|]; rewrite Nat.mul_comm, <- Em; exact Om).
    assert (O2 : ord (mul c y) (l ^ i)) by (apply ord_part; [exact Hy|]; rewrite Nat.mul_comm, <- Ec; exact Oy).
    assert (O3 := ord_coprime _ _ _ _ (mul_on (l ^ j) x Hx) (mul_on c y Hy) (eq_trans (Nat.gcd_comm _ _) (gcd_prime_power l i m' Pl N)) O1 O2).
    apply M in O3; [|auto]. rewrite Em in O3. assert (m' <> 0) by (destruct O1; lia). pose proof (Nat.pow_lt_mono_r l j i ltac:(lia) GT). nia.
Qed.
(** Subgroups as lists. *)
Definition subgroup (H : list T) : Prop := NoDup H /\ In e H /\ (forall x, In x H -> on x) /\ (forall x y, In x H -> In y H -> In (op x y) H).
Lemma sub_mul H x n : subgroup H -> In x H -> In (mul n x) H.
Proof. intros (_ & He & _ & Hop) I. induction n; cbn; auto. Qed.
Lemma sub_inv H x : subgroup H -> In x H -> In (inv x) H.
Proof.
  intros S I. assert (Hx : on x) by (apply S, I). destruct (ord_exists x Hx) as (n & (H1 & H2 & _) & _).
  replace (inv x) with (mul (n - 1) x); [apply sub_mul; assumption|]. apply (cancel x); auto. rewrite (comm x (inv x)), inv_l by auto. rewrite <- H2. replace n with (Datatypes.S (n - 1)) at 2 by lia. reflexivity.
Qed.
Lemma extend H P : subgroup H -> on P -> exists H' k, subgroup H' /\ length H' = k * length H /\ (forall x, In x H -> In x H') /\ In P H' /\ 1 <= k /\ (forall n, ord P n -> Nat.divide k n) /\
  (forall Q : T -> Prop, (forall x, In x H -> Q x) -> Q P -> (forall x y, on x -> on y -> Q x -> Q y -> Q (op x y)) -> Q e -> forall x, In x H' -> Q x).
Proof.
  intros SH HP. pose proof SH as (ND & He & Hon & Hop). destruct (ord_exists P HP) as (n0 & (N1 & N2 & _) & _).
  destruct (least (fun k => In (mul k P) H)) with (n := n0) as (k & Hk & Ik & M); [intros k; destruct (in_dec dec (mul k P) H); auto|exact N1|rewrite N2; exact He|].
  assert (MD : forall j, In (mul j P) H -> Nat.divide k j).
  { intros j Ij. pose proof (Nat.div_mod_eq j k) as DM. pose proof (Nat.mod_upper_bound j k ltac:(lia)) as B.
    assert (I2 : In (mul (j mod k) P) H).
    { replace (mul (j mod k) P) with (op (inv (mul (k * (j / k)) P)) (mul j P)).
      - apply Hop; [|exact Ij]. apply sub_inv; [exact SH|]. rewrite Nat.mul_comm, mul_mul by exact HP. apply sub_mul; assumption.
      - rewrite DM at 2. rewrite mul_add, <- assoc, inv_l, e_l by auto. reflexivity. }
    destruct (Nat.eq_dec (j mod k) 0) as [Z|Z]; [exists (j / k); lia|]. exfalso. apply (M (j mod k)); [lia|exact I2]. }
  set (H' := flat_map (fun i => map (op (mul i P)) H) (seq 0 k)). exists H', k.
  assert (IN : forall x, In x H' <-> exists i h, i < k /\ In h H /\ x = op (mul i P) h).
  { intros x. unfold H'. rewrite in_flat_map. split.
    - intros (i & Ii & Ix). apply in_seq in Ii. apply in_map_iff in Ix as (h & <- & Ih). exists i, h. split; [lia|auto].
    - intros (i & h & Hi & Ih & ->). exists i. split; [apply in_seq; lia|]. apply in_map, Ih. }
  assert (IN' : forall i h, In h H -> In (op (mul i P) h) H').
  { intros i h Ih. pose proof (Nat.div_mod_eq i k) as DM. pose proof (Nat.mod_upper_bound i k ltac:(lia)) as B. apply IN. exists (i mod k), (op (mul (k * (i / k)) P) h). split; [exact B|]. split.
    - apply Hop; [|exact Ih]. rewrite Nat.mul_comm, mul_mul by exact HP. apply sub_mul; assumption.
    - rewrite <- assoc by auto. rewrite <- mul_add by exact HP. f_equal. f_equal. lia. }
  assert (SUB : subgroup H').
  { split; [|split; [|split]].
    - unfold H'. assert (GEN : forall s m, s + m <= k -> NoDup (flat_map (fun i => map (op (mul i P)) H) (seq s m))).
      { intros s m. revert s. induction m as [|m IH]; intros s Hsm; cbn [seq flat_map]; [constructor|].
        assert (APP : forall A B : list T, NoDup A -> NoDup B -> (forall x, In x A -> In x B -> False) -> NoDup (A ++ B)).
        { clear. induction A as [|x A IH]; intros B HA HB HD; [exact HB|]. inversion HA; subst. cbn. constructor; [rewrite in_app_iff; intros [I|I]; [contradiction|exact (HD x (or_introl eq_refl) I)]|].
          apply IH; auto. intros y Iy. apply HD. right; exact Iy. }
        apply APP; [|apply IH; lia|].
        - clear -ND Hon HP on_e on_op on_inv comm assoc e_l inv_l. induction ND as [|h H NI ND IH]; [constructor|]. cbn [map]. constructor.
          + intros I. apply in_map_iff in I as (h' & E & I). apply cancel in E; auto; [|apply Hon; right; exact I|apply Hon; left; reflexivity]. subst. contradiction.
          + apply IH. intros x Ix. apply Hon. right; exact Ix.
        - intros x I1 I2. apply in_map_iff in I1 as (h & <- & Ih). apply in_flat_map in I2 as (j & Ij & I2). apply in_seq in Ij. apply in_map_iff in I2 as (h' & E & Ih').
          (* mul j P + h' = mul s P + h, s < j < k: then (j-s)P in H *)
          apply (M (j - s)); [lia|]. replace (mul (j - s) P) with (op h (inv h')).
          + apply Hop; [exact Ih|]. apply sub_inv; assumption.
          + replace j with (s + (j - s)) in E by lia. rewrite mul_add in E by exact HP. rewrite assoc in E by auto. apply cancel in E; auto.
            rewrite <- E, assoc, (comm h' (inv h')), inv_l, e_r by auto. reflexivity. }
      apply GEN. lia.
    - rewrite <- (e_l e) by auto. apply (IN' 0 e He).
    - intros x Ix. apply IN in Ix as (i & h & _ & Ih & ->). auto.
    - intros x y Ix Iy. apply IN in Ix as (i & h & _ & Ih & ->). apply IN in Iy as (j & h' & _ & Ih' & ->).
      replace (op (op (mul i P) h) (op (mul j P) h')) with (op (mul (i + j) P) (op h h')); [apply IN'; auto|].
      rewrite mul_add by exact HP. rewrite !assoc by auto. f_equal. rewrite <- !assoc by auto. f_equal. apply comm; auto. }
  split; [exact SUB|]. split.
  - unfold H'. clear. generalize 0. induction k as [|k IH]; intros s; [reflexivity|]. cbn [seq flat_map]. rewrite app_length, map_length, IH. reflexivity.
  - split; [intros x Ix; rewrite <- (e_l x) by auto; apply (IN' 0 x Ix)|]. split; [rewrite <- (e_r P) by auto; replace (op P e) with (op (mul 1 P) e) by (cbn; rewrite e_r; auto); apply (IN' 1 e He)|]. split; [exact Hk|]. split.
    + intros n (_ & E & _). apply MD. rewrite E. exact He.
    + intros Q QH QP Qop Qe x Ix. apply IN in Ix as (i & h & _ & Ih & ->). apply Qop; auto. clear -QP Qop Qe HP on_e on_op. induction i as [|i IH]; cbn; auto.
Qed.
(** The subgroup generated by a list; its size is a product of divisors of the orders of the listed elements. *)
Lemma generated (xs : list T) : (forall x, In x xs -> on x) -> exists H ks, subgroup H /\ (forall x, In x xs -> In x H) /\ length H = fold_right Nat.mul 1 ks /\
  (forall k, In k ks -> 1 <= k /\ exists x n, In x xs /\ ord x n /\ Nat.divide k n) /\
  (forall Q : T -> Prop, (forall x, In x xs -> Q x) -> (forall x y, on x -> on y -> Q x -> Q y -> Q (op x y)) -> Q e -> forall x, In x H -> Q x).
Proof.
  induction xs as [|x xs IH]; intros Hxs.
  - exists [e], []. split; [|split; [|split; [|split]]].
    + split; [constructor; [intros []|constructor]|]. split; [left; reflexivity|]. split; [intros x [<-|[]]; exact on_e|]. intros x y [<-|[]] [<-|[]]. left. symmetry. apply e_l, on_e.
    + intros x [].
    + reflexivity.
    + intros k [].
    + intros Q _ _ Qe x [<-|[]]. exact Qe.
  - destruct IH as (H & ks & SH & I1 & L & K & Q1); [intros y Iy; apply Hxs; right; exact Iy|]. assert (Hx : on x) by (apply Hxs; left; reflexivity).
    destruct (extend H x SH Hx) as (H' & k & SH' & L' & I2 & Ix & K1 & KD & Q2). exists H', (k :: ks). split; [exact SH'|]. split; [|split; [|split]].
    + intros y [<-|Iy]; [exact Ix|]. apply I2, I1, Iy.
    + cbn [fold_right]. rewrite L', L. reflexivity.
    + intros k' [<-|Ik]; [split; [exact K1|]; destruct (ord_exists x Hx) as (n & On & _); exists x, n; split; [left; reflexivity|]; split; [exact On|apply KD, On]|].
      destruct (K k' Ik) as (A & y & n & Iy & B). split; [exact A|]. exists y, n. split; [right; exact Iy|exact B].
    + intros Q Qx Qop Qe. apply Q2; auto; [|apply Qx; left; reflexivity]. apply Q1; auto. intros y Iy. apply Qx. right; exact Iy.
Qed.
Lemma same_length (A B : list T) : NoDup A -> NoDup B -> (forall x, In x A <-> In x B) -> length A = length B.
Proof. intros NA NB H. apply Nat.le_antisymm; apply NoDup_incl_length; auto; intros x Ix; apply H, Ix. Qed.
Lemma prime_in_product l ks : nprime l -> Nat.divide l (fold_right Nat.mul 1 ks) -> exists k, In k ks /\ Nat.divide l k.
Proof.
  intros Pl. induction ks as [|k ks IH]; cbn [fold_right]; intros D.
  - apply Nat.divide_1_r in D. pose proof (nprime_ge l Pl). lia.
  - apply divide_Z in D. rewrite Nat2Z.inj_mul in D. apply (prime_mult _ Pl) in D. destruct D as [D|D]; apply divide_Z in D; [exists k; split; [left; reflexivity|exact D]|].
    destruct (IH D) as (k' & Ik & Dk). exists k'. split; [right; exact Ik|exact Dk].
Qed.
(** Cauchy. *)
Lemma cauchy l : nprime l -> Nat.divide l (length G) -> exists x, on x /\ ord x l.
Proof.
  intros Pl D. destruct (generated G) as (H & ks & (ND & _ & Hon & _) & I1 & L & K & _); [intros x; apply G_in|].
  assert (LG : length G = length H). { apply same_length; auto. intros x. split; [apply I1|]. intros Ix. apply G_in, Hon, Ix. }
  rewrite LG, L in D. destruct (prime_in_product l ks Pl D) as (k & Ik & Dk). destruct (K k Ik) as (_ & x & n & Ix & On & Dn).
  destruct (Nat.divide_trans _ _ _ Dk Dn) as (c & ->). exists (mul c x). split; [apply mul_on, G_in, Ix|]. apply ord_part; [apply G_in, Ix|]. rewrite Nat.mul_comm. exact On.
Qed.
(** Every order divides the size of the group. *)
Lemma ord_divides x n : on x -> ord x n -> Nat.divide n (length G).
Proof.
  intros Hx On. assert (S0 : subgroup [e]). { split; [constructor; [intros []|constructor]|]. split; [left; reflexivity|]. split; [intros y [<-|[]]; exact on_e|]. intros y z [<-|[]] [<-|[]]. left. symmetry. apply e_l, on_e. }
  destruct (extend [e] x S0 Hx) as (H & k & SH & L & _ & Ix & K1 & KD & QH). cbn [length] in L.
  (* cosets: extend H by all of G *)
  assert (E : forall xs H, subgroup H -> (forall y, In y xs -> on y) -> exists H' c, subgroup H' /\ length H' = c * length H /\ (forall y, In y H -> In y H') /\ forall y, In y xs -> In y H').
  { clear H k SH L Ix K1 KD QH. induction xs as [|y xs IH]; intros H SH Hxs; [exists H, 1; split; [exact SH|]; split; [lia|]; split; [auto|intros y []]|].
    destruct (extend H y SH (Hxs y (or_introl eq_refl))) as (H1 & k & SH1 & L1 & I1 & Iy & _). destruct (IH H1 SH1) as (H2 & c & SH2 & L2 & I2 & I3); [intros z Iz; apply Hxs; right; exact Iz|].
    exists H2, (c * k). split; [exact SH2|]. split; [rewrite L2, L1; ring|]. split; [auto|]. intros z [<-|Iz]; auto. }
  destruct (E G H SH) as (H2 & c & (ND2 & _ & On2 & _) & L2 & _ & I3); [intros y; apply G_in|].
  assert (LG : length G = length H2). { apply same_length; auto. intros y. split; [apply I3|]. intros Iy. apply G_in, On2, Iy. }
  (* k = n *)
  assert (n = k).
  { apply Nat.divide_antisym; [|apply KD, On]. destruct On as (N1 & N2 & N3). apply N3.
    destruct (KD n (conj N1 (conj N2 N3))) as (d & Ed).
    (* mul k x in [e] : from extend with H = [e]; reprove by counting multiples *)
    destruct (dec (mul k x) e) as [Z|Z]; [exact Z|exfalso].
    assert (ML : n <= length H).
    { replace n with (length (map (fun i => mul i x) (seq 0 n))) by (rewrite map_length, seq_length; reflexivity). apply NoDup_incl_length.
      - assert (NDm : forall s m, s + m <= n -> NoDup (map (fun i => mul i x) (seq s m))).
        { intros s m. revert s. induction m as [|m IHm]; intros s Hs; cbn [seq map]; [constructor|]. constructor; [|apply IHm; lia]. intros I. apply in_map_iff in I as (j & Ej & Ij). apply in_seq in Ij.
          assert (Zj : mul (j - s) x = e). { apply (cancel (mul s x)); auto. rewrite <- mul_add, e_r by auto. replace (s + (j - s)) with j by lia. exact Ej. }
          apply N3 in Zj. apply Nat.divide_pos_le in Zj; lia. }
        apply NDm. lia.
      - intros y Iy. apply in_map_iff in Iy as (i & <- & _). apply sub_mul; assumption. }
    rewrite L in ML. rewrite Ed in ML. assert (d = 1) by (destruct d as [|[|d]]; nia). subst d. rewrite Nat.mul_1_l in Ed. subst k. contradiction. }
  subst k. rewrite LG, L2, L. exists c. ring.
Qed.
(** The n-torsion as a list; for a prime l its size is a power of l. *)
Definition tors (n : nat) : list T := filter (fun x => if dec (mul n x) e then true else false) G.
Lemma tors_in n x : In x (tors n) <-> on x /\ mul n x = e.
Proof. unfold tors. rewrite filter_In, G_in. destruct (dec (mul n x) e); intuition discriminate. Qed.
Lemma tors_nodup n : NoDup (tors n).
Proof. apply NoDup_filter, G_nodup. Qed.
Lemma power_divisor l i d : nprime l -> Nat.divide d (l ^ i) -> exists j, d = l ^ j.
Proof.
  intros Pl. revert d. induction i as [|i IH]; intros d D.
  - apply Nat.divide_1_r in D. exists 0. exact D.
  - destruct (Zdivide_dec (Z.of_nat l) (Z.of_nat d)) as [Y|N].
    + apply divide_Z in Y. destruct Y as (c & ->). cbn [Nat.pow] in D. rewrite (Nat.mul_comm c l) in D. apply Nat.mul_divide_cancel_l in D; [|pose proof (nprime_ge l Pl); lia].
      destruct (IH c D) as (j & ->). exists (S j). cbn [Nat.pow]. ring.
    + exists 0. cbn. apply Nat.divide_1_r. rewrite <- (gcd_prime_power l (S i) d Pl) by (intros Y; apply N, divide_Z, Y). apply Nat.gcd_greatest; [exact D|apply Nat.divide_refl].
Qed.
Lemma prime_power_torsion l i : nprime l -> exists r, length (tors (l ^ i)) = l ^ r.
Proof.
  intros Pl. destruct (generated (tors (l ^ i))) as (H & ks & (ND & _ & Hon & _) & I1 & L & K & Q); [intros x Ix; apply tors_in in Ix; apply Ix|].
  assert (LH : length (tors (l ^ i)) = length H).
  { apply same_length; [apply tors_nodup|exact ND|]. intros x. split; [apply I1|]. intros Ix. apply tors_in. split; [apply Hon, Ix|].
    apply (Q (fun x => mul (l ^ i) x = e)); auto; [intros y Iy; apply tors_in in Iy; apply Iy|intros y z Hy Hz Ey Ez; rewrite mul_op, Ey, Ez by assumption; apply e_l, on_e|apply mul_e]. }
  rewrite LH, L. clear L LH Q I1.
  assert (KK : forall k, In k ks -> exists j, k = l ^ j).
  { intros k Ik. destruct (K k Ik) as (K1 & x & n & Ix & On & D). apply tors_in in Ix as (_ & Ex). apply (power_divisor l i k Pl). exact (Nat.divide_trans _ _ _ D (proj2 (proj2 On) _ Ex)). }
  clear K. induction ks as [|k ks IH]; [exists 0; reflexivity|]. destruct IH as (r & E); [intros k' Ik; apply KK; right; exact Ik|]. cbn [fold_right]. rewrite E.
  destruct (KK k (or_introl eq_refl)) as (j & ->). exists (j + r). symmetry. apply Nat.pow_add_r.
Qed.
Lemma prime_torsion_size l : nprime l -> exists r, length (tors l) = l ^ r.
Proof. intros Pl. destruct (prime_power_torsion l 1 Pl) as (r & E). rewrite Nat.pow_1_r in E. exists r. exact E. Qed.
Lemma NoDup_app_disj (A B : list T) : NoDup A -> NoDup B -> (forall x, In x A -> In x B -> False) -> NoDup (A ++ B).
Proof.
  revert B. induction A as [|x A IH]; intros B HA HB HD; [exact HB|]. inversion HA; subst. cbn. constructor; [rewrite in_app_iff; intros [I|I]; [contradiction|exact (HD x (or_introl eq_refl) I)]|].
  apply IH; auto. intros y Iy. apply HD. right; exact Iy.
Qed.
Lemma map_op_nodup x B : on x -> NoDup B -> (forall y, In y B -> on y) -> NoDup (map (op x) B).
Proof.
  intros Hx NB HI. induction NB as [|y B NI NB IHB]; [constructor|]. cbn [map]. constructor; [|apply IHB; intros z Iz; apply HI; right; exact Iz].
  intros I. apply in_map_iff in I as (z & E & I). apply cancel in E; auto; [subst; contradiction|apply HI; right; exact I|apply HI; left; reflexivity].
Qed.
Lemma MI n z : on z -> mul n z = e -> mul n (inv z) = e.
Proof. intros Hz Ez. apply (cancel (mul n z)); auto. rewrite <- mul_op, (comm z (inv z)), inv_l, mul_e, e_r by auto. symmetry. exact Ez. Qed.
(** Torsion of a product of coprime numbers. *)
Lemma tors_coprime r s : 1 <= r -> 1 <= s -> Nat.gcd r s = 1 -> length (tors (r * s)) = length (tors r) * length (tors s).
Proof.
  intros Hr Hs Gc. set (L := flat_map (fun x => map (op x) (tors s)) (tors r)).
  assert (LL : length L = length (tors r) * length (tors s)).
  { unfold L. induction (tors r) as [|x A IH]; [reflexivity|]. cbn [flat_map length Nat.mul]. rewrite app_length, map_length, IH. reflexivity. }
  rewrite <- LL. destruct (Nat.gcd_bezout_pos r s ltac:(lia)) as (u & v & BZ). rewrite Gc in BZ.
  (* u r = 1 + v s *)
  assert (SP : forall x, on x -> mul (u * r) x = op x (mul (v * s) x)) by (intros x Hx; rewrite BZ; reflexivity).
  assert (U0 : forall x, on x -> mul r x = e -> mul s x = e -> x = e).
  { intros x Hx E1 E2. pose proof (SP x Hx) as E. rewrite !mul_mul, E1, E2, !mul_e, e_r in E by auto. symmetry. exact E. }
  assert (UNI : forall x x' y y', In x (tors r) -> In x' (tors r) -> In y (tors s) -> In y' (tors s) -> op x y = op x' y' -> x = x').
  { intros x x' y y' Ix Ix' Iy Iy' E. apply tors_in in Ix as (Hx & Ex). apply tors_in in Ix' as (Hx' & Ex'). apply tors_in in Iy as (Hy & Ey). apply tors_in in Iy' as (Hy' & Ey').
    assert (Z : op (inv x') x = op y' (inv y)).
    { apply (cancel x'); auto. rewrite <- assoc, (comm x' (inv x')), inv_l, e_l by auto. rewrite <- (assoc x'), <- E, assoc, (comm y (inv y)), inv_l, e_r by auto. reflexivity. }
    assert (W : op (inv x') x = e).
    { apply U0; auto; [rewrite mul_op, Ex, MI, e_l by auto; reflexivity|]. rewrite Z, mul_op, Ey', MI, e_l by auto. reflexivity. }
    apply (cancel (inv x')); auto. rewrite W, inv_l by auto. reflexivity. }
  apply same_length; [apply tors_nodup| |].
  - assert (GEN : forall A, NoDup A -> (forall x, In x A -> In x (tors r)) -> NoDup (flat_map (fun x => map (op x) (tors s)) A)).
    { induction A as [|x A IH]; intros NA HA; [constructor|]. inversion NA as [|? ? NI NA']; subst. cbn [flat_map]. apply NoDup_app_disj.
      - apply map_op_nodup; [apply (tors_in r), HA; left; reflexivity|apply tors_nodup|intros y Iy; apply tors_in in Iy; apply Iy].
      - apply IH; [exact NA'|intros y Iy; apply HA; right; exact Iy].
      - intros z I1 I2. apply in_map_iff in I1 as (y & <- & Iy). apply in_flat_map in I2 as (x' & Ix' & I2). apply in_map_iff in I2 as (y' & E & Iy').
        assert (x = x') by (apply (UNI x x' y y'); auto; [apply HA; left; reflexivity|apply HA; right; exact Ix']). subst. contradiction. }
    apply GEN; [apply tors_nodup|auto].
  - intros z. unfold L. rewrite in_flat_map. split.
    + intros Iz. apply tors_in in Iz as (Hz & Ez).
      (* z = u r z - v s z : x = -(v s) z in tors r, y = u r z in tors s *)
      exists (inv (mul (v * s) z)). assert (X : mul r (mul (v * s) z) = e) by (rewrite <- mul_mul by auto; replace (r * (v * s)) with (v * (r * s)) by ring; rewrite mul_mul, Ez by auto; apply mul_e).
      split.
      * apply tors_in. split; [auto|]. apply MI; auto.
      * apply in_map_iff. exists (mul (u * r) z). split.
        -- rewrite SP by auto. rewrite (comm z), <- assoc, inv_l, e_l by auto. reflexivity.
        -- apply tors_in. split; [auto|]. rewrite <- mul_mul by auto. replace (s * (u * r)) with (u * (r * s)) by ring. rewrite mul_mul, Ez by auto. apply mul_e.
    + intros (x & Ix & I). apply in_map_iff in I as (y & <- & Iy). apply tors_in in Ix as (Hx & Ex). apply tors_in in Iy as (Hy & Ey). apply tors_in. split; [auto|].
      rewrite mul_op by auto. rewrite (Nat.mul_comm r s) at 1. rewrite !mul_mul, Ex, Ey, !mul_e by auto. apply e_l, on_e.
Qed.
Lemma fibre_count (f : T -> T) N (A B : list T) : NoDup A -> (forall x, In x A -> In (f x) B) -> (forall y, length (filter (fun x => if dec (f x) y then true else false) A) <= N) -> length A <= N * length B.
Proof.
  intros _ HB HF. revert A HB HF. induction B as [|y B IH]; intros A HB HF.
  - destruct A as [|x A]; [cbn; lia|]. destruct (HB x (or_introl eq_refl)).
  - set (t := fun x => if dec (f x) y then true else false).
    assert (SPL : length A = length (filter t A) + length (filter (fun x => negb (t x)) A)).
    { clear. induction A as [|x A IH]; [reflexivity|]. cbn [filter length]. destruct (t x); cbn [negb length]; lia. }
    assert (L2 : length (filter (fun x => negb (t x)) A) <= N * length B).
    { apply IH.
      - intros x Ix. apply filter_In in Ix as (Ix & Nx). destruct (HB x Ix) as [E|I]; [|exact I]. unfold t in Nx. destruct (dec (f x) y); [discriminate|congruence].
      - intros z. etransitivity; [|apply (HF z)]. clear. induction A as [|x A IH]; [cbn; lia|]. cbn [filter]. destruct (t x); cbn [negb]; [destruct (dec (f x) z); cbn [length]; lia|]. cbn [filter]. destruct (dec (f x) z); cbn [length]; lia. }
    pose proof (HF y) as H1. fold t in H1. cbn [length]. lia.
Qed.
Lemma tors_power_le l i : length (tors (l * l ^ i)) <= length (tors l) * length (tors (l ^ i)).
Proof.
  apply (fibre_count (mul l)); [apply tors_nodup| |].
  - intros x Ix. apply tors_in in Ix as (Hx & Ex). apply tors_in. split; [auto|]. rewrite <- mul_mul by auto. rewrite Nat.mul_comm. exact Ex.
  - intros y. set (Fy := filter _ _). destruct Fy as [|x0 R] eqn:EF; [cbn; lia|].
    assert (FI : forall x, In x Fy -> on x /\ mul l x = y). { intros x Ix. unfold Fy in Ix. apply filter_In in Ix as (Ix & Dx). apply tors_in in Ix. destruct (dec (mul l x) y); [split; [apply Ix|assumption]|discriminate]. }
    rewrite <- EF. destruct (FI x0) as (H0 & E0); [rewrite EF; left; reflexivity|].
    rewrite <- (map_length (op (inv x0)) Fy). apply NoDup_incl_length.
    + apply map_op_nodup; [auto|apply NoDup_filter, tors_nodup|intros z Iz; apply FI, Iz].
    + intros z Iz. apply in_map_iff in Iz as (x & <- & Ix). destruct (FI x Ix) as (Hx & Ex). apply tors_in. split; [auto|]. rewrite mul_op, Ex, <- E0, <- mul_op, inv_l by auto. apply mul_e.
Qed.
Lemma prime_power_bound l : nprime l -> length (tors l) <= l * l -> forall i, Nat.divide (length (tors (l ^ i))) (l ^ i * l ^ i).
Proof.
  intros Pl HB i. pose proof (nprime_ge l Pl) as L2. assert (LE : length (tors (l ^ i)) <= l ^ i * l ^ i).
  { induction i as [|i IH].
    - cbn [Nat.pow]. assert (X : length (tors 1) <= length [e]) by (apply NoDup_incl_length; [apply tors_nodup|]; intros x Ix; apply tors_in in Ix as (Hx & Ex); cbn in Ex; rewrite e_r in Ex by auto; left; auto). exact X.
    - cbn [Nat.pow]. pose proof (tors_power_le l i). nia. }
  destruct (prime_power_torsion l i Pl) as (r & E). rewrite E in *. rewrite <- Nat.pow_add_r in *. assert (r <= i + i). { destruct (Nat.le_gt_cases r (i + i)); [assumption|]. pose proof (Nat.pow_lt_mono_r l (i + i) r ltac:(lia) ltac:(lia)). lia. }
  exists (l ^ (i + i - r)). rewrite <- Nat.pow_add_r. f_equal. lia.
Qed.
(** If G has at most l^2 elements of l-torsion for every prime l dividing n then its n-torsion divides n^2. *)
Lemma torsion_divides n : 1 <= n -> (forall l, nprime l -> Nat.divide l n -> length (tors l) <= l * l) -> Nat.divide (length (tors n)) (n * n).
Proof.
  induction n as [n IH] using lt_wf_ind. intros Hn HB. destruct (Nat.eq_dec n 1) as [-> | N1].
  - assert (X : length (tors 1) <= length [e]) by (apply NoDup_incl_length; [apply tors_nodup|]; intros x Ix; apply tors_in in Ix as (Hx & Ex); cbn in Ex; rewrite e_r in Ex by auto; left; auto).
    assert (Y : In e (tors 1)) by (apply tors_in; split; [auto|apply mul_e]). destruct (tors 1) as [|x [|]]; [destruct Y|apply Nat.divide_refl|cbn in X; lia].
  - destruct (nprime_factor n ltac:(lia)) as (l & Pl & Dl). pose proof (nprime_ge l Pl) as L2. destruct (split_power l n L2 Hn) as (j & s & E & N).
    destruct j as [|j]. { exfalso. apply N. replace s with n by (cbn in E; lia). exact Dl. }
    assert (S1 : 1 <= s). { destruct s as [|s]; [rewrite Nat.mul_0_r in E; lia|lia]. }
    assert (Q1 : 2 <= l ^ S j). { cbn [Nat.pow]. pose proof (Nat.pow_nonzero l j ltac:(lia)). nia. }
    rewrite E. rewrite tors_coprime; [|lia|exact S1|apply gcd_prime_power; assumption].
    replace (l ^ S j * s * (l ^ S j * s)) with (l ^ S j * l ^ S j * (s * s)) by ring.
    assert (D1 := prime_power_bound l Pl (HB l Pl Dl) (S j)).
    assert (D2 : Nat.divide (length (tors s)) (s * s)).
    { apply IH; [rewrite E; nia|exact S1|]. intros l' Pl' D'. apply HB; [exact Pl'|]. rewrite E. apply Nat.divide_mul_r, D'. }
    destruct D1 as (u & ->), D2 as (v & ->). exists (u * v). ring.
Qed.
(** The structure: an element of maximal order m, and the size is m d with d dividing m. *)
Lemma structure : (forall l, nprime l -> Nat.divide l (length G) -> length (tors l) <= l * l) ->
  exists x m d, on x /\ ord x m /\ (forall y n, on y -> ord y n -> Nat.divide n m) /\ length G = m * d /\ Nat.divide d m.
Proof.
  intros HB. destruct exponent as (x & m & Hx & Om & M). exists x, m. destruct (ord_divides x m Hx Om) as (d & Ed). exists d. split; [exact Hx|]. split; [exact Om|]. split; [exact M|].
  split; [lia|]. assert (M1 : 1 <= m) by apply Om.
  assert (TG : length (tors m) = length G).
  { apply same_length; [apply tors_nodup|exact G_nodup|]. intros y. rewrite tors_in, G_in. split; [tauto|]. intros Hy. split; [exact Hy|]. destruct (ord_exists y Hy) as (n & On & _).
    destruct (M y n Hy On) as (c & ->). rewrite mul_mul by exact Hy. rewrite (proj1 (proj2 On)). apply mul_e. }
  assert (D : Nat.divide (length (tors m)) (m * m)).
  { apply torsion_divides; [exact M1|]. intros l Pl D. apply HB; [exact Pl|]. rewrite Ed. apply Nat.divide_mul_r, D. }
  rewrite TG, Ed in D. apply Nat.mul_divide_cancel_r in D; [exact D|lia].
Qed.
End Group.
