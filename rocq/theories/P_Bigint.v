(** Proofs about M_Bigint.v. *)
From Coq Require Import Znumtheory Permutation ZifyBool.
From Verif Require Import Prelude M_Bigint.
Open Scope Z_scope.

(** ** res monad helpers *)
Lemma bind_Ok {A B} (x : res A) (f : A -> res B) b :
  bind x f = Ok b -> exists a, x = Ok a /\ f a = Ok b.
Proof. destruct x; simpl; intros H; try discriminate. eauto. Qed.

(** ** power *)
Lemma halvings_step e : 1 < e -> exists k, halvings e = S k /\ k = halvings (Z.quot e 2).
Proof.
  intros He. exists (Z.to_nat (Z.log2 e)). split; [reflexivity|].
  unfold halvings. rewrite Z.quot_div_nonneg by lia.
  assert (H: e / 2 = Z.div2 e) by (rewrite Z.div2_div; reflexivity). rewrite H.
  assert (Hl: Z.log2 e = Z.succ (Z.log2 (Z.div2 e))).
  { rewrite <- H.
    pose proof (Z.div_mod e 2 ltac:(lia)) as Hdm.
    pose proof (Z.mod_pos_bound e 2 ltac:(lia)) as Hm.
    assert (Hp: 0 < e / 2) by (apply Z.div_str_pos; lia).
    destruct (Z.eq_dec (e mod 2) 0) as [E0|E0].
    - rewrite Hdm, E0 at 1. rewrite Z.add_0_r. apply Z.log2_double; lia.
    - assert (e mod 2 = 1) as E1 by lia. rewrite Hdm, E1 at 1. apply Z.log2_succ_double; lia. }
  rewrite Hl, Z2Nat.inj_succ; [reflexivity|apply Z.log2_nonneg].
Qed.

Lemma quot2_split e : 1 < e -> e = 2 * Z.quot e 2 + (if Z.odd e then 1 else 0) /\ 1 <= Z.quot e 2 < e.
Proof.
  intros He. rewrite Z.quot_div_nonneg by lia.
  pose proof (Z.div_mod e 2 ltac:(lia)) as Hdm. rewrite Zmod_odd in Hdm.
  split; [exact Hdm|]. destruct (Z.odd e); lia.
Qed.

Lemma power_loop_spec fuel : forall e b r, 1 <= e -> (halvings e <= fuel)%nat ->
  power_loop fuel e b r = Ok (r * b ^ e).
Proof.
  induction fuel as [|f IH]; intros e b r He Hf.
  - unfold halvings in Hf; lia.
  - simpl. destruct (1 <? e) eqn:E1.
    + assert (1 < e) as E by lia.
      destruct (halvings_step e E) as (k & Hk & Hk'). destruct (quot2_split e E) as (Hs & Hb).
      rewrite IH by lia. f_equal.
      rewrite Hs at 3. rewrite Z.pow_add_r, Z.pow_mul_r, Z.pow_2_r by (destruct (Z.odd e); lia).
      destruct (Z.odd e); ring.
    + assert (e = 1) by lia. subst. f_equal. ring.
Qed.

Lemma power_spec b n : 0 <= n -> power b n = Ok (b ^ n).
Proof.
  intros Hn. unfold power. destruct (n =? 0) eqn:E.
  - assert (n = 0) by lia. now subst.
  - rewrite power_loop_spec by lia. f_equal; ring.
Qed.
Lemma power_i32_spec b n : 0 <= n -> power_i32 b n = Ok (b ^ n).
Proof. exact (power_spec b n). Qed.
Lemma power_neg b n : n < 0 -> power b n = Ok b.
Proof.
  intros Hn. unfold power. destruct (n =? 0) eqn:E; [lia|].
  unfold halvings. cbn [power_loop]. destruct (1 <? n) eqn:E1; [lia|]. f_equal; lia.
Qed.
Lemma power_total b n : exists v, power b n = Ok v.
Proof.
  destruct (Z_lt_le_dec n 0); [exists b; apply power_neg; lia | eexists; apply power_spec; lia].
Qed.

Lemma pow_mod u p e : p <> 0 -> 0 <= e -> ((u mod p) ^ e) mod p = (u ^ e) mod p.
Proof.
  intros Hp He. revert e He. apply natlike_ind; [reflexivity|]. intros x Hx IHx.
  rewrite !Z.pow_succ_r by lia. rewrite Z.mul_mod, IHx by lia. rewrite Z.mod_mod by lia.
  rewrite <- Z.mul_mod by lia. reflexivity.
Qed.

Lemma power_modulo_loop_spec p fuel : p <> 0 -> forall e b r, 1 <= e -> (halvings e <= fuel)%nat ->
  power_modulo_loop fuel p e b r = Ok ((r * b ^ e) mod p).
Proof.
  intros Hp. assert (Hm: forall z, mod_floor z p = Ok (z mod p)).
  { intros z; unfold mod_floor. destruct (p =? 0) eqn:E; [lia|reflexivity]. }
  induction fuel as [|f IH]; intros e b r He Hf.
  - unfold halvings in Hf; lia.
  - cbn [power_modulo_loop]. destruct (1 <? e) eqn:E1.
    + assert (1 < e) as E by lia.
      destruct (halvings_step e E) as (k & Hk & Hk'). destruct (quot2_split e E) as (Hs & Hb).
      set (r' := if Z.odd e then (r * b) mod p else r).
      assert (Hr: (if Z.odd e then mod_floor (r * b) p else Ok r) = Ok r').
      { unfold r'. destruct (Z.odd e); [apply Hm|reflexivity]. }
      rewrite Hr. cbn [bind]. rewrite Hm. cbn [bind]. rewrite IH by lia. f_equal.
      rewrite Hs at 2. rewrite Z.pow_add_r, Z.pow_mul_r, Z.pow_2_r by (destruct (Z.odd e); lia).
      rewrite Z.mul_mod by lia.
      assert (Hpm: forall u, ((u mod p) ^ Z.quot e 2) mod p = (u ^ Z.quot e 2) mod p).
      { intros u. apply pow_mod; lia. }
      rewrite Hpm. rewrite <- Z.mul_mod by lia. unfold r'.
      destruct (Z.odd e).
      * rewrite Z.mul_mod_idemp_l by lia. f_equal. ring.
      * f_equal. ring.
    + assert (e = 1) by lia. subst. rewrite Hm. f_equal. f_equal. ring.
Qed.

Lemma power_modulo_spec b n p : 1 <= n -> p <> 0 -> power_modulo b n p = Ok (b ^ n mod p).
Proof.
  intros Hn Hp. unfold power_modulo. destruct (n =? 0) eqn:E; [lia|].
  rewrite power_modulo_loop_spec by lia. f_equal. f_equal. ring.
Qed.
Lemma power_modulo_zero b p : power_modulo b 0 p = Ok 1.
Proof. reflexivity. Qed.
Lemma power_modulo_panic b n : 1 <= n -> power_modulo b n 0 = Panic.
Proof.
  intros Hn. unfold power_modulo. destruct (n =? 0) eqn:E; [lia|].
  unfold halvings. cbn [power_modulo_loop]. destruct (1 <? n).
  - destruct (Z.odd n); reflexivity.
  - reflexivity.
Qed.

(** ** Fermat's little theorem *)
Lemma prime_mul_cancel p a x y : prime p -> ~ (p | a) -> (p | a * x - a * y) -> (p | x - y).
Proof.
  intros Hp Ha H. replace (a * x - a * y) with (a * (x - y)) in H by ring.
  destruct (prime_mult p Hp _ _ H); tauto.
Qed.

Lemma mod_eq_divide a b p : p <> 0 -> (a mod p = b mod p <-> (p | a - b)).
Proof.
  intros Hp. split; intros H.
  - exists (a / p - b / p). pose proof (Z.div_mod a p Hp). pose proof (Z.div_mod b p Hp). lia.
  - destruct H as [k Hk]. replace a with (b + k * p) by lia. apply Z.mod_add; lia.
Qed.

Definition prodZ (l : list Z) := fold_right Z.mul 1 l.
Lemma prodZ_perm l l' : Permutation l l' -> prodZ l = prodZ l'.
Proof. induction 1; simpl; try lia. Qed.

Lemma prodZ_map_mod p a l : p <> 0 ->
  (p | prodZ (map (fun x => (a * x) mod p) l) - a ^ Z.of_nat (length l) * prodZ l).
Proof.
  intros Hp. induction l as [|x l IH].
  - simpl. exists 0. ring.
  - change (map (fun x0 => (a * x0) mod p) (x :: l)) with ((a*x) mod p :: map (fun x0 => (a * x0) mod p) l).
    cbn [prodZ fold_right length]. fold (prodZ (map (fun x0 => (a * x0) mod p) l)). fold (prodZ l).
    rewrite Nat2Z.inj_succ, Z.pow_succ_r by lia.
    destruct IH as [k Hk].
    set (P := prodZ (map (fun x0 => (a * x0) mod p) l)) in *. set (A := a ^ Z.of_nat (length l)) in *.
    exists ((a*x) mod p * k - (a * x / p) * (A * prodZ l)).
    pose proof (Z.div_mod (a*x) p Hp) as Hd.
    replace P with (k * p + A * prodZ l) by lia.
    set (m := (a * x) mod p) in *. set (q := a * x / p) in *.
    replace (a * A * (x * prodZ l)) with ((p * q + m) * (A * prodZ l)) by (rewrite <- Hd; ring).
    ring.
Qed.

Lemma prodZ_not_div p l : prime p -> (forall x, In x l -> ~ (p | x)) -> ~ (p | prodZ l).
Proof.
  intros Hp. induction l as [|x l IH]; intros H HD.
  - simpl in HD. destruct Hp. apply Z.divide_1_r_nonneg in HD; lia.
  - cbn [prodZ fold_right] in HD. destruct (prime_mult p Hp _ _ HD) as [D|D].
    + apply (H x); [left; reflexivity|exact D].
    + apply IH; [|exact D]. intros y Hy; apply H; right; exact Hy.
Qed.

Lemma in_zrange x a b : In x (zrange a b) <-> a <= x < b.
Proof.
  unfold zrange. rewrite in_map_iff. split.
  - intros (k & Hk & Hi). rewrite in_seq in Hi. lia.
  - intros H. exists (Z.to_nat (x - a)). rewrite in_seq. lia.
Qed.
Lemma NoDup_zrange a b : NoDup (zrange a b).
Proof.
  unfold zrange. apply FinFun.Injective_map_NoDup; [intros x y; lia | apply seq_NoDup].
Qed.
Lemma length_zrange a b : length (zrange a b) = Z.to_nat (b - a).
Proof. unfold zrange. rewrite map_length, seq_length. reflexivity. Qed.

Lemma NoDup_map_inj_in {A B} (f : A -> B) l :
  (forall x y, In x l -> In y l -> f x = f y -> x = y) -> NoDup l -> NoDup (map f l).
Proof.
  intros Hf H. induction H as [|x l Hx Hl IH]; [constructor|]. simpl. constructor.
  - rewrite in_map_iff. intros (y & Hy & Hi). apply Hx.
    rewrite (Hf x y); auto; [left; reflexivity | right; exact Hi].
  - apply IH. intros u v Hu Hv. apply Hf; right; assumption.
Qed.

Theorem fermat_little p a : prime p -> ~ (p | a) -> (p | a ^ (p - 1) - 1).
Proof.
  intros Hp Ha. pose proof (prime_ge_2 p Hp) as H2.
  set (l := zrange 1 p).
  assert (Hl: forall x, In x l -> ~ (p | x)).
  { intros x Hx HD. unfold l in Hx. rewrite in_zrange in Hx. apply Z.divide_pos_le in HD; lia. }
  assert (Hperm: Permutation (map (fun x => (a * x) mod p) l) l).
  { apply NoDup_Permutation_bis.
    - apply NoDup_map_inj_in; [|apply NoDup_zrange].
      intros x y Hx Hy E. unfold l in Hx, Hy. rewrite in_zrange in Hx, Hy.
      apply mod_eq_divide in E; [|lia]. apply prime_mul_cancel in E; auto.
      destruct (Z.eq_dec x y) as [|N]; auto. exfalso.
      apply Z.divide_abs_r in E. apply Z.divide_pos_le in E; lia.
    - rewrite map_length. lia.
    - intros y Hy. rewrite in_map_iff in Hy. destruct Hy as (x & Hx & Hi).
      pose proof (Hl x Hi) as Hnx. unfold l. rewrite in_zrange.
      pose proof (Z.mod_pos_bound (a * x) p ltac:(lia)) as Hb.
      assert (y <> 0); [|lia]. intros ->.
      assert (p | a * x) as HD by (apply Z.mod_divide; lia).
      destruct (prime_mult p Hp _ _ HD); tauto. }
  pose proof (prodZ_map_mod p a l ltac:(lia)) as HD.
  rewrite (prodZ_perm _ _ Hperm) in HD.
  assert (HD' : (p | prodZ l * 1 - prodZ l * a ^ (p - 1))).
  { destruct HD as [k Hk]. exists k. rewrite <- Hk. unfold l at 4. rewrite length_zrange, Z2Nat.id by lia. ring. }
  apply prime_mul_cancel in HD'; [|assumption|apply prodZ_not_div; assumption].
  destruct HD' as [k Hk]. exists (- k). lia.
Qed.

(** ** inverse *)
Lemma inverse_small a p : p < 2 -> inverse a p = Panic.
Proof. intros H. unfold inverse. destruct (2 <=? p) eqn:E; [lia|reflexivity]. Qed.

Lemma inverse_eq a p : 2 <= p -> inverse a p = Ok (a ^ (p - 2) mod p).
Proof.
  intros H. unfold inverse. destruct (2 <=? p) eqn:E; [|lia]. cbn [assertb bind].
  destruct (Z.eq_dec p 2) as [->|N].
  - reflexivity.
  - apply power_modulo_spec; lia.
Qed.

Lemma inverse_spec a p : prime p -> ~ (p | a) ->
  exists r, inverse a p = Ok r /\ 0 <= r < p /\ (p | a * r - 1).
Proof.
  intros Hp Ha. pose proof (prime_ge_2 p Hp).
  exists (a ^ (p - 2) mod p). split; [apply inverse_eq; lia|].
  split; [apply Z.mod_pos_bound; lia|].
  destruct (fermat_little p a Hp Ha) as [k Hk].
  pose proof (Z.div_mod (a ^ (p - 2)) p ltac:(lia)) as Hd.
  exists (k - a * (a ^ (p-2) / p)).
  replace (p - 1) with (Z.succ (p - 2)) in Hk by lia. rewrite Z.pow_succ_r in Hk by lia.
  replace (a ^ (p - 2) mod p) with (a ^ (p - 2) - p * (a ^ (p - 2) / p)) by lia.
  rewrite Z.mul_sub_distr_r, <- Hk. ring.
Qed.

Lemma inverse_unique a p r r' : prime p -> 0 <= r < p -> 0 <= r' < p ->
  (p | a * r - 1) -> (p | a * r' - 1) -> r = r'.
Proof.
  intros Hp Hr Hr' [k Hk] [k' Hk'].
  assert (Ha: ~ (p | a)).
  { intros [u Hu]. subst a. assert (p | 1) as D by (exists (u * r - k); lia).
    destruct Hp. apply Z.divide_1_r_nonneg in D; lia. }
  assert (HD: (p | a * r - a * r')) by (exists (k - k'); lia).
  apply prime_mul_cancel in HD; auto.
  destruct (Z.eq_dec r r') as [|N]; auto. exfalso.
  apply Z.divide_abs_r in HD. apply Z.divide_pos_le in HD; lia.
Qed.

Lemma inverse_zero a p : prime p -> p <> 2 -> (p | a) -> inverse a p = Ok 0.
Proof.
  intros Hp N Ha. pose proof (prime_ge_2 p Hp). rewrite inverse_eq by lia. f_equal.
  apply Z.mod_divide; [lia|]. replace (p - 2) with (Z.succ (p - 3)) by lia.
  rewrite Z.pow_succ_r by lia. apply Z.divide_mul_l; assumption.
Qed.

(** ** extended_gcd *)
Lemma egcd_fuel_enough k : forall fuel a b, Z.abs a < 2 ^ Z.of_nat k -> (2 * k <= fuel)%nat ->
  exists g x y, extended_gcd_loop fuel a b = Ok (g, x, y).
Proof.
  induction k as [|k IH]; intros fuel a b Ha Hf.
  - assert (a = 0) by (simpl in Ha; lia). subst. destruct fuel; simpl; eauto.
  - destruct fuel as [|[|f]]; try lia. cbn [extended_gcd_loop].
    destruct (a =? 0) eqn:E; [eauto|]. set (r := Z.rem b a).
    destruct (r =? 0) eqn:E'; [cbn; eauto|].
    assert (Hr: Z.abs r < Z.abs a) by (apply Z.rem_bound_abs; lia).
    assert (Hrr: Z.abs (Z.rem a r) < 2 ^ Z.of_nat k).
    { rewrite Nat2Z.inj_succ, Z.pow_succ_r in Ha by lia.
      pose proof (Z.rem_bound_abs a r ltac:(lia)) as B.
      rewrite <- Z.rem_abs by lia.
      rewrite Z.rem_mod_nonneg by lia.
      pose proof (Z.div_mod (Z.abs a) (Z.abs r) ltac:(lia)).
      pose proof (Z.mod_pos_bound (Z.abs a) (Z.abs r) ltac:(lia)).
      assert (1 <= Z.abs a / Z.abs r) by (apply Z.div_le_lower_bound; lia).
      nia. }
    destruct (IH f (Z.rem a r) r Hrr ltac:(lia)) as (g & x & y & Hg). rewrite Hg. cbn. eauto.
Qed.

Lemma egcd_loop_correct fuel : forall a b g x y, extended_gcd_loop fuel a b = Ok (g, x, y) ->
  a * x + b * y = g /\ Z.abs g = Z.gcd a b /\ (0 <= a -> 0 <= b -> 0 <= g).
Proof.
  induction fuel as [|f IH]; intros a b g x y H; cbn [extended_gcd_loop] in H.
  - destruct (a =? 0) eqn:E; [|discriminate]. inversion H; subst. assert (a = 0) by lia; subst.
    pose proof (Z.gcd_0_l g). lia.
  - destruct (a =? 0) eqn:E.
    + inversion H; subst. assert (a = 0) by lia; subst. pose proof (Z.gcd_0_l g). lia.
    + apply bind_Ok in H. destruct H as ([[g' x'] y'] & H1 & H2). inversion H2; subst.
      destruct (IH _ _ _ _ _ H1) as (B & G & S).
      pose proof (Z.quot_rem' b a) as Q. split; [|split].
      * rewrite <- B. rewrite Q at 2. ring.
      * rewrite G. rewrite Z.gcd_comm.
        replace b with (Z.rem b a + Z.quot b a * a) at 2 by lia.
        rewrite Z.gcd_add_mult_diag_r. reflexivity.
      * intros Ha Hb. apply S; [apply Z.rem_nonneg; lia|lia].
Qed.

Lemma extended_gcd_spec a b : exists g x y, extended_gcd a b = Ok (g, x, y) /\
  a * x + b * y = g /\ Z.abs g = Z.gcd a b /\ (0 <= a -> 0 <= b -> g = Z.gcd a b).
Proof.
  destruct (egcd_fuel_enough (S (Z.to_nat (Z.log2 (Z.abs a)))) (egcd_fuel a) a b) as (g & x & y & H).
  - rewrite Nat2Z.inj_succ, Z2Nat.id by apply Z.log2_nonneg.
    destruct (Z.eq_dec a 0) as [->|N]; [reflexivity|].
    apply Z.log2_spec; lia.
  - unfold egcd_fuel. lia.
  - exists g, x, y. destruct (egcd_loop_correct _ _ _ _ _ _ H) as (B & G & S).
    repeat split; auto. intros Ha Hb. specialize (S Ha Hb). lia.
Qed.

(** ** chinese_remainder *)
Lemma crt_fold v : forall l r,
  0 < l -> Forall (fun m => 0 < mr_l m) v ->
  Forall (fun m => rel_prime l (mr_l m)) v ->
  ForallOrdPairs (fun m m' => rel_prime (mr_l m) (mr_l m')) v ->
  exists r', foldM crt_step v (mkMod l r) = Ok (mkMod (l * prodZ (map mr_l v)) r') /\
    (l | r' - r) /\ Forall (fun m => (mr_l m | r' - mr_r m)) v.
Proof.
  induction v as [|m v IH]; intros l r Hl Hpos Hcop Hpair.
  - exists r. simpl. rewrite Z.mul_1_r. repeat split; auto. exists 0; ring.
  - inversion Hpos; inversion Hcop; inversion Hpair; subst.
    destruct (extended_gcd_spec l (mr_l m)) as (g & x & y & E & B & _ & G).
    assert (g = 1). { rewrite G by lia. apply Zgcd_1_rel_prime. assumption. } subst g.
    set (r1 := r + (mr_r m - r) * l * x).
    destruct (IH (l * mr_l m) r1) as (r' & E' & D & F); auto.
    + nia.
    + rewrite Forall_forall in *. intros z Hz. apply rel_prime_sym, rel_prime_mult; apply rel_prime_sym; auto.
    + exists r'. cbn [foldM]. unfold crt_step at 1. cbn [mr_l mr_r]. rewrite E. cbn [bind].
      fold r1. rewrite E'. cbn [map prodZ fold_right].
      split; [f_equal; f_equal; unfold prodZ; ring|]. destruct D as [k Hk]. split.
      * exists (k * mr_l m + (mr_r m - r) * x). replace r' with (k * (l * mr_l m) + r1) by lia. unfold r1; ring.
      * constructor; [|exact F]. exists (k * l - (mr_r m - r) * y). replace r' with (k * (l * mr_l m) + r1) by lia. unfold r1.
        replace ((mr_r m - r) * l * x) with ((mr_r m - r) * (1 - mr_l m * y))
          by (replace (1 - mr_l m * y) with (l * x) by lia; ring). ring.
Qed.

Lemma prod_divides v s : ForallOrdPairs (fun m m' => rel_prime (mr_l m) (mr_l m')) v ->
  Forall (fun m => (mr_l m | s)) v -> (prodZ (map mr_l v) | s).
Proof.
  induction v as [|m v IH]; intros Hp Hd; cbn [map prodZ fold_right].
  - apply Z.divide_1_l.
  - inversion Hp; inversion Hd; subst. specialize (IH H2 H6). fold (prodZ (map mr_l v)).
    destruct H5 as [k Hk]. subst s.
    assert (rel_prime (prodZ (map mr_l v)) (mr_l m)).
    { clear - H1. induction v as [|z v IH]; cbn [map prodZ fold_right].
      - apply rel_prime_1.
      - inversion H1; subst. fold (prodZ (map mr_l v)). apply rel_prime_sym, rel_prime_mult; auto.
        apply rel_prime_sym; auto. }
    rewrite Z.mul_comm in IH. apply Gauss in IH; auto.
    destruct IH as [j Hj]. exists j. subst k. ring.
Qed.

(** ** Statements used by C_Bigint.v *)
Lemma power_modulo_canonical b n p : 0 <= n -> 2 <= p ->
  exists r, power_modulo b n p = Ok r /\ 0 <= r < p /\ r = b ^ n mod p.
Proof.
  intros Hn Hp. exists (b ^ n mod p). split; [|split; [apply Z.mod_pos_bound; lia|reflexivity]].
  destruct (Z.eq_dec n 0) as [->|N]; [|apply power_modulo_spec; lia].
  rewrite power_modulo_zero. f_equal. rewrite Z.pow_0_r, Z.mod_small; lia.
Qed.

Lemma inverse_exists_unique p a : prime p -> ~ (p | a) ->
  exists r, inverse a p = Ok r /\ 0 <= r < p /\ (p | a * r - 1) /\
            (forall r', 0 <= r' < p -> (p | a * r' - 1) -> r' = r).
Proof.
  intros Hp Ha. destruct (inverse_spec a p Hp Ha) as (r & E & B & D).
  exists r. repeat split; auto; try lia.
  intros r' B' D'. exact (inverse_unique a p r' r Hp B' B D' D).
Qed.

Lemma inverse_composite_refuted : exists a m r, 2 <= m /\ rel_prime a m /\
  inverse a m = Ok r /\ ~ (m | a * r - 1).
Proof.
  exists 2, 9, 2. split; [lia|]. split; [apply Zgcd_1_rel_prime; reflexivity|].
  split; [reflexivity|]. intros [k Hk]. lia.
Qed.

Lemma inverse_exact a m : 2 <= m ->
  exists r, inverse a m = Ok r /\ 0 <= r < m /\ ((m | a * r - 1) <-> (m | a ^ (m - 1) - 1)).
Proof.
  intros Hm. exists (a ^ (m - 2) mod m). split; [apply inverse_eq; lia|].
  split; [apply Z.mod_pos_bound; lia|].
  replace (m - 1) with (Z.succ (m - 2)) by lia. rewrite Z.pow_succ_r by lia.
  pose proof (Z.div_mod (a ^ (m - 2)) m ltac:(lia)) as Hd.
  set (u := a ^ (m - 2)) in *. set (q := u / m) in *. set (r := u mod m) in *.
  replace (a * u - 1) with (a * r - 1 + (a * q) * m) by (rewrite Hd; ring).
  split; intros [k Hk]; [exists (k + a * q) | exists (k - a * q)]; lia.
Qed.

Lemma crt_spec v :
  Forall (fun m => 0 < mr_l m) v ->
  ForallOrdPairs (fun m m' => rel_prime (mr_l m) (mr_l m')) v ->
  exists r, chinese_remainder v = Ok (mkMod (fold_right Z.mul 1 (map mr_l v)) r) /\
    (forall m, In m v -> (mr_l m | r - mr_r m)) /\
    (forall s, (forall m, In m v -> (mr_l m | s - mr_r m)) ->
               (fold_right Z.mul 1 (map mr_l v) | s - r)).
Proof.
  intros Hpos Hpair. destruct (crt_fold v 1 1) as (r & E & _ & F); auto; [lia| |].
  - rewrite Forall_forall. intros z _. apply rel_prime_sym, rel_prime_1 || apply rel_prime_1.
  - exists r. rewrite Z.mul_1_l in E. rewrite Forall_forall in F. split; [exact E|]. split; [exact F|].
    intros s Hs. apply (prod_divides v (s - r) Hpair). rewrite Forall_forall. intros m Hm.
    replace (s - r) with ((s - mr_r m) - (r - mr_r m)) by ring. apply Z.divide_sub_r; auto.
Qed.

Lemma crt_not_canonical : exists v l r,
  Forall (fun m => 2 <= mr_l m /\ 0 <= mr_r m < mr_l m) v /\
  ForallOrdPairs (fun m m' => rel_prime (mr_l m) (mr_l m')) v /\
  chinese_remainder v = Ok (mkMod l r) /\ ~ (0 <= r < l).
Proof.
  exists [mkMod 3 2; mkMod 5 3; mkMod 7 2], 105, (-82).
  split; [repeat constructor; simpl; lia|].
  split; [repeat first [apply FOP_nil | apply FOP_cons | apply Forall_nil | apply Forall_cons];
    apply Zgcd_1_rel_prime; reflexivity|]. split; [reflexivity|lia].
Qed.

Lemma crt_mod_canonical v :
  Forall (fun m => 0 < mr_l m) v ->
  ForallOrdPairs (fun m m' => rel_prime (mr_l m) (mr_l m')) v ->
  exists l r, chinese_remainder v = Ok (mkMod l r) /\ 0 <= r mod l < l /\
    (forall m, In m v -> (mr_l m | r mod l - mr_r m)) /\
    (forall s, 0 <= s < l -> (forall m, In m v -> (mr_l m | s - mr_r m)) -> s = r mod l).
Proof.
  intros Hpos Hpair. destruct (crt_spec v Hpos Hpair) as (r & E & D & U).
  set (l := fold_right Z.mul 1 (map mr_l v)) in *. exists l, r.
  assert (Hl: 0 < l). { unfold l. clear -Hpos. induction Hpos; simpl; lia. }
  assert (Hdiv: forall m, In m v -> (mr_l m | l)).
  { unfold l. clear. induction v as [|m v IH]; intros z Hz; [destruct Hz|]. simpl. destruct Hz as [->|Hz].
    - apply Z.divide_factor_l. - apply Z.divide_mul_r; auto. }
  split; [exact E|]. split; [apply Z.mod_pos_bound; lia|]. split.
  - intros m Hm. pose proof (Z.div_mod r l ltac:(lia)).
    replace (r mod l - mr_r m) with ((r - mr_r m) - l * (r / l)) by lia.
    apply Z.divide_sub_r; auto. apply Z.divide_mul_l; auto.
  - intros s Hs Hm. specialize (U s Hm). apply mod_eq_divide in U; [|lia].
    rewrite <- U. symmetry. apply Z.mod_small; lia.
Qed.
