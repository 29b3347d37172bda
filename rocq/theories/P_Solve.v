(** Lemmas about solve (Gaussian elimination over the integers). *)
From Verif Require Import Prelude M_Bigint M_Solve Spec.
Open Scope Z_scope.

Lemma vget_ok {A} (v : list A) i d : (i < length v)%nat -> vget v i = Ok (nth i v d).
Proof. intros H. unfold vget. rewrite (nth_error_nth' v d H). reflexivity. Qed.
Lemma vget_lt {A} (v : list A) i x : vget v i = Ok x -> (i < length v)%nat.
Proof. unfold vget. destruct (nth_error v i) eqn:E; [|discriminate]. intros _. apply nth_error_Some. congruence. Qed.
Lemma vget_inv {A} (v : list A) i x d : vget v i = Ok x -> (i < length v)%nat /\ x = nth i v d.
Proof. intros H. pose proof (vget_lt v i x H) as L. rewrite (vget_ok v i d L) in H. split; congruence. Qed.
Lemma vset_ok {A} (v : list A) i x d : (i < length v)%nat -> exists v', vset v i x = Ok v' /\ length v' = length v /\
  forall k, nth k v' d = if Nat.eqb k i then x else nth k v d.
Proof.
  revert i. induction v as [|y v IH]; intros i H; [cbn in H; lia|]. destruct i as [|i].
  - exists (x :: v). split; [reflexivity|]. split; [reflexivity|]. intros [|k]; reflexivity.
  - cbn in H. destruct (IH i ltac:(lia)) as (v' & E & L & N). cbn [vset]. rewrite E. cbn [bind]. exists (y :: v'). split; [reflexivity|]. split; [cbn; lia|].
    intros [|k]; [reflexivity|]. cbn. apply N.
Qed.

(** Shape and entries. *)
Definition shape (R C : nat) (a : matrix) : Prop := length a = R /\ forall r, (r < R)%nat -> length (nth r a []) = C.
Definition g (a : matrix) (r k : nat) : Z := nth k (nth r a []) 0.
Lemma mget_ok R C a r k : shape R C a -> (r < R)%nat -> (k < C)%nat -> mget a r k = Ok (g a r k).
Proof.
  intros (L & H) Hr Hk. unfold mget. rewrite (vget_ok a r []) by lia. cbn [bind]. rewrite (vget_ok _ k 0) by (rewrite H; lia). reflexivity.
Qed.
Lemma mset_ok R C a r k x : shape R C a -> (r < R)%nat -> (k < C)%nat -> exists a', mset a r k x = Ok a' /\ shape R C a' /\
  forall r' k', g a' r' k' = if Nat.eqb r' r && Nat.eqb k' k then x else g a r' k'.
Proof.
  intros (L & H) Hr Hk. unfold mset. rewrite (vget_ok a r []) by lia. cbn [bind].
  destruct (vset_ok (nth r a []) k x 0) as (w & E & Lw & Nw); [rewrite H; lia|]. rewrite E. cbn [bind].
  destruct (vset_ok a r w []) as (a' & E' & La & Na); [lia|]. rewrite E'. exists a'. split; [reflexivity|]. split.
  - split; [lia|]. intros r' Hr'. rewrite Na. destruct (Nat.eqb r' r) eqn:X; [rewrite Lw; apply H; lia|apply H, Hr'].
  - intros r' k'. unfold g. rewrite Na. destruct (Nat.eqb_spec r' r) as [->|X]; cbn [andb]; [rewrite Nw; reflexivity|reflexivity].
Qed.

(** A loop over all columns that rewrites row rj. *)
Lemma row_loop R C (step : matrix -> nat -> res matrix) (ri rj : nat) (h : Z -> Z -> Z) : (rj < R)%nat -> ri <> rj ->
  (forall a k, shape R C a -> (k < C)%nat -> step a k = mset a rj k (h (g a ri k) (g a rj k))) ->
  forall n a, (n <= C)%nat -> shape R C a -> exists a', foldM step (seq 0 n) a = Ok a' /\ shape R C a' /\
    forall r k, g a' r k = if Nat.eqb r rj && Nat.ltb k n then h (g a ri k) (g a rj k) else g a r k.
Proof.
  intros Hrj Hne Hs n a Hn Ha. 
  assert (P: forall n s a, (s + n <= C)%nat -> shape R C a -> exists a', foldM step (seq s n) a = Ok a' /\ shape R C a' /\
    forall r k, g a' r k = if Nat.eqb r rj && (Nat.leb s k && Nat.ltb k (s + n)) then h (g a ri k) (g a rj k) else g a r k).
  { clear n a Hn Ha. induction n as [|n IH]; intros s a Hn Ha.
    - exists a. split; [reflexivity|]. split; [exact Ha|]. intros r k. destruct (Nat.leb_spec s k), (Nat.ltb_spec k (s + 0)); try lia; rewrite ?andb_false_r; reflexivity.
    - cbn [seq foldM]. rewrite (Hs a s Ha) by lia. destruct (mset_ok R C a rj s (h (g a ri s) (g a rj s)) Ha Hrj ltac:(lia)) as (a1 & E1 & S1 & G1). rewrite E1. cbn [bind].
      destruct (IH (S s) a1 ltac:(lia) S1) as (a' & E & S' & G). exists a'. split; [exact E|]. split; [exact S'|]. intros r k. rewrite G, !G1. rewrite Nat.eqb_refl.
      destruct (Nat.eqb_spec ri rj); [contradiction|]. cbn [andb].
      destruct (Nat.eqb_spec r rj) as [->|]; cbn [andb]; [|reflexivity].
      destruct (Nat.leb_spec (S s) k), (Nat.ltb_spec k (S s + n)), (Nat.leb_spec s k), (Nat.ltb_spec k (s + S n)), (Nat.eqb_spec k s); cbn [andb]; try lia; subst; reflexivity. }
  destruct (P n 0%nat a Hn Ha) as (a' & E & S' & G). exists a'. split; [exact E|]. split; [exact S'|]. intros r k. rewrite G. reflexivity.
Qed.

Lemma eliminate_spec R C row i j c1 a : shape R C a -> length row = R -> (j < R)%nat -> (i < R)%nat -> (i < C)%nat -> nth i row 0%nat <> nth j row 0%nat ->
  (forall l, (l < R)%nat -> (nth l row 0 < R)%nat) -> c1 = g a (nth i row 0%nat) i -> c1 <> 0 ->
  exists a' u v, eliminate_row C row i c1 a j = Ok a' /\ shape R C a' /\ v <> 0 /\ v * g a (nth j row 0%nat) i = u * g a (nth i row 0%nat) i /\
    forall r k, g a' r k = if Nat.eqb r (nth j row 0%nat) && Nat.ltb k C then v * g a (nth j row 0%nat) k - u * g a (nth i row 0%nat) k else g a r k.
Proof.
  intros Sa Lr Hj Hi Hc Hne Hb E1 N1. unfold eliminate_row. rewrite (vget_ok row j 0%nat) by lia. cbn [bind]. set (rj := nth j row 0%nat) in *. set (ri := nth i row 0%nat) in *.
  assert (Hrj: (rj < R)%nat) by (apply Hb, Hj). assert (Hri: (ri < R)%nat) by (apply Hb, Hi).
  rewrite (mget_ok R C a rj i Sa Hrj Hc). cbn [bind]. destruct (Z.eqb_spec (g a rj i) 0) as [Z0|Z0]; cbn [negb].
  - exists a, 0, 1. split; [reflexivity|]. split; [exact Sa|]. split; [lia|]. split; [lia|]. intros r k.
    destruct (Nat.eqb_spec r rj) as [->|]; cbn [andb]; [destruct (k <? C)%nat; ring|reflexivity].
  - set (c2 := g a rj i) in *. unfold div_trunc at 1 2. destruct (Z.eqb_spec c1 0); [contradiction|]. destruct (Z.eqb_spec c2 0); [contradiction|]. cbn [bind].
    destruct (Z.divide_lcm_l c1 c2) as (u & Eu). destruct (Z.divide_lcm_r c1 c2) as (v & Ev).
    rewrite Eu, Z.quot_mul by assumption. rewrite <- Eu, Ev, Z.quot_mul by assumption.
    assert (NL: Z.lcm c1 c2 <> 0) by (intros L; apply Z.lcm_eq_0 in L; tauto).
    destruct (row_loop R C (fun a k => v0 <- mget a rj k ;; mset a rj k (v0 * v)) ri rj (fun _ y => y * v) Hrj Hne) with (n := C) (a := a) as (a1 & F1 & S1 & G1); auto.
    { intros b k Sb Hk. rewrite (mget_ok R C b rj k Sb Hrj Hk). reflexivity. }
    rewrite F1. cbn [bind]. rewrite (vget_ok row i 0%nat) by lia. cbn [bind]. fold ri.
    destruct (row_loop R C (fun a k => w <- mget a ri k ;; v0 <- mget a rj k ;; mset a rj k (v0 - w * u)) ri rj (fun x y => y - x * u) Hrj Hne) with (n := C) (a := a1) as (a2 & F2 & S2 & G2); auto.
    { intros b k Sb Hk. rewrite (mget_ok R C b ri k Sb Hri Hk), (mget_ok R C b rj k Sb Hrj Hk). reflexivity. }
    rewrite F2. exists a2, u, v. split; [reflexivity|]. split; [exact S2|]. split; [intros ->; lia|]. split; [fold c2; rewrite <- E1; lia|].
    intros r k. rewrite G2, !G1. rewrite Nat.eqb_refl. destruct (Nat.eqb_spec ri rj); [contradiction|]. cbn [andb].
    destruct (Nat.eqb_spec r rj) as [->|]; cbn [andb]; [|reflexivity]. destruct (k <? C)%nat; [ring|reflexivity].
Qed.

(** Row permutation vectors *)
Definition okrow (R : nat) (row : list nat) : Prop := length row = R /\ (forall l, (l < R)%nat -> (nth l row 0 < R)%nat) /\
  (forall l l', (l < R)%nat -> (l' < R)%nat -> nth l row 0%nat = nth l' row 0%nat -> l = l').
Definition ent (a : matrix) (row : list nat) (j k : nat) : Z := g a (nth j row 0%nat) k.
Lemma okrow_seq R : okrow R (seq 0 R).
Proof.
  split; [apply seq_length|]. split; [intros l Hl; rewrite seq_nth by exact Hl; lia|]. intros l l' H H'. rewrite !seq_nth by assumption. lia.
Qed.
Lemma okrow_surj R row r : okrow R row -> (r < R)%nat -> exists l, (l < R)%nat /\ nth l row 0%nat = r.
Proof.
  intros (L & B & I) Hr. assert (incl (seq 0 R) row).
  { apply NoDup_length_incl.
    - apply (NoDup_nth row 0%nat). rewrite L. exact I.
    - rewrite seq_length. lia.
    - intros x Hx. apply (In_nth row x 0%nat) in Hx. destruct Hx as (l & Hl & <-). apply in_seq. split; [lia|]. apply B. lia. }
  assert (In r row) by (apply H, in_seq; lia). apply (In_nth row r 0%nat) in H0. destruct H0 as (l & Hl & E). exists l. split; [lia|exact E].
Qed.

Definition swapi (i j l : nat) : nat := if Nat.eqb l i then j else if Nat.eqb l j then i else l.
Lemma swapi_lt i j l R : (i < R -> j < R -> l < R -> swapi i j l < R)%nat.
Proof. unfold swapi. destruct (Nat.eqb_spec l i), (Nat.eqb_spec l j); lia. Qed.
Lemma swapi_inj i j l l' : swapi i j l = swapi i j l' -> l = l'.
Proof. unfold swapi. destruct (Nat.eqb_spec l i), (Nat.eqb_spec l j), (Nat.eqb_spec l' i), (Nat.eqb_spec l' j); lia. Qed.
Lemma pivot_spec R C a row i : shape R C a -> okrow R row -> (i < R)%nat -> (i < C)%nat -> forall n j0, (j0 + n = R)%nat -> (i <= j0)%nat ->
  (forall j, (i <= j < j0)%nat -> ent a row j i = 0) ->
  exists row', pivot_search a row i (seq j0 n) = Ok row' /\
    ((row' = row /\ forall j, (i <= j < R)%nat -> ent a row j i = 0) \/
     (okrow R row' /\ ent a row' i i <> 0 /\ exists j, (i <= j < R)%nat /\ (forall j', (i <= j' < j)%nat -> ent a row j' i = 0) /\ forall l, nth l row' 0%nat = nth (swapi i j l) row 0%nat)).
Proof.
  intros Sa Ok Hi Hc. pose proof Ok as (L & B & I). induction n as [|n IH]; intros j0 Hj Hij Hz.
  - exists row. split; [reflexivity|]. left. split; [reflexivity|]. intros j Hj'. apply Hz. lia.
  - cbn [seq pivot_search]. rewrite (vget_ok row j0 0%nat) by lia. cbn [bind]. rewrite (mget_ok R C a _ i Sa) by (try apply B; lia). cbn [bind].
    fold (ent a row j0 i). destruct (Z.eqb_spec (ent a row j0 i) 0) as [Z0|Z0]; cbn [negb].
    + apply IH; [lia|lia|]. intros j Hj'. destruct (Nat.eq_dec j j0) as [->|]; [exact Z0|]. apply Hz. lia.
    + destruct (Nat.eqb_spec i j0) as [<-|Ne]; cbn [negb].
      * exists row. split; [reflexivity|]. right. split; [exact Ok|]. split; [exact Z0|]. exists i. split; [lia|]. split; [intros; lia|]. intros l. unfold swapi. destruct (Nat.eqb_spec l i); subst; reflexivity.
      * rewrite (vget_ok row i 0%nat) by lia. cbn [bind]. destruct (vset_ok row i (nth j0 row 0%nat) 0%nat ltac:(lia)) as (r1 & E1 & L1 & N1). rewrite E1. cbn [bind].
        destruct (vset_ok r1 j0 (nth i row 0%nat) 0%nat ltac:(lia)) as (r2 & E2 & L2 & N2). rewrite E2. exists r2. split; [reflexivity|]. right.
        assert (N: forall l, nth l r2 0%nat = nth (swapi i j0 l) row 0%nat).
        { intros l. rewrite N2, N1. unfold swapi. destruct (Nat.eqb_spec l j0), (Nat.eqb_spec l i); subst; try lia; reflexivity. }
        split; [|split].
        -- split; [lia|]. split.
           ++ intros l Hl. rewrite N. apply B, swapi_lt; lia.
           ++ intros l l' Hl Hl'. rewrite !N. intros E. apply (swapi_inj i j0). apply I; try apply swapi_lt; lia.
        -- unfold ent. rewrite N. unfold swapi. rewrite Nat.eqb_refl. exact Z0.
        -- exists j0. split; [lia|]. split; [exact Hz|exact N].
Qed.

(** Systems in terms of entries *)
Definition Sol (R n : nat) (t : Z) (a : matrix) (x : nat -> Z) : Prop := forall r, (r < R)%nat -> dot n (nth r a []) x = t * g a r n.
Lemma dot_ext n (f f' : list Z) x : (forall k, (k < n)%nat -> nth k f 0 = nth k f' 0) -> dot n f x = dot n f' x.
Proof. intros H. unfold dot. f_equal. apply map_ext_in. intros k Hk. apply in_seq in Hk. rewrite H by lia. reflexivity. Qed.
Lemma dot_lin n f f1 f2 u v x : (forall k, (k < n)%nat -> nth k f 0 = v * nth k f1 0 - u * nth k f2 0) -> dot n f x = v * dot n f1 x - u * dot n f2 x.
Proof.
  intros H. unfold dot. assert (forall l, (forall k, In k l -> (k < n)%nat) -> fold_right Z.add 0 (map (fun k => nth k f 0 * x k) l) =
    v * fold_right Z.add 0 (map (fun k => nth k f1 0 * x k) l) - u * fold_right Z.add 0 (map (fun k => nth k f2 0 * x k) l)).
  { induction l as [|k l IH]; intros Hl; cbn; [ring|]. rewrite IH by (intros; apply Hl; right; assumption). rewrite H by (apply Hl; left; reflexivity). ring. }
  apply H0. intros k Hk. apply in_seq in Hk. lia.
Qed.
Lemma dot_single n f x i : (i < n)%nat -> (forall k, (k < n)%nat -> k <> i -> nth k f 0 = 0) -> dot n f x = nth i f 0 * x i.
Proof.
  intros Hi H. unfold dot. assert (forall l, NoDup l -> (forall k, In k l -> (k < n)%nat) -> fold_right Z.add 0 (map (fun k => nth k f 0 * x k) l) =
    if existsb (Nat.eqb i) l then nth i f 0 * x i else 0).
  { induction l as [|k l IH]; intros Nd Hl; [reflexivity|]. inversion Nd as [|? ? Hk Nd']; subst. cbn [map fold_right existsb]. rewrite IH by (auto; intros; apply Hl; right; assumption).
    destruct (Nat.eqb_spec i k) as [<-|Ne]; cbn [orb].
    - destruct (existsb (Nat.eqb i) l) eqn:X; [|ring]. apply existsb_exists in X. destruct X as (z & Hz & Ez). apply Nat.eqb_eq in Ez. subst z. contradiction.
    - rewrite (H k) by (try apply Hl; try (left; reflexivity); lia). ring. }
  rewrite H0; [|apply seq_NoDup|intros k Hk; apply in_seq in Hk; lia].
  destruct (existsb (Nat.eqb i) (seq 0 n)) eqn:X; [reflexivity|]. assert (existsb (Nat.eqb i) (seq 0 n) = true); [|congruence]. apply existsb_exists. exists i. split; [apply in_seq; lia|apply Nat.eqb_refl].
Qed.
Lemma dot_zero n f x : (forall k, (k < n)%nat -> nth k f 0 = 0) -> dot n f x = 0.
Proof. intros H. rewrite (dot_lin n f f f 0 0 x); [ring|]. intros k Hk. rewrite H by exact Hk. ring. Qed.

(** The LU phase *)
Definition upper (R i : nat) (a : matrix) (row : list nat) : Prop :=
  forall k, (k < i)%nat -> (k < R)%nat /\ ent a row k k <> 0 /\ forall j, (k < j < R)%nat -> ent a row j k = 0.
Lemma elim_loop R n row i a0 : shape R (S n) a0 -> okrow R row -> (i < R)%nat -> (i < n)%nat -> upper R i a0 row -> ent a0 row i i <> 0 ->
  forall m j0 a, (j0 + m = R)%nat -> (i < j0)%nat -> shape R (S n) a -> upper R i a row -> ent a row i i = ent a0 row i i -> (forall j, (i < j < j0)%nat -> ent a row j i = 0) ->
  exists a', foldM (eliminate_row (S n) row i (ent a0 row i i)) (seq j0 m) a = Ok a' /\ shape R (S n) a' /\ upper R (S i) a' row /\
    (forall l k, (l <= i)%nat -> ent a' row l k = ent a row l k) /\ forall t x, Sol R n t a x <-> Sol R n t a' x.
Proof.
  intros Sa0 Ok Hi Hn U0 N0. pose proof Ok as (L & B & I). induction m as [|m IH]; intros j0 a Hm Hij Sa Ua Ei Hz.
  - exists a. split; [reflexivity|]. split; [exact Sa|]. split; [|split; reflexivity]. intros k Hk. destruct (Nat.eq_dec k i) as [->|].
    + split; [exact Hi|]. split; [rewrite Ei; exact N0|]. intros j Hj. apply Hz. lia.
    + apply Ua. lia.
  - cbn [seq foldM].
    destruct (eliminate_spec R (S n) row i j0 (ent a0 row i i) a Sa L ltac:(lia) Hi ltac:(lia)) as (a1 & u & v & E1 & S1 & Nv & Huv & G1); auto.
    { intros E. apply I in E; lia. }
    rewrite E1. cbn [bind]. set (rj := nth j0 row 0%nat) in *. set (ri := nth i row 0%nat) in *.
    assert (Hrj: (rj < R)%nat) by (apply B; lia). assert (Hri: (ri < R)%nat) by (apply B; lia).
    assert (O: forall l k, (l < R)%nat -> l <> j0 -> ent a1 row l k = ent a row l k).
    { intros l k Hl Ne. unfold ent. rewrite G1. destruct (Nat.eqb_spec (nth l row 0%nat) rj) as [E|]; [apply I in E; lia|reflexivity]. }
    assert (J: forall k, (k < S n)%nat -> ent a1 row j0 k = v * ent a row j0 k - u * ent a row i k).
    { intros k Hk. unfold ent. rewrite G1. fold rj ri. rewrite Nat.eqb_refl. destruct (Nat.ltb_spec k (S n)); [reflexivity|lia]. }
    destruct (IH (S j0) a1) as (a' & E & S' & U' & Hd & Hs); auto; try lia.
    + intros k Hk. destruct (Ua k Hk) as (A1 & A2 & A3). split; [exact A1|]. split; [rewrite O by lia; exact A2|]. intros j Hj. destruct (Nat.eq_dec j j0) as [->|].
      * rewrite J by lia. rewrite A3 by lia. rewrite A3 by lia. ring.
      * rewrite O by lia. apply A3, Hj.
    + rewrite O by lia. exact Ei.
    + intros j Hj. destruct (Nat.eq_dec j j0) as [->|].
      * rewrite J by lia. unfold ent. fold rj ri. lia.
      * rewrite O by lia. apply Hz. lia.
    + exists a'. split; [exact E|]. split; [exact S'|]. split; [exact U'|]. split; [intros l k Hl; rewrite Hd by exact Hl; apply O; lia|]. intros t x. rewrite <- Hs.
      assert (D: dot n (nth rj a1 []) x = v * dot n (nth rj a []) x - u * dot n (nth ri a []) x).
      { apply dot_lin. intros k Hk. fold (g a1 rj k) (g a rj k) (g a ri k). rewrite G1, Nat.eqb_refl. destruct (Nat.ltb_spec k (S n)); [reflexivity|lia]. }
      assert (P: g a1 rj n = v * g a rj n - u * g a ri n) by (rewrite G1, Nat.eqb_refl; destruct (Nat.ltb_spec n (S n)); [reflexivity|lia]).
      assert (Q: forall r, r <> rj -> dot n (nth r a1 []) x = dot n (nth r a []) x /\ g a1 r n = g a r n).
      { intros r Ne. split; [apply dot_ext; intros k Hk; fold (g a1 r k) (g a r k)|]; rewrite G1; destruct (Nat.eqb_spec r rj); try contradiction; reflexivity. }
      assert (Hne: ri <> rj) by (intros E'; apply I in E'; lia).
      split; intros H r Hr.
      * destruct (Nat.eq_dec r rj) as [->|Ne]; [rewrite D, P, !H by assumption; ring|]. destruct (Q r Ne) as (Q1 & Q2). rewrite Q1, Q2. apply H, Hr.
      * destruct (Nat.eq_dec r rj) as [->|Ne]; [|destruct (Q r Ne) as (Q1 & Q2); rewrite <- Q1, <- Q2; apply H, Hr].
        pose proof (H rj Hr) as H1. rewrite D, P in H1. destruct (Q ri Hne) as (Q1 & Q2). pose proof (H ri Hri) as H2. rewrite Q1, Q2 in H2. rewrite H2 in H1.
        apply (Z.mul_reg_l _ _ v Nv). lia.
Qed.

Lemma lu_step_spec R n a row i : shape R (S n) a -> okrow R row -> (i < n)%nat -> upper R i a row ->
  (exists a' row', lu_step R (S n) (a, row) i = Ok (a', row') /\ shape R (S n) a' /\ okrow R row' /\ upper R (S i) a' row' /\ (forall k, (k < i)%nat -> ent a' row' k k = ent a row k k) /\
    (exists j, (i <= j < R)%nat /\ (forall j', (i <= j' < j)%nat -> ent a row j' i = 0) /\ ent a' row' i i = ent a row j i) /\ forall t x, Sol R n t a x <-> Sol R n t a' x) \/
  (lu_step R (S n) (a, row) i = Panic /\ forall j, (i <= j < R)%nat -> ent a row j i = 0).
Proof.
  intros Sa Ok Hn U. pose proof Ok as (L & B & I). unfold lu_step. destruct (Nat.lt_ge_cases i R) as [Hi|Hi].
  - destruct (pivot_spec R (S n) a row i Sa Ok Hi ltac:(lia) (R - i) i ltac:(lia) ltac:(lia) ltac:(intros; lia)) as (row' & Ep & [(-> & Hz)|(Ok' & Np & j & Hj & Hf & Hs)]).
    + right. rewrite Ep. cbn [bind]. rewrite (vget_ok row i 0%nat) by lia. cbn [bind]. rewrite (mget_ok R (S n) a _ i Sa) by (try apply B; lia). cbn [bind].
      fold (ent a row i i). rewrite (Hz i) by lia. split; [reflexivity|exact Hz].
    + left. rewrite Ep. cbn [bind]. pose proof Ok' as (L' & B' & I'). rewrite (vget_ok row' i 0%nat) by lia. cbn [bind]. rewrite (mget_ok R (S n) a _ i Sa) by (try apply B'; lia). cbn [bind].
      fold (ent a row' i i). destruct (Z.eqb_spec (ent a row' i i) 0); [contradiction|]. cbn [negb assertb bind].
      assert (U': upper R i a row').
      { intros k Hk. destruct (U k Hk) as (U1 & U2 & U3). split; [exact U1|]. unfold ent in *. rewrite Hs. split.
        - unfold swapi. destruct (Nat.eqb_spec k i); [lia|]. destruct (Nat.eqb_spec k j); [lia|]. exact U2.
        - intros l Hl. rewrite Hs. apply U3. unfold swapi. destruct (Nat.eqb_spec l i); [lia|]. destruct (Nat.eqb_spec l j); lia. }
      destruct (elim_loop R n row' i a Sa Ok' Hi Hn U' Np (R - (i + 1)) (i + 1) a ltac:(lia) ltac:(lia) Sa U' eq_refl ltac:(intros; lia)) as (a' & E & S' & U'' & Hd & Hsol).
      rewrite E. cbn [bind]. exists a', row'. do 4 (split; [auto|]). split; [|split; [|exact Hsol]].
      * intros k Hk. rewrite Hd by lia. unfold ent. rewrite Hs. unfold swapi. destruct (Nat.eqb_spec k i); [lia|]. destruct (Nat.eqb_spec k j); [lia|]. reflexivity.
      * exists j. split; [exact Hj|]. split; [exact Hf|]. rewrite Hd by lia. unfold ent. rewrite Hs. unfold swapi. rewrite Nat.eqb_refl. reflexivity.
  - right. assert (E: (R - i)%nat = 0%nat) by lia. rewrite E. cbn [seq pivot_search bind]. split; [|intros; lia].
    unfold vget. rewrite (proj2 (nth_error_None row i)) by lia. reflexivity.
Qed.
Lemma lu_loop R n a row : shape R (S n) a -> okrow R row -> forall m i, (i + m = n)%nat -> upper R i a row ->
  (exists a' row', foldM (lu_step R (S n)) (seq i m) (a, row) = Ok (a', row') /\ shape R (S n) a' /\ okrow R row' /\ upper R n a' row' /\
     (forall k, (k < i)%nat -> ent a' row' k k = ent a row k k) /\
     ((0 < m)%nat -> exists j, (i <= j < R)%nat /\ (forall j', (i <= j' < j)%nat -> ent a row j' i = 0) /\ ent a' row' i i = ent a row j i) /\ forall t x, Sol R n t a x <-> Sol R n t a' x) \/
  (foldM (lu_step R (S n)) (seq i m) (a, row) = Panic /\ exists i' a' row', (i' < n)%nat /\ shape R (S n) a' /\ okrow R row' /\ upper R i' a' row' /\ (forall j, (i' <= j < R)%nat -> ent a' row' j i' = 0) /\
     forall t x, Sol R n t a x <-> Sol R n t a' x).
Proof.
  intros Sa Ok m. revert a row Sa Ok. induction m as [|m IH]; intros a row Sa Ok i Hm U.
  - left. exists a, row. replace n with i by lia. split; [reflexivity|]. replace i with n by lia. split; [exact Sa|]. split; [exact Ok|]. split; [replace n with i by lia; exact U|]. split; [reflexivity|]. split; [lia|reflexivity].
  - cbn [seq foldM]. destruct (lu_step_spec R n a row i Sa Ok ltac:(lia) U) as [(a1 & row1 & E & S1 & Ok1 & U1 & Hd & Hp & Hs)|(E & Hz)]; rewrite E; cbn [bind].
    + destruct (IH a1 row1 S1 Ok1 (S i) ltac:(lia) U1) as [(a' & row' & E' & S' & O' & U' & Hd' & _ & Hs')|(E' & i' & a' & row' & A & B & C & D & F & Hs')].
      * left. exists a', row'. do 4 (split; [assumption|]). split; [intros k Hk; rewrite Hd' by lia; apply Hd, Hk|]. split; [|intros t x; rewrite Hs; apply Hs'].
        intros _. destruct Hp as (j & Hj & Hf & Ej). exists j. split; [exact Hj|]. split; [exact Hf|]. rewrite Hd' by lia. exact Ej.
      * right. split; [exact E'|]. exists i', a', row'. do 5 (split; [assumption|]). intros t x. rewrite Hs. apply Hs'.
    + right. split; [reflexivity|]. exists i, a, row. split; [lia|]. do 4 (split; [assumption|]). reflexivity.
Qed.

(** Back substitution *)
Definition tri (R n T : nat) (a : matrix) (row : list nat) : Prop :=
  (forall j, (j < n)%nat -> (j < R)%nat /\ ent a row j j <> 0) /\
  (forall j k, (j < R)%nat -> (k < n)%nat -> (k < j)%nat \/ (T <= k)%nat /\ k <> j -> ent a row j k = 0) /\
  (forall l, (T <= l < n)%nat -> ent a row l l = 1).
Lemma upper_tri R n a row : upper R n a row -> tri R n n a row.
Proof.
  intros U. split; [|split].
  - intros j Hj. destruct (U j Hj) as (A & B & _). auto.
  - intros j k Hj Hk [H|H]; [|lia]. apply U; lia.
  - intros l Hl. lia.
Qed.
Lemma sub_loop R n row i val : okrow R row -> (i < n)%nat -> (i < R)%nat -> forall m j0 a, (j0 + m = i)%nat -> shape R (S n) a ->
  exists a', foldM (fun a j =>
           rj <- vget row j ;;
           t_val <- mget a rj i ;;
           v <- mget a rj n ;;
           a <- mset a rj n (v - t_val * val) ;;
           mset a rj i 0) (seq j0 m) a = Ok a' /\ shape R (S n) a' /\
    forall j k, (j < R)%nat -> ent a' row j k = if Nat.leb j0 j && Nat.ltb j i then (if Nat.eqb k i then 0 else if Nat.eqb k n then ent a row j n - ent a row j i * val else ent a row j k) else ent a row j k.
Proof.
  intros Okr Hn Hi. pose proof Okr as (L & B & I). induction m as [|m IH]; intros j0 a Hm Sa.
  - exists a. split; [reflexivity|]. split; [exact Sa|]. intros j k Hj. destruct (Nat.leb_spec j0 j), (Nat.ltb_spec j i); cbn [andb]; try lia; reflexivity.
  - cbn [seq foldM]. rewrite (vget_ok row j0 0%nat) by lia. cbn [bind]. assert (Hr: (nth j0 row 0 < R)%nat) by (apply B; lia).
    rewrite (mget_ok R (S n) a _ i Sa Hr) by lia. cbn [bind]. rewrite (mget_ok R (S n) a _ n Sa Hr) by lia. cbn [bind].
    destruct (mset_ok R (S n) a (nth j0 row 0%nat) n (g a (nth j0 row 0%nat) n - g a (nth j0 row 0%nat) i * val) Sa Hr ltac:(lia)) as (a1 & E1 & S1 & G1). rewrite E1. cbn [bind].
    destruct (mset_ok R (S n) a1 (nth j0 row 0%nat) i 0 S1 Hr ltac:(lia)) as (a2 & E2 & S2 & G2). rewrite E2. cbn [bind].
    destruct (IH (S j0) a2 ltac:(lia) S2) as (a' & E & S' & G). exists a'. split; [exact E|]. split; [exact S'|]. intros j k Hj. rewrite G by exact Hj. unfold ent. rewrite !G2, !G1.
    destruct (Nat.eq_dec j j0) as [->|Ne].
    + rewrite Nat.eqb_refl. destruct (Nat.leb_spec (S j0) j0); [lia|]. destruct (Nat.leb_spec j0 j0); [|lia]. destruct (Nat.ltb_spec j0 i); [|lia]. cbn [andb]. reflexivity.
    + destruct (Nat.eqb_spec (nth j row 0%nat) (nth j0 row 0%nat)) as [E'|]; [apply I in E'; lia|]. cbn [andb].
      destruct (Nat.leb_spec (S j0) j), (Nat.ltb_spec j i), (Nat.leb_spec j0 j); cbn [andb]; try lia; reflexivity.
Qed.
Lemma sub_step R n row i a : okrow R row -> (i < n)%nat -> shape R (S n) a -> tri R n (S i) a row ->
  exists a', substitute_step (S n) row a i = Ok a' /\ shape R (S n) a' /\ tri R n i a' row /\ (forall x, Sol R n 1 a x -> Sol R n 1 a' x) /\
    (i <> 0%nat -> ent a' row 0 0 = ent a row 0 0).
Proof.
  intros Okr Hn Sa (T1 & T2 & T3). pose proof Okr as (L & B & I). destruct (T1 i Hn) as (Hi & Nd).
  assert (Hr: (nth i row 0 < R)%nat) by (apply B; lia).
  unfold substitute_step. replace (S n - 1)%nat with n by lia. cbv zeta. rewrite (vget_ok row i 0%nat) by lia. cbn [bind].
  rewrite (mget_ok R (S n) a _ i Sa Hr) by lia. cbn [bind]. rewrite (mget_ok R (S n) a _ n Sa Hr) by lia. cbn [bind].
  fold (ent a row i i) (ent a row i n). set (val := Z.quot (ent a row i n) (ent a row i i)).
  assert (H1: exists a1, (if negb (ent a row i i =? 1) then a0 <- mset a (nth i row 0%nat) i 1 ;; v <- div_trunc (ent a row i n) (ent a row i i) ;; mset a0 (nth i row 0%nat) n v else Ok a) = Ok a1 /\
    shape R (S n) a1 /\ forall j k, (j < R)%nat -> ent a1 row j k = if Nat.eqb j i then (if Nat.eqb k i then 1 else if Nat.eqb k n then val else ent a row j k) else ent a row j k).
  { destruct (Z.eqb_spec (ent a row i i) 1) as [E|E]; cbn [negb].
    - exists a. split; [reflexivity|]. split; [exact Sa|]. intros j k Hj. unfold val. rewrite E, Z.quot_1_r.
      destruct (Nat.eqb_spec j i) as [->|]; [|reflexivity]. destruct (Nat.eqb_spec k i) as [->|]; [exact E|]. destruct (Nat.eqb_spec k n) as [->|]; reflexivity.
    - destruct (mset_ok R (S n) a (nth i row 0%nat) i 1 Sa Hr ltac:(lia)) as (a1 & E1 & S1 & G1). rewrite E1. cbn [bind]. unfold div_trunc.
      destruct (Z.eqb_spec (ent a row i i) 0); [contradiction|]. cbn [bind]. fold val.
      destruct (mset_ok R (S n) a1 (nth i row 0%nat) n val S1 Hr ltac:(lia)) as (a2 & E2 & S2 & G2). exists a2. split; [exact E2|]. split; [exact S2|].
      intros j k Hj. unfold ent. rewrite G2, G1. destruct (Nat.eqb_spec j i) as [->|Ne].
      + rewrite Nat.eqb_refl. cbn [andb]. destruct (Nat.eqb_spec k n), (Nat.eqb_spec k i); try lia; reflexivity.
      + destruct (Nat.eqb_spec (nth j row 0%nat) (nth i row 0%nat)) as [E'|]; [apply I in E'; lia|]. reflexivity. }
  destruct H1 as (a1 & E1 & S1 & G1). rewrite E1. cbn [bind]. rewrite (mget_ok R (S n) a1 _ n S1 Hr) by lia. cbn [bind].
  assert (Ev: g a1 (nth i row 0%nat) n = val).
  { fold (ent a1 row i n). rewrite G1 by exact Hi. rewrite Nat.eqb_refl. destruct (Nat.eqb_spec n i); [lia|]. rewrite Nat.eqb_refl. reflexivity. }
  rewrite Ev. destruct (sub_loop R n row i val Okr Hn Hi i 0%nat a1 ltac:(lia) S1) as (a' & E' & S' & G'). rewrite E'. exists a'. split; [reflexivity|]. split; [exact S'|].
  assert (G: forall j k, (j < R)%nat -> ent a' row j k =
     if Nat.ltb j i then (if Nat.eqb k i then 0 else if Nat.eqb k n then ent a row j n - ent a row j i * val else ent a row j k)
     else if Nat.eqb j i then (if Nat.eqb k i then 1 else if Nat.eqb k n then val else ent a row j k) else ent a row j k).
  { intros j k Hj. rewrite G' by exact Hj. cbn [Nat.leb andb]. rewrite !G1 by exact Hj. destruct (Nat.ltb_spec j i), (Nat.eqb_spec j i); try lia; reflexivity. }
  split; [|split].
  - split; [|split].
    + intros j Hj. destruct (T1 j Hj) as (A & C). split; [exact A|]. rewrite G by exact A. destruct (Nat.ltb_spec j i).
      * destruct (Nat.eqb_spec j i); [lia|]. destruct (Nat.eqb_spec j n); [lia|]. exact C.
      * destruct (Nat.eqb_spec j i); [lia|exact C].
    + intros j k Hj Hk H. rewrite G by exact Hj. destruct (Nat.ltb_spec j i).
      * destruct (Nat.eqb_spec k i); [reflexivity|]. destruct (Nat.eqb_spec k n); [lia|]. apply T2; lia.
      * destruct (Nat.eqb_spec j i) as [->|].
        -- destruct (Nat.eqb_spec k i); [lia|]. destruct (Nat.eqb_spec k n); [lia|]. apply T2; lia.
        -- apply T2; lia.
    + intros l Hl. destruct (T1 l ltac:(lia)) as (A & C). rewrite G by exact A. destruct (Nat.ltb_spec l i); [lia|]. destruct (Nat.eqb_spec l i); [reflexivity|]. apply T3. lia.
  - intros x Hx.
    assert (Xi: val = x i).
    { pose proof (Hx (nth i row 0%nat) Hr) as H. rewrite (dot_single n _ x i Hn) in H.
      - fold (g a (nth i row 0%nat) i) (ent a row i i) in H. fold (ent a row i n) in H. unfold val. rewrite Z.mul_1_l in H. rewrite <- H. rewrite Z.mul_comm. apply Z.quot_mul. exact Nd.
      - intros k Hk Ne. fold (g a (nth i row 0%nat) k) (ent a row i k). apply T2; lia. }
    intros r Hrr. destruct (okrow_surj R row r Okr Hrr) as (j & Hj & <-). specialize (Hx _ Hrr).
    fold (ent a row j n) in Hx. fold (ent a' row j n). rewrite G by exact Hj. destruct (Nat.ltb_spec j i) as [Hji|Hji].
    + destruct (Nat.eqb_spec n i); [lia|]. rewrite Nat.eqb_refl.
      (* row' = row - t e_i *)
      set (ei := repeat 0 i ++ [ent a row j i]).
      assert (Hei: forall k, nth k ei 0 = if Nat.eqb k i then ent a row j i else 0).
      { intros k. unfold ei. destruct (Nat.eqb_spec k i) as [->|Ne].
        - rewrite app_nth2 by (rewrite repeat_length; lia). rewrite repeat_length, Nat.sub_diag. reflexivity.
        - destruct (Nat.lt_ge_cases k i).
          + rewrite app_nth1 by (rewrite repeat_length; lia). apply nth_repeat.
          + apply nth_overflow. rewrite app_length, repeat_length. cbn. lia. }
      rewrite (dot_lin n _ (nth (nth j row 0%nat) a []) ei 1 1 x).
      * rewrite Hx. rewrite (dot_single n ei x i Hn) by (intros k _ Ne; rewrite Hei; destruct (Nat.eqb_spec k i); [contradiction|reflexivity]).
        rewrite Hei, Nat.eqb_refl. fold (ent a row j n). rewrite Xi. ring.
      * intros k Hk. fold (g a' (nth j row 0%nat) k) (g a (nth j row 0%nat) k). fold (ent a' row j k) (ent a row j k). rewrite G by exact Hj. rewrite Hei.
        destruct (Nat.ltb_spec j i); [|lia]. destruct (Nat.eqb_spec k i) as [->|]; [ring|]. destruct (Nat.eqb_spec k n); [lia|]. ring.
    + destruct (Nat.eqb_spec j i) as [->|Ne].
      * destruct (Nat.eqb_spec n i); [lia|]. rewrite Nat.eqb_refl. rewrite (dot_single n _ x i Hn).
        -- fold (g a' (nth i row 0%nat) i) (ent a' row i i). rewrite G by exact Hi. destruct (Nat.ltb_spec i i); [lia|]. rewrite Nat.eqb_refl, Xi. ring.
        -- intros k Hk Nk. fold (g a' (nth i row 0%nat) k) (ent a' row i k). rewrite G by exact Hi. destruct (Nat.ltb_spec i i); [lia|]. rewrite Nat.eqb_refl.
           destruct (Nat.eqb_spec k i); [contradiction|]. destruct (Nat.eqb_spec k n); [lia|]. apply T2; lia.
      * rewrite <- Hx. apply dot_ext. intros k Hk. fold (g a' (nth j row 0%nat) k) (g a (nth j row 0%nat) k). fold (ent a' row j k) (ent a row j k). rewrite G by exact Hj.
        destruct (Nat.ltb_spec j i); [lia|]. destruct (Nat.eqb_spec j i); [contradiction|reflexivity].
  - intros H0. rewrite G by lia. destruct (Nat.ltb_spec 0 i); [|lia]. destruct (Nat.eqb_spec 0 i); [lia|]. destruct (Nat.eqb_spec 0 n); [lia|]. reflexivity.
Qed.
Lemma sub_all R n row : okrow R row -> forall m a, (m < n)%nat \/ m = 0%nat -> shape R (S n) a -> tri R n (S m) a row ->
  exists a', foldM (substitute_step (S n) row) (rev (seq 1 m)) a = Ok a' /\ shape R (S n) a' /\ tri R n 1 a' row /\ (forall x, Sol R n 1 a x -> Sol R n 1 a' x) /\ ent a' row 0 0 = ent a row 0 0.
Proof.
  intros Okr. induction m as [|m IH]; intros a Hm Sa Ta.
  - exists a. cbn. auto.
  - rewrite seq_S, rev_app_distr. cbn [rev app foldM]. destruct (sub_step R n row (1 + m) a Okr ltac:(lia) Sa Ta) as (a1 & E1 & S1 & T1 & H1 & D1). rewrite E1. cbn [bind].
    destruct (IH a1 ltac:(lia) S1 T1) as (a' & E & S' & T' & H' & D'). exists a'. split; [exact E|]. split; [exact S'|]. split; [exact T'|]. split; [intros x Hx; apply H', H1, Hx|]. rewrite D'. apply D1. lia.
Qed.

(** solve *)
Lemma mapM_ok {A B} (f : A -> res B) (h : A -> B) l : (forall x, In x l -> f x = Ok (h x)) -> mapM f l = Ok (map h l).
Proof.
  induction l as [|x l IH]; intros H; [reflexivity|]. cbn [mapM map]. rewrite H by (left; reflexivity). cbn [bind]. rewrite IH by (intros; apply H; right; assumption). reflexivity.
Qed.
Lemma map_nth_seq {A} (l : list A) d : map (fun i => nth i l d) (seq 0 (length l)) = l.
Proof.
  apply (nth_ext _ _ d d); [rewrite map_length, seq_length; reflexivity|]. intros k Hk. rewrite map_length, seq_length in Hk.
  rewrite (nth_indep _ d ((fun i => nth i l d) 0%nat)) by (rewrite map_length, seq_length; exact Hk). rewrite (map_nth (fun i => nth i l d)), seq_nth by exact Hk. reflexivity.
Qed.
Lemma copy_ok n m : rectangular n m -> copy_matrix m (length m) (S n) = Ok m /\ shape (length m) (S n) m.
Proof.
  intros (N & H). assert (Sm: shape (length m) (S n) m) by (split; [reflexivity|]; intros r Hr; apply H, nth_In, Hr). split; [|exact Sm].
  unfold copy_matrix. rewrite (mapM_ok _ (fun r => nth r m [])); [f_equal; apply map_nth_seq|]. intros r Hr. apply in_seq in Hr.
  rewrite (mapM_ok _ (fun k => nth k (nth r m []) 0)).
  - f_equal. rewrite <- (H (nth r m [])) by (apply nth_In; lia). apply map_nth_seq.
  - intros k Hk. apply in_seq in Hk. apply (mget_ok (length m) (S n) m r k Sm); lia.
Qed.
Lemma Sol_solution n t m x : Sol (length m) n t m x <-> solution n t m x.
Proof.
  split.
  - intros H row Hi. destruct (In_nth m row [] Hi) as (r & Hr & <-). apply (H r Hr).
  - intros H r Hr. apply H, nth_In, Hr.
Qed.
Definition back_rows (R : nat) (a : matrix) (row : list nat) := map (fun i => nth (nth i row 0%nat) a []) (seq 0 R).
Lemma solve_cases n m : rectangular n m ->
  (exists b, solve m = Ok b /\ length b = length m /\ (forall r, In r b -> length r = S n) /\ (n <= length m)%nat /\
     (forall i, (i < n)%nat -> g b i i <> 0 /\ ((1 <= i)%nat -> g b i i = 1)) /\
     (forall i k, (i < length m)%nat -> (k < n)%nat -> k <> i -> g b i k = 0) /\
     (forall x, solution n 1 m x -> solution n 1 b x) /\
     (forall x, solution n 0 m x -> forall k, (k < n)%nat -> x k = 0) /\
     ((0 < n)%nat -> exists r, (r < length m)%nat /\ (forall r', (r' < r)%nat -> g m r' 0 = 0) /\ g b 0 0 = g m r 0)) \/
  (solve m = Panic /\ exists i a row, (i < n)%nat /\ shape (length m) (S n) a /\ okrow (length m) row /\ upper (length m) i a row /\
     (forall j, (i <= j < length m)%nat -> ent a row j i = 0) /\ forall t x, Sol (length m) n t m x <-> Sol (length m) n t a x).
Proof.
  intros Rm. pose proof Rm as (Nm & Hm). set (R := length m). assert (0 < R)%nat by (unfold R; destruct m; [congruence|cbn; lia]).
  destruct (copy_ok n m Rm) as (Ec & Sm). unfold solve. rewrite (vget_ok m 0 []) by exact H. cbn [bind]. rewrite (Hm (nth 0 m [])) by (apply nth_In; exact H). cbv zeta. fold R in Ec, Sm |- *.
  rewrite Ec. cbn [bind Nat.eqb negb assertb]. replace (S n - 1)%nat with n by lia.
  destruct (lu_loop R n m (seq 0 R) Sm (okrow_seq R) n 0%nat ltac:(lia) ltac:(intros k Hk; lia)) as [(a & row & E & Sa & Oa & Ua & _ & Hp & Hs)|(E & i & a & row & A)]; rewrite E; cbn [bind].
  2:{ right. split; [reflexivity|]. exists i, a, row. exact A. }
  left. pose proof Oa as (L & B & I). replace (S n - 2)%nat with (n - 1)%nat by lia.
  destruct (sub_all R n row Oa (n - 1) a ltac:(lia) Sa) as (a' & E' & S' & (T1 & T2 & T3) & H' & D0).
  { destruct n as [|n]; [|replace (S (S n - 1)) with (S n) by lia; apply upper_tri, Ua]. split; [intros; lia|]. split; intros; lia. }
  rewrite E'. cbn [bind]. rewrite (mapM_ok _ (fun i => nth (nth i row 0%nat) a' [])).
  2:{ intros i Hi. apply in_seq in Hi. rewrite (vget_ok row i 0%nat) by lia. cbn [bind]. apply vget_ok. destruct S' as (-> & _). apply B. lia. }
  set (b := map _ _). assert (Lb: length b = R) by (unfold b; rewrite map_length, seq_length; reflexivity).
  assert (Nb: forall i, (i < R)%nat -> nth i b [] = nth (nth i row 0%nat) a' []).
  { intros i Hi. unfold b. rewrite (nth_indep _ [] ((fun i => nth (nth i row 0%nat) a' []) 0%nat)) by (rewrite map_length, seq_length; exact Hi).
    rewrite (map_nth (fun i => nth (nth i row 0%nat) a' [])), seq_nth by exact Hi. reflexivity. }
  assert (Gb: forall i k, (i < R)%nat -> g b i k = ent a' row i k) by (intros i k Hi; unfold g, ent; rewrite Nb by exact Hi; reflexivity).
  exists b. split; [reflexivity|]. split; [exact Lb|]. split; [|split; [|split; [|split; [|split; [|split]]]]].
  - intros r Hr. apply in_map_iff in Hr. destruct Hr as (i & <- & Hi). apply in_seq in Hi. apply S', B. lia.
  - destruct (Nat.le_gt_cases n R); [assumption|]. destruct (T1 R ltac:(lia)). lia.
  - intros i Hi. destruct (T1 i Hi) as (Hr & Nd). rewrite Gb by exact Hr. split; [exact Nd|]. intros H1. apply T3. lia.
  - intros i k Hi Hk Ne. rewrite Gb by exact Hi. apply T2; lia.
  - intros x Hx. apply Sol_solution in Hx. apply (Hs 1 x) in Hx. apply H' in Hx. apply Sol_solution. rewrite Lb. intros r Hr. unfold g. rewrite Nb by exact Hr. apply Hx. apply B, Hr.
  - intros x Hx. apply Sol_solution in Hx. apply (Hs 0 x) in Hx.
    assert (P: forall d k, (k < n)%nat -> (n - k <= d)%nat -> x k = 0).
    { induction d as [|d IH]; intros k Hk Hd; [lia|]. destruct (Ua k Hk) as (Hr & Nd & _). specialize (Hx _ (B k Hr)).
      assert (D: dot n (nth (nth k row 0%nat) a []) x = ent a row k k * x k).
      { (* entries left of the diagonal vanish, unknowns right of it vanish *)
        unfold dot. assert (Hl: forall l, NoDup l -> (forall z, In z l -> (z < n)%nat) -> fold_right Z.add 0 (map (fun z => nth z (nth (nth k row 0%nat) a []) 0 * x z) l) = if existsb (Nat.eqb k) l then ent a row k k * x k else 0).
        { induction l as [|z l IHl]; intros Nl Hl; [reflexivity|]. inversion Nl; subst. cbn [map fold_right existsb]. rewrite IHl by (auto; intros; apply Hl; right; assumption).
          destruct (Nat.eqb_spec k z) as [<-|Ne]; cbn [orb].
          - destruct (existsb (Nat.eqb k) l) eqn:X; [|unfold ent, g; ring]. apply existsb_exists in X. destruct X as (w & Hw & Ew). apply Nat.eqb_eq in Ew. subst w. contradiction.
          - assert (z < n)%nat by (apply Hl; left; reflexivity). destruct (Nat.lt_ge_cases z k).
            + destruct (Ua z ltac:(lia)) as (_ & _ & U3). fold (g a (nth k row 0%nat) z) (ent a row k z). rewrite U3 by lia. ring.
            + rewrite (IH z) by lia. ring. }
        rewrite Hl; [|apply seq_NoDup|intros z Hz; apply in_seq in Hz; lia].
        destruct (existsb (Nat.eqb k) (seq 0 n)) eqn:X; [reflexivity|]. assert (existsb (Nat.eqb k) (seq 0 n) = true); [|congruence]. apply existsb_exists. exists k. split; [apply in_seq; lia|apply Nat.eqb_refl]. }
      rewrite D in Hx. apply Z.mul_eq_0 in Hx. tauto. }
    intros k Hk. apply (P (n - k)%nat k Hk). lia.
  - intros Hn. destruct (Hp Hn) as (j & Hj & Hf & Ej). exists j. split; [lia|]. rewrite Gb by lia. rewrite D0, Ej. unfold ent. rewrite seq_nth by lia. split; [|reflexivity].
    intros r' Hr'. specialize (Hf r' ltac:(lia)). unfold ent in Hf. rewrite seq_nth in Hf by lia. exact Hf.
Qed.
(** A triangular block followed by a column without pivot has a non-trivial kernel. *)
Lemma dot_ext_x n f x y : (forall k, (k < n)%nat -> x k = y k) -> dot n f x = dot n f y.
Proof. intros H. unfold dot. f_equal. apply map_ext_in. intros k Hk. apply in_seq in Hk. rewrite H by lia. reflexivity. Qed.
Lemma dot_S n f x : dot (S n) f x = dot n f x + nth n f 0 * x n.
Proof.
  unfold dot. rewrite seq_S, map_app. cbn [map plus]. generalize (nth n f 0 * x n). intros z. induction (map (fun k => nth k f 0 * x k) (seq 0 n)) as [|w l IH]; cbn; [ring|]. rewrite IH. ring.
Qed.
Lemma dot_scale n f x c : dot n f (fun k => c * x k) = c * dot n f x.
Proof. induction n as [|n IH]; [cbn; ring|]. rewrite !dot_S, IH. ring. Qed.
Lemma dot_upd n f x i v : (i < n)%nat -> dot n f (fun k => if Nat.eqb k i then v else x k) = dot n f x + nth i f 0 * (v - x i).
Proof.
  induction n as [|n IH]; intros Hi; [lia|]. rewrite !dot_S. destruct (Nat.eqb_spec n i) as [->|Ne].
  - rewrite (dot_ext_x i f _ x); [ring|]. intros k Hk. destruct (Nat.eqb_spec k i); [lia|reflexivity].
  - rewrite IH by lia. ring.
Qed.
Lemma kernel_exists R n a row i : (i < n)%nat -> shape R (S n) a -> okrow R row -> upper R i a row -> (forall j, (i <= j < R)%nat -> ent a row j i = 0) ->
  exists x, x i <> 0 /\ Sol R n 0 a x.
Proof.
  intros Hi Sa Okr U Hz. pose proof Okr as (L & B & I).
  assert (P: forall m, (m <= i)%nat -> exists x, x i <> 0 /\ (forall k, (i < k)%nat -> x k = 0) /\ (forall k, (k < i - m)%nat -> x k = 0) /\
    forall j, (i - m <= j < R)%nat -> dot n (nth (nth j row 0%nat) a []) x = 0).
  { induction m as [|m IH]; intros Hm.
    - exists (fun k => if Nat.eqb k i then 1 else 0). split; [rewrite Nat.eqb_refl; lia|]. split; [intros k Hk; destruct (Nat.eqb_spec k i); [lia|reflexivity]|].
      split; [intros k Hk; destruct (Nat.eqb_spec k i); [lia|reflexivity]|]. intros j Hj. rewrite (dot_upd n _ (fun _ => 0) i 1 Hi).
      fold (g a (nth j row 0%nat) i) (ent a row j i). rewrite Hz by lia. assert (D: dot n (nth (nth j row 0%nat) a []) (fun _ => 0) = 0).
      { generalize (nth (nth j row 0%nat) a []). intros f. clear. induction n as [|k IH]; [reflexivity|]. rewrite dot_S, IH. ring. }
      rewrite D. ring.
    - destruct (IH ltac:(lia)) as (x & X1 & X2 & X3 & X4). set (k0 := (i - S m)%nat). destruct (U k0 ltac:(lia)) as (Hr & Nd & Hbelow).
      set (d := ent a row k0 k0) in *. set (e := dot n (nth (nth k0 row 0%nat) a []) x).
      exists (fun k => if Nat.eqb k k0 then - e else d * x k). split; [|split; [|split]].
      + destruct (Nat.eqb_spec i k0); [lia|]. intros H. apply Z.mul_eq_0 in H. tauto.
      + intros k Hk. destruct (Nat.eqb_spec k k0); [lia|]. rewrite X2 by lia. ring.
      + intros k Hk. destruct (Nat.eqb_spec k k0); [lia|]. rewrite X3 by lia. ring.
      + intros j Hj. rewrite (dot_upd n _ (fun k => d * x k) k0 (- e)) by lia. rewrite dot_scale. rewrite (X3 k0) by lia.
        fold (g a (nth j row 0%nat) k0) (ent a row j k0). destruct (Nat.eq_dec j k0) as [->|].
        * fold d e. ring.
        * rewrite (X4 j) by lia. rewrite Hbelow by lia. ring. }
  destruct (P i ltac:(lia)) as (x & X1 & _ & _ & X4). exists x. split; [exact X1|]. intros r Hr. destruct (okrow_surj R row r Okr Hr) as (j & Hj & <-). rewrite X4 by lia. ring.
Qed.
