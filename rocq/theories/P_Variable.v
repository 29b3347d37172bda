(** Proofs about M_Variable.v and the orders of M_Term.v. *)
From Coq Require Import Znumtheory ZifyBool.
From Verif Require Import Prelude M_Bigint M_Variable M_Term P_Bigint.
Open Scope Z_scope.

(** ** is_prime *)
Lemma is_prime_spec n : is_prime n = true <-> prime n.
Proof.
  unfold is_prime. rewrite andb_true_iff, forallb_forall, Z.leb_le. split.
  - intros (H2 & H). apply prime_alt. split; [lia|]. intros d Hd HD.
    destruct HD as [e He].
    assert (Hsq: Z.sqrt n * Z.sqrt n <= n < (Z.sqrt n + 1) * (Z.sqrt n + 1)).
    { pose proof (Z.sqrt_spec n ltac:(lia)) as S. cbv zeta in S. unfold Z.succ in S. exact S. }
    assert (He1: 1 < e) by nia.
    destruct (Z_le_gt_dec d (Z.sqrt n)) as [L|G].
    + specialize (H d). rewrite in_zrange in H. specialize (H ltac:(lia)).
      rewrite He, Z.mod_mul in H by lia. discriminate.
    + assert (e <= Z.sqrt n) by nia.
      specialize (H e). rewrite in_zrange in H. specialize (H ltac:(lia)).
      rewrite He, Z.mul_comm, Z.mod_mul in H by lia. discriminate.
  - intros Hp. pose proof (prime_ge_2 n Hp). split; [lia|]. intros d Hd. rewrite in_zrange in Hd.
    destruct (n mod d =? 0) eqn:E; [|reflexivity]. exfalso.
    assert (D: (d | n)) by (apply Z.mod_divide; lia).
    apply prime_alt in Hp. destruct Hp as (_ & Hp). apply (Hp d); [|exact D].
    assert (Z.sqrt n < n) by (apply Z.sqrt_lt_lin; lia). lia.
Qed.

(** ** Orders *)
Lemma sv_eq_canon a b : sv_eq a b = true <-> canon a = canon b.
Proof.
  destruct a as [i j [|]], b as [i' j' [|]]; unfold sv_eq, canon; simpl; split; intros H;
    try discriminate; try reflexivity.
  - apply andb_true_iff in H. f_equal. f_equal; lia.
  - injection H; intros; subst. rewrite !Z.eqb_refl. reflexivity.
Qed.
Lemma sv_cmp_canon a b : sv_cmp a b = var_cmp (canon a) (canon b).
Proof. destruct a as [i j [|]], b as [i' j' [|]]; reflexivity. Qed.

Lemma var_cmp_eq a b : var_cmp a b = Eq <-> a = b.
Proof.
  destruct a as [[i j]|], b as [[i' j']|]; simpl; split; intros H; try discriminate; try reflexivity.
  - destruct (i <? i') eqn:?; [discriminate|]. destruct (i' <? i) eqn:?; [discriminate|].
    destruct (j <? j') eqn:?; [discriminate|]. destruct (j' <? j) eqn:?; [discriminate|].
    f_equal; f_equal; lia.
  - injection H; intros; subst. rewrite !Z.ltb_irrefl. reflexivity.
Qed.
Lemma var_cmp_opp a b : var_cmp b a = CompOpp (var_cmp a b).
Proof.
  destruct a as [[i j]|], b as [[i' j']|]; simpl; try reflexivity.
  destruct (i <? i') eqn:?, (i' <? i) eqn:?; try reflexivity; try lia.
  destruct (j <? j') eqn:?, (j' <? j) eqn:?; try reflexivity; lia.
Qed.
Lemma var_cmp_trans a b c : var_cmp a b = Lt -> var_cmp b c = Lt -> var_cmp a c = Lt.
Proof.
  destruct a as [[i j]|], b as [[i' j']|], c as [[i'' j'']|]; simpl; try discriminate; try reflexivity.
  destruct (i <? i') eqn:?, (i' <? i) eqn:?, (j <? j') eqn:?, (j' <? j) eqn:?; try discriminate;
  destruct (i' <? i'') eqn:?, (i'' <? i') eqn:?, (j' <? j'') eqn:?, (j'' <? j') eqn:?; try discriminate;
  intros _ _;
  destruct (i <? i'') eqn:?, (i'' <? i) eqn:?, (j <? j'') eqn:?, (j'' <? j) eqn:?; try reflexivity; lia.
Qed.
Lemma var_eqb_eq a b : var_eqb a b = true <-> a = b.
Proof.
  destruct a as [[i j]|], b as [[i' j']|]; simpl; split; intros H; try discriminate; try reflexivity.
  - apply andb_true_iff in H. f_equal; f_equal; lia.
  - injection H; intros; subst. rewrite !Z.eqb_refl. reflexivity.
Qed.

(** Lexicographic relation equivalent to [mono_cmp a b = Lt]. *)
Definition mlt (a b : mono) : Prop := mono_cmp a b = Lt.

Lemma mono_cmp_eq a b : mono_cmp a b = Eq <-> a = b.
Proof.
  destruct a as [x y q v], b as [x' y' q' v']; unfold mono_cmp; simpl; split; intros H.
  - destruct (x <? x') eqn:?; [discriminate|]. destruct (x' <? x) eqn:?; [discriminate|].
    destruct (y <? y') eqn:?; [discriminate|]. destruct (y' <? y) eqn:?; [discriminate|].
    destruct (q <? q') eqn:?; [discriminate|]. destruct (q' <? q) eqn:?; [discriminate|].
    destruct (var_cmp v v') eqn:Ev; try discriminate. apply var_cmp_eq in Ev.
    f_equal; try lia. exact Ev.
  - injection H; intros; subst. rewrite !Z.ltb_irrefl.
    assert (E: var_cmp v' v' = Eq) by (apply var_cmp_eq; reflexivity). rewrite E. reflexivity.
Qed.
Lemma mono_cmp_refl a : mono_cmp a a = Eq.
Proof. apply mono_cmp_eq; reflexivity. Qed.
Lemma mono_cmp_opp a b : mono_cmp b a = CompOpp (mono_cmp a b).
Proof.
  destruct a as [x y q v], b as [x' y' q' v']; unfold mono_cmp; simpl.
  destruct (x <? x') eqn:?, (x' <? x) eqn:?; try reflexivity; try lia.
  destruct (y <? y') eqn:?, (y' <? y) eqn:?; try reflexivity; try lia.
  destruct (q <? q') eqn:?, (q' <? q) eqn:?; try reflexivity; try lia.
  rewrite (var_cmp_opp v v'). destruct (var_cmp v v'); reflexivity.
Qed.
Lemma mono_cmp_lt_iff a b : mono_cmp a b = Lt <->
  mx a < mx b \/ (mx a = mx b /\ (my a < my b \/ (my a = my b /\ (mq a < mq b \/
     (mq a = mq b /\ var_cmp (mv a) (mv b) = Lt))))).
Proof.
  unfold mono_cmp.
  destruct (mx a <? mx b) eqn:?; [split; [lia|reflexivity]|].
  destruct (mx b <? mx a) eqn:?; [split; [discriminate|lia]|].
  destruct (my a <? my b) eqn:?; [split; [lia|reflexivity]|].
  destruct (my b <? my a) eqn:?; [split; [discriminate|lia]|].
  destruct (mq a <? mq b) eqn:?; [split; [lia|reflexivity]|].
  destruct (mq b <? mq a) eqn:?; [split; [discriminate|lia]|].
  assert (E: (match var_cmp (mv a) (mv b) with Eq => Eq | Lt => Lt | Gt => Gt end) = var_cmp (mv a) (mv b))
    by (destruct (var_cmp (mv a) (mv b)); reflexivity).
  rewrite E. split; [intros H; right; split; [lia|]; right; split; [lia|]; right; split; [lia|exact H]|].
  intros [H|(? & [H|(? & [H|(? & H)])])]; try lia; exact H.
Qed.
Lemma mlt_trans a b c : mlt a b -> mlt b c -> mlt a c.
Proof.
  unfold mlt. rewrite !mono_cmp_lt_iff. intros H1 H2.
  destruct H1 as [H1|(E1 & [H1|(E1' & [H1|(E1'' & H1)])])];
  destruct H2 as [H2|(E2 & [H2|(E2' & [H2|(E2'' & H2)])])]; try lia.
  right; split; [lia|]. right; split; [lia|]. right; split; [lia|].
  exact (var_cmp_trans _ _ _ H1 H2).
Qed.
Lemma mlt_irrefl a : ~ mlt a a.
Proof. unfold mlt. rewrite mono_cmp_refl. discriminate. Qed.
Lemma mlt_gt a b : mono_cmp a b = Gt <-> mlt b a.
Proof. unfold mlt. rewrite (mono_cmp_opp a b). destruct (mono_cmp a b); simpl; split; congruence. Qed.
Lemma mlt_neq a b : mlt a b -> a <> b.
Proof. intros H ->. exact (mlt_irrefl _ H). Qed.
Lemma mlt_total a b : mlt a b \/ a = b \/ mlt b a.
Proof.
  destruct (mono_cmp a b) eqn:E; [right; left; apply mono_cmp_eq; exact E|left; exact E|].
  right; right. apply mlt_gt; exact E.
Qed.
Lemma mono_eqb_eq a b : mono_eqb a b = true <-> a = b.
Proof.
  destruct a as [x y q v], b as [x' y' q' v']; unfold mono_eqb; simpl; split; intros H.
  - apply andb_true_iff in H. destruct H as (H & Hv). apply var_eqb_eq in Hv. f_equal; try lia. exact Hv.
  - injection H; intros; subst. rewrite !Z.eqb_refl. apply var_eqb_eq; reflexivity.
Qed.
Lemma mono_eq_dec (a b : mono) : {a = b} + {a <> b}.
Proof.
  destruct (mono_eqb a b) eqn:E; [left; apply mono_eqb_eq; exact E | right].
  intros H. apply mono_eqb_eq in H. congruence.
Qed.
Lemma mono_eqb_refl a : mono_eqb a a = true.
Proof. apply mono_eqb_eq; reflexivity. Qed.
Lemma mono_eqb_neq a b : a <> b -> mono_eqb a b = false.
Proof. intros H. destruct (mono_eqb a b) eqn:E; [|reflexivity]. apply mono_eqb_eq in E; tauto. Qed.

(** ** The subscripted-variable converter *)
Lemma zrange_empty a b : b <= a -> zrange a b = [].
Proof. intros H. unfold zrange. replace (Z.to_nat (b - a)) with 0%nat by lia. reflexivity. Qed.
Lemma zrange_cons a b : a < b -> zrange a b = a :: zrange (a + 1) b.
Proof.
  intros H. unfold zrange. replace (Z.to_nat (b - a)) with (S (Z.to_nat (b - (a + 1)))) by lia.
  simpl. f_equal; [lia|]. rewrite <- seq_shift, map_map. apply map_ext. intros k. lia.
Qed.
Lemma zrange_snoc a b : a <= b -> zrange a (b + 1) = zrange a b ++ [b].
Proof.
  intros H. unfold zrange. replace (Z.to_nat (b + 1 - a)) with (S (Z.to_nat (b - a))) by lia.
  rewrite seq_S, map_app. simpl. f_equal. f_equal. lia.
Qed.

Lemma in_conv_pairs p1 i j : In (i, j) (conv_pairs p1) <-> 0 <= i <= j /\ j < p1.
Proof.
  unfold conv_pairs. rewrite in_app_iff, in_flat_map, in_map_iff. split.
  - intros [(x & Hx & Hi)|(x & Hx & Hi)].
    + rewrite in_map_iff in Hi. destruct Hi as (y & E & Hy). injection E; intros; subst.
      rewrite in_zrange in *. lia.
    + injection Hx; intros; subst. rewrite in_zrange in Hi. lia.
  - intros H. destruct (Z.eq_dec i j) as [->|N].
    + right. exists j. split; [reflexivity|]. apply in_zrange; lia.
    + left. exists i. split; [apply in_zrange; lia|]. rewrite in_map_iff. exists j.
      split; [reflexivity|]. apply in_zrange; lia.
Qed.

Lemma NoDup_app {A} (l l' : list A) : NoDup l -> NoDup l' -> (forall x, In x l -> ~ In x l') -> NoDup (l ++ l').
Proof.
  induction 1 as [|x l Hx Hl IH]; intros H' Hd; [exact H'|]. simpl. constructor.
  - rewrite in_app_iff. intros [?|?]; [tauto|]. apply (Hd x); [left; reflexivity|assumption].
  - apply IH; [exact H'|]. intros y Hy. apply Hd. right; exact Hy.
Qed.

Lemma NoDup_conv_pairs p1 : NoDup (conv_pairs p1).
Proof.
  unfold conv_pairs. apply NoDup_app.
  - assert (G: forall l, NoDup l -> NoDup (flat_map (fun i => map (fun j => (i, j)) (zrange (i + 1) p1)) l)).
    { induction 1 as [|x l Hx Hl IH]; [constructor|]. simpl. apply NoDup_app.
      - apply FinFun.Injective_map_NoDup; [intros u v E; injection E; auto|apply NoDup_zrange].
      - exact IH.
      - intros [u v] Hu Hv. rewrite in_map_iff in Hu. destruct Hu as (w & E & Hw). injection E; intros; subst u.
        rewrite in_flat_map in Hv. destruct Hv as (z & Hz & Hv). rewrite in_map_iff in Hv.
        destruct Hv as (t & E' & _). injection E'; intros; subst z. tauto. }
    apply G, NoDup_zrange.
  - apply FinFun.Injective_map_NoDup; [intros u v E; injection E; auto|apply NoDup_zrange].
  - intros [u v] Hu Hv. rewrite in_flat_map in Hu. destruct Hu as (x & Hx & Hu).
    rewrite in_map_iff in Hu, Hv. destruct Hu as (w & E & Hw). destruct Hv as (t & E' & Ht).
    injection E; injection E'; intros; subst. rewrite in_zrange in Hw. lia.
Qed.

Lemma length_flat_map_pairs p1 n : forall a, Z.of_nat n = p1 - a ->
  2 * Z.of_nat (length (flat_map (fun i => map (fun j : Z => (i, j)) (zrange (i + 1) p1)) (zrange a p1)))
  = (p1 - a) * (p1 - a - 1).
Proof.
  induction n as [|n IH]; intros a Ha.
  - rewrite zrange_empty by lia. simpl. nia.
  - rewrite zrange_cons by lia. cbn [flat_map]. rewrite app_length, map_length, length_zrange.
    rewrite Nat2Z.inj_add. specialize (IH (a + 1) ltac:(lia)). nia.
Qed.

Lemma length_conv_pairs p1 : 0 <= p1 -> 2 * Z.of_nat (length (conv_pairs p1)) = p1 * (p1 + 1).
Proof.
  intros H. unfold conv_pairs. rewrite app_length, map_length, length_zrange, Nat2Z.inj_add.
  pose proof (length_flat_map_pairs p1 (Z.to_nat p1) 0 ltac:(lia)). nia.
Qed.

Lemma fold_count {A} (l : list A) : forall n, fold_left (fun index _ => index + 1) l n = n + Z.of_nat (length l).
Proof. induction l as [|x l IH]; intros n; [simpl; lia|]. cbn [fold_left length]. rewrite IH. lia. Qed.

Lemma conv_count_spec p : 0 <= p < i32_max -> conv_count p = Ok ((p + 1) * (p + 2) / 2).
Proof.
  intros H. unfold conv_count. unfold i32, in_i32. unfold i32_max, i32_min in *.
  destruct (_ && _) eqn:E; [|lia]. cbn [bind]. rewrite fold_count.
  f_equal. pose proof (length_conv_pairs (p + 1) ltac:(lia)) as L.
  replace ((p + 1) * (p + 2)) with (0 + Z.of_nat (length (conv_pairs (p + 1))) + (0 + Z.of_nat (length (conv_pairs (p + 1))))) by lia.
  set (n := Z.of_nat (length (conv_pairs (p + 1)))).
  replace (0 + n + (0 + n)) with (n * 2) by ring. rewrite Z.div_mul; lia.
Qed.

Lemma index_search_spec v l : forall n i j k,
  nth_error l k = Some (i, j) -> NoDup l -> sv_i v = i -> sv_j v = j ->
  index_search v l n = Ok (Some (n + Z.of_nat k)).
Proof.
  induction l as [|[x y] l IH]; intros n i j k Hk Hd Hi Hj; [destruct k; discriminate|].
  inversion Hd; subst. destruct k as [|k]; cbn [nth_error index_search] in *.
  - injection Hk; intros E1 E2. rewrite E1, E2. rewrite !Z.eqb_refl. simpl. f_equal. f_equal. lia.
  - destruct (_ && _) eqn:E.
    + exfalso. apply H1. apply nth_error_In in Hk.
      replace x with (sv_i v) by lia. replace y with (sv_j v) by lia. exact Hk.
    + rewrite (IH (n + 1) _ _ k Hk) by auto. f_equal. f_equal. lia.
Qed.
Lemma index_search_panic v l : forall n, ~ In (sv_i v, sv_j v) l -> index_search v l n = Panic.
Proof.
  induction l as [|[x y] l IH]; intros n H; [reflexivity|]. cbn [index_search].
  destruct (_ && _) eqn:E.
  - exfalso. apply H. left. f_equal; lia.
  - apply IH. intros Hi; apply H; right; exact Hi.
Qed.

Lemma variable_search_spec index l : forall n,
  n + Z.of_nat (length l) <= i32_max + 1 -> 0 <= n ->
  variable_search index l n =
    if (n <=? as_i32 index) && (as_i32 index <? n + Z.of_nat (length l)) then
      match nth_error l (Z.to_nat (as_i32 index - n)) with
      | Some (i, j) => Ok (mkSV i j false) | None => Panic end
    else Panic.
Proof.
  induction l as [|[x y] l IH]; intros n Hn H0; cbn [variable_search length].
  - destruct (_ && _) eqn:E; [|reflexivity]. simpl in E. lia.
  - cbn [length] in Hn. destruct (n =? as_i32 index) eqn:E.
    + destruct (_ && _) eqn:E'; [|lia]. replace (Z.to_nat (as_i32 index - n)) with 0%nat by lia. reflexivity.
    + destruct l as [|z l].
      * cbn [length] in *. destruct (_ && _) eqn:E'; [lia|].
        unfold i32. destruct (in_i32 (n + 1)); reflexivity.
      * unfold i32, in_i32, i32_min, i32_max in *.
        destruct ((-2147483648 <=? n + 1) && (n + 1 <=? 2147483647)) eqn:E2; [|cbn [length] in Hn; lia].
        cbn [bind]. rewrite IH by lia.
        destruct ((n <=? as_i32 index) && (as_i32 index <? n + Z.of_nat (S (length (z :: l))))) eqn:E3;
        destruct ((n + 1 <=? as_i32 index) && (as_i32 index <? n + 1 + Z.of_nat (length (z :: l)))) eqn:E4; try lia; try reflexivity.
        replace (Z.to_nat (as_i32 index - n)) with (S (Z.to_nat (as_i32 index - (n + 1)))) by lia.
        reflexivity.
Qed.

Lemma as_i32_small k : 0 <= k <= i32_max -> as_i32 k = k.
Proof. intros H. unfold as_i32, i32_max in *. rewrite Z.mod_small; lia. Qed.

Lemma i32_ok z : i32_min <= z <= i32_max -> i32 z = Ok z.
Proof. intros H. unfold i32, in_i32. destruct (_ && _) eqn:E; [reflexivity|lia]. Qed.
Lemma i32_inv z v : i32 z = Ok v -> v = z /\ i32_min <= z <= i32_max.
Proof. unfold i32, in_i32. destruct (_ && _) eqn:E; [|discriminate]. intros H; injection H; intros; subst. lia. Qed.

(** Largest p for which (p+1)(p+2)/2 indices fit an i32. *)
Definition conv_max : Z := 65534.
Lemma conv_size p : 0 <= p <= conv_max -> Z.of_nat (length (conv_pairs (p + 1))) <= i32_max.
Proof.
  intros H. pose proof (length_conv_pairs (p + 1) ltac:(lia)). unfold conv_max, i32_max in *. nia.
Qed.

Lemma variable_from_index_spec p k : 0 <= p <= conv_max -> 0 <= k < (p + 1) * (p + 2) / 2 ->
  exists i j, variable_from_index p k = Ok (mkSV i j false) /\ 0 <= i <= j /\ j <= p /\
              index_from_variable p (mkSV i j false) = Ok (Some k).
Proof.
  intros Hp Hk. pose proof (conv_size p Hp) as Hs.
  pose proof (length_conv_pairs (p + 1) ltac:(lia)) as Hl.
  assert (Hkl: k < Z.of_nat (length (conv_pairs (p + 1)))).
  { replace ((p + 1) * (p + 2)) with (Z.of_nat (length (conv_pairs (p + 1))) * 2) in Hk by lia.
    rewrite Z.div_mul in Hk; lia. }
  unfold variable_from_index, index_from_variable. cbn [sv_empty].
  rewrite i32_ok by (unfold conv_max, i32_min, i32_max in *; lia). cbn [bind].
  rewrite variable_search_spec by (unfold i32_max in *; lia). rewrite as_i32_small by lia.
  destruct (_ && _) eqn:E; [|lia]. rewrite Z.sub_0_r.
  destruct (nth_error (conv_pairs (p + 1)) (Z.to_nat k)) as [[i j]|] eqn:En.
  - exists i, j. split; [reflexivity|].
    assert (Hi: In (i, j) (conv_pairs (p + 1))) by (eapply nth_error_In; exact En).
    apply in_conv_pairs in Hi. split; [lia|]. split; [lia|].
    rewrite (index_search_spec (mkSV i j false) _ 0 i j _ En (NoDup_conv_pairs _) eq_refl eq_refl).
    f_equal. f_equal. lia.
  - apply nth_error_None in En. lia.
Qed.

Lemma index_from_variable_spec p i j : 0 <= p <= conv_max -> 0 <= i <= j -> j <= p ->
  exists k, index_from_variable p (mkSV i j false) = Ok (Some k) /\ 0 <= k < (p + 1) * (p + 2) / 2 /\
            variable_from_index p k = Ok (mkSV i j false).
Proof.
  intros Hp Hij Hj.
  assert (Hi: In (i, j) (conv_pairs (p + 1))) by (apply in_conv_pairs; lia).
  apply In_nth_error in Hi. destruct Hi as [n Hn].
  pose proof (length_conv_pairs (p + 1) ltac:(lia)) as Hl.
  assert (Hnl: (n < length (conv_pairs (p + 1)))%nat) by (apply nth_error_Some; congruence).
  assert (Hk: 0 <= Z.of_nat n < (p + 1) * (p + 2) / 2).
  { replace ((p + 1) * (p + 2)) with (Z.of_nat (length (conv_pairs (p + 1))) * 2) by lia.
    rewrite Z.div_mul; lia. }
  exists (Z.of_nat n). split; [|split; [exact Hk|]].
  - unfold index_from_variable. cbn [sv_empty].
    rewrite i32_ok by (unfold conv_max, i32_min, i32_max in *; lia). cbn [bind].
    rewrite (index_search_spec (mkSV i j false) _ 0 i j _ Hn (NoDup_conv_pairs _) eq_refl eq_refl).
    f_equal. 
  - unfold variable_from_index. pose proof (conv_size p Hp).
    rewrite i32_ok by (unfold conv_max, i32_min, i32_max in *; lia). cbn [bind].
    rewrite variable_search_spec by (unfold i32_max in *; lia). rewrite as_i32_small by lia.
    destruct (_ && _) eqn:E; [|lia]. rewrite Z.sub_0_r, Nat2Z.id, Hn. reflexivity.
Qed.

Lemma index_from_variable_out p i j : 0 <= p <= conv_max -> ~ (0 <= i <= j /\ j <= p) ->
  index_from_variable p (mkSV i j false) = Panic.
Proof.
  intros Hp H. unfold index_from_variable. cbn [sv_empty].
  rewrite i32_ok by (unfold conv_max, i32_min, i32_max in *; lia). cbn [bind].
  apply index_search_panic. cbn [sv_i sv_j]. rewrite in_conv_pairs. lia.
Qed.

Lemma variable_from_index_out p k : 0 <= p <= conv_max -> (p + 1) * (p + 2) / 2 <= k < 2 ^ 32 ->
  variable_from_index p k = Panic.
Proof.
  intros Hp Hk. pose proof (conv_size p Hp) as Hs.
  pose proof (length_conv_pairs (p + 1) ltac:(lia)) as Hl.
  assert (Hkl: Z.of_nat (length (conv_pairs (p + 1))) <= k).
  { replace ((p + 1) * (p + 2)) with (Z.of_nat (length (conv_pairs (p + 1))) * 2) in Hk by lia.
    rewrite Z.div_mul in Hk; lia. }
  unfold variable_from_index.
  rewrite i32_ok by (unfold conv_max, i32_min, i32_max in *; lia). cbn [bind].
  rewrite variable_search_spec by (unfold i32_max in *; lia).
  assert (as_i32 k = k \/ as_i32 k < 0).
  { unfold as_i32. destruct (Z_lt_le_dec k 2147483648).
    - left. rewrite Z.mod_small; lia.
    - right. replace (k + 2147483648) with (k - 2147483648 + 1 * 4294967296) by ring.
      rewrite Z.mod_add by lia. rewrite Z.mod_small; lia. }
  destruct (_ && _) eqn:E; [lia|reflexivity].
Qed.

Lemma converter_new_spec p : (prime p -> converter_new p = Ok p) /\ (~ prime p -> converter_new p = Panic).
Proof.
  unfold converter_new. split; intros H.
  - pose proof (prime_ge_2 p H). destruct (2 <=? p) eqn:E; [|lia]. cbn [assertb bind].
    apply is_prime_spec in H. rewrite H. reflexivity.
  - destruct (2 <=? p) eqn:E; [|reflexivity]. cbn [assertb bind].
    destruct (is_prime p) eqn:E'; [|reflexivity]. apply is_prime_spec in E'. tauto.
Qed.
