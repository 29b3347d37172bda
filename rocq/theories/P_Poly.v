(** Proofs about the polynomial ring operations of M_Poly.v. *)
From Coq Require Import Znumtheory ZifyBool Setoid Morphisms Ring.
From Verif Require Import Prelude M_Bigint M_Variable M_Term M_Poly Spec P_Bigint P_Variable P_FSum.
Open Scope Z_scope.

(** ** Sorted association lists *)
Definition keysP (P : mono -> Prop) (a : fsum) : Prop := forall m c, In (m, c) a -> P m.
Definition haskey (a : fsum) (m : mono) : Prop := exists c, In (m, c) a.

Lemma sorted_unique a m c d : sorted a -> In (m, c) a -> In (m, d) a -> c = d.
Proof.
  induction a as [|[k e] a IH]; intros Hs Hc Hd; [destruct Hc|]. destruct Hs as (Hlt & Hs).
  destruct Hc as [Ec|Hc], Hd as [Ed|Hd].
  - congruence.
  - injection Ec; intros; subst. exfalso. exact (mlt_irrefl _ (Hlt _ _ Hd)).
  - injection Ed; intros; subst. exfalso. exact (mlt_irrefl _ (Hlt _ _ Hc)).
  - exact (IH Hs Hc Hd).
Qed.
Lemma sorted_coef a m c : sorted a -> In (m, c) a -> coef a m = c.
Proof.
  induction a as [|[k e] a IH]; intros Hs Hc; [destruct Hc|]. destruct Hs as (Hlt & Hs). cbn [coef].
  destruct Hc as [Ec|Hc].
  - injection Ec; intros; subst. rewrite mono_eqb_refl, coef_notin; [ring|].
    intros d Hd. exact (mlt_irrefl _ (Hlt _ _ Hd)).
  - rewrite (IH Hs Hc). rewrite mono_eqb_neq; [ring|]. apply mlt_neq. exact (Hlt _ _ Hc).
Qed.
Lemma sorted_tail e a : sorted (e :: a) -> sorted a.
Proof. destruct e; intros (_ & H); exact H. Qed.

Lemma sorted_ext a : forall b, sorted a -> sorted b -> (forall e, In e a <-> In e b) -> a = b.
Proof.
  induction a as [|[m c] a IH]; intros b Ha Hb H.
  - destruct b as [|e b]; [reflexivity|]. exfalso. apply (H e). left; reflexivity.
  - destruct b as [|[k d] b].
    + exfalso. apply (proj1 (H (m, c))). left; reflexivity.
    + destruct Ha as (Ha & Hsa), Hb as (Hb & Hsb).
      assert (E: (m, c) = (k, d)).
      { destruct (proj1 (H (m, c)) (or_introl eq_refl)) as [E|Hi]; [auto|].
        destruct (proj2 (H (k, d)) (or_introl eq_refl)) as [E|Hi']; [auto|].
        exfalso. apply (mlt_irrefl m). apply (mlt_trans _ k); [exact (Ha _ _ Hi')|exact (Hb _ _ Hi)]. }
      injection E; intros; subst. f_equal. apply IH; auto. intros [j e]. split; intros Hi.
      * destruct (proj1 (H (j, e)) (or_intror Hi)) as [E'|Hi']; [|exact Hi'].
        injection E'; intros; subst. exfalso. exact (mlt_irrefl _ (Ha _ _ Hi)).
      * destruct (proj2 (H (j, e)) (or_intror Hi)) as [E'|Hi']; [|exact Hi'].
        injection E'; intros; subst. exfalso. exact (mlt_irrefl _ (Hb _ _ Hi)).
Qed.

(** Sorted, zero-free lists are canonical: equal coefficient functions, equal lists. *)
Lemma canonical a b : sorted a -> sorted b -> no_zero a -> no_zero b -> feq a b -> a = b.
Proof.
  intros Ha Hb Na Nb H. apply sorted_ext; auto. intros [m c]. split; intros Hi.
  - pose proof (sorted_coef _ _ _ Ha Hi) as E. pose proof (Na _ _ Hi) as Nz. rewrite H in E.
    destruct (coef_in b m) as [d Hd]; [lia|]. pose proof (sorted_coef _ _ _ Hb Hd). replace c with d by lia. exact Hd.
  - pose proof (sorted_coef _ _ _ Hb Hi) as E. pose proof (Nb _ _ Hi) as Nz. rewrite <- H in E.
    destruct (coef_in a m) as [d Hd]; [lia|]. pose proof (sorted_coef _ _ _ Ha Hd). replace c with d by lia. exact Hd.
Qed.

(** ** get / insert / remove / split_off *)
Lemma bm_get_in a m c : bm_get m a = Some c -> In (m, c) a.
Proof.
  induction a as [|[k d] a IH]; cbn [bm_get]; [discriminate|].
  destruct (mono_cmp m k) eqn:E; try discriminate.
  - intros H; injection H; intros; subst. apply mono_cmp_eq in E; subst. left; reflexivity.
  - intros H; right; apply IH; exact H.
Qed.
Lemma bm_get_some a m c : sorted a -> In (m, c) a -> bm_get m a = Some c.
Proof.
  induction a as [|[k d] a IH]; intros Hs Hi; [destruct Hi|]. destruct Hs as (Hlt & Hs). cbn [bm_get].
  destruct Hi as [E|Hi].
  - injection E; intros; subst. rewrite mono_cmp_refl. reflexivity.
  - pose proof (Hlt _ _ Hi) as L. rewrite mono_cmp_opp, L. simpl. apply IH; auto.
Qed.
Lemma bm_get_none a m : sorted a -> (bm_get m a = None <-> forall c, ~ In (m, c) a).
Proof.
  intros Hs. split.
  - intros H c Hi. rewrite (bm_get_some _ _ _ Hs Hi) in H. discriminate.
  - intros H. destruct (bm_get m a) eqn:E; [|reflexivity]. apply bm_get_in in E. destruct (H _ E).
Qed.
Lemma bm_get_coef a m : sorted a -> coef a m = match bm_get m a with Some c => c | None => 0 end.
Proof.
  intros Hs. destruct (bm_get m a) eqn:E.
  - apply sorted_coef; [exact Hs|]. apply bm_get_in; exact E.
  - apply coef_notin. apply bm_get_none; assumption.
Qed.

Lemma bm_insert_in a m c : sorted a -> forall k d,
  In (k, d) (bm_insert m c a) <-> (k = m /\ d = c) \/ (k <> m /\ In (k, d) a).
Proof.
  induction a as [|[j e] a IH]; intros Hs k d; cbn [bm_insert].
  - split; [intros [E|[]]; injection E; auto | intros [(-> & ->)|(_ & [])]; left; reflexivity].
  - destruct Hs as (Hlt & Hs). destruct (mono_cmp m j) eqn:E.
    + apply mono_cmp_eq in E; subst j. split.
      * intros [E|Hi]; [injection E; auto|]. right. split; [|right; exact Hi].
        intros ->. exact (mlt_irrefl _ (Hlt _ _ Hi)).
      * intros [(-> & ->)|(N & [E|Hi])]; [left; reflexivity|injection E; intros; subst; tauto|right; exact Hi].
    + split.
      * intros [E'|[E'|Hi]]; [injection E'; auto| |].
        -- injection E'; intros; subst. right. split; [|left; reflexivity]. intros ->. rewrite mono_cmp_refl in E; discriminate.
        -- right. split; [|right; exact Hi]. intros ->. apply (mlt_irrefl m). apply (mlt_trans _ j); [exact E|exact (Hlt _ _ Hi)].
      * intros [(-> & ->)|(N & Hi)]; [left; reflexivity|right; exact Hi].
    + cbn [In]. rewrite (IH Hs k d). split.
      * intros [E'|[?|(N & Hi)]]; [|tauto|tauto]. injection E'; intros; subst. right. split; [|left; reflexivity].
        intros ->. rewrite mono_cmp_refl in E; discriminate.
      * intros [?|(N & [E'|Hi])]; tauto.
Qed.
Lemma bm_insert_sorted a m c : sorted a -> sorted (bm_insert m c a).
Proof.
  induction a as [|[j e] a IH]; intros Hs; cbn [bm_insert].
  - simpl. split; [intros ? ? []|exact I].
  - pose proof Hs as Hs0. destruct Hs as (Hlt & Hs). destruct (mono_cmp m j) eqn:E.
    + simpl. auto.
    + cbn [sorted]. split; [|exact Hs0]. intros m' c' [E'|Hi].
      * injection E'; intros; subst; exact E.
      * apply (mlt_trans _ j); [exact E|exact (Hlt _ _ Hi)].
    + cbn [sorted]. split; [|apply IH; exact Hs]. intros m' c' Hi.
      apply bm_insert_in in Hi; [|exact Hs]. destruct Hi as [(-> & _)|(_ & Hi)].
      * apply mlt_gt; exact E.
      * exact (Hlt _ _ Hi).
Qed.
Lemma bm_insert_coef a m c k : sorted a -> coef (bm_insert m c a) k = if mono_eqb m k then c else coef a k.
Proof.
  intros Hs. destruct (mono_eqb m k) eqn:E.
  - apply mono_eqb_eq in E; subst. apply sorted_coef; [apply bm_insert_sorted; exact Hs|].
    apply bm_insert_in; [exact Hs|]. left; auto.
  - assert (N: k <> m) by (intros ->; rewrite mono_eqb_refl in E; discriminate).
    destruct (bm_get k a) as [d|] eqn:G.
    + apply bm_get_in in G. rewrite (sorted_coef a k d Hs G).
      apply sorted_coef; [apply bm_insert_sorted; exact Hs|]. apply bm_insert_in; auto.
    + pose proof (proj1 (bm_get_none a k Hs) G) as G'. rewrite (coef_notin a k G'). apply coef_notin.
      intros d Hd. apply bm_insert_in in Hd; [|exact Hs]. destruct Hd as [(? & _)|(_ & Hd)]; [tauto|exact (G' _ Hd)].
Qed.

Lemma bm_remove_in a m : sorted a -> forall k d, In (k, d) (bm_remove m a) <-> k <> m /\ In (k, d) a.
Proof.
  induction a as [|[j e] a IH]; intros Hs k d; cbn [bm_remove].
  - simpl. tauto.
  - destruct Hs as (Hlt & Hs). destruct (mono_cmp m j) eqn:E.
    + apply mono_cmp_eq in E; subst j. split.
      * intros Hi. split; [|right; exact Hi]. intros ->. exact (mlt_irrefl _ (Hlt _ _ Hi)).
      * intros (N & [E|Hi]); [injection E; intros; subst; tauto|exact Hi].
    + split; [|tauto]. intros Hi. split; [|exact Hi]. intros ->. destruct Hi as [E'|Hi].
      * injection E'; intros; subst. rewrite mono_cmp_refl in E; discriminate.
      * apply (mlt_irrefl m). apply (mlt_trans _ j); [exact E|exact (Hlt _ _ Hi)].
    + cbn [In]. rewrite (IH Hs k d). split.
      * intros [E'|(N & Hi)]; [|tauto]. injection E'; intros; subst. split; [|left; reflexivity].
        intros ->. rewrite mono_cmp_refl in E; discriminate.
      * tauto.
Qed.
Lemma bm_remove_sorted a m : sorted a -> sorted (bm_remove m a).
Proof.
  induction a as [|[j e] a IH]; intros Hs; cbn [bm_remove]; [exact I|].
  pose proof Hs as Hs0. destruct Hs as (Hlt & Hs). destruct (mono_cmp m j); auto.
  cbn [sorted]. split; [|apply IH; exact Hs]. intros m' c' Hi. apply bm_remove_in in Hi; [|exact Hs].
  exact (Hlt _ _ (proj2 Hi)).
Qed.
Lemma bm_remove_coef a m k : sorted a -> coef (bm_remove m a) k = if mono_eqb m k then 0 else coef a k.
Proof.
  intros Hs. destruct (mono_eqb m k) eqn:E.
  - apply mono_eqb_eq in E; subst. apply coef_notin. intros c Hc. apply bm_remove_in in Hc; tauto.
  - assert (N: k <> m) by (intros ->; rewrite mono_eqb_refl in E; discriminate).
    destruct (bm_get k a) as [d|] eqn:G.
    + apply bm_get_in in G. rewrite (sorted_coef a k d Hs G).
      apply sorted_coef; [apply bm_remove_sorted; exact Hs|]. apply bm_remove_in; auto.
    + pose proof (proj1 (bm_get_none a k Hs) G) as G'. rewrite (coef_notin a k G'). apply coef_notin.
      intros d Hd. apply bm_remove_in in Hd; [|exact Hs]. exact (G' _ (proj2 Hd)).
Qed.
Lemma bm_split_off_in a m : sorted a -> forall k d, In (k, d) (bm_split_off m a) <-> mlt k m /\ In (k, d) a.
Proof.
  induction a as [|[j e] a IH]; intros Hs k d; cbn [bm_split_off]; [simpl; tauto|].
  destruct Hs as (Hlt & Hs).
  assert (G: ~ mlt j m -> ~ (mlt k m /\ In (k, d) ((j, e) :: a))).
  { intros N (L & [E'|Hi]); [injection E'; intros; subst; tauto|].
    apply N. apply (mlt_trans _ k); [exact (Hlt _ _ Hi)|exact L]. }
  destruct (mono_cmp j m) eqn:E.
  - split; [intros []|]. intros H. exfalso. revert H. apply G. unfold mlt. congruence.
  - cbn [In]. rewrite (IH Hs k d). split.
    + intros [E'|?]; [|tauto]. injection E'; intros; subst. split; [exact E|left; reflexivity].
    + tauto.
  - split; [intros []|]. intros H. exfalso. revert H. apply G. unfold mlt. congruence.
Qed.
Lemma bm_split_off_sorted a m : sorted a -> sorted (bm_split_off m a).
Proof.
  induction a as [|[j e] a IH]; intros Hs; cbn [bm_split_off]; [exact I|].
  destruct Hs as (Hlt & Hs). destruct (mono_cmp j m); try exact I.
  cbn [sorted]. split; [|apply IH; exact Hs]. intros m' c' Hi. apply bm_split_off_in in Hi; [|exact Hs].
  exact (Hlt _ _ (proj2 Hi)).
Qed.

Lemma poly_eqb_eq a : forall b, poly_eqb a b = true <-> a = b.
Proof.
  induction a as [|[k c] a IH]; intros [|[k' c'] b]; cbn [poly_eqb]; split; intros H; try discriminate; try reflexivity.
  - apply andb_true_iff in H. destruct H as (H & H3). apply andb_true_iff in H. destruct H as (H1 & H2).
    apply mono_eqb_eq in H1. apply IH in H3. assert (c = c') by lia. congruence.
  - injection H; intros; subst. rewrite mono_eqb_refl, Z.eqb_refl. simpl. apply IH; reflexivity.
Qed.
Lemma is_zero_nil a : is_zero a = true <-> a = [].
Proof. unfold is_zero. destruct a; simpl; split; intros H; try discriminate; reflexivity. Qed.

(** ** to_pol *)
Lemma to_pol_eq t : to_pol t = if tc t =? 0 then [] else [(tm t, tc t)].
Proof. unfold to_pol. destruct (tc t =? 0); reflexivity. Qed.
Lemma to_pol_sorted t : sorted (to_pol t).
Proof. rewrite to_pol_eq. destruct (tc t =? 0); simpl; [exact I|split; [intros ? ? []|exact I]]. Qed.
Lemma to_pol_no_zero t : no_zero (to_pol t).
Proof.
  rewrite to_pol_eq. destruct (tc t =? 0) eqn:E; intros m c H; [destruct H|]. destruct H as [H|[]].
  injection H; intros; subst. lia.
Qed.
Lemma to_pol_feq t : feq (to_pol t) [(tm t, tc t)].
Proof.
  rewrite to_pol_eq. destruct (tc t =? 0) eqn:E; [|reflexivity]. intros m. cbn [coef].
  destruct (mono_eqb (tm t) m); lia.
Qed.
Lemma to_pol_keys (P : mono -> Prop) t : P (tm t) -> keysP P (to_pol t).
Proof.
  rewrite to_pol_eq. intros H m c Hi. destruct (tc t =? 0); [destruct Hi|].
  destruct Hi as [E|[]]. injection E; intros; subst; exact H.
Qed.

(** ** + and - *)
Lemma add_entry_coef a k c m : sorted a ->
  coef (add_entry a (k, c)) m = coef a m + (if mono_eqb k m then c else 0).
Proof.
  intros Hs. unfold add_entry. destruct (bm_get k a) as [av|] eqn:G.
  - assert (Hk: coef a k = av) by (rewrite bm_get_coef, G by exact Hs; reflexivity).
    destruct (av + c =? 0) eqn:E.
    + rewrite bm_remove_coef by exact Hs. destruct (mono_eqb k m) eqn:E'; [|ring].
      apply mono_eqb_eq in E'; subst. lia.
    + rewrite bm_insert_coef by exact Hs. destruct (mono_eqb k m) eqn:E'; [|ring].
      apply mono_eqb_eq in E'; subst. reflexivity.
  - rewrite bm_insert_coef by exact Hs. destruct (mono_eqb k m) eqn:E'; [|ring].
    apply mono_eqb_eq in E'; subst. rewrite bm_get_coef, G by exact Hs. ring.
Qed.
Lemma add_entry_sorted a e : sorted a -> sorted (add_entry a e).
Proof.
  destruct e as [k c]. intros Hs. unfold add_entry. destruct (bm_get k a) as [av|].
  - destruct (av + c =? 0); [apply bm_remove_sorted|apply bm_insert_sorted]; exact Hs.
  - apply bm_insert_sorted; exact Hs.
Qed.
Lemma add_entry_no_zero a k c : sorted a -> no_zero a -> c <> 0 -> no_zero (add_entry a (k, c)).
Proof.
  intros Hs Hn Hc. unfold add_entry. destruct (bm_get k a) as [av|].
  - destruct (av + c =? 0) eqn:E; intros m d Hi.
    + apply bm_remove_in in Hi; [|exact Hs]. exact (Hn _ _ (proj2 Hi)).
    + apply bm_insert_in in Hi; [|exact Hs]. destruct Hi as [(_ & ->)|(_ & Hi)]; [lia|exact (Hn _ _ Hi)].
  - intros m d Hi. apply bm_insert_in in Hi; [|exact Hs]. destruct Hi as [(_ & ->)|(_ & Hi)]; [lia|exact (Hn _ _ Hi)].
Qed.
Lemma add_entry_keys (P : mono -> Prop) a k c : sorted a -> keysP P a -> P k -> keysP P (add_entry a (k, c)).
Proof.
  intros Hs Ha Hk. unfold add_entry. destruct (bm_get k a) as [av|].
  - destruct (av + c =? 0) eqn:E; intros m d Hi.
    + apply bm_remove_in in Hi; [|exact Hs]. exact (Ha _ _ (proj2 Hi)).
    + apply bm_insert_in in Hi; [|exact Hs]. destruct Hi as [(-> & _)|(_ & Hi)]; [exact Hk|exact (Ha _ _ Hi)].
  - intros m d Hi. apply bm_insert_in in Hi; [|exact Hs]. destruct Hi as [(-> & _)|(_ & Hi)]; [exact Hk|exact (Ha _ _ Hi)].
Qed.

Lemma p_add_sorted b : forall a, sorted a -> sorted (p_add a b).
Proof. unfold p_add. induction b as [|e b IH]; intros a Hs; [exact Hs|]. simpl. apply IH, add_entry_sorted, Hs. Qed.
Lemma p_add_coef b : forall a m, sorted a -> coef (p_add a b) m = coef a m + coef b m.
Proof.
  unfold p_add. induction b as [|[k c] b IH]; intros a m Hs; cbn [fold_left coef]; [ring|].
  rewrite IH by (apply add_entry_sorted; exact Hs). rewrite add_entry_coef by exact Hs. ring.
Qed.
Lemma p_add_feq a b : sorted a -> feq (p_add a b) (fadd a b).
Proof. intros Hs m. unfold fadd. rewrite coef_app. apply p_add_coef; exact Hs. Qed.
Lemma p_add_no_zero b : forall a, sorted a -> no_zero a -> no_zero b -> no_zero (p_add a b).
Proof.
  unfold p_add. induction b as [|[k c] b IH]; intros a Hs Ha Hb; [exact Ha|]. cbn [fold_left]. apply IH.
  - apply add_entry_sorted; exact Hs.
  - apply add_entry_no_zero; auto. apply (Hb k). left; reflexivity.
  - intros m d Hi. apply (Hb m). right; exact Hi.
Qed.
Lemma p_add_keys (P : mono -> Prop) b : forall a, sorted a -> keysP P a -> keysP P b -> keysP P (p_add a b).
Proof.
  unfold p_add. induction b as [|[k c] b IH]; intros a Hs Ha Hb; [exact Ha|]. cbn [fold_left]. apply IH.
  - apply add_entry_sorted; exact Hs.
  - apply add_entry_keys; auto. apply (Hb k c). left; reflexivity.
  - intros m d Hi. apply (Hb m d). right; exact Hi.
Qed.

(** += Term *)
Lemma p_add_assign_t_eq a t : p_add_assign_t a t = add_entry a (tm t, tc t).
Proof. reflexivity. Qed.

(** negation *)
Lemma fold_insert_map (f : mono * Z -> mono * Z) (a : poly) : forall acc, sorted acc ->
  sorted (fold_left (fun pol e => bm_insert (fst (f e)) (snd (f e)) pol) a acc).
Proof. induction a as [|e a IH]; intros acc H; [exact H|]. simpl. apply IH, bm_insert_sorted, H. Qed.

Lemma p_neg_eq_gen a : forall acc, sorted (acc ++ a) ->
  fold_left (fun pol (e : mono * Z) => let (m, coef) := e in bm_insert m (- coef) pol) a (fneg acc) = fneg (acc ++ a).
Proof.
  induction a as [|[m c] a IH]; intros acc Hs; cbn [fold_left].
  - rewrite app_nil_r. reflexivity.
  - assert (E: bm_insert m (- c) (fneg acc) = fneg (acc ++ [(m, c)])).
    { clear IH. induction acc as [|[k d] acc IHa]; [reflexivity|].
      destruct Hs as (Hlt & Hs). cbn [fneg map app fst snd bm_insert].
      assert (L: mono_cmp k m = Lt). { apply (Hlt m c). apply in_or_app. right; left; reflexivity. }
      rewrite mono_cmp_opp, L. cbn [CompOpp]. f_equal. apply IHa. exact Hs. }
    rewrite E. rewrite IH; rewrite <- app_assoc; [reflexivity|exact Hs].
Qed.
Lemma p_neg_eq a : sorted a -> p_neg a = fneg a.
Proof. intros H. unfold p_neg. exact (p_neg_eq_gen a [] H). Qed.
Lemma fneg_in a m c : In (m, c) (fneg a) <-> In (m, - c) a.
Proof.
  unfold fneg. rewrite in_map_iff. split.
  - intros ([k d] & E & Hi). injection E; intros; subst. cbn. replace (- - d) with d by ring. exact Hi.
  - intros Hi. exists (m, - c). split; [cbn; f_equal; ring|exact Hi].
Qed.
Lemma fneg_sorted a : sorted a -> sorted (fneg a).
Proof.
  induction a as [|[m c] a IH]; intros H; [exact I|]. destruct H as (Hlt & Hs). cbn [fneg map fst snd sorted].
  split; [|apply IH; exact Hs]. intros m' c' Hi. apply (fneg_in a m' c') in Hi. exact (Hlt _ _ Hi).
Qed.
Lemma fneg_no_zero a : no_zero a -> no_zero (fneg a).
Proof. intros H m c Hi. apply fneg_in in Hi. apply H in Hi. lia. Qed.
Lemma fneg_keys (P : mono -> Prop) a : keysP P a -> keysP P (fneg a).
Proof. intros H m c Hi. apply fneg_in in Hi. exact (H _ _ Hi). Qed.

Lemma p_sub_eq a b : sorted b -> p_sub a b = p_add a (fneg b).
Proof. intros H. unfold p_sub. rewrite p_neg_eq by exact H. reflexivity. Qed.
Lemma p_sub_sorted a b : sorted a -> sorted (p_sub a b).
Proof. intros H. apply p_add_sorted; exact H. Qed.
Lemma p_sub_feq a b : sorted a -> sorted b -> feq (p_sub a b) (fsub a b).
Proof. intros Ha Hb. rewrite p_sub_eq by exact Hb. apply p_add_feq; exact Ha. Qed.
Lemma p_sub_no_zero a b : sorted a -> sorted b -> no_zero a -> no_zero b -> no_zero (p_sub a b).
Proof. intros. rewrite p_sub_eq by assumption. apply p_add_no_zero; auto. apply fneg_no_zero; assumption. Qed.
Lemma p_sub_keys (P : mono -> Prop) a b : sorted a -> sorted b -> keysP P a -> keysP P b -> keysP P (p_sub a b).
Proof. intros. rewrite p_sub_eq by assumption. apply p_add_keys; auto. apply fneg_keys; assumption. Qed.

Lemma sub_entry_add a k c : sub_entry a (k, c) = add_entry a (k, - c).
Proof.
  unfold sub_entry, add_entry. destruct (bm_get k a); [|reflexivity].
  replace (z - c) with (z + - c) by ring. reflexivity.
Qed.
Lemma p_sub_assign_eq b : forall a, sorted b -> p_sub_assign a b = p_sub a b.
Proof.
  intros a Hb. rewrite p_sub_eq by exact Hb. clear Hb. unfold p_sub_assign, p_add. revert a.
  induction b as [|[k c] b IH]; intros a; [reflexivity|]. cbn [fold_left fneg map fst snd].
  rewrite sub_entry_add. apply IH.
Qed.

(** ** Term + Term *)
Lemma term_add_sorted a b : sorted (term_add a b).
Proof. unfold term_add. destruct (bm_get _ _); apply bm_insert_sorted, to_pol_sorted. Qed.
Lemma term_add_feq a b : feq (term_add a b) [(tm a, tc a); (tm b, tc b)].
Proof.
  intros m. unfold term_add. pose proof (to_pol_sorted a) as Hs.
  pose proof (to_pol_feq a) as F.
  assert (F': forall k, coef (to_pol a) k = if mono_eqb (tm a) k then tc a else 0).
  { intros k. rewrite F. cbn [coef]. ring. }
  destruct (bm_get (tm b) (to_pol a)) as [av|] eqn:G.
  - assert (Hk: coef (to_pol a) (tm b) = av) by (rewrite bm_get_coef, G by exact Hs; reflexivity).
    rewrite bm_insert_coef by exact Hs. cbn [coef]. destruct (mono_eqb (tm b) m) eqn:E.
    + apply mono_eqb_eq in E. subst m. rewrite F' in Hk. lia.
    + rewrite F'. ring.
  - assert (Hk: coef (to_pol a) (tm b) = 0) by (rewrite bm_get_coef, G by exact Hs; reflexivity).
    rewrite bm_insert_coef by exact Hs. cbn [coef]. destruct (mono_eqb (tm b) m) eqn:E.
    + apply mono_eqb_eq in E. subst m. rewrite F' in Hk. lia.
    + rewrite F'. ring.
Qed.
Lemma term_add_keys (P : mono -> Prop) a b : P (tm a) -> P (tm b) -> keysP P (term_add a b).
Proof.
  intros Ha Hb m c Hi. unfold term_add in Hi. pose proof (to_pol_sorted a) as Hs.
  destruct (bm_get _ _); (apply bm_insert_in in Hi; [|exact Hs]; destruct Hi as [(-> & _)|(_ & Hi)]; [exact Hb|]);
    exact (to_pol_keys P a Ha _ _ Hi).
Qed.
Lemma term_add_no_zero a b : tm a <> tm b -> tc b <> 0 -> no_zero (term_add a b).
Proof.
  intros N Hb m c Hi. unfold term_add in Hi. pose proof (to_pol_sorted a) as Hs.
  destruct (bm_get (tm b) (to_pol a)) as [av|] eqn:G.
  - exfalso. apply bm_get_in in G. rewrite to_pol_eq in G. destruct (tc a =? 0); [destruct G|].
    destruct G as [G|[]]. injection G; intros; tauto.
  - apply bm_insert_in in Hi; [|exact Hs]. destruct Hi as [(_ & ->)|(_ & Hi)]; [exact Hb|].
    exact (to_pol_no_zero a _ _ Hi).
Qed.

(** ** Term * Term *)
Definition mul_okb (a b : mono) : bool :=
  (vempty (mv a) || vempty (mv b)) && in_i32 (mx a + mx b) && in_i32 (my a + my b) && in_i32 (mq a + mq b).
Lemma mul_okb_spec a b : mul_okb a b = true <-> mul_ok a b.
Proof.
  unfold mul_okb, mul_ok, in_i32. destruct (mv a), (mv b); simpl; split; intros H; try lia; intuition (try congruence; try lia).
Qed.
Lemma term_mul_eq s t :
  term_mul s t = if mul_okb (tm s) (tm t) then Ok (mkTerm (tc s * tc t) (mmul (tm s) (tm t))) else Panic.
Proof.
  unfold term_mul, mul_okb, i32, mmul. destruct s as [c [x y q v]], t as [d [x' y' q' v']]; cbn [tm tc mx my mq mv].
  destruct v as [[i j]|], v' as [[k l]|]; cbn [vempty negb andb orb]; try reflexivity;
  destruct (in_i32 (x + x')); cbn [bind andb]; try reflexivity;
  destruct (in_i32 (y + y')); cbn [bind andb]; try reflexivity;
  destruct (in_i32 (q + q')); cbn [bind andb]; reflexivity.
Qed.

(** ** Polynomial * Polynomial *)
Definition acc_entry (pol : poly) (m : mono) (c : Z) : poly :=
  match bm_get m pol with
  | Some lv => bm_insert m (lv + c) pol
  | None => bm_insert m c pol
  end.
Definition mul_row (m : mono) (c : Z) (b : poly) (pol : poly) : poly :=
  fold_left (fun pol (e : mono * Z) => acc_entry pol (mmul m (fst e)) (c * snd e)) b pol.
Definition mulp (a b : poly) : poly :=
  fold_left (fun pol (e : mono * Z) => mul_row (fst e) (snd e) b pol) a [].
Definition all_ok (a b : poly) : bool :=
  forallb (fun e => forallb (fun f => mul_okb (fst e) (fst f)) b) a.

Lemma all_ok_spec a b : all_ok a b = true <->
  (forall m1 c1 m2 c2, In (m1, c1) a -> In (m2, c2) b -> mul_ok m1 m2).
Proof.
  unfold all_ok. rewrite forallb_forall. split.
  - intros H m1 c1 m2 c2 H1 H2. specialize (H _ H1). rewrite forallb_forall in H. apply mul_okb_spec. exact (H _ H2).
  - intros H [m1 c1] H1. rewrite forallb_forall. intros [m2 c2] H2. apply mul_okb_spec. exact (H _ _ _ _ H1 H2).
Qed.

Lemma mul_entry_eq m c pol e :
  mul_entry (mkTerm c m) pol e =
  if mul_okb m (fst e) then Ok (acc_entry pol (mmul m (fst e)) (c * snd e)) else Panic.
Proof.
  destruct e as [k d]. unfold mul_entry. rewrite term_mul_eq. cbn [tm tc fst snd].
  destruct (mul_okb m k); reflexivity.
Qed.
Lemma mul_row_eq m c b : forall pol,
  foldM (mul_entry (mkTerm c m)) b pol =
  if forallb (fun f => mul_okb m (fst f)) b then Ok (mul_row m c b pol) else Panic.
Proof.
  induction b as [|e b IH]; intros pol; [reflexivity|]. cbn [foldM forallb]. rewrite mul_entry_eq.
  destruct (mul_okb m (fst e)); cbn [bind andb]; [|reflexivity]. rewrite IH. reflexivity.
Qed.
Lemma p_mul_eq a b : p_mul a b = if all_ok a b then Ok (mulp a b) else Panic.
Proof.
  unfold p_mul, mulp, all_ok, p_new. generalize (@nil (mono * Z)).
  induction a as [|[m c] a IH]; intros pol; [reflexivity|]. cbn [foldM forallb fold_left fst snd].
  rewrite mul_row_eq. destruct (forallb _ b); cbn [bind andb]; [|reflexivity]. apply IH.
Qed.
Lemma p_mul_Ok a b c : p_mul a b = Ok c <-> all_ok a b = true /\ c = mulp a b.
Proof.
  rewrite p_mul_eq. destruct (all_ok a b); split; intros H.
  - injection H; auto.
  - destruct H; subst; reflexivity.
  - discriminate.
  - destruct H; discriminate.
Qed.

Lemma acc_entry_sorted pol m c : sorted pol -> sorted (acc_entry pol m c).
Proof. intros H. unfold acc_entry. destruct (bm_get m pol); apply bm_insert_sorted, H. Qed.
Lemma acc_entry_coef pol m c k : sorted pol ->
  coef (acc_entry pol m c) k = coef pol k + (if mono_eqb m k then c else 0).
Proof.
  intros Hs. unfold acc_entry. destruct (bm_get m pol) as [lv|] eqn:G; rewrite bm_insert_coef by exact Hs;
  (destruct (mono_eqb m k) eqn:E; [|ring]); apply mono_eqb_eq in E; subst k; rewrite (bm_get_coef pol m Hs), G; ring.
Qed.
Lemma acc_entry_keys pol m c k : sorted pol -> (haskey (acc_entry pol m c) k <-> k = m \/ haskey pol k).
Proof.
  intros Hs. unfold acc_entry, haskey.
  destruct (bm_get m pol) as [lv|]; split.
  - intros (d & Hd). apply bm_insert_in in Hd; [|exact Hs]. destruct Hd as [(? & _)|(_ & ?)]; eauto.
  - intros [->|(d & Hd)]; [exists (lv + c); apply bm_insert_in; auto|].
    destruct (mono_eq_dec k m) as [->|N]; [exists (lv + c)|exists d]; apply bm_insert_in; auto.
  - intros (d & Hd). apply bm_insert_in in Hd; [|exact Hs]. destruct Hd as [(? & _)|(_ & ?)]; eauto.
  - intros [->|(d & Hd)]; [exists c; apply bm_insert_in; auto|].
    destruct (mono_eq_dec k m) as [->|N]; [exists c|exists d]; apply bm_insert_in; auto.
Qed.

Lemma mul_row_spec m c b : forall pol, sorted pol ->
  sorted (mul_row m c b pol) /\
  (forall k, coef (mul_row m c b pol) k = coef pol k + coef (map (fun f => (mmul m (fst f), c * snd f)) b) k) /\
  (forall k, haskey (mul_row m c b pol) k <-> haskey pol k \/ exists m2 c2, In (m2, c2) b /\ k = mmul m m2).
Proof.
  unfold mul_row. induction b as [|[j d] b IH]; intros pol Hs; cbn [fold_left map fst snd].
  - split; [exact Hs|]. split; [intros k; cbn; ring|]. intros k. split; [tauto|].
    intros [H|(? & ? & [] & _)]; exact H.
  - destruct (IH (acc_entry pol (mmul m j) (c * d)) (acc_entry_sorted _ _ _ Hs)) as (S & C & K).
    split; [exact S|]. split.
    + intros k. rewrite C, acc_entry_coef by exact Hs. cbn [coef]. ring.
    + intros k. rewrite K, acc_entry_keys by exact Hs. split.
      * intros [[->|H]|(m2 & c2 & Hi & E)]; [right; exists j, d; split; [left|]; reflexivity|left; exact H|].
        right. exists m2, c2. split; [right; exact Hi|exact E].
      * intros [H|(m2 & c2 & [E'|Hi] & E)]; [auto| |].
        -- injection E'; intros; subst. auto.
        -- right. exists m2, c2. auto.
Qed.
Lemma mulp_spec a b :
  sorted (mulp a b) /\ feq (mulp a b) (conv a b) /\
  (forall k, haskey (mulp a b) k <-> exists m1 c1 m2 c2, In (m1, c1) a /\ In (m2, c2) b /\ k = mmul m1 m2).
Proof.
  unfold mulp, conv, feq.
  assert (G: forall pol, sorted pol ->
    sorted (fold_left (fun pol0 e => mul_row (fst e) (snd e) b pol0) a pol) /\
    (forall k, coef (fold_left (fun pol0 e => mul_row (fst e) (snd e) b pol0) a pol) k =
       coef pol k + coef (flat_map (fun e => map (fun f => (mmul (fst e) (fst f), snd e * snd f)) b) a) k) /\
    (forall k, haskey (fold_left (fun pol0 e => mul_row (fst e) (snd e) b pol0) a pol) k <->
       haskey pol k \/ exists m1 c1 m2 c2, In (m1, c1) a /\ In (m2, c2) b /\ k = mmul m1 m2)).
  { induction a as [|[m c] a IH]; intros pol Hs; cbn [fold_left flat_map fst snd].
    - split; [exact Hs|]. split; [intros; cbn; ring|]. intros k. split; [tauto|].
      intros [H|(? & ? & ? & ? & [] & _)]; exact H.
    - destruct (mul_row_spec m c b pol Hs) as (S & C & K). destruct (IH _ S) as (S' & C' & K').
      split; [exact S'|]. split.
      + intros k. rewrite C', C, coef_app. ring.
      + intros k. rewrite K', K. split.
        * intros [[H|(m2 & c2 & Hi & E)]|(m1 & c1 & m2 & c2 & H1 & H2 & E)]; [auto| |].
          -- right. exists m, c, m2, c2. split; [left; reflexivity|auto].
          -- right. exists m1, c1, m2, c2. split; [right; exact H1|auto].
        * intros [H|(m1 & c1 & m2 & c2 & [E'|H1] & H2 & E)]; [auto| |].
          -- injection E'; intros; subst. left; right. exists m2, c2. auto.
          -- right. exists m1, c1, m2, c2. auto. }
  destruct (G [] I) as (S & C & K). split; [exact S|]. split.
  - intros k. rewrite C. cbn [coef]. ring.
  - intros k. rewrite K. split; [|tauto]. intros [(c & [])|H]; exact H.
Qed.

Lemma p_mul_sorted a b c : p_mul a b = Ok c -> sorted c.
Proof. intros H. apply p_mul_Ok in H. destruct H as (_ & ->). apply mulp_spec. Qed.
Lemma p_mul_feq a b c : p_mul a b = Ok c -> feq c (conv a b).
Proof. intros H. apply p_mul_Ok in H. destruct H as (_ & ->). apply mulp_spec. Qed.
Lemma p_mul_keys (P Q R : mono -> Prop) a b c : p_mul a b = Ok c -> keysP P a -> keysP Q b ->
  (forall m1 m2, P m1 -> Q m2 -> mul_ok m1 m2 -> R (mmul m1 m2)) -> keysP R c.
Proof.
  intros H Ha Hb HR. apply p_mul_Ok in H. destruct H as (Ho & ->). intros k d Hd.
  destruct (mulp_spec a b) as (_ & _ & K). destruct (proj1 (K k)) as (m1 & c1 & m2 & c2 & H1 & H2 & ->); [exists d; exact Hd|].
  pose proof (proj1 (all_ok_spec a b) Ho _ _ _ _ H1 H2). eapply HR; eauto.
Qed.
Lemma p_mul_returns a b : (forall m1 c1 m2 c2, In (m1, c1) a -> In (m2, c2) b -> mul_ok m1 m2) ->
  exists c, p_mul a b = Ok c.
Proof. intros H. apply all_ok_spec in H. exists (mulp a b). apply p_mul_Ok. auto. Qed.
Lemma p_mul_panics a b m1 c1 m2 c2 : In (m1, c1) a -> In (m2, c2) b -> ~ mul_ok m1 m2 -> p_mul a b = Panic.
Proof.
  intros H1 H2 H. rewrite p_mul_eq. destruct (all_ok a b) eqn:E; [|reflexivity].
  exfalso. apply H. exact (proj1 (all_ok_spec a b) E _ _ _ _ H1 H2).
Qed.
Lemma mul_ok_i32 m1 m2 : mul_ok m1 m2 -> i32_mono (mmul m1 m2).
Proof. unfold mul_ok, i32_mono, i32_range. cbn. tauto. Qed.
Lemma p_mul_i32 a b c : p_mul a b = Ok c -> i32_poly c.
Proof.
  intros H. apply (p_mul_keys (fun _ => True) (fun _ => True) i32_mono a b c H); try (intros ? ? ?; exact I).
  intros m1 m2 _ _ Hm. apply mul_ok_i32; exact Hm.
Qed.

(** ** power *)
Lemma p_one_eq : p_one = fconst 1.
Proof. reflexivity. Qed.

Lemma p_power_loop_spec fuel : forall e b r c, 1 <= e -> sorted b ->
  p_power_loop fuel e b r = Ok c -> sorted c /\ feq c (conv r (fpow b (Z.to_nat e))).
Proof.
  induction fuel as [|f IH]; intros e b r c He Hb H; cbn [p_power_loop] in H.
  - destruct (1 <? e) eqn:E; [discriminate|]. assert (e = 1) by lia. subst.
    split; [eapply p_mul_sorted; exact H|]. rewrite (p_mul_feq _ _ _ H).
    change (Z.to_nat 1) with 1%nat. rewrite fpow_1. reflexivity.
  - destruct (1 <? e) eqn:E.
    + destruct (quot2_split e ltac:(lia)) as (Hs & Hq). set (h := Z.quot e 2) in *.
      apply bind_Ok in H. destruct H as (r' & Hr & H). apply bind_Ok in H. destruct H as (b' & Hb' & H).
      destruct (IH h b' r' c ltac:(lia) (p_mul_sorted _ _ _ Hb') H) as (Sc & F).
      split; [exact Sc|]. rewrite F.
      assert (Fb: feq (fpow b' (Z.to_nat h)) (fpow b (2 * Z.to_nat h))).
      { rewrite fpow_mul. apply feqm_0. apply fpow_proper. apply feqm_0. rewrite (p_mul_feq _ _ _ Hb').
        cbn [fpow]. ring. }
      rewrite Fb. destruct (Z.odd e).
      * unfold p_mul_assign in Hr. rewrite (p_mul_feq _ _ _ Hr).
        replace (Z.to_nat e) with (S (2 * Z.to_nat h))%nat by lia. cbn [fpow]. ring.
      * injection Hr; intros; subst r'. replace (Z.to_nat e) with (2 * Z.to_nat h)%nat by lia. reflexivity.
    + assert (e = 1) by lia. subst.
      split; [eapply p_mul_sorted; exact H|]. rewrite (p_mul_feq _ _ _ H).
      change (Z.to_nat 1) with 1%nat. rewrite fpow_1. reflexivity.
Qed.
Lemma p_power_spec a n c : sorted a -> p_power a n = Ok c -> 0 <= n /\ sorted c /\ feq c (fpow a (Z.to_nat n)).
Proof.
  intros Ha H. unfold p_power in H. destruct (0 <=? n) eqn:E; [|discriminate]. cbn [assertb bind] in H.
  split; [lia|]. destruct (n =? 0) eqn:E0.
  - injection H; intros; subst. assert (n = 0) by lia. subst. split; [simpl; split; [intros ? ? []|exact I]|reflexivity].
  - assert (H1: 1 <= n) by lia. destruct (p_power_loop_spec _ _ _ _ _ H1 Ha H) as (Sc & F). split; [exact Sc|].
    rewrite F, p_one_eq. apply conv_1_l.
Qed.
Lemma p_power_neg a n : n < 0 -> p_power a n = Panic.
Proof. intros H. unfold p_power. destruct (0 <=? n) eqn:E; [lia|reflexivity]. Qed.
Lemma p_power_loop_fuel fuel : forall e b r, 1 <= e -> (halvings e <= fuel)%nat -> p_power_loop fuel e b r <> NoFuel.
Proof.
  induction fuel as [|f IH]; intros e b r He Hf; [unfold halvings in Hf; lia|]. cbn [p_power_loop].
  destruct (1 <? e) eqn:E.
  - destruct (halvings_step e ltac:(lia)) as (k & Hk & Hk'). destruct (quot2_split e ltac:(lia)) as (_ & Hq).
    destruct (if Z.odd e then p_mul_assign r b else Ok r) as [r'| |] eqn:Er; cbn [bind].
    + rewrite p_mul_eq. destruct (all_ok b b); cbn [bind]; [|discriminate]. apply IH; lia.
    + discriminate.
    + destruct (Z.odd e); [|discriminate]. unfold p_mul_assign in Er. rewrite p_mul_eq in Er. destruct (all_ok r b); discriminate.
  - rewrite p_mul_eq. destruct (all_ok r b); discriminate.
Qed.
Lemma p_power_fuel a n : p_power a n <> NoFuel.
Proof.
  unfold p_power. destruct (0 <=? n) eqn:E; [|discriminate]. cbn [assertb bind]. destruct (n =? 0) eqn:E0; [discriminate|].
  apply p_power_loop_fuel; [lia|reflexivity].
Qed.
