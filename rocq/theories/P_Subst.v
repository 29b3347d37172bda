(** Lemmas about insertion loops, derivatives, substitutions and evaluation. *)
From Coq Require Import Znumtheory ZifyBool Setoid Morphisms Ring.
From Verif Require Import Prelude M_Bigint M_Variable M_Term M_Poly Spec P_Bigint P_Variable P_FSum P_Poly P_Rem P_PolyProps.
Open Scope Z_scope.

(** ** Insertion loops *)
(** Cases on membership in a concrete list; sortedness of a concrete list. *)
Ltac in_cases H := cbn [In] in H;
  repeat match type of H with
         | _ \/ _ => destruct H as [H|H]
         | False => destruct H
         | (_, _) = (_, _) => injection H; clear H; intros; subst
         end.
Ltac csorted := cbn [sorted]; repeat match goal with |- _ /\ _ => split | |- True => exact I end;
  let H := fresh in intros ? ? H; in_cases H; reflexivity.
Definition ins_all (l acc : poly) : poly := fold_left (fun p (e : mono * Z) => bm_insert (fst e) (snd e) p) l acc.
Lemma ins_all_spec l : forall acc, sorted acc -> NoDup (map fst l) -> (forall k, In k (map fst l) -> ~ haskey acc k) ->
  sorted (ins_all l acc) /\ (forall e, In e (ins_all l acc) <-> In e acc \/ In e l) /\ feq (ins_all l acc) (acc ++ l).
Proof.
  unfold ins_all. induction l as [|[m c] l IH]; intros acc Hs Hn Hd; cbn [fold_left fst snd].
  - split; [exact Hs|]. split; [simpl; tauto|]. rewrite app_nil_r. reflexivity.
  - cbn [map fst] in *. inversion Hn; subst.
    assert (Hm: forall c, ~ In (m, c) acc) by (intros d Hi; apply (Hd m); [left; reflexivity|exists d; exact Hi]).
    destruct (IH (bm_insert m c acc)) as (H3 & H4 & H5).
    + apply bm_insert_sorted, Hs.
    + assumption.
    + intros k Hk (d & Hi). apply bm_insert_in in Hi; [|exact Hs]. destruct Hi as [(-> & _)|(_ & Hi)]; [tauto|].
      apply (Hd k); [right; exact Hk|exists d; exact Hi].
    + split; [exact H3|]. split.
      * intros [k d]. rewrite H4, bm_insert_in by exact Hs. simpl. split.
        -- intros [[(-> & ->)|(_ & H)]|H]; tauto.
        -- intros [H|[E|H]]; [left; right; split; [intros ->; exact (Hm _ H)|exact H]| |tauto].
           injection E; intros; subst. left; left; auto.
      * intros k. rewrite H5. rewrite !coef_app, bm_insert_coef by exact Hs. cbn [coef].
        destruct (mono_eqb m k) eqn:E; [|ring]. apply mono_eqb_eq in E; subst.
        rewrite (coef_notin acc k Hm). ring.
Qed.
Lemma sorted_NoDup a : sorted a -> NoDup (map fst a).
Proof.
  induction a as [|[m c] a IH]; intros H; [constructor|]. destruct H as (Hlt & Hs). cbn. constructor; [|apply IH, Hs].
  intros Hi. apply in_map_iff in Hi. destruct Hi as ([k d] & E & Hi). cbn in E; subst.
  apply Hlt in Hi. rewrite mono_cmp_refl in Hi. discriminate.
Qed.
Definition key_inj (f : mono -> mono) (a : fsum) : Prop :=
  forall m c m' c', In (m, c) a -> In (m', c') a -> f m = f m' -> m = m'.
Lemma fmap_NoDup f a : sorted a -> key_inj f a -> NoDup (map fst (fmap f a)).
Proof.
  intros Hs Hi. unfold fmap. rewrite map_map. cbn.
  rewrite <- map_map with (f := fst) (g := f). apply NoDup_map_inj_in; [|apply sorted_NoDup, Hs].
  intros x y Hx Hy E. apply in_map_iff in Hx. apply in_map_iff in Hy.
  destruct Hx as ([m c] & <- & Hx), Hy as ([m' c'] & <- & Hy). eapply Hi; eauto.
Qed.
Lemma fmap_in f a m c : In (m, c) (fmap f a) <-> exists k, In (k, c) a /\ m = f k.
Proof.
  unfold fmap. rewrite in_map_iff. split.
  - intros ([k d] & E & Hi). cbn in E. injection E; intros; subst. eauto.
  - intros (k & Hi & ->). exists (k, c). auto.
Qed.
Lemma lin_fmap phi f a : lin phi (fmap f a) = lin (fun m => phi (f m)) a.
Proof. induction a as [|[m c] a IH]; [reflexivity|]. cbn [fmap map lin fst snd]. unfold fmap in IH. rewrite IH. reflexivity. Qed.
Lemma fmap_proper n f a b : feqm n a b -> feqm n (fmap f a) (fmap f b).
Proof. intros H. apply feqm_intro. intros phi. rewrite !lin_fmap. apply feqm_lin, H. Qed.
Lemma fmap_add f a b : fmap f (fadd a b) = fadd (fmap f a) (fmap f b).
Proof. apply map_app. Qed.
Lemma fmap_conv f a b : (forall m1 c1 m2 c2, In (m1, c1) a -> In (m2, c2) b -> f (mmul m1 m2) = mmul (f m1) (f m2)) ->
  feq (fmap f (conv a b)) (conv (fmap f a) (fmap f b)).
Proof.
  intros H. apply feq_intro. intros phi. rewrite lin_fmap, !lin_conv, lin_fmap.
  apply lin_ext_in. intros m1 c1 H1. rewrite lin_fmap. apply lin_ext_in. intros m2 c2 H2. rewrite (H _ _ _ _ H1 H2). reflexivity.
Qed.
(** A loop  for e in a { pol.insert(f(e)) }  whose body succeeds on every entry. *)
Lemma foldM_ins (g : mono * Z -> res term) (F : mono * Z -> mono * Z) a : forall acc,
  (forall e, In e a -> g e = Ok (mkTerm (snd (F e)) (fst (F e)))) ->
  foldM (fun pol e => u <- g e ;; Ok (bm_insert (tm u) (tc u) pol)) a acc = Ok (ins_all (map F a) acc).
Proof.
  induction a as [|e a IH]; intros acc H; [reflexivity|]. cbn [foldM map]. rewrite (H e) by (left; reflexivity). cbn [bind tm tc].
  rewrite IH by (intros; apply H; right; assumption). reflexivity.
Qed.
Lemma foldM_ext {S X} (f g : S -> X -> res S) l : (forall s x, In x l -> f s x = g s x) -> forall s, foldM f l s = foldM g l s.
Proof.
  induction l as [|x l IH]; intros H s; [reflexivity|]. cbn [foldM]. rewrite (H s x) by (left; reflexivity).
  destruct (g s x); cbn [bind]; [apply IH|reflexivity|reflexivity]. intros; apply H; right; assumption.
Qed.
Lemma foldM_ins_fmap (g : mono * Z -> res term) (f : mono -> mono) a : sorted a -> key_inj f a ->
  (forall m c, In (m, c) a -> g (m, c) = Ok (mkTerm c (f m))) ->
  exists r, foldM (fun pol e => u <- g e ;; Ok (bm_insert (tm u) (tc u) pol)) a p_new = Ok r /\
    sorted r /\ (forall m c, In (m, c) r <-> In (m, c) (fmap f a)) /\ feq r (fmap f a).
Proof.
  intros Hs Hi Hg. rewrite (foldM_ins g (fun e => (f (fst e), snd e))) by (intros [m c] Hm; apply Hg, Hm).
  exists (ins_all (fmap f a) p_new). split; [reflexivity|].
  destruct (ins_all_spec (fmap f a) [] I (fmap_NoDup f a Hs Hi)) as (H1 & H2 & H3).
  { intros k _ (c & []). }
  split; [exact H1|]. split; [|exact H3]. intros m c. rewrite H2. simpl. tauto.
Qed.
Lemma foldM_inv {S X} (P : S -> Prop) (f : S -> X -> res S) l s s' :
  (forall s x s', In x l -> P s -> f s x = Ok s' -> P s') -> P s -> foldM f l s = Ok s' -> P s'.
Proof.
  revert s. induction l as [|x l IH]; intros s H Hs E; cbn [foldM] in E; [injection E; intros; subst; exact Hs|].
  apply bind_Ok in E. destruct E as (s1 & E1 & E). eapply IH; [|eapply H; [left; reflexivity|exact Hs|exact E1]|exact E].
  intros; eapply H; [right|..]; eassumption.
Qed.
Lemma foldM_all {S X} (f : S -> X -> res S) l s s' : foldM f l s = Ok s' -> forall x, In x l -> exists s1 s2, f s1 x = Ok s2.
Proof.
  revert s. induction l as [|y l IH]; intros s E x Hx; [destruct Hx|]. cbn [foldM] in E. apply bind_Ok in E. destruct E as (s1 & E1 & E).
  destruct Hx as [->|Hx]; eauto.
Qed.
(** Accumulating loops: every step adds [G x]; so the whole adds the sum. *)
Lemma foldM_sum {X} (f : poly -> X -> res poly) (G : X -> fsum) n l :
  (forall s x s', In x l -> sorted s -> f s x = Ok s' -> sorted s' /\ feqm n s' (fadd s (G x))) ->
  forall s s', sorted s -> foldM f l s = Ok s' -> sorted s' /\ feqm n s' (fadd s (flat_map G l)).
Proof.
  induction l as [|x l IH]; intros H s s' Hs E; cbn [foldM flat_map] in *.
  - injection E; intros; subst. split; [exact Hs|]. unfold fadd. rewrite app_nil_r. reflexivity.
  - apply bind_Ok in E. destruct E as (s1 & E1 & E). destruct (H s x s1 (or_introl eq_refl) Hs E1) as (S1 & F1).
    destruct (IH (fun s x s' Hx => H s x s' (or_intror Hx)) s1 s' S1 E) as (S2 & F2). split; [exact S2|].
    rewrite F2, F1. unfold fadd. rewrite app_assoc. reflexivity.
Qed.
Lemma foldM_returns {S X} (P : S -> Prop) (f : S -> X -> res S) l :
  (forall s x, In x l -> P s -> exists s', f s x = Ok s' /\ P s') -> forall s, P s -> exists s', foldM f l s = Ok s' /\ P s'.
Proof.
  induction l as [|x l IH]; intros H s Hs; [exists s; split; [reflexivity|exact Hs]|]. cbn [foldM].
  destruct (H s x (or_introl eq_refl) Hs) as (s1 & E1 & H1). rewrite E1. cbn [bind]. apply IH; auto.
  intros s0 x0 Hx0. apply H. right; exact Hx0.
Qed.

(** ** Derivatives *)
Definition fdx (a : fsum) : fsum := map (fun e => (set_x (mx (fst e) - 1) (fst e), mx (fst e) * snd e)) a.
Definition fdy (a : fsum) : fsum := map (fun e => (set_y (my (fst e) - 1) (fst e), my (fst e) * snd e)) a.
Lemma lin_fdx phi a : lin phi (fdx a) = lin (fun m => mx m * phi (set_x (mx m - 1) m)) a.
Proof. induction a as [|[m c] a IH]; [reflexivity|]. cbn [fdx map lin fst snd]. unfold fdx in IH. rewrite IH. ring. Qed.
Lemma lin_fdy phi a : lin phi (fdy a) = lin (fun m => my m * phi (set_y (my m - 1) m)) a.
Proof. induction a as [|[m c] a IH]; [reflexivity|]. cbn [fdy map lin fst snd]. unfold fdy in IH. rewrite IH. ring. Qed.
Lemma coef_fdx a m : coef (fdx a) m = (mx m + 1) * coef a (set_x (mx m + 1) m).
Proof.
  rewrite !coef_lin, lin_fdx, <- lin_scale. apply lin_ext. intros k. unfold delta.
  destruct (mono_eqb (set_x (mx k - 1) k) m) eqn:E1, (mono_eqb k (set_x (mx m + 1) m)) eqn:E2; try ring.
  - apply mono_eqb_eq in E1. subst m. cbn. ring.
  - apply mono_eqb_eq in E1. subst m. exfalso. destruct k as [x y q v]. cbn in E2. replace (x - 1 + 1) with x in E2 by ring.
    unfold set_x in E2. cbn in E2. rewrite mono_eqb_refl in E2. discriminate.
  - apply mono_eqb_eq in E2. subst k. exfalso. destruct m as [x y q v]. cbn in E1. replace (x + 1 - 1) with x in E1 by ring.
    unfold set_x in E1. cbn in E1. rewrite mono_eqb_refl in E1. discriminate.
Qed.
Lemma coef_fdy a m : coef (fdy a) m = (my m + 1) * coef a (set_y (my m + 1) m).
Proof.
  rewrite !coef_lin, lin_fdy, <- lin_scale. apply lin_ext. intros k. unfold delta.
  destruct (mono_eqb (set_y (my k - 1) k) m) eqn:E1, (mono_eqb k (set_y (my m + 1) m)) eqn:E2; try ring.
  - apply mono_eqb_eq in E1. subst m. cbn. ring.
  - apply mono_eqb_eq in E1. subst m. exfalso. destruct k as [x y q v]. cbn in E2. replace (y - 1 + 1) with y in E2 by ring.
    unfold set_y in E2. cbn in E2. rewrite mono_eqb_refl in E2. discriminate.
  - apply mono_eqb_eq in E2. subst k. exfalso. destruct m as [x y q v]. cbn in E1. replace (y + 1 - 1) with y in E1 by ring.
    unfold set_y in E1. cbn in E1. rewrite mono_eqb_refl in E1. discriminate.
Qed.
Lemma fdx_proper n a b : feqm n a b -> feqm n (fdx a) (fdx b).
Proof. intros H. apply feqm_intro. intros phi. rewrite !lin_fdx. apply feqm_lin, H. Qed.
Lemma fdy_proper n a b : feqm n a b -> feqm n (fdy a) (fdy b).
Proof. intros H. apply feqm_intro. intros phi. rewrite !lin_fdy. apply feqm_lin, H. Qed.
Lemma fdx_conv a b : feq (fdx (conv a b)) (fadd (conv (fdx a) b) (conv a (fdx b))).
Proof.
  apply feq_intro. intros phi. unfold fadd. rewrite lin_app, lin_fdx, !lin_conv, lin_fdx, <- lin_plus.
  apply lin_ext. intros m1. rewrite lin_fdx, <- lin_scale, <- lin_plus. apply lin_ext. intros m2.
  destruct m1 as [x1 y1 q1 v1], m2 as [x2 y2 q2 v2]. unfold mmul, set_x. cbn [mx my mq mv].
  replace (x1 - 1 + x2) with (x1 + x2 - 1) by ring. replace (x1 + (x2 - 1)) with (x1 + x2 - 1) by ring. ring.
Qed.
Lemma fdy_conv a b : feq (fdy (conv a b)) (fadd (conv (fdy a) b) (conv a (fdy b))).
Proof.
  apply feq_intro. intros phi. unfold fadd. rewrite lin_app, lin_fdy, !lin_conv, lin_fdy, <- lin_plus.
  apply lin_ext. intros m1. rewrite lin_fdy, <- lin_scale, <- lin_plus. apply lin_ext. intros m2.
  destruct m1 as [x1 y1 q1 v1], m2 as [x2 y2 q2 v2]. unfold mmul, set_y. cbn [mx my mq mv].
  replace (y1 - 1 + y2) with (y1 + y2 - 1) by ring. replace (y1 + (y2 - 1)) with (y1 + y2 - 1) by ring. ring.
Qed.

(** derivative loops *)
Lemma deriv_loop (g : term -> res term) (F : mono * Z -> mono * Z) a : forall acc,
  (forall e, In e a -> exists u, g (mkTerm (snd e) (fst e)) = Ok u /\
     (if tc u =? 0 then snd (F e) = 0 else u = mkTerm (snd (F e)) (fst (F e)))) ->
  foldM (fun pol (e : mono * Z) => t <- g (mkTerm (snd e) (fst e)) ;;
           Ok (if negb (tc t =? 0) then bm_insert (tm t) (tc t) pol else pol)) a acc =
  Ok (ins_all (filter (fun e => negb (snd e =? 0)) (map F a)) acc).
Proof.
  induction a as [|e a IH]; intros acc H; [reflexivity|]. cbn [foldM map filter].
  destruct (H e (or_introl eq_refl)) as (u & Eu & Hu). rewrite Eu. cbn [bind].
  destruct (tc u =? 0) eqn:E; cbn [negb].
  - rewrite Hu. cbn. apply IH. intros; apply H; right; assumption.
  - subst u. cbn [tm tc] in *. rewrite E. cbn [negb]. rewrite IH by (intros; apply H; right; assumption). reflexivity.
Qed.
Lemma feq_filter_nz a : feq (filter (fun e : mono * Z => negb (snd e =? 0)) a) a.
Proof.
  intros m. induction a as [|[k c] a IH]; [reflexivity|]. cbn [filter snd coef]. destruct (c =? 0) eqn:E; cbn [negb coef]; [|lia].
  destruct (mono_eqb k m); lia.
Qed.
Lemma NoDup_filter_fst (f : mono * Z -> bool) l : NoDup (map fst l) -> NoDup (map fst (filter f l)).
Proof.
  induction l as [|[k c] l IH]; intros H; [constructor|]. cbn [map fst filter] in *. inversion H; subst.
  destruct (f (k, c)); [|apply IH; assumption]. cbn [map fst]. constructor; [|apply IH; assumption].
  intros Hi. apply H2. apply in_map_iff in Hi. destruct Hi as (e & E & Hi). apply filter_In in Hi. apply in_map_iff. exists e. tauto.
Qed.
Lemma ins_filter_nz l : NoDup (map fst l) ->
  let r := ins_all (filter (fun e => negb (snd e =? 0)) l) p_new in sorted r /\ feq r l /\ no_zero r /\
  (forall m c, In (m, c) r -> In (m, c) l).
Proof.
  intros H. destruct (ins_all_spec (filter (fun e => negb (snd e =? 0)) l) [] I (NoDup_filter_fst _ _ H)) as (H1 & H2 & H3).
  { intros k _ (c & []). }
  cbv zeta. change p_new with (@nil (mono * Z)). split; [exact H1|]. split; [rewrite H3; apply feq_filter_nz|]. split.
  - intros m c Hi. apply H2 in Hi. destruct Hi as [[]|Hi]. apply filter_In in Hi. cbn in Hi. lia.
  - intros m c Hi. apply H2 in Hi. destruct Hi as [[]|Hi]. apply filter_In in Hi. tauto.
Qed.
Lemma set_x_inj k m m' : set_x (mx m + k) m = set_x (mx m' + k) m' -> m = m'.
Proof. destruct m, m'. unfold set_x. cbn. intros H. injection H; intros; subst. f_equal. lia. Qed.
Lemma set_y_inj k m m' : set_y (my m + k) m = set_y (my m' + k) m' -> m = m'.
Proof. destruct m, m'. unfold set_y. cbn. intros H. injection H; intros; subst. f_equal. lia. Qed.

Lemma derivative_x_spec a : sorted a -> (forall m c, In (m, c) a -> 0 <= mx m) ->
  exists r, derivative_x a = Ok r /\ sorted r /\ no_zero r /\ feq r (fdx a) /\
            (forall m c, In (m, c) r -> exists d, In (set_x (mx m + 1) m, d) a /\ 0 <= mx m).
Proof.
  intros Hs Hn. unfold derivative_x.
  rewrite (deriv_loop term_derivative_x (fun e => (set_x (mx (fst e) - 1) (fst e), mx (fst e) * snd e))).
  - change (map _ a) with (fdx a).
    assert (N: NoDup (map fst (fdx a))).
    { unfold fdx. rewrite map_map. cbn [fst]. rewrite <- map_map with (f := fst) (g := fun m => set_x (mx m - 1) m).
      apply NoDup_map_inj_in; [|apply sorted_NoDup, Hs]. intros m m' _ _ E. exact (set_x_inj (-1) m m' E). }
    destruct (ins_filter_nz (fdx a) N) as (H1 & H2 & H3 & H4). eexists. split; [reflexivity|]. split; [exact H1|]. split; [exact H3|].
    split; [exact H2|]. intros m c Hi. pose proof (H3 _ _ Hi) as Nz. apply H4 in Hi. unfold fdx in Hi. apply in_map_iff in Hi.
    destruct Hi as ([k d] & E & Hi). cbn in E. injection E; intros; subst. exists d.
    pose proof (Hn _ _ Hi). destruct k as [x y q v]. unfold set_x. cbn in *. replace (x - 1 + 1) with x by ring. split; [exact Hi|]. assert (x <> 0) by (intros ->; lia). lia.
  - intros [m c] Hi. apply Hn in Hi as Hm. unfold term_derivative_x. cbn [fst snd tm tc].
    destruct (0 <=? mx m) eqn:E; [|lia]. cbn [assertb bind]. destruct (0 <? mx m) eqn:E'; eexists; (split; [reflexivity|]); cbn [tc tb_build tb_coef].
    + destruct (c * mx m =? 0) eqn:E0; [lia|]. f_equal. ring.
    + cbn. replace (mx m) with 0 by lia. lia.
Qed.
Lemma derivative_y_spec a : sorted a -> (forall m c, In (m, c) a -> 0 <= my m) ->
  exists r, derivative_y a = Ok r /\ sorted r /\ no_zero r /\ feq r (fdy a) /\
            (forall m c, In (m, c) r -> exists d, In (set_y (my m + 1) m, d) a /\ 0 <= my m).
Proof.
  intros Hs Hn. unfold derivative_y.
  rewrite (deriv_loop term_derivative_y (fun e => (set_y (my (fst e) - 1) (fst e), my (fst e) * snd e))).
  - change (map _ a) with (fdy a).
    assert (N: NoDup (map fst (fdy a))).
    { unfold fdy. rewrite map_map. cbn [fst]. rewrite <- map_map with (f := fst) (g := fun m => set_y (my m - 1) m).
      apply NoDup_map_inj_in; [|apply sorted_NoDup, Hs]. intros m m' _ _ E. exact (set_y_inj (-1) m m' E). }
    destruct (ins_filter_nz (fdy a) N) as (H1 & H2 & H3 & H4). eexists. split; [reflexivity|]. split; [exact H1|]. split; [exact H3|].
    split; [exact H2|]. intros m c Hi. pose proof (H3 _ _ Hi) as Nz. apply H4 in Hi. unfold fdy in Hi. apply in_map_iff in Hi.
    destruct Hi as ([k d] & E & Hi). cbn in E. injection E; intros; subst. exists d.
    pose proof (Hn _ _ Hi). destruct k as [x y q v]. unfold set_y. cbn in *. replace (y - 1 + 1) with y by ring. split; [exact Hi|]. assert (y <> 0) by (intros ->; lia). lia.
  - intros [m c] Hi. apply Hn in Hi as Hm. unfold term_derivative_y. cbn [fst snd tm tc].
    destruct (0 <=? my m) eqn:E; [|lia]. cbn [assertb bind]. destruct (0 <? my m) eqn:E'; eexists; (split; [reflexivity|]); cbn [tc tb_build tb_coef].
    + destruct (c * my m =? 0) eqn:E0; [lia|]. f_equal. ring.
    + cbn. replace (my m) with 0 by lia. lia.
Qed.
