(** Proofs about reduction modulo an integer, Term operations, power_modulo. *)
From Coq Require Import Znumtheory ZifyBool Setoid Morphisms Ring.
From Verif Require Import Prelude M_Bigint M_Variable M_Term M_Poly Spec P_Bigint P_Variable P_FSum P_Poly.
Open Scope Z_scope.

(** ** The reduced form *)
Definition redp (p : Z) (a : poly) : poly :=
  filter (fun e => negb (snd e =? 0)) (map (fun e => (fst e, snd e mod p)) a).

Lemma redp_cons p m c a : redp p ((m, c) :: a) = if c mod p =? 0 then redp p a else (m, c mod p) :: redp p a.
Proof. unfold redp. cbn [map filter fst snd]. destruct (c mod p =? 0); reflexivity. Qed.
Lemma redp_in p a m c : In (m, c) (redp p a) <-> exists d, In (m, d) a /\ c = d mod p /\ c <> 0.
Proof.
  unfold redp. rewrite filter_In, in_map_iff. cbn [snd]. split.
  - intros (([k d] & E & Hi) & Hn). cbn [fst snd] in E. injection E; intros; subst. exists d. split; [exact Hi|]. split; [reflexivity|]. lia.
  - intros (d & Hi & -> & Hn). split; [|lia]. exists (m, d). auto.
Qed.
Lemma redp_sorted p a : sorted a -> sorted (redp p a).
Proof.
  induction a as [|[m c] a IH]; intros Hs; [exact I|]. destruct Hs as (Hlt & Hs). rewrite redp_cons.
  destruct (c mod p =? 0); [apply IH, Hs|]. split; [|apply IH, Hs].
  intros m' c' Hi. apply redp_in in Hi. destruct Hi as (d & Hi & _). eapply Hlt; exact Hi.
Qed.
Lemma redp_reduced p a : 0 < p -> reduced p (redp p a).
Proof. intros Hp m c Hi. apply redp_in in Hi. destruct Hi as (d & _ & -> & Hn). pose proof (Z.mod_pos_bound d p Hp). lia. Qed.
Lemma redp_coef p a m : sorted a -> coef (redp p a) m = coef a m mod p.
Proof.
  induction a as [|[k c] a IH]; intros Hs.
  - reflexivity.
  - destruct Hs as (Hlt & Hs). rewrite redp_cons. cbn [coef].
    destruct (mono_eqb k m) eqn:E.
    + apply mono_eqb_eq in E; subst m.
      assert (Z0: coef a k = 0).
      { apply coef_notin. intros d Hd. apply Hlt in Hd. rewrite mono_cmp_refl in Hd. discriminate. }
      specialize (IH Hs). rewrite Z0 in IH. rewrite Zmod_0_l in IH. rewrite Z0, Z.add_0_r.
      destruct (c mod p =? 0) eqn:E0; [lia|]. cbn [coef]. rewrite mono_eqb_refl. lia.
    + specialize (IH Hs). destruct (c mod p =? 0); [|cbn [coef]; rewrite E]; rewrite IH; simpl; reflexivity.
Qed.
Lemma redp_feqm p a : 0 < p -> sorted a -> feqm p (redp p a) a.
Proof.
  intros Hp Hs m. rewrite redp_coef by exact Hs. apply mod_eq_divide; [lia|]. rewrite Zmod_mod. reflexivity.
Qed.
Lemma redp_keys (P : mono -> Prop) p a : keysP P a -> keysP P (redp p a).
Proof. intros H m c Hi. apply redp_in in Hi. destruct Hi as (d & Hi & _). eapply H; exact Hi. Qed.
Lemma reduced_no_zero p a : reduced p a -> no_zero a.
Proof. intros H m c Hi. apply H in Hi. lia. Qed.
Lemma reduced_coef p a m : 0 < p -> sorted a -> reduced p a -> 0 <= coef a m < p.
Proof.
  intros Hp Hs Hr. destruct (bm_get m a) eqn:G; rewrite (bm_get_coef _ _ Hs), G; [|lia].
  apply bm_get_in in G. apply Hr in G. lia.
Qed.
Lemma canonical_mod p a b : 0 < p -> sorted a -> sorted b -> reduced p a -> reduced p b -> feqm p a b -> a = b.
Proof.
  intros Hp Ha Hb Ra Rb H. apply canonical; auto; try (eapply reduced_no_zero; eassumption).
  intros m. pose proof (reduced_coef p a m Hp Ha Ra). pose proof (reduced_coef p b m Hp Hb Rb).
  specialize (H m). apply mod_eq_divide in H; [|lia]. rewrite !Z.mod_small in H by lia. exact H.
Qed.
Lemma redp_id p a : 0 < p -> sorted a -> reduced p a -> redp p a = a.
Proof.
  intros Hp Hs Hr. apply (canonical_mod p); auto using redp_sorted, redp_reduced. apply redp_feqm; auto.
Qed.
Lemma redp_ext p a b : 0 < p -> sorted a -> sorted b -> (redp p a = redp p b <-> feqm p a b).
Proof.
  intros Hp Ha Hb. split.
  - intros E. transitivity (redp p a); [symmetry; apply redp_feqm; auto|]. rewrite E. apply redp_feqm; auto.
  - intros F. apply (canonical_mod p); auto using redp_sorted, redp_reduced.
    rewrite (redp_feqm p a), (redp_feqm p b) by auto. exact F.
Qed.
Lemma redp_nil_iff p a : 0 < p -> sorted a -> (redp p a = [] <-> feqm p a []).
Proof. intros Hp Hs. rewrite <- redp_ext by (auto; exact I). reflexivity. Qed.

(** ** Panics for p <= 0 *)
Lemma foldM_panic_head {S X} (f : S -> X -> res S) x l s : f s x = Panic -> foldM f (x :: l) s = Panic.
Proof. intros H. cbn [foldM]. rewrite H. reflexivity. Qed.

Lemma rem_entry_pos p pol m c : 0 < p ->
  rem_entry p pol (m, c) = Ok (if c mod p =? 0 then pol else bm_insert m (c mod p) pol).
Proof.
  intros Hp. unfold rem_entry, mod_floor. destruct (p =? 0) eqn:E; [lia|]. cbn [bind negb].
  pose proof (Z.mod_pos_bound c p Hp). destruct (c mod p <? p) eqn:E'; [|lia]. cbn [assertb bind].
  destruct (c mod p =? 0); reflexivity.
Qed.
Lemma rem_entry_neg p pol m c : p <= 0 -> rem_entry p pol (m, c) = Panic.
Proof.
  intros Hp. unfold rem_entry, mod_floor. destruct (p =? 0) eqn:E; [reflexivity|]. cbn [bind negb].
  pose proof (Z.mod_neg_bound c p ltac:(lia)). destruct (c mod p <? p) eqn:E'; [lia|]. reflexivity.
Qed.
Lemma check_lt_ok p pol : (forall m c, In (m, c) pol -> c < p) -> check_lt p pol = Ok tt.
Proof.
  unfold check_lt. induction pol as [|[m c] pol IH]; intros H; [reflexivity|]. cbn [foldM snd].
  assert (c < p) by (apply (H m c); left; reflexivity). destruct (c <? p) eqn:E; [|lia]. cbn [assertb].
  destruct (negb (p =? 0)); cbn [bind]; apply IH; intros; eapply H; right; eassumption.
Qed.

(** appending a greatest key *)
Lemma bm_insert_last m c a : (forall m' c', In (m', c') a -> mono_cmp m' m = Lt) -> bm_insert m c a = a ++ [(m, c)].
Proof.
  induction a as [|[k d] a IH]; intros H; [reflexivity|]. cbn [bm_insert app].
  assert (mono_cmp m k = Gt) as -> by (rewrite mono_cmp_opp, (H k d); [reflexivity|left; reflexivity]).
  rewrite IH; [reflexivity|]. intros; eapply H; right; eassumption.
Qed.
Lemma sorted_app a b : sorted (a ++ b) <->
  sorted a /\ sorted b /\ (forall m c m' c', In (m, c) a -> In (m', c') b -> mono_cmp m m' = Lt).
Proof.
  induction a as [|[k d] a IH]; cbn [app sorted].
  - split; [intros H; split; [exact I|split; [exact H|intros ? ? ? ? []]] | tauto].
  - rewrite IH. split.
    + intros (H & Ha & Hb & Hab). split; [split; [|exact Ha]|split; [exact Hb|]].
      * intros; eapply H; apply in_app_iff; left; eassumption.
      * intros m c m' c' [E|Hi] Hi'; [injection E; intros; subst; eapply H; apply in_app_iff; right; eassumption|eapply Hab; eassumption].
    + intros ((H & Ha) & Hb & Hab). split; [|split; [exact Ha|split; [exact Hb|]]].
      * intros m' c' Hi. apply in_app_iff in Hi. destruct Hi; [eapply H; eassumption|]. eapply Hab; [left; reflexivity|eassumption].
      * intros; eapply Hab; [right|]; eassumption.
Qed.
Lemma redp_app p a b : redp p (a ++ b) = redp p a ++ redp p b.
Proof. unfold redp. rewrite map_app, filter_app. reflexivity. Qed.

Lemma rem_fold p a : 0 < p -> forall acc, sorted (acc ++ a) ->
  foldM (rem_entry p) a (redp p acc) = Ok (redp p (acc ++ a)).
Proof.
  intros Hp. induction a as [|[m c] a IH]; intros acc Hs; cbn [foldM].
  - rewrite app_nil_r. reflexivity.
  - rewrite rem_entry_pos by exact Hp. cbn [bind].
    replace (acc ++ (m, c) :: a) with ((acc ++ [(m, c)]) ++ a) in * by (rewrite <- app_assoc; reflexivity).
    rewrite <- IH by exact Hs. f_equal. rewrite redp_app, redp_cons. change (redp p []) with (@nil (mono * Z)).
    apply sorted_app in Hs. destruct Hs as (Hs & _). apply sorted_app in Hs. destruct Hs as (_ & _ & Hs).
    destruct (c mod p =? 0); [rewrite app_nil_r; reflexivity|]. apply bm_insert_last.
    intros m' c' Hi. apply redp_in in Hi. destruct Hi as (d & Hi & _). eapply Hs; [exact Hi|left; reflexivity].
Qed.
Lemma p_rem_eq a p : 0 < p -> sorted a -> p_rem a p = Ok (redp p a).
Proof.
  intros Hp Hs. unfold p_rem. change p_new with (redp p []). rewrite rem_fold by (auto; exact Hs). cbn [app bind].
  rewrite check_lt_ok; [reflexivity|]. intros m c Hi. apply (redp_reduced p a Hp) in Hi. lia.
Qed.
Lemma p_rem_nonpos a p : p <= 0 -> p_rem a p = if is_zero a then Ok [] else Panic.
Proof.
  intros Hp. destruct a as [|[m c] a]; [reflexivity|]. unfold p_rem.
  rewrite foldM_panic_head by (apply rem_entry_neg; exact Hp). reflexivity.
Qed.

Lemma modular_entry_pos p s m c : 0 < p ->
  modular_entry p s (m, c) = Ok (bm_insert m (c mod p) (fst s), if c mod p =? 0 then m :: snd s else snd s).
Proof.
  intros Hp. unfold modular_entry, mod_floor. destruct (p =? 0) eqn:E; [lia|]. cbn [bind negb].
  pose proof (Z.mod_pos_bound c p Hp). destruct (c mod p <? p) eqn:E'; [|lia]. reflexivity.
Qed.
Lemma modular_entry_neg p s m c : p <= 0 -> modular_entry p s (m, c) = Panic.
Proof.
  intros Hp. unfold modular_entry, mod_floor. destruct (p =? 0) eqn:E; [reflexivity|]. cbn [bind negb].
  pose proof (Z.mod_neg_bound c p ltac:(lia)). destruct (c mod p <? p) eqn:E'; [lia|]. reflexivity.
Qed.
Lemma bm_insert_mid m c d a b : (forall m' c', In (m', c') a -> mono_cmp m' m = Lt) ->
  bm_insert m c (a ++ (m, d) :: b) = a ++ (m, c) :: b.
Proof.
  induction a as [|[k e] a IH]; intros H; cbn [app bm_insert].
  - rewrite mono_cmp_refl. reflexivity.
  - assert (mono_cmp m k = Gt) as -> by (rewrite mono_cmp_opp, (H k e); [reflexivity|left; reflexivity]).
    rewrite IH; [reflexivity|]. intros; eapply H; right; eassumption.
Qed.
Definition modmap (p : Z) (a : poly) : poly := map (fun e => (fst e, snd e mod p)) a.
Lemma modmap_in p a m c : In (m, c) (modmap p a) <-> exists d, In (m, d) a /\ c = d mod p.
Proof.
  unfold modmap. rewrite in_map_iff. split.
  - intros ([k d] & E & Hi). cbn in E. injection E; intros; subst. eauto.
  - intros (d & Hi & ->). exists (m, d). auto.
Qed.
Lemma modmap_sorted p a : sorted a -> sorted (modmap p a).
Proof.
  induction a as [|[m c] a IH]; intros H; [exact I|]. destruct H as (Hlt & Hs). cbn. split; [|apply IH, Hs].
  intros m' c' Hi. apply (modmap_in p a) in Hi. destruct Hi as (d & Hi & _). eapply Hlt; exact Hi.
Qed.
Lemma modular_fold p a : 0 < p -> forall acc del, sorted (acc ++ a) ->
  foldM (modular_entry p) a (modmap p acc ++ a, del) =
  Ok (modmap p (acc ++ a), rev (map fst (filter (fun e => snd e =? 0) (modmap p a))) ++ del).
Proof.
  intros Hp. induction a as [|[m c] a IH]; intros acc del Hs; cbn [foldM].
  - rewrite !app_nil_r. reflexivity.
  - rewrite modular_entry_pos by exact Hp. cbn [bind fst snd].
    replace (acc ++ (m, c) :: a) with ((acc ++ [(m, c)]) ++ a) in * by (rewrite <- app_assoc; reflexivity).
    rewrite bm_insert_mid.
    + replace (modmap p acc ++ (m, c mod p) :: a) with (modmap p (acc ++ [(m, c)]) ++ a)
        by (unfold modmap; rewrite map_app, <- app_assoc; reflexivity).
      rewrite IH by exact Hs. f_equal. f_equal. unfold modmap. cbn [map filter fst snd].
      destruct (c mod p =? 0); [|reflexivity]. cbn [map rev fst]. rewrite <- app_assoc. reflexivity.
    + apply sorted_app in Hs. destruct Hs as (Hs & _). apply sorted_app in Hs. destruct Hs as (_ & _ & Hs).
      intros m' c' Hi. apply modmap_in in Hi. destruct Hi as (d & Hi & _). eapply Hs; [exact Hi|left; reflexivity].
Qed.
Lemma remove_all_spec del : forall a, sorted a ->
  sorted (remove_all del a) /\ (forall m c, In (m, c) (remove_all del a) <-> In (m, c) a /\ ~ In m del).
Proof.
  unfold remove_all. induction del as [|k del IH]; intros a Hs; cbn [fold_left].
  - split; [exact Hs|]. simpl. tauto.
  - destruct (bm_get k a) eqn:G.
    + destruct (IH (bm_remove k a) (bm_remove_sorted _ _ Hs)) as (H1 & H2). split; [exact H1|].
      intros m c. rewrite H2, bm_remove_in by exact Hs. simpl. intuition congruence.
    + destruct (IH a Hs) as (H1 & H2). split; [exact H1|]. intros m c. rewrite H2. simpl.
      split; [|tauto]. intros (Hi & Hn). split; [exact Hi|]. intros [<-|H]; [|tauto].
      exact (proj1 (bm_get_none a k Hs) G _ Hi).
Qed.
Lemma modular_assign_eq (a : poly) p : 0 < p -> sorted a -> modular_assign a p = Ok (redp p a).
Proof.
  intros Hp Hs. unfold modular_assign.
  assert (F: foldM (modular_entry p) a (a, []) =
    Ok (modmap p a, rev (map fst (filter (fun e => snd e =? 0) (modmap p a))) ++ [])) by exact (modular_fold p a Hp [] [] Hs).
  rewrite F. cbn [bind]. clear F.
  set (del := rev _ ++ []).
  destruct (remove_all_spec del (modmap p a) (modmap_sorted p a Hs)) as (H1 & H2).
  assert (E: remove_all del (modmap p a) = redp p a).
  { apply sorted_ext; [exact H1|apply redp_sorted, Hs|]. intros [m c]. rewrite H2, redp_in, modmap_in.
    unfold del. rewrite app_nil_r, <- in_rev, in_map_iff. split.
    - intros ((d & Hi & ->) & Hn). exists d. split; [exact Hi|]. split; [reflexivity|]. intros E.
      apply Hn. exists (m, d mod p). split; [reflexivity|]. apply filter_In. split; [apply modmap_in; eauto|]. cbn. lia.
    - intros (d & Hi & -> & Hn). split; [eauto|]. intros ([k e] & E & Hf). cbn in E; subst k.
      apply filter_In in Hf. destruct Hf as (Hf & E0). cbn in E0. apply modmap_in in Hf. destruct Hf as (d' & Hi' & ->).
      rewrite (sorted_unique a m d' d Hs Hi' Hi) in E0. lia. }
  rewrite E, check_lt_ok; [reflexivity|]. intros m c Hi. apply (redp_reduced p a Hp) in Hi. lia.
Qed.
Lemma modular_assign_nonpos a p : p <= 0 -> modular_assign a p = if is_zero a then Ok [] else Panic.
Proof.
  intros Hp. destruct a as [|[m c] a]; [reflexivity|]. unfold modular_assign.
  rewrite foldM_panic_head by (apply modular_entry_neg; exact Hp). reflexivity.
Qed.

(** ** power_modulo *)
Lemma p_power_modulo_loop_spec p fuel : 0 < p -> forall e b r c, 1 <= e -> sorted b ->
  p_power_modulo_loop fuel p e b r = Ok c ->
  sorted c /\ reduced p c /\ feqm p c (conv r (fpow b (Z.to_nat e))).
Proof.
  intros Hp.
  assert (F: forall r b c, (r <- p_mul_assign r b ;; modular_assign r p) = Ok c ->
             sorted c /\ reduced p c /\ feqm p c (conv r b)).
  { intros r b c H. apply bind_Ok in H. destruct H as (d & Hd & H). unfold p_mul_assign in Hd.
    pose proof (p_mul_sorted _ _ _ Hd) as Sd. rewrite modular_assign_eq in H by assumption. injection H; intros; subst.
    split; [apply redp_sorted, Sd|]. split; [apply redp_reduced, Hp|]. rewrite redp_feqm by assumption.
    apply feq_feqm, p_mul_feq, Hd. }
  induction fuel as [|f IH]; intros e b r c He Hb H; cbn [p_power_modulo_loop] in H.
  - destruct (1 <? e) eqn:E; [discriminate|]. assert (e = 1) by lia. subst.
    destruct (F _ _ _ H) as (S1 & R1 & E1). split; [exact S1|]. split; [exact R1|]. rewrite E1.
    apply conv_proper; [reflexivity|]. symmetry. apply feq_feqm, fpow_1.
  - destruct (1 <? e) eqn:E.
    + destruct (quot2_split e ltac:(lia)) as (Hs & Hq). set (h := Z.quot e 2) in *.
      apply bind_Ok in H. destruct H as (r' & Hr & H). apply bind_Ok in H. destruct H as (b1 & Hb1 & H).
      apply bind_Ok in H. destruct H as (b' & Hb' & H).
      destruct (F b b b') as (Sb & Rb & Eb); [rewrite Hb1; exact Hb'|].
      destruct (IH h b' r' c ltac:(lia) Sb H) as (Sc & Rc & Fc).
      split; [exact Sc|]. split; [exact Rc|]. rewrite Fc.
      assert (Fb: feqm p (fpow b' (Z.to_nat h)) (fpow b (2 * Z.to_nat h))).
      { transitivity (fpow (fpow b 2) (Z.to_nat h)); [|symmetry; apply feq_feqm, fpow_mul].
        apply fpow_proper. rewrite Eb. apply feq_feqm. cbn [fpow]. ring. }
      rewrite Fb. destruct (Z.odd e).
      * destruct (F _ _ _ Hr) as (_ & _ & Er). rewrite Er. apply feq_feqm.
        replace (Z.to_nat e) with (S (2 * Z.to_nat h))%nat by lia. cbn [fpow]. ring.
      * injection Hr; intros; subst r'. replace (Z.to_nat e) with (2 * Z.to_nat h)%nat by lia. reflexivity.
    + assert (e = 1) by lia. subst.
      destruct (F _ _ _ H) as (S1 & R1 & E1). split; [exact S1|]. split; [exact R1|]. rewrite E1.
      apply conv_proper; [reflexivity|]. symmetry. apply feq_feqm, fpow_1.
Qed.
Lemma p_power_modulo_spec a n p c : 0 < p -> 1 <= n -> sorted a -> p_power_modulo a n p = Ok c ->
  sorted c /\ reduced p c /\ feqm p c (fpow a (Z.to_nat n)).
Proof.
  intros Hp Hn Ha H. unfold p_power_modulo in H. destruct (0 <=? n) eqn:E; [|lia]. cbn [assertb bind] in H.
  rewrite p_rem_eq in H by assumption. cbn [bind] in H.
  destruct (p_power_modulo_loop_spec p _ Hp _ _ _ _ Hn (redp_sorted p a Ha) H) as (S1 & R1 & F1).
  split; [exact S1|]. split; [exact R1|]. rewrite F1. rewrite p_one_eq.
  transitivity (fpow (redp p a) (Z.to_nat n)); [apply feq_feqm, conv_1_l|]. apply fpow_proper, redp_feqm; auto.
Qed.

(** power_modulo returns whenever power does. *)
Definition ksub (a b : poly) : Prop := forall k, haskey a k -> haskey b k.
Lemma all_ok_sub a a' b b' : ksub a' a -> ksub b' b -> all_ok a b = true -> all_ok a' b' = true.
Proof.
  intros Ha Hb H. apply all_ok_spec. intros m1 c1 m2 c2 H1 H2.
  destruct (Ha m1) as (d1 & D1); [exists c1; exact H1|]. destruct (Hb m2) as (d2 & D2); [exists c2; exact H2|].
  exact (proj1 (all_ok_spec a b) H _ _ _ _ D1 D2).
Qed.
Lemma mulp_sub a a' b b' : ksub a' a -> ksub b' b -> ksub (mulp a' b') (mulp a b).
Proof.
  intros Ha Hb k Hk. apply mulp_spec in Hk. destruct Hk as (m1 & c1 & m2 & c2 & H1 & H2 & ->). apply mulp_spec.
  destruct (Ha m1) as (d1 & D1); [exists c1; exact H1|]. destruct (Hb m2) as (d2 & D2); [exists c2; exact H2|].
  exists m1, d1, m2, d2. auto.
Qed.
Lemma redp_sub p a : ksub (redp p a) a.
Proof. intros k (c & H). apply redp_in in H. destruct H as (d & H & _). exists d; exact H. Qed.
Lemma ksub_trans a b c : ksub a b -> ksub b c -> ksub a c.
Proof. intros H H' k Hk. apply H', H, Hk. Qed.
Lemma p_power_modulo_loop_returns p fuel : 0 < p -> forall e b r b' r' c,
  ksub b' b -> ksub r' r -> p_power_loop fuel e b r = Ok c ->
  exists c', p_power_modulo_loop fuel p e b' r' = Ok c'.
Proof.
  intros Hp.
  assert (G: forall r b r' b' c, ksub b' b -> ksub r' r -> p_mul r b = Ok c ->
             exists c', (r1 <- p_mul_assign r' b' ;; modular_assign r1 p) = Ok c' /\ ksub c' c).
  { intros r b r' b' c Hb Hr H. apply p_mul_Ok in H. destruct H as (Ho & ->).
    pose proof (all_ok_sub _ _ _ _ Hr Hb Ho) as Ho'.
    unfold p_mul_assign. rewrite p_mul_eq, Ho'. cbn [bind]. rewrite modular_assign_eq by (auto; apply mulp_spec).
    eexists. split; [reflexivity|]. eapply ksub_trans; [apply redp_sub|]. apply mulp_sub; assumption. }
  induction fuel as [|f IH]; intros e b r b' r' c Hb Hr H; cbn [p_power_loop p_power_modulo_loop] in *.
  - destruct (1 <? e); [discriminate|]. destruct (G _ _ _ _ _ Hb Hr H) as (c' & E & _). exists c'; exact E.
  - destruct (1 <? e).
    + apply bind_Ok in H. destruct H as (r1 & Hr1 & H). apply bind_Ok in H. destruct H as (b1 & Hb1 & H).
      assert (R: exists r2, (if Z.odd e then r1 <- p_mul_assign r' b' ;; modular_assign r1 p else Ok r') = Ok r2 /\ ksub r2 r1).
      { destruct (Z.odd e); [eapply G; eassumption|]. injection Hr1; intros; subst. eauto. }
      destruct R as (r2 & E2 & K2). rewrite E2. cbn [bind].
      destruct (G _ _ _ _ _ Hb Hb Hb1) as (b2 & Eb & Kb). apply bind_Ok in Eb. destruct Eb as (b3 & Eb3 & Eb).
      rewrite Eb3. cbn [bind]. rewrite Eb. cbn [bind]. eapply IH; eassumption.
    + destruct (G _ _ _ _ _ Hb Hr H) as (c' & E & _). exists c'; exact E.
Qed.
Lemma p_power_modulo_eq a n p c : 0 < p -> 1 <= n -> sorted a -> p_power a n = Ok c ->
  p_power_modulo a n p = p_rem c p.
Proof.
  intros Hp Hn Ha H. destruct (p_power_spec a n c Ha H) as (_ & Sc & Fc).
  rewrite p_rem_eq by assumption.
  assert (R: exists d, p_power_modulo a n p = Ok d).
  { unfold p_power in H. unfold p_power_modulo. destruct (0 <=? n) eqn:E; [|discriminate]. cbn [assertb bind] in *.
    rewrite p_rem_eq by assumption. cbn [bind]. destruct (n =? 0) eqn:E0; [lia|].
    eapply p_power_modulo_loop_returns; [exact Hp|apply redp_sub| |exact H]. intros k Hk; exact Hk. }
  destruct R as (d & Ed). rewrite Ed. f_equal. destruct (p_power_modulo_spec a n p d Hp Hn Ha Ed) as (Sd & Rd & Fd).
  apply (canonical_mod p); auto using redp_sorted, redp_reduced. rewrite Fd, redp_feqm by assumption.
  symmetry. apply feq_feqm, Fc.
Qed.
Lemma p_power_modulo_zero a p : 0 < p -> sorted a -> (forall m c, In (m, c) a -> i32_mono m) ->
  p_power_modulo a 0 p = p_rem a p.
Proof.
  intros Hp Hs Hi. unfold p_power_modulo. cbn [Z.leb Z.compare assertb bind]. rewrite p_rem_eq by assumption. cbn [bind].
  change (p_power_modulo_loop (halvings 0) p 0 (redp p a) p_one) with (r <- p_mul_assign p_one (redp p a) ;; modular_assign r p).
  unfold p_mul_assign. rewrite p_mul_eq.
  assert (all_ok p_one (redp p a) = true) as ->.
  { apply all_ok_spec. intros m1 c1 m2 c2 [E|[]] H2. injection E; intros; subst.
    apply redp_in in H2. destruct H2 as (d & H2 & _). apply Hi in H2. unfold mul_ok, i32_mono, i32_range in *. cbn. tauto. }
  cbn [bind]. destruct (mulp_spec p_one (redp p a)) as (S1 & F1 & _). rewrite modular_assign_eq by assumption. f_equal.
  apply (canonical_mod p); auto using redp_sorted, redp_reduced. rewrite (redp_feqm p (mulp p_one (redp p a))) by assumption.
  apply feq_feqm. rewrite F1, p_one_eq. apply conv_1_l.
Qed.
