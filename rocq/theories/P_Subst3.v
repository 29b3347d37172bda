(** Lemmas about evaluation, polynomial substitution, truncation, coefficient extraction. *)
From Coq Require Import Znumtheory ZifyBool Setoid Morphisms Ring.
From Verif Require Import Prelude M_Bigint M_Variable M_Term M_Poly Spec P_Bigint P_Variable P_FSum P_Poly P_Rem P_PolyProps P_Subst P_Subst2.
Open Scope Z_scope.

(** ** Evaluation *)
Lemma eval_xy_spec a x y : nonneg_xy a -> eval_xy a x y = Ok (fval x y a).
Proof.
  intros H. unfold eval_xy.
  assert (G: forall s, foldM (fun sum (e : mono * Z) => v <- mono_eval_xy (fst e) x y;; Ok (sum + v * snd e)) a s = Ok (s + fval x y a)).
  { induction a as [|[m c] a IH]; intros s; cbn [foldM fval fst snd]; [f_equal; ring|].
    destruct (H m c (or_introl eq_refl)) as (Hx & Hy). unfold mono_eval_xy. rewrite !power_i32_spec by assumption. cbn [bind].
    rewrite IH by (intros k d Hk; apply (H k d); right; exact Hk). f_equal. unfold mval. ring. }
  rewrite G. reflexivity.
Qed.
Definition evx (v : Z) (a : fsum) : fsum := map (fun e => (set_x 0 (fst e), snd e * v ^ mx (fst e))) a.
Definition evy (v : Z) (a : fsum) : fsum := map (fun e => (set_y 0 (fst e), snd e * v ^ my (fst e))) a.
Lemma flat_map_single {A B} (f : A -> B) l : flat_map (fun x => [f x]) l = map f l.
Proof. induction l as [|x l IH]; [reflexivity|]. cbn. rewrite IH. reflexivity. Qed.
Lemma eval_x_spec a v : (forall m c, In (m, c) a -> 0 <= mx m) ->
  exists r, eval_x a v = Ok r /\ sorted r /\ feq r (evx v a) /\ (forall m c, In (m, c) r -> exists k d, In (k, d) a /\ m = set_x 0 k).
Proof.
  intros H. unfold eval_x.
  match goal with |- context [foldM ?F a p_new] => set (f := F) end.
  assert (E: forall s m c, In (m, c) a -> f s (m, c) = Ok (p_add_assign_t s (mkTerm (c * v ^ mx m) (set_x 0 m)))).
  { intros s m c Hi. unfold f. cbn [fst snd]. rewrite power_i32_spec by (eapply H; exact Hi). reflexivity. }
  destruct (foldM_returns (fun r => sorted r /\ forall m c, In (m, c) r -> exists k d, In (k, d) a /\ m = set_x 0 k) f a) with (s := p_new) as (r & Hr & Sr & Kr).
  - intros s [m c] Hi (Ss & Ks). rewrite (E s m c Hi). eexists. split; [reflexivity|].
    destruct (p_add_assign_t_feq s (mkTerm (c * v ^ mx m) (set_x 0 m)) Ss) as (S1 & _). split; [exact S1|].
    rewrite p_add_assign_t_eq. cbn [tm tc].
    apply (add_entry_keys (fun m => exists k d, In (k, d) a /\ m = set_x 0 k)); auto. exists m, c. auto.
  - split; [exact I|]. intros ? ? [].
  - exists r. split; [exact Hr|]. split; [exact Sr|]. split; [|exact Kr].
    destruct (foldM_sum f (fun e => [(set_x 0 (fst e), snd e * v ^ mx (fst e))]) 0 a) with (s := p_new) (s' := r) as (_ & F); auto.
    + intros s [m c] s' Hi Ss Es. rewrite (E s m c Hi) in Es. injection Es; intros; subst s'.
      destruct (p_add_assign_t_feq s (mkTerm (c * v ^ mx m) (set_x 0 m)) Ss) as (S1 & F1). split; [exact S1|]. apply feqm_0. exact F1.
    + exact I.
    + rewrite flat_map_single in F. apply feqm_0. exact F.
Qed.
Lemma eval_y_spec a v : (forall m c, In (m, c) a -> 0 <= my m) ->
  exists r, eval_y a v = Ok r /\ sorted r /\ feq r (evy v a) /\ (forall m c, In (m, c) r -> exists k d, In (k, d) a /\ m = set_y 0 k).
Proof.
  intros H. unfold eval_y.
  match goal with |- context [foldM ?F a p_new] => set (f := F) end.
  assert (E: forall s m c, In (m, c) a -> f s (m, c) = Ok (p_add_assign_t s (mkTerm (c * v ^ my m) (set_y 0 m)))).
  { intros s m c Hi. unfold f. cbn [fst snd]. rewrite power_i32_spec by (eapply H; exact Hi). reflexivity. }
  destruct (foldM_returns (fun r => sorted r /\ forall m c, In (m, c) r -> exists k d, In (k, d) a /\ m = set_y 0 k) f a) with (s := p_new) as (r & Hr & Sr & Kr).
  - intros s [m c] Hi (Ss & Ks). rewrite (E s m c Hi). eexists. split; [reflexivity|].
    destruct (p_add_assign_t_feq s (mkTerm (c * v ^ my m) (set_y 0 m)) Ss) as (S1 & _). split; [exact S1|].
    rewrite p_add_assign_t_eq. cbn [tm tc].
    apply (add_entry_keys (fun m => exists k d, In (k, d) a /\ m = set_y 0 k)); auto. exists m, c. auto.
  - split; [exact I|]. intros ? ? [].
  - exists r. split; [exact Hr|]. split; [exact Sr|]. split; [|exact Kr].
    destruct (foldM_sum f (fun e => [(set_y 0 (fst e), snd e * v ^ my (fst e))]) 0 a) with (s := p_new) (s' := r) as (_ & F); auto.
    + intros s [m c] s' Hi Ss Es. rewrite (E s m c Hi) in Es. injection Es; intros; subst s'.
      destruct (p_add_assign_t_feq s (mkTerm (c * v ^ my m) (set_y 0 m)) Ss) as (S1 & F1). split; [exact S1|]. apply feqm_0. exact F1.
    + exact I.
    + rewrite flat_map_single in F. apply feqm_0. exact F.
Qed.
Lemma lin_evx phi v a : lin phi (evx v a) = lin (fun m => v ^ mx m * phi (set_x 0 m)) a.
Proof. induction a as [|[m c] a IH]; [reflexivity|]. cbn [evx map lin fst snd]. unfold evx in IH. rewrite IH. ring. Qed.
Lemma lin_evy phi v a : lin phi (evy v a) = lin (fun m => v ^ my m * phi (set_y 0 m)) a.
Proof. induction a as [|[m c] a IH]; [reflexivity|]. cbn [evy map lin fst snd]. unfold evy in IH. rewrite IH. ring. Qed.
Lemma sorted_all_same a k : sorted a -> (forall m c, In (m, c) a -> m = k) -> a = [] \/ exists c, a = [(k, c)].
Proof.
  intros Hs H. destruct a as [|[m c] [|[m' c'] a]]; [left; reflexivity| |].
  - right. exists c. rewrite (H m c) by (left; reflexivity). reflexivity.
  - exfalso. assert (m = k) by (apply (H m c); left; reflexivity). assert (m' = k) by (apply (H m' c'); right; left; reflexivity).
    subst. destruct Hs as (Hlt & _). specialize (Hlt k c' (or_introl eq_refl)). rewrite mono_cmp_refl in Hlt. discriminate.
Qed.
Lemma eval_chain a x y : nonneg_xy a -> (forall m c, In (m, c) a -> mq m = 0 /\ mv m = None) ->
  exists u v, eval_x a x = Ok u /\ eval_y u y = Ok v /\ to_scalar v = Ok (fval x y a).
Proof.
  intros Hn Hq. destruct (eval_x_spec a x) as (u & Eu & Su & Fu & Ku); [intros m c Hi; apply Hn in Hi; tauto|].
  assert (Kx: forall m c, In (m, c) u -> 0 <= my m /\ mx m = 0 /\ mq m = 0 /\ mv m = None).
  { intros m c Hi. apply Ku in Hi. destruct Hi as (k & d & Hi & ->). specialize (Hq _ _ Hi). apply Hn in Hi. cbn. tauto. }
  destruct (eval_y_spec u y) as (v & Ev & Sv & Fv & Kv); [intros m c Hi; apply Kx in Hi; tauto|].
  exists u, v. split; [exact Eu|]. split; [exact Ev|].
  assert (V: coef v mone = fval x y a).
  { rewrite coef_lin, (feq_lin _ _ _ Fv), lin_evy, (feq_lin _ _ _ Fu), lin_evx, fval_lin. apply lin_ext_in. intros m c Hi.
    destruct (Hq _ _ Hi) as (A & B). unfold delta, set_y, set_x, mval. cbn [mx my mq mv]. rewrite A, B. cbn. ring. }
  destruct (sorted_all_same v mone Sv) as [->|(c & ->)].
  - intros m c Hi. apply Kv in Hi. destruct Hi as (k & d & Hi & ->). apply Kx in Hi. destruct Hi as (_ & A & B & C). unfold set_y, mone. rewrite A, B, C. reflexivity.
  - cbn in *. rewrite <- V. reflexivity.
  - cbn in V. cbn. rewrite <- V. f_equal. ring.
Qed.

(** ** Polynomial substitution *)
Lemma mono_eval_x_polynomial_feq m s r : sorted s -> mono_eval_x_polynomial m s = Ok r ->
  0 <= mx m /\ sorted r /\ feq r (conv (fpow s (Z.to_nat (mx m))) [(set_x 0 m, 1)]).
Proof.
  intros Hs H. unfold mono_eval_x_polynomial in H. apply bind_Ok in H. destruct H as (w & Hw & H).
  destruct (p_power_spec _ _ _ Hs Hw) as (Hn & Sw & Fw). split; [exact Hn|]. split; [eapply p_mul_sorted, H|].
  rewrite (p_mul_feq _ _ _ H), Fw. rewrite (to_pol_feq (tb_build (tb_variable (mv m) (tb_qpow (mq m) (tb_ypow (my m) tb_new))))). reflexivity.
Qed.
Lemma mono_eval_y_polynomial_feq m s r : sorted s -> mono_eval_y_polynomial m s = Ok r ->
  0 <= my m /\ sorted r /\ feq r (conv (fpow s (Z.to_nat (my m))) [(set_y 0 m, 1)]).
Proof.
  intros Hs H. unfold mono_eval_y_polynomial in H. apply bind_Ok in H. destruct H as (w & Hw & H).
  destruct (p_power_spec _ _ _ Hs Hw) as (Hn & Sw & Fw). split; [exact Hn|]. split; [eapply p_mul_sorted, H|].
  rewrite (p_mul_feq _ _ _ H), Fw. rewrite (to_pol_feq (tb_build (tb_variable (mv m) (tb_qpow (mq m) (tb_xpow (mx m) tb_new))))). reflexivity.
Qed.
Lemma scale_mono c m s : feq (conv (conv s [(m, 1)]) (fconst c)) (conv [(m, c)] s).
Proof.
  rewrite <- conv_assoc. rewrite (conv_comm s).
  assert (feq (conv [(m, 1)] (fconst c)) [(m, c)]) as ->; [|reflexivity].
  unfold conv, fconst. cbn [flat_map map app fst snd]. rewrite mmul_1_r, Z.mul_1_l. reflexivity.
Qed.
Lemma eval_x_polynomial_feq a s r : sorted s -> eval_x_polynomial a s = Ok r ->
  sorted r /\ feq r (fsubst_x a s) /\ (forall m c, In (m, c) a -> 0 <= mx m).
Proof.
  intros Hs H. unfold eval_x_polynomial in H. split; [|split].
  3:{ intros m c Hi. destruct (foldM_all _ _ _ _ H _ Hi) as (s1 & s2 & E). cbn [fst snd] in E.
      apply bind_Ok in E. destruct E as (w & Hw & _). apply (mono_eval_x_polynomial_feq m s w Hs Hw). }
  all: match type of H with foldM ?f _ _ = _ => set (F := f) in H end;
    destruct (foldM_sum F (fun e => conv [(set_x 0 (fst e), snd e)] (fpow s (Z.to_nat (mx (fst e))))) 0 a) with (s := p_new) (s' := r) as (S1 & F1);
    [ | exact I | exact H | assumption || (apply feqm_0; exact F1) ].
  all: intros t [m c] t' Hi St E; unfold F in E; cbn [fst snd] in E; apply bind_Ok in E; destruct E as (w & Hw & E);
    apply bind_Ok in E; destruct E as (w' & Hw' & E); injection E; intros; subst t'; unfold p_add_assign;
    change (fold_left add_entry w' t) with (p_add t w'); split; [apply p_add_sorted, St|]; apply feqm_0;
    rewrite (p_add_feq t w' St); apply fadd_proper_feq; [reflexivity|]; rewrite (p_mul_feq _ _ _ Hw');
    destruct (mono_eval_x_polynomial_feq m s w Hs Hw) as (_ & _ & Fw); rewrite Fw, (to_pol_feq (tb_build (tb_coef c tb_new))); apply scale_mono.
Qed.
Lemma eval_y_polynomial_feq a s r : sorted s -> eval_y_polynomial a s = Ok r ->
  sorted r /\ feq r (fsubst_y a s) /\ (forall m c, In (m, c) a -> 0 <= my m).
Proof.
  intros Hs H. unfold eval_y_polynomial in H. split; [|split].
  3:{ intros m c Hi. destruct (foldM_all _ _ _ _ H _ Hi) as (s1 & s2 & E). cbn [fst snd] in E.
      apply bind_Ok in E. destruct E as (w & Hw & _). apply (mono_eval_y_polynomial_feq m s w Hs Hw). }
  all: match type of H with foldM ?f _ _ = _ => set (F := f) in H end;
    destruct (foldM_sum F (fun e => conv [(set_y 0 (fst e), snd e)] (fpow s (Z.to_nat (my (fst e))))) 0 a) with (s := p_new) (s' := r) as (S1 & F1);
    [ | exact I | exact H | assumption || (apply feqm_0; exact F1) ].
  all: intros t [m c] t' Hi St E; unfold F in E; cbn [fst snd] in E; apply bind_Ok in E; destruct E as (w & Hw & E);
    apply bind_Ok in E; destruct E as (w' & Hw' & E); injection E; intros; subst t'; unfold p_add_assign;
    change (fold_left add_entry w' t) with (p_add t w'); split; [apply p_add_sorted, St|]; apply feqm_0;
    rewrite (p_add_feq t w' St); apply fadd_proper_feq; [reflexivity|]; rewrite (p_mul_feq _ _ _ Hw');
    destruct (mono_eval_y_polynomial_feq m s w Hs Hw) as (_ & _ & Fw); rewrite Fw, (to_pol_feq (tb_build (tb_coef c tb_new))); apply scale_mono.
Qed.
Lemma term_eval_x_polynomial_feq u s r : sorted s -> term_eval_x_polynomial u s = Ok r ->
  sorted r /\ feq r (fsubst_x [(tm u, tc u)] s).
Proof.
  intros Hs H. unfold term_eval_x_polynomial in H. apply bind_Ok in H. destruct H as (t & Ht & H).
  destruct (mono_eval_x_polynomial_feq _ _ _ Hs Ht) as (_ & _ & Ft). split; [eapply p_mul_sorted, H|].
  rewrite (p_mul_feq _ _ _ H), Ft, (to_pol_feq (tb_build (tb_coef (tc u) tb_new))). rewrite conv_comm. unfold fsubst_x. cbn [flat_map fst snd].
  rewrite app_nil_r. apply scale_mono.
Qed.
Lemma term_eval_y_polynomial_feq u s r : sorted s -> term_eval_y_polynomial u s = Ok r ->
  sorted r /\ feq r (fsubst_y [(tm u, tc u)] s).
Proof.
  intros Hs H. unfold term_eval_y_polynomial in H. apply bind_Ok in H. destruct H as (t & Ht & H).
  destruct (mono_eval_y_polynomial_feq _ _ _ Hs Ht) as (_ & _ & Ft). split; [eapply p_mul_sorted, H|].
  rewrite (p_mul_feq _ _ _ H), Ft, (to_pol_feq (tb_build (tb_coef (tc u) tb_new))). rewrite conv_comm. unfold fsubst_y. cbn [flat_map fst snd].
  rewrite app_nil_r. apply scale_mono.
Qed.
Lemma fval_fsubst_x x y a s : nonneg_xy a -> nonneg_xy s -> fval x y (fsubst_x a s) = fval (fval x y s) y a.
Proof.
  intros Ha Hs. unfold fsubst_x. induction a as [|[m c] a IH]; [reflexivity|]. cbn [flat_map fst snd]. rewrite fval_app, IH by (intros k d Hk; apply (Ha k d); right; exact Hk).
  destruct (Ha m c (or_introl eq_refl)) as (Hx & Hy). rewrite fval_conv; [|intros k d [E|[]]; injection E; intros; subst; cbn; lia|apply nonneg_fpow, Hs].
  rewrite fval_fpow by exact Hs. cbn [fval]. unfold mval, set_x. cbn [mx my]. rewrite Z2Nat.id by lia. rewrite Z.pow_0_r. ring.
Qed.
Lemma fval_fsubst_y x y a s : nonneg_xy a -> nonneg_xy s -> fval x y (fsubst_y a s) = fval x (fval x y s) a.
Proof.
  intros Ha Hs. unfold fsubst_y. induction a as [|[m c] a IH]; [reflexivity|]. cbn [flat_map fst snd]. rewrite fval_app, IH by (intros k d Hk; apply (Ha k d); right; exact Hk).
  destruct (Ha m c (or_introl eq_refl)) as (Hx & Hy). rewrite fval_conv; [|intros k d [E|[]]; injection E; intros; subst; cbn; lia|apply nonneg_fpow, Hs].
  rewrite fval_fpow by exact Hs. cbn [fval]. unfold mval, set_y. cbn [mx my]. rewrite Z2Nat.id by lia. rewrite Z.pow_0_r. ring.
Qed.

(** ** Occurrence tests *)
Lemma has_x_spec a : has_x a = true <-> exists m c, In (m, c) a /\ mx m <> 0.
Proof.
  unfold has_x. rewrite existsb_exists. split.
  - intros ([m c] & Hi & H). cbn in H. unfold term_has_x in H. cbn in H. exists m, c. split; [exact Hi|lia].
  - intros (m & c & Hi & H). exists (m, c). split; [exact Hi|]. unfold term_has_x. cbn. lia.
Qed.
Lemma has_y_spec a : has_y a = true <-> exists m c, In (m, c) a /\ my m <> 0.
Proof.
  unfold has_y. rewrite existsb_exists. split.
  - intros ([m c] & Hi & H). cbn in H. unfold term_has_y in H. cbn in H. exists m, c. split; [exact Hi|lia].
  - intros (m & c & Hi & H). exists (m, c). split; [exact Hi|]. unfold term_has_y. cbn. lia.
Qed.
Lemma has_q_spec a : has_q a = true <-> exists m c, In (m, c) a /\ mq m <> 0.
Proof.
  unfold has_q. rewrite existsb_exists. split.
  - intros ([m c] & Hi & H). cbn in H. unfold term_has_q in H. cbn in H. exists m, c. split; [exact Hi|lia].
  - intros (m & c & Hi & H). exists (m, c). split; [exact Hi|]. unfold term_has_q. cbn. lia.
Qed.
Lemma has_x_false a : has_x a = false <-> forall m c, In (m, c) a -> mx m = 0.
Proof.
  pose proof (has_x_spec a) as H. split.
  - intros E m c Hi. destruct (Z.eq_dec (mx m) 0); [assumption|]. rewrite (proj2 H) in E; [discriminate|eauto].
  - intros G. destruct (has_x a); [|reflexivity]. destruct (proj1 H eq_refl) as (m & c & Hi & N). apply G in Hi. lia.
Qed.
Lemma has_y_false a : has_y a = false <-> forall m c, In (m, c) a -> my m = 0.
Proof.
  pose proof (has_y_spec a) as H. split.
  - intros E m c Hi. destruct (Z.eq_dec (my m) 0); [assumption|]. rewrite (proj2 H) in E; [discriminate|eauto].
  - intros G. destruct (has_y a); [|reflexivity]. destruct (proj1 H eq_refl) as (m & c & Hi & N). apply G in Hi. lia.
Qed.
Lemma has_q_false a : has_q a = false <-> forall m c, In (m, c) a -> mq m = 0.
Proof.
  pose proof (has_q_spec a) as H. split.
  - intros E m c Hi. destruct (Z.eq_dec (mq m) 0); [assumption|]. rewrite (proj2 H) in E; [discriminate|eauto].
  - intros G. destruct (has_q a); [|reflexivity]. destruct (proj1 H eq_refl) as (m & c & Hi & N). apply G in Hi. lia.
Qed.

(** ** q-truncation *)
Lemma qonly_has a : qonly a <-> has_x a = false /\ has_y a = false.
Proof.
  rewrite has_x_false, has_y_false. unfold qonly. split; [intros H; split; intros m c Hi; apply H in Hi; tauto|].
  intros (H1 & H2) m c Hi. split; [eapply H1|eapply H2]; exact Hi.
Qed.
Lemma mlt_q m k : mx m = 0 -> my m = 0 -> (mlt m (mkMono 0 0 k None) <-> mq m < k).
Proof.
  intros Hx Hy. unfold mlt. rewrite mono_cmp_lt_iff. cbn [mx my mq mv]. rewrite Hx, Hy. split; [|lia].
  intros [H|(_ & [H|(_ & [H|(E & H)])])]; try lia. destruct (mv m) as [[i j]|]; discriminate.
Qed.
Lemma omit_spec a k : sorted a -> qonly a -> i32_range (k + 1) ->
  exists r, omit_high_order_q a k = Ok r /\ sorted r /\ (forall m c, In (m, c) r <-> In (m, c) a /\ mq m <= k).
Proof.
  intros Hs Hq Hk. unfold omit_high_order_q. apply qonly_has in Hq as (Hx & Hy). rewrite Hx, Hy. cbn [negb assertb bind].
  rewrite i32_ok by exact Hk. cbn [bind]. eexists. split; [reflexivity|]. split; [apply bm_split_off_sorted, Hs|].
  intros m c. rewrite bm_split_off_in by exact Hs. rewrite has_x_false in Hx. rewrite has_y_false in Hy.
  split; intros (H1 & H2).
  - split; [exact H2|]. apply mlt_q in H1; [lia|eapply Hx; exact H2|eapply Hy; exact H2].
  - split; [|exact H1]. apply mlt_q; [eapply Hx; exact H1|eapply Hy; exact H1|lia].
Qed.
Lemma omit_coef a r k m : sorted a -> sorted r -> (forall m c, In (m, c) r <-> In (m, c) a /\ mq m <= k) ->
  coef r m = if mq m <=? k then coef a m else 0.
Proof.
  intros Ha Hr H. destruct (mq m <=? k) eqn:E.
  - destruct (bm_get m a) as [c|] eqn:G.
    + pose proof (bm_get_in _ _ _ G) as Hi. rewrite (sorted_coef _ _ _ Ha Hi). apply sorted_coef; [exact Hr|]. apply H. split; [exact Hi|lia].
    + rewrite (bm_get_coef _ _ Ha), G. apply coef_notin. intros c Hi. apply H in Hi. exact (proj1 (bm_get_none _ _ Ha) G _ (proj1 Hi)).
  - apply coef_notin. intros c Hi. apply H in Hi. lia.
Qed.
Definition ftrunc (N : Z) (a : fsum) : fsum := filter (fun e => mq (fst e) <=? N) a.
Lemma coef_ftrunc N a m : coef (ftrunc N a) m = if mq m <=? N then coef a m else 0.
Proof.
  unfold ftrunc. induction a as [|[k c] a IH]; cbn [filter coef fst].
  - destruct (mq m <=? N); reflexivity.
  - destruct (mq k <=? N) eqn:E; cbn [coef]; rewrite IH; destruct (mono_eqb k m) eqn:E'; try reflexivity.
    + apply mono_eqb_eq in E'; subst. rewrite E. reflexivity.
    + apply mono_eqb_eq in E'; subst. rewrite E. ring.
Qed.
Lemma ftrunc_upto N a : feq_upto N (ftrunc N a) a.
Proof. intros m H. rewrite coef_ftrunc. destruct (mq m <=? N) eqn:E; [reflexivity|lia]. Qed.
Lemma upto_ftrunc N a b : feq_upto N a b <-> feq (ftrunc N a) (ftrunc N b).
Proof.
  split.
  - intros H m. rewrite !coef_ftrunc. destruct (mq m <=? N) eqn:E; [apply H; lia|reflexivity].
  - intros H m Hm. specialize (H m). rewrite !coef_ftrunc in H. destruct (mq m <=? N) eqn:E; [exact H|lia].
Qed.
#[global] Instance upto_equiv N : Equivalence (feq_upto N).
Proof. split; [intros a m _; reflexivity|intros a b H m Hm; symmetry; auto|intros a b c H H' m Hm; rewrite H by exact Hm; auto]. Qed.
Lemma feq_upto_of N a b : feq a b -> feq_upto N a b.
Proof. intros H m _. apply H. Qed.
Lemma upto_le N M a b : M <= N -> feq_upto N a b -> feq_upto M a b.
Proof. intros H H' m Hm. apply H'. lia. Qed.
Lemma conv_ftrunc_l N a b : qnonneg b -> feq_upto N (conv (ftrunc N a) b) (conv a b).
Proof.
  intros Hb m Hm. rewrite !coef_lin, !lin_conv. unfold ftrunc. induction a as [|[k c] a IH]; [reflexivity|]. cbn [filter fst].
  destruct (mq k <=? N) eqn:E; cbn [lin]; rewrite IH; [reflexivity|].
  rewrite (lin_ext_in _ (fun _ => 0) b); [rewrite lin_zero; ring|]. intros m2 c2 H2. unfold delta. apply Hb in H2.
  rewrite mono_eqb_neq; [reflexivity|]. intros <-. cbn in Hm. lia.
Qed.
Lemma upto_conv_l N a a' b : qnonneg b -> feq_upto N a a' -> feq_upto N (conv a b) (conv a' b).
Proof.
  intros Hb H. rewrite <- (conv_ftrunc_l N a b Hb), <- (conv_ftrunc_l N a' b Hb). apply feq_upto_of.
  apply upto_ftrunc in H. rewrite H. reflexivity.
Qed.
Lemma upto_conv N a a' b b' : qnonneg b -> qnonneg a' -> feq_upto N a a' -> feq_upto N b b' -> feq_upto N (conv a b) (conv a' b').
Proof.
  intros Hb Ha' H H'. rewrite (upto_conv_l N a a' b Hb H). rewrite (feq_upto_of N _ _ (conv_comm a' b)), (feq_upto_of N _ _ (conv_comm a' b')).
  apply upto_conv_l; assumption.
Qed.
Lemma qnonneg_conv a b : qnonneg a -> qnonneg b -> qnonneg (conv a b).
Proof. intros Ha Hb m c H. apply in_conv in H. destruct H as (m1 & c1 & m2 & c2 & H1 & H2 & -> & _). apply Ha in H1. apply Hb in H2. cbn. lia. Qed.
Lemma qnonneg_fpow a k : qnonneg a -> qnonneg (fpow a k).
Proof.
  intros H. induction k as [|k IH]; cbn [fpow]; [|apply qnonneg_conv; assumption].
  intros m c [E|[]]. injection E; intros; subst. cbn. lia.
Qed.

(** power_omit *)
Lemma power_omit_loop a order l : sorted a -> qnonneg a -> forall s r k,
  sorted s -> qnonneg s -> feq_upto order s (fpow a k) ->
  foldM (fun pol (_ : Z) => pol <- p_mul_assign pol a ;; omit_high_order_q pol order) l s = Ok r ->
  sorted r /\ qnonneg r /\ feq_upto order r (fpow a (k + length l)) /\ (l <> [] -> forall m c, In (m, c) r -> mq m <= order).
Proof.
  intros Sa Na. induction l as [|x l IH]; intros s r k Ss Ns F H; cbn [foldM] in H.
  - injection H; intros; subst. rewrite Nat.add_0_r. split; [exact Ss|]. split; [exact Ns|]. split; [exact F|]. congruence.
  - apply bind_Ok in H. destruct H as (s2 & H2 & H). apply bind_Ok in H2. destruct H2 as (s1 & H1 & H2). unfold p_mul_assign in H1.
    pose proof (p_mul_sorted _ _ _ H1) as S1.
    assert (N1: qnonneg s1).
    { apply (p_mul_keys (fun m => 0 <= mq m) (fun m => 0 <= mq m) _ s a s1 H1 Ns Na). intros m1 m2 A B _. cbn. lia. }
    unfold omit_high_order_q in H2.
    destruct (negb (has_x s1)) eqn:Hx; [|discriminate]. destruct (negb (has_y s1)) eqn:Hy; [|discriminate]. cbn [assertb bind] in H2.
    apply bind_Ok in H2. destruct H2 as (o1 & Ho & H2). apply i32_inv in Ho. destruct Ho as (-> & Ho).
    assert (Q1: qonly s1) by (apply qonly_has; split; lia).
    destruct (omit_spec s1 order S1 Q1 Ho) as (s2' & E2 & S2 & K2). unfold omit_high_order_q in E2. rewrite Hx, Hy in E2. cbn [assertb bind] in E2.
    rewrite (i32_ok _ Ho) in E2. cbn [bind] in E2.
    assert (s2' = s2) by (injection H2; injection E2; intros; congruence). subst s2'.
    assert (F2: feq_upto order s2 (fpow a (S k))).
    { transitivity s1; [intros m Hm; rewrite (omit_coef s1 s2 order m S1 S2 K2); destruct (mq m <=? order) eqn:E; [reflexivity|lia]|].
      rewrite (feq_upto_of order _ _ (p_mul_feq _ _ _ H1)). cbn [fpow]. rewrite (feq_upto_of order _ _ (conv_comm a (fpow a k))).
      apply upto_conv_l; assumption. }
    destruct (IH s2 r (S k) S2) as (Sr & Nr & Fr & Kr); auto.
    { intros m c Hi. apply K2 in Hi. apply (N1 m c). tauto. }
    split; [exact Sr|]. split; [exact Nr|]. split.
    + rewrite Fr. cbn [length]. rewrite Nat.add_succ_comm. reflexivity.
    + intros _. destruct l as [|y l]; [|apply Kr; discriminate].
      cbn [foldM] in H. injection H as <-. intros m c Hi. apply K2 in Hi. lia.
Qed.

(** ** Extraction *)
Lemma find_variable_spec v a : sorted a -> (forall m c, In (m, c) a -> mx m = 0 /\ my m = 0 /\ mq m = 0) ->
  find_variable v a = coef a (mkMono 0 0 0 v).
Proof.
  induction a as [|[m c] a IH]; intros Hs H; [reflexivity|]. destruct Hs as (Hlt & Hs). cbn [find_variable coef].
  destruct (H m c (or_introl eq_refl)) as (A & B & C). destruct (var_eqb (mv m) v) eqn:E.
  - apply var_eqb_eq in E. assert (m = mkMono 0 0 0 v) as -> by (destruct m; cbn in *; congruence). rewrite mono_eqb_refl.
    rewrite coef_notin; [ring|]. intros d Hd. apply Hlt in Hd. rewrite mono_cmp_refl in Hd. discriminate.
  - rewrite IH; [|exact Hs|intros; eapply H; right; eassumption]. rewrite mono_eqb_neq; [ring|]. intros ->. cbn in E.
    assert (var_eqb v v = true) by (apply var_eqb_eq; reflexivity). congruence.
Qed.
Lemma q_coef_spec a k : sorted a -> qonly a ->
  exists r, to_q_power_coef a k = Ok r /\ sorted r /\
    (forall m c, In (m, c) r <-> exists v, m = mkMono 0 0 0 v /\ In (mkMono 0 0 k v, c) a) /\
    (forall v, coef r (mkMono 0 0 0 v) = coef a (mkMono 0 0 k v)).
Proof.
  intros Hs Hq. unfold to_q_power_coef. pose proof (proj1 (qonly_has a) Hq) as (Hx & Hy). rewrite Hx, Hy. cbn [negb assertb bind].
  eexists. split; [reflexivity|].
  set (l := map (fun e : mono * Z => (mkMono 0 0 0 (mv (fst e)), snd e)) (filter (fun e => mq (fst e) =? k) a)).
  assert (E: fold_left (fun pol (e : mono * Z) => if mq (fst e) =? k then bm_insert (mkMono 0 0 0 (mv (fst e))) (snd e) pol else pol) a p_new
             = ins_all l p_new).
  { unfold l, ins_all. generalize p_new. clear. induction a as [|[m c] a IH]; intros s; [reflexivity|]. cbn [fold_left filter fst snd].
    destruct (mq m =? k); cbn [map fold_left fst snd]; apply IH. }
  rewrite E.
  assert (Lin: forall m c, In (m, c) l <-> exists v, m = mkMono 0 0 0 v /\ In (mkMono 0 0 k v, c) a).
  { intros m c. unfold l. rewrite in_map_iff. split.
    - intros ([j d] & Ej & Hi). cbn in Ej. injection Ej; intros; subst. apply filter_In in Hi. destruct Hi as (Hi & Ek). cbn in Ek.
      exists (mv j). split; [reflexivity|]. destruct (Hq _ _ Hi) as (A & B).
      replace (mkMono 0 0 k (mv j)) with j; [exact Hi|]. destruct j; cbn in *. f_equal; lia.
    - intros (v & -> & Hi). exists (mkMono 0 0 k v, c). split; [reflexivity|]. apply filter_In. split; [exact Hi|]. cbn. lia. }
  assert (N: NoDup (map fst l)).
  { unfold l. rewrite map_map. cbn [fst]. rewrite <- map_map with (f := fst) (g := fun m => mkMono 0 0 0 (mv m)).
    apply NoDup_map_inj_in; [|apply NoDup_filter_fst, sorted_NoDup, Hs].
    intros x y Hx' Hy' Exy. apply in_map_iff in Hx'. apply in_map_iff in Hy'. destruct Hx' as ([m c] & <- & H1), Hy' as ([m' c'] & <- & H2).
    apply filter_In in H1. apply filter_In in H2. cbn in *. destruct H1 as (H1 & E1), H2 as (H2 & E2).
    destruct (Hq _ _ H1) as (A & B), (Hq _ _ H2) as (A' & B'). injection Exy; intros. destruct m, m'; cbn in *. f_equal; try lia. assumption. }
  destruct (ins_all_spec l [] I N) as (H1 & H2 & H3); [intros j _ (c & [])|].
  split; [exact H1|]. split.
  - intros m c. change p_new with (@nil (mono * Z)). rewrite H2. simpl. rewrite Lin. tauto.
  - intros v. change p_new with (@nil (mono * Z)). destruct (bm_get (mkMono 0 0 k v) a) as [c|] eqn:G.
    + pose proof (bm_get_in _ _ _ G) as Hi. rewrite (sorted_coef _ _ _ Hs Hi). apply sorted_coef; [exact H1|]. apply H2. right. apply Lin. eauto.
    + rewrite (bm_get_coef _ (mkMono 0 0 k v) Hs), G. apply coef_notin. intros c Hi. apply H2 in Hi. destruct Hi as [[]|Hi]. apply Lin in Hi.
      destruct Hi as (v' & Ev & Hi). injection Ev; intros; subst v'. exact (proj1 (bm_get_none _ _ Hs) G _ Hi).
Qed.
Lemma highest_last a m c : highest_term_x (a ++ [(m, c)]) = mkTerm c m.
Proof.
  unfold highest_term_x. destruct (is_zero (a ++ [(m, c)])) eqn:E.
  - apply is_zero_nil in E. apply app_eq_nil in E. destruct E; discriminate.
  - rewrite rev_app_distr. reflexivity.
Qed.
Lemma highest_spec a : sorted a -> a <> [] ->
  In (tm (highest_term_x a), tc (highest_term_x a)) a /\
  (forall m c, In (m, c) a -> m <> tm (highest_term_x a) -> mono_cmp m (tm (highest_term_x a)) = Lt) /\
  (forall m c, In (m, c) a -> mx m <= mx (tm (highest_term_x a))).
Proof.
  intros Hs Hn. destruct (exists_last Hn) as (b & [m c] & ->). rewrite highest_last. cbn [tm tc].
  assert (L: forall m' c', In (m', c') (b ++ [(m, c)]) -> m' <> m -> mono_cmp m' m = Lt).
  { intros m' c' Hi N. apply in_app_iff in Hi. destruct Hi as [Hi|[E|[]]]; [|injection E; intros; subst; congruence].
    apply sorted_app in Hs. destruct Hs as (_ & _ & Hs). apply (Hs m' c' m c Hi). left; reflexivity. }
  split; [apply in_app_iff; right; left; reflexivity|]. split; [exact L|].
  intros m' c' Hi. destruct (mono_eq_dec m' m) as [->|N]; [lia|]. specialize (L _ _ Hi N). apply mono_cmp_lt_iff in L. lia.
Qed.
