(** Lemmas about power substitutions, reduction by the curve equation, evaluation. *)
From Coq Require Import Znumtheory ZifyBool Setoid Morphisms Ring.
From Verif Require Import Prelude M_Bigint M_Variable M_Term M_Poly Spec P_Bigint P_Variable P_FSum P_Poly P_Rem P_PolyProps P_Subst.
Open Scope Z_scope.

(** ** Keys of powers *)
Lemma p_power_loop_keys (P : mono -> Prop) : (forall m1 m2, P m1 -> P m2 -> mul_ok m1 m2 -> P (mmul m1 m2)) ->
  forall fuel e b r c, keysP P b -> keysP P r -> p_power_loop fuel e b r = Ok c -> keysP P c.
Proof.
  intros HP. induction fuel as [|f IH]; intros e b r c Hb Hr H; cbn [p_power_loop] in H.
  - destruct (1 <? e); [discriminate|]. eapply p_mul_keys; [exact H|exact Hr|exact Hb|exact HP].
  - destruct (1 <? e).
    + apply bind_Ok in H. destruct H as (r' & Hr' & H). apply bind_Ok in H. destruct H as (b' & Hb' & H).
      eapply IH; [| |exact H].
      * eapply p_mul_keys; [exact Hb'|exact Hb|exact Hb|exact HP].
      * destruct (Z.odd e); [|injection Hr'; intros; subst; exact Hr].
        eapply p_mul_keys; [exact Hr'|exact Hr|exact Hb|exact HP].
    + eapply p_mul_keys; [exact H|exact Hr|exact Hb|exact HP].
Qed.
Lemma p_power_keys (P : mono -> Prop) a n c : P mone -> (forall m1 m2, P m1 -> P m2 -> mul_ok m1 m2 -> P (mmul m1 m2)) ->
  keysP P a -> p_power a n = Ok c -> keysP P c.
Proof.
  intros H1 HP Ha H. unfold p_power in H. destruct (0 <=? n); [|discriminate]. cbn [assertb bind] in H.
  assert (Ho: keysP P p_one) by (intros m d [E|[]]; injection E; intros; subst; exact H1).
  destruct (n =? 0); [injection H; intros; subst; exact Ho|]. exact (p_power_loop_keys P HP _ _ _ _ _ Ha Ho H).
Qed.

(** ** Power substitutions *)
Lemma to_frob_spec a n : sorted a -> key_inj (frob n) a ->
  (forall m c, In (m, c) a -> i32_range (mx m * n) /\ i32_range (my m * n)) ->
  exists r, to_frob a n = Ok r /\ sorted r /\ (forall m c, In (m, c) r <-> In (m, c) (fmap (frob n) a)) /\ feq r (fmap (frob n) a).
Proof.
  intros Hs Hi Hr. unfold to_frob.
  apply (foldM_ins_fmap (fun e => term_to_frob (mkTerm (snd e) (fst e)) n) (frob n) a Hs Hi).
  intros m c Hm. destruct (Hr m c Hm) as (R1 & R2). unfold term_to_frob, i32_range in *. cbn [tm tc fst snd]. rewrite !i32_ok by assumption. reflexivity.
Qed.
Lemma to_y_power_spec a n : sorted a -> key_inj (ypower n) a ->
  (forall m c, In (m, c) a -> i32_range (my m * n)) ->
  exists r, to_y_power a n = Ok r /\ sorted r /\ (forall m c, In (m, c) r <-> In (m, c) (fmap (ypower n) a)) /\ feq r (fmap (ypower n) a).
Proof.
  intros Hs Hi Hr. unfold to_y_power.
  apply (foldM_ins_fmap (fun e => term_to_y_power (mkTerm (snd e) (fst e)) n) (ypower n) a Hs Hi).
  intros m c Hm. pose proof (Hr m c Hm). unfold term_to_y_power, i32_range in *. cbn [tm tc fst snd]. rewrite !i32_ok by assumption. reflexivity.
Qed.
Lemma to_q_power_spec a n : sorted a -> key_inj (qpower n) a ->
  (forall m c, In (m, c) a -> i32_range (mq m * n)) ->
  exists r, to_q_power a n = Ok r /\ sorted r /\ (forall m c, In (m, c) r <-> In (m, c) (fmap (qpower n) a)) /\ feq r (fmap (qpower n) a).
Proof.
  intros Hs Hi Hr. unfold to_q_power.
  apply (foldM_ins_fmap (fun e => term_to_q_power (mkTerm (snd e) (fst e)) n) (qpower n) a Hs Hi).
  intros m c Hm. pose proof (Hr m c Hm). unfold term_to_q_power, i32_range in *. cbn [tm tc fst snd]. rewrite !i32_ok by assumption. reflexivity.
Qed.
Lemma frob_inj n m m' : n <> 0 -> frob n m = frob n m' -> m = m'.
Proof. destruct m, m'. unfold frob. cbn. intros Hn H. injection H; intros; subst. f_equal; nia. Qed.
Lemma ypower_inj n m m' : n <> 0 -> ypower n m = ypower n m' -> m = m'.
Proof. destruct m, m'. unfold ypower. cbn. intros Hn H. injection H; intros; subst. f_equal; nia. Qed.
Lemma qpower_inj n m m' : n <> 0 -> qpower n m = qpower n m' -> m = m'.
Proof. destruct m, m'. unfold qpower. cbn. intros Hn H. injection H; intros; subst. f_equal; nia. Qed.
Lemma frob_mmul n m m' : frob n (mmul m m') = mmul (frob n m) (frob n m').
Proof. unfold frob, mmul. cbn. f_equal; ring. Qed.
Lemma ypower_mmul n m m' : ypower n (mmul m m') = mmul (ypower n m) (ypower n m').
Proof. unfold ypower, mmul. cbn. f_equal; ring. Qed.
Lemma qpower_mmul n m m' : qpower n (mmul m m') = mmul (qpower n m) (qpower n m').
Proof. unfold qpower, mmul. cbn. f_equal; ring. Qed.
Lemma coef_fmap_inj f a m : (forall k, f k = f m -> k = m) -> coef (fmap f a) (f m) = coef a m.
Proof.
  intros H. rewrite !coef_lin, lin_fmap. apply lin_ext. intros k. unfold delta.
  destruct (mono_eqb k m) eqn:E; [apply mono_eqb_eq in E; subst; rewrite mono_eqb_refl; reflexivity|].
  rewrite mono_eqb_neq; [reflexivity|]. intros Hk. apply H in Hk. subst. rewrite mono_eqb_refl in E. discriminate.
Qed.

(** ** The curve polynomial *)
Lemma weierstrass_sorted a b : sorted (weierstrass a b).
Proof. unfold weierstrass, p_add_t. apply p_add_sorted, term_add_sorted. Qed.
Lemma weierstrass_feq a b : feq (weierstrass a b) (fweier a b).
Proof.
  unfold weierstrass, p_add_t. rewrite (p_add_feq _ _ (term_add_sorted _ _)). unfold fadd.
  rewrite (fadd_proper_feq _ _ (term_add_feq _ _) _ _ (to_pol_feq _)). reflexivity.
Qed.
Lemma weierstrass_keys (P : mono -> Prop) a b : P (mkMono 3 0 0 None) -> P (mkMono 1 0 0 None) -> P mone -> keysP P (weierstrass a b).
Proof.
  intros H3 H1 H0. unfold weierstrass, p_add_t. apply p_add_keys; [apply term_add_sorted| |].
  - apply term_add_keys; assumption.
  - apply to_pol_keys. exact H0.
Qed.
Lemma weierstrass_bound a b : exp_bound 3 (weierstrass a b).
Proof. apply (weierstrass_keys (fun m => Z.abs (mx m) <= 3 /\ Z.abs (my m) <= 3 /\ Z.abs (mq m) <= 3 /\ mv m = None)); cbn; repeat split; lia. Qed.
Definition xkey (m : mono) : Prop := 0 <= mx m /\ my m = 0 /\ mq m = 0 /\ mv m = None.
Lemma xkey_mmul m1 m2 : xkey m1 -> xkey m2 -> xkey (mmul m1 m2).
Proof. unfold xkey, mmul. cbn. intros (A & B & C & D) (A' & B' & C' & D'). rewrite D, D'. repeat split; lia. Qed.
Lemma xkey_one : xkey mone.
Proof. unfold xkey; cbn; repeat split; lia. Qed.
Lemma weierstrass_xkey a b : keysP xkey (weierstrass a b).
Proof. apply weierstrass_keys; unfold xkey; cbn; repeat split; lia. Qed.
Lemma weierstrass_power_returns a b k : 0 <= k -> 3 * k <= i32_max ->
  exists w, p_power (weierstrass a b) k = Ok w /\ sorted w /\ feq w (fpow (fweier a b) (Z.to_nat k)) /\
            keysP (fun m => xkey m /\ mx m <= 3 * k) w.
Proof.
  intros Hk Hm. destruct (p_power_returns (weierstrass a b) k 3 Hk ltac:(lia) ltac:(lia) (weierstrass_bound a b)) as (w & Hw & Hb).
  destruct (p_power_spec _ _ _ (weierstrass_sorted a b) Hw) as (_ & Sw & Fw).
  exists w. split; [exact Hw|]. split; [exact Sw|]. split.
  - rewrite Fw. apply feqm_0. apply fpow_proper. apply feqm_0, weierstrass_feq.
  - intros m c Hi. split.
    + revert m c Hi. change (keysP xkey w). eapply p_power_keys; [apply xkey_one| |apply weierstrass_xkey|exact Hw].
      intros; apply xkey_mmul; assumption.
    + apply Hb in Hi. lia.
Qed.

(** ** reduction *)
Lemma p_div_ypow u k : i32_range (mx (tm u)) -> i32_range (mq (tm u)) -> i32_range (my (tm u) - k) ->
  p_div_assign_t (to_pol u) (tb_build (tb_ypow k tb_new)) = Ok (to_pol (mkTerm (tc u) (set_y (my (tm u) - k) (tm u)))).
Proof.
  intros Hx Hq Hy. unfold p_div_assign_t. rewrite (to_pol_eq u). destruct (tc u =? 0) eqn:E.
  - rewrite (to_pol_eq (mkTerm (tc u) _)). cbn [tc]. rewrite E. reflexivity.
  - change (to_pol (tb_build (tb_ypow k tb_new))) with [(mkMono 0 k 0 None, 1)]. unfold p_div. cbn [is_zero length Nat.eqb foldM].
    rewrite c12_term_div; cbn [tm tc mx my mq mv].
    + cbn [bind]. rewrite to_pol_eq. cbn [tc tm]. rewrite Z.div_1_r, E. cbn [bm_insert p_new]. rewrite !Z.sub_0_r. reflexivity.
    + reflexivity.
    + lia.
    + unfold i32_mono. cbn. rewrite !Z.sub_0_r. auto.
Qed.
Definition red_term (a b : Z) (e : mono * Z) : fsum :=
  if 2 <=? my (fst e) then conv [(set_y (my (fst e) mod 2) (fst e), snd e)] (fpow (fweier a b) (Z.to_nat (my (fst e) / 2))) else [e].

Lemma i32_prod2 y : 0 <= y <= i32_max -> i32 (y / 2 * 2) = Ok (y / 2 * 2).
Proof. intros H. apply i32_ok. pose proof (Z.mul_div_le y 2 ltac:(lia)). pose proof (Z.div_pos y 2 ltac:(lia) ltac:(lia)). unfold i32_min, i32_max in *. lia. Qed.
Lemma p_add_assign_t_feq t u : sorted t -> sorted (p_add_assign_t t u) /\ feq (p_add_assign_t t u) (fadd t [(tm u, tc u)]).
Proof.
  intros Hs. rewrite p_add_assign_t_eq. split; [apply add_entry_sorted, Hs|]. intros m. unfold fadd.
  rewrite add_entry_coef, coef_app by exact Hs. cbn [coef]. ring.
Qed.
Lemma to_pol_nz_feq c m : feq (to_pol (mkTerm c m)) [(m, c)].
Proof. apply (to_pol_feq (mkTerm c m)). Qed.
Lemma p_power_weier_feq a b n w : p_power (weierstrass a b) n = Ok w -> sorted w /\ feq w (fpow (fweier a b) (Z.to_nat n)).
Proof.
  intros H. destruct (p_power_spec _ _ _ (weierstrass_sorted a b) H) as (_ & Sw & Fw). split; [exact Sw|].
  rewrite Fw. apply feqm_0. apply fpow_proper. apply feqm_0, weierstrass_feq.
Qed.
Lemma reduction_entry_spec a b t e t' : i32_mono (fst e) -> sorted t ->
  reduction_entry a b t e = Ok t' -> sorted t' /\ feqm 0 t' (fadd t (red_term a b e)).
Proof.
  destruct e as [m c]. intros (Rx & Ry & Rq) Hs H. unfold reduction_entry in H. unfold red_term. cbn [fst snd tm tc] in *.
  destruct (2 <=? my m) eqn:E.
  - rewrite i32_prod2 in H by (unfold i32_range in *; lia). cbn [bind] in H.
    rewrite p_div_ypow in H; cbn [tm tc] in *; auto.
    2:{ unfold i32_range in *. pose proof (Z.mod_pos_bound (my m) 2 ltac:(lia)).
        replace (my m - my m / 2 * 2) with (my m mod 2) by (rewrite Z.mod_eq by lia; ring). unfold i32_min, i32_max in *. lia. }
    cbn [bind] in H. apply bind_Ok in H. destruct H as (ee & Hee & H). apply bind_Ok in H. destruct H as (e' & He' & H).
    injection H; intros; subst t'. clear H. unfold p_mul_assign in He'. unfold p_add_assign. change (fold_left add_entry e' t) with (p_add t e').
    split; [apply p_add_sorted, Hs|]. apply feqm_0. rewrite (p_add_feq t e' Hs), (p_mul_feq _ _ _ He').
    destruct (p_power_weier_feq _ _ _ _ Hee) as (_ & Fw). rewrite Fw, to_pol_nz_feq.
    replace (my m - my m / 2 * 2) with (my m mod 2) by (rewrite Z.mod_eq by lia; ring). reflexivity.
  - injection H; intros; subst t'. destruct (p_add_assign_t_feq t (mkTerm c m) Hs) as (S1 & F1). split; [exact S1|]. apply feqm_0. exact F1.
Qed.
Lemma reduction_spec pol a b r : i32_poly pol -> reduction pol a b = Ok r ->
  sorted r /\ feq r (flat_map (red_term a b) pol).
Proof.
  intros Hi H. unfold reduction in H.
  destruct (foldM_sum (reduction_entry a b) (red_term a b) 0 pol) with (s := p_new) (s' := r) as (S & F).
  - intros s [m c] s' Hx Hs E. apply (reduction_entry_spec a b s (m, c) s'); auto. exact (Hi _ _ Hx).
  - exact I.
  - exact H.
  - split; [exact S|]. apply feqm_0. exact F.
Qed.
Definition ylow (m : mono) : Prop := my m <= 1.
Lemma add_entry_keys' (P : mono -> Prop) s e : sorted s -> keysP P s -> P (fst e) -> keysP P (add_entry s e).
Proof. destruct e as [k c]. apply add_entry_keys. Qed.
Lemma reduction_keys pol a b r : i32_poly pol -> reduction pol a b = Ok r -> keysP ylow r.
Proof.
  intros Hi H. unfold reduction in H.
  cut (sorted r /\ keysP ylow r); [tauto|].
  revert H. apply (foldM_inv (fun r => sorted r /\ keysP ylow r)).
  - intros s [m c] s' Hx (Ss & Hs) E. split; [apply (reduction_entry_spec a b s (m, c) s' (Hi _ _ Hx) Ss E)|].
    unfold reduction_entry in E. cbn [fst snd tm tc] in E. destruct (2 <=? my m) eqn:E2.
    + destruct (Hi _ _ Hx) as (Rx & Ry & Rq). rewrite i32_prod2 in E by (unfold i32_range in *; lia). cbn [bind] in E.
      rewrite p_div_ypow in E; cbn [tm tc] in *; auto.
      2:{ unfold i32_range in *. pose proof (Z.mod_pos_bound (my m) 2 ltac:(lia)).
          replace (my m - my m / 2 * 2) with (my m mod 2) by (rewrite Z.mod_eq by lia; ring). unfold i32_min, i32_max in *. lia. }
      cbn [bind] in E. apply bind_Ok in E. destruct E as (ee & Hee & E). apply bind_Ok in E. destruct E as (e' & He' & E).
      injection E; intros; subst s'. unfold p_add_assign. change (fold_left add_entry e' s) with (p_add s e').
      apply p_add_keys; auto. eapply p_mul_keys; [exact He'|apply (to_pol_keys (fun k => my k = my m mod 2))|
        eapply p_power_keys; [apply xkey_one| |apply weierstrass_xkey|exact Hee]; intros; apply xkey_mmul; assumption|].
      * cbn. rewrite Z.mod_eq by lia. ring.
      * intros m1 m2 H1 (_ & H2 & _) _. cbv beta in H1. unfold ylow, mmul. cbn [my]. pose proof (Z.mod_pos_bound (my m) 2 ltac:(lia)). lia.
    + injection E; intros; subst s'. rewrite p_add_assign_t_eq. apply add_entry_keys; auto. unfold ylow. cbn [tm]. lia.
  - split; [exact I|]. intros ? ? [].
Qed.
(** it returns *)
Lemma reduction_entry_returns a b s m c : red_room m -> exists s', reduction_entry a b s (m, c) = Ok s'.
Proof.
  intros ((Rx & Ry & Rq) & H0x & H0y & Hm). unfold reduction_entry. cbn [fst snd tm tc]. destruct (2 <=? my m) eqn:E2; [|eauto].
  rewrite i32_prod2 by (unfold i32_range in *; lia). cbn [bind]. pose proof (Z.mod_pos_bound (my m) 2 ltac:(lia)).
  assert (Em: my m - my m / 2 * 2 = my m mod 2) by (rewrite Z.mod_eq by lia; ring).
  rewrite p_div_ypow; cbn [tm tc] in *; auto.
  2:{ unfold i32_range in *. rewrite Em. unfold i32_min, i32_max in *. lia. }
  cbn [bind]. rewrite Em.
  pose proof (Z.div_pos (my m) 2 ltac:(lia) ltac:(lia)).
  destruct (weierstrass_power_returns a b (my m / 2) ltac:(lia) ltac:(lia)) as (w & -> & Sw & Fw & Kw). cbn [bind].
  destruct (p_mul_returns (to_pol (mkTerm c (set_y (my m mod 2) m))) w) as (v & Hv).
  - intros m1 c1 m2 c2 H1 H2. apply Kw in H2. destruct H2 as ((A1 & A2 & A3 & A4) & A5).
    apply (to_pol_keys (fun k => k = set_y (my m mod 2) m)) in H1; [|reflexivity]. subst m1. unfold mul_ok, i32_range in *. cbn.
    rewrite A2, A3, A4. unfold i32_min, i32_max in *. intuition lia.
  - unfold p_mul_assign. rewrite Hv. cbn [bind]. eauto.
Qed.
Lemma reduction_returns pol a b : (forall m c, In (m, c) pol -> red_room m) -> exists r, reduction pol a b = Ok r.
Proof.
  intros H. unfold reduction. destruct (foldM_returns (fun _ => True) (reduction_entry a b) pol) with (s := p_new) as (r & Hr & _).
  - intros s [m c] Hx _. destruct (reduction_entry_returns a b s m c (H _ _ Hx)) as (s' & E). eauto.
  - exact I.
  - eauto.
Qed.

(** ideal *)
Section Ideal.
Variable n : Z.
Add Ring Rn : (f_ring n) (setoid (feqm_equiv n) (f_ring_ext n)).
Variable g : fsum.
Lemma ci_refl u v : feqm n u v -> cong_ideal n g u v.
Proof. intros H. exists []. rewrite H. ring. Qed.
Lemma ci_trans u v w : cong_ideal n g u v -> cong_ideal n g v w -> cong_ideal n g u w.
Proof. intros (k & H) (l & H'). exists (fadd k l). rewrite H, H'. ring. Qed.
Lemma ci_sym u v : cong_ideal n g u v -> cong_ideal n g v u.
Proof. intros (k & H). exists (fneg k). rewrite H. ring. Qed.
Lemma ci_add u v u' v' : cong_ideal n g u v -> cong_ideal n g u' v' -> cong_ideal n g (fadd u u') (fadd v v').
Proof. intros (k & H) (l & H'). exists (fadd k l). rewrite H, H'. ring. Qed.
Lemma ci_neg u v : cong_ideal n g u v -> cong_ideal n g (fneg u) (fneg v).
Proof. intros (k & H). exists (fneg k). rewrite H. ring. Qed.
Lemma ci_mul u v u' v' : cong_ideal n g u v -> cong_ideal n g u' v' -> cong_ideal n g (conv u u') (conv v v').
Proof. intros (k & H) (l & H'). exists (fadd (fadd (conv k v') (conv v l)) (conv g (conv k l))). rewrite H, H'. ring. Qed.
Lemma ci_pow u v k : cong_ideal n g u v -> cong_ideal n g (fpow u k) (fpow v k).
Proof. intros H. induction k as [|k IH]; cbn [fpow]; [apply ci_refl; reflexivity|]. apply ci_mul; assumption. Qed.
Lemma ci_base u v : feqm n g (fsub u v) -> cong_ideal n g u v.
Proof. intros H. exists (fconst 1). rewrite H. ring. Qed.
End Ideal.
Lemma fpow_ymono k : fpow [(mkMono 0 2 0 None, 1)] k = [(mkMono 0 (2 * Z.of_nat k) 0 None, 1)].
Proof.
  induction k as [|k IH]; [reflexivity|]. cbn [fpow]. rewrite IH. unfold conv, mmul. cbn [flat_map map app fst snd mx my mq mv vmul].
  do 2 f_equal. f_equal. rewrite Nat2Z.inj_succ. ring.
Qed.
Lemma red_term_ideal a b e : cong_ideal 0 (fcurve a b) (red_term a b e) [e].
Proof.
  destruct e as [m c]. unfold red_term. cbn [fst snd]. destruct (2 <=? my m) eqn:E; [|apply ci_refl; reflexivity].
  eapply ci_trans; [apply ci_mul; [apply ci_refl; reflexivity|]|].
  - apply ci_sym. apply ci_pow with (u := [(mkMono 0 2 0 None, 1)]). apply ci_base. reflexivity.
  - apply ci_refl. rewrite fpow_ymono. unfold conv. cbn [flat_map map app fst snd].
    assert (mmul (set_y (my m mod 2) m) (mkMono 0 (2 * Z.of_nat (Z.to_nat (my m / 2))) 0 None) = m) as ->.
    { pose proof (Z.div_pos (my m) 2 ltac:(lia) ltac:(lia)). rewrite Z2Nat.id by lia. unfold mmul, set_y. destruct m as [x y q v]. cbn [mx my mq mv].
      pose proof (Z.div_mod y 2 ltac:(lia)). f_equal; try lia. destruct v as [[i j]|]; reflexivity. }
    rewrite Z.mul_1_r. reflexivity.
Qed.
Lemma reduction_ideal pol a b r : i32_poly pol -> reduction pol a b = Ok r -> cong_ideal 0 (fcurve a b) r pol.
Proof.
  intros Hi H. destruct (reduction_spec pol a b r Hi H) as (_ & F).
  eapply ci_trans; [apply ci_refl, feqm_0, F|]. clear.
  induction pol as [|e pol IH]; [apply ci_refl; reflexivity|]. cbn [flat_map]. change (e :: pol) with ([e] ++ pol).
  apply ci_add; [apply red_term_ideal|exact IH].
Qed.

(** values *)
Lemma mval_mmul x y m1 m2 : 0 <= mx m1 -> 0 <= mx m2 -> 0 <= my m1 -> 0 <= my m2 -> mval x y (mmul m1 m2) = mval x y m1 * mval x y m2.
Proof. intros. unfold mval, mmul. cbn. rewrite !Z.pow_add_r by assumption. ring. Qed.
Lemma fval_app x y a b : fval x y (a ++ b) = fval x y a + fval x y b.
Proof. rewrite !fval_lin. apply lin_app. Qed.
Lemma fval_neg x y a : fval x y (fneg a) = - fval x y a.
Proof. rewrite !fval_lin. apply lin_neg. Qed.
Lemma fval_feq x y a b : feq a b -> fval x y a = fval x y b.
Proof. intros H. rewrite !fval_lin. apply feq_lin, H. Qed.
Lemma fval_feqm n x y a b : feqm n a b -> (n | fval x y a - fval x y b).
Proof. intros H. rewrite !fval_lin. apply feqm_lin, H. Qed.
Lemma fval_conv x y a b : nonneg_xy a -> nonneg_xy b -> fval x y (conv a b) = fval x y a * fval x y b.
Proof.
  intros Ha Hb. rewrite !fval_lin. apply lin_mult. intros m1 c1 m2 c2 H1 H2. apply Ha in H1. apply Hb in H2. apply mval_mmul; tauto.
Qed.
Lemma nonneg_conv a b : nonneg_xy a -> nonneg_xy b -> nonneg_xy (conv a b).
Proof.
  intros Ha Hb m c H. apply in_conv in H. destruct H as (m1 & c1 & m2 & c2 & H1 & H2 & -> & _). apply Ha in H1. apply Hb in H2. cbn. lia.
Qed.
Lemma nonneg_fconst c : nonneg_xy (fconst c).
Proof. intros m d [E|[]]. injection E; intros; subst. cbn. lia. Qed.
Lemma nonneg_fpow a k : nonneg_xy a -> nonneg_xy (fpow a k).
Proof. intros H. induction k as [|k IH]; cbn [fpow]; [apply nonneg_fconst|apply nonneg_conv; assumption]. Qed.
Lemma fval_fconst x y c : fval x y (fconst c) = c.
Proof. unfold fval, fconst, mval, mone. cbn [mx my]. rewrite !Z.pow_0_r. ring. Qed.
Lemma fval_fpow x y a k : nonneg_xy a -> fval x y (fpow a k) = fval x y a ^ Z.of_nat k.
Proof.
  intros H. induction k as [|k IH]; cbn [fpow].
  - rewrite fval_fconst. reflexivity.
  - rewrite fval_conv by (auto using nonneg_fpow). rewrite IH, Nat2Z.inj_succ, Z.pow_succ_r by lia. reflexivity.
Qed.
Lemma fval_fweier x y a b : fval x y (fweier a b) = x ^ 3 + a * x + b.
Proof. unfold fweier. cbn [fval]. unfold mval, mone. cbn [mx my]. rewrite !Z.pow_0_r, Z.pow_1_r. ring. Qed.
Lemma nonneg_fweier a b : nonneg_xy (fweier a b).
Proof. intros m c H. cbn in H. intuition (repeat match goal with H : (_, _) = (_, _) |- _ => injection H; intros; subst; clear H end; cbn; lia). Qed.
Lemma divide_pow n u v k : (n | u - v) -> (n | u ^ Z.of_nat k - v ^ Z.of_nat k).
Proof.
  intros (d & H). induction k as [|k (e & IH)]; [exists 0; reflexivity|]. rewrite Nat2Z.inj_succ, !Z.pow_succ_r by lia.
  exists (d * u ^ Z.of_nat k + v * e). replace (u * u ^ Z.of_nat k - v * v ^ Z.of_nat k) with ((u - v) * u ^ Z.of_nat k + v * (u ^ Z.of_nat k - v ^ Z.of_nat k)) by ring.
  rewrite H, IH. ring.
Qed.
Lemma red_term_val n x y a b e : 0 <= mx (fst e) -> 0 <= my (fst e) -> (n | y ^ 2 - (x ^ 3 + a * x + b)) ->
  (n | fval x y (red_term a b e) - fval x y [e]).
Proof.
  destruct e as [m c]. cbn [fst]. intros Hx Hy Hc. unfold red_term. cbn [fst snd]. destruct (2 <=? my m) eqn:E; [|rewrite Z.sub_diag; apply Z.divide_0_r].
  pose proof (Z.mod_pos_bound (my m) 2 ltac:(lia)). pose proof (Z.div_pos (my m) 2 ltac:(lia) ltac:(lia)).
  rewrite fval_conv; [|intros k d [Ei|[]]; injection Ei; intros; subst; cbn; lia|apply nonneg_fpow, nonneg_fweier].
  rewrite fval_fpow by apply nonneg_fweier. rewrite fval_fweier. cbn [fval]. unfold mval, set_y. cbn [mx my].
  assert (Ey: y ^ my m = y ^ (my m mod 2) * (y ^ 2) ^ Z.of_nat (Z.to_nat (my m / 2))).
  { rewrite Z2Nat.id by lia. rewrite <- Z.pow_mul_r, <- Z.pow_add_r by lia. f_equal. pose proof (Z.div_mod (my m) 2). lia. }
  rewrite Ey. set (k := Z.to_nat (my m / 2)). set (W := x ^ 3 + a * x + b) in *.
  replace ((c * (x ^ mx m * y ^ (my m mod 2)) + 0) * W ^ Z.of_nat k - (c * (x ^ mx m * (y ^ (my m mod 2) * (y ^ 2) ^ Z.of_nat k)) + 0))
    with (- (c * x ^ mx m * y ^ (my m mod 2)) * ((y ^ 2) ^ Z.of_nat k - W ^ Z.of_nat k)) by ring.
  apply Z.divide_mul_r. apply divide_pow. exact Hc.
Qed.
Lemma reduction_value n x y pol a b r : i32_poly pol -> nonneg_xy pol -> reduction pol a b = Ok r ->
  (n | y ^ 2 - (x ^ 3 + a * x + b)) -> (n | fval x y r - fval x y pol).
Proof.
  intros Hi Hn H Hc. destruct (reduction_spec pol a b r Hi H) as (_ & F). rewrite (fval_feq x y _ _ F). clear H F Hi.
  induction pol as [|e pol IH]; [cbn; apply Z.divide_0_r|]. cbn [flat_map]. rewrite fval_app. change (e :: pol) with ([e] ++ pol). rewrite fval_app.
  match goal with |- (_ | ?u + ?v - (?u' + ?v')) => replace (u + v - (u' + v')) with ((u - u') + (v - v')) by ring end.
  apply Z.divide_add_r.
  - destruct (Hn (fst e) (snd e)) as (A & B); [left; destruct e; reflexivity|]. apply red_term_val; assumption.
  - apply IH. intros m c Hm. apply (Hn m c). right; exact Hm.
Qed.
Lemma reduction_nonneg pol a b r : i32_poly pol -> nonneg_xy pol -> reduction pol a b = Ok r -> nonneg_xy r.
Proof.
  intros Hi Hn H. unfold reduction in H.
  cut (sorted r /\ keysP (fun m => 0 <= mx m /\ 0 <= my m) r); [intros (_ & K); exact K|].
  revert H. apply (foldM_inv (fun r => sorted r /\ keysP (fun m => 0 <= mx m /\ 0 <= my m) r)).
  - intros s [m c] s' Hx (Ss & Hs) E. split; [apply (reduction_entry_spec a b s (m, c) s' (Hi _ _ Hx) Ss E)|].
    unfold reduction_entry in E. cbn [fst snd tm tc] in E. destruct (2 <=? my m) eqn:E2.
    + destruct (Hi _ _ Hx) as (Rx & Ry & Rq). rewrite i32_prod2 in E by (unfold i32_range in *; lia). cbn [bind] in E.
      rewrite p_div_ypow in E; cbn [tm tc] in *; auto.
      2:{ unfold i32_range in *. pose proof (Z.mod_pos_bound (my m) 2 ltac:(lia)).
          replace (my m - my m / 2 * 2) with (my m mod 2) by (rewrite Z.mod_eq by lia; ring). unfold i32_min, i32_max in *. lia. }
      cbn [bind] in E. apply bind_Ok in E. destruct E as (ee & Hee & E). apply bind_Ok in E. destruct E as (e' & He' & E).
      injection E; intros; subst s'. unfold p_add_assign. change (fold_left add_entry e' s) with (p_add s e').
      apply p_add_keys; auto. eapply p_mul_keys; [exact He'|apply (to_pol_keys (fun k => mx k = mx m /\ my k = my m mod 2))|
        eapply p_power_keys; [apply xkey_one| |apply weierstrass_xkey|exact Hee]; intros; apply xkey_mmul; assumption|].
      * cbn. split; [reflexivity|]. rewrite Z.mod_eq by lia. ring.
      * intros m1 m2 (H1 & H1') (H2 & H2' & _) _. unfold mmul. cbn [mx my]. pose proof (Z.mod_pos_bound (my m) 2 ltac:(lia)).
        apply Hn in Hx. lia.
    + injection E; intros; subst s'. rewrite p_add_assign_t_eq. apply add_entry_keys; auto. cbn. eapply Hn; exact Hx.
  - split; [exact I|]. intros ? ? [].
Qed.

(** ** reduction_modular *)
Definition red_mod_body (d : nat) (a b p : Z) : poly -> mono * Z -> res poly :=
  (fun t (e : mono * Z) =>
             let u := mkTerm (snd e) (fst e) in
             if 2 <=? my (tm u) then
               let y := my (tm u) / 2 in
               y2 <- i32 (y * 2) ;;
               e <- p_div_assign_t (to_pol u) (tb_build (tb_ypow y2 tb_new)) ;;
               ee <- p_power_modulo (weierstrass a b) y p ;;
               ee <- reduction_modular_depth d ee a b p ;;
               e <- p_mul_assign e ee ;;
               Ok (p_add_assign t e)
             else Ok (p_add_assign_t t u)).
Lemma reduction_modular_depth_S d pol a b p :
  reduction_modular_depth (S d) pol a b p = (t <- foldM (red_mod_body d a b p) pol p_new ;; modular_assign t p).
Proof. reflexivity. Qed.
Lemma reduction_modular_noy d pol a b p : 0 < p -> sorted pol -> keysP ylow pol ->
  reduction_modular_depth (S d) pol a b p = Ok (redp p pol).
Proof.
  intros Hp Hs Hy. rewrite reduction_modular_depth_S.
  assert (E: foldM (red_mod_body d a b p) pol p_new = Ok (p_add p_new pol)).
  { unfold p_add. generalize p_new. clear Hs. induction pol as [|[m c] pol IH]; intros t; [reflexivity|]. cbn [foldM fold_left]. unfold red_mod_body at 1. cbn [fst snd tm tc].
    assert (ylow m) as Hm by (apply (Hy m c); left; reflexivity). unfold ylow in Hm. destruct (2 <=? my m) eqn:E; [lia|]. cbn [bind].
    rewrite p_add_assign_t_eq. cbn [tm tc]. apply IH. intros k e Hk. apply (Hy k e). right; exact Hk. }
  rewrite E. cbn [bind]. rewrite modular_assign_eq by (auto; apply p_add_sorted; exact I). f_equal.
  apply redp_ext; auto; [apply p_add_sorted; exact I|]. apply feq_feqm. apply (p_add_feq p_new pol I).
Qed.
Lemma foldM_rel {S T X} (R : S -> T -> Prop) (f : S -> X -> res S) (g : T -> X -> res T) l :
  (forall s t x s', In x l -> R s t -> f s x = Ok s' -> exists t', g t x = Ok t' /\ R s' t') ->
  forall s t s', R s t -> foldM f l s = Ok s' -> exists t', foldM g l t = Ok t' /\ R s' t'.
Proof.
  induction l as [|x l IH]; intros H s t s' Hr E; cbn [foldM] in *.
  - injection E; intros; subst. eauto.
  - apply bind_Ok in E. destruct E as (s1 & E1 & E). destruct (H s t x s1 (or_introl eq_refl) Hr E1) as (t1 & -> & R1).
    cbn [bind]. eapply IH; [|exact R1|exact E]. intros s0 t0 x0 s0' Hx0. apply H. right; exact Hx0.
Qed.
Lemma reduction_modular_eq pol a b p r : 0 < p -> i32_poly pol -> reduction pol a b = Ok r ->
  reduction_modular pol a b p = p_rem r p.
Proof.
  intros Hp Hi H. unfold reduction_modular. rewrite reduction_modular_depth_S.
  destruct (foldM_rel (fun s t : poly => sorted s /\ sorted t /\ feqm p t s) (reduction_entry a b)
    (red_mod_body 1 a b p) pol) with (s := p_new) (t := p_new) (s' := r) as (t' & Et & Sr & St & F).
  - intros s t [m c] s' Hx (Ss & St & F) E. unfold reduction_entry in E. unfold red_mod_body. cbn [fst snd tm tc] in *.
    destruct (2 <=? my m) eqn:E2.
    + destruct (Hi _ _ Hx) as (Rx & Ry & Rq). rewrite i32_prod2 in * by (unfold i32_range in *; lia). cbn [bind] in *.
      rewrite p_div_ypow in *; cbn [tm tc] in *; auto.
      all: try (unfold i32_range in *; pose proof (Z.mod_pos_bound (my m) 2 ltac:(lia));
          replace (my m - my m / 2 * 2) with (my m mod 2) by (rewrite Z.mod_eq by lia; ring); unfold i32_min, i32_max in *; lia).
      cbn [bind] in *. apply bind_Ok in E. destruct E as (ee & Hee & E). apply bind_Ok in E. destruct E as (e' & He' & E).
      injection E; intros; subst s'. clear E.
      assert (Hk: 1 <= my m / 2) by (apply Z.div_le_lower_bound; lia).
      rewrite (p_power_modulo_eq _ _ _ _ Hp Hk (weierstrass_sorted a b) Hee).
      destruct (p_power_weier_feq _ _ _ _ Hee) as (See & Fee). rewrite p_rem_eq by assumption. cbn [bind].
      assert (Kee: keysP xkey ee) by (eapply p_power_keys; [apply xkey_one| |apply weierstrass_xkey|exact Hee]; intros; apply xkey_mmul; assumption).
      rewrite reduction_modular_noy; auto using redp_sorted.
      2:{ apply redp_keys. intros k d Hd. apply Kee in Hd. unfold ylow, xkey in *. lia. }
      rewrite redp_id by auto using redp_sorted, redp_reduced. cbn [bind]. unfold p_mul_assign in *.
      apply p_mul_Ok in He'. destruct He' as (Ho & ->).
      rewrite p_mul_eq. rewrite (all_ok_sub _ _ _ _ (fun k H => H) (redp_sub p ee) Ho). cbn [bind].
      eexists. split; [reflexivity|]. unfold p_add_assign.
      change (fold_left add_entry ?e ?t) with (p_add t e). split; [apply p_add_sorted, Ss|]. split; [apply p_add_sorted, St|].
      rewrite (feq_feqm p _ _ (p_add_feq s _ Ss)), (feq_feqm p _ _ (p_add_feq t _ St)).
      apply fadd_proper; [exact F|]. rewrite (feq_feqm p _ _ (proj1 (proj2 (mulp_spec _ (redp p ee))))), (feq_feqm p _ _ (proj1 (proj2 (mulp_spec _ ee)))).
      apply conv_proper; [reflexivity|]. apply redp_feqm; assumption.
    + injection E; intros; subst s'. eexists. split; [reflexivity|].
      destruct (p_add_assign_t_feq s (mkTerm c m) Ss) as (S1 & F1). destruct (p_add_assign_t_feq t (mkTerm c m) St) as (S2 & F2).
      split; [exact S1|]. split; [exact S2|]. rewrite (feq_feqm p _ _ F1), (feq_feqm p _ _ F2). apply fadd_proper; [exact F|reflexivity].
  - repeat split; try exact I. reflexivity.
  - exact H.
  - rewrite Et. cbn [bind]. rewrite modular_assign_eq, p_rem_eq by assumption. f_equal. apply redp_ext; assumption.
Qed.
