(** The polynomials computed inside schoof, modulo q and the curve equation. *)
From Coq Require Import Znumtheory ZifyBool Setoid Morphisms Ring.
From Verif Require Import Prelude M_Bigint M_Variable M_Term M_Poly M_DivPoly M_Schoof Spec P_Bigint P_Variable P_FSum P_Poly P_Rem P_PolyProps P_Subst P_Subst2 P_Subst3 P_SubstProps P_DivPoly P_DivPoly5 P_DivProps P_Binom P_NormalProps P_Mod P_MulProps P_SchoofVal P_XQuotProps SpecSchoof.
Open Scope Z_scope.

Section Id.
Variables (a b q : Z).
Hypothesis Pq : prime q.
Notation C := (fcurve a b).
Notation R := (cong_ideal q C).
#[local] Instance R_equiv : Equivalence R.
Proof. split; [intros u; apply cong_refl|intros u v; apply cong_sym|intros u v w; apply cong_trans]. Qed.
#[local] Instance R_feqm : subrelation (feqm q) R.
Proof. intros u v H. apply feqm_cong, H. Qed.
#[local] Instance R_feq : subrelation feq R.
Proof. intros u v H. apply feqm_cong, feq_feqm, H. Qed.
#[local] Instance R_conv : Proper (R ==> R ==> R) conv.
Proof. intros u u' H v v' H'. apply ci_mul; assumption. Qed.
#[local] Instance R_fneg : Proper (R ==> R) fneg.
Proof. intros u u' H. apply ci_neg; assumption. Qed.
#[local] Instance R_fadd : Proper (R ==> R ==> R) fadd.
Proof. intros u u' H v v' H'. apply ci_add; assumption. Qed.
#[local] Instance R_fsub : Proper (R ==> R ==> R) fsub.
Proof. intros u u' H v v' H'. unfold fsub. apply (ci_add q C u u' (fneg v) (fneg v')); [exact H|apply ci_neg, H']. Qed.
Lemma R_pow u v k : R u v -> R (fpow u k) (fpow v k). Proof. apply ci_pow. Qed.
Let Q2 : 2 <= q := prime_ge_2 q Pq.
Definition cl (p : poly) (f : fsum) : Prop := good p /\ R p f.
Lemma cl_cong p f g : cl p f -> R f g -> cl p g.
Proof. intros (G & D) D'. split; [exact G|]. rewrite D. exact D'. Qed.
Lemma cl_self p : good p -> cl p p.
Proof. intros G. split; [exact G|reflexivity]. Qed.
Lemma cl_mul u v w s t : p_mul u v = Ok w -> cl u s -> cl v t -> cl w (conv s t).
Proof. intros H (G1 & D1) (G2 & D2). split; [exact (good_mul 0 0 _ _ _ H G1 G2)|]. rewrite (p_mul_feq _ _ _ H), D1, D2. reflexivity. Qed.
Lemma cl_sub u v s t : cl u s -> cl v t -> cl (p_sub u v) (fsub s t).
Proof.
  intros ((S1 & K1) & D1) ((S2 & K2) & D2). split; [split; [apply p_sub_sorted, S1|apply p_sub_keys; assumption]|]. rewrite (p_sub_feq u v S1 S2), D1, D2. reflexivity.
Qed.
Lemma cl_add u v s t : cl u s -> cl v t -> cl (p_add u v) (fadd s t).
Proof. intros ((S1 & K1) & D1) ((S2 & K2) & D2). split; [split; [apply p_add_sorted, S1|apply p_add_keys; assumption]|]. rewrite (p_add_feq u v S1), D1, D2. reflexivity. Qed.
Lemma cl_neg u s : cl u s -> cl (p_neg u) (fneg s).
Proof. intros ((S1 & K1) & D1). rewrite (p_neg_eq u S1). split; [split; [apply fneg_sorted, S1|apply fneg_keys, K1]|]. rewrite D1. reflexivity. Qed.
Lemma cl_pow u k w s : p_power_i32 u k = Ok w -> cl u s -> cl w (fpow s (Z.to_nat k)).
Proof.
  unfold p_power_i32. intros H ((S1 & K1) & D1). destruct (p_power_spec u k w S1 H) as (Hk & Sw & F). split; [split; [exact Sw|]|].
  - refine (p_power_keys gk u k w (gk_one 0 0) _ K1 H). exact (gk_mmul 0 0).
  - rewrite F. apply R_pow, D1.
Qed.
Lemma cl_redp u s : cl u s -> cl (redp q u) s.
Proof. intros ((S1 & K1) & D1). split; [split; [apply redp_sorted, S1|apply redp_keys, K1]|]. rewrite (redp_feqm q u ltac:(lia) S1). exact D1. Qed.
Lemma cl_modular u w s : modular_assign u q = Ok w -> cl u s -> cl w s.
Proof. intros H V. rewrite modular_assign_eq in H by (try lia; apply V). assert (redp q u = w) as <- by congruence. apply cl_redp, V. Qed.
Lemma cl_rem u w s : p_rem_i32 u q = Ok w -> cl u s -> cl w s.
Proof. unfold p_rem_i32. intros H V. rewrite p_rem_eq in H by (try lia; apply V). assert (redp q u = w) as <- by congruence. apply cl_redp, V. Qed.
Lemma cl_t_mul t u w s : t_mul_p t u = Ok w -> gk (tm t) -> cl u s -> cl w (conv [(tm t, tc t)] s).
Proof. unfold t_mul_p. intros H G V. apply (cl_mul _ _ _ _ _ H); [|exact V]. split; [split; [apply to_pol_sorted|apply to_pol_keys, G]|]. rewrite (to_pol_feq t). reflexivity. Qed.
(** Frobenius is applied to explicit polynomials only. *)
Lemma good_frob u w : to_frob u q = Ok w -> good u -> good w /\ feq w (fmap (frob q) u).
Proof.
  intros H (S1 & K1). destruct (to_frob_inv u q w S1 ltac:(lia) H) as (Sw & Mw). split; [|exact (to_frob_Ok u q w S1 ltac:(lia) H)]. split; [exact Sw|].
  intros m c I. apply Mw, fmap_in in I as (m' & I & ->). destruct (K1 _ _ I) as (A & B & C0 & D').
  assert (RR: forall m c, In (m, c) u -> i32_range (mx m * q) /\ i32_range (my m * q)).
  { refine (sub_inv (fun e => term_to_frob (mkTerm (snd e) (fst e)) q) (frob q) _ _ u _ _ H).
    intros m c0 t E. unfold term_to_frob in E. cbn [tm tc fst snd] in E. apply bind_Ok in E. destruct E as (x' & Ex & E). apply bind_Ok in E. destruct E as (y' & Ey & _).
    apply i32_inv in Ex. apply i32_inv in Ey. unfold i32_range. tauto. }
  destruct (RR _ _ I) as (R1 & R2). unfold i32_range in R1, R2. unfold gk, frob; cbn [mx my mq mv]. split; [nia|]. split; [nia|]. split; assumption.
Qed.
Lemma cl_frob u w : to_frob u q = Ok w -> good u -> cl w (fmap (frob q) u).
Proof. intros H G. destruct (good_frob u w H G) as (Gw & F). split; [exact Gw|]. apply R_feq, F. Qed.
(** reduction_modular. *)
Lemma cl_weier : cl (weierstrass a b) (fmono 1 0 2 0).
Proof. split; [exact (weier_good a b 0 0)|]. rewrite (weierstrass_feq a b). apply R_equiv. exists (fconst 1). rewrite (feq_feqm q _ _ (conv_comm (fcurve a b) (fconst 1))). apply feq_feqm.
  intros m. unfold fadd. rewrite coef_app, fconst_scale. unfold fcurve, fmono. cbn [coef]. rewrite coef_neg. ring_simplify. destruct (mono_eqb _ m); ring. Qed.
Lemma fpow_ymono e k : feq (fpow (fmono 1 0 e 0) k) (fmono 1 0 (e * Z.of_nat k) 0).
Proof.
  induction k as [|k IH]; [rewrite Z.mul_0_r; reflexivity|]. cbn [fpow]. rewrite IH. apply eq_subrelation; [typeclasses eauto|]. unfold fmono, conv. cbn [flat_map map app fst snd]. unfold mmul. cbn [mx my mq mv vmul].
  replace (0 + 0) with 0 by ring. replace (1 * 1) with 1 by ring. replace (e + e * Z.of_nat k) with (e * Z.of_nat (S k)) by lia. reflexivity.
Qed.
Lemma weier_pow k ee : 1 <= k -> p_power_modulo (weierstrass a b) k q = Ok ee -> cl ee (fmono 1 0 (2 * k) 0) /\ keysP gk0 ee.
Proof.
  intros Hk H. destruct (p_power_modulo_spec (weierstrass a b) k q ee ltac:(lia) Hk (weierstrass_sorted a b) H) as (See & _ & F).
  assert (K : keysP gk0 ee).
  { unfold p_power_modulo in H. destruct (0 <=? k) eqn:E; [|lia]. cbn [assertb bind] in H. rewrite p_rem_eq in H by (try lia; apply weierstrass_sorted). cbn [bind] in H.
    refine (power_modulo_loop_keys gk0 q _ ltac:(lia) (gk0_mmul 0 0) _ _ _ _ _ _ _ H); [apply redp_sorted, weierstrass_sorted| |].
    - apply redp_keys. apply weierstrass_keys; unfold gk0, gk, mone, i32_max; cbn; repeat split; lia.
    - intros m c [E1|[]]. injection E1; intros; subst. split; [exact (gk_one 0 0)|reflexivity]. }
  split; [|exact K]. split; [split; [exact See|intros m c I; apply (K m c I)]|]. rewrite F. rewrite (R_pow _ _ (Z.to_nat k) (proj2 cl_weier)). rewrite fpow_ymono, Z2Nat.id by lia. reflexivity.
Qed.
Definition yl (m : mono) : Prop := gk m /\ my m <= 1.
Lemma red_bodyc t m c t' s : gk m -> cl t s -> keysP yl t -> red_mod_body 1 a b q t (m, c) = Ok t' -> cl t' (fadd s [(m, c)]) /\ keysP yl t'.
Proof.
  intros G V YT E. unfold red_mod_body in E. cbn [fst snd tm tc] in E. destruct G as (Gx & Gy & Gq & Gv). destruct (2 <=? my m) eqn:E2.
  - rewrite i32_prod2 in E by lia. cbn [bind] in E. rewrite p_div_ypow in E; cbn [tm tc] in *; try (unfold i32_range, i32_min, i32_max in *; lia).
    2:{ pose proof (Z.mod_pos_bound (my m) 2 ltac:(lia)). replace (my m - my m / 2 * 2) with (my m mod 2) by (rewrite Z.mod_eq by lia; ring). unfold i32_range, i32_min, i32_max in *; lia. }
    cbn [bind] in E. apply bind_Ok in E. destruct E as (ee & He & E). apply bind_Ok in E. destruct E as (ee' & He' & E). apply bind_Ok in E. destruct E as (e' & Hm & E).
    assert (p_add_assign t e' = t') as <- by congruence. clear E. assert (Hk: 1 <= my m / 2) by (apply Z.div_le_lower_bound; lia).
    destruct (weier_pow _ _ Hk He) as (Ve & Ke). rewrite reduction_modular_noy in He'; [|lia|apply Ve|intros k d I; destruct (Ke k d I) as (_ & Y0); unfold ylow; lia].
    assert (redp q ee = ee') as <- by congruence. apply cl_redp in Ve. apply (redp_keys gk0 q) in Ke.
    change (p_add_assign t e') with (p_add t e'). unfold p_mul_assign in Hm. pose proof (Z.mod_pos_bound (my m) 2 ltac:(lia)) as MB.
    assert (Ey : my m - my m / 2 * 2 = my m mod 2) by (rewrite Z.mod_eq by lia; ring). rewrite Ey in Hm.
    match type of Hm with p_mul ?u _ = _ => assert (Vu : cl u [(set_y (my m mod 2) m, c)]) end.
    { split; [split; [apply to_pol_sorted|apply to_pol_keys]|]; cbn [tm tc].
      - unfold gk, set_y; cbn [mx my mq mv]. split; [lia|]; split; [unfold i32_max; lia|]; split; assumption.
      - rewrite (to_pol_feq _). cbn [tm tc]. reflexivity. }
    pose proof (cl_mul _ _ _ _ _ Hm Vu Ve) as Vp. split.
    + apply cl_add; [exact V|]. apply (cl_cong _ _ _ Vp). apply R_feq. apply eq_subrelation; [typeclasses eauto|]. unfold fmono, conv. cbn [flat_map map app fst snd]. destruct m as [x y z v]. cbn [mx my mq mv set_y] in *. subst z v. unfold set_y, mmul; cbn [mx my mq mv vmul].
      rewrite Z.mul_1_r, !Z.add_0_r. do 3 f_equal. rewrite (Z.div_mod y 2) at 3 by lia. lia.
    + apply p_add_keys; [apply V|exact YT|]. apply (p_mul_keys (fun k => my k <= 1 /\ gk k) gk0 yl _ _ _ Hm).
      * apply to_pol_keys. cbn [tm]. unfold gk, set_y; cbn [mx my mq mv]. split; [lia|]. split; [lia|]; split; [unfold i32_max; lia|]; split; assumption.
      * exact Ke.
      * intros m1 m2 (Y1 & G1) (G2 & Y2) M. split; [apply (gk_mmul 0 0); assumption|]. unfold mmul; cbn [my]. lia.
  - assert (p_add_assign_t t (mkTerm c m) = t') as <- by congruence. destruct V as ((S1 & K1) & D1). destruct (p_add_assign_t_feq t (mkTerm c m) S1) as (S2 & F2).
    assert (Gm : gk m) by (unfold gk; auto).
    split; [split; [split; [exact S2|]|]|].
    + rewrite p_add_assign_t_eq. apply add_entry_keys; auto.
    + rewrite F2. cbn [tm tc]. rewrite D1. reflexivity.
    + rewrite p_add_assign_t_eq. apply add_entry_keys; auto. cbn. split; [exact Gm|lia].
Qed.
Lemma red_foldc u : keysP gk u -> forall t t' s, cl t s -> keysP yl t -> foldM (red_mod_body 1 a b q) u t = Ok t' -> cl t' (fadd s u) /\ keysP yl t'.
Proof.
  induction u as [|[m c] u IH]; intros K t t' s V Y H; cbn [foldM] in *.
  - assert (t = t') as <- by congruence. split; [|exact Y]. apply (cl_cong _ _ _ V). apply R_feq. unfold fadd. rewrite app_nil_r. reflexivity.
  - apply bind_Ok in H. destruct H as (t1 & E1 & H). destruct (red_bodyc t m c t1 s (K m c (or_introl eq_refl)) V Y E1) as (V1 & Y1).
    destruct (IH (fun k d I => K k d (or_intror I)) t1 t' _ V1 Y1 H) as (V2 & Y2). split; [|exact Y2]. apply (cl_cong _ _ _ V2). apply R_feq. unfold fadd. rewrite <- app_assoc. reflexivity.
Qed.
Lemma cl_redmod u w s : reduction_modular u a b q = Ok w -> cl u s -> cl w s /\ keysP yl w.
Proof.
  unfold reduction_modular. rewrite reduction_modular_depth_S. intros H ((S1 & K1) & D1). apply bind_Ok in H. destruct H as (t & E1 & H).
  assert (V0 : cl p_new []) by (apply cl_self; split; [exact I|intros ? ? []]).
  destruct (red_foldc u K1 p_new t [] V0 ltac:(intros ? ? []) E1) as (V & Y). split.
  - apply (cl_modular _ _ _ H). apply (cl_cong _ _ _ V). cbn [fadd app]. exact D1.
  - rewrite modular_assign_eq in H by (try lia; apply V). assert (redp q t = w) as <- by congruence. apply redp_keys, Y.
Qed.
End Id.
