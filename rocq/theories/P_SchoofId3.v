(** The stages of schoof for an odd prime l, characterised exactly. *)
From Coq Require Import Znumtheory ZifyBool Setoid Morphisms Ring.
From Verif Require Import Prelude M_Bigint M_Variable M_Term M_Poly M_DivPoly M_Schoof Spec P_Bigint P_Variable P_FSum P_Poly P_Rem P_PolyProps P_Subst P_Subst2 P_Subst3 P_SubstProps P_DivPoly P_DivPoly5 P_DivProps P_Binom P_NormalProps P_Mod P_Gcd P_MulProps P_SchoofVal P_XQuotProps SpecSchoof P_SchoofId P_SchoofId2.
Open Scope Z_scope.

Section Stages.
Variables (a b q : Z).
Hypothesis Pq : prime q.
Variable q2' : Z.
Hypothesis Hq2 : q2' = q ^ 2 /\ 0 <= q2' <= i32_max.
Notation R := (cong_ideal q (fcurve a b)).
Notation CL := (cl a b q).
Let Q2 : 2 <= q := prime_ge_2 q Pq.
Lemma q_small : q <= i32_max.
Proof. destruct Hq2 as (E & B). pose proof Q2. rewrite E in B. nia. Qed.
Lemma gkx n : 0 <= n <= i32_max -> gk (mkMono n 0 0 None).
Proof. intros H. unfold gk; cbn [mx my mq mv]. unfold i32_max in *. repeat split; lia. Qed.
Lemma gky n : 0 <= n <= i32_max -> gk (mkMono 0 n 0 None).
Proof. intros H. unfold gk; cbn [mx my mq mv]. unfold i32_max in *. repeat split; lia. Qed.
Lemma cl_feq p f g : CL p f -> feq f g -> CL p g.
Proof. intros V E. apply (cl_cong a b q _ _ _ V). apply feqm_cong, feq_feqm, E. Qed.
Lemma cl_tx n u w s : 0 <= n <= i32_max -> t_mul_p (tx n) u = Ok w -> CL u s -> CL w (conv (xpow n) s).
Proof. intros Hn H V. exact (cl_t_mul a b q (tx n) u w s H (gkx n Hn) V). Qed.
Lemma cl_ty n u w s : 0 <= n <= i32_max -> t_mul_p (ty n) u = Ok w -> CL u s -> CL w (conv (ypow n) s).
Proof. intros Hn H V. exact (cl_t_mul a b q (ty n) u w s H (gky n Hn) V). Qed.
Lemma cl_tx2 n u w s : 0 <= n <= i32_max -> t_mul_p (tb_build (tb_xpow n (tb_coef 2 tb_new))) u = Ok w -> CL u s -> CL w (conv (fconst 2) (conv (xpow n) s)).
Proof.
  intros Hn H V. pose proof (cl_t_mul a b q _ u w s H (gkx n Hn) V) as W. apply (cl_feq _ _ _ W). cbn [tb_build tb_coef tb_xpow tb_new b_coef b_x b_y b_q b_v tc tm].
  transitivity (conv (conv (fconst 2) (xpow n)) s); [|symmetry; apply conv_assoc]. apply eq_subrelation; [typeclasses eauto|]. f_equal.
Qed.
Lemma psi_cl n r : 0 <= n <= 5 -> psi a b n = Ok r -> CL r r.
Proof. intros Hn E. apply cl_self. exact (psi_small a b 0 0 n r Hn E). Qed.
Lemma phi_cl n r : 1 <= n <= 5 -> phi a b n = Ok r -> CL r r.
Proof. intros Hn E. apply cl_self. exact (phi_small a b 0 0 n r Hn E). Qed.
Lemma omega_cl n r : 1 <= n <= 5 -> omega a b n = Ok r -> CL r r.
Proof. intros Hn E. apply cl_self. exact (omega_small a b 0 0 n r Hn E). Qed.
Ltac bd H z Hz := apply bind_Ok in H; destruct H as (z & Hz & H).
(** Stage 1. *)
Lemma num1_den1_id ql ps ph om num1 den1 : 1 <= ql <= 5 -> psi a b ql = Ok ps -> phi a b ql = Ok ph -> omega a b ql = Ok om ->
  schoof_num1_den1 a b q ql q2' = Ok (num1, den1) -> CL num1 (sum_xnum q ps ph om) /\ CL den1 (sum_xden q ps ph).
Proof.
  intros Hl E1 E2 E3 H. pose proof (psi_cl ql ps ltac:(lia) E1) as Vs. pose proof (phi_cl ql ph ltac:(lia) E2) as Vf. pose proof (omega_cl ql om ltac:(lia) E3) as Vw.
  unfold schoof_num1_den1, psi_pow in H. rewrite E1, E2, E3 in H. cbn [bind] in H. destruct Hq2 as (Eq & B2).
  bd H nn1 H1. bd H ps3 H2. bd H nn2 H3. bd H nn2' H4. bd H n1 H5. bd H n1' H6. bd H ps2 H7. bd H xps2 H8. cbv zeta in H. bd H n3 H9. bd H n23 H10. bd H m1 H11. bd H m2 H12. bd H e1 H13. bd H e2 H14.
  assert (m2 = num1) as -> by congruence. assert (e2 = den1) as -> by congruence. clear H.
  pose proof (proj1 (cl_redmod a b q Pq _ _ _ H1 Vw)) as V1. pose proof (cl_pow a b q _ _ _ _ H2 Vs) as V2. pose proof (cl_ty _ _ _ _ B2 H3 V2) as V3. pose proof (proj1 (cl_redmod a b q Pq _ _ _ H4 V3)) as V4.
  pose proof (cl_pow a b q _ _ _ _ H5 (cl_sub a b q _ _ _ _ V1 V4)) as V5. pose proof (cl_modular a b q Pq _ _ _ H6 V5) as V6. pose proof (cl_pow a b q _ _ _ _ H7 Vs) as V7. pose proof (cl_tx _ _ _ _ B2 H8 V7) as V8.
  pose proof (cl_pow a b q _ _ _ _ H9 (cl_sub a b q _ _ _ _ Vf V8)) as V9. pose proof (cl_mul a b q _ _ _ _ _ H10 (cl_neg a b q _ _ (cl_add a b q _ _ _ _ Vf V8)) V9) as V10.
  pose proof (cl_modular a b q Pq _ _ _ H11 (cl_add a b q _ _ _ _ V6 V10)) as V11. pose proof (proj1 (cl_redmod a b q Pq _ _ _ H12 V11)) as V12. pose proof (cl_mul a b q _ _ _ _ _ H13 V7 V9) as V13. pose proof (proj1 (cl_redmod a b q Pq _ _ _ H14 V13)) as V14.
  change (Z.to_nat 3) with 3%nat in *. change (Z.to_nat 2) with 2%nat in *. rewrite Eq in V12, V14. split; [|exact V14]. apply (cl_feq _ _ _ V12). unfold sum_xnum, chord_D, chord_F. generalize (fpow ps 3), (fpow ps 2), (xpow (q ^ 2)), (ypow (q ^ 2)). intros z3 z2 zx zy.
  generalize (fpow (fsub om (conv zy z3)) 2), (fpow (fsub ph (conv zx z2)) 2). intros g h. ring.
Qed.
(** Stage 2. *)
Lemma pm_final fuel u d w w' : sorted d -> only_x d -> CL u u -> polynomial_modular fuel u d q = Ok w -> modular_assign w q = Ok w' -> w' = w.
Proof.
  intros Sd Od ((Su & Ku) & _) H H'. destruct (pm_spec fuel u d q w ltac:(pose proof Q2; lia) Su Sd H) as (Sw & Rw & _).
  rewrite modular_assign_eq in H' by (pose proof Q2; try lia; exact Sw). rewrite redp_id in H' by (try (pose proof Q2; lia); assumption). congruence.
Qed.
Lemma pm_final' fuel u d w w' f : sorted d -> only_x d -> CL u f -> polynomial_modular fuel u d q = Ok w -> modular_assign w q = Ok w' -> w' = w.
Proof. intros Sd Od (G & _). apply pm_final; try assumption. apply cl_self, G. Qed.
Definition xm (d N D : fsum) (j : Z) : Prop := exists psj phj, psi a b j = Ok psj /\ phi a b j = Ok phj /\
  multiple q a b d (fsub (conv N (fpow (fmap (frob q) psj) 2)) (conv (fmap (frob q) phj) D)).
Lemma find_j_id fuel num1 den1 psi_l N D : sorted psi_l -> only_x psi_l -> 1 <= mx (tm (highest_term_x psi_l)) -> ~ (q | tc (highest_term_x psi_l)) -> CL num1 N -> CL den1 D ->
  forall js r, (forall k, In k js -> 1 <= k <= 5) -> schoof_find_j fuel a b q num1 den1 psi_l js = Ok r ->
  match r with
  | Some j => exists js1 js2, js = js1 ++ j :: js2 /\ xm psi_l N D j /\ forall k, In k js1 -> ~ xm psi_l N D k
  | None => forall k, In k js -> ~ xm psi_l N D k
  end.
Proof.
  intros Sl Ol HD HL Vn Vd. induction js as [|k js IH]; intros r Hj H; cbn [schoof_find_j] in H; [assert (r = None) as -> by congruence; intros ? []|].
  bd H num2 H1. bd H num2' H2. bd H num3 H3. bd H den2 H4. bd H den2' H5. bd H den3 H6. bd H u H7. bd H v H8. bd H p1 H9. bd H p2 H10. bd H p3 H11. bd H p4 H12.
  assert (Hk : 1 <= k <= 5) by (apply Hj; left; reflexivity).
  pose proof (phi_small a b 0 0 k num2 Hk H1) as G1. pose proof (psi_small a b 0 0 k den2 ltac:(lia) H4) as G4.
  pose proof (proj1 (cl_redmod a b q Pq _ _ _ H3 (cl_frob a b q Pq _ _ H2 G1))) as V3. pose proof (cl_pow a b q _ _ _ _ H6 (cl_frob a b q Pq _ _ H5 G4)) as V6.
  pose proof (cl_mul a b q _ _ _ _ _ H7 Vn V6) as V7. pose proof (cl_mul a b q _ _ _ _ _ H8 V3 Vd) as V8. destruct (cl_redmod a b q Pq _ _ _ H10 (cl_modular a b q Pq _ _ _ H9 (cl_sub a b q _ _ _ _ V7 V8))) as (V10 & Y10).
  pose proof (pm_final' _ _ _ _ _ _ Sl Ol V10 H11 H12). subst p4. change (Z.to_nat 2) with 2%nat in V10.
  pose proof (cl_pm a b q Pq fuel p2 psi_l p3 _ Sl Ol HD HL V10 Y10 H11) as DEC.
  assert (XM : xm psi_l N D k <-> is_zero p3 = true).
  { rewrite DEC. split; [intros (psj & phj & E1 & E2 & M)|intros M; exists den2, num2; auto]. assert (psj = den2) as -> by congruence. assert (phj = num2) as -> by congruence. exact M. }
  destruct (is_zero p3) eqn:Z0.
  - assert (r = Some k) as -> by congruence. exists [], js. split; [reflexivity|]. split; [apply XM; reflexivity|intros ? []].
  - specialize (IH r (fun k' I => Hj k' (or_intror I)) H). assert (NX : ~ xm psi_l N D k) by (intros X; apply XM in X; discriminate). destruct r as [j|].
    + destruct IH as (js1 & js2 & -> & X & L). exists (k :: js1), js2. split; [reflexivity|]. split; [exact X|]. intros k' [<-|I]; [exact NX|exact (L k' I)].
    + intros k' [<-|I]; [exact NX|exact (IH k' I)].
Qed.
(** Stage 3. *)
Lemma found_id fuel l ql psi_l jj m ps ph om psj omj : 1 <= ql <= 5 -> 1 <= jj <= 5 -> jj < l ->
  sorted psi_l -> only_x psi_l -> 1 <= mx (tm (highest_term_x psi_l)) -> ~ (q | tc (highest_term_x psi_l)) ->
  psi a b ql = Ok ps -> phi a b ql = Ok ph -> omega a b ql = Ok om -> psi a b jj = Ok psj -> omega a b jj = Ok omj ->
  schoof_found fuel a b q l ql q2' psi_l jj = Ok m ->
  (m = mkMod l jj /\ y_match (-1) a b q psi_l ps ph om psj omj) \/ (m = mkMod l (l - jj) /\ ~ y_match (-1) a b q psi_l ps ph om psj omj).
Proof.
  intros Hl Hj Hjl Sl Ol HD HL E1 E2 E3 E4 E5 H. pose proof (psi_cl ql ps ltac:(lia) E1) as Vs. pose proof (phi_cl ql ph ltac:(lia) E2) as Vf. pose proof (omega_cl ql om ltac:(lia) E3) as Vw.
  unfold schoof_found, psi_pow in H. rewrite E1, E2, E3, E4, E5 in H. cbn [bind] in H. destruct Hq2 as (Eq & B2).
  bd H g H1. bd H omg H2. bd H ps3 H3. bd H gps3 H4. bd H d H5. bd H ps2 H6. bd H x2ps2 H7. bd H e H8. bd H e' H9. bd H xps2 H10. bd H f1 H11. bd H f1' H12. bd H f2 H13. bd H ef2 H14. bd H d2 H15. bd H dd H16. bd H f3 H17. bd H gps3f3 H18. bd H num3 H19.
  bd H num3' H20. bd H num3'' H21. bd H den3 H22. bd H den3' H23. bd H den3'' H24. bd H num4' H26. bd H num4'' H27. bd H den4' H29. bd H den4'' H30. bd H den5 H31. bd H u H32. bd H v H33. bd H p7 H34. bd H p8 H35. bd H p9 H36. bd H p9' H37. bd H p9'' H38.
  assert (VY : CL (to_pol (ty q2')) (ypow q2')).
  { split; [split; [apply to_pol_sorted|apply to_pol_keys, gky, B2]|]. apply feqm_cong, feq_feqm. exact (to_pol_feq (ty q2')). }
  pose proof (proj1 (cl_redmod a b q Pq _ _ _ H1 VY)) as V1. pose proof (cl_modular a b q Pq _ _ _ H2 Vw) as V2. pose proof (cl_pow a b q _ _ _ _ H3 Vs) as V3. pose proof (cl_mul a b q _ _ _ _ _ H4 V1 V3) as V4.
  pose proof (proj1 (cl_redmod a b q Pq _ _ _ H5 (cl_sub a b q _ _ _ _ V2 V4))) as V5. pose proof (cl_pow a b q _ _ _ _ H6 Vs) as V6. pose proof (cl_tx2 _ _ _ _ B2 H7 V6) as V7.
  pose proof (proj1 (cl_redmod a b q Pq _ _ _ H9 (cl_modular a b q Pq _ _ _ H8 (cl_add a b q _ _ _ _ (cl_neg a b q _ _ Vf) V7)))) as V9.
  pose proof (cl_tx _ _ _ _ B2 H10 V6) as V10. pose proof (proj1 (cl_redmod a b q Pq _ _ _ H12 (cl_modular a b q Pq _ _ _ H11 (cl_sub a b q _ _ _ _ Vf V10)))) as V12. pose proof (cl_pow a b q _ _ _ _ H13 V12) as V13. pose proof (cl_mul a b q _ _ _ _ _ H14 V9 V13) as V14.
  pose proof (cl_pow a b q _ _ _ _ H15 V5) as V15. pose proof (cl_mul a b q _ _ _ _ _ H16 V5 (cl_sub a b q _ _ _ _ V14 V15)) as V16. pose proof (cl_pow a b q _ _ _ _ H17 V12) as V17. pose proof (cl_mul a b q _ _ _ _ _ H18 V4 V17) as V18.
  pose proof (proj1 (cl_redmod a b q Pq _ _ _ H19 (cl_sub a b q _ _ _ _ V16 V18))) as V19. unfold p_mul_assign in H20. pose proof (proj1 (cl_redmod a b q Pq _ _ _ H21 (cl_mul a b q _ _ _ _ _ H20 V19 Vs))) as V21.
  pose proof (cl_mul a b q _ _ _ _ _ H22 V3 V17) as V22. pose proof (proj1 (cl_redmod a b q Pq _ _ _ H24 (cl_mul a b q _ _ _ _ _ H23 V22 Vs))) as V24.
  pose proof (proj1 (cl_redmod a b q Pq _ _ _ H27 (cl_frob a b q Pq _ _ H26 (omega_small a b 0 0 jj omj Hj E5)))) as V27.
  pose proof (proj1 (cl_redmod a b q Pq _ _ _ H31 (cl_pow a b q _ _ _ _ H30 (cl_frob a b q Pq _ _ H29 (psi_small a b 0 0 jj psj ltac:(lia) E4))))) as V31. pose proof (cl_mul a b q _ _ _ _ _ H32 V21 V31) as V32. pose proof (cl_mul a b q _ _ _ _ _ H33 V27 V24) as V33.
  destruct (cl_redmod a b q Pq _ _ _ H35 (cl_modular a b q Pq _ _ _ H34 (cl_sub a b q _ _ _ _ V32 V33))) as (V35 & Y35).
  assert (VM : CL p8 (conv ps (fsub (conv (sum_ynum (-1) q ps ph om) (fpow (fmap (frob q) psj) 3)) (conv (fmap (frob q) omj) (sum_yden q ps ph))))).
  { apply (cl_feq _ _ _ V35). clear - Eq. change (Z.to_nat 3) with 3%nat. change (Z.to_nat 2) with 2%nat. unfold sum_ynum, sum_yden, chord_D, chord_F. rewrite Eq. generalize (fpow ps 3), (fpow ps 2), (xpow (q ^ 2)), (ypow (q ^ 2)). intros z3 z2 zx zy.
    generalize (fpow (fmap (frob q) psj) 3), (fmap (frob q) omj). intros h3 h4. change (fconst (-1)) with (fneg (fconst 1)).
    generalize (fpow (fsub om (conv zy z3)) 2), (fpow (fsub ph (conv zx z2)) 2), (fpow (fsub ph (conv zx z2)) 3), (fconst 2). intros k1 k2 k3 two. ring. }
  assert (DEC : is_zero p9'' = true <-> y_match (-1) a b q psi_l ps ph om psj omj).
  { unfold y_match. destruct (has_y p8).
    - exact (cl_pm_y a b q Pq fuel p8 psi_l p9 p9' p9'' _ Sl Ol HD HL VM Y35 H36 H37 H38).
    - assert (p9 = p8) as -> by congruence. pose proof (cl_modular a b q Pq _ _ _ H37 VM) as V37. assert (Y37 : keysP yl p9').
      { rewrite modular_assign_eq in H37 by (pose proof Q2; try lia; apply VM). assert (redp q p8 = p9') as <- by congruence. apply redp_keys, Y35. }
      exact (cl_pm a b q Pq fuel p9' psi_l p9'' _ Sl Ol HD HL V37 Y37 H38). }
  cbv zeta in H. destruct (is_zero p9'') eqn:Z0; cbn [negb] in H.
  - replace (jj <? 0) with false in H by lia. left. split; [congruence|apply DEC; reflexivity].
  - replace (- jj <? 0) with true in H by lia. right. split; [replace (l - jj) with (- jj + l) by ring; congruence|]. intros Y. apply DEC in Y. discriminate.
Qed.
(** Stage 4. *)
Lemma find_w_id l ql : forall is_, match find_w l ql is_ with
  | Some w => exists i1 i2, is_ = i1 ++ w :: i2 /\ (w * w) mod l = ql /\ forall i, In i i1 -> (i * i) mod l <> ql
  | None => forall i, In i is_ -> (i * i) mod l <> ql end.
Proof.
  induction is_ as [|i r IH]; cbn [find_w]; [intros ? []|]. destruct ((i * i) mod l =? ql) eqn:E.
  - exists [], r. split; [reflexivity|]. split; [lia|intros ? []].
  - destruct (find_w l ql r) as [w|].
    + destruct IH as (i1 & i2 & -> & X & L). exists (i :: i1), i2. split; [reflexivity|]. split; [exact X|]. intros k [<-|I]; [lia|exact (L k I)].
    + intros k [<-|I]; [lia|exact (IH k I)].
Qed.
Lemma not_found_id fuel l ql m psd : l = 3 \/ l = 5 -> l < q -> psi q b l = Ok psd -> schoof_not_found fuel a b q l ql = Ok m ->
  match find_w l ql (zrange 1 l) with
  | None => m = mkMod l 0
  | Some w => exists psw phw, psi a b w = Ok psw /\ phi a b w = Ok phw /\
      ((m = mkMod l 0 /\ ~ w_match a b q psd psw phw) \/ ((m = mkMod l (2 * w) \/ m = mkMod l (l - 2 * w)) /\ w_match a b q psd psw phw))
  end.
Proof.
  intros Hl Hlq Ed H. unfold schoof_not_found in H. pose proof (find_w_id l ql (zrange 1 l)) as FW. destruct (find_w l ql (zrange 1 l)) as [w|]; [|congruence].
  destruct FW as (i1 & i2 & EW & Rw & Lw). assert (Hw : 1 <= w < l) by (apply in_zrange; rewrite EW; apply in_app_iff; right; left; reflexivity).
  unfold psi_pow in H. bd H ps2 H1. bd H1 psw H0. bd H xps2 H2. bd H phw H3. bd H p12 H4. bd H p13 H5. bd H p14 H6. bd H p14' H7. bd H p15 H8.
  exists psw, phw. split; [exact H0|]. split; [exact H3|]. assert (p14 = psd) as -> by congruence. pose proof q_small as QS. pose proof Q2 as Q2'.
  pose proof (cl_tx q _ _ _ ltac:(lia) H2 (cl_pow a b q _ _ _ _ H1 (psi_cl w psw ltac:(lia) H0))) as V2. pose proof (phi_cl w phw ltac:(lia) H3) as V3.
  destruct (cl_redmod a b q Pq _ _ _ H5 (cl_modular a b q Pq _ _ _ H4 (cl_sub a b q _ _ _ _ V2 V3))) as (V5 & Y5).
  destruct (psi_div a b q Pq q l psd p14' Hl Hlq Ed H7) as (Sl & Ol & HD & HL & CR).
  pose proof (cl_pm a b q Pq fuel p13 p14' p15 _ Sl Ol HD HL V5 Y5 H8) as DEC. rewrite (multiple_div a b q _ _ _ CR) in DEC. change (Z.to_nat 2) with 2%nat in DEC. fold (w_match a b q psd psw phw) in DEC.
  destruct (is_zero p15) eqn:Z0; cbn [negb] in H.
  - right. split; [|apply DEC; reflexivity]. bd H aa Ha. bd H ps3 Hp3. bd H yps3 Hy. bd H om Ho. bd H p16 H9. bd H p16' H10. bd H p17 H11. bd H psl H12. bd H g1 H13. cbv zeta in H.
    destruct g1.
    + right. replace (-2 * w <? 0) with true in H by lia. replace (l - 2 * w) with (-2 * w + l) by ring. congruence.
    + left. replace (2 * w <? 0) with false in H by lia. congruence.
  - left. split; [congruence|]. intros W. apply DEC in W. discriminate.
Qed.
Lemma psi_ok n : 0 <= n <= 65536 -> exists r, psi a b n = Ok r.
Proof.
  intros Hn. destruct (Z.odd n) eqn:O; [destruct (c48_psi_odd a b n Hn O) as (r & E & _)|destruct (c48_psi_even a b n Hn O) as (r & ? & E & _)]; exists r; exact E.
Qed.
End Stages.
