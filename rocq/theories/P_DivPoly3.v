(** Division polynomials: the four cases of the recursion. *)
From Coq Require Import Znumtheory ZifyBool Setoid Morphisms Ring.
From Verif Require Import Prelude M_Bigint M_Variable M_Term M_Poly M_DivPoly Spec P_Bigint P_Variable P_FSum P_Poly P_Rem P_PolyProps P_Subst P_Subst2 P_SubstProps P_DivPoly P_DivPoly2.
Open Scope Z_scope.

Definition X (k : Z) : mono := mkMono k 0 0 None.
Lemma X_delta B1 B2 m1 m2 : ykey 0 B1 m1 -> ykey 0 B2 m2 -> delta (X (B1 + B2)) (mmul m1 m2) = delta (X B1) m1 * delta (X B2) m2.
Proof.
  unfold ykey, delta, X, mmul, mono_eqb. destruct m1 as [x1 y1 q1 v1], m2 as [x2 y2 q2 v2]. cbn [mx my mq mv].
  intros (A1 & -> & -> & ->) (C1 & -> & -> & ->). cbn [vmul var_eqb]. change (0 =? 0) with true. change (0 + 0 =? 0) with true. rewrite !andb_true_r.
  destruct (x1 =? B1) eqn:E1, (x2 =? B2) eqn:E2; destruct (x1 + x2 =? B1 + B2) eqn:E3; try reflexivity; lia.
Qed.
Lemma top_conv B1 B2 f g : keysP (ykey 0 B1) f -> keysP (ykey 0 B2) g -> coef (conv f g) (X (B1 + B2)) = coef f (X B1) * coef g (X B2).
Proof.
  intros Hf Hg. rewrite !coef_lin, lin_conv, <- lin_scale_r. apply lin_ext_in. intros m1 c1 H1.
  rewrite <- lin_scale. apply lin_ext_in. intros m2 c2 H2. apply X_delta; [eapply Hf; exact H1|eapply Hg; exact H2].
Qed.
Lemma top_sub B f g : coef (fsub f g) (X B) = coef f (X B) - coef g (X B).
Proof. unfold fsub. rewrite coef_app, coef_neg. ring. Qed.
Lemma ykeys_const B c : 0 <= B -> keysP (ykey 0 B) (fconst c).
Proof. intros H m d [E|[]]. injection E; intros; subst. unfold ykey. cbn. repeat split; lia. Qed.
Lemma coef_const c : coef (fconst c) (X 0) = c.
Proof. cbn. ring. Qed.
Lemma ykeys_scale B c f : keysP (ykey 0 B) f -> keysP (ykey 0 B) (conv (fconst c) f).
Proof. intros H. apply (ykeys_conv0 0 B); [apply ykeys_const; lia|exact H]. Qed.


(** [tops B c f]: f is a polynomial in x of degree at most B with coefficient c at x^B. *)
Definition tops (B c : Z) (f : fsum) : Prop := keysP (ykey 0 B) f /\ coef f (X B) = c.
Lemma tops_conv B1 c1 f B2 c2 g : tops B1 c1 f -> tops B2 c2 g -> tops (B1 + B2) (c1 * c2) (conv f g).
Proof. intros (K1 & T1) (K2 & T2). split; [apply ykeys_conv0; assumption|]. rewrite (top_conv B1 B2) by assumption. congruence. Qed.
Lemma tops_sub B c1 f c2 g : tops B c1 f -> tops B c2 g -> tops B (c1 - c2) (fsub f g).
Proof. intros (K1 & T1) (K2 & T2). split; [apply ykeys_sub; assumption|]. rewrite top_sub. congruence. Qed.
Lemma tops_const c : tops 0 c (fconst c).
Proof. split; [apply ykeys_const; lia|apply coef_const]. Qed.
Lemma tops_eq B c f B' c' : tops B c f -> B = B' -> c = c' -> tops B' c' f.
Proof. intros H -> ->. exact H. Qed.
Lemma tops_W a b : tops 3 1 (W a b).
Proof. split; [apply W_keys|reflexivity]. Qed.
Lemma tops_Wpow a b n : tops (3 * Z.of_nat n) 1 (fpow (W a b) n).
Proof.
  induction n as [|n IH]; cbn [fpow]; [exact (tops_const 1)|].
  eapply tops_eq; [exact (tops_conv _ _ _ _ _ _ (tops_W a b) IH)|lia|lia].
Qed.
Lemma tops_redf a b k B c f : 0 <= k -> tops B c f -> tops (B + 3 * (k / 2)) c (redf a b k f).
Proof.
  intros Hk H. unfold redf. eapply tops_eq; [exact (tops_conv _ _ _ _ _ _ H (tops_Wpow a b (Z.to_nat (k / 2))))| |lia].
  rewrite Z2Nat.id by (apply Z.div_pos; lia). reflexivity.
Qed.

Section R2.
Add Ring R2 : (f_ring 2) (setoid (feqm_equiv 2) (f_ring_ext 2)).
Lemma two_zero u : feqm 2 (conv (fconst 2) u) [].
Proof. intros m. rewrite fconst_scale. cbn [coef]. exists (coef u m). ring. Qed.
Lemma dbl_zero u : feqm 2 (fadd u u) [].
Proof. intros m. unfold fadd. rewrite coef_app. cbn [coef]. exists (coef u m). ring. Qed.
Lemma neg_same u : feqm 2 (fneg u) u.
Proof. intros m. rewrite coef_neg. exists (- coef u m). ring. Qed.
Lemma conv_nil_l u : feqm 2 (conv [] u) [].
Proof. reflexivity. Qed.
Lemma conv_nil_r u : feqm 2 (conv u []) [].
Proof. ring. Qed.
End R2.

Section Steps.
Variables a b : Z.
Notation W := (W a b).
Notation redf := (redf a b).
Definition U : fsum := [(mkMono 2 0 0 None, 1); (mone, a)].
Definition Up (e : Z) : fsum := fpow U (Z.to_nat e).
Lemma Up_mul n i j : 0 <= i -> 0 <= j -> feqm n (conv (Up i) (Up j)) (Up (i + j)).
Proof. intros Hi Hj. unfold Up. rewrite Z2Nat.inj_add by lia. apply feq_feqm. symmetry. apply fpow_add. Qed.

Record InvO (m : Z) (r : poly) (f : fsum) : Prop := mkO {
  io_rep : rep 0 (2 * (m * m) + 2 * m) f r;
  io_top : tops (2 * (m * m) + 2 * m) (2 * m + 1) f;
  io_mod : feqm 2 f (Up (m * m + m)) }.
Record InvE (m : Z) (r : poly) (f : fsum) : Prop := mkE {
  ie_rep : rep 1 (2 * (m * m) - 2) (conv (fconst 2) f) r;
  ie_top : tops (2 * (m * m) - 2) m f;
  ie_mod : feqm 2 f (if Z.odd m then Up (m * m - 1) else []) }.

Lemma redf_0 f : feq (redf 0 f) f.
Proof. unfold P_DivPoly2.redf. change (Z.to_nat (0 / 2)) with O. cbn [fpow]. ring. Qed.
Lemma redf_1 f : feq (redf 1 f) f.
Proof. unfold P_DivPoly2.redf. change (Z.to_nat (1 / 2)) with O. cbn [fpow]. ring. Qed.
Lemma tops_2 B c f : tops B c f -> tops B (2 * c) (conv (fconst 2) f).
Proof. intros H. exact (tops_conv _ _ _ _ _ _ (tops_const 2) H). Qed.
Lemma rep_eqB k k' B B' f r : rep k B f r -> k = k' -> B = B' -> rep k' B' f r.
Proof. intros H -> ->. exact H. Qed.
Lemma rep_exact k j B f g c (i d : poly) : rep k B f i -> rep (k - j) B g d -> feq f (conv (fconst c) g) -> feq i (conv [(mkMono 0 j 0 None, c)] d).
Proof.
  intros H1 H2 H. rewrite (rep_feq _ _ _ _ H1), (rep_feq _ _ _ _ H2), H.
  assert (E: feq [(mkMono 0 j 0 None, c)] (conv (fconst c) (Yk j))).
  { apply feq_intro. intros phi. rewrite lin_conv. cbn [fconst Yk lin]. change (mmul mone (mkMono 0 j 0 None)) with (mkMono 0 j 0 None). ring. }
  rewrite E. replace (Yk k) with (Yk (j + (k - j))) by (f_equal; lia). rewrite <- (Yk_add j (k - j)).
  generalize (Yk j), (Yk (k - j)), (fconst c). intros u v w. ring.
Qed.

Lemma two_two_EE (u fi fe ff fg fh : fsum) : feq (conv (conv u fi) (fsub (conv (conv u fe) (conv ff ff)) (conv (conv u fg) (conv fh fh))))
  (conv u (conv u (conv fi (fsub (conv fe (conv ff ff)) (conv fg (conv fh fh)))))).
Proof. ring. Qed.
Lemma two_two_EO (u fi fe ff fg fh : fsum) : feq (conv fi (fsub (conv fe (conv (conv u ff) (conv u ff))) (conv fg (conv (conv u fh) (conv u fh)))))
  (conv u (conv u (conv fi (fsub (conv fe (conv ff ff)) (conv fg (conv fh fh)))))).
Proof. ring. Qed.
Add Ring R2 : (f_ring 2) (setoid (feqm_equiv 2) (f_ring_ext 2)).
Ltac i32b := unfold i32_max; lia.

(** n = 2m+1, m = 2k: ef = psi(m+2) psi(m)^3 has y^4, gh = psi(m-1) psi(m+1)^3 has no y *)
Lemma step_OE k e fe f0 ff g fg h0 fh : 1 <= k -> 4 * k + 1 <= 65536 ->
  InvE (k + 1) e fe -> InvE k f0 ff -> InvO (k - 1) g fg -> InvO k h0 fh ->
  exists f1 h ef gh r f, p_power_i32 f0 3 = Ok f1 /\ p_power_i32 h0 3 = Ok h /\ p_mul e f1 = Ok ef /\ p_mul g h = Ok gh /\
    reduction (p_sub ef gh) a b = Ok r /\ i32_poly (p_sub ef gh) /\ InvO (2 * k) r f.
Proof.
  intros Hk Hn [Re Te Me] [Rf Tf Mf] [Rg Tg Mg] [Rh Th Mh].
  assert (Hkk: k * k <= 16383 * k) by nia.
  destruct (rep_pow3 1 (2 * (k * k) - 2) _ _ ltac:(lia) ltac:(i32b) ltac:(i32b) ltac:(i32b) Rf) as (f1 & Hf1 & R1).
  destruct (rep_pow3 0 (2 * (k * k) + 2 * k) _ _ ltac:(lia) ltac:(i32b) ltac:(i32b) ltac:(i32b) Rh) as (h & Hh & R2).
  destruct (rep_mul 1 (2 * ((k + 1) * (k + 1)) - 2) _ _ (3 * 1) (3 * (2 * (k * k) - 2)) _ _ ltac:(lia) ltac:(lia) ltac:(i32b) ltac:(i32b) Re R1) as (ef & Hef & R3).
  destruct (rep_mul 0 (2 * ((k - 1) * (k - 1)) + 2 * (k - 1)) _ _ (3 * 0) (3 * (2 * (k * k) + 2 * k)) _ _ ltac:(lia) ltac:(lia) ltac:(i32b) ltac:(i32b) Rg R2) as (gh & Hgh & R4).
  destruct (rep_reduction2 a b (1 + 3 * 1) (0 + 3 * 0) _ _ (2 * (2 * k * (2 * k)) + 2 * (2 * k)) _ _ _ _ ltac:(lia) ltac:(lia) eq_refl R3 R4) as (r & Hr & R5 & Hi).
  { change (3 * ((1 + 3 * 1) / 2)) with 6. lia. }
  { change (3 * ((0 + 3 * 0) / 2)) with 0. lia. }
  { unfold i32_max. lia. }
  do 4 eexists. exists r. eexists. repeat (split; [eassumption|]). split.
  - change 0 with ((1 + 3 * 1) mod 2) at 1. exact R5.
  - apply tops_2 in Te. apply tops_2 in Tf. eapply tops_eq; [apply tops_sub| |].
    + eapply tops_redf; [lia|]. exact (tops_conv _ _ _ _ _ _ Te (tops_conv _ _ _ _ _ _ Tf (tops_conv _ _ _ _ _ _ Tf Tf))).
    + eapply tops_eq; [eapply tops_redf; [lia|]; exact (tops_conv _ _ _ _ _ _ Tg (tops_conv _ _ _ _ _ _ Th (tops_conv _ _ _ _ _ _ Th Th)))| |reflexivity].
      change (3 * ((0 + 3 * 0) / 2)) with 0. change (3 * ((1 + 3 * 1) / 2)) with 6. lia.
    + change (3 * ((1 + 3 * 1) / 2)) with 6. lia.
    + ring.
  - rewrite (feq_feqm 2 _ _ (redf_0 _)). unfold P_DivPoly2.redf. change (fsub ?u ?v) with (fadd u (fneg v)). rewrite !two_zero, !neg_same, Mg, Mh.
    rewrite !conv_nil_l. rewrite !Up_mul by nia. change (fadd [] ?u) with u.
    match goal with |- feqm 2 (Up ?u) (Up ?v) => replace u with v by lia end. reflexivity.
Qed.

(** n = 2m+1, m = 2k+1: psi(m+2) psi(m)^3 has no y, psi(m-1) psi(m+1)^3 has y^4 *)
Lemma step_OO k e fe f0 ff g fg h0 fh : 1 <= k -> 4 * k + 3 <= 65536 ->
  InvO (k + 1) e fe -> InvO k f0 ff -> InvE k g fg -> InvE (k + 1) h0 fh ->
  exists f1 h ef gh r f, p_power_i32 f0 3 = Ok f1 /\ p_power_i32 h0 3 = Ok h /\ p_mul e f1 = Ok ef /\ p_mul g h = Ok gh /\
    reduction (p_sub ef gh) a b = Ok r /\ i32_poly (p_sub ef gh) /\ InvO (2 * k + 1) r f.
Proof.
  intros Hk Hn [Re Te Me] [Rf Tf Mf] [Rg Tg Mg] [Rh Th Mh].
  assert (Hkk: k * k <= 16383 * k) by nia.
  destruct (rep_pow3 0 (2 * (k * k) + 2 * k) _ _ ltac:(lia) ltac:(i32b) ltac:(i32b) ltac:(i32b) Rf) as (f1 & Hf1 & R1).
  destruct (rep_pow3 1 (2 * ((k + 1) * (k + 1)) - 2) _ _ ltac:(lia) ltac:(i32b) ltac:(i32b) ltac:(i32b) Rh) as (h & Hh & R2).
  destruct (rep_mul 0 (2 * ((k + 1) * (k + 1)) + 2 * (k + 1)) _ _ (3 * 0) (3 * (2 * (k * k) + 2 * k)) _ _ ltac:(lia) ltac:(lia) ltac:(i32b) ltac:(i32b) Re R1) as (ef & Hef & R3).
  destruct (rep_mul 1 (2 * (k * k) - 2) _ _ (3 * 1) (3 * (2 * ((k + 1) * (k + 1)) - 2)) _ _ ltac:(lia) ltac:(lia) ltac:(i32b) ltac:(i32b) Rg R2) as (gh & Hgh & R4).
  destruct (rep_reduction2 a b (0 + 3 * 0) (1 + 3 * 1) _ _ (2 * ((2 * k + 1) * (2 * k + 1)) + 2 * (2 * k + 1)) _ _ _ _ ltac:(lia) ltac:(lia) eq_refl R3 R4) as (r & Hr & R5 & Hi).
  { change (3 * ((0 + 3 * 0) / 2)) with 0. lia. }
  { change (3 * ((1 + 3 * 1) / 2)) with 6. lia. }
  { unfold i32_max. lia. }
  do 4 eexists. exists r. eexists. repeat (split; [eassumption|]). split.
  - change 0 with ((0 + 3 * 0) mod 2) at 1. exact R5.
  - apply tops_2 in Tg. apply tops_2 in Th. eapply tops_eq; [apply tops_sub| |].
    + eapply tops_redf; [lia|]. exact (tops_conv _ _ _ _ _ _ Te (tops_conv _ _ _ _ _ _ Tf (tops_conv _ _ _ _ _ _ Tf Tf))).
    + eapply tops_eq; [eapply tops_redf; [lia|]; exact (tops_conv _ _ _ _ _ _ Tg (tops_conv _ _ _ _ _ _ Th (tops_conv _ _ _ _ _ _ Th Th)))| |reflexivity].
      change (3 * ((0 + 3 * 0) / 2)) with 0. change (3 * ((1 + 3 * 1) / 2)) with 6. lia.
    + change (3 * ((0 + 3 * 0) / 2)) with 0. lia.
    + ring.
  - rewrite (feq_feqm 2 _ _ (redf_0 _)). unfold P_DivPoly2.redf. change (fsub ?u ?v) with (fadd u (fneg v)). rewrite !two_zero, !neg_same, Me, Mf.
    rewrite !conv_nil_l. rewrite !Up_mul by nia.
    match goal with |- feqm 2 (fadd (Up ?u) []) (Up ?v) => replace u with v by lia end. ring.
Qed.

(** n = 2m, m = 2k *)
Lemma step_EE k e fe f0 ff g fg h0 fh i0 fi : 2 <= k -> 4 * k <= 65536 ->
  InvE (k + 1) e fe -> InvO (k - 1) f0 ff -> InvE (k - 1) g fg -> InvO k h0 fh -> InvE k i0 fi ->
  exists f1 h ef gh i j r f, p_power_i32 f0 2 = Ok f1 /\ p_power_i32 h0 2 = Ok h /\ p_mul e f1 = Ok ef /\ p_mul g h = Ok gh /\
    p_mul i0 (p_sub ef gh) = Ok i /\ p_div_t i (tb_build (tb_ypow 1 (tb_coef 2 tb_new))) = Ok j /\
    reduction j a b = Ok r /\ (i32_poly j /\ nonneg_xy j) /\ feq i (conv [(mkMono 0 1 0 None, 2)] j) /\ InvE (2 * k) r f.
Proof.
  intros Hk Hn [Re Te Me] [Rf Tf Mf] [Rg Tg Mg] [Rh Th Mh] [Ri Ti Mi].
  assert (Hkk: k * k <= 16384 * k) by nia.
  destruct (rep_pow2 0 (2 * ((k - 1) * (k - 1)) + 2 * (k - 1)) _ _ ltac:(lia) ltac:(i32b) ltac:(i32b) Rf) as (f1 & Hf1 & R1).
  destruct (rep_pow2 0 (2 * (k * k) + 2 * k) _ _ ltac:(lia) ltac:(i32b) ltac:(i32b) Rh) as (h & Hh & R2).
  destruct (rep_mul 1 (2 * ((k + 1) * (k + 1)) - 2) _ _ (2 * 0) (2 * (2 * ((k - 1) * (k - 1)) + 2 * (k - 1))) _ _ ltac:(lia) ltac:(lia) ltac:(i32b) ltac:(i32b) Re R1) as (ef & Hef & R3).
  destruct (rep_mul 1 (2 * ((k - 1) * (k - 1)) - 2) _ _ (2 * 0) (2 * (2 * (k * k) + 2 * k)) _ _ ltac:(lia) ltac:(lia) ltac:(i32b) ltac:(i32b) Rg R2) as (gh & Hgh & R4).
  apply (rep_eqB _ 1 _ (6 * (k * k))) in R3; [|lia|lia]. apply (rep_eqB _ 1 _ (6 * (k * k))) in R4; [|lia|lia].
  pose proof (rep_sub _ _ _ _ _ _ R3 R4) as R5.
  destruct (rep_mul 1 (2 * (k * k) - 2) _ _ 1 (6 * (k * k)) _ _ ltac:(lia) ltac:(lia) ltac:(i32b) ltac:(i32b) Ri R5) as (i & Hi & R6).
  set (q := conv fi (fsub (conv fe (conv ff ff)) (conv fg (conv fh fh)))).
  assert (Tq: tops (2 * (2 * k * (2 * k)) - 2) (2 * k) q).
  { eapply tops_eq; [eapply tops_conv; [exact Ti|eapply tops_sub]| |].
    - exact (tops_conv _ _ _ _ _ _ Te (tops_conv _ _ _ _ _ _ Tf Tf)).
    - eapply tops_eq; [exact (tops_conv _ _ _ _ _ _ Tg (tops_conv _ _ _ _ _ _ Th Th))| |reflexivity]. lia.
    - lia.
    - ring. }
  apply (rep_eqB _ 2 _ (2 * (2 * k * (2 * k)) - 2)) in R6; [|lia|lia].
  assert (Fq: feq (conv (conv (fconst 2) fi) (fsub (conv (conv (fconst 2) fe) (conv ff ff)) (conv (conv (fconst 2) fg) (conv fh fh)))) (conv (fconst 2) (conv (fconst 2) q))).
  { exact (two_two_EE _ _ _ _ _ _). }
  destruct (rep_div 2 1 (2 * (2 * k * (2 * k)) - 2) _ (conv (fconst 2) q) 2 i ltac:(lia) ltac:(lia) ltac:(i32b) ltac:(i32b) R6 Fq) as (j & Hj & R7).
  { apply ykeys_scale. apply Tq. }
  pose proof (rep_exact 2 1 _ _ _ 2 i j R6 R7 Fq) as Ex.
  destruct (rep_reduction a b 1 (2 * (2 * k * (2 * k)) - 2) _ j ltac:(lia) R7) as (r & Hr & R8 & Hi32).
  { change (3 * (1 / 2)) with 0. i32b. }
  assert (Hin: i32_poly j /\ nonneg_xy j) by (split; [exact Hi32|eapply rep_nonneg; [|exact R7]; lia]).
  exists f1, h, ef, gh, i, j, r, q. repeat (split; [assumption|]). split.
  - change (1 mod 2) with 1 in R8. change (3 * (1 / 2)) with 0 in R8. rewrite Z.add_0_r in R8.
    eapply rep_ext; [apply redf_1|apply ykeys_scale; apply Tq|exact R8].
  - exact Tq.
  - replace (Z.odd (2 * k)) with false by (rewrite Z.odd_mul; reflexivity). unfold q. rewrite Mf, Mh, Me, Mg.
    rewrite !Up_mul by nia. destruct (Z.odd k) eqn:Ok0.
    + replace (Z.odd (k + 1)) with false by (rewrite Z.odd_add, Ok0; reflexivity). replace (Z.odd (k - 1)) with false by (rewrite Z.odd_sub, Ok0; reflexivity).
      ring.
    + replace (Z.odd (k + 1)) with true by (rewrite Z.odd_add, Ok0; reflexivity). replace (Z.odd (k - 1)) with true by (rewrite Z.odd_sub, Ok0; reflexivity).
      rewrite !Up_mul by nia. match goal with |- feqm 2 (conv fi (fsub (Up ?u) (Up ?v))) _ => replace u with v by lia end. ring.
Qed.

(** n = 2m, m = 2k+1 *)
Lemma step_EO k e fe f0 ff g fg h0 fh i0 fi : 1 <= k -> 4 * k + 2 <= 65536 ->
  InvO (k + 1) e fe -> InvE k f0 ff -> InvO (k - 1) g fg -> InvE (k + 1) h0 fh -> InvO k i0 fi ->
  exists f1 h ef gh i j r f, p_power_i32 f0 2 = Ok f1 /\ p_power_i32 h0 2 = Ok h /\ p_mul e f1 = Ok ef /\ p_mul g h = Ok gh /\
    p_mul i0 (p_sub ef gh) = Ok i /\ p_div_t i (tb_build (tb_ypow 1 (tb_coef 2 tb_new))) = Ok j /\
    reduction j a b = Ok r /\ (i32_poly j /\ nonneg_xy j) /\ feq i (conv [(mkMono 0 1 0 None, 2)] j) /\ InvE (2 * k + 1) r f.
Proof.
  intros Hk Hn [Re Te Me] [Rf Tf Mf] [Rg Tg Mg] [Rh Th Mh] [Ri Ti Mi].
  assert (Hkk: k * k <= 16383 * k) by nia.
  destruct (rep_pow2 1 (2 * (k * k) - 2) _ _ ltac:(lia) ltac:(i32b) ltac:(i32b) Rf) as (f1 & Hf1 & R1).
  destruct (rep_pow2 1 (2 * ((k + 1) * (k + 1)) - 2) _ _ ltac:(lia) ltac:(i32b) ltac:(i32b) Rh) as (h & Hh & R2).
  destruct (rep_mul 0 (2 * ((k + 1) * (k + 1)) + 2 * (k + 1)) _ _ (2 * 1) (2 * (2 * (k * k) - 2)) _ _ ltac:(lia) ltac:(lia) ltac:(i32b) ltac:(i32b) Re R1) as (ef & Hef & R3).
  destruct (rep_mul 0 (2 * ((k - 1) * (k - 1)) + 2 * (k - 1)) _ _ (2 * 1) (2 * (2 * ((k + 1) * (k + 1)) - 2)) _ _ ltac:(lia) ltac:(lia) ltac:(i32b) ltac:(i32b) Rg R2) as (gh & Hgh & R4).
  apply (rep_eqB _ 2 _ (6 * (k * k) + 6 * k)) in R3; [|lia|lia]. apply (rep_eqB _ 2 _ (6 * (k * k) + 6 * k)) in R4; [|lia|lia].
  pose proof (rep_sub _ _ _ _ _ _ R3 R4) as R5.
  destruct (rep_mul 0 (2 * (k * k) + 2 * k) _ _ 2 (6 * (k * k) + 6 * k) _ _ ltac:(lia) ltac:(lia) ltac:(i32b) ltac:(i32b) Ri R5) as (i & Hi & R6).
  set (q := conv fi (fsub (conv fe (conv ff ff)) (conv fg (conv fh fh)))).
  assert (Tq: tops (2 * ((2 * k + 1) * (2 * k + 1)) - 2) (2 * k + 1) q).
  { eapply tops_eq; [eapply tops_conv; [exact Ti|eapply tops_sub]| |].
    - exact (tops_conv _ _ _ _ _ _ Te (tops_conv _ _ _ _ _ _ Tf Tf)).
    - eapply tops_eq; [exact (tops_conv _ _ _ _ _ _ Tg (tops_conv _ _ _ _ _ _ Th Th))| |reflexivity]. lia.
    - lia.
    - ring. }
  apply (rep_eqB _ 2 _ (2 * ((2 * k + 1) * (2 * k + 1)) - 2)) in R6; [|lia|lia].
  assert (Fq: feq (conv fi (fsub (conv fe (conv (conv (fconst 2) ff) (conv (fconst 2) ff))) (conv fg (conv (conv (fconst 2) fh) (conv (fconst 2) fh))))) (conv (fconst 2) (conv (fconst 2) q))).
  { exact (two_two_EO _ _ _ _ _ _). }
  destruct (rep_div 2 1 (2 * ((2 * k + 1) * (2 * k + 1)) - 2) _ (conv (fconst 2) q) 2 i ltac:(lia) ltac:(lia) ltac:(i32b) ltac:(i32b) R6 Fq) as (j & Hj & R7).
  { apply ykeys_scale. apply Tq. }
  pose proof (rep_exact 2 1 _ _ _ 2 i j R6 R7 Fq) as Ex.
  destruct (rep_reduction a b 1 (2 * ((2 * k + 1) * (2 * k + 1)) - 2) _ j ltac:(lia) R7) as (r & Hr & R8 & Hi32).
  { change (3 * (1 / 2)) with 0. i32b. }
  assert (Hin: i32_poly j /\ nonneg_xy j) by (split; [exact Hi32|eapply rep_nonneg; [|exact R7]; lia]).
  exists f1, h, ef, gh, i, j, r, q. repeat (split; [assumption|]). split.
  - change (1 mod 2) with 1 in R8. change (3 * (1 / 2)) with 0 in R8. rewrite Z.add_0_r in R8.
    eapply rep_ext; [apply redf_1|apply ykeys_scale; apply Tq|exact R8].
  - exact Tq.
  - replace (Z.odd (2 * k + 1)) with true by (rewrite Z.odd_add, Z.odd_mul; reflexivity). unfold q. rewrite Mf, Mh, Me, Mg, Mi.
    destruct (Z.odd k) eqn:Ok0.
    + replace (Z.odd (k + 1)) with false by (rewrite Z.odd_add, Ok0; reflexivity).
      rewrite !Up_mul by nia. transitivity (conv (Up (k * k + k)) (Up ((k + 1) * (k + 1) + (k + 1) + (k * k - 1 + (k * k - 1))))); [ring|].
      rewrite !Up_mul by nia. match goal with |- feqm 2 (Up ?u) (Up ?v) => replace u with v by lia end. reflexivity.
    + replace (Z.odd (k + 1)) with true by (rewrite Z.odd_add, Ok0; reflexivity).
      rewrite !Up_mul by nia. change (fsub ?u ?v) with (fadd u (fneg v)). rewrite !neg_same.
      transitivity (conv (Up (k * k + k)) (Up ((k - 1) * (k - 1) + (k - 1) + ((k + 1) * (k + 1) - 1 + ((k + 1) * (k + 1) - 1))))); [ring|].
      rewrite !Up_mul by nia. match goal with |- feqm 2 (Up ?u) (Up ?v) => replace u with v by lia end. reflexivity.
Qed.
End Steps.
