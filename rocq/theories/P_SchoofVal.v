(** Values of the polynomials computed inside schoof at a point of the curve over GF(q). *)
From Coq Require Import Znumtheory ZifyBool Setoid Morphisms Ring.
From Verif Require Import Prelude M_Bigint M_Variable M_Term M_Poly M_DivPoly M_Schoof Spec P_Bigint P_Variable P_FSum P_Poly P_Rem P_PolyProps P_Subst P_Subst2 P_Subst3 P_SubstProps P_DivPoly P_DivPoly5 P_DivProps P_Binom P_NormalProps P_Mod P_MulProps.
Open Scope Z_scope.

Section Val.
Variables (a b q x y : Z).
Hypothesis Pq : prime q.
Hypothesis Hc : (q | y ^ 2 - (x ^ 3 + a * x + b)).
Definition gk (m : mono) : Prop := 0 <= mx m <= i32_max /\ 0 <= my m <= i32_max /\ mq m = 0 /\ mv m = None.
Definition good (p : poly) : Prop := sorted p /\ keysP gk p.
Definition vl (p : poly) (v : Z) : Prop := good p /\ (q | fval x y p - v).
Lemma good_nonneg p : good p -> nonneg_xy p.
Proof. intros (_ & K) m c I. destruct (K m c I) as (A & B & _). lia. Qed.
Lemma vl_cong p u v : vl p u -> (q | u - v) -> vl p v.
Proof. intros (G & D) D'. split; [exact G|]. replace (fval x y p - v) with (fval x y p - u + (u - v)) by ring. apply Z.divide_add_r; assumption. Qed.
Lemma q2 : 2 <= q. Proof. exact (prime_ge_2 q Pq). Qed.
Lemma good_mul u v w : p_mul u v = Ok w -> good u -> good v -> good w.
Proof.
  intros H (S1 & K1) (S2 & K2). split; [exact (p_mul_sorted _ _ _ H)|]. apply (p_mul_keys gk gk gk _ _ _ H K1 K2). intros m1 m2 (A & B & C & D) (A' & B' & C' & D') (_ & X & Y & Q).
  unfold gk, mmul. cbn [mx my mq mv]. rewrite D, D'. unfold vmul. split; [lia|]. split; [lia|]. split; [lia|reflexivity].
Qed.
Lemma vl_mul u v w s t : p_mul u v = Ok w -> vl u s -> vl v t -> vl w (s * t).
Proof.
  intros H (G1 & D1) (G2 & D2). split; [exact (good_mul _ _ _ H G1 G2)|]. rewrite (fval_feq x y _ _ (p_mul_feq _ _ _ H)), fval_conv by (apply good_nonneg; assumption).
  replace (fval x y u * fval x y v - s * t) with ((fval x y u - s) * fval x y v + s * (fval x y v - t)) by ring. apply Z.divide_add_r; [apply Z.divide_mul_l|apply Z.divide_mul_r]; assumption.
Qed.
Lemma vl_sub u v s t : vl u s -> vl v t -> vl (p_sub u v) (s - t).
Proof.
  intros ((S1 & K1) & D1) ((S2 & K2) & D2). split; [split; [apply p_sub_sorted, S1|apply p_sub_keys; assumption]|].
  rewrite (fval_feq x y _ _ (p_sub_feq u v S1 S2)). unfold fsub. unfold fadd. rewrite fval_app, fval_neg.
  match goal with |- (_ | ?z) => replace z with (fval x y u - s - (fval x y v - t)) by ring end. apply Z.divide_sub_r; assumption.
Qed.
Lemma vl_add u v s t : vl u s -> vl v t -> vl (p_add u v) (s + t).
Proof.
  intros ((S1 & K1) & D1) ((S2 & K2) & D2). split; [split; [apply p_add_sorted, S1|apply p_add_keys; assumption]|].
  rewrite (fval_feq x y _ _ (p_add_feq u v S1)). unfold fadd. rewrite fval_app.
  match goal with |- (_ | ?z) => replace z with (fval x y u - s + (fval x y v - t)) by ring end. apply Z.divide_add_r; assumption.
Qed.
Lemma vl_neg u s : vl u s -> vl (p_neg u) (- s).
Proof.
  intros ((S1 & K1) & D1). rewrite (p_neg_eq u S1). split; [split; [apply fneg_sorted, S1|apply fneg_keys, K1]|]. rewrite fval_neg.
  replace (- fval x y u - - s) with (- (fval x y u - s)) by ring. apply Z.divide_opp_r, D1.
Qed.
Lemma gk_one : gk mone. Proof. unfold gk, mone, i32_max; cbn. repeat split; lia. Qed.
Lemma gk_mmul m1 m2 : gk m1 -> gk m2 -> mul_ok m1 m2 -> gk (mmul m1 m2).
Proof.
  intros (A & B & C & D) (A' & B' & C' & D') (_ & X & Y & Q). unfold gk, mmul. cbn [mx my mq mv]. rewrite D, D'. unfold vmul. split; [lia|]. split; [lia|]. split; [lia|reflexivity].
Qed.
Lemma vl_pow u k w s : p_power_i32 u k = Ok w -> vl u s -> vl w (s ^ k).
Proof.
  unfold p_power_i32. intros H ((S1 & K1) & D1). destruct (p_power_spec u k w S1 H) as (Hk & Sw & F). split; [split; [exact Sw|]|].
  - eapply p_power_keys; [apply gk_one| |exact K1|exact H]. intros; apply gk_mmul; assumption.
  - rewrite (fval_feq x y _ _ F), fval_fpow by (apply good_nonneg; split; assumption). rewrite Z2Nat.id by exact Hk. apply pow_cong; assumption.
Qed.
Lemma redp_val p u : 0 < p -> sorted u -> (p | fval x y (redp p u) - fval x y u).
Proof. intros Hp S1. apply fval_feqm, redp_feqm; assumption. Qed.
Lemma vl_redp u s : vl u s -> vl (redp q u) s.
Proof.
  intros ((S1 & K1) & D1). pose proof q2. split; [split; [apply redp_sorted, S1|apply redp_keys, K1]|].
  replace (fval x y (redp q u) - s) with (fval x y (redp q u) - fval x y u + (fval x y u - s)) by ring. apply Z.divide_add_r; [apply redp_val; [lia|exact S1]|exact D1].
Qed.
Lemma vl_modular u w s : modular_assign u q = Ok w -> vl u s -> vl w s.
Proof. intros H V. pose proof q2. rewrite modular_assign_eq in H by (try lia; apply V). assert (redp q u = w) as <- by congruence. apply vl_redp, V. Qed.
Lemma vl_rem u w s : p_rem_i32 u q = Ok w -> vl u s -> vl w s.
Proof. unfold p_rem_i32. intros H V. pose proof q2. rewrite p_rem_eq in H by (try lia; apply V). assert (redp q u = w) as <- by congruence. apply vl_redp, V. Qed.
Lemma vl_t_mul t u w s : t_mul_p t u = Ok w -> gk (tm t) -> vl u s -> vl w (tc t * mval x y (tm t) * s).
Proof.
  unfold t_mul_p. intros H G V. apply (vl_mul _ _ _ _ _ H); [|exact V]. split; [split; [apply to_pol_sorted|apply to_pol_keys, G]|].
  rewrite (fval_feq x y _ _ (to_pol_feq t)). cbn [fval]. rewrite Z.add_0_r, Z.sub_diag. apply Z.divide_0_r.
Qed.
Lemma vl_frob u w s : to_frob u q = Ok w -> vl u s -> vl w s.
Proof.
  intros H (G & D). pose proof q2. rewrite <- (Z.pow_1_r q) in H. destruct G as (S1 & K1). assert (N1 : nonneg_xy u) by (apply good_nonneg; split; assumption).
  assert (X1 : forall m d, In (m, d) u -> mq m = 0 /\ mv m = None) by (intros m d I; destruct (K1 m d I) as (_ & _ & C & D'); split; assumption).
  destruct (to_frob_inv u (q ^ 1) w S1 ltac:(lia) H) as (Sw & Mw).
  assert (Kw : keysP gk w).
  { intros m c I. apply Mw, fmap_in in I as (m' & I & ->). destruct (K1 _ _ I) as (A & B & C & D').
    assert (R: forall m c, In (m, c) u -> i32_range (mx m * q ^ 1) /\ i32_range (my m * q ^ 1)).
    { refine (sub_inv (fun e => term_to_frob (mkTerm (snd e) (fst e)) (q ^ 1)) (frob (q ^ 1)) _ _ u _ _ H).
      intros m c0 t E. unfold term_to_frob in E. cbn [tm tc fst snd] in E. apply bind_Ok in E. destruct E as (x' & Ex & E). apply bind_Ok in E. destruct E as (y' & Ey & _).
      apply i32_inv in Ex. apply i32_inv in Ey. unfold i32_range. tauto. }
    destruct (R _ _ I) as (R1 & R2). unfold i32_range in R1, R2. unfold gk, frob; cbn [mx my mq mv]. split; [nia|]. split; [nia|]. split; assumption. }
  split; [split; assumption|]. assert (Nw : nonneg_xy w) by (apply good_nonneg; split; assumption).
  pose proof (c98_value u q 1 w x y (fval x y u) (fval x y w) Pq ltac:(lia) S1 N1 X1 H (eval_xy_spec u x y N1) (eval_xy_spec w x y Nw)) as D2.
  replace (fval x y w - s) with (fval x y w - fval x y u + (fval x y u - s)) by ring. apply Z.divide_add_r; assumption.
Qed.
(** reduction_modular: every successful call keeps the value. *)
Lemma weier_good : good (weierstrass a b).
Proof. split; [apply weierstrass_sorted|]. apply weierstrass_keys; unfold gk, mone, i32_max; cbn; repeat split; lia. Qed.
Lemma vl_weier : vl (weierstrass a b) (y ^ 2).
Proof. split; [apply weier_good|]. rewrite (fval_feq x y _ _ (weierstrass_feq a b)), fval_fweier. replace (x ^ 3 + a * x + b - y ^ 2) with (- (y ^ 2 - (x ^ 3 + a * x + b))) by ring. apply Z.divide_opp_r, Hc. Qed.
Definition gk0 (m : mono) : Prop := gk m /\ my m = 0.
Lemma gk0_mmul m1 m2 : gk0 m1 -> gk0 m2 -> mul_ok m1 m2 -> gk0 (mmul m1 m2).
Proof. intros (G1 & Y1) (G2 & Y2) M. split; [apply gk_mmul; assumption|]. unfold mmul; cbn [my]. lia. Qed.
Lemma power_modulo_loop_keys (P : mono -> Prop) p fuel : 0 < p -> (forall m1 m2, P m1 -> P m2 -> mul_ok m1 m2 -> P (mmul m1 m2)) ->
  forall e u r c, sorted u -> keysP P u -> keysP P r -> p_power_modulo_loop fuel p e u r = Ok c -> keysP P c.
Proof.
  intros Hp HM. induction fuel as [|f IH]; intros e u r c Su Ku Kr H; cbn [p_power_modulo_loop] in H.
  - destruct (1 <? e); [discriminate|]. apply bind_Ok in H. destruct H as (r' & E1 & H). unfold p_mul_assign in E1. rewrite modular_assign_eq in H by (try exact Hp; exact (p_mul_sorted _ _ _ E1)).
    assert (redp p r' = c) as <- by congruence. apply redp_keys. exact (p_mul_keys P P P _ _ _ E1 Kr Ku HM).
  - destruct (1 <? e).
    + apply bind_Ok in H. destruct H as (r' & E1 & H).
      assert (Kr' : keysP P r'). { destruct (Z.odd e); [|assert (r = r') as <- by congruence; exact Kr]. apply bind_Ok in E1. destruct E1 as (r2 & E1 & E2). unfold p_mul_assign in E1. rewrite modular_assign_eq in E2 by (try exact Hp; exact (p_mul_sorted _ _ _ E1)).
        assert (redp p r2 = r') as <- by congruence. apply redp_keys. exact (p_mul_keys P P P _ _ _ E1 Kr Ku HM). }
      apply bind_Ok in H. destruct H as (u2 & E2 & H). apply bind_Ok in H. destruct H as (u3 & E3 & H). rewrite modular_assign_eq in E3 by (try exact Hp; exact (p_mul_sorted _ _ _ E2)).
      assert (redp p u2 = u3) as <- by congruence. refine (IH _ _ _ _ _ _ Kr' H); [apply redp_sorted, (p_mul_sorted _ _ _ E2)|apply redp_keys; exact (p_mul_keys P P P _ _ _ E2 Ku Ku HM)].
    + apply bind_Ok in H. destruct H as (r' & E1 & H). unfold p_mul_assign in E1. rewrite modular_assign_eq in H by (try exact Hp; exact (p_mul_sorted _ _ _ E1)).
      assert (redp p r' = c) as <- by congruence. apply redp_keys. exact (p_mul_keys P P P _ _ _ E1 Kr Ku HM).
Qed.
Lemma weier_power k ee : 1 <= k -> p_power_modulo (weierstrass a b) k q = Ok ee -> vl ee (y ^ (2 * k)) /\ keysP gk0 ee.
Proof.
  intros Hk H. pose proof q2. destruct (p_power_modulo_spec (weierstrass a b) k q ee ltac:(lia) Hk (weierstrass_sorted a b) H) as (See & _ & F).
  assert (K : keysP gk0 ee).
  { unfold p_power_modulo in H. destruct (0 <=? k) eqn:E; [|lia]. cbn [assertb bind] in H. rewrite p_rem_eq in H by (try lia; apply weierstrass_sorted). cbn [bind] in H.
    refine (power_modulo_loop_keys gk0 q _ ltac:(lia) gk0_mmul _ _ _ _ _ _ _ H); [apply redp_sorted, weierstrass_sorted| |].
    - apply redp_keys. apply weierstrass_keys; unfold gk0, gk, mone, i32_max; cbn; repeat split; lia.
    - intros m c [E1|[]]. injection E1; intros; subst. split; [apply gk_one|reflexivity]. }
  split; [|exact K]. split; [split; [exact See|intros m c I; apply (K m c I)]|]. pose proof (fval_feqm q x y _ _ F) as D. rewrite fval_fpow in D by (apply good_nonneg, weier_good). rewrite Z2Nat.id in D by lia.
  destruct vl_weier as (_ & W). pose proof (pow_cong q _ _ k ltac:(lia) W) as D2. rewrite <- Z.pow_mul_r in D2 by lia.
  replace (fval x y ee - y ^ (2 * k)) with (fval x y ee - fval x y (weierstrass a b) ^ k + (fval x y (weierstrass a b) ^ k - y ^ (2 * k))) by ring. apply Z.divide_add_r; assumption.
Qed.
Lemma red_body t m c t' s : gk m -> vl t s -> red_mod_body 1 a b q t (m, c) = Ok t' -> vl t' (s + c * mval x y m).
Proof.
  intros G V E. unfold red_mod_body in E. cbn [fst snd tm tc] in E. destruct G as (Gx & Gy & Gq & Gv). destruct (2 <=? my m) eqn:E2.
  - rewrite i32_prod2 in E by lia. cbn [bind] in E. rewrite p_div_ypow in E; cbn [tm tc] in *; try (unfold i32_range, i32_min, i32_max in *; lia).
    2:{ pose proof (Z.mod_pos_bound (my m) 2 ltac:(lia)). replace (my m - my m / 2 * 2) with (my m mod 2) by (rewrite Z.mod_eq by lia; ring). unfold i32_range, i32_min, i32_max in *; lia. }
    cbn [bind] in E. apply bind_Ok in E. destruct E as (ee & He & E). apply bind_Ok in E. destruct E as (ee' & He' & E). apply bind_Ok in E. destruct E as (e' & Hm & E).
    assert (p_add_assign t e' = t') as <- by congruence. clear E. assert (Hk: 1 <= my m / 2) by (apply Z.div_le_lower_bound; lia).
    destruct (weier_power _ _ Hk He) as (Ve & Ke). rewrite reduction_modular_noy in He'; [|pose proof q2; lia|apply Ve|intros k d I; destruct (Ke k d I) as (_ & Y0); unfold ylow; lia].
    assert (redp q ee = ee') as <- by congruence. apply vl_redp in Ve.
    change (p_add_assign t e') with (p_add t e'). apply vl_add; [exact V|]. unfold p_mul_assign in Hm. pose proof (Z.mod_pos_bound (my m) 2 ltac:(lia)) as MB.
    assert (Ey : my m - my m / 2 * 2 = my m mod 2) by (rewrite Z.mod_eq by lia; ring).
    match type of Hm with p_mul ?u _ = _ => assert (Vu : vl u (c * (x ^ mx m * y ^ (my m mod 2)))) end.
    { split; [split; [apply to_pol_sorted|apply to_pol_keys]|]; cbn [tm tc].
      - rewrite Ey. unfold gk, set_y; cbn [mx my mq mv]. split; [lia|]; split; [unfold i32_max; lia|]; split; assumption.
      - rewrite (fval_feq x y _ _ (to_pol_feq _)). cbn [tm tc fval]. unfold mval; cbn [mx my]. rewrite Ey, Z.add_0_r, Z.sub_diag. apply Z.divide_0_r. }
    pose proof (vl_mul _ _ _ _ _ Hm Vu Ve) as Vp. apply (vl_cong _ _ _ Vp). unfold mval. rewrite (Z.div_mod (my m) 2) at 3 by lia. rewrite (Z.add_comm (2 * _)), Z.pow_add_r by lia.
    match goal with |- (_ | ?z) => replace z with 0 by ring end. apply Z.divide_0_r.
  - assert (p_add_assign_t t (mkTerm c m) = t') as <- by congruence. destruct V as ((S1 & K1) & D1). destruct (p_add_assign_t_feq t (mkTerm c m) S1) as (S2 & F2). split; [split; [exact S2|]|].
    + rewrite p_add_assign_t_eq. apply add_entry_keys; auto. cbn. repeat split; try assumption; lia.
    + rewrite (fval_feq x y _ _ F2). unfold fadd. rewrite fval_app. cbn [tm tc fval]. rewrite Z.add_0_r. replace (fval x y t + c * mval x y m - (s + c * mval x y m)) with (fval x y t - s) by ring. exact D1.
Qed.
Lemma vl_nil : vl [] 0.
Proof. split; [split; [exact I|intros ? ? []]|]. cbn. apply Z.divide_0_r. Qed.
Lemma red_fold u : keysP gk u -> forall t t' s, vl t s -> foldM (red_mod_body 1 a b q) u t = Ok t' -> vl t' (s + fval x y u).
Proof.
  induction u as [|[m c] u IH]; intros K t t' s V H; cbn [foldM fval] in *.
  - assert (t = t') as <- by congruence. rewrite Z.add_0_r. exact V.
  - apply bind_Ok in H. destruct H as (t1 & E1 & H). rewrite Z.add_assoc. refine (IH _ t1 t' _ _ H); [intros k d I; apply (K k d); right; exact I|]. apply (red_body t m c t1 s); [apply (K m c); left; reflexivity|exact V|exact E1].
Qed.
Lemma vl_redmod u w s : reduction_modular u a b q = Ok w -> vl u s -> vl w s.
Proof.
  unfold reduction_modular. rewrite reduction_modular_depth_S. intros H ((S1 & K1) & D1). apply bind_Ok in H. destruct H as (t & E1 & H). apply (red_fold u K1 p_new t 0 vl_nil) in E1. cbn in E1.
  apply (vl_modular _ _ _ H). apply (vl_cong _ _ _ E1 D1).
Qed.
(** polynomial_modular by a polynomial in x that vanishes at x. *)
Definition ky (k : Z) (m : mono) : Prop := 0 <= mx m /\ k <= my m.
Lemma pm_ky k other : k <= 0 -> sorted other -> only_x other -> forall fuel r s, sorted r -> keysP (ky k) r ->
  polynomial_modular_loop fuel other (highest_term_x other) q r = Ok s ->
  sorted s /\ exists c, keysP (ky k) c /\ feqm q r (fadd (conv other c) s).
Proof.
  intros Hk So Oo. induction fuel as [|f IH]; intros r s Sr Kr H; [cbn [polynomial_modular_loop] in H|rewrite pm_loop_S in H]; destruct (_ <? _) eqn:E.
  1, 3: assert (r = s) as <- by congruence; split; [exact Sr|]; exists []; split; [intros ? ? []|]; rewrite (feq_feqm q _ _ (conv_comm other [])); cbn; reflexivity.
  - discriminate.
  - apply bind_Ok in H. destruct H as (r' & Es & H). destruct (pm_step_spec other q r r' So Sr Es) as (Hp & inv & _ & Sr' & _ & F).
    assert (Hh : ky k (tm (highest_term_x r))). { destruct (highest_in r Sr) as [(_ & ->)|(_ & Hi)]; [unfold ky; cbn; lia|]. exact (Kr _ _ Hi). }
    assert (Kr' : keysP (ky k) r').
    { apply (pm_step_keys (ky k) other q r r' So Sr Es Kr). intros m c Hm qq _. destruct (Oo _ _ Hm) as (A & B & C & D). unfold ky, mmul, qq in *. cbn [mx my]. lia. }
    destruct (IH r' s Sr' Kr' H) as (Ss & c & Kc & Fk). split; [exact Ss|].
    match type of F with feqm q r' (fsub r (conv ?u0 other)) => exists (fadd c u0); set (u := u0) in * end. split.
    { intros m d Hi. apply in_app_iff in Hi. destruct Hi as [Hi|[Ei|[]]]; [exact (Kc m d Hi)|]. injection Ei; intros; subst. unfold ky in *. cbn [mx my]. lia. }
    assert (G: feqm q r (fadd r' (conv u other))) by (rewrite F; unfold fsub; intros m; unfold fadd; rewrite !coef_app, coef_neg; exists 0; ring).
    rewrite G, Fk. intros m. unfold fadd. rewrite !coef_app.
    assert (feq (conv other (c ++ u)) (fadd (conv other c) (conv u other))) as E'.
    { change (c ++ u) with (fadd c u). rewrite (conv_comm other (fadd c u)), conv_add_l, (conv_comm c other). reflexivity. }
    rewrite (E' m). unfold fadd. rewrite coef_app. exists 0. ring.
Qed.
Lemma pm_zero k fuel u other w : k <= 0 -> sorted other -> only_x other -> sorted u -> keysP (ky k) u -> polynomial_modular fuel u other q = Ok w -> is_zero w = true ->
  exists c, keysP (ky k) c /\ feqm q u (conv other c).
Proof.
  intros Hk So Oo Su Ku H Z0. pose proof q2. unfold polynomial_modular in H. apply bind_Ok in H. destruct H as (? & _ & H). apply bind_Ok in H. destruct H as (? & _ & H). cbv zeta in H.
  apply bind_Ok in H. destruct H as (s & E & H). destruct (pm_ky k other Hk So Oo _ _ _ Su Ku E) as (Ss & c & Kc & F). exists c. split; [exact Kc|].
  rewrite modular_assign_eq in H by (try lia; exact Ss). assert (Ew : redp q s = w) by congruence. assert (w = []) as -> by (destruct w; [reflexivity|discriminate]).
  apply redp_nil_iff in Ew; [|lia|exact Ss]. rewrite F, Ew. apply feq_feqm. intros m. unfold fadd. rewrite coef_app. cbn. ring.
Qed.
Lemma only_x_nonneg u : only_x u -> nonneg_xy u.
Proof. intros O m c I. destruct (O m c I) as (A & B & _). lia. Qed.
Lemma good_ky u : good u -> keysP (ky 0) u.
Proof. intros (_ & K) m c I. destruct (K m c I) as (A & B & _). unfold ky. lia. Qed.
Lemma vl_pm fuel u other w s : only_x other -> vl other 0 -> vl u s -> polynomial_modular fuel u other q = Ok w -> is_zero w = true -> (q | s).
Proof.
  intros Oo ((So & _) & Do) ((Su & Ku) & Du) H Z0. destruct (pm_zero 0 fuel u other w ltac:(lia) So Oo Su (good_ky u (conj Su Ku)) H Z0) as (c & Kc & F).
  pose proof (fval_feqm q x y _ _ F) as D. rewrite fval_conv in D; [|apply only_x_nonneg, Oo|intros m d I; destruct (Kc m d I); lia].
  replace s with ((fval x y u - fval x y other * fval x y c) + (fval x y other - 0) * fval x y c - (fval x y u - s)) by ring. apply Z.divide_sub_r; [|exact Du]. apply Z.divide_add_r; [exact D|]. apply Z.divide_mul_l, Do.
Qed.
(** division by y, then polynomial_modular. *)
Lemma vl_div_pm fuel u d other w s : only_x other -> vl other 0 -> vl u s -> p_div_t u (ty 1) = Ok d -> (exists d', modular_assign d q = Ok d' /\ polynomial_modular fuel d' other q = Ok w) -> is_zero w = true -> (q | s).
Proof.
  intros Oo ((So & _) & Do) ((Su & Ku) & Du) Hd (d' & Hd' & H) Z0. pose proof q2. unfold p_div_t in Hd. change (to_pol (ty 1)) with [(mkMono 0 1 0 None, 1)] in Hd.
  destruct (p_div_single u (mkMono 0 1 0 None) 1 ltac:(lia) eq_refl Su) as (d0 & E0 & Sd & Id).
  { intros m c I. destruct (Ku m c I) as (A & B & C & _). unfold i32_mono, i32_range, i32_min, i32_max in *. cbn. lia. }
  assert (d0 = d) as -> by congruence. rewrite modular_assign_eq in Hd' by (try lia; exact Sd). assert (redp q d = d') as <- by congruence.
  assert (Kd : keysP (ky (-1)) d). { intros m c I. apply Id in I as (k & e & I & -> & ->). destruct (Ku k e I) as (A & B & _). unfold ky; cbn [mx my]. lia. }
  destruct (pm_zero (-1) fuel (redp q d) other w ltac:(lia) So Oo (redp_sorted q d Sd) (redp_keys _ q d Kd) H Z0) as (c & Kc & F).
  assert (Fu : feq u (conv [(mkMono 0 1 0 None, 1)] d)).
  { intros m. rewrite coef_conv1 by reflexivity. rewrite Z.mul_1_l. unfold mdiv; cbn [mx my mq mv].
    destruct (Z.eq_dec (coef u m) 0) as [E|N].
    - rewrite E. symmetry. destruct (Z.eq_dec (coef d (mkMono (mx m - 0) (my m - 1) (mq m - 0) (mv m))) 0) as [|N]; [assumption|]. apply coef_in in N as (e & I). pose proof (sorted_coef d _ e Sd I) as E1.
      apply Id in I as (k & e' & I & Ek & ->). assert (k = m). { destruct k, m; cbn in Ek. injection Ek; intros; subst. f_equal; lia. } subst k. rewrite (sorted_coef u m e' Su I) in E. rewrite E1, E. apply Z.div_0_l. lia.
    - apply coef_in in N as (e & I). rewrite (sorted_coef u m e Su I). symmetry. apply sorted_coef; [exact Sd|]. apply Id. exists m, e. rewrite Z.div_1_r. cbn [mx my mq]. auto. }
  assert (F2 : feqm q u (conv other (conv [(mkMono 0 1 0 None, 1)] c))).
  { rewrite (feq_feqm q _ _ Fu). rewrite <- (redp_feqm q d ltac:(lia) Sd). rewrite F. generalize [(mkMono 0 1 0 None, 1)]. intros z. apply feq_feqm. ring. }
  pose proof (fval_feqm q x y _ _ F2) as D. rewrite fval_conv in D; [|apply only_x_nonneg, Oo|].
  2:{ intros m e I. apply in_conv in I as (m1 & c1 & m2 & c2 & I1 & I2 & -> & _). destruct I1 as [I1|[]]. injection I1; intros; subst. destruct (Kc _ _ I2). unfold mmul; cbn [mx my]. lia. }
  set (c' := conv [(mkMono 0 1 0 None, 1)] c) in *.
  replace s with ((fval x y u - fval x y other * fval x y c') + (fval x y other - 0) * fval x y c' - (fval x y u - s)) by ring. apply Z.divide_sub_r; [|exact Du]. apply Z.divide_add_r; [exact D|]. apply Z.divide_mul_l, Do.
Qed.
(** division polynomials of small index. *)
Lemma ykey_gk k B m : 0 <= k <= 1 -> B <= i32_max -> ykey k B m -> gk m.
Proof. intros Hk HB (A & C & D & F). unfold gk. unfold i32_max in *. repeat split; try assumption; lia. Qed.
Lemma psi_small n r : 0 <= n <= 5 -> psi a b n = Ok r -> good r.
Proof.
  intros Hn E. destruct (Z.odd n) eqn:O.
  - destruct (psi_O a b n ltac:(lia) O) as (r' & f & E' & [R _ _]). assert (r' = r) as -> by congruence. split; [apply R|]. intros m c I. apply R in I. revert I. apply ykey_gk; [lia|].
    assert (0 <= (n - 1) / 2 <= 2). { destruct (Z.eq_dec n 0) as [-> | N]; [discriminate|]. split; [apply Z.div_pos; lia|]. assert ((n - 1) / 2 < 3); [apply Z.div_lt_upper_bound; lia|lia]. } unfold i32_max. nia.
  - destruct (psi_E a b n ltac:(lia) O) as (r' & f & E' & [R _ _]). assert (r' = r) as -> by congruence. split; [apply R|]. intros m c I. apply R in I. revert I. apply ykey_gk; [lia|].
    assert (0 <= n / 2 <= 2). { split; [apply Z.div_pos; lia|]. assert (n / 2 < 3); [apply Z.div_lt_upper_bound; lia|lia]. } unfold i32_max. nia.
Qed.
Lemma phi_small n r : 1 <= n <= 5 -> phi a b n = Ok r -> good r.
Proof.
  intros Hn E. destruct (phi_good a b n ltac:(lia)) as (r' & ? & ? & ? & f & E' & _ & _ & _ & (R & _) & _). assert (r' = r) as -> by congruence. split; [apply R|]. intros m c I. apply R in I. revert I. apply ykey_gk; [lia|]. unfold i32_max. nia.
Qed.
Lemma omega_small n r : 1 <= n <= 5 -> omega a b n = Ok r -> good r.
Proof.
  intros Hn E. destruct (Z.eq_dec n 1) as [-> | N].
  - rewrite c50_omega_one in E. assert (fmono 1 0 1 0 = r) as <- by congruence. split; [split; [intros ? ? []|exact I]|]. intros m c [H|[]]. unfold fmono in H. injection H; intros; subst. unfold gk, i32_max; cbn. repeat split; lia.
  - destruct (omega_good a b n ltac:(lia)) as (r' & ? & ? & ? & ? & f & E' & _ & _ & _ & _ & R & _). assert (r' = r) as -> by congruence. unfold InvOm in R.
    assert (NB : 3 * (n * n) / 2 <= 100). { assert (3 * (n * n) / 2 < 101); [apply Z.div_lt_upper_bound; nia|lia]. }
    destruct (Z.odd n); destruct R as (R & _); (split; [apply R|]); intros m c I; apply R in I; revert I; (apply ykey_gk; [lia|unfold i32_max; lia]).
Qed.
Lemma psi_vl n r : 0 <= n <= 5 -> psi a b n = Ok r -> vl r (fval x y r).
Proof. intros Hn E. split; [exact (psi_small n r Hn E)|]. rewrite Z.sub_diag. apply Z.divide_0_r. Qed.
Lemma phi_vl n r : 1 <= n <= 5 -> phi a b n = Ok r -> vl r (fval x y r).
Proof. intros Hn E. split; [exact (phi_small n r Hn E)|]. rewrite Z.sub_diag. apply Z.divide_0_r. Qed.
Lemma omega_vl n r : 1 <= n <= 5 -> omega a b n = Ok r -> vl r (fval x y r).
Proof. intros Hn E. split; [exact (omega_small n r Hn E)|]. rewrite Z.sub_diag. apply Z.divide_0_r. Qed.

(** x^(q^2), y^(q^2) *)
Variable q2' : Z.
Hypothesis Hq2 : q2' = q ^ 2 /\ 0 <= q2' <= i32_max.
Lemma gk_tx : gk (tm (tx q2')).
Proof. unfold gk; cbn. destruct Hq2 as (_ & B). unfold i32_max in *. repeat split; lia. Qed.
Lemma gk_ty : gk (tm (ty q2')).
Proof. unfold gk; cbn. destruct Hq2 as (_ & B). unfold i32_max in *. repeat split; lia. Qed.
Lemma vl_tx u w s : t_mul_p (tx q2') u = Ok w -> vl u s -> vl w (x * s).
Proof.
  intros H V. apply (vl_cong _ _ _ (vl_t_mul _ _ _ _ H gk_tx V)). destruct Hq2 as (-> & _). cbn [tx tb_build tb_xpow tb_new b_coef b_x b_y b_q b_v tc tm]. unfold mval; cbn [mx my]. rewrite Z.pow_0_r.
  replace (1 * (x ^ q ^ 2 * 1) * s - x * s) with ((x ^ q ^ 2 - x) * s) by ring. apply Z.divide_mul_l, fermat_power; [exact Pq|lia].
Qed.
Lemma vl_tx2 u w s : t_mul_p (tb_build (tb_xpow q2' (tb_coef 2 tb_new))) u = Ok w -> vl u s -> vl w (2 * x * s).
Proof.
  intros H V. apply (vl_cong _ _ _ (vl_t_mul _ _ _ _ H gk_tx V)). destruct Hq2 as (-> & _). cbn [tb_build tb_coef tb_xpow tb_new b_coef b_x b_y b_q b_v tc tm]. unfold mval; cbn [mx my]. rewrite Z.pow_0_r.
  replace (2 * (x ^ q ^ 2 * 1) * s - 2 * x * s) with ((x ^ q ^ 2 - x) * (2 * s)) by ring. apply Z.divide_mul_l, fermat_power; [exact Pq|lia].
Qed.
Lemma vl_ty u w s : t_mul_p (ty q2') u = Ok w -> vl u s -> vl w (y * s).
Proof.
  intros H V. apply (vl_cong _ _ _ (vl_t_mul _ _ _ _ H gk_ty V)). destruct Hq2 as (-> & _). cbn [ty tb_build tb_ypow tb_new b_coef b_x b_y b_q b_v tc tm]. unfold mval; cbn [mx my]. rewrite Z.pow_0_r.
  replace (1 * (1 * y ^ q ^ 2) * s - y * s) with ((y ^ q ^ 2 - y) * s) by ring. apply Z.divide_mul_l, fermat_power; [exact Pq|lia].
Qed.
Lemma vl_ty_pol : vl (to_pol (ty q2')) y.
Proof.
  split; [split; [apply to_pol_sorted|apply to_pol_keys, gk_ty]|]. rewrite (fval_feq x y _ _ (to_pol_feq _)). destruct Hq2 as (-> & _). cbn [ty tb_build tb_ypow tb_new b_coef b_x b_y b_q b_v tc tm fval]. unfold mval; cbn [mx my]. rewrite Z.pow_0_r.
  replace (1 * (1 * y ^ q ^ 2) + 0 - y) with (y ^ q ^ 2 - y) by ring. apply fermat_power; [exact Pq|lia].
Qed.
Ltac bd H z Hz := apply bind_Ok in H; destruct H as (z & Hz & H).
(** Stage 1. *)
Lemma num1_den1_val ql ps ph om num1 den1 : 1 <= ql <= 5 -> psi a b ql = Ok ps -> phi a b ql = Ok ph -> omega a b ql = Ok om ->
  schoof_num1_den1 a b q ql q2' = Ok (num1, den1) ->
  let s := fval x y ps in let f := fval x y ph in let w := fval x y om in
  vl num1 ((w - y * s ^ 3) ^ 2 - (f + x * s ^ 2) * (f - x * s ^ 2) ^ 2) /\ vl den1 (s ^ 2 * (f - x * s ^ 2) ^ 2).
Proof.
  intros Hl E1 E2 E3 H s f w. pose proof (psi_vl ql ps ltac:(lia) E1) as Vs. pose proof (phi_vl ql ph ltac:(lia) E2) as Vf. pose proof (omega_vl ql om ltac:(lia) E3) as Vw. fold s in Vs. fold f in Vf. fold w in Vw.
  unfold schoof_num1_den1, psi_pow in H. rewrite E1, E2, E3 in H. cbn [bind] in H.
  bd H nn1 H1. bd H ps3 H2. bd H nn2 H3. bd H nn2' H4. bd H n1 H5. bd H n1' H6. bd H ps2 H7. bd H xps2 H8. cbv zeta in H. bd H n3 H9. bd H n23 H10. bd H m1 H11. bd H m2 H12. bd H e1 H13. bd H e2 H14.
  assert (m2 = num1) as -> by congruence. assert (e2 = den1) as -> by congruence. clear H.
  pose proof (vl_redmod _ _ _ H1 Vw) as V1. pose proof (vl_pow _ _ _ _ H2 Vs) as V2. pose proof (vl_ty _ _ _ H3 V2) as V3. pose proof (vl_redmod _ _ _ H4 V3) as V4.
  pose proof (vl_pow _ _ _ _ H5 (vl_sub _ _ _ _ V1 V4)) as V5. pose proof (vl_modular _ _ _ H6 V5) as V6. pose proof (vl_pow _ _ _ _ H7 Vs) as V7. pose proof (vl_tx _ _ _ H8 V7) as V8.
  pose proof (vl_pow _ _ _ _ H9 (vl_sub _ _ _ _ Vf V8)) as V9. pose proof (vl_mul _ _ _ _ _ H10 (vl_neg _ _ (vl_add _ _ _ _ Vf V8)) V9) as V10.
  pose proof (vl_modular _ _ _ H11 (vl_add _ _ _ _ V6 V10)) as V11. pose proof (vl_redmod _ _ _ H12 V11) as V12. pose proof (vl_mul _ _ _ _ _ H13 V7 V9) as V13. pose proof (vl_redmod _ _ _ H14 V13) as V14.
  split; [|exact V14]. apply (vl_cong _ _ _ V12). match goal with |- (_ | ?z) => replace z with 0 by ring end. apply Z.divide_0_r.
Qed.
(** Stage 2. *)
Lemma find_j_val fuel num1 den1 psi_l n d : only_x psi_l -> vl psi_l 0 -> vl num1 n -> vl den1 d -> forall js j, (forall k, In k js -> 1 <= k <= 5) ->
  schoof_find_j fuel a b q num1 den1 psi_l js = Ok (Some j) ->
  In j js /\ exists ps ph, psi a b j = Ok ps /\ phi a b j = Ok ph /\ (q | n * fval x y ps ^ 2 - fval x y ph * d).
Proof.
  intros Ol Vl Vn Vd. pose proof q2 as Q2. induction js as [|k js IH]; intros j Hj H; [discriminate|]. cbn [schoof_find_j] in H.
  bd H num2 H1. bd H num2' H2. bd H num3 H3. bd H den2 H4. bd H den2' H5. bd H den3 H6. bd H u H7. bd H v H8. bd H p1 H9. bd H p2 H10. bd H p3 H11. bd H p4 H12.
  assert (Hk : 1 <= k <= 5) by (apply Hj; left; reflexivity).
  pose proof (phi_vl k num2 Hk H1) as V1. pose proof (psi_vl k den2 ltac:(lia) H4) as V4.
  pose proof (vl_redmod _ _ _ H3 (vl_frob _ _ _ H2 V1)) as V3. pose proof (vl_pow _ _ _ _ H6 (vl_frob _ _ _ H5 V4)) as V6.
  pose proof (vl_mul _ _ _ _ _ H7 Vn V6) as V7. pose proof (vl_mul _ _ _ _ _ H8 V3 Vd) as V8. pose proof (vl_redmod _ _ _ H10 (vl_modular _ _ _ H9 (vl_sub _ _ _ _ V7 V8))) as V10.
  destruct (is_zero p4) eqn:Z0.
  - assert (k = j) as <- by congruence. split; [left; reflexivity|]. exists den2, num2. split; [exact H4|]. split; [exact H1|].
    assert (Z3 : is_zero p3 = true).
    { unfold polynomial_modular in H11. apply bind_Ok in H11. destruct H11 as (? & _ & H11). apply bind_Ok in H11. destruct H11 as (? & _ & H11). cbv zeta in H11. bd H11 s E. pose proof V10 as ((S10 & K10) & _).
      pose proof Vl as ((Sl & _) & _). destruct (pm_ky 0 psi_l ltac:(lia) Sl Ol _ _ _ S10 (good_ky _ (conj S10 K10)) E) as (Ss & _).
      rewrite modular_assign_eq in H11 by (try lia; exact Ss). assert (redp q s = p3) as <- by congruence. rewrite modular_assign_eq in H12 by (try lia; apply redp_sorted, Ss).
      rewrite redp_id in H12 by (try lia; auto using redp_sorted; apply redp_reduced; lia). assert (redp q s = p4) as -> by congruence. exact Z0. }
    exact (vl_pm _ _ _ _ _ Ol Vl V10 H11 Z3).
  - destruct (IH j (fun k' I => Hj k' (or_intror I)) H) as (I & R). split; [right; exact I|exact R].
Qed.
(** Stage 3. *)
Lemma found_val fuel l ql psi_l jj m ps ph om : 1 <= ql <= 5 -> 1 <= jj <= 5 -> jj < l -> only_x psi_l -> vl psi_l 0 -> psi a b ql = Ok ps -> phi a b ql = Ok ph -> omega a b ql = Ok om ->
  schoof_found fuel a b q l ql q2' psi_l jj = Ok m -> mr_l m = l /\
  (mr_r m = l - jj \/ mr_r m = jj /\ exists psj omj, psi a b jj = Ok psj /\ omega a b jj = Ok omj /\
    let s := fval x y ps in let f := fval x y ph in let w := fval x y om in
    let d := w - y * s ^ 3 in let e := - f + 2 * x * s ^ 2 in let g := f - x * s ^ 2 in
    (q | (d * (e * g ^ 2 - d ^ 2) - y * s ^ 3 * g ^ 3) * s * fval x y psj ^ 3 - fval x y omj * (s ^ 3 * g ^ 3 * s))).
Proof.
  intros Hl Hj Hjl Ol Vl E1 E2 E3 H. pose proof (psi_vl ql ps ltac:(lia) E1) as Vs. pose proof (phi_vl ql ph ltac:(lia) E2) as Vf. pose proof (omega_vl ql om ltac:(lia) E3) as Vw. set (s := fval x y ps) in *. set (f := fval x y ph) in *. set (w := fval x y om) in *.
  unfold schoof_found, psi_pow in H. rewrite E1, E2, E3 in H. cbn [bind] in H.
  bd H g H1. bd H omg H2. bd H ps3 H3. bd H gps3 H4. bd H d H5. bd H ps2 H6. bd H x2ps2 H7. bd H e H8. bd H e' H9. bd H xps2 H10. bd H f1 H11. bd H f1' H12. bd H f2 H13. bd H ef2 H14. bd H d2 H15. bd H dd H16. bd H f3 H17. bd H gps3f3 H18. bd H num3 H19.
  bd H num3' H20. bd H num3'' H21. bd H den3 H22. bd H den3' H23. bd H den3'' H24. bd H num4 H25. bd H num4' H26. bd H num4'' H27. bd H den4 H28. bd H den4' H29. bd H den4'' H30. bd H den5 H31. bd H u H32. bd H v H33. bd H p7 H34. bd H p8 H35. bd H p9 H36. bd H p9' H37. bd H p9'' H38.
  pose proof (vl_redmod _ _ _ H1 vl_ty_pol) as V1. pose proof (vl_modular _ _ _ H2 Vw) as V2. pose proof (vl_pow _ _ _ _ H3 Vs) as V3. pose proof (vl_mul _ _ _ _ _ H4 V1 V3) as V4.
  pose proof (vl_redmod _ _ _ H5 (vl_sub _ _ _ _ V2 V4)) as V5. pose proof (vl_pow _ _ _ _ H6 Vs) as V6. pose proof (vl_tx2 _ _ _ H7 V6) as V7. pose proof (vl_redmod _ _ _ H9 (vl_modular _ _ _ H8 (vl_add _ _ _ _ (vl_neg _ _ Vf) V7))) as V9.
  pose proof (vl_tx _ _ _ H10 V6) as V10. pose proof (vl_redmod _ _ _ H12 (vl_modular _ _ _ H11 (vl_sub _ _ _ _ Vf V10))) as V12. pose proof (vl_pow _ _ _ _ H13 V12) as V13. pose proof (vl_mul _ _ _ _ _ H14 V9 V13) as V14.
  pose proof (vl_pow _ _ _ _ H15 V5) as V15. pose proof (vl_mul _ _ _ _ _ H16 V5 (vl_sub _ _ _ _ V14 V15)) as V16. pose proof (vl_pow _ _ _ _ H17 V12) as V17. pose proof (vl_mul _ _ _ _ _ H18 V4 V17) as V18.
  pose proof (vl_redmod _ _ _ H19 (vl_sub _ _ _ _ V16 V18)) as V19. unfold p_mul_assign in H20. pose proof (vl_redmod _ _ _ H21 (vl_mul _ _ _ _ _ H20 V19 Vs)) as V21.
  pose proof (vl_mul _ _ _ _ _ H22 V3 V17) as V22. pose proof (vl_redmod _ _ _ H24 (vl_mul _ _ _ _ _ H23 V22 Vs)) as V24.
  pose proof (omega_vl jj num4 Hj H25) as V25. pose proof (vl_redmod _ _ _ H27 (vl_frob _ _ _ H26 V25)) as V27. pose proof (psi_vl jj den4 ltac:(lia) H28) as V28.
  pose proof (vl_redmod _ _ _ H31 (vl_pow _ _ _ _ H30 (vl_frob _ _ _ H29 V28))) as V31. pose proof (vl_mul _ _ _ _ _ H32 V21 V31) as V32. pose proof (vl_mul _ _ _ _ _ H33 V27 V24) as V33.
  pose proof (vl_redmod _ _ _ H35 (vl_modular _ _ _ H34 (vl_sub _ _ _ _ V32 V33))) as V35.
  cbv zeta in H. destruct (is_zero p9'') eqn:Z0; cbn [negb] in H.
  - replace (jj <? 0) with false in H by lia. assert (m = mkMod l jj) as -> by congruence. split; [reflexivity|]. right. split; [reflexivity|]. exists den4, num4. split; [exact H28|]. split; [exact H25|]. cbv zeta.
    assert (D := fun s0 (V : vl p8 s0) => match has_y p8 as b0 return ((if b0 then p_div_t p8 (ty 1) else Ok p8) = Ok p9 -> (q | s0)) with
      | true => fun E => vl_div_pm _ _ _ _ _ _ Ol Vl V E (ex_intro _ p9' (conj H37 H38)) Z0
      | false => fun E => vl_pm _ _ _ _ _ Ol Vl (vl_modular _ _ _ H37 (eq_ind p8 (fun z => vl z s0) V p9 (f_equal (fun r => match r with Ok z => z | _ => p8 end) E))) H38 Z0 end H36).
    exact (D _ V35).
  - replace (- jj <? 0) with true in H by lia. assert (m = mkMod l (- jj + l)) as -> by congruence. split; [reflexivity|]. left. cbn [mr_r]. ring.
Qed.
End Val.
