(** Lemmas behind the property theorems C29-C38. *)
From Coq Require Import Znumtheory ZifyBool Setoid Morphisms Ring.
From Verif Require Import Prelude M_Bigint M_Variable M_Term M_Poly Spec P_Bigint P_Variable P_FSum P_Poly P_Rem P_PolyProps P_Subst P_Subst2 P_Subst3.
Open Scope Z_scope.

(** C29: coefficient of m in the derivative is (exponent+1) times the coefficient one degree up; the
    result is in normal form. *)
Lemma c29_derivative_x : forall a, sorted a -> (forall m c, In (m, c) a -> 0 <= mx m) ->
  exists r, derivative_x a = Ok r /\ sorted r /\ no_zero r /\
    forall m, coef r m = (mx m + 1) * coef a (set_x (mx m + 1) m).
Proof.
  intros a Hs H. destruct (derivative_x_spec a Hs H) as (r & E & Sr & Nr & F & _). exists r. split; [exact E|]. split; [exact Sr|].
  split; [exact Nr|]. intros m. rewrite F. apply coef_fdx.
Qed.
Lemma c29_derivative_y : forall a, sorted a -> (forall m c, In (m, c) a -> 0 <= my m) ->
  exists r, derivative_y a = Ok r /\ sorted r /\ no_zero r /\
    forall m, coef r m = (my m + 1) * coef a (set_y (my m + 1) m).
Proof.
  intros a Hs H. destruct (derivative_y_spec a Hs H) as (r & E & Sr & Nr & F & _). exists r. split; [exact E|]. split; [exact Sr|].
  split; [exact Nr|]. intros m. rewrite F. apply coef_fdy.
Qed.
(** C29: additive and Leibniz, as polynomials (equal coefficients). *)
Lemma c29_add : forall a b, sorted a -> sorted b -> nonneg_xy a -> nonneg_xy b ->
  exists da db ds ea eb es, derivative_x a = Ok da /\ derivative_x b = Ok db /\ derivative_x (p_add a b) = Ok ds /\
    derivative_y a = Ok ea /\ derivative_y b = Ok eb /\ derivative_y (p_add a b) = Ok es /\
    feq ds (fadd da db) /\ feq es (fadd ea eb).
Proof.
  intros a b Sa Sb Na Nb.
  assert (Ns: nonneg_xy (p_add a b)) by (apply (p_add_keys (fun m => 0 <= mx m /\ 0 <= my m)); assumption).
  pose proof (p_add_sorted b a Sa) as Ss.
  destruct (derivative_x_spec a Sa) as (da & Ea & _ & _ & Fa & _); [intros; eapply Na; eassumption|].
  destruct (derivative_x_spec b Sb) as (db & Eb & _ & _ & Fb & _); [intros; eapply Nb; eassumption|].
  destruct (derivative_x_spec (p_add a b) Ss) as (ds & Es & _ & _ & Fs & _); [intros; eapply Ns; eassumption|].
  destruct (derivative_y_spec a Sa) as (ea & Ea' & _ & _ & Fa' & _); [intros; eapply Na; eassumption|].
  destruct (derivative_y_spec b Sb) as (eb & Eb' & _ & _ & Fb' & _); [intros; eapply Nb; eassumption|].
  destruct (derivative_y_spec (p_add a b) Ss) as (es & Es' & _ & _ & Fs' & _); [intros; eapply Ns; eassumption|].
  exists da, db, ds, ea, eb, es. split; [exact Ea|]. split; [exact Eb|]. split; [exact Es|]. split; [exact Ea'|]. split; [exact Eb'|]. split; [exact Es'|].
  split; intros m; unfold fadd; rewrite coef_app.
  - rewrite Fs, Fa, Fb, !coef_fdx, p_add_coef by exact Sa. ring.
  - rewrite Fs', Fa', Fb', !coef_fdy, p_add_coef by exact Sa. ring.
Qed.
Lemma c29_leibniz : forall a b c, sorted a -> sorted b -> nonneg_xy a -> nonneg_xy b -> p_mul a b = Ok c ->
  exists da db dc ea eb ec, derivative_x a = Ok da /\ derivative_x b = Ok db /\ derivative_x c = Ok dc /\
    derivative_y a = Ok ea /\ derivative_y b = Ok eb /\ derivative_y c = Ok ec /\
    feq dc (fadd (conv da b) (conv a db)) /\ feq ec (fadd (conv ea b) (conv a eb)).
Proof.
  intros a b c Sa Sb Na Nb Hc.
  assert (Nc: nonneg_xy c).
  { apply (p_mul_keys (fun m => 0 <= mx m /\ 0 <= my m) (fun m => 0 <= mx m /\ 0 <= my m) _ a b c Hc Na Nb). intros m1 m2 A B _. cbn. lia. }
  pose proof (p_mul_sorted _ _ _ Hc) as Sc. pose proof (p_mul_feq _ _ _ Hc) as Fm.
  destruct (derivative_x_spec a Sa) as (da & Ea & _ & _ & Fa & _); [intros; eapply Na; eassumption|].
  destruct (derivative_x_spec b Sb) as (db & Eb & _ & _ & Fb & _); [intros; eapply Nb; eassumption|].
  destruct (derivative_x_spec c Sc) as (dc & Ec & _ & _ & Fc & _); [intros; eapply Nc; eassumption|].
  destruct (derivative_y_spec a Sa) as (ea & Ea' & _ & _ & Fa' & _); [intros; eapply Na; eassumption|].
  destruct (derivative_y_spec b Sb) as (eb & Eb' & _ & _ & Fb' & _); [intros; eapply Nb; eassumption|].
  destruct (derivative_y_spec c Sc) as (ec & Ec' & _ & _ & Fc' & _); [intros; eapply Nc; eassumption|].
  exists da, db, dc, ea, eb, ec. split; [exact Ea|]. split; [exact Eb|]. split; [exact Ec|]. split; [exact Ea'|]. split; [exact Eb'|]. split; [exact Ec'|].
  split.
  - rewrite Fc, Fa, Fb. transitivity (fdx (conv a b)); [apply feqm_0, fdx_proper, feqm_0, Fm|apply fdx_conv].
  - rewrite Fc', Fa', Fb'. transitivity (fdy (conv a b)); [apply feqm_0, fdy_proper, feqm_0, Fm|apply fdy_conv].
Qed.
(** C29: a negative exponent panics. *)
Lemma deriv_panics (g : mono * Z -> res term) : forall (a : poly) s m c, (forall e, g e <> NoFuel) -> In (m, c) a -> g (m, c) = Panic ->
  foldM (fun pol (e : mono * Z) => t <- g e ;; Ok (if negb (tc t =? 0) then bm_insert (tm t) (tc t) pol else pol)) a s = Panic.
Proof.
  induction a as [|e a IH]; intros s m c N Hi H; [destruct Hi|]. cbn [foldM].
  destruct (g e) as [t| |] eqn:E; cbn [bind]; [|reflexivity|apply N in E; contradiction].
  destruct Hi as [->|Hi]; [congruence|]. eapply IH; eassumption.
Qed.
Lemma c29_panics : forall a m c, In (m, c) a ->
  (mx m < 0 -> derivative_x a = Panic) /\ (my m < 0 -> derivative_y a = Panic).
Proof.
  intros a m c Hi. split; intros H.
  - apply (deriv_panics (fun e => term_derivative_x (mkTerm (snd e) (fst e))) a p_new m c); [|exact Hi|].
    + intros [k d]. unfold term_derivative_x. cbn. destruct (0 <=? mx k); cbn; [|discriminate]. destruct (0 <? mx k); discriminate.
    + unfold term_derivative_x. cbn. destruct (0 <=? mx m) eqn:E; [lia|reflexivity].
  - apply (deriv_panics (fun e => term_derivative_y (mkTerm (snd e) (fst e))) a p_new m c); [|exact Hi|].
    + intros [k d]. unfold term_derivative_y. cbn. destruct (0 <=? my k); cbn; [|discriminate]. destruct (0 <? my k); discriminate.
    + unfold term_derivative_y. cbn. destruct (0 <=? my m) eqn:E; [lia|reflexivity].
Qed.
Example c29_case : let a := [(mkMono 0 3 0 None, 7); (mkMono 2 1 0 None, -4); (mkMono 5 0 0 None, 2)] in
  sorted a /\ nonneg_xy a /\ derivative_x a = Ok [(mkMono 1 1 0 None, -8); (mkMono 4 0 0 None, 10)] /\
  derivative_y a = Ok [(mkMono 0 2 0 None, 21); (mkMono 2 0 0 None, -4)].
Proof.
  cbv zeta. split; [|split; [|split; reflexivity]].
  - csorted.
  - intros m c H. in_cases H; cbn; lia.
Qed.

(** C30: for n >= 1 the power substitutions move every coefficient to the monomial with multiplied
    exponents, keep exactly the terms they are given, and return exactly when the exponents fit i32. *)
Lemma c30_to_frob : forall a n, sorted a -> 1 <= n -> (forall m c, In (m, c) a -> i32_range (mx m * n) /\ i32_range (my m * n)) ->
  exists r, to_frob a n = Ok r /\ sorted r /\ (forall m c, In (m, c) r <-> exists k, In (k, c) a /\ m = frob n k) /\
    (forall m, coef r (frob n m) = coef a m).
Proof.
  intros a n Hs Hn Hr. destruct (to_frob_spec a n Hs) as (r & E & Sr & K & F); [intros m c m' c' _ _ H; apply (frob_inj n); [lia|exact H]|exact Hr|].
  exists r. split; [exact E|]. split; [exact Sr|]. split; [intros m c; rewrite K; apply fmap_in|].
  intros m. rewrite F. apply coef_fmap_inj. intros k. apply frob_inj. lia.
Qed.
Lemma c30_to_y_power : forall a n, sorted a -> 1 <= n -> (forall m c, In (m, c) a -> i32_range (my m * n)) ->
  exists r, to_y_power a n = Ok r /\ sorted r /\ (forall m c, In (m, c) r <-> exists k, In (k, c) a /\ m = ypower n k) /\
    (forall m, coef r (ypower n m) = coef a m).
Proof.
  intros a n Hs Hn Hr. destruct (to_y_power_spec a n Hs) as (r & E & Sr & K & F); [intros m c m' c' _ _ H; apply (ypower_inj n); [lia|exact H]|exact Hr|].
  exists r. split; [exact E|]. split; [exact Sr|]. split; [intros m c; rewrite K; apply fmap_in|].
  intros m. rewrite F. apply coef_fmap_inj. intros k. apply ypower_inj. lia.
Qed.
Lemma c30_to_q_power : forall a n, sorted a -> 1 <= n -> (forall m c, In (m, c) a -> i32_range (mq m * n)) ->
  exists r, to_q_power a n = Ok r /\ sorted r /\ (forall m c, In (m, c) r <-> exists k, In (k, c) a /\ m = qpower n k) /\
    (forall m, coef r (qpower n m) = coef a m).
Proof.
  intros a n Hs Hn Hr. destruct (to_q_power_spec a n Hs) as (r & E & Sr & K & F); [intros m c m' c' _ _ H; apply (qpower_inj n); [lia|exact H]|exact Hr|].
  exists r. split; [exact E|]. split; [exact Sr|]. split; [intros m c; rewrite K; apply fmap_in|].
  intros m. rewrite F. apply coef_fmap_inj. intros k. apply qpower_inj. lia.
Qed.
(** The same results as sums: what the substitutions return, whenever they return. *)
Lemma sub_inv (g : mono * Z -> res term) (f : mono -> mono) (P : mono -> Prop) :
  (forall m c t, g (m, c) = Ok t -> P m) -> forall (a : poly) s r,
  foldM (fun pol e => u <- g e ;; Ok (bm_insert (tm u) (tc u) pol)) a s = Ok r -> forall m c, In (m, c) a -> P m.
Proof.
  intros HP a s r H m c Hi. destruct (foldM_all _ _ _ _ H _ Hi) as (s1 & s2 & E). apply bind_Ok in E. destruct E as (t & Et & _). eapply HP, Et.
Qed.
Lemma to_frob_Ok a n r : sorted a -> 1 <= n -> to_frob a n = Ok r -> feq r (fmap (frob n) a).
Proof.
  intros Hs Hn H.
  assert (R: forall m c, In (m, c) a -> i32_range (mx m * n) /\ i32_range (my m * n)).
  { refine (sub_inv (fun e => term_to_frob (mkTerm (snd e) (fst e)) n) (frob n) _ _ a _ _ H).
    intros m c t E. unfold term_to_frob in E. cbn [tm tc fst snd] in E. apply bind_Ok in E. destruct E as (x & Ex & E). apply bind_Ok in E. destruct E as (y & Ey & _).
    apply i32_inv in Ex. apply i32_inv in Ey. unfold i32_range. tauto. }
  destruct (to_frob_spec a n Hs) as (r' & E & _ & _ & F); [intros m c m' c' _ _ E'; apply (frob_inj n); [lia|exact E']|exact R|]. congruence.
Qed.
Lemma to_y_power_Ok a n r : sorted a -> 1 <= n -> to_y_power a n = Ok r -> feq r (fmap (ypower n) a).
Proof.
  intros Hs Hn H.
  assert (R: forall m c, In (m, c) a -> i32_range (my m * n)).
  { refine (sub_inv (fun e => term_to_y_power (mkTerm (snd e) (fst e)) n) (ypower n) _ _ a _ _ H).
    intros m c t E. unfold term_to_y_power in E. cbn [tm tc fst snd] in E. apply bind_Ok in E. destruct E as (x & Ex & E).
    apply i32_inv in Ex. unfold i32_range. tauto. }
  destruct (to_y_power_spec a n Hs) as (r' & E & _ & _ & F); [intros m c m' c' _ _ E'; apply (ypower_inj n); [lia|exact E']|exact R|]. congruence.
Qed.
Lemma to_q_power_Ok a n r : sorted a -> 1 <= n -> to_q_power a n = Ok r -> sorted r /\ feq r (fmap (qpower n) a).
Proof.
  intros Hs Hn H.
  assert (R: forall m c, In (m, c) a -> i32_range (mq m * n)).
  { refine (sub_inv (fun e => term_to_q_power (mkTerm (snd e) (fst e)) n) (qpower n) _ _ a _ _ H).
    intros m c t E. unfold term_to_q_power in E. cbn [tm tc fst snd] in E. apply bind_Ok in E. destruct E as (x & Ex & E).
    apply i32_inv in Ex. unfold i32_range. tauto. }
  destruct (to_q_power_spec a n Hs) as (r' & E & Sr & _ & F); [intros m c m' c' _ _ E'; apply (qpower_inj n); [lia|exact E']|exact R|].
  rewrite E in H. injection H as <-. split; assumption.
Qed.
(** C30: they commute with + and *. *)
Lemma c30_frob_add_mul : forall a b n fa fb, sorted a -> sorted b -> 1 <= n -> to_frob a n = Ok fa -> to_frob b n = Ok fb ->
  (forall r, to_frob (p_add a b) n = Ok r -> feq r (fadd fa fb)) /\
  (forall c r, p_mul a b = Ok c -> to_frob c n = Ok r -> feq r (conv fa fb)).
Proof.
  intros a b n fa fb Sa Sb Hn Ha Hb. pose proof (to_frob_Ok _ _ _ Sa Hn Ha) as Fa. pose proof (to_frob_Ok _ _ _ Sb Hn Hb) as Fb. split.
  - intros r H. apply to_frob_Ok in H; [|apply p_add_sorted, Sa|exact Hn]. rewrite H, Fa, Fb, <- fmap_add. apply feqm_0, fmap_proper, feqm_0, p_add_feq, Sa.
  - intros c r Hc H. apply to_frob_Ok in H; [|eapply p_mul_sorted, Hc|exact Hn]. rewrite H, Fa, Fb.
    rewrite <- fmap_conv by (intros; apply frob_mmul). apply feqm_0, fmap_proper, feqm_0, p_mul_feq, Hc.
Qed.
Lemma c30_y_power_add_mul : forall a b n fa fb, sorted a -> sorted b -> 1 <= n -> to_y_power a n = Ok fa -> to_y_power b n = Ok fb ->
  (forall r, to_y_power (p_add a b) n = Ok r -> feq r (fadd fa fb)) /\
  (forall c r, p_mul a b = Ok c -> to_y_power c n = Ok r -> feq r (conv fa fb)).
Proof.
  intros a b n fa fb Sa Sb Hn Ha Hb. pose proof (to_y_power_Ok _ _ _ Sa Hn Ha) as Fa. pose proof (to_y_power_Ok _ _ _ Sb Hn Hb) as Fb. split.
  - intros r H. apply to_y_power_Ok in H; [|apply p_add_sorted, Sa|exact Hn]. rewrite H, Fa, Fb, <- fmap_add. apply feqm_0, fmap_proper, feqm_0, p_add_feq, Sa.
  - intros c r Hc H. apply to_y_power_Ok in H; [|eapply p_mul_sorted, Hc|exact Hn]. rewrite H, Fa, Fb.
    rewrite <- fmap_conv by (intros; apply ypower_mmul). apply feqm_0, fmap_proper, feqm_0, p_mul_feq, Hc.
Qed.
Lemma c30_q_power_add_mul : forall a b n fa fb, sorted a -> sorted b -> 1 <= n -> to_q_power a n = Ok fa -> to_q_power b n = Ok fb ->
  (forall r, to_q_power (p_add a b) n = Ok r -> feq r (fadd fa fb)) /\
  (forall c r, p_mul a b = Ok c -> to_q_power c n = Ok r -> feq r (conv fa fb)).
Proof.
  intros a b n fa fb Sa Sb Hn Ha Hb. destruct (to_q_power_Ok _ _ _ Sa Hn Ha) as (_ & Fa). destruct (to_q_power_Ok _ _ _ Sb Hn Hb) as (_ & Fb). split.
  - intros r H. apply to_q_power_Ok in H; [|apply p_add_sorted, Sa|exact Hn]. destruct H as (_ & H). rewrite H, Fa, Fb, <- fmap_add. apply feqm_0, fmap_proper, feqm_0, p_add_feq, Sa.
  - intros c r Hc H. apply to_q_power_Ok in H; [|eapply p_mul_sorted, Hc|exact Hn]. destruct H as (_ & H). rewrite H, Fa, Fb.
    rewrite <- fmap_conv by (intros; apply qpower_mmul). apply feqm_0, fmap_proper, feqm_0, p_mul_feq, Hc.
Qed.
Example c30_case : let a := [(mkMono 0 0 0 None, 5); (mkMono 1 2 (-1) None, -3)] in
  to_frob a 7 = Ok [(mkMono 0 0 0 None, 5); (mkMono 7 14 (-1) None, -3)] /\
  to_y_power a 7 = Ok [(mkMono 0 0 0 None, 5); (mkMono 1 14 (-1) None, -3)] /\
  to_q_power a 7 = Ok [(mkMono 0 0 0 None, 5); (mkMono 1 2 (-7) None, -3)].
Proof. split; [reflexivity|]. split; reflexivity. Qed.

(** C31: refuted: to_frob(0) of x + 1 is 1, although 1 + 1 = 2. *)
Lemma c31_frob_zero_refuted : exists a r, sorted a /\ no_zero a /\ nonneg_xy a /\ to_frob a 0 = Ok r /\
  ~ feq r (fmap (frob 0) a) /\ fval 1 1 r <> fval 1 1 a.
Proof.
  exists [(mkMono 0 0 0 None, 1); (mkMono 1 0 0 None, 1)]. eexists. split.
  { cbn. split; [|split; [intros ? ? []|exact I]]. intros m c [H|[]]. injection H; intros; subst. reflexivity. }
  split; [intros m c [H|[H|[]]]; injection H; intros; subst; lia|].
  split; [intros m c [H|[H|[]]]; injection H; intros; subst; cbn; lia|].
  split; [reflexivity|]. split; [|cbn; lia]. intros H. specialize (H mone). vm_compute in H. discriminate.
Qed.
(** C31: what does hold: exponent 0 is right as long as no two monomials collide. *)
Lemma c31_frob_zero_partial : forall a, sorted a ->
  (forall m c m' c', In (m, c) a -> In (m', c') a -> frob 0 m = frob 0 m' -> m = m') ->
  exists r, to_frob a 0 = Ok r /\ feq r (fmap (frob 0) a).
Proof.
  intros a Hs H. destruct (to_frob_spec a 0 Hs H) as (r & E & _ & _ & F).
  - intros m c _. unfold i32_range, i32_min, i32_max. lia.
  - exists r. split; assumption.
Qed.
Example c31_case : to_frob [(mkMono 1 0 3 None, 4); (mkMono 2 5 1 None, 6)] 0 = Ok [(mkMono 0 0 1 None, 6); (mkMono 0 0 3 None, 4)].
Proof. reflexivity. Qed.

(** C32: reduction returns (when the exponents of the result fit i32), leaves no y-power above 1 ... *)
Lemma c32_reduction : forall pol a b, (forall m c, In (m, c) pol -> red_room m) ->
  exists r, reduction pol a b = Ok r /\ sorted r /\ (forall m c, In (m, c) r -> 0 <= my m <= 1).
Proof.
  intros pol a b H. destruct (reduction_returns pol a b H) as (r & E). exists r. split; [exact E|].
  assert (Hi: i32_poly pol) by (intros m c Hm; apply (H m c Hm)).
  assert (Hn: nonneg_xy pol) by (intros m c Hm; destruct (H m c Hm); tauto).
  split; [apply (reduction_spec pol a b r Hi E)|]. intros m c Hm. split; [eapply (reduction_nonneg pol a b r); eassumption|].
  eapply (reduction_keys pol a b r); eassumption.
Qed.
(** ... is congruent to its input modulo y^2 - (x^3+ax+b) ... *)
Lemma c32_reduction_ideal : forall pol a b r, i32_poly pol -> reduction pol a b = Ok r -> exists k, feq r (fadd pol (conv (fcurve a b) k)).
Proof. intros pol a b r Hi H. destruct (reduction_ideal pol a b r Hi H) as (k & F). exists k. apply feqm_0, F. Qed.
(** ... and takes the same value (residue modulo any n, n = 0 included) at every point of the curve. *)
Lemma c32_reduction_value : forall n x y pol a b r, i32_poly pol -> nonneg_xy pol -> reduction pol a b = Ok r ->
  (n | y ^ 2 - (x ^ 3 + a * x + b)) -> (n | fval x y r - fval x y pol).
Proof. intros n x y pol a b r. apply reduction_value. Qed.
Example c32_case : let pol := [(mkMono 1 3 0 None, 2)] in (forall m c, In (m, c) pol -> red_room m) /\
  reduction pol 5 7 = Ok [(mkMono 1 1 0 None, 14); (mkMono 2 1 0 None, 10); (mkMono 4 1 0 None, 2)].
Proof. split; [|reflexivity]. intros m c [H|[]]. injection H; intros; subst. unfold red_room, i32_mono, i32_range, i32_min, i32_max. cbn. lia. Qed.

(** C33: reduction_modular is reduction followed by % p. *)
Lemma c33_reduction_modular : forall pol a b p r, 0 < p -> i32_poly pol -> reduction pol a b = Ok r ->
  reduction_modular pol a b p = p_rem r p.
Proof. exact reduction_modular_eq. Qed.
Lemma c33_no_y : forall pol a b p, 0 < p -> (forall m c, In (m, c) pol -> red_room m) ->
  exists r, reduction_modular pol a b p = Ok r /\ sorted r /\ reduced p r /\ (forall m c, In (m, c) r -> 0 <= my m <= 1).
Proof.
  intros pol a b p Hp H. destruct (c32_reduction pol a b H) as (r & E & Sr & Ky).
  assert (Hi: i32_poly pol) by (intros m c Hm; apply (H m c Hm)).
  exists (redp p r). rewrite (reduction_modular_eq pol a b p r Hp Hi E), p_rem_eq by assumption. split; [reflexivity|].
  split; [apply redp_sorted, Sr|]. split; [apply redp_reduced, Hp|]. apply (redp_keys (fun m => 0 <= my m <= 1)). exact Ky.
Qed.
Example c33_case : reduction_modular [(mkMono 1 3 0 None, 2)] 5 7 5 = Ok [(mkMono 1 1 0 None, 4); (mkMono 4 1 0 None, 2)].
Proof. reflexivity. Qed.

(** C34: eval_xy is the value of the polynomial ... *)
Lemma c34_eval_xy : forall a x y, nonneg_xy a -> eval_xy a x y = Ok (fval x y a).
Proof. exact eval_xy_spec. Qed.
(** ... so it is a ring homomorphism ... *)
Lemma c34_hom : forall a b x y va vb, sorted a -> sorted b -> nonneg_xy a -> nonneg_xy b ->
  eval_xy a x y = Ok va -> eval_xy b x y = Ok vb ->
  eval_xy (p_add a b) x y = Ok (va + vb) /\ eval_xy (p_sub a b) x y = Ok (va - vb) /\
  (forall c, p_mul a b = Ok c -> eval_xy c x y = Ok (va * vb)) /\
  (forall n c, p_power a n = Ok c -> eval_xy c x y = Ok (va ^ n)).
Proof.
  intros a b x y va vb Sa Sb Na Nb Ha Hb. rewrite eval_xy_spec in Ha, Hb by assumption. injection Ha as <-. injection Hb as <-.
  split; [|split; [|split]].
  - rewrite eval_xy_spec by (apply (p_add_keys (fun m => 0 <= mx m /\ 0 <= my m)); assumption).
    f_equal. rewrite (fval_feq x y _ _ (p_add_feq a b Sa)). apply fval_app.
  - rewrite eval_xy_spec by (apply (p_sub_keys (fun m => 0 <= mx m /\ 0 <= my m)); assumption).
    f_equal. rewrite (fval_feq x y _ _ (p_sub_feq a b Sa Sb)). unfold fsub. rewrite fval_app, fval_neg. ring.
  - intros c Hc. rewrite eval_xy_spec.
    + f_equal. rewrite (fval_feq x y _ _ (p_mul_feq a b c Hc)). apply fval_conv; assumption.
    + apply (p_mul_keys (fun m => 0 <= mx m /\ 0 <= my m) (fun m => 0 <= mx m /\ 0 <= my m) _ a b c Hc Na Nb). intros m1 m2 A B _. cbn. lia.
  - intros n c Hc. destruct (p_power_spec a n c Sa Hc) as (Hn & Sc & Fc). rewrite eval_xy_spec.
    + f_equal. rewrite (fval_feq x y _ _ Fc), fval_fpow by exact Na. rewrite Z2Nat.id by exact Hn. reflexivity.
    + refine (p_power_keys (fun m => 0 <= mx m /\ 0 <= my m) a n c _ _ _ Hc); [cbn; lia|intros m1 m2 A B _; cbn; lia|exact Na].
Qed.
(** ... and evaluating x, then y, then to_scalar gives the same number. *)
Lemma c34_chain : forall a x y, nonneg_xy a -> (forall m c, In (m, c) a -> mq m = 0 /\ mv m = None) ->
  exists u v, eval_x a x = Ok u /\ eval_y u y = Ok v /\ to_scalar v = Ok (fval x y a) /\ eval_xy a x y = Ok (fval x y a).
Proof.
  intros a x y Hn Hq. destruct (eval_chain a x y Hn Hq) as (u & v & A & B & C). exists u, v. split; [exact A|]. split; [exact B|]. split; [exact C|]. apply eval_xy_spec, Hn.
Qed.
Example c34_case : let a := [(mkMono 0 3 0 None, 7); (mkMono 2 1 0 None, -4); (mkMono 5 0 0 None, 2)] in
  nonneg_xy a /\ eval_xy a 2 (-3) = Ok (-77).
Proof. split; [|reflexivity]. intros m c [H|[H|[H|[]]]]; injection H; intros; subst; cbn; lia. Qed.

(** C35: refuted: x evaluated at 0 keeps an explicit zero, so is_zero misses the root. *)
Lemma c35_eval_refuted : exists a r, sorted a /\ no_zero a /\ only_x a /\ eval_x a 0 = Ok r /\ fval 0 0 a = 0 /\
  is_zero r = false /\ ~ no_zero r.
Proof.
  exists [(mkMono 1 0 0 None, 1)]. eexists. split; [cbn; split; [intros ? ? []|exact I]|].
  split; [intros m c [H|[]]; injection H; intros; subst; lia|]. split; [intros m c [H|[]]; injection H; intros; subst; cbn; intuition lia|].
  split; [reflexivity|]. split; [reflexivity|]. split; [reflexivity|]. intros H. apply (H mone 0); [left; reflexivity|reflexivity].
Qed.
(** C35: what does hold: is_zero never reports a non-root, and to_scalar of the result is the value. *)
Lemma c35_eval_partial : forall a v, only_x a -> exists r, eval_x a v = Ok r /\ to_scalar r = Ok (fval v 0 a) /\
  (is_zero r = true -> fval v 0 a = 0).
Proof.
  intros a v Ha. destruct (eval_x_spec a v) as (r & E & Sr & F & K); [intros m c Hi; apply (Ha m c Hi)|]. exists r. split; [exact E|].
  assert (V: coef r mone = fval v 0 a).
  { rewrite coef_lin, (feq_lin _ _ _ F), lin_evx, fval_lin. apply lin_ext_in. intros m c Hi. destruct (Ha m c Hi) as (A & B & C & D).
    unfold delta, set_x, mval. cbn [mx my mq mv]. rewrite B, C, D. cbn. ring. }
  destruct (sorted_all_same r mone Sr) as [->|(c & ->)].
  - intros m c Hi. apply K in Hi. destruct Hi as (k & d & Hi & ->). destruct (Ha k d Hi) as (A & B & C & D). unfold set_x, mone. rewrite B, C, D. reflexivity.
  - cbn in *. rewrite <- V. split; reflexivity.
  - cbn in *. rewrite <- V. split; [f_equal; ring|discriminate].
Qed.
(** C35: the coefficients of the result are the right sums for every polynomial (also with y, q, variables). *)
Lemma c35_eval_value_partial : forall a v, nonneg_xy a ->
  exists r s, eval_x a v = Ok r /\ sorted r /\ feq r (fsubst_x a (fconst v)) /\
              eval_y a v = Ok s /\ sorted s /\ feq s (fsubst_y a (fconst v)).
Proof.
  assert (P: forall v k, feq (fpow (fconst v) k) (fconst (v ^ Z.of_nat k))).
  { intros v k. induction k as [|k IH]; [reflexivity|]. cbn [fpow]. rewrite IH. unfold conv, fconst. cbn [flat_map map app fst snd].
    rewrite mmul_1_l. replace (v ^ Z.of_nat (S k)) with (v * v ^ Z.of_nat k); [reflexivity|]. rewrite Nat2Z.inj_succ, Z.pow_succ_r by lia. ring. }
  intros a v Ha.
  destruct (eval_x_spec a v) as (r & E & Sr & F & _); [intros m c Hi; apply (Ha m c Hi)|].
  destruct (eval_y_spec a v) as (s & E' & Ss & F' & _); [intros m c Hi; apply (Ha m c Hi)|].
  exists r, s. split; [exact E|]. split; [exact Sr|]. split; [|split; [exact E'|]; split; [exact Ss|]].
  - rewrite F. clear - Ha P. unfold evx, fsubst_x. induction a as [|[m c] a IH]; [reflexivity|]. cbn [map flat_map fst snd].
    change ((set_x 0 m, c * v ^ mx m) :: ?l) with (fadd [(set_x 0 m, c * v ^ mx m)] l). apply fadd_proper_feq; [|apply IH; intros k d Hk; apply (Ha k d); right; exact Hk].
    rewrite (conv_proper_feq _ _ (reflexivity _) _ _ (P v (Z.to_nat (mx m)))). unfold conv, fconst. cbn [flat_map map app fst snd]. rewrite mmul_1_r, Z2Nat.id by (apply (Ha m c); left; reflexivity). reflexivity.
  - rewrite F'. clear - Ha P. unfold evy, fsubst_y. induction a as [|[m c] a IH]; [reflexivity|]. cbn [map flat_map fst snd].
    change ((set_y 0 m, c * v ^ my m) :: ?l) with (fadd [(set_y 0 m, c * v ^ my m)] l). apply fadd_proper_feq; [|apply IH; intros k d Hk; apply (Ha k d); right; exact Hk].
    rewrite (conv_proper_feq _ _ (reflexivity _) _ _ (P v (Z.to_nat (my m)))). unfold conv, fconst. cbn [flat_map map app fst snd]. rewrite mmul_1_r, Z2Nat.id by (apply (Ha m c); left; reflexivity). reflexivity.
Qed.
Example c35_case : eval_x [(mkMono 0 1 0 None, 5); (mkMono 2 1 0 None, 3); (mkMono 2 2 0 None, 1)] 4 = Ok [(mkMono 0 1 0 None, 53); (mkMono 0 2 0 None, 16)].
Proof. reflexivity. Qed.

(** C36: polynomial substitution, for polynomials, terms and monomials. *)
Lemma c36_subst_x : forall a s r, sorted s -> eval_x_polynomial a s = Ok r -> sorted r /\ feq r (fsubst_x a s).
Proof. intros a s r Hs H. destruct (eval_x_polynomial_feq a s r Hs H) as (A & B & _). split; assumption. Qed.
Lemma c36_subst_y : forall a s r, sorted s -> eval_y_polynomial a s = Ok r -> sorted r /\ feq r (fsubst_y a s).
Proof. intros a s r Hs H. destruct (eval_y_polynomial_feq a s r Hs H) as (A & B & _). split; assumption. Qed.
Lemma c36_term : forall u s r, sorted s ->
  (term_eval_x_polynomial u s = Ok r -> feq r (fsubst_x [(tm u, tc u)] s)) /\
  (term_eval_y_polynomial u s = Ok r -> feq r (fsubst_y [(tm u, tc u)] s)).
Proof. intros u s r Hs. split; intros H; [apply (term_eval_x_polynomial_feq u s r Hs H)|apply (term_eval_y_polynomial_feq u s r Hs H)]. Qed.
Lemma c36_mono : forall m s r, sorted s ->
  (mono_eval_x_polynomial m s = Ok r -> feq r (fsubst_x [(m, 1)] s)) /\
  (mono_eval_y_polynomial m s = Ok r -> feq r (fsubst_y [(m, 1)] s)).
Proof.
  intros m s r Hs. unfold fsubst_x, fsubst_y. cbn [flat_map fst snd]. rewrite !app_nil_r. split; intros H.
  - destruct (mono_eval_x_polynomial_feq m s r Hs H) as (_ & _ & F). rewrite F. apply conv_comm.
  - destruct (mono_eval_y_polynomial_feq m s r Hs H) as (_ & _ & F). rewrite F. apply conv_comm.
Qed.
(** C36: evaluating the result is evaluating with x (y) := the value of s. *)
Lemma fsubst_x_nonneg a s : nonneg_xy a -> nonneg_xy s -> nonneg_xy (fsubst_x a s).
Proof.
  intros Ha Hs m c Hi. apply in_flat_map in Hi. destruct Hi as ([k d] & Hk & Hi). revert m c Hi. cbn [fst snd]. apply nonneg_conv; [|apply nonneg_fpow, Hs].
  intros m c [E|[]]. injection E; intros; subst. cbn. apply Ha in Hk. lia.
Qed.
Lemma fsubst_y_nonneg a s : nonneg_xy a -> nonneg_xy s -> nonneg_xy (fsubst_y a s).
Proof.
  intros Ha Hs m c Hi. apply in_flat_map in Hi. destruct Hi as ([k d] & Hk & Hi). revert m c Hi. cbn [fst snd]. apply nonneg_conv; [|apply nonneg_fpow, Hs].
  intros m c [E|[]]. injection E; intros; subst. cbn. apply Ha in Hk. lia.
Qed.
Lemma c36_value : forall a s r x y, sorted s -> nonneg_xy a -> nonneg_xy s ->
  (eval_x_polynomial a s = Ok r -> fval x y r = fval (fval x y s) y a) /\
  (eval_y_polynomial a s = Ok r -> fval x y r = fval x (fval x y s) a).
Proof.
  intros a s r x y Hs Na Ns. split; intros H.
  - destruct (eval_x_polynomial_feq a s r Hs H) as (_ & F & _). rewrite (fval_feq x y _ _ F). apply fval_fsubst_x; assumption.
  - destruct (eval_y_polynomial_feq a s r Hs H) as (_ & F & _). rewrite (fval_feq x y _ _ F). apply fval_fsubst_y; assumption.
Qed.
(** C36: it returns whenever exponents stay small: x-exponents of a at most D, the others at most C. *)
Definition evar_bound (B : Z) (m : mono) : Prop := Z.abs (mx m) <= B /\ Z.abs (my m) <= B /\ Z.abs (mq m) <= B.
Lemma mul_bound B C a b : B + C <= i32_max -> exp_bound B a -> keysP (evar_bound C) b -> exists c, p_mul a b = Ok c /\ keysP (evar_bound (B + C)) c.
Proof.
  intros HB Ha Hb.
  assert (R: exists c, p_mul a b = Ok c).
  { apply p_mul_returns. intros m1 c1 m2 c2 H1 H2. apply Ha in H1. apply Hb in H2. unfold evar_bound, mul_ok, i32_min, i32_max in *. intuition lia. }
  destruct R as (c & Hc). exists c. split; [exact Hc|].
  apply (p_mul_keys (fun m => Z.abs (mx m) <= B /\ Z.abs (my m) <= B /\ Z.abs (mq m) <= B /\ mv m = None) (evar_bound C) _ a b c Hc Ha Hb).
  intros m1 m2 A1 A2 _. unfold evar_bound, mmul in *. cbn. lia.
Qed.
Lemma mul_const_returns w c : keysP (evar_bound i32_max) w -> exists r, p_mul w (to_pol (tb_build (tb_coef c tb_new))) = Ok r.
Proof.
  intros Hw. apply p_mul_returns. intros m1 c1 m2 c2 H1 H2. apply Hw in H1.
  assert (m2 = mone) as -> by (revert m2 c2 H2; apply (to_pol_keys (fun m => m = mone)); reflexivity).
  unfold evar_bound, mul_ok, i32_min, i32_max in *. cbn. intuition lia.
Qed.
Lemma c36_returns : forall a s B C D, 0 <= B -> 0 <= C -> D * B + C <= i32_max -> exp_bound B s ->
  ((forall m c, In (m, c) a -> 0 <= mx m <= D /\ Z.abs (my m) <= C /\ Z.abs (mq m) <= C) -> exists r, eval_x_polynomial a s = Ok r) /\
  ((forall m c, In (m, c) a -> 0 <= my m <= D /\ Z.abs (mx m) <= C /\ Z.abs (mq m) <= C) -> exists r, eval_y_polynomial a s = Ok r).
Proof.
  intros a s B C D HB HC HM Hs. split; intros Ha.
  - unfold eval_x_polynomial. match goal with |- exists r, foldM ?F a p_new = Ok r => set (f := F) end.
    destruct (foldM_returns (fun _ => True) f a) with (s := p_new) as (r & E & _); [|exact I|exists r; exact E].
    intros t [m c] Hi _. apply Ha in Hi. unfold f. cbn [fst snd]. unfold mono_eval_x_polynomial.
    assert (mx m * B <= D * B) by (apply Z.mul_le_mono_nonneg_r; lia).
    destruct (p_power_returns s (mx m) B) as (w & Ew & Bw); [lia|lia|lia|exact Hs|]. change p_power_i32 with p_power. rewrite Ew. cbn [bind].
    destruct (mul_bound (mx m * B) C w (to_pol (tb_build (tb_variable (mv m) (tb_qpow (mq m) (tb_ypow (my m) tb_new)))))) as (w2 & E2 & B2); [lia|exact Bw|
      apply to_pol_keys; unfold evar_bound; cbn; lia|]. rewrite E2. cbn [bind].
    destruct (mul_const_returns w2 c) as (w3 & E3); [intros k d Hk; apply B2 in Hk; unfold evar_bound in *; lia|]. rewrite E3. cbn [bind]. eexists. split; [reflexivity|exact I].
  - unfold eval_y_polynomial. match goal with |- exists r, foldM ?F a p_new = Ok r => set (f := F) end.
    destruct (foldM_returns (fun _ => True) f a) with (s := p_new) as (r & E & _); [|exact I|exists r; exact E].
    intros t [m c] Hi _. apply Ha in Hi. unfold f. cbn [fst snd]. unfold mono_eval_y_polynomial.
    assert (my m * B <= D * B) by (apply Z.mul_le_mono_nonneg_r; lia).
    destruct (p_power_returns s (my m) B) as (w & Ew & Bw); [lia|lia|lia|exact Hs|]. change p_power_i32 with p_power. rewrite Ew. cbn [bind].
    destruct (mul_bound (my m * B) C w (to_pol (tb_build (tb_variable (mv m) (tb_qpow (mq m) (tb_xpow (mx m) tb_new)))))) as (w2 & E2 & B2); [lia|exact Bw|
      apply to_pol_keys; unfold evar_bound; cbn; lia|]. rewrite E2. cbn [bind].
    destruct (mul_const_returns w2 c) as (w3 & E3); [intros k d Hk; apply B2 in Hk; unfold evar_bound in *; lia|]. rewrite E3. cbn [bind]. eexists. split; [reflexivity|exact I].
Qed.
Example c36_case : eval_x_polynomial [(mkMono 0 1 0 (Some (0, 1)), 5); (mkMono 2 0 0 (Some (1, 1)), 3)] [(mkMono 0 0 0 None, 1); (mkMono 0 0 1 None, 2)]
  = Ok [(mkMono 0 0 0 (Some (1, 1)), 3); (mkMono 0 0 1 (Some (1, 1)), 12); (mkMono 0 0 2 (Some (1, 1)), 12); (mkMono 0 1 0 (Some (0, 1)), 5)].
Proof. reflexivity. Qed.

(** C37: omit_high_order_q(k) keeps exactly the terms of q-order <= k. *)
Lemma c37_omit : forall a k, sorted a -> qonly a -> i32_range (k + 1) ->
  exists r, omit_high_order_q a k = Ok r /\ sorted r /\ (forall m c, In (m, c) r <-> In (m, c) a /\ mq m <= k).
Proof. exact omit_spec. Qed.
Lemma c37_omit_panics : forall a k, ~ qonly a \/ ~ i32_range (k + 1) -> omit_high_order_q a k = Panic.
Proof.
  intros a k H. unfold omit_high_order_q. destruct (has_x a) eqn:Hx; [reflexivity|]. destruct (has_y a) eqn:Hy; [reflexivity|]. cbn [negb assertb bind].
  destruct H as [H|H]; [exfalso; apply H, qonly_has; split; assumption|]. unfold i32. destruct (in_i32 (k + 1)) eqn:E; [|reflexivity].
  exfalso. apply H. unfold in_i32 in E. unfold i32_range. lia.
Qed.
(** C37: power_omit_high_order_q(n,k) is the n-th power up to O(q^(k+1)), with no higher order (n >= 1). *)
Lemma c37_power_omit : forall a n order r, sorted a -> qnonneg a -> 0 <= n -> 0 <= order ->
  power_omit_high_order_q a n order = Ok r ->
  sorted r /\ qnonneg r /\ feq_upto order r (fpow a (Z.to_nat n)) /\ (forall m c, In (m, c) r -> mq m <= order).
Proof.
  intros a n order r Sa Na Hn Ho H. unfold power_omit_high_order_q in H. apply bind_Ok in H. destruct H as (u & _ & H). apply bind_Ok in H. destruct H as (u' & _ & H).
  destruct (power_omit_loop a order (zrange 0 n) Sa Na p_one r 0) as (Sr & Nr & F & K); [exact (to_pol_sorted term_one)| | |exact H|].
  - intros m c [E|[]]. injection E; intros; subst. cbn. lia.
  - reflexivity.
  - split; [exact Sr|]. split; [exact Nr|]. split.
    + rewrite F. unfold zrange. rewrite map_length, seq_length, Nat.add_0_l, Z.sub_0_r. reflexivity.
    + destruct (zrange 0 n) eqn:E; [|apply K; discriminate]. cbn in H. injection H as <-. intros m c [Ei|[]]. injection Ei; intros; subst. cbn. lia.
Qed.
(** C37: it returns for every variable-free q-polynomial with exponents in [0, order], 2*order within i32. *)
Lemma c37_power_omit_returns : forall a n order, sorted a -> 0 <= order -> 2 * order + 1 <= i32_max ->
  (forall m c, In (m, c) a -> mx m = 0 /\ my m = 0 /\ 0 <= mq m <= order /\ mv m = None) ->
  exists r, power_omit_high_order_q a n order = Ok r.
Proof.
  intros a n order Sa Ho Hm Ha. unfold power_omit_high_order_q.
  assert (Q: qonly a) by (intros m c Hi; apply Ha in Hi; tauto). apply qonly_has in Q. destruct Q as (Qx & Qy). rewrite Qx, Qy. cbn [negb assertb bind].
  destruct (foldM_returns (fun s => sorted s /\ forall m c, In (m, c) s -> mx m = 0 /\ my m = 0 /\ 0 <= mq m <= order /\ mv m = None)
    (fun pol (_ : Z) => pol <- p_mul_assign pol a ;; omit_high_order_q pol order) (zrange 0 n)) with (s := p_one) as (r & E & _).
  - intros s _ _ (Ss & Hs). unfold p_mul_assign.
    assert (R: exists s1, p_mul s a = Ok s1).
    { apply p_mul_returns. intros m1 c1 m2 c2 H1 H2. apply Hs in H1. apply Ha in H2. unfold mul_ok, i32_min, i32_max in *. intuition lia. }
    destruct R as (s1 & E1). rewrite E1. cbn [bind]. pose proof (p_mul_sorted _ _ _ E1) as S1.
    assert (K1: forall m c, In (m, c) s1 -> mx m = 0 /\ my m = 0 /\ 0 <= mq m <= 2 * order /\ mv m = None).
    { apply (p_mul_keys (fun m => mx m = 0 /\ my m = 0 /\ 0 <= mq m <= order /\ mv m = None) (fun m => mx m = 0 /\ my m = 0 /\ 0 <= mq m <= order /\ mv m = None) _ s a s1 E1 Hs Ha).
      intros m1 m2 (A1 & A2 & A3 & A4) (B1 & B2 & B3 & B4) _. cbn [mmul mx my mq mv]. rewrite A4, B4. split; [lia|]. split; [lia|]. split; [lia|reflexivity]. }
    destruct (omit_spec s1 order S1) as (r & Er & Sr & Kr); [intros m c Hi; apply K1 in Hi; tauto|unfold i32_range, i32_min, i32_max in *; lia|].
    exists r. split; [exact Er|]. split; [exact Sr|]. intros m c Hi. apply Kr in Hi. destruct Hi as (Hi & L). apply K1 in Hi. destruct Hi as (A & B & C & D). split; [exact A|]. split; [exact B|]. split; [lia|exact D].
  - split; [exact (to_pol_sorted term_one)|]. intros m c [Ei|[]]. injection Ei; intros; subst. cbn. intuition lia.
  - exists r; exact E.
Qed.
Example c37_case : let a := [(mkMono 0 0 0 None, 1); (mkMono 0 0 1 None, -1)] in
  sorted a /\ qonly a /\ qnonneg a /\ power_omit_high_order_q a 5 2 = Ok [(mkMono 0 0 0 None, 1); (mkMono 0 0 1 None, -5); (mkMono 0 0 2 None, 10)].
Proof.
  split; [cbn; split; [|split; [intros ? ? []|exact I]]; intros m c [H|[]]; injection H; intros; subst; reflexivity|].
  split; [intros m c [H|[H|[]]]; injection H; intros; subst; cbn; lia|]. split; [intros m c [H|[H|[]]]; injection H; intros; subst; cbn; lia|]. reflexivity.
Qed.

(** C38: coefficient of q^k, as a polynomial in the variables. *)
Lemma c38_q_coef : forall a k, sorted a -> qonly a ->
  exists r, to_q_power_coef a k = Ok r /\ sorted r /\
    (forall m c, In (m, c) r <-> exists v, m = mkMono 0 0 0 v /\ In (mkMono 0 0 k v, c) a) /\
    (forall v, coef r (mkMono 0 0 0 v) = coef a (mkMono 0 0 k v)).
Proof. exact q_coef_spec. Qed.
Lemma c38_variable_coef : forall a v, sorted a -> (forall m c, In (m, c) a -> mx m = 0 /\ my m = 0 /\ mq m = 0) ->
  to_variable_coef a v = Ok (coef a (mkMono 0 0 0 v)).
Proof.
  intros a v Hs H. unfold to_variable_coef.
  rewrite (proj2 (has_x_false a)) by (intros; eapply H; eassumption). rewrite (proj2 (has_y_false a)) by (intros; eapply H; eassumption).
  rewrite (proj2 (has_q_false a)) by (intros; eapply H; eassumption). cbn [negb assertb bind]. f_equal. apply find_variable_spec; assumption.
Qed.
(** C38: highest_term_x is the greatest term, and has the greatest x-exponent; degree_x is that exponent. *)
Lemma c38_highest : forall a, sorted a -> a <> [] ->
  In (tm (highest_term_x a), tc (highest_term_x a)) a /\
  (forall m c, In (m, c) a -> m <> tm (highest_term_x a) -> mono_cmp m (tm (highest_term_x a)) = Lt) /\
  (forall m c, In (m, c) a -> mx m <= mx (tm (highest_term_x a))).
Proof. exact highest_spec. Qed.
Lemma c38_degree : forall a, sorted a -> (forall m c, In (m, c) a -> my m = 0 /\ mq m = 0) ->
  (a = [] -> degree_x a = Ok 0) /\
  (a <> [] -> exists d, degree_x a = Ok d /\ (exists m c, In (m, c) a /\ mx m = d) /\ (forall m c, In (m, c) a -> mx m <= d)).
Proof.
  intros a Hs H. unfold degree_x. rewrite (proj2 (has_y_false a)) by (intros; eapply H; eassumption).
  rewrite (proj2 (has_q_false a)) by (intros; eapply H; eassumption). cbn [negb assertb bind]. split.
  - intros ->. reflexivity.
  - intros N. destruct (is_zero a) eqn:E; [apply is_zero_nil in E; contradiction|]. eexists. split; [reflexivity|].
    destruct (highest_spec a Hs N) as (A & _ & B). split; [exists (tm (highest_term_x a)), (tc (highest_term_x a)); split; [exact A|reflexivity]|exact B].
Qed.
(** C38: occurrence tests and the documented panics. *)
Lemma c38_has : forall a,
  (has_x a = true <-> exists m c, In (m, c) a /\ mx m <> 0) /\
  (has_y a = true <-> exists m c, In (m, c) a /\ my m <> 0) /\
  (has_q a = true <-> exists m c, In (m, c) a /\ mq m <> 0).
Proof. intros a. split; [apply has_x_spec|]. split; [apply has_y_spec|apply has_q_spec]. Qed.
Lemma c38_panics : forall a,
  ((has_x a = true \/ has_y a = true) <-> to_q_power_coef a 0 = Panic) /\
  (forall k l, to_q_power_coef a k = Panic -> to_q_power_coef a l = Panic) /\
  (forall v, (has_x a = true \/ has_y a = true \/ has_q a = true) <-> to_variable_coef a v = Panic) /\
  ((has_y a = true \/ has_q a = true) <-> degree_x a = Panic).
Proof.
  intros a. unfold to_q_power_coef, to_variable_coef, degree_x.
  destruct (has_x a), (has_y a), (has_q a), (is_zero a); cbn;
    (split; [split; [intros; intuition discriminate|intros; intuition (discriminate || auto)]|];
     split; [intros; congruence|]; split; [intros v; split; [intros; intuition discriminate|intros; intuition (discriminate || auto)]|];
     split; [intros; intuition discriminate|intros; intuition (discriminate || auto)]).
Qed.
Lemma Ok_eq {A} (u v : A) : Ok u = Ok v -> u = v.
Proof. congruence. Qed.
(** C38: to_scalar returns exactly for the empty polynomial and for a single term free of x, y and q (a variable is ignored), with its value;
    it panics on everything else. *)
Lemma c38_to_scalar : forall a : poly,
  (forall c, to_scalar a = Ok c <-> (a = [] /\ c = 0) \/ exists m, a = [(m, c)] /\ mx m = 0 /\ my m = 0 /\ mq m = 0) /\
  (forall c x y, to_scalar a = Ok c -> fval x y a = c) /\
  ((exists c, to_scalar a = Ok c) \/ to_scalar a = Panic).
Proof.
  intros [|[m c] [|e r]].
  - cbn [to_scalar]. split; [|split].
    + intros c. split; [intros E; apply Ok_eq in E; auto|]. intros [(_ & ->)|(m & E & _)]; [reflexivity|discriminate].
    + intros c x y E. apply Ok_eq in E. subst c. reflexivity.
    + left. eauto.
  - cbn [to_scalar]. assert (V: forall x y, mx m = 0 -> my m = 0 -> fval x y [(m, c)] = c) by (intros x y A B; cbn [fval]; unfold mval; rewrite A, B; cbn [Z.pow]; lia).
    destruct (mx m =? 0) eqn:X; cbn [negb]; [destruct (my m =? 0) eqn:Y; cbn [negb]; [destruct (mq m =? 0) eqn:Q; cbn [negb]|]|].
    + split; [|split].
      * intros d. split; [intros E; apply Ok_eq in E; subst d; right; exists m; split; [reflexivity|lia]|]. intros [(E & _)|(m' & E & _)]; [discriminate|]. injection E as -> ->. reflexivity.
      * intros d x y E. apply Ok_eq in E. subst d. apply V; lia.
      * left. eauto.
    + split; [|split; [discriminate|right; reflexivity]]. intros d. split; [discriminate|]. intros [(E & _)|(m' & E & A)]; [discriminate|]. injection E as -> ->. lia.
    + split; [|split; [discriminate|right; reflexivity]]. intros d. split; [discriminate|]. intros [(E & _)|(m' & E & A)]; [discriminate|]. injection E as -> ->. lia.
    + split; [|split; [discriminate|right; reflexivity]]. intros d. split; [discriminate|]. intros [(E & _)|(m' & E & A)]; [discriminate|]. injection E as -> ->. lia.
  - cbn [to_scalar]. split; [|split; [discriminate|right; reflexivity]]. intros d. split; [discriminate|]. intros [(E & _)|(m' & E & _)]; discriminate.
Qed.
Example c38_case : let a := [(mkMono 0 0 0 (Some (0, 1)), 5); (mkMono 0 0 2 None, 7); (mkMono 0 0 2 (Some (1, 1)), -3)] in
  sorted a /\ qonly a /\ to_q_power_coef a 2 = Ok [(mkMono 0 0 0 None, 7); (mkMono 0 0 0 (Some (1, 1)), -3)] /\
  (r <- to_q_power_coef a 2 ;; to_variable_coef r (Some (1, 1))) = Ok (-3).
Proof.
  split; [csorted|].
  split; [intros m c [H|[H|[H|[]]]]; injection H; intros; subst; cbn; lia|]. split; reflexivity.
Qed.
