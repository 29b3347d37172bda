(** Lemmas about to_monic and gcd: correctness, termination, divergence. *)
From Coq Require Import Znumtheory ZifyBool Setoid Morphisms Ring.
From Verif Require Import Prelude M_Bigint M_Variable M_Term M_Poly Spec P_Bigint P_Variable P_FSum P_Poly P_Rem P_PolyProps P_Subst P_Subst2 P_Subst3 P_Mod.
Open Scope Z_scope.

Lemma only_x_no_yq d : only_x d -> has_y d = false /\ has_q d = false.
Proof. intros H. split; [apply has_y_false|apply has_q_false]; intros m c Hi; apply (H m c Hi). Qed.
(** polynomial_modular on a divisor in x: the loop and a final reduction. *)
Lemma pm_eq fuel a d p : only_x d -> polynomial_modular fuel a d p = (r <- polynomial_modular_loop fuel d (highest_term_x d) p a ;; modular_assign r p).
Proof. intros Hd. unfold polynomial_modular. destruct (only_x_no_yq d Hd) as (-> & ->). reflexivity. Qed.

(** Smaller x-degree: every entry below D. *)
Lemma below_highest s D : sorted s -> mx (tm (highest_term_x s)) < D -> forall m c, In (m, c) s -> mx m < D.
Proof. intros Ss H m c Hi. pose proof (highest_max s m c Ss Hi). lia. Qed.

Lemma pm_spec fuel a d p r : 0 < p -> sorted a -> sorted d -> polynomial_modular fuel a d p = Ok r ->
  sorted r /\ reduced p r /\ (forall m c, In (m, c) r -> mx m < mx (tm (highest_term_x d))) /\ (exists k, feqm p a (fadd (conv d k) r)).
Proof.
  intros Hp Sa Sd H. unfold polynomial_modular in H. apply bind_Ok in H. destruct H as (_ & _ & H). apply bind_Ok in H. destruct H as (_ & _ & H).
  apply bind_Ok in H. destruct H as (s & Es & H). destruct (pm_loop_spec d p Sd fuel a s Sa Es) as (Ss & (k & F) & L).
  rewrite modular_assign_eq in H by assumption. injection H as <-. split; [apply redp_sorted, Ss|]. split; [apply redp_reduced, Hp|].
  split; [apply (redp_keys (fun m => mx m < _)); exact (below_highest s _ Ss L)|]. exists k. rewrite F, (redp_feqm p s Hp Ss). reflexivity.
Qed.
Lemma pm_only_x fuel a d p r : 0 < p -> sorted a -> sorted d -> only_x a -> only_x d -> polynomial_modular fuel a d p = Ok r ->
  only_x r /\ exists k, only_x k /\ feqm p a (fadd (conv d k) r).
Proof.
  intros Hp Sa Sd Oa Od H. rewrite pm_eq in H by exact Od. apply bind_Ok in H. destruct H as (s & Es & H).
  destruct (pm_loop_spec d p Sd fuel a s Sa Es) as (Ss & _ & L). destruct (pm_loop_only_x d p Sd Od fuel a s Sa Oa Es) as (Os & k & Ok & F).
  rewrite modular_assign_eq in H by assumption. injection H as <-. split; [apply (redp_keys (fun m => 0 <= mx m /\ my m = 0 /\ mq m = 0 /\ mv m = None)), Os|].
  exists k. split; [exact Ok|]. rewrite F, (redp_feqm p s Hp Ss). reflexivity.
Qed.
Lemma pm_returns a d p : prime p -> sorted a -> sorted d -> only_x d -> keysP modkey a ->
  1 <= mx (tm (highest_term_x d)) -> ~ (p | tc (highest_term_x d)) -> exists fuel r, polynomial_modular fuel a d p = Ok r.
Proof.
  intros Hp Sa Sd Od Ka HD HL. pose proof (prime_ge_2 p Hp).
  set (B := Z.max 0 (mx (tm (highest_term_x a)) + 1 - mx (tm (highest_term_x d)))).
  destruct (pm_terminates p d Hp Sd Od HD HL (Z.to_nat B) (cnt (mx (tm (highest_term_x d)) + Z.of_nat (Z.to_nat B) - 1) a) a Sa Ka) as (fuel & s & E).
  - intros m c Hi. pose proof (highest_max a m c Sa Hi). rewrite Z2Nat.id by lia. lia.
  - lia.
  - exists fuel. rewrite pm_eq by exact Od. rewrite E. cbn [bind]. destruct (pm_loop_spec d p Sd fuel a s Sa E) as (Ss & _).
    rewrite modular_assign_eq by (assumption || lia). eexists; reflexivity.
Qed.
(** Division by a divisor of x-degree 0 (constants, and the polynomial without terms) never ends. *)
Lemma pm_diverges a d p : 2 <= p -> sorted a -> only_x a -> i32_poly a -> sorted d -> only_x d -> mx (tm (highest_term_x d)) = 0 ->
  forall fuel, polynomial_modular fuel a d p = NoFuel.
Proof.
  intros Hp Sa Oa Ia Sd Od HD fuel. rewrite pm_eq by exact Od.
  assert (L: forall r, sorted r -> only_x r -> i32_poly r -> polynomial_modular_loop fuel d (highest_term_x d) p r = NoFuel).
  { induction fuel as [|f IH]; intros r Sr Or Ir.
    - cbn [polynomial_modular_loop]. destruct (_ <? _) eqn:E; [|reflexivity]. destruct (highest_only_x r Sr Or). lia.
    - rewrite pm_loop_S. destruct (highest_only_x r Sr Or) as (_ & _ & _ & P0). destruct (_ <? _) eqn:E; [lia|].
      destruct (pm_step_returns d p r Hp Sd Od Sr) as (r' & Es); [intros m c Hi; split; [apply (Ir m c Hi)|apply (Or m c Hi)]|lia|].
      rewrite Es. cbn [bind]. destruct (pm_step_spec d p r r' Sd Sr Es) as (_ & inv & _ & Sr' & _). apply IH; [exact Sr'| |].
      + apply (pm_step_only_x d p r r' Sd Od Sr Or); [lia|exact Es].
      + intros m c Hi. refine (proj1 (pm_step_modkey d p r r' Sd Od Sr _ Es m c Hi)). intros k e Hk. split; [apply (Ir k e Hk)|apply (Or k e Hk)]. }
  rewrite (L a Sa Oa Ia). reflexivity.
Qed.
Lemma pm_never_panics a d p fuel : 2 <= p -> sorted a -> only_x a -> i32_poly a -> sorted d -> only_x d -> polynomial_modular fuel a d p <> Panic.
Proof.
  intros Hp Sa Oa Ia Sd Od. rewrite pm_eq by exact Od.
  assert (L: forall r, sorted r -> only_x r -> i32_poly r -> polynomial_modular_loop fuel d (highest_term_x d) p r <> Panic).
  { induction fuel as [|f IH]; intros r Sr Or Ir.
    - cbn [polynomial_modular_loop]. destruct (_ <? _); discriminate.
    - rewrite pm_loop_S. destruct (_ <? _) eqn:E; [discriminate|].
      destruct (pm_step_returns d p r Hp Sd Od Sr) as (r' & Es); [intros m c Hi; split; [apply (Ir m c Hi)|apply (Or m c Hi)]|lia|].
      rewrite Es. cbn [bind]. destruct (pm_step_spec d p r r' Sd Sr Es) as (_ & inv & _ & Sr' & _). apply IH; [exact Sr'| |].
      + apply (pm_step_only_x d p r r' Sd Od Sr Or); [lia|exact Es].
      + intros m c Hi. refine (proj1 (pm_step_modkey d p r r' Sd Od Sr _ Es m c Hi)). intros k e Hk. split; [apply (Ir k e Hk)|apply (Or k e Hk)]. }
  destruct (polynomial_modular_loop fuel d (highest_term_x d) p a) eqn:E; cbn [bind]; [|apply L in E; auto|discriminate].
  rewrite modular_assign_eq; [discriminate|lia|]. apply (pm_loop_spec d p Sd fuel a a0 Sa E).
Qed.
Lemma pm_i32 a d p fuel r : sorted a -> only_x a -> i32_poly a -> sorted d -> only_x d -> polynomial_modular fuel a d p = Ok r -> i32_poly r.
Proof.
  intros Sa Oa Ia Sd Od. rewrite pm_eq by exact Od. intros H. apply bind_Ok in H. destruct H as (s & Es & H).
  assert (Ss: sorted s) by apply (pm_loop_spec d p Sd fuel a s Sa Es).
  assert (Is: i32_poly s).
  { clear H Ss r. revert a Sa Oa Ia Es. induction fuel as [|f IH]; intros a Sa Oa Ia Es; [cbn [polynomial_modular_loop] in Es|rewrite pm_loop_S in Es]; destruct (_ <? _) eqn:E.
    1, 3: injection Es as <-; exact Ia.
    - discriminate.
    - apply bind_Ok in Es. destruct Es as (r' & E' & Es). destruct (pm_step_spec d p a r' Sd Sa E') as (_ & inv & _ & Sr' & _).
      apply (IH r' Sr'); [apply (pm_step_only_x d p a r' Sd Od Sa Oa); [lia|exact E']| |exact Es].
      intros m c Hi. refine (proj1 (pm_step_modkey d p a r' Sd Od Sa _ E' m c Hi)). intros k e Hk. split; [apply (Ia k e Hk)|apply (Oa k e Hk)]. }
  destruct (Z_lt_le_dec 0 p).
  - rewrite modular_assign_eq in H by assumption. injection H as <-. apply redp_keys. exact Is.
  - rewrite modular_assign_nonpos in H by assumption. destruct (is_zero s); [|discriminate]. injection H as <-. intros ? ? [].
Qed.

(** ** to_monic *)
Lemma fconst_conv c a : feq (conv a (fconst c)) (map (fun e => (fst e, c * snd e)) a).
Proof.
  unfold conv, fconst. cbn [map]. induction a as [|[m d] a IH]; [reflexivity|]. cbn [flat_map map app fst snd]. rewrite mmul_1_r.
  intros k. cbn [coef]. rewrite <- (IH k). replace (d * c) with (c * d) by ring. reflexivity.
Qed.
Lemma to_monic_spec a p : prime p -> sorted a -> i32_poly a -> a <> [] -> ~ (p | tc (highest_term_x a)) ->
  exists r, to_monic a p = Ok r /\ sorted r /\ reduced p r /\ (forall m, haskey r m -> haskey a m) /\
    feqm p (conv (fconst (tc (highest_term_x a))) r) a /\ highest_term_x r = mkTerm 1 (tm (highest_term_x a)) /\
    (exists i, feqm p r (conv (fconst i) a) /\ (p | i * tc (highest_term_x a) - 1)).
Proof.
  intros Hp Sa Ia Na HL. pose proof (prime_ge_2 p Hp) as Hp2. unfold to_monic. destruct (is_zero a) eqn:E; [apply is_zero_nil in E; contradiction|].
  set (h := highest_term_x a) in *. destruct (inverse_spec (tc h) p Hp HL) as (i & Ei & Bi & Di). rewrite Ei. cbn [bind].
  assert (Hi0: i <> 0) by (intros ->; assert (D1: (p | 1)) by (destruct Di as (z & Dz); exists (- z); lia); apply Z.divide_pos_le in D1; lia).
  assert (Ei': to_pol (tb_build (tb_coef i tb_new)) = fconst i) by (rewrite to_pol_eq; cbn [tc tb_build tb_coef b_coef tb_new]; destruct (i =? 0) eqn:E0; [lia|reflexivity]).
  unfold p_mul_t. rewrite Ei'.
  destruct (p_mul_returns a (fconst i)) as (m & Em).
  { intros m1 c1 m2 c2 H1 [E2|[]]. injection E2; intros; subst. destruct (Ia m1 c1 H1) as (A & B & C). unfold mul_ok, i32_range in *. cbn. rewrite !Z.add_0_r. auto. }
  rewrite Em. cbn [bind]. pose proof (p_mul_sorted _ _ _ Em) as Sm. rewrite modular_assign_eq by (assumption || lia).
  set (r := redp p m). exists r. split; [reflexivity|].
  assert (Sr: sorted r) by apply redp_sorted, Sm. assert (Rr: reduced p r) by (apply redp_reduced; lia).
  assert (Fr: feqm p r (conv (fconst i) a)).
  { unfold r. rewrite (redp_feqm p m ltac:(lia) Sm), (feq_feqm p _ _ (p_mul_feq _ _ _ Em)), (feq_feqm p _ _ (conv_comm a (fconst i))). reflexivity. }
  assert (Kr: forall k, haskey r k -> haskey a k).
  { intros k (c & Hc). assert (H: keysP (haskey a) r).
    { apply redp_keys. apply (p_mul_keys (haskey a) (fun m => m = mone) _ a (fconst i) m Em); [intros x y Hx; exists y; exact Hx|intros x y [Ex|[]]; injection Ex; intros; subst; reflexivity|].
      intros m1 m2 H1 -> _. rewrite mmul_1_r. exact H1. }
    exact (H k c Hc). }
  assert (Fa: feqm p (conv (fconst (tc h)) r) a).
  { rewrite Fr, (feq_feqm p _ _ (conv_assoc _ _ _)). assert (F1: feqm p (conv (fconst (tc h)) (fconst i)) (fconst 1)).
    { intros k. unfold conv, fconst. cbn [flat_map map app fst snd coef]. rewrite mmul_1_l. destruct (mono_eqb mone k); [|exists 0; ring]. rewrite !Z.add_0_r. exact Di. }
    rewrite F1, (feq_feqm p _ _ (conv_1_l a)). reflexivity. }
  split; [exact Sr|]. split; [exact Rr|]. split; [exact Kr|]. split; [exact Fa|]. split.
  - destruct (highest_spec a Sa Na) as (Hh & Hmax & _). fold h in Hh, Hmax.
    assert (Ch: coef r (tm h) = 1).
    { pose proof (reduced_coef p r (tm h) ltac:(lia) Sr Rr) as Bc. specialize (Fr (tm h)). unfold fconst in Fr. rewrite (coef_conv1 mone i a (tm h) eq_refl) in Fr.
      assert (mdiv (tm h) mone = tm h) as Eh by (unfold mdiv, mone; cbn; destruct (tm h); cbn; f_equal; ring). rewrite Eh, (sorted_coef a _ _ Sa Hh) in Fr.
      assert (D: (p | coef r (tm h) - 1)). { replace (coef r (tm h) - 1) with ((coef r (tm h) - i * tc h) + (tc h * i - 1)) by ring. apply Z.divide_add_r; assumption. }
      destruct D as (z & D). assert (z = 0) by nia. lia. }
    assert (Hin: In (tm h, 1) r).
    { destruct (coef_in r (tm h)) as (c & Hc); [rewrite Ch; lia|]. rewrite (sorted_coef r _ _ Sr Hc) in Ch. subst c. exact Hc. }
    assert (Nr: r <> []) by (intros Er; rewrite Er in Hin; destruct Hin).
    destruct (highest_spec r Sr Nr) as (Hr & Hrmax & _).
    assert (Et: tm (highest_term_x r) = tm h).
    { destruct (mono_eq_dec (tm h) (tm (highest_term_x r))) as [e|N]; [symmetry; exact e|exfalso].
      pose proof (Hrmax _ _ Hin N) as L1. destruct (Kr (tm (highest_term_x r))) as (c & Hc); [eexists; exact Hr|].
      pose proof (Hmax _ _ Hc ltac:(congruence)) as L2. apply (mlt_irrefl (tm h)). eapply mlt_trans; eassumption. }
    destruct (highest_term_x r) as [c m']. cbn [tm tc] in *. subst m'. rewrite (sorted_unique r _ _ _ Sr Hr Hin). reflexivity.
  - exists i. split; [exact Fr|]. rewrite Z.mul_comm. exact Di.
Qed.

(** ** Divisibility *)
Lemma only_x_conv a b : only_x a -> only_x b -> only_x (conv a b).
Proof.
  intros Ha Hb m c Hi. apply in_conv in Hi. destruct Hi as (m1 & c1 & m2 & c2 & H1 & H2 & -> & _). destruct (Ha _ _ H1) as (A & B & C & D), (Hb _ _ H2) as (A' & B' & C' & D').
  unfold mmul. cbn. rewrite B, C, D, B', C', D'. intuition lia.
Qed.
Lemma only_x_add a b : only_x a -> only_x b -> only_x (fadd a b).
Proof. intros Ha Hb m c Hi. apply in_app_iff in Hi. destruct Hi as [Hi|Hi]; [apply (Ha _ _ Hi)|apply (Hb _ _ Hi)]. Qed.
Lemma only_x_neg a : only_x a -> only_x (fneg a).
Proof. intros Ha m c Hi. apply fneg_in in Hi. apply (Ha _ _ Hi). Qed.
Lemma only_x_const c : only_x (fconst c).
Proof. intros m d [E|[]]. injection E; intros; subst. cbn. intuition lia. Qed.
Lemma fdiv_refl p a : fdivides p a a.
Proof. exists (fconst 1). split; [apply only_x_const|]. rewrite (feq_feqm p _ _ (conv_comm a (fconst 1))), (feq_feqm p _ _ (conv_1_l a)). reflexivity. Qed.
Lemma fdiv_mul p g a k : only_x k -> fdivides p g a -> fdivides p g (conv a k).
Proof. intros Hk (u & Hu & F). exists (conv u k). split; [apply only_x_conv; assumption|]. rewrite F, (feq_feqm p _ _ (conv_assoc g u k)). reflexivity. Qed.
Lemma conv_add_r a b c : feq (conv a (fadd b c)) (fadd (conv a b) (conv a c)).
Proof. rewrite (conv_comm a (fadd b c)), conv_add_l, (conv_comm b a), (conv_comm c a). reflexivity. Qed.
Lemma fdiv_add p g a b : fdivides p g a -> fdivides p g b -> fdivides p g (fadd a b).
Proof. intros (u & Hu & F) (v & Hv & G). exists (fadd u v). split; [apply only_x_add; assumption|]. rewrite F, G, (feq_feqm p _ _ (conv_add_r g u v)). reflexivity. Qed.
Lemma conv_neg_r a b : feq (conv a (fneg b)) (fneg (conv a b)).
Proof.
  intros m. rewrite coef_neg, !coef_lin, !lin_conv. transitivity (lin (fun m1 => -1 * lin (fun m2 => delta m (mmul m1 m2)) b) a).
  - apply lin_ext. intros k. rewrite lin_neg. ring.
  - rewrite lin_scale. ring.
Qed.
Lemma fdiv_neg p g a : fdivides p g a -> fdivides p g (fneg a).
Proof. intros (u & Hu & F). exists (fneg u). split; [apply only_x_neg, Hu|]. rewrite F, (feq_feqm p _ _ (conv_neg_r g u)). reflexivity. Qed.
Lemma fdiv_feqm p g a b : feqm p a b -> fdivides p g a -> fdivides p g b.
Proof. intros H (u & Hu & F). exists u. split; [exact Hu|]. rewrite <- H. exact F. Qed.
Lemma fdiv_trans p g h a : fdivides p g h -> fdivides p h a -> fdivides p g a.
Proof. intros (u & Hu & F) (v & Hv & G). exists (conv u v). split; [apply only_x_conv; assumption|]. rewrite G, F, (feq_feqm p _ _ (conv_assoc g u v)). reflexivity. Qed.

(** ** gcd *)
Lemma reduced_lead p a : prime p -> sorted a -> a <> [] -> reduced p a -> ~ (p | tc (highest_term_x a)).
Proof. intros Hp Sa Na Ra D. destruct (highest_spec a Sa Na) as (Hh & _). apply Ra in Hh. apply Z.divide_pos_le in D; lia. Qed.
Lemma gcd_spec p : prime p -> forall fuel a b g, sorted a -> sorted b -> only_x a -> only_x b -> i32_poly a -> i32_poly b -> reduced p a -> reduced p b ->
  p_gcd fuel a b p = Ok g ->
  sorted g /\ reduced p g /\ only_x g /\ tc (highest_term_x g) = 1 /\ 1 <= mx (tm (highest_term_x g)) /\ In (tm (highest_term_x g), 1) g /\ i32_poly g /\
  fdivides p g a /\ fdivides p g b /\ (exists u v, only_x u /\ only_x v /\ feqm p g (fadd (conv u a) (conv v b))).
Proof.
  intros Hp. pose proof (prime_ge_2 p Hp) as Hp2. induction fuel as [|f IH]; intros a b g Sa Sb Oa Ob Ia Ib Ra Rb H; [discriminate|]. cbn [p_gcd] in H.
  destruct (_ <? _) eqn:E.
  - destruct (IH b a g Sb Sa Ob Oa Ib Ia Rb Ra H) as (Sg & Rg & Og & M & D & Hin & Ig & Db & Da & u & v & Hu & Hv & F).
    split; [exact Sg|]. split; [exact Rg|]. split; [exact Og|]. split; [exact M|]. split; [exact D|]. split; [exact Hin|]. split; [exact Ig|]. split; [exact Da|]. split; [exact Db|].
    exists v, u. split; [exact Hv|]. split; [exact Hu|]. rewrite F. intros m. unfold fadd. rewrite !coef_app. exists 0. ring.
  - apply bind_Ok in H. destruct H as (r & Er & H).
    destruct (pm_spec f a b p r ltac:(lia) Sa Sb Er) as (Sr & Rr & Lr & _).
    destruct (pm_only_x f a b p r ltac:(lia) Sa Sb Oa Ob Er) as (Or & k & Ok & Fk).
    pose proof (pm_i32 a b p f r Sa Oa Ia Sb Ob Er) as Ir.
    assert (Db: 1 <= mx (tm (highest_term_x b))).
    { destruct (highest_only_x b Sb Ob) as (_ & _ & _ & P0). destruct (Z.eq_dec (mx (tm (highest_term_x b))) 0) as [E0|]; [|lia].
      rewrite (pm_diverges a b p Hp2 Sa Oa Ia Sb Ob E0 f) in Er. discriminate. }
    assert (Nb: b <> []) by (intros ->; cbn in Db; lia).
    destruct (is_zero r) eqn:Ez.
    + apply is_zero_nil in Ez. subst r. destruct (to_monic_spec b p Hp Sb Ib Nb (reduced_lead p b Hp Sb Nb Rb)) as (g' & Eg & Sg & Rg & Kg & Fg & Hg & i & Fi & Di).
      assert (g' = g) by congruence. subst g'. split; [exact Sg|]. split; [exact Rg|].
      assert (Og: only_x g) by (intros m c Hi; destruct (Kg m) as (d & Hd); [eexists; exact Hi|apply (Ob _ _ Hd)]).
      split; [exact Og|]. rewrite Hg. cbn [tm tc]. split; [reflexivity|]. split; [exact Db|].
      assert (Dgb: fdivides p g b). { exists (fconst (tc (highest_term_x b))). split; [apply only_x_const|]. rewrite (feq_feqm p _ _ (conv_comm g _)), Fg. reflexivity. }
      split.
      { assert (Ng: g <> []) by (intros Eg0; rewrite Eg0 in Hg; destruct (tm (highest_term_x b)); cbn in Db; discriminate).
        destruct (highest_spec g Sg Ng) as (Hh & _). rewrite Hg in Hh. exact Hh. }
      split; [intros m c Hi; destruct (Kg m) as (d & Hd); [eexists; exact Hi|apply (Ib _ _ Hd)]|].
      split; [|split; [exact Dgb|]].
      * apply (fdiv_feqm p g (conv b k)); [|apply fdiv_mul; assumption]. rewrite Fk. unfold fadd. rewrite app_nil_r. reflexivity.
      * exists [], (fconst i). split; [intros ? ? []|]. split; [apply only_x_const|]. cbn [conv flat_map fadd app]. exact Fi.
    + assert (Nr: r <> []) by (intros ->; discriminate).
      destruct (IH b r g Sb Sr Ob Or Ib Ir Rb Rr H) as (Sg & Rg & Og & M & D & Hin & Ig & Dgb & Dgr & u & v & Hu & Hv & F).
      split; [exact Sg|]. split; [exact Rg|]. split; [exact Og|]. split; [exact M|]. split; [exact D|]. split; [exact Hin|]. split; [exact Ig|]. split; [|split; [exact Dgb|]].
      * apply (fdiv_feqm p g (fadd (conv b k) r)); [rewrite Fk; reflexivity|]. apply fdiv_add; [apply fdiv_mul; assumption|exact Dgr].
      * exists v, (fadd u (conv v (fneg k))). split; [exact Hv|]. split; [apply only_x_add; [exact Hu|apply only_x_conv; [exact Hv|apply only_x_neg, Ok]]|].
        rewrite F. assert (Gr: feqm p r (fadd a (conv (fneg k) b))).
        { rewrite Fk. intros m. unfold fadd. rewrite !coef_app, (conv_comm (fneg k) b m), (conv_neg_r b k m), coef_neg. exists 0. ring. }
        rewrite Gr. apply feq_feqm. ring.
Qed.
Lemma gcd_never_panics p : prime p -> forall fuel a b, sorted a -> sorted b -> only_x a -> only_x b -> i32_poly a -> i32_poly b -> reduced p a -> reduced p b ->
  p_gcd fuel a b p <> Panic.
Proof.
  intros Hp. pose proof (prime_ge_2 p Hp) as Hp2. induction fuel as [|f IH]; intros a b Sa Sb Oa Ob Ia Ib Ra Rb; [discriminate|]. cbn [p_gcd].
  destruct (_ <? _) eqn:E; [apply IH; assumption|].
  destruct (polynomial_modular f a b p) as [r| |] eqn:Er; cbn [bind]; [|exfalso; eapply (pm_never_panics a b p f Hp2); eassumption|discriminate].
  destruct (pm_spec f a b p r ltac:(lia) Sa Sb Er) as (Sr & Rr & Lr & _).
  destruct (pm_only_x f a b p r ltac:(lia) Sa Sb Oa Ob Er) as (Or & k & Ok & Fk).
  pose proof (pm_i32 a b p f r Sa Oa Ia Sb Ob Er) as Ir.
  destruct (is_zero r).
  - destruct b as [|e b']; [discriminate|]. destruct (to_monic_spec (e :: b') p Hp Sb Ib ltac:(discriminate)) as (g & -> & _); [|discriminate].
    apply reduced_lead; auto. discriminate.
  - apply IH; assumption.
Qed.
Lemma p_gcd_mono p : forall f f' a b x, (f <= f')%nat -> p_gcd f a b p = x -> x <> NoFuel -> p_gcd f' a b p = x.
Proof.
  induction f as [|f IH]; intros f' a b x L H N; [cbn in H; congruence|]. destruct f' as [|f']; [lia|]. cbn [p_gcd] in *.
  destruct (_ <? _); [apply IH; [lia|assumption..]|].
  destruct (polynomial_modular f a b p) as [r| |] eqn:E; cbn [bind] in H.
  - rewrite (pm_mono b p f f' a (Ok r) ltac:(lia) E ltac:(discriminate)). cbn [bind]. destruct (is_zero r); [exact H|]. apply IH; [lia|assumption..].
  - rewrite (pm_mono b p f f' a Panic ltac:(lia) E ltac:(discriminate)). exact H.
  - congruence.
Qed.

(** ** Degree of a multiple *)
Definition nf (p : Z) (a : fsum) : poly := redp p (p_add [] a).
Lemma nf_spec p a : 0 < p -> sorted (nf p a) /\ reduced p (nf p a) /\ feqm p (nf p a) a /\ (only_x a -> only_x (nf p a)).
Proof.
  intros Hp. unfold nf. assert (Ss: sorted (p_add [] a)) by (apply p_add_sorted; exact I). split; [apply redp_sorted, Ss|]. split; [apply redp_reduced, Hp|].
  split; [rewrite (redp_feqm p _ Hp Ss), (feq_feqm p _ _ (p_add_feq [] a I)); reflexivity|].
  intros Ha. apply (redp_keys (fun m => 0 <= mx m /\ my m = 0 /\ mq m = 0 /\ mv m = None)). apply (p_add_keys (fun m => 0 <= mx m /\ my m = 0 /\ mq m = 0 /\ mv m = None)); [exact I|intros ? ? []|exact Ha].
Qed.
Lemma lin_single phi a m c : sorted a -> In (m, c) a -> (forall k d, In (k, d) a -> k <> m -> phi k = 0) -> lin phi a = c * phi m.
Proof.
  induction a as [|[k d] a IH]; intros Hs Hi H; [destruct Hi|]. destruct Hs as (Hlt & Hs). cbn [lin]. destruct Hi as [E|Hi].
  - injection E; intros; subst. rewrite (lin_ext_in phi (fun _ => 0) a); [rewrite lin_zero; ring|]. intros j e Hj. apply (H j e); [right; exact Hj|].
    intros ->. apply Hlt in Hj. rewrite mono_cmp_refl in Hj. discriminate.
  - rewrite (IH Hs Hi) by (intros j e Hj; apply (H j e); right; exact Hj). rewrite (H k d (or_introl eq_refl)); [ring|]. intros ->. apply Hlt in Hi. rewrite mono_cmp_refl in Hi. discriminate.
Qed.
Lemma top_coef h k : sorted h -> sorted k -> only_x h -> only_x k -> h <> [] -> k <> [] ->
  coef (conv h k) (mkMono (mx (tm (highest_term_x h)) + mx (tm (highest_term_x k))) 0 0 None) = tc (highest_term_x h) * tc (highest_term_x k).
Proof.
  intros Sh Sk Oh Ok Nh Nk. destruct (highest_spec h Sh Nh) as (H1 & _ & M1), (highest_spec k Sk Nk) as (H2 & _ & M2).
  pose proof (only_x_key h _ _ Oh H1) as K1. pose proof (only_x_key k _ _ Ok H2) as K2.
  rewrite coef_lin, lin_conv. rewrite (lin_single _ h (tm (highest_term_x h)) (tc (highest_term_x h)) Sh H1).
  - f_equal. rewrite (lin_single _ k (tm (highest_term_x k)) (tc (highest_term_x k)) Sk H2).
    + unfold delta. rewrite K1, K2. unfold mmul. cbn [mx my mq mv vmul]. rewrite mono_eqb_refl. ring.
    + intros m d Hm N. unfold delta. rewrite mono_eqb_neq; [reflexivity|]. intros E. apply N. rewrite (only_x_key k m d Ok Hm), K2. f_equal.
      rewrite K1 in E. unfold mmul in E. cbn [mx my mq mv] in E. injection E. intros. lia.
  - intros m d Hm N. rewrite (lin_ext_in _ (fun _ => 0) k); [apply lin_zero|]. intros m2 d2 Hm2. unfold delta. rewrite mono_eqb_neq; [reflexivity|]. intros E. apply N.
    rewrite (only_x_key h m d Oh Hm), K1. f_equal. injection E as E1 _ _ _. cbn [mx] in *. pose proof (M1 _ _ Hm). pose proof (M2 _ _ Hm2). lia.
Qed.
Lemma factor_degree p h b : prime p -> sorted h -> reduced p h -> only_x h -> h <> [] -> sorted b -> reduced p b -> only_x b -> b <> [] ->
  fdivides p h b -> mx (tm (highest_term_x h)) <= mx (tm (highest_term_x b)).
Proof.
  intros Hp Sh Rh Oh Nh Sb Rb Ob Nb (k & Ok & F). pose proof (prime_ge_2 p Hp) as Hp2.
  destruct (nf_spec p k ltac:(lia)) as (Sk & Rk & Fk & Ok'). specialize (Ok' Ok). set (k' := nf p k) in *. rewrite <- Fk in F.
  assert (Nk: k' <> []).
  { intros E. rewrite E in F. apply Nb. apply (canonical_mod p b [] ltac:(lia) Sb I Rb); [intros ? ? []|]. rewrite F, (feq_feqm p _ _ (conv_comm h [])). reflexivity. }
  pose proof (top_coef h k' Sh Sk Oh Ok' Nh Nk) as T. set (m := mkMono _ _ _ _) in T. specialize (F m). rewrite T in F.
  destruct (highest_only_x k' Sk Ok') as (_ & _ & _ & P0).
  destruct (bm_get m b) as [c|] eqn:G.
  - pose proof (bm_get_in _ _ _ G) as Hi. pose proof (highest_max b m c Sb Hi). cbn [m mx] in *. unfold m in *. cbn [mx] in *. lia.
  - exfalso. rewrite (bm_get_coef b m Sb), G in F. assert (D: (p | tc (highest_term_x h) * tc (highest_term_x k'))) by (destruct F as (z & F); exists (- z); lia).
    apply (prime_mult p Hp) in D. destruct D as [D|D]; [apply (reduced_lead p h Hp Sh Nh Rh D)|apply (reduced_lead p k' Hp Sk Nk Rk D)].
Qed.
Lemma gcd_returns p : prime p -> forall n a b, sorted a -> sorted b -> only_x a -> only_x b -> i32_poly a -> i32_poly b -> reduced p a -> reduced p b ->
  a <> [] -> b <> [] -> common_factor p a b -> mx (tm (highest_term_x b)) < Z.of_nat n -> exists fuel g, p_gcd fuel a b p = Ok g.
Proof.
  intros Hp. pose proof (prime_ge_2 p Hp) as Hp2. induction n as [|n IH]; intros a b Sa Sb Oa Ob Ia Ib Ra Rb Na Nb (h & hm & hc & Sh & Rh & Oh & Hh & Dh & Da & Db) Hn.
  { destruct (highest_only_x b Sb Ob). lia. }
  destruct (mx (tm (highest_term_x a)) <? mx (tm (highest_term_x b))) eqn:E.
  - destruct (IH b a Sb Sa Ob Oa Ib Ia Rb Ra Nb Na) as (fuel & g & Eg); [exists h, hm, hc; auto 10|lia|].
    exists (S fuel), g. cbn [p_gcd]. rewrite E. exact Eg.
  - assert (Nh: h <> []) by (intros ->; destruct Hh). pose proof (factor_degree p h b Hp Sh Rh Oh Nh Sb Rb Ob Nb Db) as Le. pose proof (highest_max h hm hc Sh Hh) as Lh.
    destruct (pm_returns a b p Hp Sa Sb Ob) as (f1 & r & Er); [intros m c Hi; split; [apply (Ia _ _ Hi)|apply (Oa _ _ Hi)]|lia|apply reduced_lead; assumption|].
    destruct (pm_spec f1 a b p r ltac:(lia) Sa Sb Er) as (Sr & Rr & Lr & _).
    destruct (pm_only_x f1 a b p r ltac:(lia) Sa Sb Oa Ob Er) as (Or & k & Ok & Fk).
    pose proof (pm_i32 a b p f1 r Sa Oa Ia Sb Ob Er) as Ir.
    destruct (is_zero r) eqn:Ez.
    + destruct (to_monic_spec b p Hp Sb Ib Nb (reduced_lead p b Hp Sb Nb Rb)) as (g & Eg & _). exists (S f1), g. cbn [p_gcd]. rewrite E, Er. cbn [bind]. rewrite Ez. exact Eg.
    + assert (Nr: r <> []) by (intros ->; discriminate).
      destruct (IH b r Sb Sr Ob Or Ib Ir Rb Rr Nb Nr) as (f2 & g & Eg).
      * exists h, hm, hc. split; [exact Sh|]. split; [exact Rh|]. split; [exact Oh|]. split; [exact Hh|]. split; [exact Dh|]. split; [exact Db|].
        apply (fdiv_feqm p h (fadd a (conv b (fneg k)))).
        -- rewrite Fk. intros m. unfold fadd. rewrite !coef_app, (conv_neg_r b k m), coef_neg. exists 0. ring.
        -- apply fdiv_add; [exact Da|]. apply fdiv_mul; [apply only_x_neg, Ok|exact Db].
      * destruct (highest_spec r Sr Nr) as (Hr & _). apply Lr in Hr. lia.
      * exists (S (Nat.max f1 f2)), g. cbn [p_gcd]. rewrite E.
        rewrite (pm_mono b p f1 (Nat.max f1 f2) a _ ltac:(lia) Er ltac:(discriminate)). cbn [bind]. rewrite Ez.
        apply (p_gcd_mono p f2); [lia|exact Eg|discriminate].
Qed.
