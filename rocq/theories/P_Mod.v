(** Lemmas about polynomial_modular, to_monic, gcd. *)
From Coq Require Import Znumtheory ZifyBool Setoid Morphisms Ring.
From Verif Require Import Prelude M_Bigint M_Variable M_Term M_Poly Spec P_Bigint P_Variable P_FSum P_Poly P_Rem P_PolyProps P_Subst P_Subst2 P_Subst3.
Open Scope Z_scope.

(** ** Multiplication by one term *)
Definition mdiv (m k : mono) : mono := mkMono (mx m - mx k) (my m - my k) (mq m - mq k) (mv m).
Lemma coef_conv1 k c b m : mv k = None -> coef (conv [(k, c)] b) m = c * coef b (mdiv m k).
Proof.
  intros Hk. rewrite !coef_lin, lin_conv. cbn [lin]. rewrite Z.add_0_r. f_equal. apply lin_ext. intros m2. unfold delta.
  destruct (mono_eqb (mmul k m2) m) eqn:E, (mono_eqb m2 (mdiv m k)) eqn:E'; try reflexivity; exfalso.
  - apply mono_eqb_eq in E. subst m. assert (X: m2 <> mdiv (mmul k m2) k) by (intros X; rewrite <- X, mono_eqb_refl in E'; discriminate). apply X. unfold mdiv, mmul. cbn [mx my mq mv]. rewrite Hk. destruct m2; cbn. f_equal; ring.
  - apply mono_eqb_eq in E'. subst m2. assert (X: mmul k (mdiv m k) <> m) by (intros X; rewrite X, mono_eqb_refl in E; discriminate). apply X. unfold mdiv, mmul. cbn [mx my mq mv]. rewrite Hk. destruct m; cbn. f_equal; ring.
Qed.

(** ** One round of the division loop *)
Definition pm_step (other : poly) (oh : term) (p : Z) (r : poly) : res poly :=
  let rh := highest_term_x r in
  inv <- inverse (tc oh) p ;;
  x <- i32 (mx (tm rh) - mx (tm oh)) ;;
  d <- t_mul_p (mkTerm ((tc rh * inv) mod p) (mkMono x (my (tm rh)) (mq (tm rh)) None)) other ;;
  d <- modular_assign d p ;;
  modular_assign (p_sub_assign r d) p.
Lemma pm_loop_S f other oh p r : polynomial_modular_loop (S f) other oh p r =
  if mx (tm (highest_term_x r)) <? mx (tm oh) then Ok r
  else r' <- pm_step other oh p r ;; polynomial_modular_loop f other oh p r'.
Proof.
  cbn [polynomial_modular_loop]. destruct (_ <? _); [reflexivity|]. unfold pm_step.
  destruct (inverse (tc oh) p) as [inv| |] eqn:Ei; cbn [bind]; try reflexivity.
  destruct (i32 _) as [x| |]; cbn [bind]; try reflexivity. unfold term_modular_assign, mod_floor.
  assert (p <> 0) by (intros ->; rewrite inverse_small in Ei by lia; discriminate).
  destruct (p =? 0) eqn:E0; [lia|]. cbn [bind tb_build tb_qpow tb_ypow tb_xpow tb_coef tb_new b_coef b_x b_y b_q b_v tm tc].
  destruct (t_mul_p _ other) as [d| |]; cbn [bind]; try reflexivity.
  destruct (modular_assign d p) as [d'| |]; cbn [bind]; reflexivity.
Qed.
Lemma pm_loop_exit f other oh p r : mx (tm (highest_term_x r)) < mx (tm oh) -> polynomial_modular_loop f other oh p r = Ok r.
Proof. intros H. destruct f; cbn [polynomial_modular_loop]; destruct (_ <? _) eqn:E; try reflexivity; lia. Qed.

(** What a round computes. *)
Lemma pm_step_spec other p r r' : sorted other -> sorted r -> pm_step other (highest_term_x other) p r = Ok r' ->
  let rh := highest_term_x r in let oh := highest_term_x other in
  2 <= p /\ exists inv, inverse (tc oh) p = Ok inv /\
  sorted r' /\ reduced p r' /\
  feqm p r' (fsub r (conv [(mkMono (mx (tm rh) - mx (tm oh)) (my (tm rh)) (mq (tm rh)) None, tc rh * inv)] other)).
Proof.
  intros So Sr H. cbv zeta. unfold pm_step in H. apply bind_Ok in H. destruct H as (inv & Ei & H).
  assert (Hp: 2 <= p) by (destruct (Z_lt_le_dec p 2); [rewrite inverse_small in Ei by assumption; discriminate|assumption]).
  split; [exact Hp|]. exists inv. split; [exact Ei|].
  apply bind_Ok in H. destruct H as (x & Ex & H). apply i32_inv in Ex. destruct Ex as (-> & _).
  apply bind_Ok in H. destruct H as (d & Ed & H). apply bind_Ok in H. destruct H as (d' & Ed' & H).
  unfold t_mul_p in Ed. pose proof (p_mul_sorted _ _ _ Ed) as Sd. rewrite modular_assign_eq in Ed' by (assumption || lia). injection Ed' as <-.
  pose proof (redp_sorted p d Sd) as Sd'. rewrite p_sub_assign_eq in H by assumption.
  pose proof (p_sub_sorted r (redp p d) Sr) as Ss. rewrite modular_assign_eq in H by (assumption || lia). injection H as <-.
  split; [apply redp_sorted, Ss|]. split; [apply redp_reduced; lia|].
  rewrite (redp_feqm p _ ltac:(lia) Ss). rewrite (feq_feqm p _ _ (p_sub_feq r (redp p d) Sr Sd')).
  rewrite (redp_feqm p d ltac:(lia) Sd). rewrite (feq_feqm p _ _ (p_mul_feq _ _ _ Ed)), (feq_feqm p _ _ (to_pol_feq _)). cbn [tm tc].
  set (rh := highest_term_x r). set (oh := highest_term_x other). set (k := mkMono _ _ _ _).
  assert (F: feqm p [(k, (tc rh * inv) mod p)] [(k, tc rh * inv)]).
  { intros m. cbn [coef]. destruct (mono_eqb k m); [|exists 0; ring]. exists (- (tc rh * inv / p)). rewrite (Z.div_mod (tc rh * inv) p) at 2 by lia. ring. }
  rewrite F. reflexivity.
Qed.
Lemma pm_step_keys (P : mono -> Prop) other p r r' : sorted other -> sorted r -> pm_step other (highest_term_x other) p r = Ok r' ->
  let rh := highest_term_x r in let oh := highest_term_x other in
  keysP P r ->
  (forall m c, In (m, c) other -> let q := mkMono (mx (tm rh) - mx (tm oh)) (my (tm rh)) (mq (tm rh)) None in mul_ok q m -> P (mmul q m)) ->
  keysP P r'.
Proof.
  intros So Sr H rh oh Pr Pm. unfold pm_step in H. apply bind_Ok in H. destruct H as (inv & Ei & H).
  assert (Hp: 2 <= p) by (destruct (Z_lt_le_dec p 2); [rewrite inverse_small in Ei by assumption; discriminate|assumption]).
  apply bind_Ok in H. destruct H as (x & Ex & H). apply i32_inv in Ex. destruct Ex as (-> & _).
  apply bind_Ok in H. destruct H as (d & Ed & H). apply bind_Ok in H. destruct H as (d' & Ed' & H).
  unfold t_mul_p in Ed. pose proof (p_mul_sorted _ _ _ Ed) as Sd. rewrite modular_assign_eq in Ed' by (assumption || lia). injection Ed' as <-.
  pose proof (redp_sorted p d Sd) as Sd'. rewrite p_sub_assign_eq in H by assumption.
  pose proof (p_sub_sorted r (redp p d) Sr) as Ss. rewrite modular_assign_eq in H by (assumption || lia). injection H as <-.
  apply redp_keys, p_sub_keys; auto. apply redp_keys.
  apply (p_mul_keys (fun m => m = mkMono (mx (tm rh) - mx (tm oh)) (my (tm rh)) (mq (tm rh)) None) (fun m => exists c, In (m, c) other) P _ _ d Ed).
  - apply to_pol_keys. reflexivity.
  - intros m c Hm. exists c. exact Hm.
  - intros m1 m2 -> (c & Hc) Ok. exact (Pm m2 c Hc Ok).
Qed.

Definition modkey (m : mono) : Prop := i32_mono m /\ mv m = None.
Lemma highest_nil : highest_term_x [] = term_new.
Proof. reflexivity. Qed.
Lemma only_x_key d m c : only_x d -> In (m, c) d -> m = mkMono (mx m) 0 0 None.
Proof. intros H Hi. destruct (H m c Hi) as (A & B & C & D). destruct m; cbn in *; subst; reflexivity. Qed.
Lemma highest_in a : sorted a -> (a = [] /\ highest_term_x a = term_new) \/ (a <> [] /\ In (tm (highest_term_x a), tc (highest_term_x a)) a).
Proof. intros Hs. destruct a as [|e a]; [left; split; reflexivity|]. right. split; [discriminate|]. apply highest_spec; [exact Hs|discriminate]. Qed.
Lemma highest_max a m c : sorted a -> In (m, c) a -> mx m <= mx (tm (highest_term_x a)).
Proof. intros Hs Hi. destruct a as [|e a]; [destruct Hi|]. apply (highest_spec (e :: a) Hs ltac:(discriminate)) with (c := c). exact Hi. Qed.

Lemma pm_step_returns other p r : 2 <= p -> sorted other -> only_x other -> sorted r -> keysP modkey r -> mx (tm (highest_term_x other)) <= mx (tm (highest_term_x r)) ->
  exists r', pm_step other (highest_term_x other) p r = Ok r'.
Proof.
  intros Hp So Oo Sr Kr Hd. unfold pm_step. rewrite inverse_eq by exact Hp. cbn [bind].
  assert (Od: 0 <= mx (tm (highest_term_x other))).
  { destruct (highest_in other So) as [(_ & ->)|(_ & Hi)]; [cbn; lia|apply (Oo _ _ Hi)]. }
  assert (Rk: i32_mono (tm (highest_term_x r))).
  { destruct (highest_in r Sr) as [(_ & ->)|(_ & Hi)]; [unfold i32_mono, i32_range, i32_min, i32_max; cbn; lia|apply (Kr _ _ Hi)]. }
  destruct Rk as (R1 & R2 & R3). unfold i32_range in *.
  rewrite i32_ok by (unfold i32_min, i32_max in *; lia). cbn [bind]. unfold t_mul_p.
  match goal with |- exists r', (d <- p_mul ?u other ;; _) = _ => assert (R: exists d, p_mul u other = Ok d) end.
  { apply p_mul_returns. intros m1 c1 m2 c2 H1 H2.
    assert (m1 = mkMono (mx (tm (highest_term_x r)) - mx (tm (highest_term_x other))) (my (tm (highest_term_x r))) (mq (tm (highest_term_x r))) None) as ->.
    { revert m1 c1 H1. apply (to_pol_keys (fun m => m = _)). reflexivity. }
    pose proof (highest_max other m2 c2 So H2). destruct (Oo _ _ H2) as (A & B & C & D). unfold mul_ok. cbn [mx my mq mv]. rewrite B, C, D.
    split; [left; reflexivity|]. unfold i32_min, i32_max in *. lia. }
  destruct R as (d & Ed). rewrite Ed. cbn [bind]. pose proof (p_mul_sorted _ _ _ Ed) as Sd. rewrite modular_assign_eq by (assumption || lia). cbn [bind].
  rewrite p_sub_assign_eq by (apply redp_sorted, Sd). rewrite modular_assign_eq by (try lia; apply p_sub_sorted, Sr). eexists. reflexivity.
Qed.
Lemma pm_step_modkey other p r r' : sorted other -> only_x other -> sorted r -> keysP modkey r ->
  pm_step other (highest_term_x other) p r = Ok r' -> keysP modkey r'.
Proof.
  intros So Oo Sr Kr H. apply (pm_step_keys modkey other p r r' So Sr H Kr). intros m c Hm q Ok. split; [apply mul_ok_i32, Ok|].
  destruct (Oo _ _ Hm) as (_ & _ & _ & D). unfold mmul, q. cbn. exact D.
Qed.
Lemma highest_only_x r : sorted r -> only_x r -> my (tm (highest_term_x r)) = 0 /\ mq (tm (highest_term_x r)) = 0 /\ mv (tm (highest_term_x r)) = None /\ 0 <= mx (tm (highest_term_x r)).
Proof. intros Sr Or. destruct (highest_in r Sr) as [(_ & ->)|(_ & Hi)]; [cbn; intuition lia|]. destruct (Or _ _ Hi) as (A & B & C & D). intuition. Qed.
Lemma pm_step_only_x other p r r' : sorted other -> only_x other -> sorted r -> only_x r ->
  mx (tm (highest_term_x other)) <= mx (tm (highest_term_x r)) ->
  pm_step other (highest_term_x other) p r = Ok r' -> only_x r'.
Proof.
  intros So Oo Sr Or Hd H. apply (pm_step_keys (fun m => 0 <= mx m /\ my m = 0 /\ mq m = 0 /\ mv m = None) other p r r' So Sr H Or). intros m c Hm q Ok.
  destruct (Oo _ _ Hm) as (A & B & C & D). destruct (highest_only_x r Sr Or) as (E & F & _). unfold mmul, q. cbn [mx my mq mv]. rewrite B, C, D, E, F. intuition lia.
Qed.

(** Progress: the leading term disappears, nothing new appears at its x-degree or above. *)
Lemma pm_step_progress other p r r' : prime p -> sorted other -> only_x other -> other <> [] -> ~ (p | tc (highest_term_x other)) ->
  sorted r -> r <> [] -> mv (tm (highest_term_x r)) = None ->
  pm_step other (highest_term_x other) p r = Ok r' ->
  forall m c, In (m, c) r' -> m <> tm (highest_term_x r) /\ (haskey r m \/ mx m < mx (tm (highest_term_x r))).
Proof.
  intros Hp So Oo No HL Sr Nr Hv H m c Hi. destruct (pm_step_spec other p r r' So Sr H) as (Hp2 & inv & Ei & Sr' & Rr' & F).
  set (rh := highest_term_x r) in *. set (oh := highest_term_x other) in *.
  destruct (highest_spec r Sr Nr) as (Hrh & _ & Hrmax). fold rh in Hrh, Hrmax.
  destruct (highest_spec other So No) as (Hoh & _ & Homax). fold oh in Hoh, Homax.
  set (k := mkMono (mx (tm rh) - mx (tm oh)) (my (tm rh)) (mq (tm rh)) None) in *.
  destruct (inverse_spec (tc oh) p Hp HL) as (inv' & Ei' & _ & Dinv). assert (inv' = inv) by congruence. subst inv'.
  assert (Cm: coef r' m = c) by (apply sorted_coef; assumption). assert (Hc: 1 <= c < p) by (apply (Rr' m c Hi)).
  specialize (F m). unfold fsub in F. rewrite coef_app, coef_neg, (coef_conv1 k _ other m eq_refl), Cm in F.
  assert (Oohk: tm oh = mkMono (mx (tm oh)) 0 0 None) by (eapply only_x_key; eassumption).
  destruct (mono_eq_dec m (tm rh)) as [->|Nm].
  - exfalso. rewrite (sorted_coef r _ _ Sr Hrh) in F.
    assert (mdiv (tm rh) k = tm oh) as E. { rewrite Oohk. unfold mdiv, k. cbn [mx my mq mv]. rewrite Hv. f_equal; ring. }
    rewrite E, (sorted_coef other _ _ So Hoh) in F. destruct Dinv as (w & Dw).
    assert (D: (p | c)).
    { destruct F as (z & Fz). exists (z - tc rh * w). replace c with (c - (tc rh + - (tc rh * inv * tc oh)) + tc rh * (1 - tc oh * inv)) by ring. rewrite Fz. replace (1 - tc oh * inv) with (- (w * p)) by lia. ring. }
    apply Z.divide_pos_le in D; lia.
  - split; [exact Nm|]. destruct (Z_lt_le_dec (mx m) (mx (tm rh))) as [|Hge]; [right; assumption|left].
    destruct (bm_get m r) as [d|] eqn:G; [exists d; apply bm_get_in, G|]. exfalso. rewrite (bm_get_coef r m Sr), G in F.
    rewrite (coef_notin other (mdiv m k)) in F.
    + replace (c - (0 + - (tc rh * inv * 0))) with c in F by ring. apply Z.divide_pos_le in F; lia.
    + intros d Hd. pose proof (Homax _ _ Hd) as Hm. cbn [mdiv mx k] in Hm. assert (mx m = mx (tm rh)) by lia.
      assert (E: mdiv m k = mkMono (mx (mdiv m k)) 0 0 None) by (eapply only_x_key; eassumption).
      apply Nm. unfold mdiv, k in E. cbn [mx my mq mv] in E. injection E as E1 E2 E3. destruct m, (tm rh); cbn in *. f_equal; try lia; congruence.
Qed.

(** ** Termination *)
Definition cnt (N : Z) (r : poly) : nat := length (filter (fun e : mono * Z => mx (fst e) =? N) r).
Lemma cnt_lt N r r' : sorted r -> sorted r' -> forall k, mx k = N -> haskey r k ->
  (forall m c, In (m, c) r' -> mx m = N -> m <> k /\ haskey r m) -> (cnt N r' < cnt N r)%nat.
Proof.
  intros Sr Sr' k Hk (d & Hd) H. unfold cnt.
  set (l := map fst (filter (fun e : mono * Z => mx (fst e) =? N) r)). set (l' := map fst (filter (fun e : mono * Z => mx (fst e) =? N) r')).
  assert (E: length l = length (filter (fun e : mono * Z => mx (fst e) =? N) r)) by apply map_length.
  assert (E': length l' = length (filter (fun e : mono * Z => mx (fst e) =? N) r')) by apply map_length.
  assert (I: incl (k :: l') l).
  { intros m [<-|Hm].
    - apply in_map_iff. exists (k, d). split; [reflexivity|]. apply filter_In. split; [exact Hd|]. cbn. lia.
    - apply in_map_iff in Hm. destruct Hm as ([m' c] & <- & Hm). apply filter_In in Hm. cbn in *. destruct Hm as (Hm & EN).
      destruct (H m' c Hm ltac:(lia)) as (_ & (d' & Hd')). apply in_map_iff. exists (m', d'). split; [reflexivity|]. apply filter_In. split; [exact Hd'|]. cbn. lia. }
  assert (ND: NoDup (k :: l')).
  { constructor; [|apply NoDup_filter_fst, sorted_NoDup, Sr']. intros Hin. apply in_map_iff in Hin. destruct Hin as ([m' c] & Em & Hm). apply filter_In in Hm.
    cbn in *. subst m'. destruct (H k c (proj1 Hm) Hk) as (N1 & _). congruence. }
  pose proof (NoDup_incl_length ND I) as L. cbn [length] in L. lia.
Qed.
Section Term.
  Variable (p : Z) (other : poly).
  Hypothesis (Hp : prime p) (So : sorted other) (Oo : only_x other) (HD : 1 <= mx (tm (highest_term_x other)))
             (HL : ~ (p | tc (highest_term_x other))).
  Let oh := highest_term_x other.
  Lemma No : other <> [].
  Proof. intros ->. cbn in HD. lia. Qed.
  Lemma pm_terminates n : forall j r, sorted r -> keysP modkey r -> (forall m c, In (m, c) r -> mx m < mx (tm oh) + Z.of_nat n) ->
    (cnt (mx (tm oh) + Z.of_nat n - 1) r <= j)%nat ->
    exists fuel s, polynomial_modular_loop fuel other oh p r = Ok s.
  Proof.
    pose proof (prime_ge_2 p Hp) as Hp2. pose proof No as N0.
    induction n as [|n IHn]; intros j; [|induction j as [|j IHj]]; intros r Sr Kr Hb Hc.
    - exists O, r. apply pm_loop_exit. destruct (highest_in r Sr) as [(_ & ->)|(_ & Hi)]; [cbn; unfold oh; lia|]. apply Hb in Hi. lia.
    - apply (IHn (cnt (mx (tm oh) + Z.of_nat n - 1) r) r Sr Kr); [|lia]. intros m c Hi. specialize (Hb m c Hi).
      destruct (Z.eq_dec (mx m) (mx (tm oh) + Z.of_nat n)) as [E|]; [|lia]. exfalso. unfold cnt in Hc.
      assert (Hf: In (m, c) (filter (fun e : mono * Z => mx (fst e) =? mx (tm oh) + Z.of_nat (S n) - 1) r)) by (apply filter_In; split; [exact Hi|cbn; lia]).
      destruct (filter _ r); [destruct Hf|cbn in Hc; lia].
    - destruct (Z_lt_le_dec (mx (tm (highest_term_x r))) (mx (tm oh))) as [L|L]; [exists O, r; apply pm_loop_exit, L|].
      destruct (Z.eq_dec (mx (tm (highest_term_x r))) (mx (tm oh) + Z.of_nat n)) as [E|E].
      + assert (Nr: r <> []) by (intros ->; cbn in L; unfold oh in L; lia).
        destruct (highest_spec r Sr Nr) as (Hrh & _ & Hrmax).
        destruct (pm_step_returns other p r Hp2 So Oo Sr Kr L) as (r' & Es).
        destruct (pm_step_spec other p r r' So Sr Es) as (_ & inv & _ & Sr' & _).
        pose proof (pm_step_progress other p r r' Hp So Oo N0 HL Sr Nr (proj2 (Kr _ _ Hrh)) Es) as Pr.
        destruct (IHj r' Sr') as (fuel & s & Es').
        * exact (pm_step_modkey other p r r' So Oo Sr Kr Es).
        * intros m c Hi. destruct (Pr m c Hi) as (_ & [(d & Hd)|Hlt]); [apply (Hb m d Hd)|lia].
        * assert (cnt (mx (tm oh) + Z.of_nat (S n) - 1) r' < cnt (mx (tm oh) + Z.of_nat (S n) - 1) r)%nat; [|lia].
          apply (cnt_lt _ r r' Sr Sr' (tm (highest_term_x r))); [lia|eexists; exact Hrh|]. intros m c Hi Em. destruct (Pr m c Hi) as (N1 & [K|K]); [split; assumption|lia].
        * exists (S fuel), s. rewrite pm_loop_S. destruct (_ <? _) eqn:El; [lia|]. fold oh in Es. rewrite Es. exact Es'.
      + apply (IHn (cnt (mx (tm oh) + Z.of_nat n - 1) r) r Sr Kr); [|lia]. intros m c Hi. pose proof (Hb m c Hi). pose proof (highest_max r m c Sr Hi).
        assert (mx (tm (highest_term_x r)) < mx (tm oh) + Z.of_nat (S n)); [|lia].
        destruct (highest_in r Sr) as [(-> & _)|(_ & Hh)]; [destruct Hi|apply (Hb _ _ Hh)].
  Qed.
End Term.

(** ** What the loop returns *)
Lemma pm_loop_spec other p : sorted other -> forall fuel r s, sorted r ->
  polynomial_modular_loop fuel other (highest_term_x other) p r = Ok s ->
  sorted s /\ (exists k, feqm p r (fadd (conv other k) s)) /\ mx (tm (highest_term_x s)) < mx (tm (highest_term_x other)).
Proof.
  intros So. induction fuel as [|f IH]; intros r s Sr H; [cbn [polynomial_modular_loop] in H|rewrite pm_loop_S in H]; destruct (_ <? _) eqn:E.
  1, 3: injection H as <-; split; [exact Sr|]; split; [|lia]; exists []; rewrite (feq_feqm p _ _ (conv_comm other [])); cbn; reflexivity.
  - discriminate.
  - apply bind_Ok in H. destruct H as (r' & Es & H). destruct (pm_step_spec other p r r' So Sr Es) as (Hp & inv & _ & Sr' & _ & F).
    destruct (IH r' s Sr' H) as (Ss & (k & Fk) & Ex). split; [exact Ss|]. split; [|exact Ex].
    match type of F with feqm p r' (fsub r (conv ?q other)) => exists (fadd k q); set (u := q) in * end.
    assert (G: feqm p r (fadd r' (conv u other))) by (rewrite F; unfold fsub; intros m; unfold fadd; rewrite !coef_app, coef_neg; exists 0; ring).
    rewrite G, Fk. intros m. unfold fadd. rewrite !coef_app.
    assert (feq (conv other (k ++ u)) (fadd (conv other k) (conv u other))) as E'.
    { change (k ++ u) with (fadd k u). rewrite (conv_comm other (fadd k u)), conv_add_l, (conv_comm k other). reflexivity. }
    rewrite (E' m). unfold fadd. rewrite coef_app. exists 0. ring.
Qed.
Lemma pm_loop_only_x other p : sorted other -> only_x other -> forall fuel r s, sorted r -> only_x r ->
  polynomial_modular_loop fuel other (highest_term_x other) p r = Ok s ->
  only_x s /\ exists k, only_x k /\ feqm p r (fadd (conv other k) s).
Proof.
  intros So Oo. induction fuel as [|f IH]; intros r s Sr Or H; [cbn [polynomial_modular_loop] in H|rewrite pm_loop_S in H]; destruct (_ <? _) eqn:E.
  1, 3: injection H as <-; split; [exact Or|]; exists []; split; [intros ? ? []|]; rewrite (feq_feqm p _ _ (conv_comm other [])); cbn; reflexivity.
  - discriminate.
  - apply bind_Ok in H. destruct H as (r' & Es & H). destruct (pm_step_spec other p r r' So Sr Es) as (Hp & inv & _ & Sr' & _ & F).
    destruct (IH r' s Sr') as (Os & k & Ok & Fk); [apply (pm_step_only_x other p r r' So Oo Sr Or); [lia|exact Es]|exact H|]. split; [exact Os|].
    match type of F with feqm p r' (fsub r (conv ?q other)) => exists (fadd k q); set (u := q) in * end.
    split.
    { intros m c Hi. apply in_app_iff in Hi. destruct Hi as [Hi|[Ei|[]]]; [apply (Ok m c Hi)|]. injection Ei; intros; subst.
      destruct (highest_only_x r Sr Or) as (E1 & E2 & _). cbn. rewrite E1, E2. intuition lia. }
    assert (G: feqm p r (fadd r' (conv u other))) by (rewrite F; unfold fsub; intros m; unfold fadd; rewrite !coef_app, coef_neg; exists 0; ring).
    rewrite G, Fk. intros m. unfold fadd. rewrite !coef_app.
    assert (feq (conv other (k ++ u)) (fadd (conv other k) (conv u other))) as E'.
    { change (k ++ u) with (fadd k u). rewrite (conv_comm other (fadd k u)), conv_add_l, (conv_comm k other). reflexivity. }
    rewrite (E' m). unfold fadd. rewrite coef_app. exists 0. ring.
Qed.
Lemma pm_loop_mono other oh p : forall f f' r x, (f <= f')%nat -> polynomial_modular_loop f other oh p r = x -> x <> NoFuel -> polynomial_modular_loop f' other oh p r = x.
Proof.
  induction f as [|f IH]; intros f' r x L H N.
  - cbn [polynomial_modular_loop] in H. destruct (_ <? _) eqn:E; [subst x; apply pm_loop_exit; lia|congruence].
  - destruct f' as [|f']; [lia|]. rewrite pm_loop_S in *. destruct (_ <? _); [exact H|]. destruct (pm_step other oh p r); cbn [bind] in *; try exact H.
    apply IH; [lia|exact H|exact N].
Qed.
Lemma pm_mono other p f f' a x : (f <= f')%nat -> polynomial_modular f a other p = x -> x <> NoFuel -> polynomial_modular f' a other p = x.
Proof.
  intros L H N. unfold polynomial_modular in *. destruct (assertb (negb (has_y other))); cbn [bind] in *; try exact H.
  destruct (assertb (negb (has_q other))); cbn [bind] in *; try exact H.
  destruct (polynomial_modular_loop f other (highest_term_x other) p a) eqn:E; cbn [bind] in H.
  - rewrite (pm_loop_mono _ _ _ f f' a _ L E ltac:(discriminate)). exact H.
  - rewrite (pm_loop_mono _ _ _ f f' a _ L E ltac:(discriminate)). exact H.
  - congruence.
Qed.
