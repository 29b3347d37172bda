(** Division polynomials: reduction, recursion, the invariant of psi. *)
From Coq Require Import Znumtheory ZifyBool Setoid Morphisms Ring.
From Verif Require Import Prelude M_Bigint M_Variable M_Term M_Poly M_DivPoly Spec P_Bigint P_Variable P_FSum P_Poly P_Rem P_PolyProps P_Subst P_Subst2 P_SubstProps P_DivPoly.
Open Scope Z_scope.

Section Red.
Variables a b : Z.
Definition Fred (u : fsum) : fsum := flat_map (red_term a b) u.
Lemma lin_scale_head phi m c g : lin phi (conv [(m, c)] g) = c * lin phi (conv [(m, 1)] g).
Proof. rewrite !lin_conv. cbn [lin]. ring. Qed.
Lemma lin_red_term phi m c : lin phi (red_term a b (m, c)) = c * lin phi (red_term a b (m, 1)).
Proof. unfold red_term. cbn [fst snd]. destruct (2 <=? my m); [apply lin_scale_head|cbn [lin]; ring]. Qed.
Lemma lin_Fred phi u : lin phi (Fred u) = lin (fun m => lin phi (red_term a b (m, 1))) u.
Proof.
  induction u as [|[m c] u IH]; [reflexivity|]. unfold Fred in *. cbn [flat_map lin]. rewrite lin_app, IH, lin_red_term. reflexivity.
Qed.
Lemma Fred_proper u v : feq u v -> feq (Fred u) (Fred v).
Proof. intros H. apply feq_intro. intros phi. rewrite !lin_Fred. apply feq_lin, H. Qed.
Lemma Fred_sub u v : feq (Fred (fsub u v)) (fsub (Fred u) (Fred v)).
Proof.
  apply feq_intro. intros phi. unfold fsub. rewrite lin_Fred, !lin_app, !lin_neg, !lin_Fred. reflexivity.
Qed.
Definition W := fweier a b.
Lemma W_keys : keysP (ykey 0 3) W.
Proof. intros m c H. cbn in H. intuition (repeat match goal with H : (_, _) = (_, _) |- _ => injection H; intros; subst; clear H end; unfold ykey; cbn; repeat split; lia). Qed.
Lemma Wpow_keys n : keysP (ykey 0 (3 * Z.of_nat n)) (fpow W n).
Proof.
  induction n as [|n IH]; cbn [fpow].
  - intros m c [E|[]]; injection E; intros; subst; unfold ykey; cbn; repeat split; lia.
  - apply (ykeys_mono 0 (3 + 3 * Z.of_nat n)); [lia|]. apply ykeys_conv0; [apply W_keys|exact IH].
Qed.
Lemma fmap_shift j k B f : keysP (ykey 0 B) f -> fmap (set_y j) (conv (Yk k) f) = conv (Yk j) f.
Proof.
  intros Hf. unfold conv, Yk, fmap. cbn [flat_map]. rewrite !app_nil_r, map_map. apply map_ext_in.
  intros [m c] Hm. apply Hf in Hm. unfold ykey in Hm. cbn [fst snd]. unfold mmul, set_y. cbn [mx my mq mv]. f_equal. f_equal. lia.
Qed.
Lemma flat_map_fmap k (r : fsum) : (forall m c, In (m, c) r -> my m = k) -> 2 <= k ->
  flat_map (red_term a b) r = conv (fmap (set_y (k mod 2)) r) (fpow W (Z.to_nat (k / 2))).
Proof.
  intros Hr Hk. induction r as [|[m c] r IH]; [reflexivity|]. unfold conv, fmap in *. cbn [flat_map map fst snd].
  rewrite IH by (intros; eapply Hr; right; eassumption). f_equal. unfold red_term. cbn [fst snd].
  rewrite (Hr m c) by (left; reflexivity). destruct (2 <=? k) eqn:E; [|lia]. unfold conv. cbn [flat_map fst snd]. rewrite app_nil_r. reflexivity.
Qed.
Lemma flat_map_low k (r : fsum) : (forall m c, In (m, c) r -> my m = k) -> k < 2 -> flat_map (red_term a b) r = r.
Proof.
  intros Hr Hk. induction r as [|[m c] r IH]; [reflexivity|]. cbn [flat_map].
  rewrite IH by (intros; eapply Hr; right; eassumption). unfold red_term. cbn [fst snd].
  rewrite (Hr m c) by (left; reflexivity). destruct (2 <=? k) eqn:E; [lia|]. reflexivity.
Qed.
Definition redf (k : Z) (f : fsum) : fsum := conv f (fpow W (Z.to_nat (k / 2))).
Lemma redf_keys k B f : 0 <= k -> keysP (ykey 0 B) f -> keysP (ykey 0 (B + 3 * (k / 2))) (redf k f).
Proof.
  intros Hk Hf. unfold redf. apply ykeys_conv0; [exact Hf|]. pose proof (Wpow_keys (Z.to_nat (k / 2))) as H.
  rewrite Z2Nat.id in H by (apply Z.div_pos; lia). exact H.
Qed.
Lemma Fred_rep k B f r : 0 <= k -> rep k B f r -> feq (Fred r) (conv (Yk (k mod 2)) (redf k f)).
Proof.
  intros Hk [S1 K1 L1 F1]. unfold Fred, redf.
  assert (Kr: forall m c, In (m, c) r -> my m = k) by (intros m c H; apply K1 in H; unfold ykey in H; tauto).
  destruct (Z_lt_le_dec k 2) as [H2|H2].
  - rewrite (flat_map_low k) by assumption. rewrite Z.mod_small, Z.div_small by lia. change (Z.to_nat 0) with O. cbn [fpow].
    rewrite F1. generalize (Yk k). intros u. ring.
  - rewrite (flat_map_fmap k) by assumption.
    assert (feq (fmap (set_y (k mod 2)) r) (conv (Yk (k mod 2)) f)) as ->.
    { rewrite <- (fmap_shift (k mod 2) k B f L1). apply feqm_0. apply fmap_proper. apply feqm_0. exact F1. }
    generalize (Yk (k mod 2)), (fpow W (Z.to_nat (k / 2))). intros u v. ring.
Qed.
Lemma reduction_keys_gen (P : mono -> Prop) pol r : i32_poly pol ->
  (forall m c, In (m, c) pol -> my m < 2 -> P m) ->
  (forall m c m', In (m, c) pol -> 2 <= my m -> ykey 0 (3 * (my m / 2)) m' -> P (mmul (set_y (my m mod 2) m) m')) ->
  (forall m c, In (m, c) pol -> 3 * (my m / 2) <= i32_max) ->
  reduction pol a b = Ok r -> keysP P r.
Proof.
  intros Hi H1 H2 H3 H. unfold reduction in H.
  cut (sorted r /\ keysP P r); [tauto|].
  revert H. apply (foldM_inv (fun r => sorted r /\ keysP P r)).
  - intros s [m c] s' Hx (Ss & Hs) E. split; [apply (reduction_entry_spec a b s (m, c) s' (Hi _ _ Hx) Ss E)|].
    unfold reduction_entry in E. cbn [fst snd tm tc] in E. destruct (2 <=? my m) eqn:E2.
    + destruct (Hi _ _ Hx) as (Rx & Ry & Rq). rewrite i32_prod2 in E by (unfold i32_range in *; lia). cbn [bind] in E.
      rewrite p_div_ypow in E; cbn [tm tc] in *; auto.
      2:{ unfold i32_range in *. pose proof (Z.mod_pos_bound (my m) 2 ltac:(lia)).
          replace (my m - my m / 2 * 2) with (my m mod 2) by (rewrite Z.mod_eq by lia; ring). unfold i32_min, i32_max in *. lia. }
      cbn [bind] in E. apply bind_Ok in E. destruct E as (ee & Hee & E). apply bind_Ok in E. destruct E as (e' & He' & E).
      injection E; intros; subst s'. unfold p_add_assign. change (fold_left add_entry e' s) with (p_add s e').
      destruct (weierstrass_power_returns a b (my m / 2)) as (w & Hw & _ & _ & Kw); [apply Z.div_pos; lia|exact (H3 m c Hx)|].
      rewrite Hw in Hee. injection Hee; intros; subst ee. clear Hee.
      apply p_add_keys; auto. eapply p_mul_keys; [exact He'|apply (to_pol_keys (fun k => k = set_y (my m mod 2) m))|exact Kw|].
      * cbn [tm]. f_equal. rewrite Z.mod_eq by lia. ring.
      * intros m1 m2 -> (K1 & K2) _. apply (H2 m c); [exact Hx|lia|]. unfold ykey, xkey in *. tauto.
    + injection E; intros; subst s'. rewrite p_add_assign_t_eq. apply add_entry_keys; auto. cbn [tm]. apply (H1 m c); [exact Hx|lia].
  - split; [exact I|]. intros ? ? [].
Qed.
(** reduction of a polynomial all of whose terms have y-exponent k1 or k2 of the same parity *)
Lemma rep_reduction2 k1 k2 B1 B2 B f1 f2 r1 r2 : 0 <= k1 <= 100 -> 0 <= k2 <= 100 -> k1 mod 2 = k2 mod 2 ->
  rep k1 B1 f1 r1 -> rep k2 B2 f2 r2 -> B1 + 3 * (k1 / 2) <= B -> B2 + 3 * (k2 / 2) <= B -> B <= i32_max ->
  exists r, reduction (p_sub r1 r2) a b = Ok r /\ rep (k1 mod 2) B (fsub (redf k1 f1) (redf k2 f2)) r /\ i32_poly (p_sub r1 r2).
Proof.
  intros Hk1 Hk2 Hpar R1 R2 HB1 HB2 HB. pose proof R1 as [S1 K1 L1 F1]. pose proof R2 as [S2 K2 L2 F2].
  pose proof (Z.mod_pos_bound k1 2 ltac:(lia)) as M1. pose proof (Z.div_pos k1 2 ltac:(lia) ltac:(lia)) as D1. pose proof (Z.div_pos k2 2 ltac:(lia) ltac:(lia)) as D2.
  assert (Q1: k1 / 2 <= k1) by (apply Z.div_le_upper_bound; lia). assert (Q2: k2 / 2 <= k2) by (apply Z.div_le_upper_bound; lia).
  assert (Kp: keysP (fun m => (ykey k1 B1 m \/ ykey k2 B2 m)) (p_sub r1 r2)).
  { apply p_sub_keys; auto; intros m c H; [left; eapply K1; exact H|right; eapply K2; exact H]. }
  assert (Hroom: forall m c, In (m, c) (p_sub r1 r2) -> red_room m).
  { intros m c H. apply Kp in H. unfold ykey in H. unfold red_room, i32_mono, i32_range, i32_min, i32_max in *.
    destruct H as [(A1 & A2 & A3 & A4)|(A1 & A2 & A3 & A4)]; rewrite A2, A3; lia. }
  destruct (reduction_returns (p_sub r1 r2) a b Hroom) as (r & Hr). exists r. split; [exact Hr|].
  assert (Hi: i32_poly (p_sub r1 r2)) by (intros m c H; apply Hroom in H; apply H).
  split; [|exact Hi].
  destruct (reduction_spec _ a b r Hi Hr) as (Sr & Fr). split.
  - exact Sr.
  - eapply reduction_keys_gen; [exact Hi| | | |exact Hr].
    + intros m c H Hlt. apply Kp in H. unfold ykey in *. assert (my m / 2 = 0 /\ my m mod 2 = my m) by (destruct H as [H|H]; split; [apply Z.div_small|apply Z.mod_small|apply Z.div_small|apply Z.mod_small]; lia).
      destruct H as [(A1 & A2 & A3 & A4)|(A1 & A2 & A3 & A4)]; rewrite A2 in *; repeat split; try assumption; lia.
    + intros m c m' H Hge Hm'. apply Kp in H. unfold ykey in *. unfold mmul, set_y. cbn [mx my mq mv].
      destruct H as [(A1 & A2 & A3 & A4)|(A1 & A2 & A3 & A4)]; rewrite A2, A4 in *; destruct Hm' as (C1 & C2 & C3 & C4); rewrite C4; repeat split; try reflexivity; lia.
    + intros m c H. apply Kp in H. unfold ykey in H. unfold i32_max. destruct H as [(A1 & A2 & A3 & A4)|(A1 & A2 & A3 & A4)]; rewrite A2; lia.
  - apply ykeys_sub; eapply ykeys_mono; [|apply redf_keys; [|exact L1]| |apply redf_keys; [|exact L2]]; lia.
  - rewrite Fr. change (flat_map (red_term a b) (p_sub r1 r2)) with (Fred (p_sub r1 r2)).
    rewrite (Fred_proper _ _ (p_sub_feq r1 r2 S1 S2)), Fred_sub, (Fred_rep k1 B1 f1 r1 ltac:(lia) R1), (Fred_rep k2 B2 f2 r2 ltac:(lia) R2), <- Hpar.
    generalize (Yk (k1 mod 2)), (redf k1 f1), (redf k2 f2). intros u v w. ring.
Qed.
Lemma rep_reduction k B f r : 0 <= k <= 100 -> rep k B f r -> B + 3 * (k / 2) <= i32_max ->
  exists s, reduction r a b = Ok s /\ rep (k mod 2) (B + 3 * (k / 2)) (redf k f) s /\ i32_poly r.
Proof.
  intros Hk R HB. pose proof R as [S1 K1 L1 F1].
  pose proof (Z.mod_pos_bound k 2 ltac:(lia)) as M1. pose proof (Z.div_pos k 2 ltac:(lia) ltac:(lia)) as D1.
  assert (Q1: k / 2 <= k) by (apply Z.div_le_upper_bound; lia).
  assert (Hroom: forall m c, In (m, c) r -> red_room m).
  { intros m c H. apply K1 in H. unfold ykey in H. unfold red_room, i32_mono, i32_range, i32_min, i32_max in *.
    destruct H as (A1 & A2 & A3 & A4). rewrite A2, A3. lia. }
  destruct (reduction_returns r a b Hroom) as (s & Hs). exists s. split; [exact Hs|].
  assert (Hi: i32_poly r) by (intros m c H; apply Hroom in H; apply H).
  split; [|exact Hi].
  destruct (reduction_spec _ a b s Hi Hs) as (Ss & Fs). split.
  - exact Ss.
  - eapply reduction_keys_gen; [exact Hi| | | |exact Hs].
    + intros m c H Hlt. apply K1 in H. unfold ykey in *. assert (my m / 2 = 0 /\ my m mod 2 = my m) by (split; [apply Z.div_small|apply Z.mod_small]; lia).
      destruct H as (A1 & A2 & A3 & A4); rewrite A2 in *; repeat split; try assumption; lia.
    + intros m c m' H Hge Hm'. apply K1 in H. unfold ykey in *. unfold mmul, set_y. cbn [mx my mq mv].
      destruct H as (A1 & A2 & A3 & A4); rewrite A2, A4 in *; destruct Hm' as (C1 & C2 & C3 & C4); rewrite C4; repeat split; try reflexivity; lia.
    + intros m c H. apply K1 in H. unfold ykey in H. unfold i32_max. destruct H as (A1 & A2 & A3 & A4); rewrite A2; lia.
  - apply redf_keys; [lia|exact L1].
  - rewrite Fs. apply (Fred_rep k B f r ltac:(lia) R).
Qed.

(** ** The recursion of psi, without fuel *)
Definition psi_step (n : Z) : res poly :=
  if n mod 2 =? 1 then
    let m := (n - 1) / 2 in
    e <- psi a b (m + 2) ;;
    f0 <- psi a b m ;;
    f1 <- p_power_i32 f0 3 ;;
    g <- psi a b (m - 1) ;;
    h0 <- psi a b (m + 1) ;;
    h <- p_power_i32 h0 3 ;;
    ef <- p_mul e f1 ;;
    gh <- p_mul g h ;;
    reduction (p_sub ef gh) a b
  else
    let m := n / 2 in
    e <- psi a b (m + 2) ;;
    f0 <- psi a b (m - 1) ;;
    f1 <- p_power_i32 f0 2 ;;
    g <- psi a b (m - 2) ;;
    h0 <- psi a b (m + 1) ;;
    h <- p_power_i32 h0 2 ;;
    i0 <- psi a b m ;;
    ef <- p_mul e f1 ;;
    gh <- p_mul g h ;;
    i <- p_mul i0 (p_sub ef gh) ;;
    j <- p_div_t i (tb_build (tb_ypow 1 (tb_coef 2 tb_new))) ;;
    reduction j a b.
Lemma psi_fuel_S f n : 5 <= n -> psi_fuel (S f) a b n =
  if n mod 2 =? 1 then
    let m := (n - 1) / 2 in
    e <- psi_fuel f a b (m + 2) ;;
    f0 <- psi_fuel f a b m ;;
    f1 <- p_power_i32 f0 3 ;;
    g <- psi_fuel f a b (m - 1) ;;
    h0 <- psi_fuel f a b (m + 1) ;;
    h <- p_power_i32 h0 3 ;;
    ef <- p_mul e f1 ;;
    gh <- p_mul g h ;;
    reduction (p_sub ef gh) a b
  else
    let m := n / 2 in
    e <- psi_fuel f a b (m + 2) ;;
    f0 <- psi_fuel f a b (m - 1) ;;
    f1 <- p_power_i32 f0 2 ;;
    g <- psi_fuel f a b (m - 2) ;;
    h0 <- psi_fuel f a b (m + 1) ;;
    h <- p_power_i32 h0 2 ;;
    i0 <- psi_fuel f a b m ;;
    ef <- p_mul e f1 ;;
    gh <- p_mul g h ;;
    i <- p_mul i0 (p_sub ef gh) ;;
    j <- p_div_t i (tb_build (tb_ypow 1 (tb_coef 2 tb_new))) ;;
    reduction j a b.
Proof.
  intros Hn. cbn [psi_fuel].
  replace (0 <=? n) with true by lia. replace (n =? 0) with false by lia. replace (n =? 1) with false by lia.
  replace (n =? 2) with false by lia. replace (n =? 3) with false by lia. replace (n =? 4) with false by lia. cbn [assertb bind].
  destruct (n mod 2 =? 1); cbv zeta.
  - replace ((n - 1) / 2 <? n) with true; [reflexivity|]. symmetry. apply Z.ltb_lt. apply Z.div_lt_upper_bound; lia.
  - replace (n / 2 <? n) with true; [reflexivity|]. symmetry. apply Z.ltb_lt. apply Z.div_lt_upper_bound; lia.
Qed.
Lemma psi_fuel_enough f : forall f' n, (Z.to_nat n < f)%nat -> (Z.to_nat n < f')%nat -> psi_fuel f a b n = psi_fuel f' a b n.
Proof.
  induction f as [|f IH]; intros f' n H H'; [lia|]. destruct f' as [|f']; [lia|].
  destruct (Z_lt_le_dec n 5) as [Hlt|Hge].
  - cbn [psi_fuel]. destruct (0 <=? n) eqn:E; [|reflexivity]. cbn [assertb bind].
    assert (Hc: n = 0 \/ n = 1 \/ n = 2 \/ n = 3 \/ n = 4) by lia.
    destruct Hc as [-> | [-> | [-> | [-> | ->]]]]; reflexivity.
  - rewrite !psi_fuel_S by assumption.
    destruct (n mod 2 =? 1) eqn:E; cbv zeta.
    + assert (D: (n - 1) / 2 + 2 < n /\ 2 <= (n - 1) / 2). { pose proof (Z.div_mod (n - 1) 2 ltac:(lia)). pose proof (Z.mod_pos_bound (n - 1) 2 ltac:(lia)). lia. }
      rewrite !(fun k => IH f' k) by lia. reflexivity.
    + assert (D: n / 2 + 2 < n /\ 2 < n / 2). { pose proof (Z.div_mod n 2 ltac:(lia)). pose proof (Z.mod_pos_bound n 2 ltac:(lia)). lia. }
      rewrite !(fun k => IH f' k) by lia. reflexivity.
Qed.
Lemma psi_eq n : 5 <= n -> psi a b n = psi_step n.
Proof.
  intros Hn. unfold psi at 1. rewrite psi_fuel_S by assumption. unfold psi_step, psi.
  destruct (n mod 2 =? 1) eqn:E; cbv zeta.
  - assert (D: (n - 1) / 2 + 2 < n /\ 2 <= (n - 1) / 2). { pose proof (Z.div_mod (n - 1) 2 ltac:(lia)). pose proof (Z.mod_pos_bound (n - 1) 2 ltac:(lia)). lia. }
    rewrite !(fun k => psi_fuel_enough (Z.to_nat n) (S (Z.to_nat k)) k) by lia. reflexivity.
  - assert (D: n / 2 + 2 < n /\ 2 < n / 2). { pose proof (Z.div_mod n 2 ltac:(lia)). pose proof (Z.mod_pos_bound n 2 ltac:(lia)). lia. }
    rewrite !(fun k => psi_fuel_enough (Z.to_nat n) (S (Z.to_nat k)) k) by lia. reflexivity.
Qed.
End Red.
