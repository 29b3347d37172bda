(** Division polynomials: representation of the intermediate polynomials. *)
From Coq Require Import Znumtheory ZifyBool Setoid Morphisms Ring.
From Verif Require Import Prelude M_Bigint M_Variable M_Term M_Poly M_DivPoly Spec P_Bigint P_Variable P_FSum P_Poly P_Rem P_PolyProps P_Subst P_Subst2 P_SubstProps.
Open Scope Z_scope.

Definition ykey (k B : Z) (m : mono) : Prop := 0 <= mx m <= B /\ my m = k /\ mq m = 0 /\ mv m = None.
Definition Yk (k : Z) : fsum := [(mkMono 0 k 0 None, 1)].
Record rep (k B : Z) (f : fsum) (r : poly) : Prop := mkRep {
  rep_sorted : sorted r;
  rep_keys : keysP (ykey k B) r;
  rep_fkeys : keysP (ykey 0 B) f;
  rep_feq : feq r (conv (Yk k) f) }.

Lemma rep_nonneg k B f r : 0 <= k -> rep k B f r -> nonneg_xy r.
Proof. intros Hk R m c Hi. apply (rep_keys _ _ _ _ R) in Hi. unfold ykey in Hi. lia. Qed.
Lemma ykey_mmul k1 B1 k2 B2 m1 m2 : ykey k1 B1 m1 -> ykey k2 B2 m2 -> ykey (k1 + k2) (B1 + B2) (mmul m1 m2).
Proof. unfold ykey, mmul. cbn. intros (A1 & A2 & A3 & A4) (C1 & C2 & C3 & C4). rewrite A4, C4. repeat split; lia. Qed.
Lemma ykey_mono k B B' m : B <= B' -> ykey k B m -> ykey k B' m.
Proof. unfold ykey. intros. intuition lia. Qed.
Lemma ykeys_mono k B B' f : B <= B' -> keysP (ykey k B) f -> keysP (ykey k B') f.
Proof. intros H Hf m c Hi. eapply ykey_mono; [exact H|eapply Hf; exact Hi]. Qed.
Lemma ykeys_conv k1 B1 k2 B2 f g : keysP (ykey k1 B1) f -> keysP (ykey k2 B2) g -> keysP (ykey (k1 + k2) (B1 + B2)) (conv f g).
Proof.
  intros Hf Hg m c H. apply in_conv in H. destruct H as (m1 & c1 & m2 & c2 & H1 & H2 & -> & _).
  apply ykey_mmul; [eapply Hf|eapply Hg]; eassumption.
Qed.
Lemma ykeys_conv0 B1 B2 f g : keysP (ykey 0 B1) f -> keysP (ykey 0 B2) g -> keysP (ykey 0 (B1 + B2)) (conv f g).
Proof. exact (ykeys_conv 0 B1 0 B2 f g). Qed.
Lemma ykeys_neg k B f : keysP (ykey k B) f -> keysP (ykey k B) (fneg f).
Proof. apply fneg_keys. Qed.
Lemma ykeys_app k B f g : keysP (ykey k B) f -> keysP (ykey k B) g -> keysP (ykey k B) (f ++ g).
Proof. intros Hf Hg m c H. apply in_app_or in H. destruct H as [H|H]; [eapply Hf|eapply Hg]; exact H. Qed.
Lemma ykeys_sub k B f g : keysP (ykey k B) f -> keysP (ykey k B) g -> keysP (ykey k B) (fsub f g).
Proof. intros Hf Hg. apply ykeys_app; [exact Hf|apply ykeys_neg, Hg]. Qed.
Lemma Yk_add i j : feq (conv (Yk i) (Yk j)) (Yk (i + j)).
Proof. reflexivity. Qed.

Lemma rep_ext k B f f' r : feq f f' -> keysP (ykey 0 B) f' -> rep k B f r -> rep k B f' r.
Proof. intros H Hf' [S1 K1 K2 F]. split; auto. rewrite F, H. reflexivity. Qed.
Lemma rep_mono k B B' f r : B <= B' -> rep k B f r -> rep k B' f r.
Proof. intros H [S1 K1 K2 F]. split; auto; eapply ykeys_mono; eauto. Qed.
Lemma rep_one : rep 0 0 (fconst 1) p_one.
Proof.
  split; [exact (conj (fun _ _ (H : In _ []) => False_ind _ H) I)| | |reflexivity]; intros m c [E|[]]; injection E; intros; subst; unfold ykey; cbn; repeat split; lia.
Qed.
Lemma rep_mul k1 B1 f1 r1 k2 B2 f2 r2 : 0 <= k1 -> 0 <= k2 -> k1 + k2 <= i32_max -> B1 + B2 <= i32_max ->
  rep k1 B1 f1 r1 -> rep k2 B2 f2 r2 -> exists c, p_mul r1 r2 = Ok c /\ rep (k1 + k2) (B1 + B2) (conv f1 f2) c.
Proof.
  intros H1 H2 Hk HB [S1 K1 L1 F1] [S2 K2 L2 F2].
  destruct (p_mul_returns r1 r2) as (c & Hc).
  { intros m1 c1 m2 c2 I1 I2. apply K1 in I1. apply K2 in I2. unfold ykey in *. unfold mul_ok, i32_min, i32_max in *. intuition lia. }
  exists c. split; [exact Hc|]. split.
  - eapply p_mul_sorted; exact Hc.
  - eapply p_mul_keys; [exact Hc|exact K1|exact K2|]. intros m1 m2 I1 I2 _. apply ykey_mmul; assumption.
  - apply ykeys_conv0; assumption.
  - rewrite (p_mul_feq _ _ _ Hc). rewrite F1, F2, <- (Yk_add k1 k2). generalize (Yk k1), (Yk k2). intros u v. ring.
Qed.
Lemma p_power_2 r : p_power_i32 r 2 = (b <- p_mul r r ;; p_mul p_one b).
Proof. reflexivity. Qed.
Lemma p_power_3 r : p_power_i32 r 3 = (r1 <- p_mul p_one r ;; b <- p_mul r r ;; p_mul r1 b).
Proof. reflexivity. Qed.
Lemma rep_pow2 k B f r : 0 <= k -> 2 * k <= i32_max -> 2 * B <= i32_max -> rep k B f r ->
  exists c, p_power_i32 r 2 = Ok c /\ rep (2 * k) (2 * B) (conv f f) c.
Proof.
  intros Hk Hk2 HB H. rewrite p_power_2. destruct (rep_mul k B f r k B f r) as (b & -> & Hb); auto; try (unfold i32_max in *; lia). cbn [bind].
  destruct (rep_mul 0 0 _ _ (k + k) (B + B) _ _ ltac:(unfold i32_max in *; lia) ltac:(unfold i32_max in *; lia) ltac:(unfold i32_max in *; lia) ltac:(unfold i32_max in *; lia) rep_one Hb) as (c & -> & Hc).
  exists c. split; [reflexivity|]. replace (2 * k) with (0 + (k + k)) by lia. replace (2 * B) with (0 + (B + B)) by lia.
  eapply rep_ext; [|apply (ykeys_mono 0 (B + B)); [lia|apply ykeys_conv0; apply H]|exact Hc]. ring.
Qed.
Lemma rep_pow3 k B f r : 0 <= k -> 3 * k <= i32_max -> 3 * B <= i32_max -> 2 * B <= i32_max -> rep k B f r ->
  exists c, p_power_i32 r 3 = Ok c /\ rep (3 * k) (3 * B) (conv f (conv f f)) c.
Proof.
  intros Hk Hk2 HB HB2 H. rewrite p_power_3.
  assert (H3: B <= i32_max) by (unfold i32_max in *; lia).
  destruct (rep_mul 0 0 _ _ k B _ _ ltac:(unfold i32_max in *; lia) Hk ltac:(unfold i32_max in *; lia) ltac:(unfold i32_max in *; lia) rep_one H) as (r1 & -> & Hr1). cbn [bind].
  destruct (rep_mul k B f r k B f r) as (b & -> & Hb); auto; try (unfold i32_max in *; lia). cbn [bind].
  destruct (rep_mul (0 + k) (0 + B) _ _ (k + k) (B + B) _ _ ltac:(unfold i32_max in *; lia) ltac:(unfold i32_max in *; lia) ltac:(unfold i32_max in *; lia) ltac:(unfold i32_max in *; lia) Hr1 Hb) as (c & -> & Hc).
  exists c. split; [reflexivity|]. replace (3 * k) with (0 + k + (k + k)) by lia. replace (3 * B) with (0 + B + (B + B)) by lia.
  eapply rep_ext; [|apply (ykeys_mono 0 (B + (B + B))); [lia|apply ykeys_conv0; [apply H|apply ykeys_conv0; apply H]]|exact Hc]. ring.
Qed.
Lemma rep_sub k B f r g s : rep k B f r -> rep k B g s -> rep k B (fsub f g) (p_sub r s).
Proof.
  intros [S1 K1 L1 F1] [S2 K2 L2 F2]. split.
  - apply p_sub_sorted, S1.
  - apply p_sub_keys; assumption.
  - apply ykeys_sub; assumption.
  - rewrite (p_sub_feq r s S1 S2), F1, F2. generalize (Yk k). intros u. ring.
Qed.

(** Exact division by c y^j. *)
Lemma coef_shift_y m k f : mq m = 0 -> mv m = None -> keysP (fun m => my m = 0) f ->
  coef (conv (Yk k) f) m = coef f (set_y (my m - k) m).
Proof.
  intros Hq Hv Hf. rewrite !coef_lin, lin_conv. cbn [Yk lin]. rewrite Z.mul_1_l, Z.add_0_r. apply lin_ext_in.
  intros k' c' Hk. apply Hf in Hk. unfold delta. destruct k' as [x y q v], m as [x' y' q' v']. cbn in *. subst.
  unfold mono_eqb. cbn [mx my mq mv mmul set_y vmul]. 
  replace (k + 0 =? y') with (0 =? y' - k) by lia. try reflexivity.
Qed.
Lemma fconst_scale c f m : coef (conv (fconst c) f) m = c * coef f m.
Proof.
  rewrite !coef_lin, lin_conv. cbn [fconst lin]. rewrite Z.add_0_r. apply f_equal. apply lin_ext. intros k. rewrite mmul_1_l. reflexivity.
Qed.
Lemma p_div_single (r : poly) m0 c0 : c0 <> 0 -> mv m0 = None -> sorted r ->
  (forall m c, In (m, c) r -> i32_mono (mkMono (mx m - mx m0) (my m - my m0) (mq m - mq m0) None)) ->
  exists d, p_div r [(m0, c0)] = Ok d /\ sorted d /\
    (forall m c, In (m, c) d <-> exists k e, In (k, e) r /\ m = mkMono (mx k - mx m0) (my k - my m0) (mq k - mq m0) (mv k) /\ c = e / c0).
Proof.
  intros Hc Hv Hs Hi. unfold p_div. cbn [is_zero length Nat.eqb].
  set (sh := fun k : mono => mkMono (mx k - mx m0) (my k - my m0) (mq k - mq m0) (mv k)).
  set (F := fun e : mono * Z => (sh (fst e), snd e / c0)).
  assert (E: foldM (fun (pol : list (mono * Z)) (e : mono * Z) => let (ak, av) := e in u <- term_div (mkTerm av ak) (mkTerm c0 m0);; Ok (bm_insert (tm u) (tc u) pol)) r p_new
    = Ok (ins_all (map F r) p_new)).
  { transitivity (foldM (fun (pol : poly) (e : mono * Z) => u <- term_div (mkTerm (snd e) (fst e)) (mkTerm c0 m0);; Ok (bm_insert (tm u) (tc u) pol)) r p_new).
    - apply foldM_ext. intros s [k e] _. reflexivity.
    - apply (foldM_ins (fun e => term_div (mkTerm (snd e) (fst e)) (mkTerm c0 m0)) F r p_new).
      intros [k e] He. cbn [fst snd]. rewrite c12_term_div; cbn [tm tc]; auto. exact (Hi k e He). }
  destruct (ins_all_spec (map F r) p_new) as (S1 & I1 & _).
  - exact I.
  - rewrite map_map. unfold F. cbn [fst].
    apply (NoDup_map_inj_in (fun e : mono * Z => sh (fst e))).
    + intros [k1 e1] [k2 e2] H1 H2 Heq. cbn [fst] in Heq. assert (k1 = k2).
      { destruct k1, k2. unfold sh in Heq. cbn in Heq. injection Heq; intros; subst. f_equal; lia. }
      subst. f_equal. eapply sorted_unique; eassumption.
    + apply NoDup_map_inv with (f := fst). apply sorted_NoDup, Hs.
  - intros k _ [c []].
  - exists (ins_all (map F r) p_new : poly). split; [exact E|]. split; [exact S1|]. intros m c. rewrite I1. split.
    + intros [[]|H]. apply in_map_iff in H. destruct H as ([k e] & He & Hin). injection He; intros; subst. exists k, e. auto.
    + intros (k & e & Hin & -> & ->). right. apply in_map_iff. exists (k, e). auto.
Qed.

Lemma rep_div k j B f g c r : c <> 0 -> 0 <= j <= k -> k <= i32_max -> B <= i32_max -> rep k B f r -> feq f (conv (fconst c) g) -> keysP (ykey 0 B) g ->
  exists d, p_div_t r (tb_build (tb_ypow j (tb_coef c tb_new))) = Ok d /\ rep (k - j) B g d.
Proof.
  intros Hc Hj Hk HB [S1 K1 L1 F1] Fg Kg. unfold p_div_t.
  assert (E: to_pol (tb_build (tb_ypow j (tb_coef c tb_new))) = [(mkMono 0 j 0 None, c)]).
  { rewrite to_pol_eq. cbn. destruct (c =? 0) eqn:E; [lia|reflexivity]. }
  rewrite E. destruct (p_div_single r (mkMono 0 j 0 None) c Hc eq_refl S1) as (d & Hd & Sd & Id).
  { intros m e Hm. apply K1 in Hm. unfold ykey in Hm. unfold i32_mono, i32_range, i32_min, i32_max in *. cbn. lia. }
  exists d. split; [exact Hd|]. clear E Hd.
  assert (Kd: keysP (ykey (k - j) B) d).
  { intros m e Hm. apply Id in Hm. destruct Hm as (k' & e' & Hin & -> & ->). apply K1 in Hin. unfold ykey in *. cbn. intuition lia. }
  assert (Kg0: keysP (fun m => my m = 0) g) by (intros m e Hm; apply Kg in Hm; unfold ykey in Hm; tauto).
  split; auto. intros m.
  destruct (Z.eq_dec (mq m) 0) as [Hq|Hq].
  2:{ rewrite !coef_notin; [reflexivity| |].
      - intros e Hm. apply (ykeys_conv (k - j) 0 0 B) in Hm; [|intros ? ? [X|[]]; injection X; intros; subst; unfold ykey; cbn; repeat split; lia|exact Kg]. unfold ykey in Hm. tauto.
      - intros e Hm. apply Kd in Hm. unfold ykey in Hm. tauto. }
  destruct (mv m) as [v|] eqn:Hv.
  { rewrite !coef_notin; [reflexivity| |].
      - intros e Hm. apply (ykeys_conv (k - j) 0 0 B) in Hm; [|intros ? ? [X|[]]; injection X; intros; subst; unfold ykey; cbn; repeat split; lia|exact Kg]. unfold ykey in Hm. intuition congruence.
      - intros e Hm. apply Kd in Hm. unfold ykey in Hm. intuition congruence. }
  rewrite coef_shift_y by auto.
  set (m' := set_y (my m + j) m).
  assert (E2: coef r m' = c * coef g (set_y (my m - (k - j)) m)).
  { rewrite (F1 m'). rewrite (conv_proper_feq _ _ (fun u => eq_refl) _ _ Fg m').
    assert (G: feq (conv (Yk k) (conv (fconst c) g)) (conv (fconst c) (conv (Yk k) g))) by (generalize (Yk k); intros u; ring).
    rewrite (G m'), fconst_scale, coef_shift_y by auto. f_equal. f_equal. unfold m', set_y. cbn. f_equal; lia. }
  destruct (Z.eq_dec (coef r m') 0) as [E0|E0].
  - replace (coef g (set_y (my m - (k - j)) m)) with 0 by nia.
    destruct (Z.eq_dec (coef d m) 0) as [|N]; [assumption|]. destruct (coef_in d m N) as (e & Hin).
    pose proof (sorted_coef d m e Sd Hin) as Ee. apply Id in Hin. destruct Hin as (k' & e' & Hin & Em & ->).
    assert (k' = m'). { subst m. unfold m', set_y. destruct k'. cbn. cbn in Hv. f_equal; lia. }
    subst k'. pose proof (sorted_coef r m' e' S1 Hin). rewrite Ee. subst e'. rewrite E0. apply Zdiv_0_l.
  - destruct (coef_in r m' E0) as (e & Hin). pose proof (sorted_coef r m' e S1 Hin) as Ee.
    assert (Hd: In (m, e / c) d).
    { apply Id. exists m', e. split; [exact Hin|]. split; [|reflexivity]. unfold m', set_y. destruct m. cbn. f_equal; lia. }
    rewrite (sorted_coef d m _ Sd Hd). rewrite <- Ee, E2. rewrite Z.mul_comm. apply Z.div_mul. exact Hc.
Qed.
