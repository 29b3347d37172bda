(** psi, phi and omega return exactly on an initial segment: the first product whose x-degree does not fit i32 panics. *)
From Coq Require Import Znumtheory ZifyBool Setoid Morphisms Ring.
From Verif Require Import Prelude M_Bigint M_Variable M_Term M_Poly M_DivPoly Spec P_Bigint P_Variable P_FSum P_Poly P_Rem P_PolyProps P_Subst P_Subst2 P_Subst3 P_SubstProps P_DivPoly P_DivPoly2 P_DivPoly3 P_DivPoly4 P_DivPoly5 P_DivProps P_ModRet3.
Open Scope Z_scope.

(** Partial-correctness versions of [rep_mul] and friends: no range hypothesis, but the product is assumed to return. *)
Lemma rep_mul_ok k1 B1 f1 r1 k2 B2 f2 r2 c : p_mul r1 r2 = Ok c -> rep k1 B1 f1 r1 -> rep k2 B2 f2 r2 -> rep (k1 + k2) (B1 + B2) (conv f1 f2) c.
Proof.
  intros Hc [S1 K1 L1 F1] [S2 K2 L2 F2]. split.
  - eapply p_mul_sorted; exact Hc.
  - eapply p_mul_keys; [exact Hc|exact K1|exact K2|]. intros m1 m2 I1 I2 _. apply ykey_mmul; assumption.
  - apply ykeys_conv0; assumption.
  - rewrite (p_mul_feq _ _ _ Hc). rewrite F1, F2, <- (Yk_add k1 k2). generalize (Yk k1), (Yk k2). intros u v. ring.
Qed.
Lemma rep_pow2_ok k B f r c : p_power_i32 r 2 = Ok c -> rep k B f r -> rep (2 * k) (2 * B) (conv f f) c.
Proof.
  rewrite p_power_2. intros E H. apply bind_Ok in E. destruct E as (b & E1 & E2).
  pose proof (rep_mul_ok _ _ _ _ _ _ _ _ _ E1 H H) as R1. pose proof (rep_mul_ok _ _ _ _ _ _ _ _ _ E2 rep_one R1) as R2.
  replace (2 * k) with (0 + (k + k)) by lia. replace (2 * B) with (0 + (B + B)) by lia.
  eapply rep_ext; [|apply (ykeys_mono 0 (B + B)); [lia|apply ykeys_conv0; apply H]|exact R2]. ring.
Qed.
Lemma rep_pow3_ok k B f r c : p_power_i32 r 3 = Ok c -> rep k B f r -> rep (3 * k) (3 * B) (conv f (conv f f)) c.
Proof.
  rewrite p_power_3. intros E H. apply bind_Ok in E. destruct E as (r1 & E1 & E2). apply bind_Ok in E2. destruct E2 as (b & E2 & E3).
  pose proof (rep_mul_ok _ _ _ _ _ _ _ _ _ E1 rep_one H) as R1. pose proof (rep_mul_ok _ _ _ _ _ _ _ _ _ E2 H H) as R2.
  pose proof (rep_mul_ok _ _ _ _ _ _ _ _ _ E3 R1 R2) as R3.
  replace (3 * k) with (0 + k + (k + k)) by lia. replace (3 * B) with (0 + B + (B + B)) by lia.
  eapply rep_ext; [|apply (ykeys_mono 0 (B + (B + B))); [lia|apply ykeys_conv0; [apply H|apply ykeys_conv0; apply H]]|exact R3]. ring.
Qed.
Lemma rep_top_range k B f r c : rep k B f r -> tops B c f -> c <> 0 -> i32_poly r -> B <= i32_max.
Proof.
  intros R (K & T) Hc Hi. assert (E : coef r (mkMono B k 0 None) = c).
  { rewrite (rep_feq _ _ _ _ R (mkMono B k 0 None)), coef_shift_y; [|reflexivity|reflexivity|].
    - rewrite <- T. unfold set_y, X. cbn [mx my mq mv]. rewrite Z.sub_diag. reflexivity.
    - intros m d H. apply K in H. unfold ykey in H. tauto. }
  destruct (coef_in r (mkMono B k 0 None)) as (e & H); [congruence|]. apply Hi in H. unfold i32_mono, i32_range in H. cbn in H. lia.
Qed.
Lemma mul_top_range k1 B1 f1 r1 t1 k2 B2 f2 r2 t2 c : p_mul r1 r2 = Ok c -> rep k1 B1 f1 r1 -> tops B1 t1 f1 -> t1 <> 0 ->
  rep k2 B2 f2 r2 -> tops B2 t2 f2 -> t2 <> 0 -> B1 + B2 <= i32_max.
Proof.
  intros E R1 T1 N1 R2 T2 N2. apply (rep_top_range _ _ _ _ (t1 * t2) (rep_mul_ok _ _ _ _ _ _ _ _ _ E R1 R2)).
  - apply tops_conv; assumption.
  - nia.
  - eapply p_mul_i32; exact E.
Qed.
Lemma tops_pow2 B c f : tops B c f -> tops (2 * B) (c * c) (conv f f).
Proof. intros T. eapply tops_eq; [exact (tops_conv _ _ _ _ _ _ T T)|lia|reflexivity]. Qed.
Lemma tops_pow3 B c f : tops B c f -> tops (3 * B) (c * (c * c)) (conv f (conv f f)).
Proof. intros T. eapply tops_eq; [exact (tops_conv _ _ _ _ _ _ T (tops_conv _ _ _ _ _ _ T T))|lia|reflexivity]. Qed.

Section Range.
Variables a b : Z.
Notation psi := (psi a b).

Lemma step_bound n : 65536 < n -> (forall k, 65536 < k < n -> forall r, psi k <> Ok r) -> forall r, psi n <> Ok r.
Proof.
  intros Hn IH r. rewrite (psi_eq a b) by lia. unfold psi_step.
  assert (S : forall k u, psi k = Ok u -> 0 <= k < n -> good a b k).
  { intros k u E Hk. apply psi_good. destruct (Z_le_gt_dec k 65536); [lia|]. exfalso. exact (IH k ltac:(lia) u E). }
  destruct (Z.Even_or_Odd n) as [(m & Em)|(m & Em)]; subst n.
  - replace ((2 * m) mod 2 =? 1) with false by (rewrite Z.mul_comm, Z_mod_mult; reflexivity). cbv zeta.
    replace (2 * m / 2) with m by (rewrite Z.mul_comm, Z.div_mul; lia).
    intros E. apply bind_Ok in E. destruct E as (e & Ee & E). apply bind_Ok in E. destruct E as (f0 & Ef & E). apply bind_Ok in E. destruct E as (f1 & Ef1 & E).
    apply bind_Ok in E. destruct E as (g & Eg & E). apply bind_Ok in E. destruct E as (h0 & Eh & E). apply bind_Ok in E. destruct E as (h & Eh1 & E).
    apply bind_Ok in E. destruct E as (i0 & Ei & E). apply bind_Ok in E. destruct E as (ef & Eef & E). apply bind_Ok in E. destruct E as (gh & Egh & E). apply bind_Ok in E. destruct E as (i & Ei1 & _).
    pose proof (S _ _ Ee ltac:(lia)) as Ge. pose proof (S _ _ Ef ltac:(lia)) as Gf. pose proof (S _ _ Eg ltac:(lia)) as Gg. pose proof (S _ _ Eh ltac:(lia)) as Gh. pose proof (S _ _ Ei ltac:(lia)) as Gi. clear S IH.
    destruct (Z.Even_or_Odd m) as [(k & Ek)|(k & Ek)]; subst m.
    + destruct (goodE a b _ (k + 1) Ge ltac:(lia)) as (e' & fe & Ee' & [Re Te _]). assert (e' = e) by congruence. subst e'.
      destruct (goodO a b _ (k - 1) Gf ltac:(lia)) as (f' & ff & Ef' & [Rf Tf _]). assert (f' = f0) by congruence. subst f'.
      destruct (goodE a b _ (k - 1) Gg ltac:(lia)) as (g' & fg & Eg' & [Rg Tg _]). assert (g' = g) by congruence. subst g'.
      destruct (goodO a b _ k Gh ltac:(lia)) as (h' & fh & Eh' & [Rh Th _]). assert (h' = h0) by congruence. subst h'.
      destruct (goodE a b _ k Gi ltac:(lia)) as (i' & fi & Ei' & [Ri Ti _]). assert (i' = i0) by congruence. subst i'.
      pose proof (rep_pow2_ok _ _ _ _ _ Ef1 Rf) as R1. pose proof (rep_pow2_ok _ _ _ _ _ Eh1 Rh) as R2.
      pose proof (rep_mul_ok _ _ _ _ _ _ _ _ _ Eef Re R1) as R3. pose proof (rep_mul_ok _ _ _ _ _ _ _ _ _ Egh Rg R2) as R4.
      apply (rep_eqB _ 1 _ (6 * (k * k))) in R3; [|lia|lia]. apply (rep_eqB _ 1 _ (6 * (k * k))) in R4; [|lia|lia].
      apply tops_2 in Te. apply tops_2 in Tg. apply tops_2 in Ti. apply tops_pow2 in Tf. apply tops_pow2 in Th.
      pose proof (tops_conv _ _ _ _ _ _ Te Tf) as T3. pose proof (tops_conv _ _ _ _ _ _ Tg Th) as T4.
      eapply (tops_eq _ _ _ (6 * (k * k))) in T3; [|lia|reflexivity]. eapply (tops_eq _ _ _ (6 * (k * k))) in T4; [|lia|reflexivity].
      pose proof (tops_sub _ _ _ _ _ T3 T4) as T5. eapply (tops_eq _ _ _ _ 4) in T5; [|reflexivity|ring].
      pose proof (mul_top_range _ _ _ _ _ _ _ _ _ _ _ Ei1 Ri Ti ltac:(lia) (rep_sub _ _ _ _ _ _ R3 R4) T5 ltac:(lia)) as B.
      assert (16385 <= k) by lia. unfold i32_max in B. nia.
    + destruct (goodO a b _ (k + 1) Ge ltac:(lia)) as (e' & fe & Ee' & [Re Te _]). assert (e' = e) by congruence. subst e'.
      destruct (goodE a b _ k Gf ltac:(lia)) as (f' & ff & Ef' & [Rf Tf _]). assert (f' = f0) by congruence. subst f'.
      destruct (goodO a b _ (k - 1) Gg ltac:(lia)) as (g' & fg & Eg' & [Rg Tg _]). assert (g' = g) by congruence. subst g'.
      destruct (goodE a b _ (k + 1) Gh ltac:(lia)) as (h' & fh & Eh' & [Rh Th _]). assert (h' = h0) by congruence. subst h'.
      destruct (goodO a b _ k Gi ltac:(lia)) as (i' & fi & Ei' & [Ri Ti _]). assert (i' = i0) by congruence. subst i'.
      pose proof (rep_pow2_ok _ _ _ _ _ Ef1 Rf) as R1. pose proof (rep_pow2_ok _ _ _ _ _ Eh1 Rh) as R2.
      pose proof (rep_mul_ok _ _ _ _ _ _ _ _ _ Eef Re R1) as R3. pose proof (rep_mul_ok _ _ _ _ _ _ _ _ _ Egh Rg R2) as R4.
      apply (rep_eqB _ 2 _ (6 * (k * k) + 6 * k)) in R3; [|lia|lia]. apply (rep_eqB _ 2 _ (6 * (k * k) + 6 * k)) in R4; [|lia|lia].
      apply tops_2 in Tf. apply tops_2 in Th. apply tops_pow2 in Tf. apply tops_pow2 in Th.
      pose proof (tops_conv _ _ _ _ _ _ Te Tf) as T3. pose proof (tops_conv _ _ _ _ _ _ Tg Th) as T4.
      eapply (tops_eq _ _ _ (6 * (k * k) + 6 * k)) in T3; [|lia|reflexivity]. eapply (tops_eq _ _ _ (6 * (k * k) + 6 * k)) in T4; [|lia|reflexivity].
      pose proof (tops_sub _ _ _ _ _ T3 T4) as T5. eapply (tops_eq _ _ _ _ 4) in T5; [|reflexivity|ring].
      pose proof (mul_top_range _ _ _ _ _ _ _ _ _ _ _ Ei1 Ri Ti ltac:(lia) (rep_sub _ _ _ _ _ _ R3 R4) T5 ltac:(lia)) as B.
      assert (16384 <= k) by lia. unfold i32_max in B. nia.
  - replace ((2 * m + 1) mod 2 =? 1) with true by (rewrite Z.add_comm, Z.mul_comm, Z_mod_plus_full; reflexivity). cbv zeta.
    replace ((2 * m + 1 - 1) / 2) with m by (replace (2 * m + 1 - 1) with (m * 2) by ring; rewrite Z.div_mul; lia).
    intros E. apply bind_Ok in E. destruct E as (e & Ee & E). apply bind_Ok in E. destruct E as (f0 & Ef & E). apply bind_Ok in E. destruct E as (f1 & Ef1 & E).
    apply bind_Ok in E. destruct E as (g & Eg & E). apply bind_Ok in E. destruct E as (h0 & Eh & E). apply bind_Ok in E. destruct E as (h & Eh1 & E).
    apply bind_Ok in E. destruct E as (ef & Eef & E). apply bind_Ok in E. destruct E as (gh & Egh & _).
    pose proof (S _ _ Ee ltac:(lia)) as Ge. pose proof (S _ _ Ef ltac:(lia)) as Gf. pose proof (S _ _ Eg ltac:(lia)) as Gg. pose proof (S _ _ Eh ltac:(lia)) as Gh. clear S IH.
    destruct (Z.Even_or_Odd m) as [(k & Ek)|(k & Ek)]; subst m.
    + destruct (goodO a b _ (k - 1) Gg ltac:(lia)) as (g' & fg & Eg' & [Rg Tg _]). assert (g' = g) by congruence. subst g'.
      destruct (goodO a b _ k Gh ltac:(lia)) as (h' & fh & Eh' & [Rh Th _]). assert (h' = h0) by congruence. subst h'.
      pose proof (mul_top_range _ _ _ _ _ _ _ _ _ _ _ Egh Rg Tg ltac:(lia) (rep_pow3_ok _ _ _ _ _ Eh1 Rh) (tops_pow3 _ _ _ Th) ltac:(nia)) as B.
      assert (16384 <= k) by lia. unfold i32_max in B. nia.
    + destruct (goodO a b _ (k + 1) Ge ltac:(lia)) as (e' & fe & Ee' & [Re Te _]). assert (e' = e) by congruence. subst e'.
      destruct (goodO a b _ k Gf ltac:(lia)) as (f' & ff & Ef' & [Rf Tf _]). assert (f' = f0) by congruence. subst f'.
      pose proof (mul_top_range _ _ _ _ _ _ _ _ _ _ _ Eef Re Te ltac:(lia) (rep_pow3_ok _ _ _ _ _ Ef1 Rf) (tops_pow3 _ _ _ Tf) ltac:(nia)) as B.
      assert (16384 <= k) by lia. unfold i32_max in B. nia.
Qed.
Lemma psi_range n r : psi n = Ok r -> 0 <= n <= 65536.
Proof.
  intros E. destruct (Z_lt_le_dec n 0) as [H|H]; [rewrite c48_psi_negative in E by exact H; discriminate|]. split; [exact H|].
  destruct (Z_le_gt_dec n 65536) as [|G]; [assumption|]. exfalso. revert r E. revert n H G.
  apply (Zlt_0_ind (fun n => n > 65536 -> forall r, psi n = Ok r -> False)). intros n IH _ G r E.
  apply (step_bound n ltac:(lia)) with (r := r); [|exact E]. intros k Hk r' E'. exact (IH k ltac:(lia) ltac:(lia) r' E').
Qed.

Lemma phi_range n r : phi a b n = Ok r -> 1 <= n <= 46340.
Proof.
  unfold phi. intros E. destruct (1 <=? n) eqn:E1; [|discriminate]. cbn [assertb bind] in E.
  apply bind_Ok in E. destruct E as (pn & Ep & E). apply bind_Ok in E. destruct E as (pn2 & Ep2 & E). apply bind_Ok in E. destruct E as (t & Et & E).
  apply bind_Ok in E. destruct E as (n1 & En & E). apply i32_Ok_range in En. destruct En as (-> & _).
  apply bind_Ok in E. destruct E as (u & Eu & E). apply bind_Ok in E. destruct E as (v & Ev & E). apply bind_Ok in E. destruct E as (uv & Euv & _).
  pose proof (psi_range _ _ Ep). pose proof (psi_range _ _ Eu). pose proof (psi_range _ _ Ev).
  split; [lia|]. destruct (Z.Even_or_Odd n) as [(m & Em)|(m & Em)]; subst n.
  - destruct (goodO a b _ m (psi_good a b (2 * m + 1) ltac:(lia)) eq_refl) as (u' & fu & Eu' & [Ru Tu _]). assert (u' = u) by congruence. subst u'.
    destruct (goodO a b _ (m - 1) (psi_good a b (2 * m - 1) ltac:(lia)) ltac:(lia)) as (v' & fv & Ev' & [Rv Tv _]). assert (v' = v) by congruence. subst v'.
    pose proof (mul_top_range _ _ _ _ _ _ _ _ _ _ _ Euv Ru Tu ltac:(lia) Rv Tv ltac:(lia)) as B. unfold i32_max in B. nia.
  - destruct (goodO a b _ m (psi_good a b (2 * m + 1) ltac:(lia)) eq_refl) as (u' & fu & Eu' & [Ru Tu _]). assert (u' = pn) by congruence. subst u'.
    unfold t_mul_p in Et. pose proof (mul_top_range _ _ _ _ _ _ _ _ _ _ _ Et rep_x tops_x ltac:(lia) (rep_pow2_ok _ _ _ _ _ Ep2 Ru) (tops_pow2 _ _ _ Tu) ltac:(nia)) as B. unfold i32_max in B. nia.
Qed.
Lemma omega_range n r : omega a b n = Ok r -> 1 <= n <= 37837.
Proof.
  unfold omega. intros E. destruct (1 <=? n) eqn:E1; [|discriminate]. cbn [assertb bind] in E. destruct (n =? 1) eqn:E2; [lia|].
  apply bind_Ok in E. destruct E as (n2 & En & E). apply i32_Ok_range in En. destruct En as (-> & _).
  apply bind_Ok in E. destruct E as (u & Eu & E). apply bind_Ok in E. destruct E as (v & Ev & E). apply bind_Ok in E. destruct E as (v2 & Ev2 & E). apply bind_Ok in E. destruct E as (uv & Euv & _).
  pose proof (psi_range _ _ Eu). pose proof (psi_range _ _ Ev). split; [lia|].
  destruct (Z.Even_or_Odd n) as [(m & Em)|(m & Em)]; subst n.
  - destruct (goodE a b _ (m + 1) (psi_good a b (2 * m + 2) ltac:(lia)) ltac:(lia)) as (u' & fu & Eu' & [Ru Tu _]). assert (u' = u) by congruence. subst u'.
    destruct (goodO a b _ (m - 1) (psi_good a b (2 * m - 1) ltac:(lia)) ltac:(lia)) as (v' & fv & Ev' & [Rv Tv _]). assert (v' = v) by congruence. subst v'.
    pose proof (mul_top_range _ _ _ _ _ _ _ _ _ _ _ Euv Ru (tops_2 _ _ _ Tu) ltac:(lia) (rep_pow2_ok _ _ _ _ _ Ev2 Rv) (tops_pow2 _ _ _ Tv) ltac:(nia)) as B. unfold i32_max in B. nia.
  - destruct (goodO a b _ (m + 1) (psi_good a b (2 * m + 1 + 2) ltac:(lia)) ltac:(lia)) as (u' & fu & Eu' & [Ru Tu _]). assert (u' = u) by congruence. subst u'.
    destruct (goodE a b _ m (psi_good a b (2 * m + 1 - 1) ltac:(lia)) ltac:(lia)) as (v' & fv & Ev' & [Rv Tv _]). assert (v' = v) by congruence. subst v'.
    pose proof (mul_top_range _ _ _ _ _ _ _ _ _ _ _ Euv Ru Tu ltac:(lia) (rep_pow2_ok _ _ _ _ _ Ev2 Rv) (tops_pow2 _ _ _ (tops_2 _ _ _ Tv)) ltac:(nia)) as B. unfold i32_max in B. nia.
Qed.

(** None of them runs out of fuel. *)
Lemma nf_p_div p q : nf (p_div p q).
Proof.
  unfold p_div. destruct (is_zero q); [discriminate|]. destruct q as [|[m c] [|? ?]]; try discriminate. apply nf_foldM. intros s [k e] _.
  apply nf_bind; [|intros; apply nf_ok]. unfold term_div. destruct (negb _); [discriminate|]. apply nf_bind; [unfold div_floor; destruct (_ =? 0); discriminate|]. intros. repeat nf_step.
Qed.
Lemma nf_p_power p n : nf (p_power p n).
Proof. exact (nf_power p n). Qed.
Lemma nf_reduction p : nf (reduction p a b).
Proof.
  unfold reduction. apply nf_foldM. intros s e _. unfold reduction_entry. destruct (2 <=? _); [|apply nf_ok].
  unfold p_mul_assign. cbv zeta. unfold p_div_assign_t. repeat first [apply nf_p_power | apply nf_p_div | nf_step].
Qed.
Lemma nf_psi n : nf (psi n).
Proof.
  destruct (Z_lt_le_dec n 0) as [H|H]; [rewrite c48_psi_negative by exact H; discriminate|].
  revert n H. apply (Zlt_0_ind (fun n => nf (psi n))). intros n IH H. destruct (Z_lt_le_dec n 5) as [Hlt|Hge].
  - assert (Hg : 0 <= n <= 65536) by lia. destruct (Z.odd n) eqn:O.
    + destruct (c48_psi_odd a b n Hg O) as (r & -> & _). apply nf_ok.
    + destruct (c48_psi_even a b n Hg O) as (r & g & -> & _). apply nf_ok.
  - rewrite (psi_eq a b) by lia. unfold psi_step.
    assert (D : 0 <= (n - 1) / 2 - 1 /\ (n - 1) / 2 + 2 < n /\ 0 <= n / 2 - 2 /\ (n mod 2 =? 1 = false -> n / 2 + 2 < n)).
    { pose proof (Z.div_mod (n - 1) 2 ltac:(lia)). pose proof (Z.mod_pos_bound (n - 1) 2 ltac:(lia)). pose proof (Z.div_mod n 2 ltac:(lia)). pose proof (Z.mod_pos_bound n 2 ltac:(lia)). lia. }
    destruct (n mod 2 =? 1) eqn:E; cbv zeta; repeat first [apply nf_reduction | (apply IH; clear - D E Hge; lia) | (unfold p_div_t; apply nf_p_div) | nf_step].
Qed.
Lemma nf_phi n : nf (phi a b n).
Proof. unfold phi, t_mul_p. repeat first [apply nf_reduction | apply nf_psi | nf_step]. Qed.
Lemma nf_omega n : nf (omega a b n).
Proof. unfold omega. apply nf_bind; [apply nf_assertb|]. intros _ _. destruct (n =? 1); [apply nf_ok|]. repeat first [apply nf_reduction | apply nf_psi | (unfold p_div_t; apply nf_p_div) | nf_step]. Qed.
End Range.
