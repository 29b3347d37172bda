(** Lemmas behind the property theorems C48-C50. *)
From Coq Require Import Znumtheory ZifyBool Setoid Morphisms Ring.
From Verif Require Import Prelude M_Bigint M_Variable M_Term M_Poly M_DivPoly Spec P_Bigint P_Variable P_FSum P_Poly P_Rem P_PolyProps P_Subst P_Subst2 P_Subst3 P_SubstProps P_DivPoly P_DivPoly2 P_DivPoly3 P_DivPoly4 P_DivPoly5.
Open Scope Z_scope.

Lemma psi_O a b n : 0 <= n <= 65536 -> Z.odd n = true -> exists r f, psi a b n = Ok r /\ InvO a ((n - 1) / 2) r f.
Proof.
  intros Hn Ho. apply (goodO a b n); [apply psi_good, Hn|].
  apply Z.odd_spec in Ho. destruct Ho as (m & ->). replace (2 * m + 1 - 1) with (m * 2) by ring. rewrite Z.div_mul; lia.
Qed.
Lemma psi_E a b n : 0 <= n <= 65536 -> Z.odd n = false -> exists r f, psi a b n = Ok r /\ InvE a (n / 2) r f.
Proof.
  intros Hn Ho. apply (goodE a b n); [apply psi_good, Hn|].
  rewrite <- Z.negb_even in Ho. apply negb_false_iff in Ho. apply Z.even_spec in Ho. destruct Ho as (m & ->). replace (2 * m) with (m * 2) by ring. rewrite Z.div_mul; lia.
Qed.
Lemma half_odd n : Z.odd n = true -> n = 2 * ((n - 1) / 2) + 1.
Proof. intros Ho. apply Z.odd_spec in Ho. destruct Ho as (m & ->). replace (2 * m + 1 - 1) with (m * 2) by ring. rewrite Z.div_mul; lia. Qed.
Lemma half_even n : Z.odd n = false -> n = 2 * (n / 2).
Proof. intros Ho. rewrite <- Z.negb_even in Ho. apply negb_false_iff in Ho. apply Z.even_spec in Ho. destruct Ho as (m & ->). replace (2 * m) with (m * 2) by ring. rewrite Z.div_mul; lia. Qed.
Lemma ykey_only B f : keysP (ykey 0 B) f -> only_x f.
Proof. intros H m c Hi. apply H in Hi. unfold ykey in Hi. intuition lia. Qed.

(** C48: psi(n) returns for every n up to 65536; for odd n it is a polynomial in x alone, for even n it is 2y times a
    polynomial in x (so no y-power above 1 occurs). *)
Lemma c48_psi_odd : forall a b n, 0 <= n <= 65536 -> Z.odd n = true -> exists r, psi a b n = Ok r /\ sorted r /\ only_x r.
Proof.
  intros a b n Hn Ho. destruct (psi_O a b n Hn Ho) as (r & f & E & [R _ _]). exists r. split; [exact E|]. split; [apply R|].
  eapply ykey_only. apply R.
Qed.
Lemma c48_psi_even : forall a b n, 0 <= n <= 65536 -> Z.odd n = false -> exists r g, psi a b n = Ok r /\ sorted r /\
  (forall m c, In (m, c) r -> 0 <= mx m /\ my m = 1 /\ mq m = 0 /\ mv m = None) /\ only_x g /\ feq r (conv (fmono 2 0 1 0) g).
Proof.
  intros a b n Hn Ho. destruct (psi_E a b n Hn Ho) as (r & f & E & [R T _]). exists r, f. split; [exact E|]. split; [apply R|]. split.
  - intros m c Hi. apply R in Hi. unfold ykey in Hi. intuition lia.
  - split; [eapply ykey_only; apply T|]. rewrite (rep_feq _ _ _ _ R). unfold fmono. change [(mkMono 0 1 0 None, 2)] with (conv (Yk 1) (fconst 2)).
    apply conv_assoc.
Qed.
(** C48: the first five division polynomials are the classical ones. *)
Lemma c48_psi_base : forall a b,
  psi a b 0 = Ok [] /\ psi a b 1 = Ok (fmono 1 0 0 0) /\ psi a b 2 = Ok (fmono 2 0 1 0) /\
  (exists r, psi a b 3 = Ok r /\ feq r (fmono 3 4 0 0 ++ fmono (6 * a) 2 0 0 ++ fmono (12 * b) 1 0 0 ++ fmono (- a ^ 2) 0 0 0)) /\
  (exists r, psi a b 4 = Ok r /\ feq r (conv (fmono 4 0 1 0)
     (fmono 1 6 0 0 ++ fmono (5 * a) 4 0 0 ++ fmono (20 * b) 3 0 0 ++ fmono (-5 * a ^ 2) 2 0 0 ++ fmono (-4 * a * b) 1 0 0 ++ fmono (-8 * b ^ 2 - a ^ 3) 0 0 0))).
Proof.
  intros a b. split; [reflexivity|]. split; [reflexivity|]. split; [reflexivity|]. split.
  - destruct (base3 a b) as (r & E & [R _ _]). exists r. split; [exact E|]. rewrite (rep_feq _ _ _ _ R). apply conv_1_l.
  - destruct (base4 a b) as (r & E & [R _ _]). exists r. split; [exact E|]. rewrite (rep_feq _ _ _ _ R).
    change (fmono 4 0 1 0) with (conv (Yk 1) (conv (fconst 2) (fconst 2))). rewrite <- !conv_assoc. reflexivity.
Qed.
Lemma c48_psi_negative : forall a b n, n < 0 -> psi a b n = Panic.
Proof. intros a b n Hn. unfold psi. cbn [psi_fuel]. replace (0 <=? n) with false by lia. reflexivity. Qed.

Lemma bind_split {A B} (x : res A) (f : A -> res B) y : bind x f = Ok y -> exists z, x = Ok z /\ f z = Ok y.
Proof. apply bind_Ok. Qed.
(** C48: psi(2m+1) = psi(m+2) psi(m)^3 - psi(m-1) psi(m+1)^3 modulo the curve equation. *)
Lemma c48_psi_rec_odd : forall a b m, 1 <= m -> 2 * m + 1 <= 65536 ->
  exists r e f g h, psi a b (2 * m + 1) = Ok r /\ psi a b (m + 2) = Ok e /\ psi a b m = Ok f /\ psi a b (m - 1) = Ok g /\ psi a b (m + 1) = Ok h /\
  cong_ideal 0 (fcurve a b) r (fsub (conv e (fpow f 3)) (conv g (fpow h 3))).
Proof.
  intros a b m Hm Hn. destruct (Z.eq_dec m 1) as [-> | N].
  - destruct (base3 a b) as (r & E & [R _ _]). change (2 * 1 + 1) with 3. change (1 + 2) with 3. change (1 - 1) with 0. change (1 + 1) with 2.
    exists r, r, (fmono 1 0 0 0), [], (fmono 2 0 1 0). split; [exact E|]. split; [exact E|]. repeat (split; [reflexivity|]).
    apply ci_refl. apply feqm_0. change (fpow (fmono 1 0 0 0) 3) with (fconst 1). change (conv [] (fpow (fmono 2 0 1 0) 3)) with ([] : fsum).
    generalize (r : fsum). intros u. ring.
  - destruct (psi_O a b (2 * m + 1)) as (r & fr & E & _); [lia|rewrite Z.odd_add, Z.odd_mul; reflexivity|]. pose proof E as E'.
    rewrite (psi_eq a b) in E by lia. unfold psi_step in E.
    replace ((2 * m + 1) mod 2 =? 1) with true in E by (rewrite Z.add_comm, Z.mul_comm, Z_mod_plus_full; reflexivity). cbv zeta in E.
    replace ((2 * m + 1 - 1) / 2) with m in E by (replace (2 * m + 1 - 1) with (m * 2) by ring; rewrite Z.div_mul; lia).
    apply bind_Ok in E. destruct E as (e & He & E). apply bind_Ok in E. destruct E as (f & Hf & E). apply bind_Ok in E. destruct E as (f1 & Hf1 & E).
    apply bind_Ok in E. destruct E as (g & Hg & E). apply bind_Ok in E. destruct E as (h & Hh & E). apply bind_Ok in E. destruct E as (h1 & Hh1 & E).
    apply bind_Ok in E. destruct E as (ef & Hef & E). apply bind_Ok in E. destruct E as (gh & Hgh & E).
    exists r, e, f, g, h. repeat (split; [assumption|]).
    pose proof (p_mul_sorted _ _ _ Hef) as S1. pose proof (p_mul_sorted _ _ _ Hgh) as S2.
    assert (Hi: i32_poly (p_sub ef gh)) by (apply (p_sub_keys i32_mono); auto; eapply p_mul_i32; eassumption).
    eapply ci_trans; [exact (reduction_ideal _ a b r Hi E)|]. apply ci_refl. apply feqm_0.
    rewrite (p_sub_feq ef gh S1 S2), (p_mul_feq _ _ _ Hef), (p_mul_feq _ _ _ Hgh), (pow3_feq _ _ Hf1), (pow3_feq _ _ Hh1). reflexivity.
Qed.
Lemma rec_even_aux a b m : 3 <= m -> 2 * m <= 65536 ->
  exists r e f g h i, psi a b (2 * m) = Ok r /\ psi a b (m + 2) = Ok e /\ psi a b (m - 1) = Ok f /\ psi a b (m - 2) = Ok g /\ psi a b (m + 1) = Ok h /\ psi a b m = Ok i /\
  exists f1 h1 ef gh i1 j, p_power_i32 f 2 = Ok f1 /\ p_power_i32 h 2 = Ok h1 /\ p_mul e f1 = Ok ef /\ p_mul g h1 = Ok gh /\
    p_mul i (p_sub ef gh) = Ok i1 /\ reduction j a b = Ok r /\ (i32_poly j /\ nonneg_xy j) /\ feq i1 (conv [(mkMono 0 1 0 None, 2)] j).
Proof.
  intros Hm Hn. rewrite (psi_eq a b) by lia. unfold psi_step.
  replace ((2 * m) mod 2 =? 1) with false by (rewrite Z.mul_comm, Z_mod_mult; reflexivity). cbv zeta.
  replace (2 * m / 2) with m by (rewrite Z.mul_comm, Z.div_mul; lia).
  pose proof (psi_good a b (m + 2) ltac:(lia)) as G1. pose proof (psi_good a b (m - 1) ltac:(lia)) as G2. pose proof (psi_good a b (m - 2) ltac:(lia)) as G3.
  pose proof (psi_good a b (m + 1) ltac:(lia)) as G4. pose proof (psi_good a b m ltac:(lia)) as G5.
  destruct (Z.Even_or_Odd m) as [(k & Ek)|(k & Ek)].
  - destruct (goodE a b _ (k + 1) G1 ltac:(lia)) as (e & fe & Ee & Ie). destruct (goodO a b _ (k - 1) G2 ltac:(lia)) as (f & ff & Ef & If).
    destruct (goodE a b _ (k - 1) G3 ltac:(lia)) as (g & fg & Eg & Ig). destruct (goodO a b _ k G4 ltac:(lia)) as (h & fh & Eh & Ih).
    destruct (goodE a b _ k G5 ltac:(lia)) as (i & fi & Ei & Ii).
    destruct (step_EE a b k e fe f ff g fg h fh i fi ltac:(lia) ltac:(lia) Ie If Ig Ih Ii) as (f1 & h1 & ef & gh & i1 & j & r & f' & E1 & E2 & E3 & E4 & E5 & E6 & E7 & Hi & Hx & _).
    exists r, e, f, g, h, i. rewrite Ee, Ef, Eg, Eh, Ei. cbn [bind]. rewrite E1. cbn [bind]. rewrite E2. cbn [bind]. rewrite E3. cbn [bind]. rewrite E4. cbn [bind]. rewrite E5. cbn [bind]. rewrite E6. cbn [bind].
    repeat (split; [first [assumption|reflexivity]|]). exists f1, h1, ef, gh, i1, j. repeat (split; [first [assumption|reflexivity]|]). assumption.
  - destruct (goodO a b _ (k + 1) G1 ltac:(lia)) as (e & fe & Ee & Ie). destruct (goodE a b _ k G2 ltac:(lia)) as (f & ff & Ef & If).
    destruct (goodO a b _ (k - 1) G3 ltac:(lia)) as (g & fg & Eg & Ig). destruct (goodE a b _ (k + 1) G4 ltac:(lia)) as (h & fh & Eh & Ih).
    destruct (goodO a b _ k G5 ltac:(lia)) as (i & fi & Ei & Ii).
    destruct (step_EO a b k e fe f ff g fg h fh i fi ltac:(lia) ltac:(lia) Ie If Ig Ih Ii) as (f1 & h1 & ef & gh & i1 & j & r & f' & E1 & E2 & E3 & E4 & E5 & E6 & E7 & Hi & Hx & _).
    exists r, e, f, g, h, i. rewrite Ee, Ef, Eg, Eh, Ei. cbn [bind]. rewrite E1. cbn [bind]. rewrite E2. cbn [bind]. rewrite E3. cbn [bind]. rewrite E4. cbn [bind]. rewrite E5. cbn [bind]. rewrite E6. cbn [bind].
    repeat (split; [first [assumption|reflexivity]|]). exists f1, h1, ef, gh, i1, j. repeat (split; [first [assumption|reflexivity]|]). assumption.
Qed.
(** C48: 2y psi(2m) = psi(m) (psi(m+2) psi(m-1)^2 - psi(m-2) psi(m+1)^2) modulo the curve equation: the floor division
    by 2y in the code loses nothing. *)
Lemma c48_psi_rec_even : forall a b m, 2 <= m -> 2 * m <= 65536 ->
  exists r e f g h i, psi a b (2 * m) = Ok r /\ psi a b (m + 2) = Ok e /\ psi a b (m - 1) = Ok f /\ psi a b (m - 2) = Ok g /\ psi a b (m + 1) = Ok h /\ psi a b m = Ok i /\
  cong_ideal 0 (fcurve a b) (conv (fmono 2 0 1 0) r) (conv i (fsub (conv e (fpow f 2)) (conv g (fpow h 2)))).
Proof.
  intros a b m Hm Hn. destruct (Z.eq_dec m 2) as [-> | N].
  - destruct (base4 a b) as (r & E & _). destruct (base3 a b) as (s & E3 & _). change (2 * 2) with 4. change (2 + 2) with 4. change (2 - 1) with 1. change (2 - 2) with 0. change (2 + 1) with 3.
    exists r, r, (fmono 1 0 0 0), [], s, (fmono 2 0 1 0). split; [exact E|]. split; [exact E|]. split; [reflexivity|]. split; [reflexivity|]. split; [exact E3|]. split; [reflexivity|].
    apply ci_refl. apply feqm_0. change (fpow (fmono 1 0 0 0) 2) with (fconst 1). change (conv [] (fpow s 2)) with ([] : fsum).
    generalize (r : fsum), (fmono 2 0 1 0). intros u v. ring.
  - destruct (rec_even_aux a b m ltac:(lia) Hn) as (r & e & f & g & h & i & E1 & E2 & E3 & E4 & E5 & E6 & f1 & h1 & ef & gh & i1 & j & H1 & H2 & H3 & H4 & H5 & H6 & (Hi & _) & Hx).
    exists r, e, f, g, h, i. repeat (split; [assumption|]).
    eapply ci_trans; [apply ci_mul; [apply ci_refl; reflexivity|exact (reduction_ideal _ a b r Hi H6)]|]. apply ci_refl. apply feqm_0.
    unfold fmono. rewrite <- Hx, (p_mul_feq _ _ _ H5).
    pose proof (p_mul_sorted _ _ _ H3) as S1. pose proof (p_mul_sorted _ _ _ H4) as S2.
    rewrite (p_sub_feq ef gh S1 S2), (p_mul_feq _ _ _ H3), (p_mul_feq _ _ _ H4), (pow2_feq _ _ H1), (pow2_feq _ _ H2). reflexivity.
Qed.
Example c48_case : psi 2 3 5 <> Panic /\ exists r, psi 2 3 5 = Ok r /\ only_x r /\ sorted r.
Proof.
  destruct (c48_psi_odd 2 3 5 ltac:(lia) eq_refl) as (r & E & S1 & O). rewrite E. split; [discriminate|]. exists r. auto.
Qed.

(** Reading the leading coefficient off the representation. *)
Lemma rep_coef k B f r x : rep k B f r -> coef r (mkMono x k 0 None) = coef f (X x).
Proof.
  intros R. rewrite (rep_feq _ _ _ _ R). rewrite coef_shift_y; [|reflexivity|reflexivity|intros m c H; apply R in H; unfold ykey in H; tauto].
  unfold set_y. cbn. rewrite Z.sub_diag. reflexivity.
Qed.
Lemma rep_highest k B f r c : rep k B f r -> coef f (X B) = c -> c <> 0 -> highest_term_x r = mkTerm c (mkMono B k 0 None).
Proof.
  intros R T Hc. pose proof (rep_coef k B f r B R) as E. rewrite T in E.
  assert (In (mkMono B k 0 None, c) r) as Hin.
  { destruct (coef_in r (mkMono B k 0 None)) as (d & Hd); [lia|]. rewrite <- E. rewrite (sorted_coef r _ d (rep_sorted _ _ _ _ R) Hd). exact Hd. }
  assert (Hne: r <> []) by (intros ->; destruct Hin).
  destruct (highest_spec r (rep_sorted _ _ _ _ R) Hne) as (H1 & H2 & H3).
  pose proof (H3 _ _ Hin) as H4. cbn [mx] in H4. pose proof (rep_keys _ _ _ _ R _ _ H1) as (K1 & K2 & K3 & K4).
  destruct (highest_term_x r) as [c' [x' y' q' v']]. cbn [tm tc mx my mq mv] in *.
  assert (x' = B) by lia. subst. f_equal. exact (sorted_unique r _ _ _ (rep_sorted _ _ _ _ R) H1 Hin).
Qed.
(** C49: degree and leading coefficient. *)
Lemma c49_odd : forall a b n r, 1 <= n <= 65536 -> Z.odd n = true -> psi a b n = Ok r ->
  highest_term_x r = mkTerm n (mkMono ((n ^ 2 - 1) / 2) 0 0 None) /\ degree_x r = Ok ((n ^ 2 - 1) / 2) /\
  (forall m c, In (m, c) r -> mx m <= (n ^ 2 - 1) / 2) /\ coef r (mkMono ((n ^ 2 - 1) / 2) 0 0 None) = n.
Proof.
  intros a b n r Hn Ho E. destruct (psi_O a b n ltac:(lia) Ho) as (r' & f & E' & [R (K & T) _]). rewrite E in E'. injection E'; intros; subst r'. clear E'.
  pose proof (half_odd n Ho) as Hh. set (m := (n - 1) / 2) in *.
  assert (D: (n ^ 2 - 1) / 2 = 2 * (m * m) + 2 * m). { replace (n ^ 2 - 1) with ((2 * (m * m) + 2 * m) * 2) by (rewrite Hh; ring). apply Z.div_mul. lia. }
  rewrite D. assert (Hn0: 2 * m + 1 <> 0) by lia.
  pose proof (rep_highest 0 _ f r _ R T Hn0) as Hh'. rewrite <- Hh in Hh'. split; [exact Hh'|]. split; [|split].
  - unfold degree_x.
    assert (has_y r = false) as ->. { apply has_y_false. intros k c Hi. apply R in Hi. unfold ykey in Hi. tauto. }
    assert (has_q r = false) as ->. { apply has_q_false. intros k c Hi. apply R in Hi. unfold ykey in Hi. tauto. }
    cbn [negb assertb bind]. destruct (is_zero r) eqn:Z0; [|rewrite Hh'; reflexivity].
    apply is_zero_nil in Z0. subst r. cbn in Hh'. unfold term_new in Hh'. injection Hh'; intros; lia.
  - intros k c Hi. apply R in Hi. unfold ykey in Hi. lia.
  - rewrite (rep_coef 0 _ f r _ R), T. lia.
Qed.
Lemma c49_even : forall a b n r, 2 <= n <= 65536 -> Z.odd n = false -> psi a b n = Ok r ->
  highest_term_x r = mkTerm n (mkMono ((n ^ 2 - 4) / 2) 1 0 None) /\
  (forall m c, In (m, c) r -> mx m <= (n ^ 2 - 4) / 2) /\ coef r (mkMono ((n ^ 2 - 4) / 2) 1 0 None) = n.
Proof.
  intros a b n r Hn Ho E. destruct (psi_E a b n ltac:(lia) Ho) as (r' & f & E' & [R T _]). rewrite E in E'. injection E'; intros; subst r'. clear E'.
  pose proof (half_even n Ho) as Hh. set (m := n / 2) in *. apply tops_2 in T. destruct T as (K & T).
  assert (D: (n ^ 2 - 4) / 2 = 2 * (m * m) - 2). { replace (n ^ 2 - 4) with ((2 * (m * m) - 2) * 2) by (rewrite Hh; ring). apply Z.div_mul. lia. }
  rewrite D. assert (Hn0: 2 * m <> 0) by lia.
  pose proof (rep_highest 1 _ _ r _ R T Hn0) as Hh'. rewrite <- Hh in Hh'. split; [exact Hh'|]. split.
  - intros k c Hi. apply R in Hi. unfold ykey in Hi. lia.
  - rewrite (rep_coef 1 _ _ r _ R), T. lia.
Qed.
Example c49_case : exists r, psi 7 (-2) 7 = Ok r /\ highest_term_x r = mkTerm 7 (mkMono 24 0 0 None).
Proof.
  destruct (c48_psi_odd 7 (-2) 7 ltac:(lia) eq_refl) as (r & E & _). exists r. split; [exact E|].
  exact (proj1 (c49_odd 7 (-2) 7 r ltac:(lia) eq_refl E)).
Qed.

(** C50: phi(n) = x psi(n)^2 - psi(n+1) psi(n-1) modulo the curve equation; it is a polynomial in x, monic of degree n^2. *)
Lemma c50_phi : forall a b n, 1 <= n <= 46340 -> exists r pn u v, phi a b n = Ok r /\ psi a b n = Ok pn /\ psi a b (n + 1) = Ok u /\ psi a b (n - 1) = Ok v /\
  sorted r /\ only_x r /\ cong_ideal 0 (fcurve a b) r (fsub (conv (fmono 1 1 0 0) (fpow pn 2)) (conv u v)) /\
  highest_term_x r = mkTerm 1 (mkMono (n ^ 2) 0 0 None).
Proof.
  intros a b n Hn. destruct (phi_good a b n Hn) as (r & pn & u & v & f & E & E1 & E2 & E3 & (R & T) & C).
  exists r, pn, u, v. repeat (split; [assumption|]). split; [apply R|]. split; [eapply ykey_only; apply R|]. split; [exact C|].
  replace (n ^ 2) with (n * n) by ring. apply (rep_highest 0 _ f r 1 R); [apply T|lia].
Qed.
(** C50: 4y omega(n) = psi(n+2) psi(n-1)^2 - psi(n-2) psi(n+1)^2 modulo the curve equation: the floor division by 4y loses
    nothing.  omega(n) is y times a polynomial in x for odd n and a polynomial in x for even n, with leading coefficient 1. *)
Lemma c50_omega : forall a b n, 2 <= n <= 37837 -> exists r u v s t, omega a b n = Ok r /\
  psi a b (n + 2) = Ok u /\ psi a b (n - 1) = Ok v /\ psi a b (n - 2) = Ok s /\ psi a b (n + 1) = Ok t /\
  sorted r /\ (forall m c, In (m, c) r -> 0 <= mx m /\ my m = (if Z.odd n then 1 else 0) /\ mq m = 0 /\ mv m = None) /\
  cong_ideal 0 (fcurve a b) (conv (fmono 4 0 1 0) r) (fsub (conv u (fpow v 2)) (conv s (fpow t 2))) /\
  highest_term_x r = (if Z.odd n then mkTerm 1 (mkMono (3 * (n ^ 2 - 1) / 2) 1 0 None) else mkTerm 1 (mkMono (3 * n ^ 2 / 2) 0 0 None)).
Proof.
  intros a b n Hn. destruct (omega_good a b n Hn) as (r & u & v & s & t & f & E & E1 & E2 & E3 & E4 & Hf & C & _).
  exists r, u, v, s, t. repeat (split; [assumption|]). unfold InvOm in Hf. destruct (Z.odd n) eqn:Ho; destruct Hf as (R & T).
  - split; [apply R|]. split; [intros m c Hi; apply R in Hi; unfold ykey in Hi; intuition lia|]. split; [exact C|].
    rewrite (rep_highest 1 _ f r 1 R); [|apply T|lia]. f_equal. f_equal.
    pose proof (half_odd n Ho) as Hh. set (m := (n - 1) / 2) in *. clearbody m. subst n.
    replace (3 * ((2 * m + 1) * (2 * m + 1))) with (1 + (6 * (m * m) + 6 * m + 1) * 2) by ring. rewrite Z.div_add by lia.
    replace (3 * ((2 * m + 1) ^ 2 - 1)) with ((6 * (m * m) + 6 * m) * 2) by ring. rewrite Z.div_mul by lia. change (1 / 2) with 0. lia.
  - split; [apply R|]. split; [intros m c Hi; apply R in Hi; unfold ykey in Hi; intuition lia|]. split; [exact C|].
    rewrite (rep_highest 0 _ f r 1 R); [|apply T|lia]. f_equal. f_equal. f_equal. ring.
Qed.
(** For n = 1 (psi(-1) is not defined by the code) omega is y. *)
Lemma c50_omega_one : forall a b, omega a b 1 = Ok (fmono 1 0 1 0).
Proof. intros a b. reflexivity. Qed.
Lemma c50_panics : forall a b n, n < 1 -> phi a b n = Panic /\ omega a b n = Panic.
Proof. intros a b n Hn. unfold phi, omega. replace (1 <=? n) with false by lia. split; reflexivity. Qed.
Example c50_case : exists r, omega 1 1 2 = Ok r /\ highest_term_x r = mkTerm 1 (mkMono 6 0 0 None) /\ phi 1 1 2 = Ok [(mkMono 0 0 0 None, 1); (mkMono 1 0 0 None, -8); (mkMono 2 0 0 None, -2); (mkMono 4 0 0 None, 1)].
Proof. eexists. split; [vm_compute; reflexivity|]. split; vm_compute; reflexivity. Qed.
