(** phi and omega. *)
From Coq Require Import Znumtheory ZifyBool Setoid Morphisms Ring.
From Verif Require Import Prelude M_Bigint M_Variable M_Term M_Poly M_DivPoly Spec P_Bigint P_Variable P_FSum P_Poly P_Rem P_PolyProps P_Subst P_Subst2 P_SubstProps P_DivPoly P_DivPoly2 P_DivPoly3 P_DivPoly4.
Open Scope Z_scope.
Ltac i32b := unfold i32_max; lia.

(** Halving a polynomial with even coefficients. *)
Definition halve (f : fsum) : fsum := map (fun e => (fst e, snd e / 2)) (p_add p_new f).
Lemma halve_keys (P : mono -> Prop) f : keysP P f -> keysP P (halve f).
Proof.
  intros H m c Hin. unfold halve in Hin. apply in_map_iff in Hin. destruct Hin as ([k e] & E & Hin). injection E; intros; subst.
  apply (p_add_keys P f p_new I) in Hin; auto. intros ? ? [].
Qed.
Lemma coef_halve (l : fsum) : (forall m c, In (m, c) l -> (2 | c)) -> forall m, 2 * coef (map (fun e => (fst e, snd e / 2)) l) m = coef l m.
Proof.
  induction l as [|[k c] l IH]; intros H m; [reflexivity|]. cbn [map coef fst snd].
  rewrite Z.mul_add_distr_l, IH by (intros; eapply H; right; eassumption). f_equal.
  destruct (H k c (or_introl eq_refl)) as (d & ->). rewrite Z.div_mul by lia. destruct (mono_eqb k m); lia.
Qed.
Lemma halve_feq f : feqm 2 f [] -> feq f (conv (fconst 2) (halve f)).
Proof.
  intros H m. rewrite fconst_scale. unfold halve. rewrite coef_halve.
  - symmetry. apply (p_add_feq p_new f I).
  - intros k c Hin. pose proof (sorted_coef (p_add p_new f) k c (p_add_sorted f p_new I) Hin) as E.
    rewrite <- E. rewrite (p_add_feq p_new f I k). specialize (H k). cbn [coef] in H. rewrite Z.sub_0_r in H. exact H.
Qed.
Lemma tops_halve B c f : feqm 2 f [] -> tops B (2 * c) f -> tops B c (halve f).
Proof.
  intros H (K & T). split; [apply halve_keys, K|]. pose proof (halve_feq f H (X B)) as E. rewrite fconst_scale in E. lia.
Qed.

Lemma p_sub_feq' k B f (r : poly) k' B' g (s : poly) : rep k B f r -> rep k' B' g s -> feq (p_sub r s) (fsub r s).
Proof. intros H1 H2. apply p_sub_feq; [apply H1|apply H2]. Qed.
Lemma fpow2 u : feq (fpow u 2) (conv u u).
Proof. cbn [fpow]. ring. Qed.
Lemma fpow3 u : feq (fpow u 3) (conv u (conv u u)).
Proof. cbn [fpow]. ring. Qed.
Lemma pow2_feq (r c : poly) : p_power_i32 r 2 = Ok c -> feq c (fpow r 2).
Proof.
  rewrite p_power_2. intros H. apply bind_Ok in H. destruct H as (d & H1 & H2). rewrite (p_mul_feq _ _ _ H2), (p_mul_feq _ _ _ H1), fpow2.
  change (feq (conv (fconst 1) (conv r r)) (conv r r)). generalize (r : fsum). intros u. ring.
Qed.
Lemma pow3_feq (r c : poly) : p_power_i32 r 3 = Ok c -> feq c (fpow r 3).
Proof.
  rewrite p_power_3. intros H. apply bind_Ok in H. destruct H as (d & H1 & H2). apply bind_Ok in H2. destruct H2 as (e & H2 & H3).
  rewrite (p_mul_feq _ _ _ H3), (p_mul_feq _ _ _ H2), (p_mul_feq _ _ _ H1), fpow3.
  change (feq (conv (conv (fconst 1) r) (conv r r)) (conv r (conv r r))). generalize (r : fsum). intros u. ring.
Qed.

Section PO.
Variables a b : Z.
Notation psi := (psi a b).
Notation InvO := (InvO a).
Notation InvE := (InvE a).
Lemma rep_x : rep 0 1 [(X 1, 1)] (to_pol (tb_build (tb_xpow 1 tb_new))).
Proof.
  split; [apply to_pol_sorted|apply to_pol_keys; unfold ykey; cbn; repeat split; lia| |rewrite to_pol_feq; reflexivity].
  intros m c [E|[]]. injection E; intros; subst. unfold ykey, X. cbn. repeat split; lia.
Qed.
Lemma tops_x : tops 1 1 [(X 1, 1)].
Proof. split; [intros m c [E|[]]; injection E; intros; subst; unfold ykey, X; cbn; repeat split; lia|reflexivity]. Qed.

(** phi(n) is x^(n^2) + ..., free of y. *)
Definition InvPhi (n : Z) (r : poly) (f : fsum) : Prop := rep 0 (n * n) f r /\ tops (n * n) 1 f.
Lemma phi_chain n pn u v : 1 <= n <= 46340 -> psi n = Ok pn -> psi (n + 1) = Ok u -> psi (n - 1) = Ok v ->
  M_DivPoly.phi a b n = (pn2 <- p_power_i32 pn 2 ;; t <- t_mul_p (tb_build (tb_xpow 1 tb_new)) pn2 ;; uv <- p_mul u v ;; reduction (p_sub t uv) a b).
Proof.
  intros Hn E1 E2 E3. unfold phi. replace (1 <=? n) with true by lia. cbn [assertb bind]. rewrite E1. cbn [bind].
  rewrite i32_ok by (unfold i32_min, i32_max; lia). cbn [bind]. rewrite E2, E3. cbn [bind]. reflexivity.
Qed.
Lemma phi_good n : 1 <= n <= 46340 -> exists r pn u v f, M_DivPoly.phi a b n = Ok r /\ psi n = Ok pn /\ psi (n + 1) = Ok u /\ psi (n - 1) = Ok v /\
  InvPhi n r f /\ cong_ideal 0 (fcurve a b) r (fsub (conv [(X 1, 1)] (fpow pn 2)) (conv u v)).
Proof.
  intros Hn. assert (Hnn: n * n <= 46340 * 46340) by nia.
  pose proof (psi_good a b n ltac:(lia)) as G. pose proof (psi_good a b (n + 1) ltac:(lia)) as G1. pose proof (psi_good a b (n - 1) ltac:(lia)) as G2.
  assert (C: exists r pn u v f pn2 t uv, psi n = Ok pn /\ psi (n + 1) = Ok u /\ psi (n - 1) = Ok v /\ p_power_i32 pn 2 = Ok pn2 /\
     t_mul_p (tb_build (tb_xpow 1 tb_new)) pn2 = Ok t /\ p_mul u v = Ok uv /\ reduction (p_sub t uv) a b = Ok r /\ InvPhi n r f /\ i32_poly (p_sub t uv) /\ feq (p_sub t uv) (fsub t uv)).
  { destruct (Z.Even_or_Odd n) as [(m & Em)|(m & Em)].
    - destruct (goodE a b n m G Em) as (pn & fn & E1 & [Rn Tn Mn]).
      destruct (goodO a b (n + 1) m G1 ltac:(lia)) as (u & fu & E2 & [Ru Tu Mu]).
      destruct (goodO a b (n - 1) (m - 1) G2 ltac:(lia)) as (v & fv & E3 & [Rv Tv Mv]).
      assert (Hm: m * m <= 23170 * m) by nia. assert (Hm2: 4 * (m * m) = n * n) by nia.
      destruct (rep_pow2 1 (2 * (m * m) - 2) _ _ ltac:(lia) ltac:(i32b) ltac:(i32b) Rn) as (pn2 & H1 & R1).
      destruct (rep_mul 0 1 _ _ (2 * 1) (2 * (2 * (m * m) - 2)) _ _ ltac:(lia) ltac:(lia) ltac:(i32b) ltac:(i32b) rep_x R1) as (t & H2 & R2).
      destruct (rep_mul 0 (2 * (m * m) + 2 * m) _ _ 0 (2 * ((m - 1) * (m - 1)) + 2 * (m - 1)) _ _ ltac:(lia) ltac:(lia) ltac:(i32b) ltac:(i32b) Ru Rv) as (uv & H3 & R3).
      destruct (rep_reduction2 a b (0 + 2 * 1) (0 + 0) _ _ (n * n) _ _ _ _ ltac:(lia) ltac:(lia) eq_refl R2 R3) as (r & H4 & R4 & Hi).
      { change (3 * ((0 + 2 * 1) / 2)) with 3. lia. }
      { change (3 * ((0 + 0) / 2)) with 0. lia. }
      { i32b. }
      exists r, pn, u, v. eexists. exists pn2, t, uv. repeat (split; [eassumption|]). split; [|split; [exact Hi|exact (p_sub_feq' _ _ _ _ _ _ _ _ R2 R3)]].
      split; [exact R4|]. apply tops_2 in Tn. eapply tops_eq; [apply tops_sub| |].
      + eapply tops_redf; [lia|]. exact (tops_conv _ _ _ _ _ _ tops_x (tops_conv _ _ _ _ _ _ Tn Tn)).
      + eapply tops_eq; [eapply tops_redf; [lia|]; exact (tops_conv _ _ _ _ _ _ Tu Tv)| |reflexivity].
        change (3 * ((0 + 2 * 1) / 2)) with 3. change (3 * ((0 + 0) / 2)) with 0. lia.
      + change (3 * ((0 + 2 * 1) / 2)) with 3. lia.
      + ring.
    - destruct (goodO a b n m G Em) as (pn & fn & E1 & [Rn Tn Mn]).
      destruct (goodE a b (n + 1) (m + 1) G1 ltac:(lia)) as (u & fu & E2 & [Ru Tu Mu]).
      destruct (goodE a b (n - 1) m G2 ltac:(lia)) as (v & fv & E3 & [Rv Tv Mv]).
      assert (Hm: m * m <= 23170 * m) by nia. assert (Hm2: 4 * (m * m) + 4 * m + 1 = n * n) by (subst n; ring).
      destruct (rep_pow2 0 (2 * (m * m) + 2 * m) _ _ ltac:(lia) ltac:(i32b) ltac:(i32b) Rn) as (pn2 & H1 & R1).
      destruct (rep_mul 0 1 _ _ (2 * 0) (2 * (2 * (m * m) + 2 * m)) _ _ ltac:(lia) ltac:(lia) ltac:(i32b) ltac:(i32b) rep_x R1) as (t & H2 & R2).
      destruct (rep_mul 1 (2 * ((m + 1) * (m + 1)) - 2) _ _ 1 (2 * (m * m) - 2) _ _ ltac:(lia) ltac:(lia) ltac:(i32b) ltac:(i32b) Ru Rv) as (uv & H3 & R3).
      destruct (rep_reduction2 a b (0 + 2 * 0) (1 + 1) _ _ (n * n) _ _ _ _ ltac:(lia) ltac:(lia) eq_refl R2 R3) as (r & H4 & R4 & Hi).
      { change (3 * ((0 + 2 * 0) / 2)) with 0. lia. }
      { change (3 * ((1 + 1) / 2)) with 3. lia. }
      { i32b. }
      exists r, pn, u, v. eexists. exists pn2, t, uv. repeat (split; [eassumption|]). split; [|split; [exact Hi|exact (p_sub_feq' _ _ _ _ _ _ _ _ R2 R3)]].
      split; [exact R4|]. apply tops_2 in Tu. apply tops_2 in Tv. eapply tops_eq; [apply tops_sub| |].
      + eapply tops_redf; [lia|]. exact (tops_conv _ _ _ _ _ _ tops_x (tops_conv _ _ _ _ _ _ Tn Tn)).
      + eapply tops_eq; [eapply tops_redf; [lia|]; exact (tops_conv _ _ _ _ _ _ Tu Tv)| |reflexivity].
        change (3 * ((0 + 2 * 0) / 2)) with 0. change (3 * ((1 + 1) / 2)) with 3. lia.
      + change (3 * ((0 + 2 * 0) / 2)) with 0. lia.
      + ring. }
  destruct C as (r & pn & u & v & f & pn2 & t & uv & E1 & E2 & E3 & H1 & H2 & H3 & H4 & Hf & Hi & Hs).
  exists r, pn, u, v, f. split.
  { rewrite (phi_chain n pn u v Hn E1 E2 E3), H1. cbn [bind]. rewrite H2. cbn [bind]. rewrite H3. cbn [bind]. exact H4. }
  repeat (split; [assumption|]). pose proof (reduction_ideal _ a b r Hi H4) as Hc.
  eapply ci_trans; [exact Hc|]. apply ci_refl. apply feqm_0. rewrite Hs, (p_mul_feq _ _ _ H3).
  unfold t_mul_p in H2. rewrite (p_mul_feq _ _ _ H2), (pow2_feq _ _ H1), to_pol_feq. reflexivity.
Qed.

(** omega(n): y x^(3(n^2-1)/2) + ... for n odd, x^(3n^2/2) + ... for n even. *)
Definition InvOm (n : Z) (r : poly) (f : fsum) : Prop :=
  if Z.odd n then rep 1 (3 * (n * n) / 2 - 1) f r /\ tops (3 * (n * n) / 2 - 1) 1 f else rep 0 (3 * (n * n) / 2) f r /\ tops (3 * (n * n) / 2) 1 f.
Lemma omega_chain n u v s t : 2 <= n <= 37837 -> psi (n + 2) = Ok u -> psi (n - 1) = Ok v -> psi (n - 2) = Ok s -> psi (n + 1) = Ok t ->
  omega a b n = (v2 <- p_power_i32 v 2 ;; uv <- p_mul u v2 ;; t2 <- p_power_i32 t 2 ;; st <- p_mul s t2 ;;
    i <- p_div_t (p_sub uv st) (tb_build (tb_ypow 1 (tb_coef 4 tb_new))) ;; reduction i a b).
Proof.
  intros Hn E1 E2 E3 E4. unfold omega. replace (1 <=? n) with true by lia. cbn [assertb bind]. replace (n =? 1) with false by lia.
  rewrite i32_ok by (unfold i32_min, i32_max; lia). cbn [bind]. rewrite E1, E2. cbn [bind].
  destruct (p_power_i32 v 2) as [v2| |]; cbn [bind]; try reflexivity. destruct (p_mul u v2) as [uv| |]; cbn [bind]; try reflexivity. rewrite E3. cbn [bind]. rewrite E4. cbn [bind]. reflexivity.
Qed.
Lemma four_EO (u fe ff fg fh : fsum) : feq (fsub (conv fe (conv (conv u ff) (conv u ff))) (conv fg (conv (conv u fh) (conv u fh))))
  (conv (conv u u) (fsub (conv fe (conv ff ff)) (conv fg (conv fh fh)))).
Proof. ring. Qed.
Lemma four_EE (u fe ff fg fh q : fsum) : feq (fsub (conv fe (conv ff ff)) (conv fg (conv fh fh))) (conv u q) ->
  feq (fsub (conv (conv u fe) (conv ff ff)) (conv (conv u fg) (conv fh fh))) (conv (conv u u) q).
Proof. intros H. transitivity (conv u (fsub (conv fe (conv ff ff)) (conv fg (conv fh fh)))); [ring|]. rewrite H. ring. Qed.
Lemma omega_good n : 2 <= n <= 37837 -> exists r u v s t f, omega a b n = Ok r /\ psi (n + 2) = Ok u /\ psi (n - 1) = Ok v /\ psi (n - 2) = Ok s /\ psi (n + 1) = Ok t /\
  InvOm n r f /\ cong_ideal 0 (fcurve a b) (conv [(mkMono 0 1 0 None, 4)] r) (fsub (conv u (fpow v 2)) (conv s (fpow t 2))) /\
  exists i, reduction i a b = Ok r /\ i32_poly i /\ nonneg_xy i /\ feq (conv [(mkMono 0 1 0 None, 4)] i) (fsub (conv u (fpow v 2)) (conv s (fpow t 2))).
Proof.
  intros Hn. assert (Hnn: n * n <= 37837 * 37837) by nia.
  pose proof (psi_good a b (n + 2) ltac:(lia)) as G1. pose proof (psi_good a b (n - 1) ltac:(lia)) as G2. pose proof (psi_good a b (n - 2) ltac:(lia)) as G3. pose proof (psi_good a b (n + 1) ltac:(lia)) as G4.
  assert (C: exists r u v s t f v2 uv t2 st i, psi (n + 2) = Ok u /\ psi (n - 1) = Ok v /\ psi (n - 2) = Ok s /\ psi (n + 1) = Ok t /\
     p_power_i32 v 2 = Ok v2 /\ p_mul u v2 = Ok uv /\ p_power_i32 t 2 = Ok t2 /\ p_mul s t2 = Ok st /\
     p_div_t (p_sub uv st) (tb_build (tb_ypow 1 (tb_coef 4 tb_new))) = Ok i /\ reduction i a b = Ok r /\ InvOm n r f /\ (i32_poly i /\ nonneg_xy i) /\
     feq (p_sub uv st) (fsub uv st) /\ feq (p_sub uv st) (conv [(mkMono 0 1 0 None, 4)] i)).
  { destruct (Z.Even_or_Odd n) as [(m & Em)|(m & Em)].
    - destruct (goodE a b (n + 2) (m + 1) G1 ltac:(lia)) as (u & fu & E1 & [Ru Tu Mu]).
      destruct (goodO a b (n - 1) (m - 1) G2 ltac:(lia)) as (v & fv & E2 & [Rv Tv Mv]).
      destruct (goodE a b (n - 2) (m - 1) G3 ltac:(lia)) as (s & fs & E3 & [Rs Ts Ms]).
      destruct (goodO a b (n + 1) m G4 ltac:(lia)) as (t & ft & E4 & [Rt Tt Mt]).
      assert (Hm: m * m <= 18918 * m) by (apply Z.mul_le_mono_nonneg_r; lia). assert (Hm2: 3 * (n * n) / 2 = 6 * (m * m)). { replace (3 * (n * n)) with (6 * (m * m) * 2) by (subst n; ring). apply Z.div_mul. lia. }
      destruct (rep_pow2 0 (2 * ((m - 1) * (m - 1)) + 2 * (m - 1)) _ _ ltac:(lia) ltac:(i32b) ltac:(i32b) Rv) as (v2 & H1 & R1).
      destruct (rep_mul 1 (2 * ((m + 1) * (m + 1)) - 2) _ _ (2 * 0) (2 * (2 * ((m - 1) * (m - 1)) + 2 * (m - 1))) _ _ ltac:(lia) ltac:(lia) ltac:(i32b) ltac:(i32b) Ru R1) as (uv & H2 & R2).
      destruct (rep_pow2 0 (2 * (m * m) + 2 * m) _ _ ltac:(lia) ltac:(i32b) ltac:(i32b) Rt) as (t2 & H3 & R3).
      destruct (rep_mul 1 (2 * ((m - 1) * (m - 1)) - 2) _ _ (2 * 0) (2 * (2 * (m * m) + 2 * m)) _ _ ltac:(lia) ltac:(lia) ltac:(i32b) ltac:(i32b) Rs R3) as (st & H4 & R4).
      apply (rep_eqB _ 1 _ (6 * (m * m))) in R2; [|lia|lia]. apply (rep_eqB _ 1 _ (6 * (m * m))) in R4; [|lia|lia].
      pose proof (rep_sub _ _ _ _ _ _ R2 R4) as R5.
      set (q := fsub (conv fu (conv fv fv)) (conv fs (conv ft ft))).
      assert (Tq: tops (6 * (m * m)) (2 * 1) q).
      { eapply tops_eq; [eapply tops_sub| |].
        - exact (tops_conv _ _ _ _ _ _ Tu (tops_conv _ _ _ _ _ _ Tv Tv)).
        - eapply tops_eq; [exact (tops_conv _ _ _ _ _ _ Ts (tops_conv _ _ _ _ _ _ Tt Tt))| |reflexivity]. lia.
        - lia.
        - ring. }
      assert (Mq: feqm 2 q []).
      { unfold q. rewrite Mv, Mt, Mu, Ms. rewrite !Up_mul by nia. destruct (Z.odd m) eqn:Om.
        - replace (Z.odd (m + 1)) with false by (rewrite Z.odd_add, Om; reflexivity). replace (Z.odd (m - 1)) with false by (rewrite Z.odd_sub, Om; reflexivity).
          reflexivity.
        - replace (Z.odd (m + 1)) with true by (rewrite Z.odd_add, Om; reflexivity). replace (Z.odd (m - 1)) with true by (rewrite Z.odd_sub, Om; reflexivity).
          assert (2 <= m) by (destruct (Z.eq_dec m 1); [subst m; discriminate|lia]). rewrite !Up_mul by nia. match goal with |- feqm 2 (fsub (Up a ?x) (Up a ?y)) _ => replace x with y by lia end.
          apply feq_feqm. ring. }
      pose proof (tops_halve _ _ _ Mq Tq) as Th. pose proof (four_EE (fconst 2) fu fv fs ft _ (halve_feq q Mq)) as Fq.
      change (conv (fconst 2) (fconst 2)) with (fconst 4) in Fq.
      destruct (rep_div 1 1 (6 * (m * m)) _ (halve q) 4 _ ltac:(lia) ltac:(lia) ltac:(i32b) ltac:(i32b) R5 Fq ltac:(apply Th)) as (i & Hi & R6).
      pose proof (rep_exact 1 1 _ _ _ 4 _ i R5 R6 Fq) as Ex.
      destruct (rep_reduction a b 0 (6 * (m * m)) _ i ltac:(lia) R6) as (r & Hr & R7 & Hi32).
      { change (3 * (0 / 2)) with 0. i32b. }
      exists r, u, v, s, t, (halve q), v2, uv, t2, st, i. repeat (split; [assumption|]). split; [|split; [split; [exact Hi32|eapply rep_nonneg; [|exact R6]; lia]|split; [exact (p_sub_feq' _ _ _ _ _ _ _ _ R2 R4)|exact Ex]]].
      unfold InvOm. replace (Z.odd n) with false by (subst n; rewrite Z.odd_mul; reflexivity). rewrite Hm2. split; [|exact Th].
      change (0 mod 2) with 0 in R7. change (3 * (0 / 2)) with 0 in R7. rewrite Z.add_0_r in R7. eapply rep_ext; [apply redf_0|apply Th|exact R7].
    - destruct (goodO a b (n + 2) (m + 1) G1 ltac:(lia)) as (u & fu & E1 & [Ru Tu Mu]).
      destruct (goodE a b (n - 1) m G2 ltac:(lia)) as (v & fv & E2 & [Rv Tv Mv]).
      destruct (goodO a b (n - 2) (m - 1) G3 ltac:(lia)) as (s & fs & E3 & [Rs Ts Ms]).
      destruct (goodE a b (n + 1) (m + 1) G4 ltac:(lia)) as (t & ft & E4 & [Rt Tt Mt]).
      assert (Hm: m * m <= 18918 * m) by (apply Z.mul_le_mono_nonneg_r; lia). assert (Hm2: 3 * (n * n) / 2 = 6 * (m * m) + 6 * m + 1).
      { replace (3 * (n * n)) with (1 + (6 * (m * m) + 6 * m + 1) * 2) by (subst n; ring). rewrite Z.div_add by lia. reflexivity. }
      destruct (rep_pow2 1 (2 * (m * m) - 2) _ _ ltac:(lia) ltac:(i32b) ltac:(i32b) Rv) as (v2 & H1 & R1).
      destruct (rep_mul 0 (2 * ((m + 1) * (m + 1)) + 2 * (m + 1)) _ _ (2 * 1) (2 * (2 * (m * m) - 2)) _ _ ltac:(lia) ltac:(lia) ltac:(i32b) ltac:(i32b) Ru R1) as (uv & H2 & R2).
      destruct (rep_pow2 1 (2 * ((m + 1) * (m + 1)) - 2) _ _ ltac:(lia) ltac:(i32b) ltac:(i32b) Rt) as (t2 & H3 & R3).
      destruct (rep_mul 0 (2 * ((m - 1) * (m - 1)) + 2 * (m - 1)) _ _ (2 * 1) (2 * (2 * ((m + 1) * (m + 1)) - 2)) _ _ ltac:(lia) ltac:(lia) ltac:(i32b) ltac:(i32b) Rs R3) as (st & H4 & R4).
      apply (rep_eqB _ 2 _ (6 * (m * m) + 6 * m)) in R2; [|lia|lia]. apply (rep_eqB _ 2 _ (6 * (m * m) + 6 * m)) in R4; [|lia|lia].
      pose proof (rep_sub _ _ _ _ _ _ R2 R4) as R5.
      set (q := fsub (conv fu (conv fv fv)) (conv fs (conv ft ft))).
      assert (Tq: tops (6 * (m * m) + 6 * m) 1 q).
      { eapply tops_eq; [eapply tops_sub| |].
        - exact (tops_conv _ _ _ _ _ _ Tu (tops_conv _ _ _ _ _ _ Tv Tv)).
        - eapply tops_eq; [exact (tops_conv _ _ _ _ _ _ Ts (tops_conv _ _ _ _ _ _ Tt Tt))| |reflexivity]. lia.
        - lia.
        - ring. }
      pose proof (four_EO (fconst 2) fu fv fs ft) as Fq. change (conv (fconst 2) (fconst 2)) with (fconst 4) in Fq.
      destruct (rep_div 2 1 (6 * (m * m) + 6 * m) _ q 4 _ ltac:(lia) ltac:(lia) ltac:(i32b) ltac:(i32b) R5 Fq ltac:(apply Tq)) as (i & Hi & R6).
      pose proof (rep_exact 2 1 _ _ _ 4 _ i R5 R6 Fq) as Ex.
      destruct (rep_reduction a b 1 (6 * (m * m) + 6 * m) _ i ltac:(lia) R6) as (r & Hr & R7 & Hi32).
      { change (3 * (1 / 2)) with 0. i32b. }
      exists r, u, v, s, t, q, v2, uv, t2, st, i. repeat (split; [assumption|]). split; [|split; [split; [exact Hi32|eapply rep_nonneg; [|exact R6]; lia]|split; [exact (p_sub_feq' _ _ _ _ _ _ _ _ R2 R4)|exact Ex]]].
      unfold InvOm. replace (Z.odd n) with true by (subst n; rewrite Z.odd_add, Z.odd_mul; reflexivity). rewrite Hm2.
      replace (6 * (m * m) + 6 * m + 1 - 1) with (6 * (m * m) + 6 * m) by lia. split; [|exact Tq].
      change (1 mod 2) with 1 in R7. change (3 * (1 / 2)) with 0 in R7. rewrite Z.add_0_r in R7. eapply rep_ext; [apply redf_1|apply Tq|exact R7]. }
  destruct C as (r & u & v & s & t & f & v2 & uv & t2 & st & i & E1 & E2 & E3 & E4 & H1 & H2 & H3 & H4 & H5 & H6 & Hf & (Hi & Hin) & Hs & Hx).
  exists r, u, v, s, t, f. split.
  { rewrite (omega_chain n u v s t Hn E1 E2 E3 E4), H1. cbn [bind]. rewrite H2. cbn [bind]. rewrite H3. cbn [bind]. rewrite H4. cbn [bind]. rewrite H5. cbn [bind]. exact H6. }
  repeat (split; [assumption|]). pose proof (reduction_ideal _ a b r Hi H6) as Hc.
  assert (Fx: feq (conv [(mkMono 0 1 0 None, 4)] i) (fsub (conv u (fpow v 2)) (conv s (fpow t 2)))).
  { rewrite <- Hx, Hs. rewrite (p_mul_feq _ _ _ H2), (p_mul_feq _ _ _ H4), (pow2_feq _ _ H1), (pow2_feq _ _ H3). reflexivity. }
  split; [|exists i; auto].
  eapply ci_trans; [apply ci_mul; [apply ci_refl; reflexivity|exact Hc]|]. apply ci_refl. apply feqm_0. exact Fx.
Qed.
End PO.
