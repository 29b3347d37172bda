(** Positivity of the coefficients of 1/Delta and j; the exact range of modular_polynomial. *)
From Coq Require Import Znumtheory ZifyBool Setoid Morphisms.
From Verif Require Import Prelude M_Bigint M_Variable M_Term M_Poly M_QSeries M_Solve M_Modular Spec P_Bigint P_Variable P_FSum P_Poly P_Subst P_Subst2 P_Subst3 P_Mod P_Q P_QProps.
Open Scope Z_scope.

Definition allpos (a : fsum) : Prop := forall m c, In (m, c) a -> 0 <= c.
Lemma pos_conv a b : allpos a -> allpos b -> allpos (conv a b).
Proof.
  intros Ha Hb m c H. unfold conv in H. apply in_flat_map in H. destruct H as ((m1 & c1) & I1 & H). apply in_map_iff in H. destruct H as ((m2 & c2) & E & I2). injection E as <- <-. cbn [snd].
  apply Z.mul_nonneg_nonneg; [exact (Ha _ _ I1)|exact (Hb _ _ I2)].
Qed.
Lemma pos_const c : 0 <= c -> allpos (fconst c).
Proof. intros H m k [E|[]]. injection E as <- <-. exact H. Qed.
Lemma pos_fpow a k : allpos a -> allpos (fpow a k).
Proof. intros H. induction k as [|k IH]; [apply pos_const; lia|]. cbn [fpow]. apply pos_conv; assumption. Qed.
Lemma pos_app a b : allpos a -> allpos b -> allpos (fadd a b).
Proof. intros Ha Hb m c H. apply in_app_or in H. destruct H; eauto. Qed.
Lemma pos_geom a k : allpos a -> allpos (fgeom a k).
Proof. intros H. induction k as [|k IH]; [intros m c []|]. cbn [fgeom]. apply pos_app; [exact IH|apply pos_fpow, H]. Qed.
Lemma pos_coef a m : allpos a -> 0 <= coef a m.
Proof.
  induction a as [|[k c] a IH]; intros H; [reflexivity|]. assert (0 <= c) by (apply (H k c); left; reflexivity). assert (0 <= coef a m) by (apply IH; intros ? ? I; apply (H _ _ (or_intror I))).
  cbn. destruct (mono_eqb k m); lia.
Qed.
Lemma pos_ge a m c : allpos a -> In (m, c) a -> c <= coef a m.
Proof.
  induction a as [|[k d] a IH]; intros H [].
  - injection H0 as <- <-. assert (0 <= coef a k) by (apply pos_coef; intros ? ? I; apply (H _ _ (or_intror I))). cbn. assert (E : mono_eqb k k = true) by (apply mono_eqb_eq; reflexivity). rewrite E. lia.
  - assert (0 <= d) by (apply (H k d); left; reflexivity). assert (c <= coef a m) by (apply IH; [intros ? ? I; apply (H _ _ (or_intror I))|assumption]). cbn. destruct (mono_eqb k m); lia.
Qed.
Lemma conv_entry a b m1 c1 m2 c2 : In (m1, c1) a -> In (m2, c2) b -> In (mmul m1 m2, c1 * c2) (conv a b).
Proof. intros H1 H2. unfold conv. apply in_flat_map. exists (m1, c1). split; [exact H1|]. apply in_map_iff. exists (m2, c2). split; [reflexivity|exact H2]. Qed.
(** 1 / (1 - q^n)^24 up to order N. *)
Definition gfac (N n : Z) : fsum := fpow (fgeom [(qmono n, 1)] (S (Z.to_nat N))) 24.
Definition gprod (N : Z) (l : list Z) : fsum := fold_right (fun n acc => conv (gfac N n) acc) (fconst 1) l.
Lemma qn_single n : 0 <= n -> qnonneg [(qmono n, 1)].
Proof. intros H m c [E|[]]. injection E as <- <-. cbn. lia. Qed.
Lemma pos_single n : allpos [(qmono n, 1)].
Proof. intros m c [E|[]]. injection E as <- <-. lia. Qed.
Lemma qn_geom a k : qnonneg a -> qnonneg (fgeom a k).
Proof. intros H. induction k as [|k IH]; [intros m c []|]. cbn [fgeom]. intros m c I. apply in_app_or in I. destruct I as [I|I]; [exact (IH m c I)|exact (qnonneg_fpow a k H m c I)]. Qed.
Lemma fpow_mul a b k : feq (conv (fpow a k) (fpow b k)) (fpow (conv a b) k).
Proof. induction k as [|k IH]; cbn [fpow]; [apply conv_1_l|]. rewrite <- IH. ring. Qed.
Lemma upto_fpow_1 N b k : qnonneg b -> feq_upto N b (fconst 1) -> feq_upto N (fpow b k) (fconst 1).
Proof.
  intros Q H. induction k as [|k IH]; [reflexivity|]. cbn [fpow]. rewrite (upto_conv N b (fconst 1) (fpow b k) (fconst 1)); auto using qnonneg_fpow, qnonneg_const. apply feq_upto_of, conv_1_l.
Qed.
Lemma gfac_inv N n : 0 <= N -> 1 <= n -> feq_upto N (conv (eta_factor n) (gfac N n)) (fconst 1).
Proof.
  intros HN Hn. unfold eta_factor, gfac. rewrite (feq_upto_of N _ _ (fpow_mul _ _ 24)). apply upto_fpow_1.
  - apply qnonneg_conv; [intros m c [E|[E|[]]]; injection E as <- <-; cbn; lia|apply qn_geom, qn_single; lia].
  - assert (E : feq [(mone, 1); (qmono n, -1)] (fsub (fconst 1) [(qmono n, 1)])) by (intros m; reflexivity).
    assert (O : ord_ge 1 [(qmono n, 1)]). { intros m Hm. cbn. destruct (mono_eqb (qmono n) m) eqn:X; [apply mono_eqb_eq in X; subst m; cbn in Hm; lia|reflexivity]. }
    pose proof (ord_fpow _ (S (Z.to_nat N)) O) as O2. replace (Z.of_nat (S (Z.to_nat N))) with (N + 1) in O2 by lia.
    rewrite (feq_upto_of N _ (conv (fsub (fconst 1) [(qmono n, 1)]) (fgeom [(qmono n, 1)] (S (Z.to_nat N))))) by (rewrite E; reflexivity).
    rewrite (feq_upto_of N _ _ (fgeom_spec _ _)). rewrite (upto_sub N _ _ _ _ (reflexivity (fconst 1)) (ord_upto N _ O2)). reflexivity.
Qed.
Lemma gfac_qn N n : 1 <= n -> qnonneg (gfac N n).
Proof. intros H. apply qnonneg_fpow, qn_geom, qn_single. lia. Qed.
Lemma gprod_qn N l : (forall n, In n l -> 1 <= n) -> qnonneg (gprod N l).
Proof. induction l as [|n l IH]; intros H; [apply qnonneg_const|]. cbn [gprod fold_right]. apply qnonneg_conv; [apply gfac_qn, H; left; reflexivity|apply IH; intros; apply H; right; assumption]. Qed.
Lemma gprod_cons N n l : gprod N (n :: l) = conv (gfac N n) (gprod N l).
Proof. reflexivity. Qed.
Lemma upto_quad N a b c d : qnonneg (conv b d) -> feq_upto N (conv a c) (fconst 1) -> feq_upto N (conv b d) (fconst 1) -> feq_upto N (conv (conv a b) (conv c d)) (fconst 1).
Proof.
  intros Q H1 H2. rewrite (feq_upto_of N _ (conv (conv a c) (conv b d))) by ring.
  rewrite (upto_conv N _ (fconst 1) _ (fconst 1)); [apply feq_upto_of, conv_1_l|exact Q|apply qnonneg_const|exact H1|exact H2].
Qed.
Lemma gprod_inv N l : 0 <= N -> (forall n, In n l -> 1 <= n) -> feq_upto N (conv (eprod l) (gprod N l)) (fconst 1).
Proof.
  intros HN. induction l as [|n l IH]; intros H; [exact (feq_upto_of N _ _ (conv_1_l (fconst 1)))|]. assert (1 <= n) by (apply H; left; reflexivity). assert (H' : forall k, In k l -> 1 <= k) by (intros; apply H; right; assumption).
  rewrite eprod_cons, gprod_cons. apply upto_quad; [|apply gfac_inv; assumption|apply IH, H'].
  apply qnonneg_conv; [apply eprod_qnonneg; intros k Hk; specialize (H' k Hk); lia|apply gprod_qn, H'].
Qed.
Lemma gprod_pos N l : allpos (gprod N l).
Proof. induction l as [|n l IH]; [apply pos_const; lia|]. cbn [gprod fold_right]. apply pos_conv; [apply pos_fpow, pos_geom, pos_single|exact IH]. Qed.
Lemma one_geom a k : In (mone, 1) (fgeom a (S k)).
Proof. induction k as [|k IH]; [left; reflexivity|]. cbn [fgeom]. apply in_or_app. left. exact IH. Qed.
Lemma one_fpow a k : In (mone, 1) a -> In (mone, 1) (fpow a k).
Proof. intros H. induction k as [|k IH]; [left; reflexivity|]. cbn [fpow]. pose proof (conv_entry a (fpow a k) _ _ _ _ H IH) as I. exact I. Qed.
Lemma one_gprod N l : In (mone, 1) (gprod N l).
Proof. induction l as [|n l IH]; [left; reflexivity|]. cbn [gprod fold_right]. exact (conv_entry _ _ _ _ _ _ (one_fpow _ 24 (one_geom _ _)) IH). Qed.
(** Delta's inverse and j have positive coefficients. *)
Lemma inverse_pos N : 0 <= N -> 2 * N + 1 <= i32_max -> exists i, delta1_inverse N = Ok i /\ sorted i /\ feq_upto N i (gprod N (upto N)).
Proof.
  intros HN B. destruct (delta1_inverse_spec N HN B) as (d & i & Ed & Ei & Si & Ki & Fi). destruct (delta1_spec N HN B) as (d' & Ed' & Sd & Kd & Fd). assert (d' = d) as -> by congruence.
  exists i. split; [exact Ei|]. split; [exact Si|]. 
  assert (P1 : forall n, In n (upto N) -> 1 <= n) by (intros n Hn; apply in_upto in Hn; lia). pose proof (gprod_inv N (upto N) HN P1) as G.
  assert (Qe : qnonneg (eprod (upto N))) by (apply eprod_qnonneg; intros n Hn; specialize (P1 n Hn); lia). pose proof (gprod_qn N _ P1) as Qg. pose proof (qkey_qnonneg N i Ki) as Qi. pose proof (qkey_qnonneg N d Kd) as Qd.
  rewrite <- (feq_upto_of N _ _ (conv_1_l i)). rewrite <- (upto_conv_l N _ _ i Qi G).
  rewrite (feq_upto_of N _ (conv (conv (eprod (upto N)) i) (gprod N (upto N)))) by ring.
  rewrite (upto_conv_l N _ (fconst 1) _ Qg); [apply feq_upto_of, conv_1_l|]. rewrite <- (upto_conv_l N _ _ i Qi Fd). rewrite (feq_upto_of N _ _ (conv_comm d i)). exact Fi.
Qed.
Lemma j1_pos N r n : 0 <= N -> 3 * N + 1 <= i32_max -> j_invariant1 N = Ok r -> 0 <= n <= N -> 1 <= coef r (qmono n).
Proof.
  intros HN B Er Hn. destruct (j1_spec N HN B) as (e & d & i & r' & Ee & Ed & Ei & Er' & Sr & Kr & F1 & _). assert (r' = r) as -> by congruence.
  destruct (inverse_pos N HN ltac:(lia)) as (i' & Ei' & Si & Fi). assert (i' = i) as -> by congruence.
  destruct (c40_eisenstein N ltac:(lia)) as (e' & Ee' & Se & Ze & C0 & Cn & Ke). assert (e' = e) as -> by congruence.
  assert (Pe : allpos e). { intros m c I. destruct (Ke m c I) as (k & Hk & ->). rewrite <- (sorted_coef e _ _ Se I). destruct (Z.eq_dec k 0) as [-> |]; [lia|]. rewrite Cn by lia. pose proof (sigma_nonneg 3 k ltac:(lia)). lia. }
  assert (E0 : In (mone, 1) e). { destruct (coef_in e (qmono 0)) as (c & I); [lia|]. rewrite <- C0, (sorted_coef e _ _ Se I). exact I. }
  assert (En : exists c, 1 <= c /\ In (qmono n, c) e). { destruct (Z.eq_dec n 0) as [-> |]; [exists 1; split; [lia|exact E0]|]. destruct (coef_in e (qmono n)) as (c & I); [rewrite Cn by lia; pose proof (sigma_pos 3 n); lia|]. exists c. split; [|exact I]. rewrite <- (sorted_coef e _ _ Se I), Cn by lia. pose proof (sigma_pos 3 n). lia. }
  destruct En as (c & Hc & In1).
  assert (Qe : qnonneg (fpow e 3)). { apply qnonneg_fpow. intros m k I. destruct (Ke m k I) as (z & Hz & ->). cbn. lia. }
  rewrite (F1 (qmono n)) by (cbn; lia). rewrite (upto_conv_l N _ _ _ Qe Fi (qmono n)) by (cbn; lia).
  assert (I : In (qmono n, c) (conv (gprod N (upto N)) (fpow e 3))).
  { pose proof (conv_entry _ _ _ _ _ _ (one_gprod N (upto N)) (conv_entry e (fpow e 2) _ _ _ _ In1 (one_fpow e 2 E0))) as I. rewrite mmul_1_l, mmul_1_r, Z.mul_1_l, Z.mul_1_r in I. exact I. }
  apply pos_ge in I; [lia|]. apply pos_conv; [apply gprod_pos|apply pos_fpow, Pe].
Qed.
Lemma inverse_coef_pos N i n : 0 <= N -> 2 * N + 1 <= i32_max -> delta1_inverse N = Ok i -> 0 <= n <= N -> 1 <= coef i (qmono n).
Proof.
  intros HN B Ei Hn. destruct (inverse_pos N HN B) as (i' & Ei' & Si & Fi). assert (i' = i) as -> by congruence. rewrite (Fi (qmono n)) by (cbn; lia).
  assert (G1 : forall l, In 1 l -> In (qmono n, 1) (gprod N l)).
  { assert (F : forall k, (k <= Z.to_nat N)%nat -> In (qmono (Z.of_nat k), 1) (fgeom [(qmono 1, 1)] (S (Z.to_nat N)))).
    { intros k Hk. assert (P : In (qmono (Z.of_nat k), 1) (fpow [(qmono 1, 1)] k)).
      { clear. induction k as [|k IH]; [left; reflexivity|]. cbn [fpow]. pose proof (conv_entry [(qmono 1, 1)] (fpow [(qmono 1, 1)] k) (qmono 1) 1 _ _ (or_introl eq_refl) IH) as I. 
        replace (qmono (Z.of_nat (S k))) with (mmul (qmono 1) (qmono (Z.of_nat k))) by (unfold mmul, qmono; cbn [mx my mq mv]; f_equal; lia). exact I. }
      clear - Hk P. induction (Z.to_nat N) as [|M IH]; [assert (k = 0)%nat as -> by lia; exact P|]. cbn [fgeom]. apply in_or_app. destruct (Nat.eq_dec k (S M)) as [<- |]; [right; exact P|left; apply IH; lia]. }
    intros l. induction l as [|h l IH]; intros []; cbn [gprod fold_right].
    - subst h. specialize (F (Z.to_nat n) ltac:(lia)). rewrite Z2Nat.id in F by lia. pose proof (conv_entry _ _ _ _ _ _ (conv_entry _ _ _ _ _ _ F (one_fpow _ 23 (one_geom [(qmono 1, 1)] (Z.to_nat N)))) (one_gprod N l)) as I. rewrite !mmul_1_r, !Z.mul_1_r in I. exact I.
    - pose proof (conv_entry _ _ _ _ _ _ (one_fpow _ 24 (one_geom [(qmono h, 1)] (Z.to_nat N))) (IH H)) as I. rewrite mmul_1_l in I. exact I. }
  destruct (Z.eq_dec N 0) as [-> |N0]; [assert (n = 0) as -> by lia; apply (pos_ge _ _ 1 (gprod_pos _ _)); exact (one_gprod _ _)|].
  apply (pos_ge _ _ 1 (gprod_pos _ _)), G1, in_upto. lia.
Qed.
