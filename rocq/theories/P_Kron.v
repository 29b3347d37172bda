(** The modular equations modulo p: Kronecker's congruence, coefficient by coefficient. *)
From Coq Require Import Znumtheory ZifyBool Setoid Morphisms.
From Verif Require Import Prelude M_Bigint M_Variable M_Term M_Poly M_QSeries M_Solve M_Curve M_Modular Spec P_Bigint P_Variable P_FSum P_Poly P_Subst P_Binom P_Q P_QProps P_Modular P_Modular2 P_ModRet2 P_Euler P_SingProps.
Open Scope Z_scope.

Lemma fpow_qterm k c n : feq (fpow [(qmono k, c)] n) [(qmono (k * Z.of_nat n), c ^ Z.of_nat n)].
Proof.
  induction n as [|n IH].
  - intros m. cbn. rewrite Z.mul_0_r. reflexivity.
  - cbn [fpow]. rewrite IH. intros m. cbn [conv flat_map map app coef fst snd]. rewrite Nat2Z.inj_succ, Z.pow_succ_r by lia.
    replace (mmul (qmono k) (qmono (k * Z.of_nat n))) with (qmono (k * Z.succ (Z.of_nat n))); [reflexivity|]. unfold qmono, mmul. cbn [mx my mq mv vmul]. f_equal; ring.
Qed.
(** J(q^p) = J(q)^p modulo p. *)
Lemma qfrobenius p a : prime p -> keysP qpure a -> feqm p (fpow a (Z.to_nat p)) (fmap (qpower p) a).
Proof.
  intros Pp. pose proof (prime_ge_2 p Pp). assert (NP : Z.of_nat (Z.to_nat p) = p) by lia. induction a as [|(m, c) a IH]; intros H0.
  - cbn [fmap map]. destruct (Z.to_nat p) eqn:E; [lia|]. cbn [fpow]. reflexivity.
  - change ((m, c) :: a) with (fadd [(m, c)] a). pose proof (freshman [(m, c)] a (Z.to_nat p)) as F. rewrite NP in F. rewrite F by exact Pp. rewrite IH by (intros k d I; apply (H0 k d); right; exact I).
    pose proof (qpure_eq m (H0 m c (or_introl eq_refl))) as Q. rewrite Q. rewrite (feq_feqm p _ _ (fpow_qterm (mq m) c (Z.to_nat p))). rewrite NP.
    change (fmap (qpower p) (fadd [(qmono (mq m), c)] a)) with (fadd (fmap (qpower p) [(qmono (mq m), c)]) (fmap (qpower p) a)). apply fadd_proper; [|reflexivity].
    intros k. cbn [fmap map coef fst snd]. unfold qpower, qmono at 2. cbn [mx my mq mv]. unfold qmono. destruct (mono_eqb _ k); rewrite ?Z.add_0_r; [apply fermat_full, Pp|apply Z.divide_0_r].
Qed.
Lemma fpow_add a m n : feq (fpow a (m + n)) (conv (fpow a m) (fpow a n)).
Proof. induction m as [|m IH]; cbn [fpow Nat.add]; [ring|]. rewrite IH. ring. Qed.
Lemma fpow_mul a m n : feq (fpow a (m * n)) (fpow (fpow a m) n).
Proof. induction n as [|n IH]; [rewrite Nat.mul_0_r; reflexivity|]. rewrite Nat.mul_succ_r, Nat.add_comm, fpow_add, IH. reflexivity. Qed.

Section K.
Variables (p : Z) (J : fsum).
Hypothesis Pp : prime p.
Hypothesis PJ : keysP qpure J.
Hypothesis KJ : forall m c, In (m, c) J -> -1 <= mq m.
Hypothesis J1 : coef J (qmono (-1)) = 1.
Definition jc (k d : Z) : Z := coef (fpow J (Z.to_nat d)) (qmono k).
Lemma kap_mod k i j : 0 <= i -> 0 <= j -> (p | kap p J k i j - jc k (i + p * j)).
Proof using Pp PJ.
  intros Hi Hj. pose proof (prime_ge_2 p Pp). unfold kap, kappa, jc.
  assert (X: feqm p (conv (fpow J (Z.to_nat i)) (fpow (fmap (qpower p) J) (Z.to_nat j))) (fpow J (Z.to_nat (i + p * j)))).
  { rewrite <- (fpow_proper p (Z.to_nat j) _ _ (qfrobenius p J Pp PJ)). apply feq_feqm. rewrite <- fpow_mul, <- fpow_add. replace (Z.to_nat i + Z.to_nat p * Z.to_nat j)%nat with (Z.to_nat (i + p * j)) by nia. reflexivity. }
  apply X.
Qed.
Lemma jc_below k d : 0 <= d -> k < - d -> jc k d = 0.
Proof using PJ KJ J1.
  intros Hd Hk. unfold jc. pose proof (lead_fpow (-1) J (Z.to_nat d) (lead_J J PJ KJ J1)) as L. replace (-1 * Z.of_nat (Z.to_nat d)) with (- d) in L by lia. apply (lead_ord _ _ _ L). exact Hk.
Qed.
Lemma jc_at d : 0 <= d -> jc (- d) d = 1.
Proof using PJ KJ J1.
  intros Hd. unfold jc. pose proof (lead_fpow (-1) J (Z.to_nat d) (lead_J J PJ KJ J1)) as L. replace (-1 * Z.of_nat (Z.to_nat d)) with (- d) in L by lia. apply (lead_coef _ _ _ L).
Qed.
(** Grouping the terms x^i y^j by i + p j. *)
Definition ee (t : mono) : Z := mx t + p * my t.
Definition gd (T : fsum) (d : Z) : Z := lin (fun t => if ee t =? d then 1 else 0) T.
Lemma lin_group h T l : NoDup l -> (forall t c, In (t, c) T -> In (ee t) l) -> lin (fun t => h (ee t)) T = sumZ (fun d => h d * gd T d) l.
Proof using.
  intros ND. induction T as [|[t c] T IH]; intros H.
  - cbn [lin]. symmetry. rewrite (sumZ_ext _ (fun _ => 0)); [rewrite sumZ_const; ring|]. intros d _. unfold gd. cbn [lin]. ring.
  - cbn [lin]. rewrite IH by (intros u d I; apply (H u d); right; exact I).
    rewrite (sumZ_ext (fun d => h d * gd ((t, c) :: T) d) (fun d => (if d =? ee t then c * h (ee t) else 0) + h d * gd T d)).
    + rewrite sumZ_add, sum_delta; [ring|exact ND|apply (H t c); left; reflexivity].
    + intros d _. unfold gd. cbn [lin]. rewrite (Z.eqb_sym (ee t) d). destruct (Z.eqb_spec d (ee t)); [subst d; ring|ring].
Qed.
Definition inshape (t : mono) : Prop := exists i j, t = xymono i j /\ ((0 <= i <= p /\ 0 <= j <= p) \/ (i = p + 1 /\ j = 0) \/ (i = 0 /\ j = p + 1)).
Lemma sterms_keys c : keysP inshape (sterms p false c).
Proof using.
  intros t d I. unfold sterms in I. apply in_app_or in I. destruct I as [I|I].
  - destruct I as [E|[E|[]]]; injection E as <- <-; [exists (p + 1), 0|exists 0, (p + 1)]; (split; [reflexivity|]); tauto.
  - apply in_flat_map in I. destruct I as ([i j] & I & X). apply in_conv_pairs in I. unfold stermsv in X. cbn [fst snd] in X. destruct X as [E|X].
    + injection E as <- <-. exists i, j. split; [reflexivity|]. lia.
    + destruct (i =? j); [destruct X|]. destruct X as [E|[]]. injection E as <- <-. exists j, i. split; [reflexivity|]. lia.
Qed.
Lemma ee_range t : 2 <= p -> inshape t -> 0 <= ee t <= p * p + p.
Proof using. intros H (i & j & -> & [C|[C|C]]); unfold ee, xymono; cbn [mx my]; nia. Qed.
Lemma subst_mod T k : keysP inshape T -> (p | coef (jsubst p T J) (qmono k) - lin (fun t => jc k (ee t)) T).
Proof using Pp PJ.
  intros HT. unfold jsubst, qmono. rewrite subst_coef; [|intros m c I; destruct (HT m c I) as (i & j & -> & _); reflexivity|exact PJ|apply fmap_qpower_pure, PJ].
  induction T as [|[t c] T IH]; [exists 0; reflexivity|]. cbn [lin].
  specialize (IH ltac:(intros u d I; apply (HT u d); right; exact I)). destruct IH as (k1 & IH).
  destruct (HT t c (or_introl eq_refl)) as (i & j & -> & C). change (ee (xymono i j)) with (i + p * j). unfold xymono. cbn [mx my mv var_eqb]. pose proof (prime_ge_2 p Pp).
  destruct (kap_mod k i j ltac:(lia) ltac:(lia)) as (k2 & X). unfold kap in X. exists (c * k2 + k1).
  match goal with |- c * ?a + ?b - (c * ?a' + ?b') = _ => replace (c * a + b - (c * a' + b')) with (c * (a - a') + (b - b')) by ring end. rewrite X, IH. ring.
Qed.
Lemma groups T : keysP inshape T -> (forall k, - (p * p + p) <= k <= 0 -> (p | coef (jsubst p T J) (qmono k))) -> forall d, 0 <= d -> (p | gd T d).
Proof using Pp PJ KJ J1.
  intros HT HZ. pose proof (prime_ge_2 p Pp) as G.
  assert (R: forall n d, 0 <= d -> p * p + p - Z.of_nat n < d -> (p | gd T d)).
  { induction n as [|n IH]; intros d Hd Hn.
    - unfold gd. rewrite (lin_ext_in _ (fun _ => 0)); [rewrite lin_zero; apply Z.divide_0_r|]. intros t c I. pose proof (ee_range t G (HT t c I)). destruct (Z.eqb_spec (ee t) d); [lia|reflexivity].
    - destruct (Z.lt_trichotomy (p * p + p) d) as [L|L]; [apply IH; lia|].
      pose proof (subst_mod T (- d) HT) as S1. pose proof (HZ (- d) ltac:(lia)) as S2.
      assert (S3: (p | lin (fun t => jc (- d) (ee t)) T)). { replace (lin (fun t => jc (- d) (ee t)) T) with (coef (jsubst p T J) (qmono (- d)) - (coef (jsubst p T J) (qmono (- d)) - lin (fun t => jc (- d) (ee t)) T)) by ring. apply Z.divide_sub_r; assumption. }
      rewrite (lin_group (jc (- d)) T (zrange 0 (p * p + p + 1))) in S3; [|apply NoDup_zrange|intros t c I; apply in_zrange; pose proof (ee_range t G (HT t c I)); lia].
      assert (S4: (p | sumZ (fun e => jc (- d) e * gd T e) (zrange 0 (p * p + p + 1)) - sumZ (fun e => if e =? d then gd T d else 0) (zrange 0 (p * p + p + 1)))).
      { apply sumZ_divide. intros e He. apply in_zrange in He. destruct (Z.eqb_spec e d) as [->|Ne]; [rewrite jc_at by lia; exists 0; ring|]. rewrite Z.sub_0_r.
        destruct (Z.lt_ge_cases e d) as [Lt|Ge]; [rewrite jc_below by lia; exists 0; ring|]. apply Z.divide_mul_r, IH; lia. }
      rewrite sum_delta in S4; [|apply NoDup_zrange|apply in_zrange; lia].
      replace (gd T d) with (sumZ (fun e => jc (- d) e * gd T e) (zrange 0 (p * p + p + 1)) - (sumZ (fun e => jc (- d) e * gd T e) (zrange 0 (p * p + p + 1)) - gd T d)) by ring. apply Z.divide_sub_r; assumption. }
  intros d Hd. apply (R (Z.to_nat (p * p + p + 1))); nia.
Qed.
Lemma groups_conv T : keysP inshape T -> (forall d, 0 <= d -> (p | gd T d)) -> forall k, (p | coef (jsubst p T J) (qmono k)).
Proof using Pp PJ.
  intros HT HZ k. pose proof (prime_ge_2 p Pp) as G. pose proof (subst_mod T k HT) as S1.
  assert (S2: (p | lin (fun t => jc k (ee t)) T)).
  { rewrite (lin_group (jc k) T (zrange 0 (p * p + p + 1))); [|apply NoDup_zrange|intros t c I; apply in_zrange; pose proof (ee_range t G (HT t c I)); lia].
    rewrite <- (Z.sub_0_r (sumZ _ _)). replace 0 with (sumZ (fun _ => 0) (zrange 0 (p * p + p + 1))) at 2 by (rewrite sumZ_const; ring). apply sumZ_divide. intros d Hd. apply in_zrange in Hd. rewrite Z.sub_0_r. apply Z.divide_mul_r, HZ. lia. }
  replace (coef (jsubst p T J) (qmono k)) with (coef (jsubst p T J) (qmono k) - lin (fun t => jc k (ee t)) T + lin (fun t => jc k (ee t)) T) by ring. apply Z.divide_add_r; assumption.
Qed.
Lemma gd_one T d m1 : keysP inshape T -> (forall t, inshape t -> ee t = d <-> t = m1) -> gd T d = coef T m1.
Proof using.
  intros HT H. unfold gd. rewrite coef_lin. apply lin_ext_in. intros t c I. pose proof (H t (HT t c I)) as X. unfold delta. destruct (Z.eqb_spec (ee t) d) as [E|E].
  - apply X in E. subst t. rewrite mono_eqb_refl. reflexivity.
  - rewrite mono_eqb_neq; [reflexivity|]. intros ->. tauto.
Qed.
Lemma gd_two T d m1 m2 : keysP inshape T -> m1 <> m2 -> (forall t, inshape t -> ee t = d <-> t = m1 \/ t = m2) -> gd T d = coef T m1 + coef T m2.
Proof using.
  intros HT N H. unfold gd. rewrite !coef_lin, <- lin_plus. apply lin_ext_in. intros t c I. pose proof (H t (HT t c I)) as X. unfold delta. destruct (Z.eqb_spec (ee t) d) as [E|E].
  - apply X in E. destruct E as [E|E]; subst t; rewrite mono_eqb_refl, mono_eqb_neq by congruence; reflexivity.
  - rewrite !mono_eqb_neq; [reflexivity| |]; intros ->; tauto.
Qed.
End K.
