(** Lemmas behind the property theorems C86-C88: Hasse's bound and the parity of the number of points. *)
From Coq Require Import Znumtheory ZifyBool.
From Verif Require Import Prelude M_Bigint M_Curve Spec SpecCurve P_Bigint P_Curve2 P_CurveProps P_SeaProps P_HasseZ.
Open Scope Z_scope.

Lemma card_zsols a b p E (Pp : prime p) : ec_new a b p = Ok E -> cardinality E = Z.of_nat (length (zsols a b p)) + 1.
Proof.
  intros HE. apply (c61_cardinality a b p E (zsols a b p) HE); [apply zsols_NoDup; exact Pp|]. intros x y. unfold curve_eqn. apply zsols_in. exact Pp.
Qed.
(** C86: the number of points differs from p + 1 by at most 2 sqrt p. *)
Lemma c86_hasse : forall a b p E, elliptic a b p -> ec_new a b p = Ok E -> (p + 1 - cardinality E) ^ 2 <= 4 * p.
Proof.
  intros a b p E (Pp & P2 & NS) HE. rewrite (card_zsols a b p E Pp HE). pose proof (hasse_Z Pp P2 NS) as H. nia.
Qed.
(** C86: the same, as an interval for cardinality(). *)
Lemma c86_interval : forall a b p E, elliptic a b p -> ec_new a b p = Ok E ->
  p + 1 - Z.sqrt (4 * p) <= cardinality E <= p + 1 + Z.sqrt (4 * p).
Proof.
  intros a b p E El HE. pose proof (c86_hasse a b p E El HE) as H. pose proof (prime_ge_2 p (proj1 El)).
  assert (A : Z.abs (p + 1 - cardinality E) <= Z.sqrt (4 * p)).
  { rewrite <- (Z.sqrt_square (Z.abs (p + 1 - cardinality E))) by lia. apply Z.sqrt_le_mono. nia. }
  lia.
Qed.
(** C86: for p >= 5 there is always a point other than the one at infinity. *)
Lemma c86_finite_point : forall a b p E, elliptic a b p -> 5 <= p -> ec_new a b p = Ok E ->
  exists P, In P (ec_points E) /\ is_infinity P = false.
Proof.
  intros a b p E El Hp HE. pose proof (c86_hasse a b p E El HE) as H.
  destruct (c61_points a b p E HE) as (_ & HP).
  assert (L : (2 <= length (zsols a b p) + 1)%nat).
  { rewrite (card_zsols a b p E (proj1 El) HE) in H. assert (Z.of_nat (length (zsols a b p)) + 1 <= 1 -> False) by nia. lia. }
  destruct (zsols a b p) as [|[x y] r] eqn:Z; [cbn in L; lia|].
  assert (I : In (x, y) (zsols a b p)) by (rewrite Z; left; reflexivity). apply (zsols_in _ _ (proj1 El)) in I.
  exists (mkPt x y 1). split; [|reflexivity]. apply HP. right. cbn. unfold curve_eqn. tauto.
Qed.
Example c86_case : elliptic 1 1 5 /\ exists E, ec_new 1 1 5 = Ok E /\ cardinality E = 9 /\ (5 + 1 - cardinality E) ^ 2 = 9.
Proof.
  split; [|destruct c61_case as (E & H1 & _ & H3); exists E; rewrite H3; auto].
  split; [|split; [lia|intros (k & Hk); cbn in Hk; lia]]. apply prime_intro; [lia|]. intros n Hn. assert (n = 1 \/ n = 2 \/ n = 3 \/ n = 4) as [->|[->|[->| ->]]] by lia; apply Zgcd_1_rel_prime; reflexivity.
Qed.

(** C87: the trace p + 1 - #E is the only integer t with t^2 <= 4 p in its residue class modulo any M with M^2 > 16 p. *)
Lemma trace_unique p t t' M : t ^ 2 <= 4 * p -> t' ^ 2 <= 4 * p -> 16 * p < M ^ 2 -> (M | t - t') -> t = t'.
Proof.
  intros H H' HM (k & Hk). destruct (Z.eq_dec k 0) as [->|N]; [lia|exfalso].
  assert (A : (t - t') ^ 2 <= 16 * p) by nia. rewrite Hk in A. assert (1 <= k ^ 2) by nia. nia.
Qed.
(** C87: counting points from residues of the trace (the last step of Schoof's algorithm): given the right residues modulo pairwise
    coprime l whose product exceeds 4 sqrt p, chinese_remainder returns a class that contains exactly one candidate within
    Hasse's bound, and it gives cardinality(). *)
Lemma c87_residues : forall a b p E v, elliptic a b p -> ec_new a b p = Ok E ->
  Forall (fun m => 0 < mr_l m) v -> ForallOrdPairs (fun m m' => rel_prime (mr_l m) (mr_l m')) v ->
  (forall m, In m v -> (mr_l m | (p + 1 - cardinality E) - mr_r m)) -> 16 * p < fold_right Z.mul 1 (map mr_l v) ^ 2 ->
  exists M r, chinese_remainder v = Ok (mkMod M r) /\
    (exists t, t ^ 2 <= 4 * p /\ (M | t - r)) /\
    forall t, t ^ 2 <= 4 * p -> (M | t - r) -> cardinality E = p + 1 - t.
Proof.
  intros a b p E v El HE Hv Hc Hr HM. destruct (crt_spec v Hv Hc) as (r & E1 & _ & U).
  exists (fold_right Z.mul 1 (map mr_l v)), r. pose proof (c86_hasse a b p E El HE) as H. pose proof (U _ Hr) as D. split; [exact E1|]. split; [eauto|].
  intros t Ht Dt. assert (t = p + 1 - cardinality E); [|lia]. apply (trace_unique p _ _ _ Ht H HM).
  replace (t - (p + 1 - cardinality E)) with ((t - r) - ((p + 1 - cardinality E) - r)) by ring. apply Z.divide_sub_r; assumption.
Qed.
(** C87: a single point of large order determines cardinality(): it is the only multiple of the order within Hasse's bound. *)
Lemma c87_large_order : forall a b p E P n fuel, elliptic a b p -> ec_new a b p = Ok E -> is_on_curve E P = Ok true ->
  point_order fuel E P = Ok n -> 16 * p < n ^ 2 ->
  forall N, (n | N) -> (p + 1 - N) ^ 2 <= 4 * p -> N = cardinality E.
Proof.
  intros a b p E P n fuel El HE HP HO Hn N DN HN. destruct (c63_lagrange a b p E P El HE HP) as (_ & L & _). specialize (L n fuel HO).
  pose proof (c86_hasse a b p E El HE) as H. assert (p + 1 - N = p + 1 - cardinality E); [|lia]. apply (trace_unique p _ _ n HN H Hn).
  replace (p + 1 - N - (p + 1 - cardinality E)) with (cardinality E - N) by ring. apply Z.divide_sub_r; assumption.
Qed.
(** C87: every order point_order returns lies within the upper end of Hasse's bound. *)
Lemma c87_order_bound : forall a b p E P n fuel, elliptic a b p -> ec_new a b p = Ok E -> is_on_curve E P = Ok true ->
  point_order fuel E P = Ok n -> 1 <= n <= p + 1 + Z.sqrt (4 * p).
Proof.
  intros a b p E P n fuel El HE HP HO. destruct (c63_lagrange a b p E P El HE HP) as (_ & L & _). specialize (L n fuel HO).
  destruct (c62_point_order a b p E P El (or_intror HE) HP) as (n' & (Hn & _) & _ & U). rewrite (U fuel n HO). rewrite (U fuel n HO) in L.
  pose proof (c86_interval a b p E El HE). assert (0 < cardinality E) by (rewrite (card_zsols a b p E (proj1 El) HE); lia).
  pose proof (Z.divide_pos_le _ _ H0 L). lia.
Qed.
Example c87_case : let v := [mkMod 2 1; mkMod 5 2] in
  (exists E, ec_new 1 1 5 = Ok E /\ forall m, In m v -> (mr_l m | (5 + 1 - cardinality E) - mr_r m)) /\
  16 * 5 < fold_right Z.mul 1 (map mr_l v) ^ 2 /\ chinese_remainder v = Ok (mkMod 10 (-3)) /\ (-3) ^ 2 <= 4 * 5.
Proof.
  cbv zeta. split; [|split; [reflexivity|split; [reflexivity|discriminate]]].
  destruct c61_case as (E & H1 & _ & H3). exists E. split; [exact H1|]. rewrite H3. intros m [<-|[<-|[]]]; [exists (-2); reflexivity|exists (-1); reflexivity].
Qed.
(** C88: on an elliptic curve cardinality() is even exactly when x^3 + a x + b has a root modulo p. *)
Lemma c88_parity : forall a b p E, elliptic a b p -> ec_new a b p = Ok E ->
  ((2 | cardinality E) <-> exists x, (p | x ^ 3 + a * x + b)).
Proof.
  intros a b p E El HE. pose proof (prime_ge_2 p (proj1 El)) as Hp. split.
  - intros D. destruct (Exists_dec (fun x => (p | x * x * x + a * x + b)) (zrange 0 p)) as [X|X]; [intros x; apply Zdivide_dec| |].
    + apply Exists_exists in X. destruct X as (x & _ & X). exists x. replace (x ^ 3) with (x * x * x) by ring. exact X.
    + exfalso. assert (V : (2 | Z.of_nat (length (zsols a b p)))).
      { apply (noroot_even (proj1 El) (proj1 (proj2 El)) (proj2 (proj2 El))). intros x Bx Dx. apply X, Exists_exists. exists x. split; [apply in_zrange; lia|exact Dx]. }
      rewrite (card_zsols a b p E (proj1 El) HE) in D. destruct D as (u & Hu), V as (w & Hw). lia.
  - intros (x & D). apply (root_even a b p (x mod p) E El HE); [apply Z.mod_pos_bound; lia|].
    pose proof (Z.div_mod x p ltac:(lia)) as Ex. destruct D as (k & Hk).
    exists (k - (x / p) * (x ^ 2 + x * (x mod p) + (x mod p) ^ 2 + a)). rewrite Z.mul_sub_distr_r, <- Hk.
    assert (Em : x mod p = x - p * (x / p)) by lia. rewrite Em. ring.
Qed.
Example c88_case : exists E, ec_new 1 1 5 = Ok E /\ cardinality E = 9 /\ (forall x, ~ (5 | x ^ 3 + 1 * x + 1)).
Proof.
  destruct c61_case as (E & H1 & _ & H3). exists E. split; [exact H1|]. split; [exact H3|]. intros x D.
  destruct c86_case as (El & _). pose proof (proj2 (c88_parity 1 1 5 E El H1) (ex_intro _ x D)) as (k & Hk). lia.
Qed.
