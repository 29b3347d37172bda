(** Counting the n-torsion points with the division polynomial. *)
From Coq Require Import Znumtheory ZifyBool.
From Verif Require Import Prelude M_Bigint M_Variable M_Term M_Poly M_DivPoly M_Curve Spec SpecCurve P_Bigint P_Variable P_FSum P_Poly P_Rem P_PolyProps P_Subst P_Subst2 P_Subst3 P_Mod P_Gcd P_Gcd2 P_Roots P_DivPoly P_DivProps P_Curve2 P_CurveProps P_MulProps.
Open Scope Z_scope.

(** At most two points of the curve above each x. *)
Lemma above_count a b p (A : list (Z * Z)) (X : list Z) : prime p -> NoDup A ->
  (forall x y, In (x, y) A -> 0 <= x < p /\ 0 <= y < p /\ curve_eqn a b p x y /\ In x X) -> (length A <= 2 * length X)%nat.
Proof.
  intros Pp NA HA. pose proof (prime_ge_2 p Pp) as P2. set (f := fun q : Z * Z => (fst q, 2 * snd q <? p)).
  rewrite <- (map_length f A). replace (2 * length X)%nat with (length (list_prod X [true; false])) by (rewrite prod_length; cbn; lia).
  apply NoDup_incl_length.
  - apply NoDup_map_inj_in; [|exact NA]. intros (x & y) (x' & y') I I' Ef. unfold f in Ef. cbn [fst snd] in Ef. assert (Eb : (2 * y <? p) = (2 * y' <? p)) by congruence. assert (x' = x) by congruence. subst x'.
    destruct (HA _ _ I) as (Hx & Hy & Q & _). destruct (HA _ _ I') as (_ & Hy' & Q' & _). unfold curve_eqn in *. f_equal.
    assert (D : (p | (y - y') * (y + y'))).
    { replace ((y - y') * (y + y')) with ((y * y - (x * x * x + a * x + b)) - (y' * y' - (x * x * x + a * x + b))) by ring. apply Z.divide_sub_r; assumption. }
    apply (prime_mult p Pp) in D. destruct D as [(k & D)|(k & D)].
    + assert (k = 0) by nia. lia.
    + assert (K : k = 0 \/ k = 1) by nia. destruct K as [-> | ->]; [clear - D Hy Hy'; lia|]. destruct (2 * y <? p) eqn:E1, (2 * y' <? p) eqn:E2; try discriminate. all: clear - D E1 E2 Hy Hy'; lia.
  - intros q Iq. apply in_map_iff in Iq as ((x & y) & <- & I). unfold f. cbn [fst snd]. apply in_prod; [apply (HA _ _ I)|]. destruct (2 * y <? p); cbn; auto.
Qed.
(** The x-part of y h(x). *)
Definition drop_y (a : fsum) : fsum := map (fun e => (mkMono (mx (fst e)) 0 0 None, snd e)) a.
Lemma drop_y_in a m c : In (m, c) (drop_y a) <-> exists m', In (m', c) a /\ m = mkMono (mx m') 0 0 None.
Proof.
  unfold drop_y. rewrite in_map_iff. split.
  - intros ((m' & c') & E & I). cbn in E. injection E as <- <-. exists m'. auto.
  - intros (m' & I & ->). exists (m', c). auto.
Qed.
Lemma drop_y_sorted a : sorted a -> (forall m c, In (m, c) a -> my m = 1 /\ mq m = 0 /\ mv m = None) -> sorted (drop_y a).
Proof.
  induction a as [|[m c] a IH]; intros Sa K; [exact I|]. destruct Sa as (L & Sa). split; [|apply IH; [exact Sa|intros m' c' Hi; apply (K m' c'); right; exact Hi]].
  intros m' c' Hi. fold (drop_y a) in Hi. apply drop_y_in in Hi as (m'' & Hi & ->). pose proof (L _ _ Hi) as C. destruct (K m c (or_introl eq_refl)) as (A1 & A2 & A3). destruct (K m'' c' (or_intror Hi)) as (B1 & B2 & B3).
  unfold mono_cmp in *. cbn [mx my mq mv fst]. rewrite A1, A2, A3, B1, B2, B3 in C. destruct (mx m <? mx m''); [reflexivity|]. destruct (mx m'' <? mx m); cbn in C; discriminate.
Qed.
Lemma drop_y_val a x y : (forall m c, In (m, c) a -> my m = 1) -> fval x y a = y * fval x 0 (drop_y a).
Proof.
  induction a as [|[m c] a IH]; intros K; cbn [drop_y map fval fst snd]; [ring|]. fold (drop_y a). rewrite IH by (intros m' c' Hi; apply (K m' c'); right; exact Hi).
  unfold mval. cbn [mx my]. rewrite (K m c (or_introl eq_refl)), Z.pow_1_r, Z.pow_0_r. ring.
Qed.
Lemma fval_only_x x y a : only_x a -> fval x y a = fval x 0 a.
Proof.
  induction a as [|[m c] a IH]; intros K; [reflexivity|]. cbn [fval]. rewrite IH by (intros m' c' Hi; apply (K m' c'); right; exact Hi).
  unfold mval. destruct (K m c (or_introl eq_refl)) as (_ & -> & _). rewrite !Z.pow_0_r. reflexivity.
Qed.
Lemma NoDup_fst_roots (A : list (Z * Z)) : exists X, NoDup X /\ forall x, In x X <-> exists y, In (x, y) A.
Proof.
  exists (nodup Z.eq_dec (map fst A)). split; [apply NoDup_nodup|]. intros x. rewrite nodup_In, in_map_iff. split.
  - intros ((u & v) & <- & I). exists v. exact I.
  - intros (y & I). exists (x, y). auto.
Qed.
Lemma torsion_count a b p E n (A : list (Z * Z)) : elliptic a b p -> ec_new a b p = Ok E -> 1 <= n <= 65534 -> ~ (p | n) -> NoDup A ->
  (forall x y, In (x, y) A -> on_curve a b p (Some (x, y)) /\ ec_mult a p (Some (x, y)) (Z.to_nat n) None) -> Z.of_nat (length A) + 1 <= n ^ 2.
Proof.
  intros HEl HE Hn Dn NA HA. pose proof HEl as (Pp & P2 & NS). pose proof (prime_ge_2 p Pp) as Hp2.
  assert (TV : forall x y, In (x, y) A -> exists r v, psi a b n = Ok r /\ eval_xy r x y = Ok v /\ (p | v)).
  { intros x y I. destruct (HA x y I) as ((Bx & By & Q) & M). destruct (c82_torsion a b p E (mkPt x y 1) n HEl (or_intror HE)) as (r & v & Er & Ev & T); [|reflexivity|exact Hn|].
    - destruct (is_on_curve_spec a b p E (mkPt x y 1) (ec_new_fields a b p E HE) ltac:(lia)) as (c & Ec & Hc). rewrite Ec. f_equal. apply Hc. right. exact Q.
    - exists r, v. split; [exact Er|]. split; [exact Ev|]. apply T. unfold affine. cbn [px py pz Z.eqb]. rewrite !Z.mod_small by assumption. exact M. }
  destruct (Z.odd n) eqn:Od.
  - destruct (c48_psi_odd a b n ltac:(lia) Od) as (r & Er & Sr & Or). destruct (c49_odd a b n r ltac:(lia) Od Er) as (Hr & _).
    destruct (NoDup_fst_roots A) as (X & NX & IX).
    assert (Nr : r <> []). { intros ->. apply (f_equal tc) in Hr. cbn in Hr. lia. }
    pose proof (root_count p r X Pp Sr Or Nr ltac:(right; rewrite Hr; exact Dn) NX) as L. rewrite Hr in L. cbn [tm mx] in L.
    pose proof (above_count a b p A X Pp NA) as L2. cut (Z.of_nat (length X) <= (n ^ 2 - 1) / 2 /\ (length A <= 2 * length X)%nat).
    { intros (U & V). pose proof (Z.mul_div_le (n ^ 2 - 1) 2 ltac:(lia)). lia. }
    split.
    + apply L. intros x Ix. apply IX in Ix as (y & I). destruct (HA x y I) as ((Bx & _) & _). split; [exact Bx|]. destruct (TV x y I) as (r' & v & Er' & Ev & D). assert (r' = r) by congruence. subst r'.
      rewrite eval_xy_spec in Ev by (apply only_x_nonneg, Or). assert (Ev' : fval x y r = v) by congruence. rewrite <- Ev' in D. rewrite <- (fval_only_x x y r Or). exact D.
    + apply L2. intros x y I. destruct (HA x y I) as ((Bx & By & Q) & _). split; [exact Bx|]. split; [exact By|]. split; [exact Q|]. apply IX. exists y. exact I.
  - assert (N2 : 2 <= n) by (destruct (Z.eq_dec n 1) as [-> | ]; [discriminate|lia]).
    destruct (c48_psi_even a b n ltac:(lia) Od) as (r & g & Er & Sr & Kr & _). destruct (c49_even a b n r ltac:(lia) Od Er) as (Hr & Mr & _).
    assert (Nr : r <> []). { intros ->. apply (f_equal tc) in Hr. cbn in Hr. lia. }
    set (h := drop_y r). assert (Sh : sorted h) by (apply drop_y_sorted; [exact Sr|intros m c Hi; apply (Kr m c Hi)]).
    assert (Oh : only_x h). { intros m c Hi. apply drop_y_in in Hi as (m' & Hi & ->). cbn. destruct (Kr _ _ Hi). auto. }
    set (D := (n ^ 2 - 4) / 2) in *.
    assert (Ih : In (mkMono D 0 0 None, n) h). { apply drop_y_in. exists (mkMono D 1 0 None). split; [|reflexivity]. destruct (highest_spec r Sr Nr) as (X & _). rewrite Hr in X. exact X. }
    assert (Nh : h <> []) by (intros E0; rewrite E0 in Ih; destruct Ih).
    assert (Hh : highest_term_x h = mkTerm n (mkMono D 0 0 None)).
    { destruct (highest_spec h Sh Nh) as (X & _ & Y). pose proof (Y _ _ Ih) as Z1. cbn [mx] in Z1. pose proof X as X0. apply drop_y_in in X as (m' & X & Em). pose proof (Mr _ _ X) as Z2.
      assert (Em2 : tm (highest_term_x h) = mkMono D 0 0 None) by (rewrite Em in *; cbn [mx] in Z1; f_equal; lia).
      rewrite Em2 in X0. pose proof (sorted_unique h _ _ _ Sh X0 Ih). destruct (highest_term_x h); cbn in *. congruence. }
    set (A0 := filter (fun q => snd q =? 0) A). set (A1 := filter (fun q => negb (snd q =? 0)) A).
    assert (SPL : (length A = length A0 + length A1)%nat). { unfold A0, A1. clear. induction A as [|q A IH]; [reflexivity|]. cbn [filter length]. destruct (snd q =? 0); cbn [negb length]; lia. }
    assert (C0 : (length A0 <= 3)%nat).
    { destruct (NoDup_fst_roots A0) as (X & NX & IX). rewrite <- (map_length fst A0).
      assert (L0 : (length (map fst A0) <= length X)%nat).
      { apply NoDup_incl_length; [|intros x Ix; apply IX; apply in_map_iff in Ix as ((u & v) & <- & I); exists v; exact I].
        apply NoDup_map_inj_in; [|apply NoDup_filter, NA]. intros (x & y) (x' & y') I I' Ef. cbn in Ef. apply filter_In in I as (_ & I). apply filter_In in I' as (_ & I'). cbn [snd] in *. f_equal; lia. }
      pose proof (root_count p (weierstrass a b) X Pp (weierstrass_sorted a b) (weierstrass_only_x a b)) as L.
      assert (NW : weierstrass a b <> []) by (intros E0; pose proof (weierstrass_highest a b) as W; rewrite E0 in W; discriminate). specialize (L NW (weierstrass_ulead a b p ltac:(lia)) NX). rewrite weierstrass_highest in L. cbn [tm mx] in L.
      enough (Z.of_nat (length X) <= 3) by lia. apply L. intros x Ix. apply IX in Ix as (y & I). apply filter_In in I as (I & Y). cbn [snd] in Y. destruct (HA x y I) as ((Bx & By & Q) & _). split; [exact Bx|].
      rewrite (fval_feq x 0 _ _ (weierstrass_feq a b)). rewrite fval_fweier. assert (y = 0) by lia. subst y. unfold curve_eqn in Q. apply Z.divide_opp_r. replace (- (x ^ 3 + a * x + b)) with (0 * 0 - (x * x * x + a * x + b)) by ring. exact Q. }
    assert (C1 : Z.of_nat (length A1) <= 2 * D).
    { destruct (NoDup_fst_roots A1) as (X & NX & IX).
      pose proof (root_count p h X Pp Sh Oh Nh ltac:(right; rewrite Hh; exact Dn) NX) as L. rewrite Hh in L. cbn [tm mx] in L.
      pose proof (above_count a b p A1 X Pp ltac:(apply NoDup_filter, NA)) as L2. cut (Z.of_nat (length X) <= D /\ (length A1 <= 2 * length X)%nat); [lia|].
      split.
      - apply L. intros x Ix. apply IX in Ix as (y & I). apply filter_In in I as (I & Y). cbn [snd] in Y. destruct (HA x y I) as ((Bx & By & _) & _). split; [exact Bx|]. destruct (TV x y I) as (r' & v & Er' & Ev & Dv). assert (r' = r) by congruence. subst r'.
        rewrite eval_xy_spec in Ev by (intros m c Hi; destruct (Kr m c Hi) as (U & V & _); lia). assert (Ev' : fval x y r = v) by congruence. rewrite <- Ev' in Dv.
        rewrite (drop_y_val r x y) in Dv by (intros m c Hi; apply (Kr m c Hi)). apply (prime_mult p Pp) in Dv. destruct Dv as [(k & Dv)|Dv]; [|exact Dv]. exfalso. assert (k = 0) by nia. lia.
      - apply L2. intros x y I. pose proof I as I1. apply filter_In in I as (I & _). destruct (HA x y I) as ((Bx & By & Q) & _). split; [exact Bx|]. split; [exact By|]. split; [exact Q|]. apply IX. exists y. exact I1. }
    assert (2 * D <= n ^ 2 - 4) by (unfold D; apply Z.mul_div_le; lia). lia.
Qed.
