(** Lemmas for C97 (reduction_modular decides equality of functions on the curve) and C98 (to_frob is the Frobenius map). *)
From Coq Require Import Znumtheory ZifyBool Setoid Morphisms Ring.
From Verif Require Import Prelude M_Bigint M_Variable M_Term M_Poly Spec P_Bigint P_Variable P_FSum P_Poly P_Rem P_PolyProps P_Subst P_Subst2 P_Subst3 P_SubstProps P_Binom.
Open Scope Z_scope.

Lemma list_max {A} (P : A -> Prop) (f : A -> Z) (L : list A) : (forall x, In x L -> P x \/ ~ P x) -> (exists x, In x L /\ P x) ->
  exists x, In x L /\ P x /\ forall y, In y L -> P y -> f y <= f x.
Proof.
  induction L as [|z L IH]; intros D (x & I & Hx); [destruct I|]. destruct (D z (or_introl eq_refl)) as [Hz|Hz].
  - assert (E0 : (exists w, In w L /\ P w) \/ ~ exists w, In w L /\ P w).
    { clear IH I Hx Hz. induction L as [|w L IH]; [right; intros (w & [] & _)|]. destruct (D w (or_intror (or_introl eq_refl))) as [Hw|Hw]; [left; exists w; split; [left; reflexivity|exact Hw]|].
      destruct IH as [(v & Iv & Hv)|N]; [intros v [->|Iv]; apply D; [left; reflexivity|right; right; exact Iv]|left; exists v; split; [right; exact Iv|exact Hv]|].
      right. intros (v & [->|Iv] & Hv); [contradiction|]. apply N. eauto. }
    destruct E0 as [E|E].
    + apply IH in E; [|intros; apply D; right; assumption]. destruct E as (w & Iw & Hw & M). destruct (Z_le_gt_dec (f w) (f z)).
      * exists z. split; [left; reflexivity|]. split; [exact Hz|]. intros y [<-|Iy] Hy; [lia|]. pose proof (M y Iy Hy). lia.
      * exists w. split; [right; exact Iw|]. split; [exact Hw|]. intros y [<-|Iy] Hy; [lia|]. exact (M y Iy Hy).
    + exists z. split; [left; reflexivity|]. split; [exact Hz|]. intros y [<-|Iy] Hy; [lia|]. exfalso. apply E. eauto.
  - destruct IH as (w & Iw & Hw & M); [intros; apply D; right; assumption| |].
    + destruct I as [<-|I]; [contradiction|eauto].
    + exists w. split; [right; exact Iw|]. split; [exact Hw|]. intros y [<-|Iy] Hy; [contradiction|]. exact (M y Iy Hy).
Qed.

(** Shifting a monomial by x^i y^j. *)
Definition shift (i j : Z) (m : mono) : mono := mkMono (mx m + i) (my m + j) (mq m) (mv m).
Lemma coef_shift c i j k m : coef (conv [(mkMono i j 0 None, c)] k) m = c * coef k (shift (- i) (- j) m).
Proof.
  cbn [conv flat_map fst snd]. rewrite app_nil_r. induction k as [|(n, d) k IH]; [cbn; ring|]. cbn [map coef fst snd]. rewrite IH.
  assert (E : mono_eqb (mmul (mkMono i j 0 None) n) m = mono_eqb n (shift (- i) (- j) m)).
  { apply Bool.eq_iff_eq_true. rewrite !mono_eqb_eq. unfold mmul, shift. cbn [mx my mq mv vmul]. split; intros H.
    - subst m. cbn [mx my mq mv]. destruct n as [nx ny nq nv]. cbn [mx my mq mv]. f_equal; lia.
    - subst n. destruct m as [nx ny nq nv]. cbn [mx my mq mv]. f_equal; lia. }
  rewrite E. destruct (mono_eqb n _); ring.
Qed.
Lemma coef_curve a b k m : coef (conv (fcurve a b) k) m =
  coef k (shift 0 (-2) m) - coef k (shift (-3) 0 m) - a * coef k (shift (-1) 0 m) - b * coef k m.
Proof.
  assert (F : feq (conv (fcurve a b) k) (fadd (conv [(mkMono 0 2 0 None, 1)] k) (fadd (conv [(mkMono 3 0 0 None, -1)] k) (fadd (conv [(mkMono 1 0 0 None, - a)] k) (conv [(mkMono 0 0 0 None, - b)] k))))).
  { unfold fcurve, fweier. cbn [fneg map fst snd]. change (mone) with (mkMono 0 0 0 None).
    transitivity (conv (fadd [(mkMono 0 2 0 None, 1)] (fadd [(mkMono 3 0 0 None, -1)] (fadd [(mkMono 1 0 0 None, - a)] [(mkMono 0 0 0 None, - b)]))) k); [reflexivity|]. rewrite !conv_add_l. reflexivity. }
  rewrite F. unfold fadd. rewrite !coef_app, !coef_shift.
  replace (shift (- 0) (- 0) m) with m by (destruct m; unfold shift; cbn; f_equal; lia). change (- 0) with 0. change (- (2)) with (-2). change (- (3)) with (-3). change (- (1)) with (-1). ring.
Qed.
(** A multiple of y^2 - (x^3 + a x + b) whose y-degree lies in {0, 1} vanishes (modulo any n, 0 included). *)
Lemma curve_multiple n a b k u : feqm n u (conv (fcurve a b) k) -> (forall m c, In (m, c) u -> 0 <= my m <= 1) -> feqm n u [].
Proof.
  intros F Y. assert (U : forall m, my m < 0 \/ 1 < my m -> (n | coef (conv (fcurve a b) k) m)).
  { intros m Hm. assert (E : coef u m = 0). { destruct (Z.eq_dec (coef u m) 0) as [E|E]; [exact E|]. apply coef_in in E as (c & I). apply Y in I. lia. }
    specialize (F m). rewrite E in F. apply Z.divide_opp_r. replace (- coef (conv (fcurve a b) k) m) with (0 - coef (conv (fcurve a b) k) m) by ring. exact F. }
  assert (K : forall m, (n | coef k m)).
  { set (P := fun e : mono * Z => ~ (n | coef k (fst e))).
    assert (D : forall L : list (mono * Z), forall e, In e L -> P e \/ ~ P e) by (intros L e _; unfold P; destruct (Zdivide_dec n (coef k (fst e))); tauto).
    assert (IN : forall m, ~ (n | coef k m) -> exists c, In (m, c) k).
    { intros m Hm. apply coef_in. intros E. apply Hm. rewrite E. apply Z.divide_0_r. }
    intros m. destruct (Zdivide_dec n (coef k m)) as [|N]; [assumption|]. exfalso.
    assert (X : exists e, In e k /\ P e) by (destruct (IN m N) as (c & I); exists (m, c); split; [exact I|exact N]).
    (* the largest y-degree, then any monomial there *)
    destruct (list_max P (fun e => my (fst e)) k (D k) X) as ((m1, c1) & I1 & N1 & M1). cbn [fst] in M1. unfold P in N1. cbn [fst] in N1.
    assert (Y1 : my m1 < 0).
    { destruct (Z_lt_le_dec (my m1) 0) as [|G]; [assumption|]. exfalso. apply N1. specialize (U (shift 0 2 m1)). cbn [my shift] in U. specialize (U ltac:(lia)). rewrite coef_curve in U.
      assert (Z0 : forall i, (n | coef k (shift i 0 (shift 0 2 m1)))).
      { intros i. destruct (Zdivide_dec n (coef k (shift i 0 (shift 0 2 m1)))) as [|N2]; [assumption|]. exfalso. destruct (IN _ N2) as (c & I2). pose proof (M1 _ I2 N2) as L. cbn [fst shift my] in L. lia. }
      replace (shift 0 (-2) (shift 0 2 m1)) with m1 in U by (destruct m1; unfold shift; cbn; f_equal; lia).
      pose proof (Z0 0) as Z3. replace (shift 0 0 (shift 0 2 m1)) with (shift 0 2 m1) in Z3 by (unfold shift; cbn; f_equal; lia).
      replace (coef k m1) with (coef k m1 - coef k (shift (-3) 0 (shift 0 2 m1)) - a * coef k (shift (-1) 0 (shift 0 2 m1)) - b * coef k (shift 0 2 m1) + (coef k (shift (-3) 0 (shift 0 2 m1)) + a * coef k (shift (-1) 0 (shift 0 2 m1)) + b * coef k (shift 0 2 m1))) by ring.
      apply Z.divide_add_r; [exact U|]. apply Z.divide_add_r; [apply Z.divide_add_r; [apply Z0|apply Z.divide_mul_r, Z0]|apply Z.divide_mul_r, Z3]. }
    (* the smallest y-degree, and there the largest x-degree *)
    destruct (list_max P (fun e => - my (fst e)) k (D k) X) as ((m2, c2) & I2 & N2 & M2). cbn [fst] in M2. unfold P in N2. cbn [fst] in N2.
    set (Q := fun e : mono * Z => P e /\ my (fst e) = my m2).
    destruct (list_max Q (fun e => mx (fst e)) k) as ((m3, c3) & I3 & (N3 & E3) & M3).
    { intros e Ie. unfold Q. destruct (D k e Ie); [|tauto]. destruct (Z.eq_dec (my (fst e)) (my m2)); tauto. }
    { exists (m2, c2). split; [exact I2|]. split; [exact N2|reflexivity]. }
    cbn [fst] in E3, M3. unfold P in N3. cbn [fst] in N3. apply N3. pose proof (M2 _ I1 N1) as L12. cbn [fst] in L12. specialize (U (shift 3 0 m3)). cbn [my shift] in U. specialize (U ltac:(lia)). rewrite coef_curve in U.
    replace (shift (-3) 0 (shift 3 0 m3)) with m3 in U by (destruct m3; unfold shift; cbn; f_equal; lia).
    assert (ZY : (n | coef k (shift 0 (-2) (shift 3 0 m3)))).
    { destruct (Zdivide_dec n (coef k (shift 0 (-2) (shift 3 0 m3)))) as [|N4]; [assumption|]. exfalso. destruct (IN _ N4) as (c & I4). pose proof (M2 _ I4 N4) as L. cbn [fst shift my] in L. lia. }
    assert (ZX : forall i, 0 < i -> (n | coef k (shift i 0 m3))).
    { intros i Hi. destruct (Zdivide_dec n (coef k (shift i 0 m3))) as [|N4]; [assumption|]. exfalso. destruct (IN _ N4) as (c & I4).
      assert (Q4 : Q (shift i 0 m3, c)) by (split; [exact N4|cbn [fst shift my]; lia]). pose proof (M3 _ I4 Q4) as L. cbn [fst shift mx] in L. lia. }
    replace (shift (-1) 0 (shift 3 0 m3)) with (shift 2 0 m3) in U by (destruct m3; unfold shift; cbn; f_equal; lia).
    set (A := coef k (shift 0 (-2) (shift 3 0 m3))) in *.
    replace (coef k m3) with (A - a * coef k (shift 2 0 m3) - b * coef k (shift 3 0 m3) - (A - coef k m3 - a * coef k (shift 2 0 m3) - b * coef k (shift 3 0 m3))) by ring.
    apply Z.divide_sub_r; [|exact U]. apply Z.divide_sub_r; [apply Z.divide_sub_r|]; try exact ZY; apply Z.divide_mul_r, ZX; lia. }
  intros m. specialize (F m). cbn [coef]. rewrite Z.sub_0_r. rewrite coef_curve in F.
  set (B := coef k (shift 0 (-2) m) - coef k (shift (-3) 0 m) - a * coef k (shift (-1) 0 m) - b * coef k m) in *. replace (coef u m) with (coef u m - B + B) by ring. apply Z.divide_add_r; [exact F|].
  unfold B. repeat apply Z.divide_sub_r; try apply Z.divide_mul_r; apply K.
Qed.
Lemma cong_refl n g u : cong_ideal n g u u.
Proof. exists []. apply feq_feqm. ring. Qed.
Lemma cong_sym n g u v : cong_ideal n g u v -> cong_ideal n g v u.
Proof. intros (k & F). exists (fneg k). rewrite F. apply feq_feqm. ring. Qed.
Lemma cong_trans n g u v w : cong_ideal n g u v -> cong_ideal n g v w -> cong_ideal n g u w.
Proof. intros (k & F) (l & G). exists (fadd k l). rewrite F, G. apply feq_feqm. ring. Qed.
Lemma feqm_cong n g u v : feqm n u v -> cong_ideal n g u v.
Proof. intros F. exists []. rewrite F. apply feq_feqm. ring. Qed.
Lemma cong_unique n a b u v : cong_ideal n (fcurve a b) u v -> (forall m c, In (m, c) u -> 0 <= my m <= 1) -> (forall m c, In (m, c) v -> 0 <= my m <= 1) -> feqm n u v.
Proof.
  intros (k & F) Hu Hv. assert (Z : feqm n (fsub u v) []).
  { apply (curve_multiple n a b k); [rewrite F; apply feq_feqm; ring|]. intros m c I. unfold fsub, fneg in I. apply in_app_iff in I as [I|I]; [exact (Hu m c I)|]. apply in_map_iff in I as ((m', c') & E & I). cbn [fst snd] in E. injection E; intros; subst. exact (Hv _ _ I). }
  transitivity (fadd (fsub u v) v); [apply feq_feqm; ring|]. rewrite Z. reflexivity.
Qed.
Lemma redmod_inv f a b p r : 0 < p -> (forall m c, In (m, c) f -> red_room m) -> reduction_modular f a b p = Ok r ->
  sorted r /\ reduced p r /\ (forall m c, In (m, c) r -> 0 <= my m <= 1) /\ cong_ideal p (fcurve a b) r f.
Proof.
  intros Hp R H. destruct (c32_reduction f a b R) as (r0 & E & Sr & Ky). assert (Hi : i32_poly f) by (intros m c I; apply (R m c I)).
  rewrite (c33_reduction_modular f a b p r0 Hp Hi E), p_rem_eq in H by assumption. assert (redp p r0 = r) as <- by congruence.
  split; [apply redp_sorted, Sr|]. split; [apply redp_reduced, Hp|]. split; [apply (redp_keys (fun m => 0 <= my m <= 1)); exact Ky|].
  destruct (c32_reduction_ideal f a b r0 Hi E) as (k & F). exists k. transitivity r0; [|apply feq_feqm, F].
  apply (redp_ext p (redp p r0) r0 Hp (redp_sorted p r0 Sr) Sr). apply redp_id; auto using redp_sorted, redp_reduced.
Qed.
(** C97: two polynomials have the same reduction_modular exactly when they are congruent modulo p and modulo y^2 - (x^3 + a x + b). *)
Lemma c97_decides : forall f g a b p r s, 0 < p -> (forall m c, In (m, c) f -> red_room m) -> (forall m c, In (m, c) g -> red_room m) ->
  reduction_modular f a b p = Ok r -> reduction_modular g a b p = Ok s -> (r = s <-> cong_ideal p (fcurve a b) f g).
Proof.
  intros f g a b p r s Hp Rf Rg Hf Hg. destruct (redmod_inv f a b p r Hp Rf Hf) as (S1 & D1 & Y1 & C1), (redmod_inv g a b p s Hp Rg Hg) as (S2 & D2 & Y2 & C2). split.
  - intros ->. exact (cong_trans _ _ _ _ _ (cong_sym _ _ _ _ C1) C2).
  - intros C. rewrite <- (redp_id p r), <- (redp_id p s) by assumption. apply redp_ext; try assumption. apply (cong_unique p a b); try assumption.
    exact (cong_trans _ _ _ _ _ C1 (cong_trans _ _ _ _ _ C (cong_sym _ _ _ _ C2))).
Qed.
(** C97: the reduction is the only reduced polynomial of y-degree at most 1 congruent to the argument. *)
Lemma c97_unique : forall f a b p r u, 0 < p -> (forall m c, In (m, c) f -> red_room m) -> reduction_modular f a b p = Ok r ->
  (sorted u /\ reduced p u /\ (forall m c, In (m, c) u -> 0 <= my m <= 1) /\ cong_ideal p (fcurve a b) u f <-> u = r).
Proof.
  intros f a b p r u Hp Rf Hf. pose proof (redmod_inv f a b p r Hp Rf Hf) as RI. split; [|intros ->; exact RI].
  intros (S & D & Y & C). destruct RI as (S1 & D1 & Y1 & C1). rewrite <- (redp_id p u), <- (redp_id p r) by assumption. apply redp_ext; try assumption. apply (cong_unique p a b); try assumption.
  exact (cong_trans _ _ _ _ _ C (cong_sym _ _ _ _ C1)).
Qed.
(** C97: the same for reduction (integer coefficients), compared coefficientwise. *)
Lemma c97_exact : forall f g a b r s, (forall m c, In (m, c) f -> red_room m) -> (forall m c, In (m, c) g -> red_room m) ->
  reduction f a b = Ok r -> reduction g a b = Ok s -> (feq r s <-> cong_ideal 0 (fcurve a b) f g).
Proof.
  intros f g a b r s Rf Rg Hf Hg. assert (If : i32_poly f) by (intros m c I; apply (Rf m c I)). assert (Ig : i32_poly g) by (intros m c I; apply (Rg m c I)).
  destruct (c32_reduction_ideal f a b r If Hf) as (k & F), (c32_reduction_ideal g a b s Ig Hg) as (l & G).
  destruct (c32_reduction f a b Rf) as (r' & E & _ & Y1), (c32_reduction g a b Rg) as (s' & E' & _ & Y2). rewrite Hf in E. rewrite Hg in E'. assert (r' = r) as -> by congruence. assert (s' = s) as -> by congruence.
  assert (C1 : cong_ideal 0 (fcurve a b) r f) by (exists k; apply feqm_0, F). assert (C2 : cong_ideal 0 (fcurve a b) s g) by (exists l; apply feqm_0, G). split.
  - intros H. apply (cong_trans _ _ _ _ _ (cong_sym _ _ _ _ C1)). apply (cong_trans _ _ _ _ _ (feqm_cong 0 _ r s (feq_feqm 0 _ _ H))). exact C2.
  - intros C. apply feqm_0, (cong_unique 0 a b); try assumption. exact (cong_trans _ _ _ _ _ C1 (cong_trans _ _ _ _ _ C (cong_sym _ _ _ _ C2))).
Qed.
Example c97_case : reduction_modular [(mkMono 0 4 0 None, 1)] 1 1 5 = reduction_modular [(mkMono 0 2 0 None, 1); (mkMono 1 2 0 None, 1); (mkMono 3 2 0 None, 1)] 1 1 5 /\
  red_room (mkMono 0 4 0 None) /\ red_room (mkMono 3 2 0 None).
Proof. split; [vm_compute; reflexivity|]. unfold red_room, i32_mono, i32_range, i32_min, i32_max. cbn. lia. Qed.

(** C98. *)
Lemma fmap_id_frob1 a : fmap (frob 1) a = a.
Proof. induction a as [|(m, c) a IH]; [reflexivity|]. cbn [fmap map fst snd] in *. unfold fmap in IH. rewrite IH. f_equal. f_equal. destruct m; unfold frob; cbn. f_equal; lia. Qed.
Lemma fmap_frob_frob i j a : fmap (frob i) (fmap (frob j) a) = fmap (frob (j * i)) a.
Proof. unfold fmap. rewrite map_map. apply map_ext. intros (m, c). cbn [fst snd]. f_equal. destruct m; unfold frob; cbn. f_equal; ring. Qed.
Lemma frobenius_power p k a : prime p -> 0 <= k -> xy a -> feqm p (fpow a (Z.to_nat (p ^ k))) (fmap (frob (p ^ k)) a).
Proof.
  intros Pp Hk Ha. pose proof (prime_ge_2 p Pp). revert k Hk. apply (natlike_ind (fun k => feqm p (fpow a (Z.to_nat (p ^ k))) (fmap (frob (p ^ k)) a))).
  - rewrite Z.pow_0_r, fmap_id_frob1. apply feq_feqm, fpow_1.
  - intros k Hk IH. rewrite Z.pow_succ_r by exact Hk. pose proof (Z.pow_pos_nonneg p k ltac:(lia) Hk). rewrite Z.mul_comm, Z2Nat.inj_mul by lia. rewrite (feq_feqm p _ _ (fpow_mul a _ _)).
    rewrite (fpow_proper p (Z.to_nat p) _ _ IH). rewrite frobenius; [rewrite fmap_frob_frob; reflexivity|exact Pp|].
    intros m c I. apply fmap_in in I as (m' & I & ->). exact (Ha _ _ I).
Qed.
Lemma to_frob_inv a n r : sorted a -> 1 <= n -> to_frob a n = Ok r -> sorted r /\ forall m c, In (m, c) r <-> In (m, c) (fmap (frob n) a).
Proof.
  intros Hs Hn H. assert (R: forall m c, In (m, c) a -> i32_range (mx m * n) /\ i32_range (my m * n)).
  { refine (sub_inv (fun e => term_to_frob (mkTerm (snd e) (fst e)) n) (frob n) _ _ a _ _ H).
    intros m c t E. unfold term_to_frob in E. cbn [tm tc fst snd] in E. apply bind_Ok in E. destruct E as (x & Ex & E). apply bind_Ok in E. destruct E as (y & Ey & _).
    apply i32_inv in Ex. apply i32_inv in Ey. unfold i32_range. tauto. }
  destruct (to_frob_spec a n Hs) as (r' & E & S1 & M & F); [intros m c m' c' _ _ E'; apply (frob_inj n); [lia|exact E']|exact R|]. assert (r' = r) as -> by congruence. split; assumption.
Qed.
(** C98: for polynomials in x and y, power_modulo(q, p) with q a power of the prime p is to_frob(q) % p. *)
Lemma c98_frobenius : forall a p k c r, prime p -> 0 <= k -> sorted a -> (forall m d, In (m, d) a -> mq m = 0 /\ mv m = None) ->
  p_power_modulo a (p ^ k) p = Ok c -> to_frob a (p ^ k) = Ok r -> p_rem r p = Ok c.
Proof.
  intros a p k c r Pp Hk Sa Ha Hc Hr. pose proof (prime_ge_2 p Pp). pose proof (Z.pow_pos_nonneg p k ltac:(lia) Hk).
  destruct (p_power_modulo_spec a (p ^ k) p c ltac:(lia) ltac:(lia) Sa Hc) as (Sc & Rc & Fc). pose proof (to_frob_Ok a (p ^ k) r Sa ltac:(lia) Hr) as Fr.
  assert (Sr : sorted r) by exact (proj1 (to_frob_inv a (p ^ k) r Sa ltac:(lia) Hr)).
  rewrite p_rem_eq by (try lia; exact Sr). f_equal. rewrite <- (redp_id p c) by (try lia; assumption). apply redp_ext; try lia; try assumption.
  rewrite Fc, (feq_feqm p _ _ Fr). symmetry. apply frobenius_power; assumption.
Qed.
(** C98: both calls return whenever q times the exponents fits i32. *)
Lemma c98_returns : forall a n p B, 0 < p -> 1 <= n -> 0 <= B -> n * B <= i32_max -> sorted a ->
  (forall m d, In (m, d) a -> Z.abs (mx m) <= B /\ Z.abs (my m) <= B /\ mq m = 0 /\ mv m = None) ->
  (exists c, p_power_modulo a n p = Ok c) /\ exists r, to_frob a n = Ok r.
Proof.
  intros a n p B Hp Hn HB HM Sa H. split.
  - destruct (c19_power_returns a n B) as (c & Hc); [lia|lia|exact HM| |].
    + intros m d I. destruct (H m d I) as (X & Y & Q & V). rewrite Q. repeat split; try assumption; lia.
    + rewrite (c21_power_modulo a n p c Hp Hn Sa Hc). rewrite p_rem_eq; [eauto|exact Hp|]. apply (c19_power a n c Sa). left; exact Hc.
  - destruct (c30_to_frob a n Sa Hn) as (r & E & _); [|eauto]. intros m c I. destruct (H m c I) as (X & Y & _). unfold i32_range, i32_min, i32_max in *. split; nia.
Qed.
Lemma fermat_power p c k : prime p -> 0 <= k -> (p | c ^ (p ^ k) - c).
Proof.
  intros Pp Hk. pose proof (prime_ge_2 p Pp). revert k Hk. apply natlike_ind.
  - rewrite Z.pow_0_r, Z.pow_1_r, Z.sub_diag. apply Z.divide_0_r.
  - intros k Hk IH. rewrite Z.pow_succ_r by exact Hk. rewrite (Z.mul_comm p). pose proof (Z.pow_nonneg p k ltac:(lia)). rewrite Z.pow_mul_r by lia. replace ((c ^ p ^ k) ^ p - c) with ((c ^ p ^ k) ^ p - c ^ p ^ k + (c ^ p ^ k - c)) by ring. apply Z.divide_add_r; [apply fermat_full, Pp|exact IH].
Qed.
(** C98: to_frob(q) does not change the values modulo p. *)
Lemma c98_value : forall a p k r x y u v, prime p -> 0 <= k -> sorted a -> nonneg_xy a -> (forall m d, In (m, d) a -> mq m = 0 /\ mv m = None) -> to_frob a (p ^ k) = Ok r ->
  eval_xy a x y = Ok u -> eval_xy r x y = Ok v -> (p | v - u).
Proof.
  intros a p k r x y u v Pp Hk Sa Na Ha Hr Hu Hv. pose proof (prime_ge_2 p Pp). pose proof (Z.pow_pos_nonneg p k ltac:(lia) Hk).
  destruct (to_frob_inv a (p ^ k) r Sa ltac:(lia) Hr) as (Sr & Mr).
  assert (Nr : nonneg_xy r). { intros m c I. apply Mr, fmap_in in I as (m' & I & ->). destruct (Na _ _ I). unfold frob; cbn [mx my]. nia. }
  rewrite c34_eval_xy in Hu, Hv by assumption. assert (fval x y a = u) as <- by congruence. assert (fval x y r = v) as <- by congruence.
  pose proof (to_frob_Ok a (p ^ k) r Sa ltac:(lia) Hr) as Fr. pose proof (frobenius_power p k a Pp Hk Ha) as FP. rewrite <- (feq_feqm p _ _ Fr) in FP.
  pose proof (fval_feqm p x y _ _ FP) as D. rewrite fval_fpow in D by exact Na. rewrite Z2Nat.id in D by lia. pose proof (fermat_power p (fval x y a) k Pp Hk) as D2.
  replace (fval x y r - fval x y a) with (fval x y a ^ (p ^ k) - fval x y a - (fval x y a ^ (p ^ k) - fval x y r)) by ring. apply Z.divide_sub_r; assumption.
Qed.
Lemma cong_fpow p g u v : prime p -> cong_ideal p g u v -> cong_ideal p g (fpow u (Z.to_nat p)) (fpow v (Z.to_nat p)).
Proof.
  intros Pp (k & F). pose proof (prime_ge_2 p Pp). assert (NP : Z.of_nat (Z.to_nat p) = p) by lia. destruct (Z.to_nat p) as [|n] eqn:En; [lia|].
  exists (conv (fpow g n) (fpow k (S n))). rewrite (fpow_proper p (S n) _ _ F). pose proof (freshman v (conv g k) (S n)) as FR. rewrite NP in FR. rewrite FR by exact Pp.
  apply fadd_proper; [reflexivity|]. rewrite (feq_feqm p _ _ (fpow_conv g k (S n))). cbn [fpow]. apply feq_feqm. ring.
Qed.
Lemma cong_fpow_power p k g u v : prime p -> 0 <= k -> cong_ideal p g u v -> cong_ideal p g (fpow u (Z.to_nat (p ^ k))) (fpow v (Z.to_nat (p ^ k))).
Proof.
  intros Pp Hk C. pose proof (prime_ge_2 p Pp). revert k Hk. apply (natlike_ind (fun k => cong_ideal p g (fpow u (Z.to_nat (p ^ k))) (fpow v (Z.to_nat (p ^ k))))).
  - rewrite Z.pow_0_r. change (Z.to_nat 1) with 1%nat. apply (cong_trans _ _ _ u); [apply feqm_cong, feq_feqm, fpow_1|]. apply (cong_trans _ _ _ v); [exact C|]. apply feqm_cong. symmetry. apply feq_feqm, fpow_1.
  - intros k Hk IH. rewrite Z.pow_succ_r by exact Hk. pose proof (Z.pow_pos_nonneg p k ltac:(lia) Hk). rewrite Z.mul_comm, Z2Nat.inj_mul by lia.
    apply (cong_trans _ _ _ (fpow (fpow u (Z.to_nat (p ^ k))) (Z.to_nat p))); [apply feqm_cong, feq_feqm, fpow_mul|].
    apply (cong_trans _ _ _ (fpow (fpow v (Z.to_nat (p ^ k))) (Z.to_nat p))); [apply cong_fpow; assumption|]. apply feqm_cong. symmetry. apply feq_feqm, fpow_mul.
Qed.
Lemma to_frob_cong p k g u r : prime p -> 0 <= k -> sorted u -> xy u -> to_frob u (p ^ k) = Ok r -> cong_ideal p g r (fpow u (Z.to_nat (p ^ k))).
Proof.
  intros Pp Hk Su Xu Hr. pose proof (prime_ge_2 p Pp). pose proof (Z.pow_pos_nonneg p k ltac:(lia) Hk). apply feqm_cong. rewrite (feq_feqm p _ _ (to_frob_Ok u (p ^ k) r Su ltac:(lia) Hr)). symmetry. apply frobenius_power; assumption.
Qed.
Lemma redmod_xy f a b p r : 0 < p -> (forall m c, In (m, c) f -> red_room m) -> xy f -> reduction_modular f a b p = Ok r -> xy r.
Proof.
  intros Hp R X H. destruct (c32_reduction f a b R) as (r0 & E & Sr & Ky). assert (Hi : i32_poly f) by (intros m c I; apply (R m c I)).
  rewrite (c33_reduction_modular f a b p r0 Hp Hi E), p_rem_eq in H by assumption. assert (redp p r0 = r) as <- by congruence.
  destruct (reduction_spec f a b r0 Hi E) as (_ & F). intros m c I.
  assert (CN : coef r0 m <> 0).
  { intros Z0. assert (FE : feqm p (redp p r0) r0). { apply (redp_ext p (redp p r0) r0 Hp (redp_sorted p r0 Sr) Sr). apply redp_id; auto using redp_sorted, redp_reduced. }
    specialize (FE m). rewrite Z0, (sorted_coef _ m c (redp_sorted p r0 Sr) I), Z.sub_0_r in FE. pose proof (redp_reduced p r0 Hp m c I). apply Z.divide_pos_le in FE; lia. }
  rewrite (F m) in CN. apply coef_in in CN as (d & I'). apply in_flat_map in I' as ((m', c') & Im & I'). destruct (X _ _ Im) as (Q & V).
  unfold red_term in I'. cbn [fst snd] in I'. 
  assert (W : forall n mm dd, In (mm, dd) (fpow (fweier a b) n) -> mq mm = 0 /\ mv mm = None).
  { induction n as [|n IH]; intros mm dd J; cbn [fpow] in J.
    - destruct J as [J|[]]. injection J; intros; subst. split; reflexivity.
    - apply in_conv in J as (m1 & c1 & m2 & c2 & J1 & J2 & -> & _). apply IH in J2 as (Q2 & V2). unfold mmul. cbn [mq mv]. rewrite Q2, V2. 
      destruct J1 as [J|[J|[J|[]]]]; injection J; intros; subst; split; reflexivity. }
  destruct (2 <=? my m').
  - apply in_conv in I' as (m1 & c1 & m2 & c2 & J1 & J2 & -> & _). apply W in J2 as (Q2 & V2). unfold mmul. cbn [mq mv]. rewrite Q2, V2. destruct J1 as [J|[]]. injection J; intros; subst. unfold set_y. cbn [mq mv]. rewrite Q, V. split; reflexivity.
  - destruct I' as [J|[]]. injection J; intros; subst. split; assumption.
Qed.
(** C98: on the curve: reducing before applying to_frob(q) makes no difference after a final reduction. *)
Lemma c98_on_curve : forall f a b p k r F R s t, prime p -> 0 <= k -> sorted f -> (forall m c, In (m, c) f -> red_room m /\ mq m = 0 /\ mv m = None) ->
  reduction_modular f a b p = Ok r -> to_frob f (p ^ k) = Ok F -> to_frob r (p ^ k) = Ok R ->
  (forall m c, In (m, c) F -> red_room m) -> (forall m c, In (m, c) R -> red_room m) ->
  reduction_modular F a b p = Ok s -> reduction_modular R a b p = Ok t -> s = t.
Proof.
  intros f a b p k r F R s t Pp Hk Sf Rf Hr HF HR RF RR Hs Ht. pose proof (prime_ge_2 p Pp). 
  assert (Rf1 : forall m c, In (m, c) f -> red_room m) by (intros m c I; apply (Rf m c I)). assert (Xf : xy f) by (intros m c I; apply (Rf m c I)).
  destruct (redmod_inv f a b p r ltac:(lia) Rf1 Hr) as (Sr & Dr & _ & C). pose proof (redmod_xy f a b p r ltac:(lia) Rf1 Xf Hr) as Xr.
  apply (c97_decides F R a b p s t ltac:(lia) RF RR Hs Ht).
  apply (cong_trans _ _ _ _ _ (to_frob_cong p k _ f F Pp Hk Sf Xf HF)). apply cong_sym. apply (cong_trans _ _ _ _ _ (to_frob_cong p k _ r R Pp Hk Sr Xr HR)).
  apply cong_fpow_power; assumption.
Qed.
Example c98_case : let f := [(mkMono 0 0 0 None, 3); (mkMono 0 2 0 None, 1); (mkMono 1 0 0 None, 7)] in
  exists r, p_power_modulo f 25 5 = Ok r /\ (u <- to_frob f 25 ;; p_rem u 5) = Ok r /\ r = [(mkMono 0 0 0 None, 3); (mkMono 0 50 0 None, 1); (mkMono 25 0 0 None, 2)].
Proof. eexists. split; [vm_compute; reflexivity|]. split; [vm_compute; reflexivity|reflexivity]. Qed.
