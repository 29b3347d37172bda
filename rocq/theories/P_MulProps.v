(** Lemmas behind the property theorems C82-C85 and the value-level statements of C48, C50. *)
From Coq Require Import Znumtheory ZifyBool.
From Verif Require Import Prelude M_Bigint M_Variable M_Term M_Poly M_DivPoly M_Curve Spec SpecCurve P_Bigint P_Variable P_FSum P_Poly P_Subst2 P_Subst3 P_DivPoly P_DivPoly5 P_DivProps P_Modular P_Group P_Fp P_Curve P_Curve2 P_Curve3 P_Curve4 P_CurveProps P_DivVal P_Mul.
Open Scope Z_scope.

Lemma pow_cong p u v k : 0 <= k -> (p | u - v) -> (p | u ^ k - v ^ k).
Proof.
  intros Hk D. pattern k. apply natlike_ind; [exists 0; reflexivity| |exact Hk]. intros j Hj IH. rewrite !Z.pow_succ_r by exact Hj. apply cong_mul; assumption.
Qed.
Lemma fval_cong p x y x' y' (r : fsum) : nonneg_xy r -> (p | x - x') -> (p | y - y') -> (p | fval x y r - fval x' y' r).
Proof.
  intros N Dx Dy. induction r as [|[m c] r IH]; [exists 0; reflexivity|]. cbn [fval]. destruct (N m c (or_introl eq_refl)) as (Hx & Hy).
  match goal with |- (_ | ?s) => replace s with (c * (mval x y m - mval x' y' m) + (fval x y r - fval x' y' r)) by ring end.
  apply Z.divide_add_r; [apply Z.divide_mul_r|apply IH; intros m' c' I; apply (N m' c'); right; exact I]. unfold mval. apply cong_mul; apply pow_cong; assumption.
Qed.
Lemma mod_cong p z : p <> 0 -> (p | z - z mod p).
Proof. intros Hp. exists (z / p). pose proof (Z.div_mod z p Hp). lia. Qed.
Lemma finite_affine p P : is_infinity P = false -> affine p P = Some (px P mod p, py P mod p).
Proof. unfold is_infinity, affine. intros ->. reflexivity. Qed.
Lemma phi_nonneg a b n r : 1 <= n <= 46340 -> phi a b n = Ok r -> nonneg_xy r.
Proof.
  intros Hn E. destruct (c50_phi a b n Hn) as (r' & pn & u & w & E' & _ & _ & _ & _ & K & _). rewrite E in E'. apply Ok_inj in E'. subst r'.
  intros m c I. apply K in I. lia.
Qed.
Lemma omega_nonneg a b n r : 1 <= n <= 37837 -> omega a b n = Ok r -> nonneg_xy r.
Proof.
  intros Hn E. destruct (Z.eq_dec n 1) as [-> |N].
  - rewrite c50_omega_one in E. apply Ok_inj in E. subst r. intros m c [I|[]]. injection I. intros; subst. cbn. lia.
  - destruct (c50_omega a b n ltac:(lia)) as (r' & u & w & s & t & E' & _ & _ & _ & _ & _ & K & _). rewrite E in E'. apply Ok_inj in E'. subst r'.
    intros m c I. apply K in I. destruct (Z.odd n); lia.
Qed.
Lemma pv_Z a b x y n r : 0 <= n -> psi a b n = Ok r -> pv a b x y (Z.to_nat n) = fval x y r.
Proof. intros Hn E. unfold pv. rewrite Z2Nat.id, E by exact Hn. reflexivity. Qed.
Lemma psi_at a b n P : 0 <= n <= 65536 -> exists r, psi a b n = Ok r /\ nonneg_xy r /\ eval_xy r (px P) (py P) = Ok (fval (px P) (py P) r).
Proof. intros Hn. destruct (psi_Ok a b n Hn) as (r & E & N). exists r. split; [exact E|]. split; [exact N|]. apply eval_xy_spec, N. Qed.

(** C48: at every point of the curve over Z/n, for every modulus n (0 included: over the integers), the values of psi satisfy the recurrences. *)
Lemma c48_psi_rec_odd_values : forall a b n x y m, (n | y ^ 2 - (x ^ 3 + a * x + b)) -> 2 <= m -> 2 * m + 1 <= 65536 ->
  exists r e f g h r' e' f' g' h', psi a b (2 * m + 1) = Ok r /\ psi a b (m + 2) = Ok e /\ psi a b m = Ok f /\ psi a b (m - 1) = Ok g /\ psi a b (m + 1) = Ok h /\
  eval_xy r x y = Ok r' /\ eval_xy e x y = Ok e' /\ eval_xy f x y = Ok f' /\ eval_xy g x y = Ok g' /\ eval_xy h x y = Ok h' /\
  (n | r' - (e' * f' ^ 3 - g' * h' ^ 3)).
Proof.
  intros a b n x y m C Hm Hn. destruct (psi_Ok a b (2 * m + 1)) as (r & Er & Nr); [lia|]. destruct (psi_Ok a b (m + 2)) as (e & Ee & Ne); [lia|]. destruct (psi_Ok a b m) as (f & Ef & Nf); [lia|].
  destruct (psi_Ok a b (m - 1)) as (g & Eg & Ng); [lia|]. destruct (psi_Ok a b (m + 1)) as (h & Eh & Nh); [lia|].
  exists r, e, f, g, h, (fval x y r), (fval x y e), (fval x y f), (fval x y g), (fval x y h). rewrite !eval_xy_spec by assumption. repeat (split; [first [assumption|reflexivity]|]).
  pose proof (pv_odd a b x y n C (Z.to_nat m) ltac:(lia) ltac:(lia)) as D.
  rewrite <- (pv_eq a b x y (Z.to_nat m + Z.to_nat m + 1)%nat r _ Er), <- (pv_eq a b x y (Z.to_nat m + 2)%nat e _ Ee), <- (pv_eq a b x y (Z.to_nat m)%nat f _ Ef), <- (pv_eq a b x y (Z.to_nat m - 1)%nat g _ Eg), <- (pv_eq a b x y (Z.to_nat m + 1)%nat h _ Eh) in D by lia.
  match goal with |- (_ | ?s) => match type of D with (_ | ?t) => replace s with t by ring end end. exact D.
Qed.
Lemma c48_psi_rec_even_values : forall a b n x y m, (n | y ^ 2 - (x ^ 3 + a * x + b)) -> 3 <= m -> 2 * m <= 65536 ->
  exists r e f g h i r' e' f' g' h' i', psi a b (2 * m) = Ok r /\ psi a b (m + 2) = Ok e /\ psi a b (m - 1) = Ok f /\ psi a b (m - 2) = Ok g /\ psi a b (m + 1) = Ok h /\ psi a b m = Ok i /\
  eval_xy r x y = Ok r' /\ eval_xy e x y = Ok e' /\ eval_xy f x y = Ok f' /\ eval_xy g x y = Ok g' /\ eval_xy h x y = Ok h' /\ eval_xy i x y = Ok i' /\
  (n | 2 * y * r' - i' * (e' * f' ^ 2 - g' * h' ^ 2)).
Proof.
  intros a b n x y m C Hm Hn. destruct (psi_Ok a b (2 * m)) as (r & Er & Nr); [lia|]. destruct (psi_Ok a b (m + 2)) as (e & Ee & Ne); [lia|]. destruct (psi_Ok a b (m - 1)) as (f & Ef & Nf); [lia|].
  destruct (psi_Ok a b (m - 2)) as (g & Eg & Ng); [lia|]. destruct (psi_Ok a b (m + 1)) as (h & Eh & Nh); [lia|]. destruct (psi_Ok a b m) as (i & Ei & Ni); [lia|].
  exists r, e, f, g, h, i, (fval x y r), (fval x y e), (fval x y f), (fval x y g), (fval x y h), (fval x y i). rewrite !eval_xy_spec by assumption. repeat (split; [first [assumption|reflexivity]|]).
  pose proof (pv_even a b x y n C (Z.to_nat m) ltac:(lia) ltac:(lia)) as D.
  rewrite <- (pv_eq a b x y (Z.to_nat m + Z.to_nat m)%nat r _ Er), <- (pv_eq a b x y (Z.to_nat m + 2)%nat e _ Ee), <- (pv_eq a b x y (Z.to_nat m - 1)%nat f _ Ef), <- (pv_eq a b x y (Z.to_nat m - 2)%nat g _ Eg), <- (pv_eq a b x y (Z.to_nat m + 1)%nat h _ Eh), <- (pv_eq a b x y (Z.to_nat m)%nat i _ Ei) in D by lia.
  match goal with |- (_ | ?s) => match type of D with (_ | ?t) => replace s with t by ring end end. exact D.
Qed.
(** C50: the values of phi and omega at every point of the curve over Z/n. *)
Lemma c50_phi_values : forall a b n x y k, (n | y ^ 2 - (x ^ 3 + a * x + b)) -> 1 <= k <= 46340 ->
  exists r f u w r' f' u' w', phi a b k = Ok r /\ psi a b k = Ok f /\ psi a b (k + 1) = Ok u /\ psi a b (k - 1) = Ok w /\
  eval_xy r x y = Ok r' /\ eval_xy f x y = Ok f' /\ eval_xy u x y = Ok u' /\ eval_xy w x y = Ok w' /\ (n | r' - (x * f' ^ 2 - u' * w')).
Proof.
  intros a b n x y k C Hk. destruct (c50_phi a b k Hk) as (r & f & u & w & E & E1 & E2 & E3 & _). pose proof (phi_nonneg a b k r Hk E) as Nr.
  assert (N1: nonneg_xy f) by (apply (psi_nonneg a b k); [lia|exact E1]). assert (N2: nonneg_xy u) by (apply (psi_nonneg a b (k + 1)); [lia|exact E2]). assert (N3: nonneg_xy w) by (apply (psi_nonneg a b (k - 1)); [lia|exact E3]).
  exists r, f, u, w, (fval x y r), (fval x y f), (fval x y u), (fval x y w). rewrite !eval_xy_spec by assumption. repeat (split; [first [assumption|reflexivity]|]).
  assert (D: (n | fval x y r - (x * (pv a b x y (Z.to_nat k) * pv a b x y (Z.to_nat k)) - pv a b x y (Z.to_nat k + 1) * pv a b x y (Z.to_nat k - 1)))) by (apply (phi_val a b x y n C); [lia|rewrite Z2Nat.id by lia; exact E]).
  rewrite <- (pv_eq a b x y (Z.to_nat k)%nat f _ E1), <- (pv_eq a b x y (Z.to_nat k + 1)%nat u _ E2), <- (pv_eq a b x y (Z.to_nat k - 1)%nat w _ E3) in D by lia.
  match goal with |- (_ | ?s) => match type of D with (_ | ?t) => replace s with t by ring end end. exact D.
Qed.
Lemma c50_omega_values : forall a b n x y k, (n | y ^ 2 - (x ^ 3 + a * x + b)) -> 2 <= k <= 37837 ->
  exists r u w s t r' u' w' s' t', omega a b k = Ok r /\ psi a b (k + 2) = Ok u /\ psi a b (k - 1) = Ok w /\ psi a b (k - 2) = Ok s /\ psi a b (k + 1) = Ok t /\
  eval_xy r x y = Ok r' /\ eval_xy u x y = Ok u' /\ eval_xy w x y = Ok w' /\ eval_xy s x y = Ok s' /\ eval_xy t x y = Ok t' /\ (n | 4 * y * r' - (u' * w' ^ 2 - s' * t' ^ 2)).
Proof.
  intros a b n x y k C Hk. destruct (c50_omega a b k Hk) as (r & u & w & s & t & E & E1 & E2 & E3 & E4 & _). assert (Nr: nonneg_xy r) by (apply (omega_nonneg a b k); [lia|exact E]).
  assert (N1: nonneg_xy u) by (apply (psi_nonneg a b (k + 2)); [lia|exact E1]). assert (N2: nonneg_xy w) by (apply (psi_nonneg a b (k - 1)); [lia|exact E2]). assert (N3: nonneg_xy s) by (apply (psi_nonneg a b (k - 2)); [lia|exact E3]). assert (N4: nonneg_xy t) by (apply (psi_nonneg a b (k + 1)); [lia|exact E4]).
  exists r, u, w, s, t, (fval x y r), (fval x y u), (fval x y w), (fval x y s), (fval x y t). rewrite !eval_xy_spec by assumption. repeat (split; [first [assumption|reflexivity]|]).
  assert (D := omega_val a b x y n C (Z.to_nat k) r ltac:(lia)). rewrite Z2Nat.id in D by lia. specialize (D E).
  rewrite <- (pv_eq a b x y (Z.to_nat k + 2)%nat u _ E1), <- (pv_eq a b x y (Z.to_nat k - 1)%nat w _ E2), <- (pv_eq a b x y (Z.to_nat k - 2)%nat s _ E3), <- (pv_eq a b x y (Z.to_nat k + 1)%nat t _ E4) in D by lia.
  match goal with |- (_ | ?s) => match type of D with (_ | ?t) => replace s with t by ring end end. exact D.
Qed.

(** C82: for every finite point P of an elliptic curve and every n, the n-th division polynomial vanishes at P exactly when n P = O. *)
Lemma c82_torsion : forall a b p E P n, elliptic a b p -> curve_of a b p E -> is_on_curve E P = Ok true -> is_infinity P = false -> 1 <= n <= 65534 ->
  exists r v, psi a b n = Ok r /\ eval_xy r (px P) (py P) = Ok v /\ ((p | v) <-> ec_mult a p (affine p P) (Z.to_nat n) None).
Proof.
  intros a b p E P n (Pp & P2 & NS) HE HP HI Hn. pose proof (prime_ge_2 p Pp). apply curve_of_fields in HE. apply (is_on_inv a b p E) in HP; [|exact HE|lia].
  destruct (psi_at a b n P ltac:(lia)) as (r & Er & Nr & Ev). exists r, (fval (px P) (py P) r). split; [exact Er|]. split; [exact Ev|].
  rewrite (ec_mult_iff a b p Pp P2) by exact HP. rewrite (finite_affine p P HI) in *. destruct HP as (X & Y & C).
  pose proof (torsion_iff a b p _ _ Pp P2 NS X Y C (Z.to_nat n) ltac:(lia) ltac:(lia)) as T. rewrite (pv_Z a b _ _ n r ltac:(lia) Er) in T.
  pose proof (fval_cong p (px P) (py P) (px P mod p) (py P mod p) r Nr (mod_cong p _ ltac:(lia)) (mod_cong p _ ltac:(lia))) as D.
  split; [intros V|intros V].
  - symmetry. apply T. replace (fval (px P mod p) (py P mod p) r) with (fval (px P) (py P) r - (fval (px P) (py P) r - fval (px P mod p) (py P mod p) r)) by ring. apply Z.divide_sub_r; assumption.
  - symmetry in V. apply T in V. replace (fval (px P) (py P) r) with (fval (px P mod p) (py P mod p) r + (fval (px P) (py P) r - fval (px P mod p) (py P mod p) r)) by ring. apply Z.divide_add_r; assumption.
Qed.
(** C83: n P = (phi_n / psi_n^2, omega_n / psi_n^3) at every finite point P with n P <> O. *)
Lemma c83_coordinates : forall a b p E P n X Y, elliptic a b p -> curve_of a b p E -> is_on_curve E P = Ok true -> is_infinity P = false -> 1 <= n <= 37837 ->
  ec_mult a p (affine p P) (Z.to_nat n) (Some (X, Y)) ->
  exists r f w v s t, psi a b n = Ok r /\ phi a b n = Ok f /\ omega a b n = Ok w /\
    eval_xy r (px P) (py P) = Ok v /\ eval_xy f (px P) (py P) = Ok s /\ eval_xy w (px P) (py P) = Ok t /\
    ~ (p | v) /\ (p | X * v ^ 2 - s) /\ (p | Y * v ^ 3 - t).
Proof.
  intros a b p E P n X Y HEl HE HP HI Hn HM. destruct (c82_torsion a b p E P n HEl HE HP HI ltac:(lia)) as (r & v & Er & Ev & T).
  destruct HEl as (Pp & P2 & NS). pose proof (prime_ge_2 p Pp). apply curve_of_fields in HE. apply (is_on_inv a b p E) in HP; [|exact HE|lia].
  assert (F: exists f, phi a b n = Ok f) by (destruct (c50_phi a b n ltac:(lia)) as (f & ? & ? & ? & F & _); eauto). destruct F as (f & Ef). pose proof (phi_nonneg a b n f ltac:(lia) Ef) as Nf.
  assert (W: exists w, omega a b n = Ok w). { destruct (Z.eq_dec n 1) as [-> |N1]; [eexists; apply c50_omega_one|]. destruct (c50_omega a b n ltac:(lia)) as (w & ? & ? & ? & ? & F & _); eauto. }
  destruct W as (w & Ew). pose proof (omega_nonneg a b n w ltac:(lia) Ew) as Nw. pose proof (psi_nonneg a b n r ltac:(lia) Er) as Nr.
  rewrite eval_xy_spec in Ev by exact Nr. apply Ok_inj in Ev. subst v.
  exists r, f, w, (fval (px P) (py P) r), (fval (px P) (py P) f), (fval (px P) (py P) w). rewrite !eval_xy_spec by assumption. repeat (split; [first [assumption|reflexivity]|]).
  rewrite (ec_mult_iff a b p Pp P2) in T, HM by exact HP. split; [intros V; apply T in V; rewrite <- V in HM; discriminate|].
  rewrite (finite_affine p P HI) in *. destruct HP as (HX & HY & C). symmetry in HM.
  pose proof (coord_x a b p _ _ Pp P2 NS HX HY C (Z.to_nat n) X Y f ltac:(lia) ltac:(lia)) as D1. pose proof (coord_y a b p _ _ Pp P2 NS HX HY C (Z.to_nat n) X Y w ltac:(lia) ltac:(lia)) as D2.
  rewrite Z2Nat.id in D1, D2 by lia. specialize (D1 Ef HM). specialize (D2 Ew HM). rewrite (pv_Z a b _ _ n r ltac:(lia) Er) in D1, D2.
  assert (Cg: forall g, nonneg_xy g -> (p | fval (px P) (py P) g - fval (px P mod p) (py P mod p) g)) by (intros g G; apply fval_cong; [exact G|apply mod_cong; lia|apply mod_cong; lia]).
  split.
  - eapply cong_tr; [|apply cong_sym, (Cg f Nf)]. eapply cong_tr; [|exact D1]. apply cong_mul; [apply cong_rf|]. rewrite <- Z.pow_2_r. apply pow_cong; [lia|apply Cg, Nr].
  - eapply cong_tr; [|apply cong_sym, (Cg w Nw)]. eapply cong_tr; [|exact D2]. apply cong_mul; [apply cong_rf|]. match goal with |- (_ | _ - ?s) => replace s with (fval (px P mod p) (py P mod p) r ^ 3) by ring end. apply pow_cong; [lia|apply Cg, Nr].
Qed.
(** C83: the same for the result of multiply_scalar, whenever it is a finite point. *)
Lemma c83_multiply_scalar : forall a b p E P n R, elliptic a b p -> curve_of a b p E -> is_on_curve E P = Ok true -> is_infinity P = false -> 1 <= n <= 37837 ->
  multiply_scalar E P n = Ok R -> is_infinity R = false ->
  exists r f w v s t, psi a b n = Ok r /\ phi a b n = Ok f /\ omega a b n = Ok w /\
    eval_xy r (px P) (py P) = Ok v /\ eval_xy f (px P) (py P) = Ok s /\ eval_xy w (px P) (py P) = Ok t /\
    ~ (p | v) /\ (p | px R * v ^ 2 - s) /\ (p | py R * v ^ 3 - t).
Proof.
  intros a b p E P n R HEl HE HP HI Hn HR IR. destruct (c59_all_points_partial a b p E P n HEl HE HP ltac:(lia)) as (R' & ER & _ & M1 & M2). rewrite HR in ER. apply Ok_inj in ER. subst R'.
  assert (M: ec_mult a p (affine p P) (Z.to_nat n) (affine p R)) by (apply M1; intros N; apply M2 in N; congruence). rewrite (finite_affine p R IR) in M.
  destruct (c83_coordinates a b p E P n _ _ HEl HE HP HI Hn M) as (r & f & w & v & s & t & A1 & A2 & A3 & A4 & A5 & A6 & A7 & A8 & A9).
  exists r, f, w, v, s, t. repeat (split; [assumption|]). destruct HEl as (Pp & _). pose proof (prime_ge_2 p Pp). split.
  - eapply cong_tr; [|exact A8]. apply cong_mul; [apply mod_cong; lia|apply cong_rf].
  - eapply cong_tr; [|exact A9]. apply cong_mul; [apply mod_cong; lia|apply cong_rf].
Qed.
(** C84: point_order is the index of the first division polynomial that vanishes at the point. *)
Lemma c84_point_order : forall a b p E P n, elliptic a b p -> curve_of a b p E -> is_on_curve E P = Ok true -> is_infinity P = false -> 1 <= n <= 65534 ->
  ((exists fuel, point_order fuel E P = Ok n) <->
   (exists r v, psi a b n = Ok r /\ eval_xy r (px P) (py P) = Ok v /\ (p | v)) /\
   (forall k, 1 <= k < n -> exists r v, psi a b k = Ok r /\ eval_xy r (px P) (py P) = Ok v /\ ~ (p | v))).
Proof.
  intros a b p E P n HEl HE HP HI Hn. destruct (c62_point_order a b p E P HEl HE HP) as (m & HO & (fu & Hf) & U).
  assert (Q: ec_order a p (affine p P) n <-> (exists r v, psi a b n = Ok r /\ eval_xy r (px P) (py P) = Ok v /\ (p | v)) /\ (forall k, 1 <= k < n -> exists r v, psi a b k = Ok r /\ eval_xy r (px P) (py P) = Ok v /\ ~ (p | v))).
  { unfold ec_order. split.
    - intros (_ & A & B). split.
      + destruct (c82_torsion a b p E P n HEl HE HP HI ltac:(lia)) as (r & v & Er & Ev & T). exists r, v. tauto.
      + intros k Hk. destruct (c82_torsion a b p E P k HEl HE HP HI ltac:(lia)) as (r & v & Er & Ev & T). exists r, v. specialize (B k Hk). tauto.
    - intros ((r & v & Er & Ev & D) & B). split; [lia|]. split.
      + destruct (c82_torsion a b p E P n HEl HE HP HI ltac:(lia)) as (r' & v' & Er' & Ev' & T). rewrite Er in Er'. apply Ok_inj in Er'. subst r'. rewrite Ev in Ev'. apply Ok_inj in Ev'. subst v'. tauto.
      + intros k Hk. destruct (B k Hk) as (r0 & v0 & Er0 & Ev0 & D0). destruct (c82_torsion a b p E P k HEl HE HP HI ltac:(lia)) as (r' & v' & Er' & Ev' & T). rewrite Er0 in Er'. apply Ok_inj in Er'. subst r'. rewrite Ev0 in Ev'. apply Ok_inj in Ev'. subst v'. tauto. }
  rewrite <- Q. split.
  - intros (fuel & H). apply U in H. subst n. exact HO.
  - intros HO'. assert (n = m); [|subst; eauto]. destruct HO as (A & B & C), HO' as (A' & B' & C'). destruct (Z.lt_trichotomy n m) as [L|[L|L]]; [exfalso; apply (C n); [lia|exact B']|exact L|exfalso; apply (C' m); [lia|exact B]].
Qed.
(** C85: division_points(n) contains the point at infinity and every listed point at which psi_n vanishes ... *)
Lemma c85_contains_roots : forall a b p E n, elliptic a b p -> ec_new a b p = Ok E -> 1 <= n <= 65534 ->
  exists L r, division_points E n = Ok L /\ psi a b n = Ok r /\
  forall P, In P (ec_points E) -> P = infinity \/ (exists v, eval_xy r (px P) (py P) = Ok v /\ (p | v)) -> In P L.
Proof.
  intros a b p E n HEl HE Hn. destruct (c64_torsion_partial a b p E n HEl HE ltac:(lia)) as (L & EL & _ & _ & I2 & _). destruct (psi_Ok a b n ltac:(lia)) as (r & Er & Nr). exists L, r. split; [exact EL|]. split; [exact Er|].
  intros P HP H. pose proof HEl as (Pp & P2 & NS). pose proof (prime_ge_2 p Pp). destruct (cpoints_ok a b p E P HE ltac:(lia) HP) as (OP & _). apply I2; [exact HP|].
  destruct H as [-> |(v & Ev & D)].
  - rewrite (ec_mult_iff a b p Pp P2) by exact OP. change (affine p infinity) with (@None (Z * Z)). rewrite emul_none. reflexivity.
  - destruct (is_infinity P) eqn:HI.
    + rewrite (ec_mult_iff a b p Pp P2) by exact OP. unfold is_infinity in HI. unfold affine. rewrite HI. rewrite emul_none. reflexivity.
    + assert (Ho: is_on_curve E P = Ok true) by (apply (is_on_true a b p); [apply ec_new_fields, HE|lia|exact OP]).
      destruct (c82_torsion a b p E P n HEl (or_intror HE) Ho HI ltac:(lia)) as (r' & v' & Er' & Ev' & T). rewrite Er in Er'. apply Ok_inj in Er'. subst r'. rewrite Ev in Ev'. apply Ok_inj in Ev'. subst v'. tauto.
Qed.
(** ... and nothing else, when the curve has no point of order 2 or n is a power of two. *)
Lemma c85_exactly_roots : forall a b p E n, elliptic a b p -> ec_new a b p = Ok E -> 1 <= n <= 65534 ->
  (forall P, In P (ec_points E) -> ~ ec_order a p (affine p P) 2) \/ (exists k, 0 <= k /\ n = 2 ^ k) ->
  exists L r, division_points E n = Ok L /\ psi a b n = Ok r /\ NoDup L /\
  forall P, In P L <-> In P (ec_points E) /\ (P = infinity \/ exists v, eval_xy r (px P) (py P) = Ok v /\ (p | v)).
Proof.
  intros a b p E n HEl HE Hn HC. destruct (c64_exact a b p E n HEl HE ltac:(lia) HC) as (L & EL & NL & I). destruct (psi_Ok a b n ltac:(lia)) as (r & Er & Nr). exists L, r. split; [exact EL|]. split; [exact Er|]. split; [exact NL|].
  intros P. split.
  - intros HP. apply I in HP as (HP & HM). split; [exact HP|]. pose proof HEl as (Pp & P2 & NS). pose proof (prime_ge_2 p Pp). destruct (cpoints_ok a b p E P HE ltac:(lia) HP) as (OP & OI).
    destruct (is_infinity P) eqn:HI; [left; apply OI; unfold is_infinity in HI; lia|right].
    assert (Ho: is_on_curve E P = Ok true) by (apply (is_on_true a b p); [apply ec_new_fields, HE|lia|exact OP]).
    destruct (c82_torsion a b p E P n HEl (or_intror HE) Ho HI ltac:(lia)) as (r' & v' & Er' & Ev' & T). rewrite Er in Er'. apply Ok_inj in Er'. subst r'. exists v'. tauto.
  - intros (HP & H). destruct (c85_contains_roots a b p E n HEl HE Hn) as (L' & r' & EL' & Er' & K). rewrite EL in EL'. apply Ok_inj in EL'. subst L'. rewrite Er in Er'. apply Ok_inj in Er'. subst r'. apply K; assumption.
Qed.
(** On y^2 = x^3 + x + 1 over GF(5): psi_3(2,1) = 95 and 3 (2,1) = O; 2 (0,1) = (4,2) = (1/2^2, -9/2^3). *)
Example c82_case : is_on_curve (new_raw 1 1 5) (mkPt 2 1 1) = Ok true /\ exists r v, psi 1 1 3 = Ok r /\ eval_xy r 2 1 = Ok v /\ v = 95 /\ multiply_scalar (new_raw 1 1 5) (mkPt 2 1 1) 3 = Ok infinity.
Proof. split; [reflexivity|]. eexists. eexists. split; [vm_compute; reflexivity|]. split; [vm_compute; reflexivity|]. split; vm_compute; reflexivity. Qed.
Example c83_case : multiply_scalar (new_raw 1 1 5) (mkPt 0 1 1) 2 = Ok (mkPt 4 2 1) /\
  exists r f w, psi 1 1 2 = Ok r /\ phi 1 1 2 = Ok f /\ omega 1 1 2 = Ok w /\ eval_xy r 0 1 = Ok 2 /\ eval_xy f 0 1 = Ok 1 /\ eval_xy w 0 1 = Ok (-9).
Proof. split; [vm_compute; reflexivity|]. eexists. eexists. eexists. split; [vm_compute; reflexivity|]. split; [vm_compute; reflexivity|]. split; [vm_compute; reflexivity|]. split; [vm_compute; reflexivity|]. split; vm_compute; reflexivity. Qed.
Example c84_case : point_order 9 (new_raw 1 1 5) (mkPt 2 1 1) = Ok 3 /\ elliptic 1 1 5.
Proof. split; [vm_compute; reflexivity|]. split; [apply prime_intro; [lia|]; intros n Hn; apply Zgcd_1_rel_prime; assert (n = 1 \/ n = 2 \/ n = 3 \/ n = 4) as [-> |[-> |[-> | ->]]] by lia; reflexivity|]. split; [discriminate|]. intros (k & H). lia. Qed.
Example c85_case : exists E, ec_new 1 1 5 = Ok E /\ division_points E 3 = Ok [mkPt 2 1 1; mkPt 2 4 1; infinity] /\ (exists r, psi 1 1 3 = Ok r /\ eval_xy r 2 4 = Ok 95).
Proof. eexists. split; [vm_compute; reflexivity|]. split; [vm_compute; reflexivity|]. eexists. split; vm_compute; reflexivity. Qed.
