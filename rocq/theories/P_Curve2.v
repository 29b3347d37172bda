(** What the model's curve operations compute, in terms of the group law on residues. *)
From Coq Require Import Znumtheory ZifyBool.
From Verif Require Import Prelude M_Bigint M_Variable M_Term M_Poly M_Curve Spec SpecCurve P_Bigint P_Subst2 P_Subst3 P_Fp P_Curve.
Open Scope Z_scope.

(** The fields that the group operations read. *)
Definition fields (a b p : Z) (E : curve) : Prop := ca E = a /\ cb E = b /\ cp E = p /\ cpol E = weierstrass a b.
Lemma bind_inv {A B} (x : res A) (f : A -> res B) r : bind x f = Ok r -> exists y, x = Ok y /\ f y = Ok r.
Proof. destruct x; cbn; intros H; try discriminate. eauto. Qed.
Lemma new_raw_fields a b p : fields a b p (new_raw a b p).
Proof. repeat split. Qed.
Lemma ec_new_fields a b p E : ec_new a b p = Ok E -> fields a b p E.
Proof.
  unfold ec_new, create_points. intros H. apply bind_inv in H as (? & _ & H). apply bind_inv in H as (? & _ & H). apply bind_inv in H as (? & _ & H).
  apply bind_inv in H as (pts & _ & H). injection H as <-. repeat split.
Qed.
Lemma curve_of_fields a b p E : curve_of a b p E -> fields a b p E.
Proof. intros [->|H]; [apply new_raw_fields|apply ec_new_fields, H]. Qed.

Lemma weier_val a b x y : eval_xy (weierstrass a b) x y = Ok (x ^ 3 + a * x + b).
Proof.
  rewrite eval_xy_spec.
  - rewrite (fval_feq x y _ _ (weierstrass_feq a b)). rewrite fval_fweier. reflexivity.
  - intros m c Hi. destruct (weierstrass_xkey a b m c Hi) as (A & B & _). lia.
Qed.
Lemma pow2 y : y ^ 2 = y * y. Proof. ring. Qed.
Lemma pow3 y : y ^ 3 = y * y * y. Proof. ring. Qed.

Lemma is_on_curve_spec a b p E P : fields a b p E -> p <> 0 ->
  exists c, is_on_curve E P = Ok c /\ (c = true <-> pz P = 0 \/ curve_eqn a b p (px P) (py P)).
Proof.
  intros (Ea & Eb & Ep & Epol) P0. unfold is_on_curve, is_infinity. destruct (pz P =? 0) eqn:Ez; [exists true; split; [reflexivity|lia]|].
  rewrite Epol, weier_val, Ep. cbn [bind]. unfold mod_floor. destruct (p =? 0) eqn:X; [lia|]. cbn [bind].
  rewrite power_i32_spec by lia. cbn [bind]. eexists. split; [reflexivity|].
  rewrite Z.eqb_eq. unfold curve_eqn. rewrite <- Zminus_mod. rewrite pow2, pow3.
  split.
  - intros H. right. apply Z.mod_divide in H; [|exact P0]. apply Z.divide_opp_r in H. match goal with |- (_ | ?t) => replace t with (- (px P * px P * px P + a * px P + b - py P * py P)) by ring end. exact H.
  - intros [H|H]; [lia|]. apply Z.mod_divide; [exact P0|]. apply Z.divide_opp_r in H. match goal with |- (_ | ?t) => replace t with (- (py P * py P - (px P * px P * px P + a * px P + b))) by ring end. exact H.
Qed.
Lemma curve_eqn_mod a b p x y : 0 < p -> (curve_eqn a b p (x mod p) (y mod p) <-> curve_eqn a b p x y).
Proof.
  intros H. unfold curve_eqn.
  assert (D: forall z, exists k, z mod p = z - k * p) by (intros z; exists (z / p); pose proof (Z.div_mod z p); lia).
  destruct (D x) as (u & ->), (D y) as (v & ->).
  assert (EQ: (y - v * p) * (y - v * p) - ((x - u * p) * (x - u * p) * (x - u * p) + a * (x - u * p) + b) =
    (y * y - (x * x * x + a * x + b)) + (- 2 * y * v + v * v * p + 3 * x * x * u - 3 * x * u * u * p + u * u * u * p * p + a * u) * p) by ring.
  rewrite EQ. match goal with |- (p | ?u + ?v * p) <-> _ => generalize u; set (T := v); clearbody T end. clear EQ. intros w. split; intros H'.
  - apply (Z.divide_add_cancel_r p (T * p)); [apply Z.divide_factor_r|]. rewrite Z.add_comm. exact H'.
  - apply Z.divide_add_r; [exact H'|apply Z.divide_factor_r].
Qed.
Lemma affine_on a b p P : 0 < p -> (on_curve a b p (affine p P) <-> pz P = 0 \/ curve_eqn a b p (px P) (py P)).
Proof.
  intros H. unfold affine. destruct (pz P =? 0) eqn:E; cbn [on_curve].
  - split; [intros _; left; lia|tauto].
  - rewrite curve_eqn_mod by exact H. pose proof (Z.mod_pos_bound (px P) p H). pose proof (Z.mod_pos_bound (py P) p H). intuition lia.
Qed.
Lemma is_on_true a b p E P : fields a b p E -> 0 < p -> on_curve a b p (affine p P) -> is_on_curve E P = Ok true.
Proof. intros HE H0 HP. destruct (is_on_curve_spec a b p E P HE ltac:(lia)) as (c & -> & Hc). apply affine_on in HP; [|exact H0]. apply Hc in HP. congruence. Qed.
Lemma is_on_inv a b p E P : fields a b p E -> 0 < p -> is_on_curve E P = Ok true -> on_curve a b p (affine p P).
Proof. intros HE H0 HP. destruct (is_on_curve_spec a b p E P HE ltac:(lia)) as (c & HP' & Hc). apply affine_on; [exact H0|]. apply Hc. congruence. Qed.
Lemma affine_canon p P : 0 < p -> canon p (affine p P).
Proof. intros H. unfold affine. destruct (pz P =? 0); [exact I|]. split; apply Z.mod_pos_bound, H. Qed.
Lemma plus_off_l a b p E P Q : fields a b p E -> 0 < p -> ~ on_curve a b p (affine p P) -> plus E P Q = Panic.
Proof. intros HE H0 N. destruct (is_on_curve_spec a b p E P HE ltac:(lia)) as (c & HP & Hc). unfold plus. rewrite HP. destruct c; [|reflexivity]. exfalso. apply N. apply affine_on; [exact H0|]. apply Hc. reflexivity. Qed.
Lemma plus_off_r a b p E P Q : fields a b p E -> 0 < p -> ~ on_curve a b p (affine p Q) -> plus E P Q = Panic.
Proof.
  intros HE H0 N. destruct (is_on_curve_spec a b p E P HE ltac:(lia)) as (c & HP & _). destruct (is_on_curve_spec a b p E Q HE ltac:(lia)) as (d & HQ & Hd).
  unfold plus. rewrite HP. destruct c; [|reflexivity]. cbn [bind assertb]. rewrite HQ. destruct d; [|reflexivity]. exfalso. apply N. apply affine_on; [exact H0|]. apply Hd. reflexivity.
Qed.
Lemma plus_inf_l a b p E P Q : fields a b p E -> 0 < p -> pz P = 0 -> on_curve a b p (affine p Q) -> plus E P Q = Ok Q.
Proof.
  intros HE H0 Hz HQ. unfold plus. rewrite (is_on_true a b p E P HE H0) by (apply affine_on; [exact H0|left; exact Hz]). rewrite (is_on_true a b p E Q HE H0 HQ).
  cbn [bind assertb]. unfold is_infinity. rewrite Hz. cbn [Z.eqb]. destruct Q; reflexivity.
Qed.
Lemma plus_inf_r a b p E P Q : fields a b p E -> 0 < p -> pz P <> 0 -> pz Q = 0 -> on_curve a b p (affine p P) -> plus E P Q = Ok (mkPt (px P) (py Q) 0).
Proof.
  intros HE H0 Nz Hz HP. unfold plus. rewrite (is_on_true a b p E Q HE H0) by (apply affine_on; [exact H0|left; exact Hz]). rewrite (is_on_true a b p E P HE H0 HP).
  cbn [bind assertb]. unfold is_infinity. rewrite Hz. cbn [Z.eqb]. destruct (pz P =? 0) eqn:X; [lia|]. reflexivity.
Qed.
(** Two finite points: the sum, in canonical form, or exactly [infinity]. *)
Definition pt_of (P : apoint) : point := match P with None => infinity | Some (x, y) => mkPt x y 1 end.
Lemma line_third_model p m x1 y1 x2 : 0 < p ->
  line_third p m x1 y1 x2 = Some ((m ^ 2 - x1 - x2) mod p, (m * (x1 - (m ^ 2 - x1 - x2)) - y1) mod p).
Proof.
  intros H. unfold line_third. rewrite pow2. do 2 f_equal. apply mod_eq_divide; [lia|].
  exists (m * ((m * m - x1 - x2) / p)). pose proof (Z.div_mod (m * m - x1 - x2) p). nia.
Qed.
Lemma plus_finite_rel a b p E P Q : fields a b p E -> prime p -> p <> 2 -> pz P <> 0 -> pz Q <> 0 ->
  on_curve a b p (affine p P) -> on_curve a b p (affine p Q) ->
  exists R, plus E P Q = Ok (pt_of R) /\ ec_sum a p (affine p P) (affine p Q) R.
Proof.
  intros HE Pp P2 NP NQ HP HQ. pose proof (prime_ge_2 p Pp) as H0. unfold plus.
  rewrite (is_on_true a b p E P HE ltac:(lia) HP), (is_on_true a b p E Q HE ltac:(lia) HQ). cbn [bind assertb].
  destruct HE as (Ea & Eb & Ep & Epol). unfold is_infinity. destruct (pz P =? 0) eqn:X; [lia|]. destruct (pz Q =? 0) eqn:Y; [lia|].
  unfold canonicalize, mod_floor. rewrite Ep. destruct (p =? 0) eqn:Z0; [lia|]. cbn [bind px py pz].
  unfold affine in *. rewrite X in *. rewrite Y in *. revert HP HQ. 
  generalize (px P mod p) (py P mod p) (px Q mod p) (py Q mod p). intros x1 y1 x2 y2 (Bx1 & By1 & C1) (Bx2 & By2 & C2).
  destruct (x1 =? x2) eqn:Ex; cbn [negb].
  - assert (x2 = x1) by lia. subst x2. clear Ex.
    destruct (negb (y1 =? y2) || (y1 =? 0)) eqn:Ey.
    + exists None. split; [reflexivity|]. constructor.
      assert (D: (p | (y1 - y2) * (y1 + y2))).
      { replace ((y1 - y2) * (y1 + y2)) with (y1 * y1 - (x1 * x1 * x1 + a * x1 + b) - (y2 * y2 - (x1 * x1 * x1 + a * x1 + b))) by ring. apply Z.divide_sub_r; assumption. }
      apply prime_mult in D; [|exact Pp]. destruct D as [D|D]; [|exact D]. apply mod_eq_divide in D; [|lia]. rewrite !Z.mod_small in D by assumption.
      assert (y1 = 0 /\ y2 = 0) as (-> & ->) by lia. exists 0. ring.
    + assert (y2 = y1) by lia. subst y2. assert (y1 <> 0) by lia.
      assert (D: ~ (p | 2 * y1)). { intros D. apply prime_mult in D; [|exact Pp]. destruct D as [D|D]; apply Z.divide_pos_le in D; lia. }
      rewrite power_i32_spec by lia. cbn [bind]. destruct (inverse_spec (2 * y1) p Pp D) as (r & Er & _ & Hr). rewrite Er. cbn [bind]. rewrite power_i32_spec by lia. cbn [bind]. rewrite Ea, (pow2 x1).
      set (m := (3 * (x1 * x1) + a) * r).
      exists (line_third p m x1 y1 x1). split.
      * rewrite line_third_model by lia. cbn [pt_of]. replace (m ^ 2 - x1 - x1) with (m ^ 2 - 2 * x1) by ring. reflexivity.
      * constructor; [exact D|]. unfold m. replace ((3 * (x1 * x1) + a) * r * (2 * y1) - (3 * (x1 * x1) + a)) with ((3 * (x1 * x1) + a) * (2 * y1 * r - 1)) by ring. apply Z.divide_mul_r, Hr.
  - assert (D: ~ (p | x2 - x1)). { rewrite <- mod_eq_divide by lia. rewrite !Z.mod_small by lia. lia. }
    destruct (inverse_spec (x2 - x1) p Pp D) as (r & Er & _ & Hr). rewrite Er. cbn [bind]. rewrite power_i32_spec by lia. cbn [bind].
    set (m := (y2 - y1) * r). exists (line_third p m x1 y1 x2). split.
    + rewrite line_third_model by lia. reflexivity.
    + constructor; [exact D|]. unfold m. replace ((y2 - y1) * r * (x2 - x1) - (y2 - y1)) with ((y2 - y1) * ((x2 - x1) * r - 1)) by ring. apply Z.divide_mul_r, Hr.
Qed.
Lemma pt_of_affine p P : canon p P -> affine p (pt_of P) = P.
Proof. destruct P as [[x y]|]; [|reflexivity]. cbn. intros (H1 & H2). unfold affine. cbn. rewrite !Z.mod_small by assumption. reflexivity. Qed.

Section Ops.
Variables (a b p : Z) (E : curve).
Hypothesis HE : fields a b p E.
Hypothesis Pp : prime p.
Hypothesis P2 : p <> 2.
Notation "P +++ Q" := (esum a p Pp P Q) (at level 50).
Notation onc P := (on_curve a b p (affine p P)).
Lemma p_pos' : 0 < p. Proof using Pp. clear - Pp. destruct Pp; lia. Qed.
Lemma plus_finite P Q : pz P <> 0 -> pz Q <> 0 -> onc P -> onc Q -> plus E P Q = Ok (pt_of (affine p P +++ affine p Q)).
Proof using HE P2.
  intros NP NQ HP HQ. destruct (plus_finite_rel a b p E P Q HE Pp P2 NP NQ HP HQ) as (R & -> & H).
  rewrite (ec_sum_esum a b p Pp P2 _ _ R HP HQ H). reflexivity.
Qed.
(** The sum is right unless the right argument alone is infinite. *)
Lemma plus_ok P Q : onc P -> onc Q -> pz P = 0 \/ pz Q <> 0 -> exists R, plus E P Q = Ok R /\ affine p R = affine p P +++ affine p Q /\ (pz R = 0 -> R = Q \/ R = infinity).
Proof using HE P2.
  intros HP HQ D. pose proof p_pos' as H0. destruct (Z.eq_dec (pz P) 0) as [ZP|ZP].
  - exists Q. split; [apply (plus_inf_l a b p); assumption|]. split; [|tauto]. unfold affine at 2. rewrite ZP. cbn [Z.eqb]. symmetry. apply esum_0_l. apply affine_canon, H0.
  - destruct D as [D|D]; [contradiction|]. exists (pt_of (affine p P +++ affine p Q)). split; [apply plus_finite; assumption|].
    split; [apply pt_of_affine, (canon_bk p Pp)|]. destruct (affine p P +++ affine p Q) as [[x y]|]; cbn [pt_of infinity pz]; [intros; lia|tauto].
Qed.
End Ops.
