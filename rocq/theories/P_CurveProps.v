(** Lemmas behind the property theorems C51-C66, C76. *)
From Coq Require Import Znumtheory ZifyBool.
From Verif Require Import Prelude M_Bigint M_Variable M_Term M_Poly M_Curve Spec SpecCurve P_Bigint P_Variable P_Subst P_Group P_Fp P_Curve P_Curve2 P_Curve3 P_Curve4.
Open Scope Z_scope.

(** C51: for p <> 0 (also negative, composite), is_on_curve always answers, true exactly for z = 0 or the curve equation modulo p. *)
Lemma c51_decides : forall a b p E P, p <> 0 -> curve_of a b p E ->
  exists c, is_on_curve E P = Ok c /\ (c = true <-> pz P = 0 \/ curve_eqn a b p (px P) (py P)).
Proof. intros a b p E P Hp HE. apply (is_on_curve_spec a b p); [apply curve_of_fields, HE|exact Hp]. Qed.
(** C51: only the residues modulo p matter (and whether z is 0). *)
Lemma c51_residues : forall a b p E x y z k l, 0 < p -> curve_of a b p E ->
  is_on_curve E (mkPt (x + k * p) (y + l * p) z) = is_on_curve E (mkPt x y z).
Proof.
  intros a b p E x y z k l Hp HE. apply curve_of_fields in HE.
  destruct (is_on_curve_spec a b p E (mkPt (x + k * p) (y + l * p) z) HE ltac:(lia)) as (c & -> & Hc).
  destruct (is_on_curve_spec a b p E (mkPt x y z) HE ltac:(lia)) as (d & -> & Hd). f_equal. cbn [px py pz] in *.
  assert (X: curve_eqn a b p (x + k * p) (y + l * p) <-> curve_eqn a b p x y).
  { rewrite <- (curve_eqn_mod a b p (x + k * p)), <- (curve_eqn_mod a b p x y) by exact Hp. rewrite !Z.mod_add by lia. reflexivity. }
  rewrite X in Hc. rewrite <- Hd in Hc. destruct c, d; intuition congruence.
Qed.
(** C51: over the modulus 0 every finite point is rejected by a panic. *)
Lemma c51_zero_modulus : forall a b P, pz P <> 0 -> is_on_curve (new_raw a b 0) P = Panic.
Proof.
  intros a b P H. unfold is_on_curve, is_infinity. destruct (pz P =? 0) eqn:X; [lia|]. cbn [new_raw cpol cp]. rewrite weier_val. reflexivity.
Qed.
Example c51_case : is_on_curve (new_raw 1 1 5) (mkPt (-5) 6 3) = Ok true /\ is_on_curve (new_raw 1 1 5) (mkPt 1 0 1) = Ok false.
Proof. split; reflexivity. Qed.

(** C52: plus panics exactly when an argument is off the curve (p > 0 prime). *)
Lemma c52_panics : forall a b p E P Q, prime p -> p <> 2 -> curve_of a b p E ->
  (plus E P Q = Panic <-> is_on_curve E P = Ok false \/ is_on_curve E Q = Ok false).
Proof.
  intros a b p E P Q Pp P2 HE. apply curve_of_fields in HE. pose proof (prime_ge_2 p Pp).
  destruct (is_on_curve_spec a b p E P HE ltac:(lia)) as (c & EP & Hc). destruct (is_on_curve_spec a b p E Q HE ltac:(lia)) as (d & EQ & Hd).
  split.
  - intros HPan. rewrite EP, EQ. destruct c; [|tauto]. destruct d; [|tauto]. exfalso.
    destruct (plus_on a b p E HE Pp P2 P Q) as (R & ER & _); [apply (is_on_inv a b p E); [exact HE|lia|exact EP]|apply (is_on_inv a b p E); [exact HE|lia|exact EQ]|congruence].
  - intros [X|X].
    + unfold plus. rewrite X. reflexivity.
    + unfold plus. rewrite EP. destruct c; [|reflexivity]. cbn [bind assertb]. rewrite X. reflexivity.
Qed.
(** C52: on points of the curve plus returns a point of the curve. *)
Lemma c52_closed : forall a b p E P Q, prime p -> p <> 2 -> curve_of a b p E ->
  is_on_curve E P = Ok true -> is_on_curve E Q = Ok true -> exists R, plus E P Q = Ok R /\ is_on_curve E R = Ok true.
Proof.
  intros a b p E P Q Pp P2 HE HP HQ. apply curve_of_fields in HE. pose proof (prime_ge_2 p Pp).
  destruct (plus_on a b p E HE Pp P2 P Q) as (R & ER & HR); [apply (is_on_inv a b p E); [exact HE|lia|assumption]..|].
  exists R. split; [exact ER|]. apply (is_on_true a b p); [exact HE|lia|exact HR].
Qed.
(** C52: and for finite arguments the result is the chord-and-tangent sum, either (0,1,0) or (x,y,1) with residues in [0,p). *)
Lemma c52_chord_tangent : forall a b p E P Q, prime p -> p <> 2 -> curve_of a b p E -> pz P <> 0 -> pz Q <> 0 ->
  is_on_curve E P = Ok true -> is_on_curve E Q = Ok true ->
  exists R, plus E P Q = Ok R /\ ec_sum a p (affine p P) (affine p Q) (affine p R) /\
    (R = infinity \/ (pz R = 1 /\ 0 <= px R < p /\ 0 <= py R < p)).
Proof.
  intros a b p E P Q Pp P2 HE ZP ZQ HP HQ. apply curve_of_fields in HE. pose proof (prime_ge_2 p Pp).
  apply (is_on_inv a b p E) in HP; [|exact HE|lia]. apply (is_on_inv a b p E) in HQ; [|exact HE|lia].
  destruct (plus_finite_rel a b p E P Q HE Pp P2 ZP ZQ HP HQ) as (R & ER & HS). exists (pt_of R). split; [exact ER|].
  assert (C: canon p R) by (apply (ec_sum_canon a p Pp P2 (affine p P) (affine p Q)); [apply affine_canon; lia..|exact HS]).
  rewrite pt_of_affine by exact C. split; [exact HS|]. destruct R as [[x y]|]; [right|left; reflexivity]. cbn in *. tauto.
Qed.
Example c52_case : curve_of 1 1 5 (new_raw 1 1 5) /\ is_on_curve (new_raw 1 1 5) (mkPt 0 1 1) = Ok true /\
  plus (new_raw 1 1 5) (mkPt 0 1 1) (mkPt 0 1 1) = Ok (mkPt 4 2 1) /\ plus (new_raw 1 1 5) (mkPt 0 1 1) (mkPt 4 2 1) = Ok (mkPt 2 1 1).
Proof. split; [left; reflexivity|]. repeat split. Qed.

(** C53: for every prime p (2 included) and all finite points, on the curve or not, the order of the arguments is irrelevant. *)
Lemma c53_commutative : forall a b p E P Q, prime p -> curve_of a b p E -> pz P <> 0 -> pz Q <> 0 -> plus E P Q = plus E Q P.
Proof.
  intros a b p E P Q Pp HE ZP ZQ. apply curve_of_fields in HE. pose proof (prime_ge_2 p Pp).
  destruct (is_on_curve_spec a b p E P HE ltac:(lia)) as (c & EP & _). destruct (is_on_curve_spec a b p E Q HE ltac:(lia)) as (d & EQ & _).
  unfold plus. rewrite EP, EQ. destruct c, d; cbn [bind assertb]; try reflexivity.
  destruct HE as (Ea & Eb & Ep & Epol). unfold is_infinity. destruct (pz P =? 0) eqn:X; [lia|]. destruct (pz Q =? 0) eqn:Y; [lia|].
  unfold canonicalize, mod_floor. rewrite Ep. destruct (p =? 0) eqn:Z0; [lia|]. cbn [bind px py pz].
  pose proof (Z.mod_pos_bound (px P) p ltac:(lia)) as B1. pose proof (Z.mod_pos_bound (px Q) p ltac:(lia)) as B2. revert B1 B2.
  generalize (px P mod p) (py P mod p) (px Q mod p) (py Q mod p). intros x1 y1 x2 y2 B1 B2.
  rewrite (Z.eqb_sym x2 x1), (Z.eqb_sym y2 y1). destruct (x1 =? x2) eqn:Ex; cbn [negb].
  - assert (x2 = x1) by lia. subst x2. destruct (y1 =? y2) eqn:Ey; cbn [negb orb]; [|reflexivity]. assert (y2 = y1) by lia. subst y2. reflexivity.
  - assert (D1: ~ (p | x2 - x1)). { rewrite <- mod_eq_divide by lia. rewrite !Z.mod_small by lia. lia. }
    assert (D2: ~ (p | x1 - x2)). { rewrite <- mod_eq_divide by lia. rewrite !Z.mod_small by lia. lia. }
    destruct (inverse_spec (x2 - x1) p Pp D1) as (r & -> & _ & Hr). destruct (inverse_spec (x1 - x2) p Pp D2) as (s & -> & _ & Hs). cbn [bind]. rewrite !power_i32_spec by lia. cbn [bind].
    assert (RS: (p | r + s)). { apply (prime_mul_cancel p (x2 - x1) r (- s) Pp D1) in D1 || idtac. replace (r + s) with (r - - s) by ring. apply (prime_mul_cancel p (x2 - x1)); [exact Pp|exact D1|].
      replace ((x2 - x1) * r - (x2 - x1) * - s) with (((x2 - x1) * r - 1) - ((x1 - x2) * s - 1)) by ring. apply Z.divide_sub_r; assumption. }
    assert (MM: (p | (y2 - y1) * r - (y1 - y2) * s)) by (replace ((y2 - y1) * r - (y1 - y2) * s) with ((y2 - y1) * (r + s)) by ring; apply Z.divide_mul_r, RS).
    set (m := (y2 - y1) * r) in *. set (m' := (y1 - y2) * s) in *.
    assert (MX: (p | (m ^ 2 - x1 - x2) - (m' ^ 2 - x2 - x1))) by (replace ((m ^ 2 - x1 - x2) - (m' ^ 2 - x2 - x1)) with ((m - m') * (m + m')) by ring; apply Z.divide_mul_l, MM).
    assert (ML: (p | m * (x2 - x1) - (y2 - y1))) by (unfold m; replace ((y2 - y1) * r * (x2 - x1) - (y2 - y1)) with ((y2 - y1) * ((x2 - x1) * r - 1)) by ring; apply Z.divide_mul_r, Hr).
    assert (MY: (p | (m * (x1 - (m ^ 2 - x1 - x2)) - y1) - (m' * (x2 - (m' ^ 2 - x2 - x1)) - y2))).
    { replace ((m * (x1 - (m ^ 2 - x1 - x2)) - y1) - (m' * (x2 - (m' ^ 2 - x2 - x1)) - y2)) with
        ((m - m') * (x2 - (m' ^ 2 - x2 - x1)) - m * ((m ^ 2 - x1 - x2) - (m' ^ 2 - x2 - x1)) - (m * (x2 - x1) - (y2 - y1))) by ring.
      apply Z.divide_sub_r; [apply Z.divide_sub_r|]; [apply Z.divide_mul_l, MM|apply Z.divide_mul_r, MX|exact ML]. }
    apply mod_eq_divide in MX; [|lia]. apply mod_eq_divide in MY; [|lia]. rewrite MX, MY. reflexivity.
Qed.
Example c53_case : plus (new_raw 1 1 5) (mkPt 0 1 1) (mkPt 4 2 1) = Ok (mkPt 2 1 1) /\ plus (new_raw 1 1 5) (mkPt 4 2 1) (mkPt 0 1 1) = Ok (mkPt 2 1 1).
Proof. split; reflexivity. Qed.

(** C54: negate keeps the curve (for every p > 0), negates the affine point, and applied twice gives the point back. *)
Lemma c54_negate : forall a b p E P, 0 < p -> curve_of a b p E -> is_on_curve E P = Ok true ->
  exists R, negate E P = Ok R /\ is_on_curve E R = Ok true /\ affine p R = ec_neg p (affine p P) /\
  exists S, negate E R = Ok S /\ affine p S = affine p P.
Proof.
  intros a b p E P Hp HE HP. apply curve_of_fields in HE. pose proof (is_on_inv a b p E P HE Hp HP) as OP. pose proof HE as (Ea & Eb & Ep & Epol).
  unfold negate, is_infinity. destruct (pz P =? 0) eqn:X.
  - exists P. split; [reflexivity|]. split; [exact HP|]. split; [unfold affine; rewrite X; reflexivity|]. rewrite X. exists P. split; reflexivity.
  - unfold mod_floor. rewrite Ep. destruct (p =? 0) eqn:Z0; [lia|]. cbn [bind]. eexists. split; [reflexivity|]. cbn [pz py px]. rewrite X.
    split; [|split].
    + apply (is_on_true a b p); [exact HE|exact Hp|]. apply affine_on; [exact Hp|]. right. cbn [px py]. apply affine_on in OP; [|exact Hp]. destruct OP as [OP|OP]; [lia|].
      apply (proj1 (curve_eqn_mod a b p _ _ Hp)). rewrite Z.mod_mod by lia. apply (proj2 (curve_eqn_mod a b p _ _ Hp)). unfold curve_eqn in *. replace (- py P * - py P) with (py P * py P) by ring. exact OP.
    + unfold affine. cbn [pz px py]. rewrite X. cbn [ec_neg]. do 2 f_equal. rewrite Z.mod_mod by lia. apply mod_eq_divide; [lia|]. replace (- py P - - (py P mod p)) with (py P mod p - py P) by ring. apply mod_eq_divide; [lia|]. apply Z.mod_mod. lia.
    + cbn [bind]. eexists. split; [reflexivity|]. unfold affine. cbn [pz px py]. rewrite X. do 2 f_equal. rewrite Z.mod_mod by lia. apply mod_eq_divide; [lia|].
      exists (- py P / p). pose proof (Z.div_mod (- py P) p). lia.
Qed.
(** C54: P + (-P) is infinity; and for finite points on the curve nothing but -P does that. *)
Lemma c54_inverse : forall a b p E P, prime p -> p <> 2 -> curve_of a b p E -> is_on_curve E P = Ok true ->
  exists N R, negate E P = Ok N /\ plus E P N = Ok R /\ is_infinity R = true.
Proof.
  intros a b p E P Pp P2 HE HP. pose proof (prime_ge_2 p Pp). destruct (c54_negate a b p E P ltac:(lia) HE HP) as (N & EN & HN & AN & _). exists N.
  apply curve_of_fields in HE. apply (is_on_inv a b p E) in HP; [|exact HE|lia]. apply (is_on_inv a b p E) in HN; [|exact HE|lia].
  destruct (plus_ok a b p E HE Pp P2 P N HP HN) as (R & ER & AR & _).
  { destruct (Z.eq_dec (pz P) 0) as [Z|Z]; [left; exact Z|right]. intros Z'. apply aff_none with (p := p) in Z'. rewrite Z' in AN. unfold affine in AN. destruct (pz P =? 0) eqn:X; [lia|discriminate]. }
  exists R. split; [exact EN|]. split; [exact ER|]. rewrite AN, (esum_neg a b p Pp P2) in AR by exact HP. apply aff_none in AR. unfold is_infinity. lia.
Qed.
Lemma c54_only_inverse : forall a b p E P Q R, prime p -> p <> 2 -> curve_of a b p E -> pz P <> 0 -> pz Q <> 0 ->
  plus E P Q = Ok R -> is_infinity R = true -> affine p Q = ec_neg p (affine p P).
Proof.
  intros a b p E P Q R Pp P2 HE ZP ZQ HR HI. pose proof (prime_ge_2 p Pp).
  assert (HP: is_on_curve E P = Ok true). { unfold plus in HR. apply bind_inv in HR as (c & -> & HR). destruct c; [reflexivity|discriminate]. }
  assert (HQ: is_on_curve E Q = Ok true). { unfold plus in HR. rewrite HP in HR. cbn [bind assertb] in HR. apply bind_inv in HR as (c & -> & HR). destruct c; [reflexivity|discriminate]. }
  apply curve_of_fields in HE. apply (is_on_inv a b p E) in HP; [|exact HE|lia]. apply (is_on_inv a b p E) in HQ; [|exact HE|lia].
  apply (esum_none a b p Pp P2 _ _ HP HQ).
  destruct (plus_ok a b p E HE Pp P2 P Q HP HQ) as (R' & ER & AR & _); [tauto|]. rewrite ER in HR. injection HR as ->. rewrite <- AR. apply aff_none. unfold is_infinity in HI. lia.
Qed.
Example c54_case : negate (new_raw 1 1 5) (mkPt 4 2 1) = Ok (mkPt 4 3 1) /\ plus (new_raw 1 1 5) (mkPt 4 2 1) (mkPt 4 3 1) = Ok infinity.
Proof. split; reflexivity. Qed.

(** C55: any representation of infinity on the left returns the right argument unchanged (p > 0, also composite). *)
Lemma c55_left_identity : forall a b p E O Q, 0 < p -> curve_of a b p E -> is_infinity O = true -> is_on_curve E Q = Ok true ->
  plus E O Q = Ok Q.
Proof.
  intros a b p E O Q Hp HE HO HQ. apply curve_of_fields in HE. apply (plus_inf_l a b p); [exact HE|exact Hp|unfold is_infinity in HO; lia|]. apply (is_on_inv a b p E); assumption.
Qed.
Example c55_case : plus (new_raw 1 1 5) (mkPt 7 9 0) (mkPt (-1) 2 1) = Ok (mkPt (-1) 2 1).
Proof. reflexivity. Qed.

(** C56 is false: infinity on the right turns a finite point into infinity. *)
Lemma c56_right_identity_refuted : exists a b p E P, elliptic a b p /\ curve_of a b p E /\ is_on_curve E P = Ok true /\ is_infinity P = false /\
  exists R, plus E P infinity = Ok R /\ is_infinity R = true /\ affine p R <> affine p P.
Proof.
  exists 1, 1, 5, (new_raw 1 1 5), (mkPt 0 1 1). split; [|split; [left; reflexivity|]].
  - split; [apply is_prime_spec; reflexivity|]. split; [lia|]. intros D. apply Z.mod_divide in D; [|lia]. discriminate.
  - split; [reflexivity|]. split; [reflexivity|]. exists (mkPt 0 1 0). split; [reflexivity|]. split; [reflexivity|]. discriminate.
Qed.
(** C56, what holds: for every finite point of every curve the answer is (P.x, O.y, 0), a representation of infinity, never P; infinity + infinity is infinity. *)
Lemma c56_right_identity_partial : forall a b p E P O, 0 < p -> curve_of a b p E -> is_on_curve E P = Ok true -> is_infinity O = true ->
  plus E P O = Ok (if is_infinity P then O else mkPt (px P) (py O) 0).
Proof.
  intros a b p E P O Hp HE HP HO. apply curve_of_fields in HE. apply (is_on_inv a b p E) in HP; [|exact HE|exact Hp]. unfold is_infinity in *. destruct (pz P =? 0) eqn:X.
  - apply (plus_inf_l a b p); [exact HE|exact Hp|lia|]. apply affine_on; [exact Hp|lia].
  - apply (plus_inf_r a b p); [exact HE|exact Hp|lia|lia|exact HP].
Qed.
Example c56_case : is_on_curve (new_raw 1 1 5) (mkPt 2 4 1) = Ok true /\ plus (new_raw 1 1 5) (mkPt 2 4 1) infinity = Ok (mkPt 2 1 0).
Proof. split; reflexivity. Qed.

(** C57: associativity wherever no addition has a finite left and an infinite right argument. *)
Lemma c57_associative : forall a b p E P Q R PQ QR, elliptic a b p -> curve_of a b p E ->
  is_on_curve E P = Ok true -> is_on_curve E Q = Ok true -> is_on_curve E R = Ok true ->
  plus E P Q = Ok PQ -> plus E Q R = Ok QR ->
  pz P = 0 \/ pz Q <> 0 -> pz Q = 0 \/ pz R <> 0 -> pz PQ = 0 \/ pz R <> 0 -> pz P = 0 \/ pz QR <> 0 ->
  exists U V, plus E PQ R = Ok U /\ plus E P QR = Ok V /\ affine p U = affine p V.
Proof.
  intros a b p E P Q R PQ QR (Pp & P2 & NS) HE HP HQ HR EPQ EQR D1 D2 D3 D4. pose proof (prime_ge_2 p Pp). apply curve_of_fields in HE.
  apply (is_on_inv a b p E) in HP; [|exact HE|lia]. apply (is_on_inv a b p E) in HQ; [|exact HE|lia]. apply (is_on_inv a b p E) in HR; [|exact HE|lia].
  destruct (plus_ok a b p E HE Pp P2 P Q HP HQ D1) as (X & EX & AX & _). rewrite EPQ in EX. injection EX as <-.
  destruct (plus_ok a b p E HE Pp P2 Q R HQ HR D2) as (X & EX & AY & _). rewrite EQR in EX. injection EX as <-.
  assert (OPQ: on_curve a b p (affine p PQ)) by (rewrite AX; apply (esum_on a b p Pp P2); assumption).
  assert (OQR: on_curve a b p (affine p QR)) by (rewrite AY; apply (esum_on a b p Pp P2); assumption).
  destruct (plus_ok a b p E HE Pp P2 PQ R OPQ HR D3) as (U & EU & AU & _). destruct (plus_ok a b p E HE Pp P2 P QR HP OQR D4) as (V & EV & AV & _).
  exists U, V. split; [exact EU|]. split; [exact EV|]. rewrite AU, AV, AX, AY. apply (esum_assoc a b p Pp P2 NS); assumption.
Qed.
(** C57: in particular for finite P, Q, R with Q + R finite, whatever P + Q is. *)
Lemma c57_finite : forall a b p E P Q R QR, elliptic a b p -> curve_of a b p E ->
  is_on_curve E P = Ok true -> is_on_curve E Q = Ok true -> is_on_curve E R = Ok true ->
  is_infinity P = false -> is_infinity Q = false -> is_infinity R = false -> plus E Q R = Ok QR -> is_infinity QR = false ->
  exists PQ U V, plus E P Q = Ok PQ /\ plus E PQ R = Ok U /\ plus E P QR = Ok V /\ affine p U = affine p V.
Proof.
  unfold is_infinity. intros a b p E P Q R QR HEl HE HP HQ HR IP IQ IR EQR IQR. pose proof HEl as (Pp & P2 & NS).
  destruct (c52_closed a b p E P Q Pp P2 HE HP HQ) as (PQ & EPQ & _). exists PQ.
  destruct (c57_associative a b p E P Q R PQ QR HEl HE HP HQ HR EPQ EQR ltac:(lia) ltac:(lia) ltac:(lia) ltac:(lia)) as (U & V & H). exists U, V. tauto.
Qed.
Example c57_case : let E := new_raw 1 1 5 in let P := mkPt 0 1 1 in let Q := mkPt 4 2 1 in let R := mkPt 2 1 1 in
  plus E P Q = Ok (mkPt 2 1 1) /\ plus E Q R = Ok (mkPt 3 1 1) /\ plus E (mkPt 2 1 1) R = Ok (mkPt 2 4 1) /\ plus E P (mkPt 3 1 1) = Ok (mkPt 2 4 1).
Proof. repeat split. Qed.

(** C58: for n >= 1 with 2^(log2 n) P finite, and for n = 0, multiply_scalar(P, n) is the n-fold sum. *)
Lemma c58_iterated_addition : forall a b p E P n, elliptic a b p -> curve_of a b p E -> is_on_curve E P = Ok true -> 0 <= n ->
  (1 <= n -> ~ ec_mult a p (affine p P) (Z.to_nat (2 ^ Z.log2 n)) None) ->
  exists R, multiply_scalar E P n = Ok R /\ is_on_curve E R = Ok true /\ ec_mult a p (affine p P) (Z.to_nat n) (affine p R).
Proof.
  intros a b p E P n (Pp & P2 & NS) HE HP Hn N. pose proof (prime_ge_2 p Pp). apply curve_of_fields in HE. apply (is_on_inv a b p E) in HP; [|exact HE|lia].
  destruct (mult_value a b p E HE Pp P2 NS P n HP Hn) as (R & ER & AR). exists R. split; [exact ER|]. rewrite (ec_mult_iff a b p Pp P2) by exact HP.
  assert (X: affine p R = emul a p Pp (Z.to_nat n) (affine p P)).
  { destruct (n =? 0) eqn:N0; [replace n with 0 by lia; exact AR|]. rewrite AR. specialize (N ltac:(lia)). rewrite (ec_mult_iff a b p Pp P2) in N by exact HP. unfold top. destruct (emul a p Pp (Z.to_nat (2 ^ Z.log2 n)) (affine p P)); [reflexivity|congruence]. }
  split; [|exact X]. apply (is_on_true a b p); [exact HE|lia|]. rewrite X. apply (emul_on a b p Pp P2), HP.
Qed.
Lemma odd_pow2 m k : Nat.odd m = true -> Nat.divide m (2 ^ k) -> m = 1%nat.
Proof.
  intros Ho. induction k as [|k IH]; intros (q & Hq).
  - cbn in Hq. destruct q as [|[|q]]; destruct m as [|[|m]]; cbn in Hq; lia.
  - apply IH. rewrite Nat.pow_succ_r' in Hq. destruct (Nat.Even_or_Odd q) as [(r & Hr)|(r & Hr)].
    + exists r. lia.
    + apply Nat.odd_spec in Ho. destruct Ho as (s & Hs). exfalso. subst. nia.
Qed.
(** C58: for points of odd order there is no exception. *)
Lemma c58_odd_order : forall a b p E P m n, elliptic a b p -> curve_of a b p E -> is_on_curve E P = Ok true -> 0 <= n ->
  ec_order a p (affine p P) m -> Z.odd m = true ->
  exists R, multiply_scalar E P n = Ok R /\ ec_mult a p (affine p P) (Z.to_nat n) (affine p R).
Proof.
  intros a b p E P m n (Pp & P2 & NS) HE HP Hn HO Om. pose proof (prime_ge_2 p Pp). apply curve_of_fields in HE. apply (is_on_inv a b p E) in HP; [|exact HE|lia].
  destruct (mult_value a b p E HE Pp P2 NS P n HP Hn) as (R & ER & AR). exists R. split; [exact ER|]. rewrite (ec_mult_iff a b p Pp P2) by exact HP.
  destruct (n =? 0) eqn:N0; [replace n with 0 by lia; exact AR|]. rewrite AR. destruct (emul a p Pp (top n) (affine p P)) eqn:T; [reflexivity|].
  assert (M1: 1 <= m) by apply HO. rewrite <- (Z2Nat.id m) in HO by lia. rewrite <- (eorder_ec_order a b p Pp P2) in HO by exact HP.
  pose proof (eorder_divide a b p Pp P2 NS _ _ _ HP HO T) as D. unfold top in D. rewrite Z2Nat.inj_pow in D by (try lia; apply Z.log2_nonneg).
  apply odd_pow2 in D; [|rewrite <- (Z2Nat.id m) in Om by lia; apply Nat.odd_spec; destruct (Nat.Even_or_Odd (Z.to_nat m)) as [(r & Hr)|Hr]; [|exact Hr]; rewrite Hr, Nat2Z.inj_mul, Z.odd_mul in Om; cbn in Om; discriminate].
  rewrite D in HO. destruct HO as (_ & HO & _). rewrite (emul_1 a p Pp) in HO by (apply affine_canon; lia). rewrite HO. symmetry. apply emul_none.
Qed.
(** C58, C59: the points of order 9 of a curve with 9 points. *)
Example c58_case : multiply_scalar (new_raw 1 1 5) (mkPt 0 1 1) 7 = Ok (mkPt 4 3 1) /\ multiply_scalar (new_raw 1 1 5) (mkPt 0 1 1) 8 = Ok (mkPt 0 4 1).
Proof. split; reflexivity. Qed.

Ltac small_elliptic := split; [apply is_prime_spec; reflexivity|]; split; [lia|]; let D := fresh in intros D; apply Z.mod_divide in D; [discriminate|lia].
(** C59 is false: 3P for a point P of order 2 is P, multiply_scalar answers infinity. *)
Lemma c59_all_points_refuted : exists a b p E P, elliptic a b p /\ curve_of a b p E /\ is_on_curve E P = Ok true /\
  ec_mult a p (affine p P) 3 (affine p P) /\ is_infinity P = false /\ exists R, multiply_scalar E P 3 = Ok R /\ is_infinity R = true.
Proof.
  exists 0, 1, 5, (new_raw 0 1 5), (mkPt 4 0 1). split; [small_elliptic|]. split; [left; reflexivity|]. split; [reflexivity|].
  assert (A: affine 5 (mkPt 4 0 1) = Some (4, 0)) by reflexivity. rewrite A. split.
  - apply (mult_S 0 5 _ 2 None); [|constructor]. apply (mult_S 0 5 _ 1 (Some (4, 0))); [apply (mult_S 0 5 _ 0 None); constructor|]. constructor. exists 0. reflexivity.
  - split; [reflexivity|]. eexists. split; [reflexivity|]. reflexivity.
Qed.
(** C59, what holds, for every point and every n >= 1: multiply_scalar returns a point on the curve; it is nP if
    2^(log2 n) P is finite, and infinity otherwise. *)
Lemma c59_all_points_partial : forall a b p E P n, elliptic a b p -> curve_of a b p E -> is_on_curve E P = Ok true -> 1 <= n ->
  exists R, multiply_scalar E P n = Ok R /\ is_on_curve E R = Ok true /\
    (~ ec_mult a p (affine p P) (Z.to_nat (2 ^ Z.log2 n)) None -> ec_mult a p (affine p P) (Z.to_nat n) (affine p R)) /\
    (ec_mult a p (affine p P) (Z.to_nat (2 ^ Z.log2 n)) None -> is_infinity R = true).
Proof.
  intros a b p E P n (Pp & P2 & NS) HE HP Hn. pose proof (prime_ge_2 p Pp). apply curve_of_fields in HE. apply (is_on_inv a b p E) in HP; [|exact HE|lia].
  destruct (mult_value a b p E HE Pp P2 NS P n HP ltac:(lia)) as (R & ER & AR). exists R. split; [exact ER|]. destruct (n =? 0) eqn:N0; [lia|].
  rewrite !(ec_mult_iff a b p Pp P2) by exact HP. unfold top in AR. split; [|split].
  - apply (is_on_true a b p); [exact HE|lia|]. rewrite AR. destruct (emul a p Pp (Z.to_nat (2 ^ Z.log2 n)) (affine p P)); [apply (emul_on a b p Pp P2), HP|exact I].
  - intros N. rewrite AR. destruct (emul a p Pp (Z.to_nat (2 ^ Z.log2 n)) (affine p P)); [reflexivity|congruence].
  - intros N. rewrite <- N in AR. apply aff_none in AR. unfold is_infinity. lia.
Qed.
(** C59: nP = O is always recognised as infinity. *)
Lemma c59_zero_multiple : forall a b p E P n, elliptic a b p -> curve_of a b p E -> is_on_curve E P = Ok true -> 0 <= n ->
  ec_mult a p (affine p P) (Z.to_nat n) None -> exists R, multiply_scalar E P n = Ok R /\ is_infinity R = true.
Proof.
  intros a b p E P n (Pp & P2 & NS) HE HP Hn HM. pose proof (prime_ge_2 p Pp). apply curve_of_fields in HE. apply (is_on_inv a b p E) in HP; [|exact HE|lia].
  destruct (mult_value a b p E HE Pp P2 NS P n HP ltac:(lia)) as (R & ER & AR). exists R. split; [exact ER|]. rewrite (ec_mult_iff a b p Pp P2) in HM by exact HP.
  assert (affine p R = None). { rewrite AR. rewrite <- HM. destruct (n =? 0); [reflexivity|]. destruct (emul a p Pp (top n) (affine p P)); reflexivity. }
  apply aff_none in H0. unfold is_infinity. lia.
Qed.
Example c59_case : multiply_scalar (new_raw 0 1 5) (mkPt 4 0 1) 3 = Ok (mkPt 4 1 0) /\ multiply_scalar (new_raw 0 1 5) (mkPt 4 0 1) 4 = Ok infinity.
Proof. split; reflexivity. Qed.

(** C60 is false: (-1)P is P. *)
Lemma c60_negative_refuted : exists a b p E P R N, elliptic a b p /\ curve_of a b p E /\ is_on_curve E P = Ok true /\
  multiply_scalar E P (-1) = Ok R /\ multiply_scalar E P 1 = Ok P /\ negate E P = Ok N /\ affine p R <> affine p N.
Proof.
  exists 1, 1, 5, (new_raw 1 1 5), (mkPt 0 1 1), (mkPt 0 1 1), (mkPt 0 4 1). split; [small_elliptic|]. split; [left; reflexivity|]. repeat split. discriminate.
Qed.
(** C60, what holds: the sign of the scalar is ignored, for every point and n. *)
Lemma c60_negative_partial : forall a b p E P n, elliptic a b p -> curve_of a b p E -> is_on_curve E P = Ok true ->
  multiply_scalar E P (- n) = multiply_scalar E P n.
Proof.
  intros a b p E P n (Pp & P2 & NS) HE HP. pose proof (prime_ge_2 p Pp). apply curve_of_fields in HE. apply (is_on_inv a b p E) in HP; [|exact HE|lia].
  destruct (Z.eq_dec n 0) as [->|N]; [reflexivity|]. destruct (Z_lt_le_dec 0 n).
  - apply (mult_neg a b p E HE Pp P2 NS); assumption.
  - symmetry. rewrite <- (Z.opp_involutive n) at 1. apply (mult_neg a b p E HE Pp P2 NS); [assumption|lia].
Qed.
Example c60_case : multiply_scalar (new_raw 1 1 5) (mkPt 0 1 1) (-7) = Ok (mkPt 4 3 1).
Proof. reflexivity. Qed.

(** C61: new returns for every prime below 2^64 and panics otherwise; points() lists (0,1,0) and the solutions (x, y, 1), once each. *)
Lemma c61_new_returns : forall a b p, (prime p /\ p < 2 ^ 64 <-> exists E, ec_new a b p = Ok E) /\ (~ (prime p /\ p < 2 ^ 64) <-> ec_new a b p = Panic).
Proof.
  intros a b p. change (2 ^ 64) with 18446744073709551616. 
  assert (X: prime p /\ p < 18446744073709551616 \/ ~ (prime p /\ p < 18446744073709551616)).
  { destruct (prime_dec p); [|tauto]. destruct (Z_lt_dec p 18446744073709551616); tauto. }
  destruct X as [X|X].
  - destruct (ec_new_spec a b p (proj1 X) (proj2 X)) as (E & -> & _). split; split; intros; try tauto; try (exists E; reflexivity). discriminate.
  - rewrite (ec_new_panic a b p X). split; split; intros; try tauto. destruct H; discriminate.
Qed.
Lemma c61_points : forall a b p E, ec_new a b p = Ok E -> NoDup (ec_points E) /\
  forall P, In P (ec_points E) <-> P = infinity \/ (pz P = 1 /\ 0 <= px P < p /\ 0 <= py P < p /\ curve_eqn a b p (px P) (py P)).
Proof.
  intros a b p E HE. destruct (proj1 (c61_new_returns a b p)) as (_ & X). destruct (X (ex_intro _ E HE)) as (Pp & HU). change (2 ^ 64) with 18446744073709551616 in HU.
  destruct (ec_new_spec a b p Pp HU) as (E' & HE' & ND & _ & HI). rewrite HE in HE'. injection HE' as <-. split; [exact ND|]. intros P. unfold ec_points. rewrite HI. unfold is_pt. tauto.
Qed.
(** C61: cardinality() is one more than the number of solutions, whatever duplicate-free list enumerates them, and at most 2p+1. *)
Lemma c61_cardinality : forall a b p E (L : list (Z * Z)), ec_new a b p = Ok E -> NoDup L ->
  (forall x y, In (x, y) L <-> 0 <= x < p /\ 0 <= y < p /\ curve_eqn a b p x y) ->
  cardinality E = Z.of_nat (length L) + 1 /\ cardinality E <= 2 * p + 1.
Proof.
  intros a b p E L HE NL HL. destruct (c61_points a b p E HE) as (ND & HI).
  destruct (proj1 (c61_new_returns a b p)) as (_ & X). destruct (X (ex_intro _ E HE)) as (Pp & HU). change (2 ^ 64) with 18446744073709551616 in HU. pose proof (prime_ge_2 p Pp).
  destruct (ec_new_spec a b p Pp HU) as (E' & HE' & _ & LE & _). rewrite HE in HE'. injection HE' as <-.
  split; [|unfold cardinality; lia]. unfold cardinality, ec_points in *.
  set (M := infinity :: map (fun s => mkPt (fst s) (snd s) 1) L).
  assert (NM: NoDup M).
  { constructor; [rewrite in_map_iff; intros (s & Y & _); discriminate|]. apply NoDup_map_inj_in; [|exact NL]. intros [x y] [x' y'] _ _ Y. cbn in Y. congruence. }
  assert (IM: forall P, In P M <-> In P (cpoints E)).
  { intros P. rewrite HI. unfold M. cbn [In]. rewrite in_map_iff. split.
    - intros [<-|([x y] & <- & HS)]; [left; reflexivity|right]. apply HL in HS. cbn [fst snd px py pz]. tauto.
    - intros [->|(A & B & C & D)]; [left; reflexivity|right]. exists (px P, py P). split; [destruct P; cbn in *; congruence|]. apply HL. tauto. }
  assert (length (cpoints E) = length M).
  { apply Nat.le_antisymm; apply NoDup_incl_length; try assumption; intros P; apply IM. }
  rewrite H0. unfold M. cbn [length]. rewrite map_length. lia.
Qed.
Example c61_case : exists E, ec_new 1 1 5 = Ok E /\ ec_points E = [mkPt 0 1 1; mkPt 0 4 1; mkPt 2 1 1; mkPt 2 4 1; mkPt 3 1 1; mkPt 3 4 1; mkPt 4 2 1; mkPt 4 3 1; infinity] /\ cardinality E = 9.
Proof. eexists. split; [reflexivity|]. split; reflexivity. Qed.

(** C62: point_order terminates on every point of the curve and returns its order. *)
Lemma c62_point_order : forall a b p E P, elliptic a b p -> curve_of a b p E -> is_on_curve E P = Ok true ->
  exists n, ec_order a p (affine p P) n /\ (exists fuel, point_order fuel E P = Ok n) /\ forall fuel m, point_order fuel E P = Ok m -> m = n.
Proof.
  intros a b p E P (Pp & P2 & NS) HE HP. pose proof (prime_ge_2 p Pp). apply curve_of_fields in HE. apply (is_on_inv a b p E) in HP; [|exact HE|lia].
  destruct (eorder_exists a b p Pp P2 NS (affine p P) HP) as (n & HO). exists (Z.of_nat n). split; [apply (eorder_ec_order a b p Pp P2); assumption|].
  pose proof (order_value a b p E HE Pp P2 P n HP HO) as V. split; [exists n; apply V; lia|]. intros fuel m Hm.
  pose proof (order_mono E P fuel m Hm (fuel + n)%nat ltac:(lia)) as M. rewrite V in M by lia. congruence.
Qed.
Example c62_case : point_order 9 (new_raw 1 1 5) (mkPt 0 1 1) = Ok 9 /\ point_order 9 (new_raw 1 1 5) (mkPt 2 1 1) = Ok 3.
Proof. split; reflexivity. Qed.

(** C63: Lagrange. *)
Lemma points_affine a b p E : ec_new a b p = Ok E -> NoDup (map (affine p) (cpoints E)) /\ forall P, In P (map (affine p) (cpoints E)) <-> on_curve a b p P.
Proof.
  intros HE. destruct (c61_points a b p E HE) as (ND & HI). unfold ec_points in *. split.
  - apply NoDup_map_inj_in; [|exact ND]. intros P Q HP HQ. apply HI in HP. apply HI in HQ. unfold affine.
    destruct HP as [->|(A & B & C & D)], HQ as [->|(A' & B' & C' & D')]; cbn [infinity pz Z.eqb]; try rewrite A; try rewrite A'; cbn [Z.eqb]; try congruence.
    rewrite !Z.mod_small by assumption. intros X. injection X as X Y. destruct P, Q; cbn in *. congruence.
  - intros P. rewrite in_map_iff. split.
    + intros (Q & <- & HQ). apply HI in HQ. destruct HQ as [->|(A & B & C & D)]; [exact I|]. unfold affine. rewrite A. cbn [Z.eqb on_curve]. rewrite !Z.mod_small by assumption. tauto.
    + destruct P as [[x y]|]; cbn [on_curve].
      * intros (A & B & C). exists (mkPt x y 1). split; [unfold affine; cbn [px py pz Z.eqb]; rewrite !Z.mod_small by assumption; reflexivity|]. apply HI. right. cbn [px py pz]. tauto.
      * intros _. exists infinity. split; [reflexivity|]. apply HI. left; reflexivity.
Qed.
Lemma c63_lagrange : forall a b p E P, elliptic a b p -> ec_new a b p = Ok E -> is_on_curve E P = Ok true ->
  (exists n fuel, point_order fuel E P = Ok n /\ (n | cardinality E)) /\
  (forall n fuel, point_order fuel E P = Ok n -> (n | cardinality E)) /\
  exists R, multiply_scalar E P (cardinality E) = Ok R /\ is_infinity R = true.
Proof.
  intros a b p E P HEl HE HP. pose proof HEl as (Pp & P2 & NS). pose proof (prime_ge_2 p Pp).
  destruct (c62_point_order a b p E P HEl (or_intror HE) HP) as (n & HO & (fuel & Hf) & HU).
  pose proof (points_affine a b p E HE) as (NA & IA). pose proof (ec_new_fields a b p E HE) as HF.
  pose proof (is_on_inv a b p E P HF ltac:(lia) HP) as OP.
  assert (N1: 1 <= n) by apply HO. pose proof HO as HO'. rewrite <- (Z2Nat.id n) in HO' by lia. rewrite <- (eorder_ec_order a b p Pp P2) in HO' by exact OP.
  pose proof (elagrange a b p Pp P2 NS (affine p P) (Z.to_nat n) _ OP HO' NA IA) as D. rewrite map_length in D.
  assert (DZ: (n | cardinality E)). { unfold cardinality. destruct D as (q & Hq). exists (Z.of_nat q). rewrite Hq. lia. }
  split; [exists n, fuel; tauto|]. split; [intros m f Hm; rewrite (HU f m Hm); exact DZ|].
  apply (c59_zero_multiple a b p E P (cardinality E) HEl (or_intror HE) HP); [unfold cardinality; lia|].
  rewrite (ec_mult_iff a b p Pp P2) by exact OP. unfold cardinality. rewrite Nat2Z.id. destruct D as (q & ->). rewrite (emul_mul a b p Pp P2 NS) by exact OP.
  destruct HO' as (_ & -> & _). symmetry. apply emul_none.
Qed.
Example c63_case : exists E, ec_new 1 1 5 = Ok E /\ cardinality E = 9 /\ point_order 9 E (mkPt 2 1 1) = Ok 3 /\ multiply_scalar E (mkPt 0 1 1) 9 = Ok infinity.
Proof. eexists. split; [reflexivity|]. repeat split. Qed.

(** C64 is false: (0,0) is not 3-torsion but is listed. *)
Lemma c64_torsion_refuted : exists a b p E L P, elliptic a b p /\ ec_new a b p = Ok E /\ division_points E 3 = Ok L /\ In P L /\
  ~ ec_mult a p (affine p P) 3 None.
Proof.
  eexists 1, 0, 5, _, _, (mkPt 0 0 1). assert (HEl: elliptic 1 0 5) by small_elliptic. split; [exact HEl|]. split; [reflexivity|]. split; [reflexivity|]. split; [left; reflexivity|].
  destruct HEl as (Pp & P2 & NS). assert (OP: on_curve 1 0 5 (Some (0, 0))) by (cbn; repeat split; try lia; exists 0; reflexivity). change (affine 5 (mkPt 0 0 1)) with (Some (0, 0)).
  rewrite (ec_mult_iff 1 0 5 Pp P2) by exact OP. 
  assert (M: ec_mult 1 5 (Some (0, 0)) 3 (Some (0, 0))).
  { apply (mult_S 1 5 _ 2 None); [|constructor]. apply (mult_S 1 5 _ 1 (Some (0, 0))); [apply (mult_S 1 5 _ 0 None); constructor|]. constructor. exists 0. reflexivity. }
  apply (ec_mult_iff 1 0 5 Pp P2 _ _ _ OP) in M. rewrite <- M. discriminate.
Qed.
Lemma divpts_fold E order : forall L acc, (forall P, In P L -> exists Q, multiply_scalar E P order = Ok Q) ->
  exists M, foldM (fun vec P => Q <- multiply_scalar E P order ;; Ok (if point_eqb Q infinity then vec ++ [P] else vec)) L acc = Ok (acc ++ M) /\
  (NoDup L -> NoDup M) /\ forall P, In P M <-> In P L /\ multiply_scalar E P order = Ok infinity.
Proof.
  induction L as [|P L IH]; intros acc H; cbn [foldM].
  - exists []. rewrite app_nil_r. split; [reflexivity|]. split; [auto|]. cbn. tauto.
  - destruct (H P (or_introl eq_refl)) as (Q & EQ). rewrite EQ. cbn [bind].
    destruct (IH (if point_eqb Q infinity then acc ++ [P] else acc)) as (M & EM & NM & IM); [intros; apply H; right; assumption|].
    destruct (point_eqb Q infinity) eqn:X.
    + apply point_eqb_eq in X. subst Q. exists (P :: M). split; [rewrite EM, <- app_assoc; reflexivity|]. split.
      * intros ND. apply NoDup_cons_iff in ND as (A & B). constructor; [|apply NM, B]. rewrite IM. tauto.
      * intros R. cbn [In]. rewrite IM. intuition (subst; tauto).
    + exists M. split; [exact EM|]. split; [intros ND; apply NoDup_cons_iff in ND as (A & B); apply NM, B|]. intros R. cbn [In]. rewrite IM. split; [tauto|].
      intros ([<-|A] & B); [|tauto]. rewrite EQ in B. injection B as ->. assert (point_eqb infinity infinity = true) by reflexivity. congruence.
Qed.
Lemma cpoints_ok a b p E P : ec_new a b p = Ok E -> 0 < p -> In P (cpoints E) -> on_curve a b p (affine p P) /\ inf_ok P.
Proof.
  intros HE Hp HP. split; [apply (points_affine a b p E HE), in_map, HP|]. destruct (c61_points a b p E HE) as (_ & HI). apply HI in HP. intros Z. destruct HP as [->|(A & _)]; [reflexivity|lia].
Qed.
(** C64, what holds: division_points(n) always returns, lists each point at most once, lists every n-torsion point of points(), and any other
    listed point has order 2^k for some 2^k <= n not dividing n. *)
Lemma c64_torsion_partial : forall a b p E n, elliptic a b p -> ec_new a b p = Ok E -> 1 <= n ->
  exists L, division_points E n = Ok L /\ NoDup L /\ (forall P, In P L -> In P (ec_points E)) /\
    (forall P, In P (ec_points E) -> ec_mult a p (affine p P) (Z.to_nat n) None -> In P L) /\
    (forall P, In P L -> ec_mult a p (affine p P) (Z.to_nat n) None \/
       exists k, 0 < k /\ 2 ^ k <= n /\ ~ (2 ^ k | n) /\ ec_order a p (affine p P) (2 ^ k)).
Proof.
  intros a b p E n (Pp & P2 & NS) HE Hn. pose proof (prime_ge_2 p Pp). pose proof (ec_new_fields a b p E HE) as HF. destruct (c61_points a b p E HE) as (ND & _). unfold ec_points in *.
  assert (OK: forall P, In P (cpoints E) -> on_curve a b p (affine p P) /\ inf_ok P) by (intros P HP; apply (cpoints_ok a b p E); [exact HE|lia|exact HP]).
  destruct (divpts_fold E n (cpoints E) []) as (L & EL & NL & IL).
  { intros P HP. destruct (OK P HP) as (OP & _). destruct (mult_value a b p E HF Pp P2 NS P n OP ltac:(lia)) as (X & EX & _). eauto. }
  exists L. split; [exact EL|]. split; [apply NL, ND|]. split; [intros P HP; apply IL in HP; tauto|]. split.
  - intros P HP HM. apply IL. split; [exact HP|]. destruct (OK P HP) as (OP & IP). rewrite (ec_mult_iff a b p Pp P2) in HM by exact OP.
    apply (mult_exact a b p E HF Pp P2 NS); [exact OP|lia|exact IP|congruence].
  - intros P HP. apply IL in HP as (HP & HM). destruct (OK P HP) as (OP & IP). rewrite (ec_mult_iff a b p Pp P2) by exact OP.
    destruct (mult_value a b p E HF Pp P2 NS P n OP ltac:(lia)) as (X & EX & AX). rewrite HM in EX. injection EX as <-. cbn [affine] in AX. change (affine p infinity) with (@None (Z * Z)) in AX.
    destruct (n =? 0) eqn:N0; [lia|]. destruct (emul a p Pp (top n) (affine p P)) eqn:T; [left; exact AX|].
    destruct (emul a p Pp (Z.to_nat n) (affine p P)) eqn:EN; [|left; reflexivity]. right.
    destruct (eorder_exists a b p Pp P2 NS (affine p P) OP) as (m & HO). pose proof (eorder_divide a b p Pp P2 NS _ _ _ OP HO T) as D.
    assert (ML: exists k, m = (2 ^ k)%nat /\ (k <= Z.to_nat (Z.log2 n))%nat).
    { unfold top in D. rewrite Z2Nat.inj_pow in D by (try lia; apply Z.log2_nonneg). change (Z.to_nat 2) with 2%nat in D. clear - D. revert m D. generalize (Z.to_nat (Z.log2 n)). intros e. induction e as [|e IH]; intros m (q & Hq).
      - exists 0%nat. split; [|lia]. cbn in *. destruct q as [|[|q]]; destruct m as [|[|m]]; cbn in Hq; lia.
      - rewrite Nat.pow_succ_r' in Hq. destruct (Nat.Even_or_Odd q) as [(r & Hr)|(r & Hr)].
        + destruct (IH m) as (k & A & B); [exists r; lia|]. exists k. split; [exact A|lia].
        + destruct (Nat.Even_or_Odd m) as [(s & Hs)|(s & Hs)]; [|exfalso; subst; nia]. destruct (IH s) as (k & A & B); [exists q; subst m; nia|]. exists (S k). rewrite Nat.pow_succ_r'. split; [congruence|lia]. }
    destruct ML as (k & -> & Hk). exists (Z.of_nat k).
    assert (PW: Z.of_nat (2 ^ k) = 2 ^ Z.of_nat k) by (rewrite Nat2Z.inj_pow; reflexivity).
    apply (eorder_ec_order a b p Pp P2) in HO; [|exact OP]. rewrite PW in HO.
    split; [|split; [|split; [|exact HO]]].
    + destruct k; [|lia]. exfalso. destruct HO as (_ & HO & _). change (Z.to_nat (2 ^ Z.of_nat 0)) with 1%nat in HO. rewrite (ec_mult_iff a b p Pp P2) in HO by exact OP.
      rewrite (emul_1 a p Pp) in HO by (apply affine_canon; lia). rewrite <- HO, emul_none in EN. discriminate.
    + pose proof (Z.log2_spec n ltac:(lia)) as (LS & _). pose proof (Z.log2_nonneg n). apply Z.le_trans with (2 ^ Z.log2 n); [|exact LS]. apply Z.pow_le_mono_r; lia.
    + intros (q & Hq). destruct HO as (_ & HO & _). rewrite (ec_mult_iff a b p Pp P2) in HO by exact OP. assert (0 < 2 ^ Z.of_nat k) by (apply Z.pow_pos_nonneg; lia). assert (0 <= q) by nia.
      rewrite Hq, Z2Nat.inj_mul, (emul_mul a b p Pp P2 NS) in EN by (try lia; exact OP). rewrite <- HO, emul_none in EN. discriminate.
Qed.
(** C64: so on a curve without points of order 2, and for n a power of two on every curve, the list is exactly the n-torsion. *)
Lemma c64_exact : forall a b p E n, elliptic a b p -> ec_new a b p = Ok E -> 1 <= n ->
  (forall P, In P (ec_points E) -> ~ ec_order a p (affine p P) 2) \/ (exists k, 0 <= k /\ n = 2 ^ k) ->
  exists L, division_points E n = Ok L /\ NoDup L /\ forall P, In P L <-> In P (ec_points E) /\ ec_mult a p (affine p P) (Z.to_nat n) None.
Proof.
  intros a b p E n HEl HE Hn HC. destruct (c64_torsion_partial a b p E n HEl HE Hn) as (L & EL & NL & I1 & I2 & I3). exists L. split; [exact EL|]. split; [exact NL|].
  intros P. split; [|intros (A & B); apply I2; assumption]. intros HP. pose proof (I1 P HP) as IP. split; [exact IP|]. destruct (I3 P HP) as [X|(k & K0 & K1 & K2 & HO)]; [exact X|]. exfalso.
  destruct HC as [HC|(j & Hj & ->)].
  - pose proof HEl as (Pp & P2 & NS). pose proof (prime_ge_2 p Pp). destruct (cpoints_ok a b p E P HE ltac:(lia) IP) as (OP & _).
    set (T := emul a p Pp (Z.to_nat (2 ^ (k - 1))) (affine p P)). assert (OT: on_curve a b p T) by (apply (emul_on a b p Pp P2), OP).
    destruct (points_affine a b p E HE) as (_ & IA). apply IA in OT as IT. apply in_map_iff in IT as (Q & AQ & HQ). apply (HC Q HQ). rewrite AQ. 
    assert (PK: 2 ^ k = 2 * 2 ^ (k - 1)) by (rewrite <- Z.pow_succ_r by lia; f_equal; lia). assert (0 < 2 ^ (k - 1)) by (apply Z.pow_pos_nonneg; lia).
    split; [lia|]. destruct HO as (_ & HO & HN). split.
    + rewrite (ec_mult_iff a b p Pp P2) by exact OT. unfold T. change (Z.to_nat 2) with 2%nat. rewrite <- (emul_mul a b p Pp P2 NS) by exact OP. rewrite (ec_mult_iff a b p Pp P2) in HO by exact OP. rewrite HO. f_equal. rewrite PK. lia.
    + intros i Hi. assert (i = 1) by lia. subst i. rewrite (ec_mult_iff a b p Pp P2) by exact OT. change (Z.to_nat 1) with 1%nat. rewrite (emul_1 a p Pp) by (apply (on_canon a b p), OT).
      intros X. apply (HN (2 ^ (k - 1))); [lia|]. rewrite (ec_mult_iff a b p Pp P2) by exact OP. exact X.
  - apply K2. destruct (Z_le_gt_dec k j) as [G|G].
    + exists (2 ^ (j - k)). rewrite <- Z.pow_add_r by lia. f_equal. lia.
    + assert (2 ^ j < 2 ^ k) by (apply Z.pow_lt_mono_r; lia). lia.
Qed.
Example c64_case : exists E, ec_new 1 1 5 = Ok E /\ division_points E 3 = Ok [mkPt 2 1 1; mkPt 2 4 1; infinity].
Proof. eexists. split; reflexivity. Qed.

(** C65 is false: the curve y^2 = x^3 + x + 1 over GF(5) has 9 points and a cyclic 3-torsion of 3 points; isogeny(3) has 6 points. *)
Lemma c65_isogeny_refuted : exists a b p E L E', elliptic a b p /\ ec_new a b p = Ok E /\ division_points E 3 = Ok L /\ length L = 3%nat /\
  (forall P, In P L -> exists R, multiply_scalar E P 3 = Ok R /\ is_infinity R = true) /\
  isogeny E 3 = Ok E' /\ cardinality E' <> cardinality E.
Proof.
  exists 1, 1, 5, (mkCurve 1 1 5 (weierstrass 1 1) [mkPt 0 1 1; mkPt 0 4 1; mkPt 2 1 1; mkPt 2 4 1; mkPt 3 1 1; mkPt 3 4 1; mkPt 4 2 1; mkPt 4 3 1; infinity]),
    [mkPt 2 1 1; mkPt 2 4 1; infinity], (mkCurve 0 (-2) 5 (weierstrass 0 (-2)) [mkPt 1 2 1; mkPt 1 3 1; mkPt 2 1 1; mkPt 2 4 1; mkPt 3 0 1; infinity]).
  split; [small_elliptic|]. split; [vm_compute; reflexivity|]. split; [vm_compute; reflexivity|]. split; [reflexivity|]. split.
  - intros P [<-|[<-|[<-|[]]]]; exists infinity; (split; [vm_compute; reflexivity|]); reflexivity.
  - split; [vm_compute; reflexivity|]. discriminate.
Qed.
(** C65, what holds: isogeny(l) returns, for every l, a completely enumerated curve over the same field. *)
Lemma c65_isogeny_partial : forall a b p E l, elliptic a b p -> ec_new a b p = Ok E ->
  exists a' b' E', isogeny E l = Ok E' /\ ec_new a' b' p = Ok E'.
Proof.
  intros a b p E l (Pp & P2 & NS) HE. pose proof (prime_ge_2 p Pp). pose proof (ec_new_fields a b p E HE) as HF. pose proof HF as (Ea & Eb & Ep & Epol).
  destruct (divpts_fold E l (cpoints E) []) as (L & EL & _ & _).
  { intros P HP. destruct (cpoints_ok a b p E P HE ltac:(lia) HP) as (OP & _). destruct (Z_le_gt_dec 0 l) as [G|G].
    - destruct (mult_value a b p E HF Pp P2 NS P l OP ltac:(lia)) as (X & EX & _). eauto.
    - rewrite <- (Z.opp_involutive l), (mult_neg a b p E HF Pp P2 NS) by (try exact OP; lia). destruct (mult_value a b p E HF Pp P2 NS P (- l) OP ltac:(lia)) as (X & EX & _). eauto. }
  assert (DF: forall z, div_floor z p = Ok (z / p)) by (intros z; unfold div_floor; destruct (p =? 0) eqn:Z0; [lia|reflexivity]).
  unfold isogeny. unfold division_points. rewrite EL. cbn [bind app]. rewrite Ep.
  destruct (foldM_returns (fun _ => True) (isogeny_step E (Z.odd l)) L) with (s := (0, 0)) as ((v & w) & EF & _); [|exact I|].
  { intros (v & w) P _ _. unfold isogeny_step. destruct (negb (is_infinity P)); [|eauto]. rewrite power_i32_spec by lia. cbn [bind]. rewrite Ep, !DF. cbn [bind]. rewrite power_i32_spec by lia. cbn [bind]. rewrite DF. cbn [bind]. eauto. }
  rewrite EF. cbn [bind]. rewrite !DF. cbn [bind]. rewrite !DF. cbn [bind].
  destruct (proj1 (c61_new_returns a b p)) as (_ & X). pose proof (X (ex_intro _ E HE)) as Y. 
  match goal with |- exists a' b' E', ec_new ?u ?v ?w = _ /\ _ => destruct (proj1 (proj1 (c61_new_returns u v w)) Y) as (E' & HE'); exists u, v, E' end. auto.
Qed.
(** C65: even a trivial kernel (l = 1, or no l-torsion) gives the singular curve y^2 = x^3 instead of the curve itself (0 <= a, b < p). *)
Lemma c65_trivial_kernel : forall a b p E l, elliptic a b p -> 0 <= a < p -> 0 <= b < p -> ec_new a b p = Ok E ->
  division_points E l = Ok [infinity] -> isogeny E l = ec_new 0 0 p.
Proof.
  intros a b p E l (Pp & P2 & NS) Ba Bb HE HD. pose proof (prime_ge_2 p Pp). pose proof (ec_new_fields a b p E HE) as (Ea & Eb & Ep & Epol).
  assert (DF: forall z, div_floor z p = Ok (z / p)) by (intros z; unfold div_floor; destruct (p =? 0) eqn:Z0; [lia|reflexivity]).
  unfold isogeny. rewrite HD. cbn [bind foldM isogeny_step is_infinity infinity pz Z.eqb negb]. rewrite Ep, !DF. cbn [bind]. rewrite !DF. cbn [bind].
  rewrite Z.div_0_l by lia. rewrite Ea, Eb. rewrite !Z.mul_0_r, !Z.sub_0_r, !Z.div_small by lia. reflexivity.
Qed.
Example c65_case : exists E, ec_new 1 1 5 = Ok E /\ division_points E 1 = Ok [infinity] /\ isogeny E 1 = ec_new 0 0 5.
Proof. eexists. split; [reflexivity|]. split; reflexivity. Qed.

Lemma prime_dvd_pow p u k : prime p -> 0 <= k -> (p | u ^ k) -> (p | u).
Proof.
  intros Pp Hk. revert k Hk. apply (natlike_ind (fun k => (p | u ^ k) -> (p | u))).
  - intros D. apply Z.divide_1_r_nonneg in D; destruct Pp; lia.
  - intros k Hk IH D. rewrite Z.pow_succ_r in D by exact Hk. apply prime_mult in D; [|exact Pp]. tauto.
Qed.
(** C66: the value, and its invariance under (a, b) -> (a u^4, b u^6). *)
Lemma c66_j_value : forall a b p E, prime p -> nonsingular a b p -> curve_of a b p E ->
  exists j, ec_j_invariant E = Ok j /\ 0 <= j < p /\ (p | j * (4 * a ^ 3 + 27 * b ^ 2) - 1728 * (4 * a ^ 3)).
Proof.
  intros a b p E Pp NS HE. pose proof (prime_ge_2 p Pp). apply curve_of_fields in HE. destruct HE as (Ea & Eb & Ep & _). unfold ec_j_invariant. rewrite !power_i32_spec by lia. cbn [bind]. rewrite Ea, Eb, Ep.
  destruct (inverse_spec (4 * a ^ 3 + 27 * b ^ 2) p Pp) as (i & -> & _ & Hi); [rewrite pow3, pow2; exact NS|]. cbn [bind]. unfold mod_floor. destruct (p =? 0) eqn:Z0; [lia|].
  eexists. split; [reflexivity|]. split; [apply Z.mod_pos_bound; lia|]. set (n := 4 * a ^ 3) in *. set (d := n + 27 * b ^ 2) in *.
  rewrite Z.mod_eq by lia. replace ((1728 * n * i - p * (1728 * n * i / p)) * d - 1728 * n) with (1728 * n * (d * i - 1) + p * (- (1728 * n * i / p) * d)) by ring.
  apply Z.divide_add_r; [apply Z.divide_mul_r, Hi|apply Z.divide_factor_l].
Qed.
Lemma c66_isomorphism : forall a b p u E E', prime p -> nonsingular a b p -> ~ (p | u) -> curve_of a b p E -> curve_of (a * u ^ 4) (b * u ^ 6) p E' ->
  nonsingular (a * u ^ 4) (b * u ^ 6) p /\ ec_j_invariant E' = ec_j_invariant E.
Proof.
  intros a b p u E E' Pp NS Hu HE HE'. pose proof (prime_ge_2 p Pp).
  assert (NS': nonsingular (a * u ^ 4) (b * u ^ 6) p).
  { intros D. apply NS. replace (4 * (a * u ^ 4 * (a * u ^ 4) * (a * u ^ 4)) + 27 * (b * u ^ 6 * (b * u ^ 6))) with (u ^ 12 * (4 * (a * a * a) + 27 * (b * b))) in D by ring.
    apply prime_mult in D; [|exact Pp]. destruct D as [D|D]; [|exact D]. exfalso. apply Hu. apply (prime_dvd_pow p u 12 Pp ltac:(lia) D). }
  split; [exact NS'|].
  destruct (c66_j_value a b p E Pp NS HE) as (j & -> & Bj & Dj). destruct (c66_j_value _ _ p E' Pp NS' HE') as (k & -> & Bk & Dk). f_equal.
  replace (k * (4 * (a * u ^ 4) ^ 3 + 27 * (b * u ^ 6) ^ 2) - 1728 * (4 * (a * u ^ 4) ^ 3)) with (u ^ 12 * (k * (4 * a ^ 3 + 27 * b ^ 2) - 1728 * (4 * a ^ 3))) in Dk by ring.
  apply prime_mult in Dk; [|exact Pp]. destruct Dk as [Dk|Dk]; [exfalso; apply Hu; apply (prime_dvd_pow p u 12 Pp ltac:(lia) Dk)|].
  assert (D: (p | (4 * a ^ 3 + 27 * b ^ 2) * k - (4 * a ^ 3 + 27 * b ^ 2) * j)).
  { replace ((4 * a ^ 3 + 27 * b ^ 2) * k - (4 * a ^ 3 + 27 * b ^ 2) * j) with ((k * (4 * a ^ 3 + 27 * b ^ 2) - 1728 * (4 * a ^ 3)) - (j * (4 * a ^ 3 + 27 * b ^ 2) - 1728 * (4 * a ^ 3))) by ring. apply Z.divide_sub_r; assumption. }
  apply prime_mul_cancel in D; [|exact Pp|rewrite pow3, pow2; exact NS]. apply mod_eq_divide in D; [|lia]. rewrite !Z.mod_small in D by lia. exact D.
Qed.
Example c66_case : ec_j_invariant (new_raw 1 1 5) = Ok 2 /\ ec_j_invariant (new_raw (1 * 2 ^ 4) (1 * 2 ^ 6) 5) = Ok 2.
Proof. split; reflexivity. Qed.

(** C76 is false: over GF(2) doubling a point with odd y leaves the curve (or misses infinity). *)
Lemma c76_characteristic_two_refuted : exists a b E P R, curve_of a b 2 E /\ is_on_curve E P = Ok true /\ plus E P P = Ok R /\ is_on_curve E R = Ok false.
Proof. exists 1, 1, (new_raw 1 1 2), (mkPt 0 1 1), (mkPt 1 0 1). split; [left; reflexivity|]. repeat split. Qed.
Lemma chord_closed a b p m x1 y1 x2 y2 : prime p -> ~ (p | x2 - x1) -> (p | m * (x2 - x1) - (y2 - y1)) -> curve_eqn a b p x1 y1 -> curve_eqn a b p x2 y2 ->
  curve_eqn a b p (m ^ 2 - x1 - x2) (m * (x1 - (m ^ 2 - x1 - x2)) - y1).
Proof.
  intros Pp D Hm C1 C2. apply (curve_eq_inj a b p Pp) in C1. apply (curve_eq_inj a b p Pp) in C2.
  assert (SL: fsub p Pp (inj p Pp y1) (inj p Pp y2) = fmul p Pp (inj p Pp m) (fsub p Pp (inj p Pp x1) (inj p Pp x2))).
  { rewrite !inj_sub, inj_mul. apply inj_eq. replace (y1 - y2 - m * (x1 - x2)) with (m * (x2 - x1) - (y2 - y1)) by ring. exact Hm. }
  assert (Nx: inj p Pp x1 <> inj p Pp x2). { rewrite inj_eq. intros D'. apply D. replace (x2 - x1) with (- (x1 - x2)) by ring. apply Z.divide_opp_r, D'. }
  pose proof (chord_second _ _ _ _ _ _ _ _ _ (fp_field p Pp) (fdec p) _ _ _ _ _ _ _ C1 C2 Nx SL) as SL2.
  pose proof (third_on _ _ _ _ _ _ _ _ _ (fp_field p Pp) _ _ _ _ _ _ _ C1 C2 (conj SL SL2)) as T. unfold third in T. cbn [fst snd] in T. rewrite !inj_mul, !inj_sub, !inj_mul, !inj_sub in T. apply curve_eq_inj in T. rewrite pow2. exact T.
Qed.
(** C76, what holds over GF(2): every other sum (different points, an even y, or an infinite argument) stays on the curve. *)
Lemma c76_characteristic_two_partial : forall a b E P Q, curve_of a b 2 E -> is_on_curve E P = Ok true -> is_on_curve E Q = Ok true ->
  affine 2 P <> affine 2 Q \/ is_infinity P = true \/ Z.even (py P) = true -> exists R, plus E P Q = Ok R /\ is_on_curve E R = Ok true.
Proof.
  intros a b E P Q HE HP HQ HC. apply curve_of_fields in HE. pose proof prime_2 as Pp.
  pose proof (is_on_inv a b 2 E P HE ltac:(lia) HP) as OP. pose proof (is_on_inv a b 2 E Q HE ltac:(lia) HQ) as OQ.
  unfold plus. rewrite HP, HQ. cbn [bind assertb]. unfold is_infinity in *. destruct (pz P =? 0) eqn:X.
  { exists Q. split; [destruct Q; reflexivity|exact HQ]. }
  destruct (pz Q =? 0) eqn:Y. { exists (mkPt (px P) (py Q) (pz Q)). split; [reflexivity|]. apply (is_on_true a b 2); [exact HE|lia|]. apply affine_on; [lia|]. left. cbn [pz]. lia. }
  pose proof HE as (Ea & Eb & Ep & Epol). unfold canonicalize, mod_floor. rewrite Ep. cbn [Z.eqb bind px py pz]. unfold affine in *. rewrite X in *. rewrite Y in *.
  assert (HC': px P mod 2 <> px Q mod 2 \/ py P mod 2 <> py Q mod 2 \/ py P mod 2 = 0).
  { destruct HC as [HC|[HC|HC]]; [|discriminate|right; right; rewrite Zmod_even, HC; reflexivity]. destruct (Z.eq_dec (px P mod 2) (px Q mod 2)); [|tauto]. destruct (Z.eq_dec (py P mod 2) (py Q mod 2)); [|tauto]. congruence. }
  clear HC. revert OP OQ HC'. generalize (px P mod 2) (py P mod 2) (px Q mod 2) (py Q mod 2). intros x1 y1 x2 y2 (Bx1 & By1 & C1) (Bx2 & By2 & C2) HC.
  destruct (x1 =? x2) eqn:Ex; cbn [negb].
  - destruct (negb (y1 =? y2) || (y1 =? 0)) eqn:Ey; [|lia]. exists infinity. split; [reflexivity|]. reflexivity.
  - assert (D: ~ (2 | x2 - x1)). { rewrite <- mod_eq_divide by lia. rewrite !Z.mod_small by lia. lia. }
    destruct (inverse_spec (x2 - x1) 2 Pp D) as (r & -> & _ & Hr). cbn [bind]. rewrite !power_i32_spec by lia. cbn [bind]. eexists. split; [reflexivity|].
    apply (is_on_true a b 2); [exact HE|lia|]. apply affine_on; [lia|]. right. cbn [px py]. apply (proj2 (curve_eqn_mod a b 2 _ _ ltac:(lia))). 
    apply (chord_closed a b 2 ((y2 - y1) * r) x1 y1 x2 y2); [exact Pp|exact D| |exact C1|exact C2].
    replace ((y2 - y1) * r * (x2 - x1) - (y2 - y1)) with ((y2 - y1) * ((x2 - x1) * r - 1)) by ring. apply Z.divide_mul_r, Hr.
Qed.
Example c76_case : is_on_curve (new_raw 1 1 2) (mkPt 0 1 1) = Ok true /\ plus (new_raw 1 1 2) (mkPt 0 1 1) (mkPt 1 1 1) = Ok (mkPt 1 1 1).
Proof. split; reflexivity. Qed.
