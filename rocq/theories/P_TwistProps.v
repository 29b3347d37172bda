(** Lemmas behind the property theorems C90 (isomorphic curves), C91 (quadratic twists) and C92 (supersingular families). *)
From Coq Require Import Znumtheory ZifyBool Permutation.
From Verif Require Import Prelude M_Bigint M_Variable M_Term M_Poly M_Curve Spec SpecCurve SpecTwist P_Bigint P_Variable P_Curve P_Curve2 P_Curve3 P_CurveProps P_Euler.
Open Scope Z_scope.

Lemma Ok_inj {A} (u v : A) : Ok u = Ok v -> u = v.
Proof. congruence. Qed.
Lemma div_pow_n p u n : prime p -> 0 <= n -> (p | u ^ n) -> (p | u).
Proof.
  intros Pp Hn. pattern n. apply natlike_ind; [| |exact Hn].
  - intros D. apply Z.divide_1_r_nonneg in D; pose proof (prime_ge_2 p Pp); lia.
  - intros k Hk IH D. rewrite Z.pow_succ_r in D by exact Hk. apply prime_mult in D; [|exact Pp]. tauto.
Qed.
Lemma mod_k z p : p <> 0 -> exists k, z mod p = z - k * p.
Proof. intros Hp. exists (z / p). pose proof (Z.div_mod z p Hp). lia. Qed.

Section Iso.
Variables a b a' b' p u : Z.
Hypothesis Pp : prime p.
Hypothesis HI : iso_curves p u a b a' b'.
Lemma ip_pos : 0 < p. Proof. pose proof (prime_ge_2 p Pp). lia. Qed.
Definition iso_a (P : apoint) : apoint := match P with None => None | Some (x, y) => Some ((u ^ 2 * x) mod p, (u ^ 3 * y) mod p) end.
Lemma iso_affine P : affine p (iso_point u P) = iso_a (affine p P).
Proof using Pp.
  unfold affine, iso_point. cbn [px py pz]. destruct (pz P =? 0); [reflexivity|]. cbn [iso_a]. rewrite !Z.mul_mod_idemp_r by (pose proof ip_pos; lia). reflexivity.
Qed.
Lemma iso_eqn x y : curve_eqn a' b' p (u ^ 2 * x) (u ^ 3 * y) <-> curve_eqn a b p x y.
Proof using Pp HI.
  destruct HI as (Nu & (k1 & H1) & (k2 & H2)). unfold curve_eqn.
  replace (u ^ 3 * y * (u ^ 3 * y) - (u ^ 2 * x * (u ^ 2 * x) * (u ^ 2 * x) + a' * (u ^ 2 * x) + b')) with (u ^ 6 * (y * y - (x * x * x + a * x + b)) - (a' - u ^ 4 * a) * (u ^ 2 * x) - (b' - u ^ 6 * b)) by ring.
  rewrite H1, H2. split; intros D.
  - assert (D6: (p | u ^ 6 * (y * y - (x * x * x + a * x + b)))).
    { replace (u ^ 6 * (y * y - (x * x * x + a * x + b))) with (u ^ 6 * (y * y - (x * x * x + a * x + b)) - k1 * p * (u ^ 2 * x) - k2 * p + (k1 * (u ^ 2 * x) + k2) * p) by ring. apply Z.divide_add_r; [exact D|apply Z.divide_factor_r]. }
    apply prime_mult in D6; [|exact Pp]. destruct D6 as [D6|D6]; [|exact D6]. exfalso. apply Nu. apply (div_pow_n p u 6 Pp); [lia|exact D6].
  - replace (u ^ 6 * (y * y - (x * x * x + a * x + b)) - k1 * p * (u ^ 2 * x) - k2 * p) with (u ^ 6 * (y * y - (x * x * x + a * x + b)) - (k1 * (u ^ 2 * x) + k2) * p) by ring.
    apply Z.divide_sub_r; [apply Z.divide_mul_r, D|apply Z.divide_factor_r].
Qed.
Lemma iso_on P : on_curve a' b' p (iso_a P) <-> (match P with None => True | Some (x, y) => curve_eqn a b p x y end).
Proof using Pp HI.
  destruct P as [[x y]|]; [|cbn; tauto]. cbn [iso_a on_curve]. pose proof ip_pos as H0. rewrite (curve_eqn_mod a' b' p _ _ H0), iso_eqn.
  pose proof (Z.mod_pos_bound (u ^ 2 * x) p H0). pose proof (Z.mod_pos_bound (u ^ 3 * y) p H0). tauto.
Qed.
Lemma iso_on' P : on_curve a b p P -> on_curve a' b' p (iso_a P).
Proof using Pp HI. intros H. apply iso_on. destruct P as [[x y]|]; [apply H|exact I]. Qed.
Lemma iso_third m x1 y1 x2 : iso_a (line_third p m x1 y1 x2) = line_third p (u * m) ((u ^ 2 * x1) mod p) ((u ^ 3 * y1) mod p) ((u ^ 2 * x2) mod p).
Proof using Pp.
  pose proof ip_pos as H0. unfold line_third. cbn [iso_a].
  set (X := (u ^ 2 * ((m * m - x1 - x2) mod p)) mod p).
  assert (EX: (u * m * (u * m) - (u ^ 2 * x1) mod p - (u ^ 2 * x2) mod p) mod p = X).
  { unfold X. apply mod_eq_divide; [lia|]. destruct (mod_k (u ^ 2 * x1) p) as (k1 & ->); [lia|]. destruct (mod_k (u ^ 2 * x2) p) as (k2 & ->); [lia|]. destruct (mod_k (m * m - x1 - x2) p) as (k3 & ->); [lia|].
    exists (k1 + k2 + u ^ 2 * k3). ring. }
  rewrite EX. do 2 f_equal. apply mod_eq_divide; [lia|]. unfold X. set (x3 := (m * m - x1 - x2) mod p).
  destruct (mod_k (u ^ 2 * x1) p) as (k1 & ->); [lia|]. destruct (mod_k (u ^ 3 * y1) p) as (k2 & ->); [lia|]. destruct (mod_k (u ^ 2 * x3) p) as (k3 & ->); [lia|]. destruct (mod_k (m * (x1 - x3) - y1) p) as (k4 & ->); [lia|].
  exists (u * m * (k1 - k3) - k2 - u ^ 3 * k4). ring.
Qed.
Lemma not_div_u x : ~ (p | x) -> forall n, 0 <= n -> ~ (p | u ^ n * x).
Proof using Pp HI. intros N n Hn D. apply prime_mult in D; [|exact Pp]. destruct D as [D|D]; [|tauto]. apply (proj1 HI). apply (div_pow_n p u n Pp Hn D). Qed.
Lemma iso_sum P Q R : ec_sum a p P Q R -> canon p P -> canon p Q -> ec_sum a' p (iso_a P) (iso_a Q) (iso_a R).
Proof using Pp HI.
  pose proof ip_pos as H0. intros H CP CQ. destruct H as [Q|P|x y1 y2 D|x1 y1 x2 y2 m N D|x y m N D].
  - constructor.
  - destruct P as [[x y]|]; constructor.
  - cbn [iso_a]. constructor. destruct (mod_k (u ^ 3 * y1) p) as (k1 & ->); [lia|]. destruct (mod_k (u ^ 3 * y2) p) as (k2 & ->); [lia|].
    replace (u ^ 3 * y1 - k1 * p + (u ^ 3 * y2 - k2 * p)) with (u ^ 3 * (y1 + y2) - (k1 + k2) * p) by ring. apply Z.divide_sub_r; [apply Z.divide_mul_r, D|apply Z.divide_factor_r].
  - rewrite iso_third. cbn [iso_a]. constructor.
    + destruct (mod_k (u ^ 2 * x1) p) as (k1 & ->); [lia|]. destruct (mod_k (u ^ 2 * x2) p) as (k2 & ->); [lia|]. intros X. apply (not_div_u _ N 2 ltac:(lia)).
      replace (u ^ 2 * (x2 - x1)) with (u ^ 2 * x2 - k2 * p - (u ^ 2 * x1 - k1 * p) + (k2 - k1) * p) by ring. apply Z.divide_add_r; [exact X|apply Z.divide_factor_r].
    + destruct (mod_k (u ^ 2 * x1) p) as (k1 & ->); [lia|]. destruct (mod_k (u ^ 2 * x2) p) as (k2 & ->); [lia|]. destruct (mod_k (u ^ 3 * y1) p) as (k3 & ->); [lia|]. destruct (mod_k (u ^ 3 * y2) p) as (k4 & ->); [lia|].
      destruct D as (w & Hw). exists (u ^ 3 * w - u * m * (k2 - k1) + (k4 - k3)).
      replace (u * m * (u ^ 2 * x2 - k2 * p - (u ^ 2 * x1 - k1 * p)) - (u ^ 3 * y2 - k4 * p - (u ^ 3 * y1 - k3 * p))) with (u ^ 3 * (m * (x2 - x1) - (y2 - y1)) - (u * m * (k2 - k1) - (k4 - k3)) * p) by ring. rewrite Hw. ring.
  - rewrite iso_third. cbn [iso_a]. apply sum_tangent.
    + destruct (mod_k (u ^ 3 * y) p) as (k1 & ->); [lia|]. intros X. apply (not_div_u _ N 3 ltac:(lia)).
      replace (u ^ 3 * (2 * y)) with (2 * (u ^ 3 * y - k1 * p) + 2 * k1 * p) by ring. apply Z.divide_add_r; [exact X|apply Z.divide_factor_r].
    + destruct (mod_k (u ^ 3 * y) p) as (k1 & ->); [lia|]. destruct (mod_k (u ^ 2 * x) p) as (k2 & ->); [lia|]. destruct HI as (_ & (w1 & H1) & _). destruct D as (w & Hw).
      exists (u ^ 4 * w - 2 * u * m * k1 + 6 * u ^ 2 * x * k2 - 3 * k2 * k2 * p - w1).
      replace (u * m * (2 * (u ^ 3 * y - k1 * p)) - (3 * ((u ^ 2 * x - k2 * p) * (u ^ 2 * x - k2 * p)) + a')) with
        (u ^ 4 * (m * (2 * y) - (3 * (x * x) + a)) - 2 * u * m * k1 * p + 6 * u ^ 2 * x * k2 * p - 3 * k2 * k2 * p * p - (a' - u ^ 4 * a)) by ring.
      rewrite Hw, H1. ring.
Qed.
Lemma iso_inj P Q : canon p P -> canon p Q -> iso_a P = iso_a Q -> P = Q.
Proof using Pp HI.
  destruct P as [[x y]|], Q as [[x' y']|]; cbn [iso_a]; try discriminate; [|reflexivity]. intros (Bx & By) (Bx' & By') E. pose proof ip_pos as H0.
  assert (X: forall n s t, 0 <= n -> 0 <= s < p -> 0 <= t < p -> (u ^ n * s) mod p = (u ^ n * t) mod p -> s = t).
  { intros n s t Hn Bs Bt Est. apply mod_eq_divide in Est; [|lia]. apply (scale_inj p (u ^ n) Pp); try assumption. intros D. apply (proj1 HI). apply (div_pow_n p u n Pp Hn D). }
  injection E as E1 E2. apply (X 2) in E1; [|lia|assumption..]. apply (X 3) in E2; [|lia|assumption..]. congruence.
Qed.
Hypothesis P2 : p <> 2.
Lemma iso_esum P Q : on_curve a b p P -> on_curve a b p Q -> iso_a (esum a p Pp P Q) = esum a' p Pp (iso_a P) (iso_a Q).
Proof using P2 HI.
  intros HP HQ. apply (ec_sum_iff a' b' p Pp P2); [apply iso_on', HP|apply iso_on', HQ|]. apply iso_sum; [|apply (on_canon a b p), HP|apply (on_canon a b p), HQ].
  apply (ec_sum_iff a b p Pp P2); [exact HP|exact HQ|reflexivity].
Qed.
Lemma iso_emul n P : on_curve a b p P -> iso_a (emul a p Pp n P) = emul a' p Pp n (iso_a P).
Proof using P2 HI. intros HP. induction n as [|n IH]; [reflexivity|]. rewrite !emul_S, iso_esum, IH; [reflexivity|exact HP|apply (emul_on a b p Pp P2), HP]. Qed.
End Iso.

(** C90: a change of variables (x, y) -> (u^2 x, u^3 y) carries points of one curve exactly to points of the other. *)
Lemma c90_on_curve : forall p u a b a' b' E E' P, prime p -> iso_curves p u a b a' b' -> curve_of a b p E -> curve_of a' b' p E' ->
  is_on_curve E' (iso_point u P) = is_on_curve E P.
Proof.
  intros p u a b a' b' E E' P Pp HI HE HE'. apply curve_of_fields in HE, HE'. pose proof (prime_ge_2 p Pp).
  destruct (is_on_curve_spec a b p E P HE ltac:(lia)) as (c & -> & Hc). destruct (is_on_curve_spec a' b' p E' (iso_point u P) HE' ltac:(lia)) as (c' & -> & Hc').
  cbn [iso_point px py pz] in Hc'. rewrite (iso_eqn a b a' b' p u Pp HI) in Hc'. f_equal. destruct c, c'; intuition congruence.
Qed.
(** C90: and it respects plus: the images of two points add up to the image of their sum, and plus panics on the images exactly when it panics on the points. *)
Lemma c90_plus : forall p u a b a' b' E E' P Q, prime p -> p <> 2 -> iso_curves p u a b a' b' -> curve_of a b p E -> curve_of a' b' p E' ->
  (plus E' (iso_point u P) (iso_point u Q) = Panic <-> plus E P Q = Panic) /\
  forall R, plus E P Q = Ok R -> exists R', plus E' (iso_point u P) (iso_point u Q) = Ok R' /\ affine p R' = affine p (iso_point u R).
Proof.
  intros p u a b a' b' E E' P Q Pp P2 HI HE HE'. pose proof (prime_ge_2 p Pp). split.
  - rewrite (c52_panics a b p E P Q Pp P2 HE), (c52_panics a' b' p E' _ _ Pp P2 HE'), !(c90_on_curve p u a b a' b' E E') by assumption. reflexivity.
  - intros R HR. assert (HP: is_on_curve E P = Ok true). { unfold plus in HR. apply bind_inv in HR as (c & -> & HR). destruct c; [reflexivity|discriminate]. }
    assert (HQ: is_on_curve E Q = Ok true). { unfold plus in HR. rewrite HP in HR. cbn [bind assertb] in HR. apply bind_inv in HR as (c & -> & HR). destruct c; [reflexivity|discriminate]. }
    pose proof HP as HP'. pose proof HQ as HQ'. rewrite <- (c90_on_curve p u a b a' b' E E' P Pp HI HE HE') in HP'. rewrite <- (c90_on_curve p u a b a' b' E E' Q Pp HI HE HE') in HQ'.
    destruct (Z.eq_dec (pz P) 0) as [ZP|ZP]; [|destruct (Z.eq_dec (pz Q) 0) as [ZQ|ZQ]].
    + rewrite (c55_left_identity a b p E P Q ltac:(lia) HE) in HR by (try assumption; unfold is_infinity; lia). apply Ok_inj in HR. subst R.
      exists (iso_point u Q). split; [|reflexivity]. apply (c55_left_identity a' b' p); [lia|exact HE'|unfold is_infinity; cbn [iso_point pz]; lia|exact HQ'].
    + rewrite (c56_right_identity_partial a b p E P Q ltac:(lia) HE HP) in HR by (unfold is_infinity; lia). unfold is_infinity in HR. destruct (pz P =? 0) eqn:X; [lia|]. apply Ok_inj in HR. subst R.
      rewrite (c56_right_identity_partial a' b' p E' _ _ ltac:(lia) HE' HP') by (unfold is_infinity; cbn [iso_point pz]; lia). unfold is_infinity. cbn [iso_point pz]. rewrite X.
      eexists. split; [reflexivity|]. reflexivity.
    + pose proof HE as HF. pose proof HE' as HF'. apply curve_of_fields in HF, HF'. apply (is_on_inv a b p E _ HF) in HP; [|lia]. apply (is_on_inv a b p E _ HF) in HQ; [|lia]. apply (is_on_inv a' b' p E' _ HF') in HP'; [|lia]. apply (is_on_inv a' b' p E' _ HF') in HQ'; [|lia].
      destruct (plus_ok a b p E HF Pp P2 P Q HP HQ (or_intror ZQ)) as (R0 & E0 & A0 & _). rewrite HR in E0. apply Ok_inj in E0. subst R0.
      destruct (plus_ok a' b' p E' HF' Pp P2 _ _ HP' HQ' (or_intror ZQ)) as (R' & E1 & A1 & _). exists R'. split; [exact E1|].
      rewrite A1, !(iso_affine p u Pp), A0. symmetry. apply (iso_esum a b a' b' p u Pp HI P2); assumption.
Qed.
(** C90: and scalar multiples, in every case (also where multiply_scalar is not the multiple, C59). *)
Lemma c90_multiply : forall p u a b a' b' E E' P n, elliptic a b p -> iso_curves p u a b a' b' -> curve_of a b p E -> curve_of a' b' p E' ->
  is_on_curve E P = Ok true -> 0 <= n ->
  exists R R', multiply_scalar E P n = Ok R /\ multiply_scalar E' (iso_point u P) n = Ok R' /\ affine p R' = affine p (iso_point u R).
Proof.
  intros p u a b a' b' E E' P n (Pp & P2 & NS) HI HE HE' HP Hn. pose proof (prime_ge_2 p Pp).
  assert (NS': nonsingular a' b' p).
  { intros D. apply NS. destruct HI as (Nu & (k1 & H1) & (k2 & H2)). assert (D2: (p | u ^ 12 * (4 * (a * a * a) + 27 * (b * b)))).
    { replace (u ^ 12 * (4 * (a * a * a) + 27 * (b * b))) with (4 * ((a' - (a' - u ^ 4 * a)) * (a' - (a' - u ^ 4 * a)) * (a' - (a' - u ^ 4 * a))) + 27 * ((b' - (b' - u ^ 6 * b)) * (b' - (b' - u ^ 6 * b)))) by ring. rewrite H1, H2.
      replace (4 * ((a' - k1 * p) * (a' - k1 * p) * (a' - k1 * p)) + 27 * ((b' - k2 * p) * (b' - k2 * p))) with
        (4 * (a' * a' * a') + 27 * (b' * b') + (4 * (- 3 * a' * a' * k1 + 3 * a' * k1 * k1 * p - k1 * k1 * k1 * p * p) + 27 * (- 2 * b' * k2 + k2 * k2 * p)) * p) by ring.
      apply Z.divide_add_r; [exact D|apply Z.divide_factor_r]. }
    apply prime_mult in D2; [|exact Pp]. destruct D2 as [D2|D2]; [|exact D2]. exfalso. apply Nu. apply (div_pow_n p u 12 Pp); [lia|exact D2]. }
  pose proof HP as HP'. rewrite <- (c90_on_curve p u a b a' b' E E' _ Pp HI HE HE') in HP'.
  apply curve_of_fields in HE, HE'. apply (is_on_inv a b p E _ HE) in HP; [|lia]. apply (is_on_inv a' b' p E' _ HE') in HP'; [|lia].
  destruct (mult_value a b p E HE Pp P2 NS P n HP Hn) as (R & ER & AR). destruct (mult_value a' b' p E' HE' Pp P2 NS' _ n HP' Hn) as (R' & ER' & AR').
  exists R, R'. split; [exact ER|]. split; [exact ER'|]. rewrite AR', !(iso_affine p u Pp), AR. destruct (n =? 0); [reflexivity|].
  rewrite <- !(iso_emul a b a' b' p u Pp HI P2) by exact HP. destruct (emul a p Pp (top n) (affine p P)) as [[x y]|]; reflexivity.
Qed.
Lemma iso_order_loop a b a' b' p u E E' P (Pp : prime p) (P2 : p <> 2) (HI : iso_curves p u a b a' b') (HE : fields a b p E) (HE' : fields a' b' p E') :
  on_curve a b p (affine p P) -> pz P <> 0 -> forall fuel x r r', on_curve a b p (affine p r) -> pz r <> 0 -> affine p r' = affine p (iso_point u r) ->
  point_order_loop fuel E' (iso_point u P) x r' = point_order_loop fuel E P x r.
Proof.
  pose proof (prime_ge_2 p Pp) as G. intros HP ZP fuel. induction fuel as [|f IH]; intros x r r' Hr Zr A; [reflexivity|]. cbn [point_order_loop].
  assert (HP': on_curve a' b' p (affine p (iso_point u P))) by (rewrite (iso_affine p u Pp); apply (iso_on' a b a' b' p u Pp HI), HP).
  assert (Hr': on_curve a' b' p (affine p r')) by (rewrite A, (iso_affine p u Pp); apply (iso_on' a b a' b' p u Pp HI), Hr).
  assert (Zr': pz r' <> 0). { intros Z0. apply (aff_none p) in Z0. rewrite A in Z0. apply (aff_none p) in Z0. apply Zr. exact Z0. }
  destruct (plus_ok a b p E HE Pp P2 P r HP Hr (or_intror Zr)) as (R & -> & AR & _). destruct (plus_ok a' b' p E' HE' Pp P2 _ r' HP' Hr' (or_intror Zr')) as (R' & -> & AR' & _). cbn [bind].
  assert (AA: affine p R' = affine p (iso_point u R)) by (rewrite AR', A, !(iso_affine p u Pp), AR; symmetry; apply (iso_esum a b a' b' p u Pp HI P2); assumption).
  assert (ZZ: pz R' = 0 <-> pz R = 0) by (rewrite <- (aff_none p R'), AA, (aff_none p (iso_point u R)); reflexivity).
  unfold is_infinity. destruct (pz R =? 0) eqn:E0, (pz R' =? 0) eqn:E1; try lia; [reflexivity|].
  apply IH; [|lia|exact AA]. rewrite AR. apply (esum_on a b p Pp P2); assumption.
Qed.
(** C90: the order reported for a point is the order reported for its image. *)
Lemma c90_order : forall p u a b a' b' E E' P fuel, prime p -> p <> 2 -> iso_curves p u a b a' b' -> curve_of a b p E -> curve_of a' b' p E' ->
  is_on_curve E P = Ok true -> point_order fuel E' (iso_point u P) = point_order fuel E P.
Proof.
  intros p u a b a' b' E E' P fuel Pp P2 HI HE HE' HP. pose proof (prime_ge_2 p Pp). apply curve_of_fields in HE, HE'. apply (is_on_inv a b p E _ HE) in HP; [|lia].
  unfold point_order, is_infinity. cbn [iso_point pz]. destruct (pz P =? 0) eqn:X; [reflexivity|].
  apply (iso_order_loop a b a' b' p u E E' P Pp P2 HI HE HE'); try assumption; try lia. reflexivity.
Qed.
(** C90: isomorphic curves (in particular, curves whose coefficients agree modulo p: u = 1) have the same cardinality. *)
Lemma c90_cardinality : forall p u a b a' b' E E', p <> 2 -> iso_curves p u a b a' b' -> ec_new a b p = Ok E -> ec_new a' b' p = Ok E' -> cardinality E' = cardinality E.
Proof.
  intros p u a b a' b' E E' P2 HI HE HE'. destruct (proj2 (proj1 (c61_new_returns a b p)) (ex_intro _ E HE)) as (Pp & _). pose proof (prime_ge_2 p Pp).
  rewrite (card_sum a b p E HE), (card_sum a' b' p E' HE'). f_equal. destruct HI as (Nu & (k1 & H1) & (k2 & H2)).
  assert (N: forall n, 0 <= n -> ~ (p | u ^ n)) by (intros n Hn D; apply Nu; apply (div_pow_n p u n Pp Hn D)).
  rewrite <- (residues_sum p (fun x => u ^ 2 * x) (fun x => nsq p (x * x * x + a' * x + b'))); [| lia | apply (scale_inj p _ Pp); apply N; lia | ].
  - apply sumZ_ext. intros x _. rewrite (nsq_mod p _ (u ^ 6 * (x * x * x + a * x + b))) by (try lia; exists (k1 * (u ^ 2 * x) + k2); replace a' with (k1 * p + u ^ 4 * a) by lia; replace b' with (k2 * p + u ^ 6 * b) by lia; ring).
    apply (nsq_square_mult p Pp P2 _ _ (u ^ 3)); [apply N; lia|]. exists 0. ring.
  - intros x y (k & Hk). apply nsq_mod; [lia|]. exists (k * (x * x + x * y + y * y + a')).
    replace (x * x * x + a' * x + b' - (y * y * y + a' * y + b')) with ((x - y) * (x * x + x * y + y * y + a')) by ring. rewrite Hk. ring.
Qed.
Example c90_case : iso_curves 5 2 1 1 1 (-1) /\ is_on_curve (new_raw 1 1 5) (mkPt 0 1 1) = Ok true /\
  point_order 20 (new_raw 1 1 5) (mkPt 0 1 1) = Ok 9 /\ point_order 20 (new_raw 1 (-1) 5) (iso_point 2 (mkPt 0 1 1)) = Ok 9.
Proof.
  split; [|split; [reflexivity|split; reflexivity]]. split; [intros D; apply Z.mod_divide in D; [discriminate|lia]|]. split; [exists (-3); reflexivity|exists (-13); reflexivity].
Qed.

(** C91: a curve and its quadratic twist have 2 p + 2 points together. *)
Lemma twist_sum p d a b a' b' (Pp : prime p) (P2 : p <> 2) : twisted p d a b a' b' ->
  sumZ (fun x => nsq p (x * x * x + a * x + b)) (zrange 0 p) + sumZ (fun x => nsq p (x * x * x + a' * x + b')) (zrange 0 p) = 2 * p.
Proof.
  intros (ND & (k1 & H1) & (k2 & H2)). pose proof (prime_ge_2 p Pp).
  assert (Nd: ~ (p | d)). { intros D. apply ND. exists 0. replace (0 * 0 - d) with (- d) by ring. apply Z.divide_opp_r, D. }
  pose proof (proj2 (nsq_square p Pp P2 d) ND) as Z0.
  rewrite <- (residues_sum p (fun x => d * x) (fun x => nsq p (x * x * x + a' * x + b'))); [| lia | apply (scale_inj p _ Pp Nd) | ].
  - rewrite <- sumZ_add. transitivity (sumZ (fun _ => 2) (zrange 0 p)); [|rewrite sumZ_const, length_zrange; lia].
    apply sumZ_ext. intros x _. cbv beta. rewrite (nsq_mod p (d * x * (d * x) * (d * x) + a' * (d * x) + b') (d * (d ^ 2 * (x * x * x + a * x + b)))) by (try lia; exists (k1 * (d * x) + k2); replace a' with (k1 * p + d ^ 2 * a) by lia; replace b' with (k2 * p + d ^ 3 * b) by lia; ring).
    pose proof (nsq_twist p Pp P2 d (d ^ 2 * (x * x * x + a * x + b)) Nd Z0) as T. rewrite (nsq_square_mult p Pp P2 (d ^ 2) (x * x * x + a * x + b) d Nd) in T by (exists 0; ring). exact T.
  - intros x y (k & Hk). apply nsq_mod; [lia|]. exists (k * (x * x + x * y + y * y + a')).
    replace (x * x * x + a' * x + b' - (y * y * y + a' * y + b')) with ((x - y) * (x * x + x * y + y * y + a')) by ring. rewrite Hk. ring.
Qed.
Lemma c91_twist : forall p d a b a' b' E E', p <> 2 -> twisted p d a b a' b' -> ec_new a b p = Ok E -> ec_new a' b' p = Ok E' -> cardinality E + cardinality E' = 2 * p + 2.
Proof.
  intros p d a b a' b' E E' P2 HT HE HE'. destruct (proj2 (proj1 (c61_new_returns a b p)) (ex_intro _ E HE)) as (Pp & _).
  rewrite (card_sum a b p E HE), (card_sum a' b' p E' HE'). pose proof (twist_sum p d a b a' b' Pp P2 HT). lia.
Qed.
(** C91: every odd prime has a non-residue, so every curve has a twist. *)
Lemma residue_or p d : prime p -> p <> 2 -> (exists y, (p | y * y - d)) \/ non_residue p d.
Proof.
  intros Pp P2. pose proof (prime_ge_2 p Pp). destruct (Z.eq_dec (nsq p d) 0) as [Z|Z]; [right; apply (nsq_square p Pp P2), Z|left].
  unfold nsq in Z. destruct (filter (sqb p d) (zrange 0 p)) as [|y r] eqn:Ef; [exfalso; apply Z; reflexivity|]. exists y.
  assert (I: In y (filter (sqb p d) (zrange 0 p))) by (rewrite Ef; left; reflexivity). rewrite filter_In, sqb_true in I by lia. tauto.
Qed.
(** C91: two curves with the same j_invariant() other than 0 and 1728 have the same cardinality or cardinalities adding up to 2 p + 2. *)
Lemma c91_same_j : forall p a b a' b' E E' j, elliptic a b p -> elliptic a' b' p -> ec_new a b p = Ok E -> ec_new a' b' p = Ok E' ->
  ec_j_invariant E = Ok j -> ec_j_invariant E' = Ok j -> ~ (p | j) -> ~ (p | j - 1728) ->
  cardinality E' = cardinality E \/ cardinality E + cardinality E' = 2 * p + 2.
Proof.
  intros p a b a' b' E E' j (Pp & P2 & NS) (_ & _ & NS') HE HE' HJ HJ' N0 N1. pose proof (prime_ge_2 p Pp) as G.
  destruct (c66_j_value a b p E Pp NS (or_intror HE)) as (j1 & E1 & _ & D1). destruct (c66_j_value a' b' p E' Pp NS' (or_intror HE')) as (j2 & E2 & _ & D2).
  assert (j1 = j) by congruence. assert (j2 = j) by congruence. subst j1 j2. clear E1 E2.
  assert (X: forall a b, nonsingular a b p -> (p | j * (4 * a ^ 3 + 27 * b ^ 2) - 1728 * (4 * a ^ 3)) -> ~ (p | a) /\ ~ (p | b)).
  { clear - Pp N0 N1. intros a b NS (w & D). split; intros (k & ->).
    - assert (Y: (p | j * (4 * (k * p * (k * p) * (k * p)) + 27 * (b * b)))) by (exists (w + 1728 * 4 * k ^ 3 * p ^ 2); replace (j * (4 * (k * p * (k * p) * (k * p)) + 27 * (b * b))) with (j * (4 * (k * p) ^ 3 + 27 * b ^ 2) - 1728 * (4 * (k * p) ^ 3) + 1728 * (4 * (k * p) ^ 3)) by ring; rewrite D; ring).
      apply prime_mult in Y; [|exact Pp]. destruct Y; [tauto|]. apply NS. assumption.
    - assert (Y: (p | (j - 1728) * (4 * (a * a * a) + 27 * (k * p * (k * p))))) by (exists (w - 1728 * 27 * k ^ 2 * p); replace ((j - 1728) * (4 * (a * a * a) + 27 * (k * p * (k * p)))) with (j * (4 * a ^ 3 + 27 * (k * p) ^ 2) - 1728 * (4 * a ^ 3) - 1728 * (27 * (k * p) ^ 2)) by ring; rewrite D; ring).
      apply prime_mult in Y; [|exact Pp]. destruct Y; [tauto|]. apply NS. assumption. }
  destruct (X a b NS D1) as (Na & Nb). destruct (X a' b' NS' D2) as (Na' & Nb'). clear X.
  (* a^3 b'^2 = a'^3 b^2 *)
  assert (Q: (p | a ^ 3 * b' ^ 2 - a' ^ 3 * b ^ 2)).
  { assert (Y: (p | (1728 * 27 * 4) * (a ^ 3 * b' ^ 2 - a' ^ 3 * b ^ 2) )).
    { destruct D1 as (w1 & W1), D2 as (w2 & W2). exists (w2 * (4 * a ^ 3 + 27 * b ^ 2) - w1 * (4 * a' ^ 3 + 27 * b' ^ 2)).
      rewrite Z.mul_sub_distr_r.
      replace (w2 * (4 * a ^ 3 + 27 * b ^ 2) * p) with (w2 * p * (4 * a ^ 3 + 27 * b ^ 2)) by ring. replace (w1 * (4 * a' ^ 3 + 27 * b' ^ 2) * p) with (w1 * p * (4 * a' ^ 3 + 27 * b' ^ 2)) by ring.
      rewrite <- W1, <- W2. ring. }
    apply prime_mult in Y; [|exact Pp]. destruct Y as [Y|Y]; [exfalso|exact Y].
    assert (P23: (p | 2) \/ (p | 3)).
    { replace (1728 * 27 * 4) with (2 ^ 8 * 3 ^ 6) in Y by reflexivity. apply prime_mult in Y; [|exact Pp].
      destruct Y as [Y|Y]; [left|right]; revert Y; apply div_pow_n; try assumption; lia. }
    destruct P23 as [D|D]; [apply Z.divide_pos_le in D; lia|]. assert (p = 3) by (apply Z.divide_pos_le in D; lia). subst p.
    (* p = 3: then j = 0 or b... *)
    destruct D1 as (w1 & W1). assert (Z3: (3 | j * (4 * a ^ 3))).
    { exists (w1 + 576 * (4 * a ^ 3) - 9 * j * b ^ 2). replace (j * (4 * a ^ 3)) with (j * (4 * a ^ 3 + 27 * b ^ 2) - 1728 * (4 * a ^ 3) + 1728 * (4 * a ^ 3) - 27 * j * b ^ 2) by ring. rewrite W1. ring. }
    apply prime_mult in Z3; [|exact Pp]. destruct Z3 as [Z3|Z3]; [tauto|]. apply prime_mult in Z3; [|exact Pp]. destruct Z3 as [Z3|Z3]; [destruct Z3; lia|]. apply Na. revert Z3. apply div_pow_n; [exact Pp|lia]. }
  destruct (inverse_spec (b * a') p Pp) as (i & _ & _ & Hi); [intros D; apply prime_mult in D; tauto|]. destruct Hi as (wi & Hi). destruct Q as (wq & Q).
  set (d := b' * a * i).
  assert (Ha: (p | a' - d ^ 2 * a)).
  { (* d^2 a = b'^2 a^3 i^2; a' (b a' i)^2 = a'; *)
    exists (- wq * i ^ 2 - a' * (b * a' * i + 1) * wi).
    replace (a' - d ^ 2 * a) with (- ((a ^ 3 * b' ^ 2 - a' ^ 3 * b ^ 2) * i ^ 2) - a' * (b * a' * i + 1) * (b * a' * i - 1)) by (unfold d; ring). rewrite Q, Hi. ring. }
  assert (Hb: (p | b' - d ^ 3 * b)).
  { exists (- wq * b' * i ^ 3 * b - b' * ((b * a' * i) ^ 2 + b * a' * i + 1) * wi).
    replace (b' - d ^ 3 * b) with (- ((a ^ 3 * b' ^ 2 - a' ^ 3 * b ^ 2) * b' * i ^ 3 * b) - b' * ((b * a' * i) ^ 2 + b * a' * i + 1) * (b * a' * i - 1)) by (unfold d; ring). rewrite Q, Hi. ring. }
  destruct (residue_or p d Pp P2) as [(y & Dy)|ND].
  - left. destruct Dy as (wy & Dy). destruct Ha as (wa & Wa), Hb as (wb & Wb). apply (c90_cardinality p y a b a' b' E E' P2); [|assumption..]. split; [|split].
    + intros (k & ->). apply Na'. exists (wa + (k ^ 2 * p - wy) * d * a). replace a' with (d ^ 2 * a + wa * p) by lia. replace (d ^ 2 * a) with ((k * p * (k * p) - (k * p * (k * p) - d)) * d * a) by ring. rewrite Dy. ring.
    + exists (wa - wy * (y ^ 2 + d) * a). replace (a' - y ^ 4 * a) with (a' - d ^ 2 * a - (y * y - d) * (y ^ 2 + d) * a) by ring. rewrite Wa, Dy. ring.
    + exists (wb - wy * (y ^ 4 + y ^ 2 * d + d ^ 2) * b). replace (b' - y ^ 6 * b) with (b' - d ^ 3 * b - (y * y - d) * (y ^ 4 + y ^ 2 * d + d ^ 2) * b) by ring. rewrite Wb, Dy. ring.
  - right. apply (c91_twist p d a b a' b' E E' P2); [|assumption..]. split; [exact ND|]. split; assumption.
Qed.
Lemma nonres p (Pp : prime p) (P2 : p <> 2) : exists d, nsq p d = 0 /\ 0 <= d < p.
Proof.
  pose proof (prime_ge_2 p Pp). destruct (Exists_dec (fun d => nsq p d = 0) (zrange 0 p)) as [X|X]; [intros d; apply Z.eq_dec| |].
  - apply Exists_exists in X. destruct X as (d & I & Z0). apply in_zrange in I. exists d. split; assumption.
  - exfalso. (* all residues squares: 1 + 2(p-1) roots > p *)
    assert (A: forall x, In x (zrange 1 p) -> nsq p x = 2).
    { intros x Hx. apply in_zrange in Hx. assert (Nx: ~ (p | x)) by (intros D; apply Z.divide_pos_le in D; lia).
      destruct (euler p Pp P2 x Nx) as [(E & _)|(E & _)]; [exact E|]. exfalso. apply X, Exists_exists. exists x. split; [apply in_zrange; lia|exact E]. }
    assert (B: forall x, In x (zrange 1 p) -> 0 <= x < p /\ (p | x ^ ((p - 1) / 2) - 1)).
    { intros x Hx. pose proof (A x Hx) as Ex. apply in_zrange in Hx. split; [lia|]. assert (Nx: ~ (p | x)) by (intros D; apply Z.divide_pos_le in D; lia).
      destruct (euler p Pp P2 x Nx) as [(_ & E)|(E & _)]; [exact E|rewrite E in Ex; discriminate]. }
    pose proof (unity_roots p ((p - 1) / 2) (zrange 1 p) Pp (h_pos p Pp P2) (NoDup_zrange 1 p) B) as L. rewrite length_zrange in L. pose proof (p_odd p Pp P2). pose proof (h_pos p Pp P2). lia.
Qed.
(** C91: every curve over GF(p), p odd, has a twist, with the same j_invariant(). *)
Lemma c91_exists : forall p a b E, elliptic a b p -> ec_new a b p = Ok E -> exists d a' b' E', twisted p d a b a' b' /\ elliptic a' b' p /\ ec_new a' b' p = Ok E' /\
  cardinality E + cardinality E' = 2 * p + 2 /\ ec_j_invariant E' = ec_j_invariant E.
Proof.
  intros p a b E (Pp & P2 & NS) HE. pose proof (prime_ge_2 p Pp) as G. destruct (nonres p Pp P2) as (d & Z0 & _). assert (Nd: ~ (p | d)) by (intros D; rewrite (nsq_0 p Pp P2 d D) in Z0; discriminate).
  destruct (proj2 (proj1 (c61_new_returns a b p)) (ex_intro _ E HE)) as (_ & Bp). destruct (proj1 (proj1 (c61_new_returns (d ^ 2 * a) (d ^ 3 * b) p)) (conj Pp Bp)) as (E' & HE').
  assert (NS': nonsingular (d ^ 2 * a) (d ^ 3 * b) p).
  { intros D. apply NS. replace (4 * (d ^ 2 * a * (d ^ 2 * a) * (d ^ 2 * a)) + 27 * (d ^ 3 * b * (d ^ 3 * b))) with (d ^ 6 * (4 * (a * a * a) + 27 * (b * b))) in D by ring.
    apply prime_mult in D; [|exact Pp]. destruct D as [D|D]; [|exact D]. exfalso. apply Nd. revert D. apply div_pow_n; [exact Pp|lia]. }
  assert (HT: twisted p d a b (d ^ 2 * a) (d ^ 3 * b)) by (split; [apply (nsq_square p Pp P2), Z0|split; exists 0; ring]).
  exists d, (d ^ 2 * a), (d ^ 3 * b), E'. split; [exact HT|]. split; [exact (conj Pp (conj P2 NS'))|]. split; [exact HE'|]. split; [apply (c91_twist p d a b _ _ E E' P2 HT HE HE')|].
  destruct (c66_j_value a b p E Pp NS (or_intror HE)) as (j & -> & B1 & D1). destruct (c66_j_value _ _ p E' Pp NS' (or_intror HE')) as (j' & -> & B2 & D2). f_equal.
  assert (X: (p | (j' - j) * (d ^ 6 * (4 * (a * a * a) + 27 * (b * b))))).
  { replace ((j' - j) * (d ^ 6 * (4 * (a * a * a) + 27 * (b * b)))) with (j' * (4 * (d ^ 2 * a) ^ 3 + 27 * (d ^ 3 * b) ^ 2) - 1728 * (4 * (d ^ 2 * a) ^ 3) - d ^ 6 * (j * (4 * a ^ 3 + 27 * b ^ 2) - 1728 * (4 * a ^ 3))) by ring.
    apply Z.divide_sub_r; [exact D2|apply Z.divide_mul_r, D1]. }
  apply prime_mult in X; [|exact Pp]. destruct X as [X|X]; [apply near_zero in X; lia|]. exfalso. apply prime_mult in X; [|exact Pp]. destruct X as [X|X]; [|exact (NS X)].
  apply Nd. revert X. apply div_pow_n; [exact Pp|lia].
Qed.
Example c91_case : twisted 5 2 1 1 4 3 /\ exists E E', ec_new 1 1 5 = Ok E /\ ec_new 4 3 5 = Ok E' /\ cardinality E = 9 /\ cardinality E' = 3 /\ ec_j_invariant E = ec_j_invariant E'.
Proof.
  split.
  - split; [|split; [exists 0; reflexivity|exists (-1); reflexivity]]. apply (nsq_square 5); [apply is_prime_spec; reflexivity|lia|reflexivity].
  - eexists _, _. split; [reflexivity|]. split; [reflexivity|]. repeat split.
Qed.

(** C92: a curve y^2 = x^3 + a x over GF(p) with p = 3 (mod 4) has exactly p + 1 points. *)
Lemma c92_b_zero : forall p a b E, p mod 4 = 3 -> (p | b) -> ec_new a b p = Ok E -> cardinality E = p + 1.
Proof.
  intros p a b E H4 (k & Hb) HE. destruct (proj2 (proj1 (c61_new_returns a b p)) (ex_intro _ E HE)) as (Pp & _). assert (P2: p <> 2) by (intros ->; discriminate).
  assert (HT: twisted p (-1) a b a b).
  { split; [|split; [exists 0; ring|exists (2 * k); rewrite Hb; ring]]. apply (nsq_square p Pp P2). pose proof (prime_ge_2 p Pp).
    assert (N1: ~ (p | -1)) by (intros D; apply Z.divide_opp_r in D; apply Z.divide_pos_le in D; lia).
    destruct (euler p Pp P2 (-1) N1) as [(_ & D)|(D & _)]; [exfalso|exact D].
    pose proof (Z.div_mod p 4 ltac:(lia)) as D4. replace ((p - 1) / 2) with (2 * (p / 4) + 1) in D by (apply (Z.div_unique_exact (p - 1) 2); lia).
    pose proof (Z.div_pos p 4 ltac:(lia) ltac:(lia)) as Q4. rewrite Z.pow_add_r, Z.pow_mul_r in D by lia. change ((-1) ^ 2) with 1 in D. rewrite Z.pow_1_l in D by lia.
    apply Z.divide_opp_r in D. apply Z.divide_pos_le in D; [|cbn; lia]. cbn in D. lia. }
  pose proof (c91_twist p (-1) a b a b E E P2 HT HE HE). lia.
Qed.
Lemma cube_inj p : prime p -> p mod 3 = 2 -> forall x y, 0 <= x < p -> 0 <= y < p -> (p | x * x * x - y * y * y) -> x = y.
Proof.
  intros Pp H3 x y Bx By D. pose proof (prime_ge_2 p Pp) as G. pose proof (Z.div_mod p 3 ltac:(lia)) as D3. set (q := p / 3) in *. assert (Q0: 0 <= q) by (apply Z.div_pos; lia).
  (* x^(3 (2q+1)) = x^(2p-1) = x *)
  assert (X: forall z, (p | (z * z * z) ^ (2 * q + 1) - z)).
  { intros z. replace ((z * z * z) ^ (2 * q + 1)) with (z * (z ^ (p - 1)) ^ 2).
    - destruct (Zdivide_dec p z) as [Dz|Nz]; [replace (z * (z ^ (p - 1)) ^ 2 - z) with (z * ((z ^ (p - 1)) ^ 2 - 1)) by ring; apply Z.divide_mul_l, Dz|].
      replace (z * (z ^ (p - 1)) ^ 2 - z) with ((z ^ (p - 1) - 1) * (z * (z ^ (p - 1) + 1))) by ring. apply Z.divide_mul_l, fermat_little; assumption.
    - replace (z * z * z) with (z ^ 3) by ring. rewrite <- !Z.pow_mul_r by lia. rewrite <- Z.pow_succ_r by lia. f_equal. lia. }
  pose proof (div_pow p _ _ (2 * q + 1) D ltac:(lia)) as DP. pose proof (X x) as Dx. pose proof (X y) as Dy.
  assert (Dd: (p | x - y)).
  { replace (x - y) with ((x * x * x) ^ (2 * q + 1) - (y * y * y) ^ (2 * q + 1) - ((x * x * x) ^ (2 * q + 1) - x) + ((y * y * y) ^ (2 * q + 1) - y)) by ring.
    apply Z.divide_add_r; [apply Z.divide_sub_r; assumption|assumption]. }
  apply near_zero in Dd; lia.
Qed.
Lemma nsq_total p (Pp : prime p) (P2 : p <> 2) : sumZ (nsq p) (zrange 0 p) = p.
Proof.
  pose proof (prime_ge_2 p Pp). destruct (nonres p Pp P2) as (d & Z0 & _). assert (Nd: ~ (p | d)) by (intros D; rewrite (nsq_0 p Pp P2 d D) in Z0; discriminate).
  pose proof (residues_sum p (fun x => d * x) (nsq p) ltac:(lia) (scale_inj p d Pp Nd) (fun x y D => nsq_mod p x y ltac:(lia) D)) as E.
  assert (S2: sumZ (fun x => nsq p x + nsq p (d * x)) (zrange 0 p) = 2 * p) by (rewrite (sumZ_ext _ (fun _ => 2)) by (intros x _; apply (nsq_twist p Pp P2 d x Nd Z0)); rewrite sumZ_const, length_zrange; lia).
  rewrite sumZ_add, E in S2. lia.
Qed.
(** C92: a curve y^2 = x^3 + b over GF(p) with p = 2 (mod 3), p odd, has exactly p + 1 points. *)
Lemma c92_a_zero : forall p a b E, p <> 2 -> p mod 3 = 2 -> (p | a) -> ec_new a b p = Ok E -> cardinality E = p + 1.
Proof.
  intros p a b E P2 H3 (k & Ha) HE. destruct (proj2 (proj1 (c61_new_returns a b p)) (ex_intro _ E HE)) as (Pp & _). pose proof (prime_ge_2 p Pp).
  rewrite (card_sum a b p E HE). rewrite (sumZ_ext _ (fun x => nsq p (x * x * x + b))) by (intros x _; apply nsq_mod; [lia|]; exists (k * x); rewrite Ha; ring).
  rewrite (residues_sum p (fun x => x * x * x + b) (nsq p)).
  - rewrite (nsq_total p Pp P2). ring.
  - lia.
  - intros x y Bx By D. apply (cube_inj p Pp H3); try assumption. replace (x * x * x - y * y * y) with (x * x * x + b - (y * y * y + b)) by ring. exact D.
  - intros x y D. apply nsq_mod; [lia|exact D].
Qed.
Example c92_case : exists E E', ec_new 1 0 7 = Ok E /\ cardinality E = 8 /\ ec_new 0 1 5 = Ok E' /\ cardinality E' = 6.
Proof. eexists _, _. repeat split. Qed.
