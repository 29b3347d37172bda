(** Lemmas for C94-C96: representatives of points, canonicalize, repeated enumeration. *)
From Coq Require Import Znumtheory ZifyBool.
From Verif Require Import Prelude M_Bigint M_Variable M_Term M_Poly M_Curve Spec SpecCurve SpecRepr P_Bigint P_Variable P_Subst P_Group P_Fp P_Curve P_Curve2 P_Curve3 P_Curve4 P_CurveProps.
Open Scope Z_scope.

Lemma Ok_inj {A} (x y : A) : Ok x = Ok y -> x = y.
Proof. congruence. Qed.
Lemma mf p x : 0 < p -> mod_floor x p = Ok (x mod p).
Proof. intros H. unfold mod_floor. destruct (p =? 0) eqn:X; [lia|reflexivity]. Qed.

(** C94 is false: a finite point whose z is a multiple of p becomes the point at infinity. *)
Lemma c94_canonicalize_refuted : exists a b p E P Q, elliptic a b p /\ curve_of a b p E /\ is_on_curve E P = Ok true /\ is_infinity P = false /\
  canonicalize E P = Ok Q /\ is_infinity Q = true.
Proof.
  exists 1, 1, 5, (new_raw 1 1 5), (mkPt 0 1 5), (mkPt 0 1 0). split; [|repeat split; try reflexivity; left; reflexivity].
  split; [apply is_prime_spec; reflexivity|]. split; [lia|]. intros (k & Hk). lia.
Qed.
(** C94, what holds for every modulus p > 0: canonicalize returns the residues of the three coordinates, applied again it changes nothing, it keeps the affine point
    (unless z is a non-zero multiple of p) and the verdict of is_on_curve. *)
Lemma c94_canonicalize_partial : forall a b p E P, 0 < p -> curve_of a b p E -> exists Q, canonicalize E P = Ok Q /\ Q = mkPt (px P mod p) (py P mod p) (pz P mod p) /\
  canonicalize E Q = Ok Q /\ (pz P = 0 \/ ~ (p | pz P) -> affine p Q = affine p P /\ is_on_curve E Q = is_on_curve E P).
Proof.
  intros a b p E P H HE. apply curve_of_fields in HE. pose proof HE as (_ & _ & Ep & _). unfold canonicalize. rewrite Ep, !mf by exact H. cbn [bind].
  eexists. split; [reflexivity|]. split; [reflexivity|]. cbn [px py pz]. rewrite !mf by exact H. cbn [bind]. rewrite !Z.mod_mod by lia. split; [reflexivity|].
  intros HZ. assert (A : affine p (mkPt (px P mod p) (py P mod p) (pz P mod p)) = affine p P).
  { unfold affine. cbn [px py pz]. rewrite !Z.mod_mod by lia. destruct (pz P =? 0) eqn:E0; [apply Z.eqb_eq in E0; rewrite E0; reflexivity|].
    destruct (pz P mod p =? 0) eqn:E1; [|reflexivity]. exfalso. destruct HZ as [HZ|HZ]; [lia|]. apply HZ. apply Z.mod_divide; lia. }
  split; [exact A|]. set (Q := mkPt _ _ _) in *. 
  destruct (is_on_curve_spec a b p E Q HE ltac:(lia)) as (c & -> & Hc), (is_on_curve_spec a b p E P HE ltac:(lia)) as (d & -> & Hd).
  rewrite <- affine_on in Hc, Hd by exact H. rewrite A in Hc. f_equal. destruct c, d; intuition congruence.
Qed.
Example c94_case : canonicalize (new_raw 1 1 5) (mkPt (-5) 6 3) = Ok (mkPt 0 1 3) /\ affine 5 (mkPt (-5) 6 3) = Some (0, 1).
Proof. split; reflexivity. Qed.

(** C95: whether a point is on the curve depends only on the affine point. *)
Lemma c95_on_curve : forall a b p E P P', 0 < p -> curve_of a b p E -> affine p P = affine p P' -> is_on_curve E P = is_on_curve E P'.
Proof.
  intros a b p E P P' H HE A. apply curve_of_fields in HE.
  destruct (is_on_curve_spec a b p E P' HE ltac:(lia)) as (c & -> & Hc), (is_on_curve_spec a b p E P HE ltac:(lia)) as (d & -> & Hd).
  rewrite <- affine_on in Hc, Hd by exact H. rewrite A in Hd. f_equal. destruct c, d; intuition congruence.
Qed.
Lemma affine_inf p P P' : affine p P = affine p P' -> (pz P =? 0) = (pz P' =? 0).
Proof. unfold affine. destruct (pz P =? 0), (pz P' =? 0); congruence. Qed.
Lemma affine_fin p P P' : affine p P = affine p P' -> (pz P =? 0) = false -> px P mod p = px P' mod p /\ py P mod p = py P' mod p.
Proof. intros A X. pose proof (affine_inf p P P' A) as Y. unfold affine in A. rewrite <- Y, X in A. split; congruence. Qed.
Lemma inverse_res v p : inverse v p = Panic \/ exists w, inverse v p = Ok w.
Proof.
  unfold inverse. destruct (2 <=? p) eqn:X; [|left; reflexivity]. cbn [assertb bind]. right. destruct (Z.eq_dec (p - 2) 0) as [-> | N].
  - rewrite power_modulo_zero. eauto.
  - rewrite power_modulo_spec by lia. eauto.
Qed.
(** C95: plus, for every modulus p > 0 (also composite): the same panics, and the same result as an affine point; literally the same result for finite points. *)
Lemma c95_plus : forall a b p E P P' Q Q', 0 < p -> curve_of a b p E -> affine p P = affine p P' -> affine p Q = affine p Q' ->
  (plus E P Q = Panic /\ plus E P' Q' = Panic) \/ exists R R', plus E P Q = Ok R /\ plus E P' Q' = Ok R' /\ affine p R = affine p R' /\
    (is_infinity P = false -> is_infinity Q = false -> R = R').
Proof.
  intros a b p E P P' Q Q' H HC AP AQ. pose proof (curve_of_fields _ _ _ _ HC) as HE. pose proof HE as (_ & _ & Ep & _).
  unfold plus. rewrite <- (c95_on_curve a b p E P P' H HC AP), <- (c95_on_curve a b p E Q Q' H HC AQ).
  destruct (is_on_curve_spec a b p E P HE ltac:(lia)) as (c & -> & _), (is_on_curve_spec a b p E Q HE ltac:(lia)) as (d & -> & _).
  cbn [bind]. destruct c; [|left; split; reflexivity]. cbn [assertb bind]. destruct d; [|left; split; reflexivity]. cbn [assertb bind]. 
  unfold is_infinity. rewrite <- (affine_inf p P P' AP), <- (affine_inf p Q Q' AQ).
  destruct (pz P =? 0) eqn:Z1.
  { right. eexists _, _. split; [reflexivity|]. split; [reflexivity|]. split; [|discriminate]. destruct Q, Q'; exact AQ. }
  destruct (pz Q =? 0) eqn:Z2.
  { right. eexists _, _. split; [reflexivity|]. split; [reflexivity|]. split; [|discriminate]. unfold affine. cbn [pz]. pose proof (affine_inf p Q Q' AQ) as Y. rewrite <- Y, Z2. reflexivity. }
  destruct (affine_fin p P P' AP Z1) as (X1 & Y1), (affine_fin p Q Q' AQ Z2) as (X2 & Y2).
  unfold canonicalize. rewrite Ep, !(mf p) by exact H. cbn [bind px py]. rewrite <- X1, <- Y1, <- X2, <- Y2.
  match goal with |- (?u = Panic /\ ?v = Panic) \/ _ => change v with u; destruct u as [R| |] eqn:EU end.
  - right. exists R, R. repeat split.
  - left. split; reflexivity.
  - exfalso. revert EU. destruct (negb _).
    + destruct (inverse_res (px Q mod p - px P mod p) p) as [-> | (v & ->)]; cbn [bind]; [discriminate|]. rewrite power_i32_spec by lia. cbn [bind]. rewrite !(mf p) by exact H. cbn [bind]. discriminate.
    + destruct (_ || _); [discriminate|]. rewrite power_i32_spec by lia. cbn [bind].
      destruct (inverse_res (2 * (py P mod p)) p) as [-> | (v & ->)]; cbn [bind]; [discriminate|]. rewrite power_i32_spec by lia. cbn [bind]. rewrite !(mf p) by exact H. cbn [bind]. discriminate.
Qed.
(** C95: negate. *)
Lemma c95_negate : forall a b p E P P', 0 < p -> curve_of a b p E -> affine p P = affine p P' ->
  exists R R', negate E P = Ok R /\ negate E P' = Ok R' /\ affine p R = affine p R'.
Proof.
  intros a b p E P P' H HC A. pose proof (curve_of_fields _ _ _ _ HC) as (_ & _ & Ep & _). unfold negate, is_infinity. rewrite <- (affine_inf p P P' A). destruct (pz P =? 0) eqn:Z1.
  - eauto.
  - rewrite Ep, !(mf p) by exact H. cbn [bind]. eexists _, _. split; [reflexivity|]. split; [reflexivity|]. destruct (affine_fin p P P' A Z1) as (X & Y).
    unfold affine. cbn [px py pz]. rewrite <- (affine_inf p P P' A), Z1, !Z.mod_mod by lia. rewrite X. do 2 f_equal.
    replace (- py P) with (0 - py P) by ring. replace (- py P') with (0 - py P') by ring. rewrite (Zminus_mod 0 (py P)), Y, <- Zminus_mod. reflexivity.
Qed.
Lemma loop_repr a b p E : 0 < p -> curve_of a b p E -> forall fuel e B B' R R', affine p B = affine p B' -> affine p R = affine p R' ->
  multiply_loop fuel E e B R = multiply_loop fuel E e B' R' \/ exists X X', multiply_loop fuel E e B R = Ok X /\ multiply_loop fuel E e B' R' = Ok X' /\ affine p X = affine p X'.
Proof.
  intros H HC. assert (PL : forall P P' Q Q', affine p P = affine p P' -> affine p Q = affine p Q' ->
    (plus E P Q = Panic /\ plus E P' Q' = Panic) \/ exists R R', plus E P Q = Ok R /\ plus E P' Q' = Ok R' /\ affine p R = affine p R').
  { intros P P' Q Q' X Y. destruct (c95_plus a b p E P P' Q Q' H HC X Y) as [Z|(R & R' & A & B & C & _)]; [left; exact Z|right; eauto]. }
  induction fuel as [|fuel IH]; intros e B B' R R' HB HR; cbn [multiply_loop]; destruct (1 <? e) eqn:E1.
  - left; reflexivity.
  - destruct (PL R R' B B' HR HB) as [(-> & ->)|(X & X' & -> & -> & A)]; eauto 6.
  - assert (ST : (if Z.odd e then plus E R B else Ok R) = Panic /\ (if Z.odd e then plus E R' B' else Ok R') = Panic \/
      exists S S', (if Z.odd e then plus E R B else Ok R) = Ok S /\ (if Z.odd e then plus E R' B' else Ok R') = Ok S' /\ affine p S = affine p S').
    { destruct (Z.odd e); [apply PL; assumption|right; eauto]. }
    destruct ST as [(-> & ->)|(S & S' & -> & -> & HS)]; cbn [bind]; [left; reflexivity|].
    destruct (PL B B' B B' HB HB) as [(-> & ->)|(D & D' & -> & -> & HD)]; cbn [bind]; [left; reflexivity|]. apply IH; assumption.
  - destruct (PL R R' B B' HR HB) as [(-> & ->)|(X & X' & -> & -> & A)]; eauto 6.
Qed.
(** C95: multiply_scalar, for every integer n and every modulus p > 0. *)
Lemma c95_multiply : forall a b p E P P' n, 0 < p -> curve_of a b p E -> affine p P = affine p P' ->
  multiply_scalar E P n = multiply_scalar E P' n \/ exists R R', multiply_scalar E P n = Ok R /\ multiply_scalar E P' n = Ok R' /\ affine p R = affine p R'.
Proof.
  intros a b p E P P' n H HC A. 
  assert (NN : forall n, multiply_nonneg E P n = multiply_nonneg E P' n \/ exists R R', multiply_nonneg E P n = Ok R /\ multiply_nonneg E P' n = Ok R' /\ affine p R = affine p R').
  { intros m. unfold multiply_nonneg. destruct (m =? 0); [left; reflexivity|]. destruct (m =? 1); [right; eauto|]. apply (loop_repr a b p E H HC); [exact A|reflexivity]. }
  unfold multiply_scalar. destruct (n =? 0); [left; reflexivity|]. destruct (n <? 0); [|apply NN].
  destruct (NN (- n)) as [-> | (R & R' & -> & -> & B)]; [left; reflexivity|]. cbn [bind].
  destruct (c95_plus a b p E infinity infinity R R' H HC eq_refl B) as [(-> & ->)|(X & X' & -> & -> & C & _)]; [left; reflexivity|right; eauto].
Qed.
(** C95: point_order gives literally the same answer (and the same panics and divergence). *)
Lemma c95_order : forall a b p E P P' fuel, 0 < p -> curve_of a b p E -> affine p P = affine p P' -> point_order fuel E P = point_order fuel E P'.
Proof.
  intros a b p E P P' fuel H HC A. unfold point_order, is_infinity. rewrite <- (affine_inf p P P' A). destruct (pz P =? 0); [reflexivity|].
  assert (G : forall fuel x R R', affine p R = affine p R' -> point_order_loop fuel E P x R = point_order_loop fuel E P' x R').
  { clear fuel. induction fuel as [|fuel IH]; intros x R R' HR; [reflexivity|]. cbn [point_order_loop].
    destruct (c95_plus a b p E P P' R R' H HC A HR) as [(-> & ->)|(X & X' & -> & -> & C & _)]; [reflexivity|]. cbn [bind]. unfold is_infinity. rewrite <- (affine_inf p X X' C). destruct (pz X =? 0); [reflexivity|apply IH, C]. }
  apply G, A.
Qed.
Example c95_case : affine 5 (mkPt 5 (-4) 7) = affine 5 (mkPt 0 1 1) /\ plus (new_raw 1 1 5) (mkPt 5 (-4) 7) (mkPt (-1) 2 1) = Ok (mkPt 2 1 1) /\ plus (new_raw 1 1 5) (mkPt 0 1 1) (mkPt 4 2 1) = Ok (mkPt 2 1 1).
Proof. repeat split. Qed.

(** C96: one scan of a column, for every modulus: what it appends does not depend on what is already there, and lies on the curve. *)
Lemma find_y_any E p x xp : cp E = p -> 0 < p -> forall ys, (forall y, In y ys -> 0 <= y < p) ->
  exists L, (forall pts, find_y E x xp ys pts = Ok (pts ++ L)) /\ forall P, In P L -> pz P = 1 /\ px P = x /\ 0 <= py P < p /\ py P ^ 2 mod p = xp.
Proof.
  intros Ep H ys. induction ys as [|y ys IH]; intros B.
  - exists []. split; [intros pts; cbn [find_y]; rewrite app_nil_r; reflexivity|intros P []].
  - destruct (y ^ 2 mod p =? xp) eqn:Y.
    + assert (E2 : ((- y) mod p) ^ 2 mod p = xp).
      { apply Z.eqb_eq in Y. rewrite <- Y. rewrite !Z.pow_2_r. rewrite <- Zmult_mod. f_equal. ring. }
      pose proof (B y (or_introl eq_refl)). pose proof (Z.mod_pos_bound (- y) p H).
      destruct (point_eqb (mkPt x ((- y) mod p) 1) (mkPt x y 1)) eqn:EQ.
      * exists [mkPt x y 1]. split.
        -- intros pts. cbn [find_y]. rewrite power_i32_spec by lia. cbn [bind]. rewrite Ep, (mf p) by exact H. cbn [bind]. rewrite Y. unfold negate. cbn [is_infinity pz Z.eqb px py]. rewrite Ep, (mf p) by exact H. cbn [bind]. rewrite EQ. reflexivity.
        -- intros P [<-|[]]. cbn [px py pz]. repeat split; lia.
      * exists [mkPt x y 1; mkPt x ((- y) mod p) 1]. split.
        -- intros pts. cbn [find_y]. rewrite power_i32_spec by lia. cbn [bind]. rewrite Ep, (mf p) by exact H. cbn [bind]. rewrite Y. unfold negate. cbn [is_infinity pz Z.eqb px py]. rewrite Ep, (mf p) by exact H. cbn [bind]. rewrite EQ. cbn [negb]. rewrite <- app_assoc. reflexivity.
        -- intros P [<-|[<-|[]]]; cbn [px py pz]; repeat split; lia.
    + destruct IH as (L & IL & SL); [intros; apply B; right; assumption|]. exists L. split; [|exact SL].
      intros pts. cbn [find_y]. rewrite power_i32_spec by lia. cbn [bind]. rewrite Ep, (mf p) by exact H. cbn [bind]. rewrite Y. apply IL.
Qed.
Lemma enum_any E a b p : fields a b p E -> 0 < p -> forall xs, exists L,
  (forall pts, foldM (fun pts x =>
           x3 <- power_i32 x 3 ;;
           let xpol := x3 + ca E * x + cb E in
           xpol <- mod_floor xpol (cp E) ;;
           find_y E x xpol (zrange 0 (cp E)) pts) xs pts = Ok (pts ++ L)) /\
  forall P, In P L -> pz P = 1 /\ In (px P) xs /\ 0 <= py P < p /\ curve_eqn a b p (px P) (py P).
Proof.
  intros (Ea & Eb & Ep & _) H. induction xs as [|x xs (L & IL & SL)].
  - exists []. split; [intros pts; cbn [foldM]; rewrite app_nil_r; reflexivity|intros P []].
  - destruct (find_y_any E p x ((x ^ 3 + a * x + b) mod p) Ep H (zrange 0 p)) as (L1 & I1 & S1); [intros y Hy; apply in_zrange in Hy; lia|].
    exists (L1 ++ L). split.
    + intros pts. cbn [foldM]. rewrite power_i32_spec by lia. cbn [bind]. rewrite Ea, Eb, Ep in *. rewrite (mf p) by exact H. cbn [bind]. rewrite I1. cbn [bind]. etransitivity; [exact (IL (pts ++ L1))|rewrite app_assoc; reflexivity].
    + intros P HP. apply in_app_iff in HP as [HP|HP].
      * destruct (S1 P HP) as (A & B & C & D). rewrite B in *. repeat split; try tauto; try lia; [left; reflexivity|]. apply xpol_eqn; [exact H|exact D].
      * destruct (SL P HP) as (A & B & C & D). repeat split; try tauto. right; exact B.
Qed.
(** One call of create_points: for any modulus p > 0 it appends a fixed list, ending in the point at infinity. *)
Lemma create_any a b p : 0 < p -> exists L, (forall E, fields a b p E -> create_points E = Ok (mkCurve a b p (weierstrass a b) (cpoints E ++ L))) /\
  (forall P, In P L -> P = infinity \/ (pz P = 1 /\ 0 <= px P < p /\ 0 <= py P < p /\ curve_eqn a b p (px P) (py P))) /\ In infinity L.
Proof.
  intros H. set (E0 := new_raw a b p). destruct (enum_any E0 a b p (new_raw_fields a b p) H (zrange 0 p)) as (L & IL & SL). exists (L ++ [infinity]). split; [|split].
  - intros E HE. pose proof HE as (Ea & Eb & Ep & El). destruct (enum_any E a b p HE H (zrange 0 p)) as (L' & IL' & _).
    assert (L' = L) as ->.
    { apply (Ok_inj L' L). transitivity (Ok ([] ++ L')); [reflexivity|]. rewrite <- (IL' []). transitivity (Ok ([] ++ L)); [|reflexivity]. rewrite <- (IL []).
      cbn [ca cb cp E0 new_raw]. rewrite Ea, Eb, Ep. clear - Ep. generalize (zrange 0 p) at 2 4. intros xs. generalize (@nil point) as pts. induction xs as [|x xs IH]; intros pts; [reflexivity|].
      cbn [foldM]. destruct (power_i32 x 3) as [x3| |]; try reflexivity. cbn [bind]. destruct (mod_floor (x3 + a * x + b) p) as [xp| |]; try reflexivity. cbn [bind].
      assert (F : forall ys pts, find_y E x xp ys pts = find_y (new_raw a b p) x xp ys pts).
      { clear IH pts. induction ys as [|y ys IY]; intros pts; [reflexivity|]. cbn [find_y]. unfold negate. cbn [cp new_raw]. rewrite Ep. rewrite IY. reflexivity. }
      rewrite F. destruct (find_y _ x xp _ pts) as [pts'| |]; try reflexivity. cbn [bind]. apply IH. }
    unfold create_points. pose proof (IL' (cpoints E)) as Q. rewrite Ep in *.
    match goal with |- bind ?t _ = _ => change t with (foldM (fun pts x => x3 <- power_i32 x 3;; (let xpol := x3 + ca E * x + cb E in xpol <- mod_floor xpol p;; find_y E x xpol (zrange 0 p) pts)) (zrange 0 p) (cpoints E)) end.
    rewrite Q. cbn [bind]. rewrite Ea, Eb, El, app_assoc. reflexivity.
  - intros P HP. apply in_app_iff in HP as [HP|[<-|[]]]; [|left; reflexivity]. right. destruct (SL P HP) as (A & B & C & D). apply in_zrange in B. repeat split; try tauto; lia.
  - apply in_app_iff. right. left. reflexivity.
Qed.

Lemma ec_new_create a b p E : ec_new a b p = Ok E -> create_points (new_raw a b p) = Ok E.
Proof.
  unfold ec_new. destruct (2 <=? p); [|discriminate]. cbn [assertb bind]. destruct (to_u64 p) as [u| |]; try discriminate. cbn [bind]. destruct (is_prime u); [|discriminate]. cbn [assertb bind]. intros X; exact X.
Qed.
(** C96 is false: a second call of create_points lists every point again. *)
Lemma c96_again_refuted : exists a b p E E', elliptic a b p /\ ec_new a b p = Ok E /\ create_points E = Ok E' /\ cardinality E' <> cardinality E.
Proof.
  exists 1, 1, 5. eexists _, _. split; [split; [apply is_prime_spec; reflexivity|split; [lia|intros (k & Hk); lia]]|]. split; [vm_compute; reflexivity|]. split; [vm_compute; reflexivity|]. vm_compute. discriminate.
Qed.
(** C96, what holds: new is new_raw followed by create_points. *)
Lemma c96_new_partial : forall a b p E, ec_new a b p = Ok E -> create_points (new_raw a b p) = Ok E.
Proof. exact ec_new_create. Qed.
Lemma calls_create a b p L : (forall E, fields a b p E -> create_points E = Ok (mkCurve a b p (weierstrass a b) (cpoints E ++ L))) ->
  forall k E, fields a b p E -> calls create_points k E = Ok (mkCurve a b p (weierstrass a b) (cpoints E ++ concat (repeat L k))).
Proof.
  intros HL. induction k as [|k IH]; intros E HE.
  - cbn. rewrite app_nil_r. destruct HE as (<- & <- & <- & <-). destruct E; reflexivity.
  - cbn [calls repeat concat]. rewrite (HL E HE). cbn [bind]. rewrite IH by (repeat split; reflexivity). cbn [cpoints]. rewrite app_assoc. reflexivity.
Qed.
Lemma occ_app P L M : occurrences P (L ++ M) = (occurrences P L + occurrences P M)%nat.
Proof. unfold occurrences. rewrite filter_app, app_length. reflexivity. Qed.
Lemma occ_repeat P L k : occurrences P (concat (repeat L k)) = (k * occurrences P L)%nat.
Proof. induction k as [|k IH]; [reflexivity|]. cbn [repeat concat]. rewrite occ_app, IH. lia. Qed.
Lemma occ_none P L : ~ In P L -> occurrences P L = 0%nat.
Proof.
  unfold occurrences. induction L as [|Q L IH]; intros N; [reflexivity|]. cbn [filter]. destruct (point_eqb P Q) eqn:X.
  - exfalso. apply N. left. symmetry. apply point_eqb_eq, X.
  - apply IH. intros I. apply N. right; exact I.
Qed.
Lemma occ_one P L : NoDup L -> In P L -> occurrences P L = 1%nat.
Proof.
  intros ND. induction ND as [|Q L NI ND IH]; [intros []|]. intros [-> | I].
  - unfold occurrences. cbn [filter]. rewrite (proj2 (point_eqb_eq P P) eq_refl). cbn [length]. f_equal. exact (occ_none P L NI).
  - unfold occurrences. cbn [filter]. destruct (point_eqb P Q) eqn:X; [|apply IH, I]. apply point_eqb_eq in X. subst. contradiction.
Qed.
(** C96, what holds: after k more calls on a curve made by new nothing but the list of points has changed, each point of the curve is listed k + 1 times, nothing else is listed,
    and cardinality() is k + 1 times the number of points. *)
Lemma c96_again_partial : forall a b p E k, ec_new a b p = Ok E -> exists E', calls create_points k E = Ok E' /\ ca E' = a /\ cb E' = b /\ cp E' = p /\ cpol E' = cpol E /\
  cardinality E' = (Z.of_nat k + 1) * cardinality E /\
  forall P, occurrences P (ec_points E') = (if existsb (point_eqb P) (ec_points E) then k + 1 else 0)%nat.
Proof.
  intros a b p E k HE. assert (p > 0). { destruct (proj1 (c61_new_returns a b p)) as (_ & X). destruct (X (ex_intro _ E HE)) as (Pp & _). pose proof (prime_ge_2 p Pp). lia. }
  destruct (create_any a b p ltac:(lia)) as (L & HL & _ & _). pose proof (HL _ (new_raw_fields a b p)) as C. rewrite (ec_new_create _ _ _ _ HE) in C. apply Ok_inj in C. cbn [new_raw cpoints app] in C.
  assert (FE : fields a b p E) by (subst E; repeat split). rewrite (calls_create a b p L HL k E FE). eexists. split; [reflexivity|]. cbn [ca cb cp cpol]. 
  assert (EL : cpoints E = L) by (subst E; reflexivity). split; [reflexivity|]. split; [reflexivity|]. split; [reflexivity|]. split; [subst E; reflexivity|].
  unfold cardinality, ec_points. cbn [cpoints]. rewrite EL. change (L ++ concat (repeat L k)) with (concat (repeat L (S k))). split.
  - assert (G : forall k, length (concat (repeat L k)) = (k * length L)%nat). { induction k0 as [|m IH]; [reflexivity|]. cbn [repeat concat]. rewrite app_length, IH. lia. } rewrite G. lia.
  - intros P. rewrite occ_repeat. destruct (c61_points a b p E HE) as (ND & _). unfold ec_points in ND. rewrite EL in ND. destruct (existsb (point_eqb P) L) eqn:X.
    + apply existsb_exists in X as (Q & I & Y). apply point_eqb_eq in Y. subst Q. rewrite (occ_one P L ND I). lia.
    + rewrite occ_none; [lia|]. intros I. rewrite <- not_true_iff_false in X. apply X. apply existsb_exists. exists P. split; [exact I|]. apply point_eqb_eq. reflexivity.
Qed.
(** C96: new_raw and create_points with any modulus, prime or not: it returns, and every listed point other than (0,1,0) is a solution of the equation. *)
Lemma c96_any_modulus_partial : forall a b p, exists E, create_points (new_raw a b p) = Ok E /\ In infinity (ec_points E) /\
  forall P, In P (ec_points E) -> P = infinity \/ (pz P = 1 /\ 0 <= px P < p /\ 0 <= py P < p /\ curve_eqn a b p (px P) (py P)).
Proof.
  intros a b p. destruct (Z_lt_le_dec 0 p) as [H|H].
  - destruct (create_any a b p H) as (L & HL & SL & IL). rewrite (HL _ (new_raw_fields a b p)). eexists. split; [reflexivity|]. split; [exact IL|exact SL].
  - exists (mkCurve a b p (weierstrass a b) [infinity]). split.
    + unfold create_points. cbn [cp new_raw]. assert (ZN : zrange 0 p = []) by (apply length_zero_iff_nil; rewrite length_zrange; lia). rewrite ZN. reflexivity.
    + split; [left; reflexivity|]. intros P [<-|[]]. left; reflexivity.
Qed.
(** C96: with a composite modulus solutions may be missing from the list: x = 0, y = 3 modulo 8. *)
Lemma c96_composite_refuted : exists a b p E P, 1 < p /\ create_points (new_raw a b p) = Ok E /\ is_on_curve E P = Ok true /\ pz P = 1 /\ 0 <= px P < p /\ 0 <= py P < p /\ ~ In P (ec_points E).
Proof.
  exists 1, 1, 8. eexists _, (mkPt 0 3 1). split; [lia|]. split; [vm_compute; reflexivity|]. split; [vm_compute; reflexivity|]. cbn [px py pz]. repeat split; try lia. 
  intros I. revert I. cbn. intuition congruence.
Qed.
Example c96_case : exists E, ec_new 1 1 5 = Ok E /\ cardinality E = 9 /\ exists E', calls create_points 2 E = Ok E' /\ cardinality E' = 27 /\ occurrences (mkPt 2 1 1) (ec_points E') = 3%nat.
Proof. eexists. split; [vm_compute; reflexivity|]. split; [reflexivity|]. eexists. split; [vm_compute; reflexivity|]. split; reflexivity. Qed.
