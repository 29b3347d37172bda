(** Lemmas behind the property theorem C111 (Kronecker's congruence for the modular polynomial). *)
From Coq Require Import Znumtheory ZifyBool Setoid Morphisms.
From Verif Require Import Prelude M_Bigint M_Variable M_Term M_Poly M_QSeries M_Solve M_Curve M_Modular Spec P_Bigint P_Variable P_FSum P_Poly P_Subst P_Binom P_Q P_QProps P_Modular P_Modular2 P_ModularProps P_ModRet2 P_Euler P_SingProps P_Subst2 SpecCurve SpecKron P_CurveProps P_Sea P_SeaProps P_ModRetProps P_Kron.
Open Scope Z_scope.

Lemma kron_terms p : kronecker p = [(xymono (p + 1) 0, 1); (xymono p p, -1); (xymono 1 1, -1); (xymono 0 (p + 1), 1)].
Proof.
  unfold kronecker. cbn [conv flat_map map app fst snd]. unfold mmul, xymono. cbn [mx my mq mv vmul]. rewrite ?Z.add_0_r, ?Z.add_0_l, ?(Z.add_comm 1 p). reflexivity.
Qed.
Lemma xy_inj i j i' j' : xymono i j = xymono i' j' <-> i = i' /\ j = j'.
Proof. unfold xymono. split; [intros E; injection E; tauto|intros (-> & ->); reflexivity]. Qed.
Lemma xy_eqb i j i' j' : mono_eqb (xymono i j) (xymono i' j') = (i =? i') && (j =? j').
Proof.
  apply eq_true_iff_eq. rewrite andb_true_iff, !Z.eqb_eq, <- xy_inj. split.
  - intros E. destruct (mono_eq_dec (xymono i j) (xymono i' j')) as [X|X]; [exact X|]. rewrite mono_eqb_neq in E by exact X. discriminate.
  - intros ->. apply mono_eqb_refl.
Qed.
Lemma kron_gd p d : gd p (kronecker p) d = 0.
Proof.
  rewrite kron_terms. unfold gd. cbn [lin]. unfold ee, xymono. cbn [mx my]. replace (p + 1 + p * 0) with (1 + p * 1) by ring. replace (0 + p * (p + 1)) with (p + p * p) by ring.
  destruct (1 + p * 1 =? d), (p + p * p =? d); reflexivity.
Qed.
Section T.
Variables (p : Z) (c : Z -> Z -> Z).
Hypothesis Hp : 2 <= p.
Let T := sterms p false c.
Hypothesis G0 : forall d, 0 <= d -> (p | gd p T d).
Lemma TS i j : 0 <= i <= p -> 0 <= j <= p -> coef T (xymono i j) = coef T (xymono j i).
Proof using Hp.
  intros Hi Hj. destruct (sterms_shape p c ltac:(lia)) as (A & _). unfold T. rewrite !A by lia. f_equal; lia.
Qed.
Lemma kc_mid i j : 0 < i < p -> 0 <= j <= p -> ~ (i = 1 /\ j = 1) -> (p | coef T (xymono i j)).
Proof using Hp G0.
  intros Hi Hj N. rewrite <- (gd_one p T (i + p * j)); [apply G0; nia|apply sterms_keys|].
  intros t (i' & j' & -> & C). rewrite xy_inj. unfold ee, xymono. cbn [mx my]. split; [|intros (-> & ->); reflexivity]. intros E.
  destruct C as [C|[(-> & ->)|(-> & ->)]].
  - assert (j' = j) by nia. subst j'. lia.
  - exfalso. assert (j = 1) by nia. subst j. apply N. lia.
  - exfalso. assert (p + 1 = j) by nia. lia.
Qed.
Lemma kc_11 : (p | coef T (xymono 1 1) + 1).
Proof using Hp G0.
  destruct (sterms_shape p c ltac:(lia)) as (_ & A & _). fold T in A. replace (coef T (xymono 1 1) + 1) with (coef T (xymono 1 1) + coef T (xymono (p + 1) 0)) by (rewrite A; reflexivity). rewrite <- (gd_two p T (1 + p)); [apply G0; lia|apply sterms_keys|rewrite xy_inj; lia|].
  intros t (i' & j' & -> & C). rewrite !xy_inj. unfold ee, xymono. cbn [mx my]. split; [|intros [(-> & ->)|(-> & ->)]; ring]. intros E.
  destruct C as [C|[(-> & ->)|(-> & ->)]]; [|right; lia|exfalso; nia]. left. assert (j' = 1 \/ j' = 0) as [->| ->] by nia; lia.
Qed.
Lemma kc_00 : (p | coef T (xymono 0 0)).
Proof using Hp G0.
  rewrite <- (gd_one p T 0); [apply G0; lia|apply sterms_keys|]. intros t (i' & j' & -> & C). rewrite xy_inj. unfold ee, xymono. cbn [mx my]. split; [intros E; nia|intros (-> & ->); ring].
Qed.
Lemma kc_p0 : (p | coef T (xymono p 0)).
Proof using Hp G0.
  assert (X: (p | coef T (xymono p 0) + coef T (xymono 0 1))).
  { rewrite <- (gd_two p T p); [apply G0; lia|apply sterms_keys|rewrite xy_inj; lia|]. intros t (i' & j' & -> & C). rewrite !xy_inj. unfold ee, xymono. cbn [mx my]. split; [|intros [(-> & ->)|(-> & ->)]; ring]. intros E.
    destruct C as [C|[(-> & ->)|(-> & ->)]]; [|exfalso; nia|exfalso; nia]. assert (j' = 1 \/ j' = 0) as [->| ->] by nia; lia. }
  pose proof (kc_mid 1 0 ltac:(lia) ltac:(lia) ltac:(lia)) as Y. rewrite TS in Y by lia. replace (coef T (xymono p 0)) with (coef T (xymono p 0) + coef T (xymono 0 1) - coef T (xymono 0 1)) by ring. apply Z.divide_sub_r; assumption.
Qed.
Lemma kc_pp : (p | coef T (xymono p p) + 1).
Proof using Hp G0.
  destruct (sterms_shape p c ltac:(lia)) as (_ & _ & A & _). fold T in A. replace (coef T (xymono p p) + 1) with (coef T (xymono p p) + coef T (xymono 0 (p + 1))) by (rewrite A; reflexivity). rewrite <- (gd_two p T (p * p + p)); [apply G0; nia|apply sterms_keys|rewrite xy_inj; lia|].
  intros t (i' & j' & -> & C). rewrite !xy_inj. unfold ee, xymono. cbn [mx my]. split; [|intros [(-> & ->)|(-> & ->)]; ring]. intros E.
  destruct C as [C|[(-> & ->)|(-> & ->)]]; [|exfalso; nia|right; lia]. left. nia.
Qed.
Lemma kron_congruent : feqm p T (kronecker p).
Proof using Hp G0.
  intros m. destruct (sterms_shape p c ltac:(lia)) as (_ & A1 & A2 & A3). fold T in A1, A2, A3. rewrite kron_terms.
  assert (D: inshape p m \/ ~ inshape p m).
  { destruct m as [i j q v]. destruct (Z.eq_dec q 0) as [->|Q]; [|right; intros (i' & j' & E & _); injection E; lia]. destruct v as [v|]; [right; intros (i' & j' & E & _); discriminate|].
    assert (C: ((0 <= i <= p /\ 0 <= j <= p) \/ (i = p + 1 /\ j = 0) \/ (i = 0 /\ j = p + 1)) \/ ~ ((0 <= i <= p /\ 0 <= j <= p) \/ (i = p + 1 /\ j = 0) \/ (i = 0 /\ j = p + 1))) by lia.
    destruct C as [C|C]; [left; exists i, j; split; [reflexivity|exact C]|right; intros (i' & j' & E & C'); apply C; injection E as -> ->; exact C']. }
  destruct D as [D|D].
  - destruct D as (i & j & -> & C). cbn [coef]. rewrite !xy_eqb. destruct C as [C|[(-> & ->)|(-> & ->)]].
    + assert (X: (p | coef T (xymono i j) + (if ((1 =? i) && (1 =? j)) || ((p =? i) && (p =? j)) then 1 else 0))).
      { destruct (((1 =? i) && (1 =? j)) || ((p =? i) && (p =? j))) eqn:Eb.
        - assert (E: (i = 1 /\ j = 1) \/ (i = p /\ j = p)) by lia. destruct E as [(-> & ->)|(-> & ->)]; [apply kc_11|apply kc_pp].
        - rewrite Z.add_0_r. assert (E: (0 < i < p) \/ (0 < j < p) \/ ((i = 0 \/ i = p) /\ (j = 0 \/ j = p))) by lia. destruct E as [E|[E|([->| ->] & [->| ->])]].
          + apply kc_mid; lia.
          + rewrite TS by lia. apply kc_mid; lia.
          + apply kc_00.
          + rewrite TS by lia. apply kc_p0.
          + apply kc_p0.
          + lia. }
      assert (Q1: (p + 1 =? i) && (0 =? j) = false) by lia. assert (Q2: (0 =? i) && (p + 1 =? j) = false) by lia. rewrite Q1, Q2.
      destruct ((p =? i) && (p =? j)) eqn:X1, ((1 =? i) && (1 =? j)) eqn:X2; cbn [orb] in X; (match type of X with (p | ?u) => match goal with |- (p | ?v) => replace v with u by (first [ring|exfalso; lia]) end end); exact X.
    + rewrite A1. rewrite Z.eqb_refl. assert (Q1: (p =? p + 1) && (p =? 0) = false) by lia. assert (Q2: (1 =? p + 1) && (1 =? 0) = false) by lia. assert (Q3: (0 =? p + 1) && (p + 1 =? 0) = false) by lia. rewrite Q1, Q2, Q3, ?Z.eqb_refl. exists 0. reflexivity.
    + rewrite A2. rewrite Z.eqb_refl. assert (Q1: (p =? 0) && (p =? p + 1) = false) by lia. assert (Q2: (1 =? 0) && (1 =? p + 1) = false) by lia. assert (Q3: (p + 1 =? 0) && (0 =? p + 1) = false) by lia. rewrite Q1, Q2, Q3, ?Z.eqb_refl. exists 0. reflexivity.
  - rewrite A3 by exact D. rewrite coef_absent; [exists 0; reflexivity|]. intros e I. apply D. destruct I as [E|[E|[E|[E|[]]]]]; injection E as <- _; eexists _, _; (split; [reflexivity|lia]).
Qed.
End T.

(** C111: a symmetric polynomial of the shape of the modular polynomial satisfies the equations of modular_polynomial(p) modulo p exactly when it is congruent to (x^p - y)(x - y^p) modulo p. *)
Lemma c111_equations : forall p Psi J c, prime p -> 3 * (p * p + p + 1) + 1 <= i32_max -> j_invariant (p * p + p) = Ok J -> symmetric_shape p c Psi ->
  ((forall k, - (p * p + p) <= k <= 0 -> (p | coef (jsubst p Psi J) (qmono k))) <-> feqm p Psi (kronecker p)).
Proof.
  intros p Psi J c Pp HR EJ HS. pose proof (prime_ge_2 p Pp) as G.
  assert (PJ: keysP qpure J) by (apply (j_pure (p * p + p)); [nia|exact HR|exact EJ]).
  destruct (c43_j (p * p + p) ltac:(nia) HR) as (j1 & J' & _ & EJ' & _ & _ & J1 & KJ). assert (J' = J) by congruence. subst J'.
  assert (KJ': forall m d, In (m, d) J -> -1 <= mq m) by (intros m d Hi; destruct (KJ _ _ Hi) as (z & Hz' & ->); cbn; lia).
  assert (F: feq Psi (sterms p false c)) by (apply (shape_unique p c c); [exact HS|apply sterms_shape; lia|reflexivity]).
  split; intros H.
  - rewrite (feq_feqm p _ _ F). apply kron_congruent; [lia|]. apply (groups p J Pp PJ KJ' J1); [apply sterms_keys|]. intros k Hk. rewrite <- (jsubst_feq p Psi _ J _ F). apply H, Hk.
  - intros k _. rewrite (jsubst_feq p Psi _ J _ F). apply (groups_conv p J Pp PJ); [apply sterms_keys|]. intros d Hd.
    rewrite (feq_feqm p _ _ F) in H. apply (feqm_lin p (fun t => if ee p t =? d then 1 else 0)) in H. fold (gd p (sterms p false c) d) (gd p (kronecker p) d) in H. rewrite kron_gd, Z.sub_0_r in H. exact H.
Qed.
(** C111: so if its system of equations has a solution at all (the classical modular polynomial is one), modular_polynomial(p) is congruent to (x^p - y)(x - y^p) modulo p. *)
Lemma c111_kronecker : forall p Phi Psi J c, modular_polynomial p = Ok Phi -> j_invariant (p * p + p) = Ok J ->
  symmetric_shape p c Psi -> (forall k, - (p * p + p) <= k <= 0 -> coef (jsubst p Psi J) (qmono k) = 0) ->
  feqm p Phi (kronecker p).
Proof.
  intros p Phi Psi J c HP EJ HS HZ. destruct (proj2 (proj1 (c103_returns p)) (ex_intro _ Phi HP)) as (Pp & L). pose proof (prime_ge_2 p Pp).
  assert (HR: 3 * (p * p + p + 1) + 1 <= i32_max) by (unfold i32_max; nia). rewrite (feq_feqm p _ _ (c75_unique p Phi Psi J c HR HP EJ HS HZ)).
  apply (proj1 (c111_equations p Psi J c Pp HR EJ HS)). intros k Hk. rewrite (HZ k Hk). apply Z.divide_0_r.
Qed.
(** C111: over GF(p) itself, for a modular polynomial with Kronecker's congruence, sea(ec, p) always returns and reports exactly one isogenous j-invariant, that of ec. *)
Lemma c111_sea : forall a b p E Phi, prime p -> nonsingular a b p -> curve_of a b p E -> modular_polynomial p = Ok Phi -> feqm p Phi (kronecker p) ->
  exists fuel R j, ec_j_invariant E = Ok j /\ sea fuel E p = Ok R /\ sea_js R = [j] /\ sea_degree R = 1.
Proof.
  intros a b p E Phi Pp NS HE HP HK. pose proof (prime_ge_2 p Pp) as G. destruct (proj2 (proj1 (c103_returns p)) (ex_intro _ Phi HP)) as (_ & L).
  destruct (c66_j_value a b p E Pp NS HE) as (j & Ej & Bj & _).
  assert (X: forall x, (p | fval x j Phi) <-> (p | x - j)).
  { intros x. apply (fval_feqm p x j) in HK. rewrite kron_terms in HK. cbn [fval] in HK. unfold mval, xymono in HK. cbn [mx my] in HK. rewrite !Z.pow_0_r, !Z.pow_1_r, !Z.pow_add_r, !Z.pow_1_r in HK by lia.
    destruct (fermat_full p x Pp) as (k1 & F1). destruct (fermat_full p j Pp) as (k2 & F2). destruct HK as (k & HK).
    assert (Y: (p | fval x j Phi - (x - j) * (x - j))).
    { exists (k + k1 * x + k2 * j - x ^ p * k2 - k1 * j).
      replace (fval x j Phi - (x - j) * (x - j)) with (fval x j Phi - (1 * (x ^ p * x * 1) + (-1 * (x ^ p * j ^ p) + (-1 * (x * j) + (1 * (1 * (j ^ p * j)) + 0)))) + (x ^ p - x) * x + (j ^ p - j) * j - x ^ p * (j ^ p - j) - (x ^ p - x) * j) by ring. rewrite HK, F1, F2. ring. }
    split; intros D.
    - assert (D2: (p | (x - j) * (x - j))) by (replace ((x - j) * (x - j)) with (fval x j Phi - (fval x j Phi - (x - j) * (x - j))) by ring; apply Z.divide_sub_r; assumption). apply prime_mult in D2; tauto.
    - replace (fval x j Phi) with (fval x j Phi - (x - j) * (x - j) + (x - j) * (x - j)) by ring. apply Z.divide_add_r; [exact Y|apply Z.divide_mul_l, D]. }
  destruct (c71_atkin_partial a b p E p Phi j Pp NS ltac:(unfold i32_max; lia) HE HP Ej) as ((RT & _) & _).
  destruct RT as (fuel & R & HR); [exists j; split; [exact Bj|]; apply X; exists 0; ring|].
  exists fuel, R, j. split; [exact Ej|]. split; [exact HR|].
  destruct (c70_roots fuel a b p E p R Pp HE HR) as (Phi' & j' & HP' & Ej' & ND & Len & In1 & In2). assert (Phi' = Phi) by congruence. assert (j' = j) by congruence. subst Phi' j'.
  destruct (c70_sea fuel a b p E p R Pp HE HR) as (Phi' & j' & HP'' & Ej'' & S). assert (Phi' = Phi) by congruence. assert (j' = j) by congruence. subst Phi' j'. cbv zeta in S. destruct S as (_ & _ & _ & _ & _ & _ & _ & _ & Dg & D1 & _).
  assert (One: forall l, NoDup l -> (forall x, In x l -> x = j) -> (length l <= 1)%nat).
  { intros [|u [|v l]] N H; cbn [length]; [lia|lia|]. exfalso. inversion N as [|? ? N1 N2]; subst. apply N1. left. rewrite (H u), (H v); [reflexivity|right; left; reflexivity|left; reflexivity]. }
  assert (Deg: sea_degree R = 1).
  { assert (L1: (length (filter (fun x => (fval x j Phi mod p =? 0)%Z) (zrange 0 p)) <= 1)%nat).
    { apply One; [apply NoDup_filter, NoDup_zrange|]. intros x Hx. apply filter_In in Hx. destruct Hx as (Hx & Q). apply in_zrange in Hx. apply Z.eqb_eq, Z.mod_divide, X in Q; [|lia]. apply near_zero in Q; lia. }
    lia. }
  split; [|exact Deg]. rewrite Deg in Len. change (Z.min 2 1) with 1 in Len. destruct (sea_js R) as [|u [|v l]]; cbn [length] in Len; try lia. f_equal.
  destruct (In1 u (or_introl eq_refl)) as (Bu & Du). apply X in Du. apply near_zero in Du; lia.
Qed.
Example c111_case : exists J, j_invariant (2 * 2 + 2) = Ok J /\ symmetric_shape 2 c75_c c46_phi2 /\
  (forall k, - (2 * 2 + 2) <= k <= 0 -> coef (jsubst 2 c46_phi2 J) (qmono k) = 0) /\ feqm 2 c46_phi2 (kronecker 2) /\ coef c46_phi2 (xymono 1 1) = 40773375 /\ coef c46_phi2 (xymono 2 2) = -1.
Proof.
  destruct c75_case as (J & EJ & HS & HZ). exists J. split; [exact EJ|]. split; [exact HS|]. split; [exact HZ|]. split; [exact (c111_kronecker 2 _ _ J _ c46_case EJ HS HZ)|]. split; reflexivity.
Qed.

(** C112: the relation "sea reports j'" is symmetric. *)
Lemma phi_sym l Phi x y : modular_polynomial l = Ok Phi -> fval x y Phi = fval y x Phi.
Proof.
  intros H. destruct (c46_shape l Phi H) as (Pl & _ & Sy & C1 & C2 & Sh). pose proof (prime_ge_2 l Pl).
  rewrite !fval_lin. transitivity (lin (fun m => mval x y (mkMono (my m) (mx m) (mq m) (mv m))) Phi); [|apply lin_ext; intros [i j q v]; unfold mval; cbn [mx my]; ring].
  rewrite <- (lin_fmap (mval x y) (fun m => mkMono (my m) (mx m) (mq m) (mv m))). apply feq_lin. intros m.
  assert (FM: forall a m, coef (fmap (fun m => mkMono (my m) (mx m) (mq m) (mv m)) a) m = coef a (mkMono (my m) (mx m) (mq m) (mv m))).
  { clear. induction a as [|[k c] a IH]; intros m; [reflexivity|]. cbn [fmap map coef fst snd]. fold (fmap (fun m => mkMono (my m) (mx m) (mq m) (mv m)) a). rewrite IH.
    assert (E: mono_eqb (mkMono (my k) (mx k) (mq k) (mv k)) m = mono_eqb k (mkMono (my m) (mx m) (mq m) (mv m))).
    { destruct (mono_eq_dec (mkMono (my k) (mx k) (mq k) (mv k)) m) as [<-|N]; [destruct k as [k1 k2 k3 k4]; cbn [mx my mq mv]; rewrite !mono_eqb_refl; reflexivity|].
      rewrite mono_eqb_neq by exact N. rewrite mono_eqb_neq; [reflexivity|]. intros ->. apply N. destruct m; reflexivity. }
    rewrite E. reflexivity. }
  rewrite FM. destruct m as [i j q v]. cbn [mx my mq mv].
  destruct (Z.eq_dec (coef Phi (mkMono i j q v)) 0) as [Z1|N1].
  - destruct (Z.eq_dec (coef Phi (mkMono j i q v)) 0) as [Z2|N2]; [congruence|]. destruct (Sh _ N2) as (i' & j' & E & _). unfold xymono in E. injection E as -> -> -> ->. apply (Sy j' i').
  - destruct (Sh _ N1) as (i' & j' & E & _). unfold xymono in E. injection E as -> -> -> ->. apply (Sy i' j').
Qed.
(** C112: if sea(ec, l) reports j' and ec' is a curve over the same field with j-invariant j', then sea(ec', l) returns too, and reports j(ec) (unless there are more than two roots, of which only two are reported). *)
Lemma c112_symmetric : forall a b a' b' p E E' l fuel R j j', elliptic a b p -> elliptic a' b' p -> p <= i32_max -> curve_of a b p E -> curve_of a' b' p E' ->
  ec_j_invariant E = Ok j -> ec_j_invariant E' = Ok j' -> sea fuel E l = Ok R -> In j' (sea_js R) ->
  exists fuel' R', sea fuel' E' l = Ok R' /\ (sea_degree R' <= 2 -> In j (sea_js R')).
Proof.
  intros a b a' b' p E E' l fuel R j j' (Pp & _ & NS) (_ & _ & NS') Bp HE HE' Ej Ej' HR HI.
  destruct (c70_roots fuel a b p E l R Pp HE HR) as (Phi & j1 & HP & Ej1 & _ & _ & In1 & _). assert (j1 = j) by congruence. subst j1. destruct (In1 j' HI) as (_ & D). rewrite (phi_sym l Phi _ _ HP) in D.
  destruct (c66_j_value a b p E Pp NS HE) as (j2 & Ej2 & Bj & _). assert (j2 = j) by congruence. subst j2.
  destruct (c71_atkin_partial a' b' p E' l Phi j' Pp NS' Bp HE' HP Ej') as ((RT & _) & _). destruct RT as (fuel' & R' & HR'); [exists j; split; [exact Bj|exact D]|].
  exists fuel', R'. split; [exact HR'|]. intros Dg. destruct (c70_roots fuel' a' b' p E' l R' Pp HE' HR') as (Phi' & j3 & HP' & Ej3 & _ & _ & _ & In2). assert (Phi' = Phi) by congruence. assert (j3 = j') by congruence. subst Phi' j3.
  apply (In2 Dg j Bj D).
Qed.
(** C112: and what sea(ec, l) does depends only on p and the j-invariant of ec. *)
Lemma c112_j_only : forall p E E' l fuel, cp E = p -> cp E' = p -> ec_j_invariant E' = ec_j_invariant E -> sea fuel E' l = sea fuel E l.
Proof.
  intros p E E' l fuel H H' J. unfold sea, sea_with. rewrite H, H', J. reflexivity.
Qed.
Example c112_case : exists R R', sea 20 (new_raw 1 0 5) 2 = Ok R /\ ec_j_invariant (new_raw 1 0 5) = Ok 3 /\ In 1 (sea_js R) /\ ec_j_invariant (new_raw 4 1 5) = Ok 1 /\
  sea 20 (new_raw 4 1 5) 2 = Ok R' /\ In 3 (sea_js R').
Proof.
  unfold sea. rewrite c46_case. cbn [bind]. eexists _, _. split; [vm_compute; reflexivity|]. split; [reflexivity|]. split; [left; reflexivity|]. split; [reflexivity|]. split; [vm_compute; reflexivity|]. cbn. tauto.
Qed.
