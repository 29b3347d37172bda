(** Proofs of C79: Display of points, lists of points and curves. *)
From Coq Require Import String Ascii ZifyBool.
From Verif Require Import Prelude M_Bigint M_Variable M_Term M_Poly M_Curve M_Display Spec SpecCurve SpecDisplay P_Bigint P_Variable P_Poly P_Subst P_Subst2 P_Curve2 P_Display P_DisplayProps.
Local Open Scope string_scope.
Local Open Scope Z_scope.

Definition same_point (P Q : point) : Prop := (is_infinity P = true /\ is_infinity Q = true) \/
  (is_infinity P = false /\ is_infinity Q = false /\ px P = px Q /\ py P = py Q).

Definition not_c (c : ascii) (s : string) : bool := all_chars (fun d => negb (Ascii.eqb d c)) s.
Lemma coords_inj x y x' y' r r' : z_to_string x ++ ", " ++ z_to_string y ++ ")" ++ r = z_to_string x' ++ ", " ++ z_to_string y' ++ ")" ++ r' ->
  x = x' /\ y = y' /\ r = r'.
Proof.
  intros E. apply split_char in E as [E1 E2]; [|apply z_no_char; reflexivity|apply z_no_char; reflexivity].
  injection E2 as E2. apply split_char in E2 as [E2 E3]; [|apply z_no_char; reflexivity|apply z_no_char; reflexivity].
  split; [apply z_inj, E1|]. split; [apply z_inj, E2|exact E3].
Qed.
Lemma point_text_app P Q r r' : point_to_string P ++ r = point_to_string Q ++ r' -> same_point P Q /\ r = r'.
Proof.
  unfold point_to_string, same_point. destruct (is_infinity P), (is_infinity Q); intros E.
  - injection E as E. auto.
  - discriminate.
  - discriminate.
  - rewrite !app_assoc_s in E. cbn [String.append] in E. injection E as E. apply coords_inj in E as (A & B & C). tauto.
Qed.
(** C79: two points print alike exactly when both are infinity or both are affine with the same coordinates. *)
Lemma c79_point : forall P Q, point_to_string P = point_to_string Q <-> same_point P Q.
Proof.
  intros P Q. split.
  - intros E. apply (point_text_app P Q "" ""). rewrite E. reflexivity.
  - unfold same_point, point_to_string. intros [[-> ->]|(-> & -> & -> & ->)]; reflexivity.
Qed.
Lemma points_body_false_inj l l' : points_body l false = points_body l' false -> Forall2 same_point l l'.
Proof.
  revert l'. induction l as [|P l IH]; intros [|Q l'] E; cbn [points_body] in E; [constructor|discriminate|discriminate|].
  cbn [String.append] in E. injection E as E. apply point_text_app in E as [E1 E2]. constructor; auto.
Qed.
(** C79: a list of points is determined, in order, by its text. *)
Lemma c79_points : forall l l', points_to_string l = points_to_string l' <-> Forall2 same_point l l'.
Proof.
  intros l l'. split.
  - unfold points_to_string. destruct l as [|P l], l' as [|Q l']; cbn [points_body]; intros E.
    + constructor.
    + exfalso. cbn [String.append] in E. unfold point_to_string in E. destruct (is_infinity Q); discriminate.
    + exfalso. cbn [String.append] in E. unfold point_to_string in E. destruct (is_infinity P); discriminate.
    + cbn [String.append] in E. apply point_text_app in E as [E1 E2]. constructor; [exact E1|]. apply points_body_false_inj, E2.
  - intros F. unfold points_to_string. generalize true. induction F as [|P Q l l' S F IH]; intros b; [reflexivity|]. cbn [points_body].
    rewrite (proj2 (c79_point P Q) S), (IH false). reflexivity.
Qed.

Lemma poly_body_no_comma l first : not_c "," (poly_body l first) = true.
Proof.
  assert (T : forall s, not_c "," s = true -> not_c "," (trim_end s) = true).
  { induction s as [|c s IH]; [reflexivity|]. unfold not_c in *. cbn [all_chars trim_end]. intros H. apply andb_prop in H as [H1 H2].
    specialize (IH H2). destruct (trim_end s) as [|d t] eqn:X; [destruct (Ascii.eqb c " "); cbn; [reflexivity|rewrite H1; reflexivity]|].
    cbn [all_chars] in *. rewrite H1, IH. reflexivity. }
  assert (Zc : forall z, not_c "," (z_to_string z) = true) by (intros; apply z_no_char; reflexivity).
  assert (A : forall a b, not_c "," (a ++ b) = (not_c "," a && not_c "," b)%bool) by (intros; apply all_chars_app).
  assert (V : forall v, not_c "," (var_to_string v) = true). { intros [[i j]|]; [|reflexivity]. cbn [var_to_string]. rewrite !A, !Zc. reflexivity. }
  assert (Pw : forall s n, not_c "," s = true -> not_c "," (pow_str s n) = true).
  { intros s n H. unfold pow_str. destruct (n =? 0); [reflexivity|]. destruct (n =? 1); rewrite !A, H; [reflexivity|]. rewrite Zc. reflexivity. }
  assert (B : forall m, not_c "," (mono_body m) = true).
  { intros m. unfold mono_body. rewrite !A, !Pw by reflexivity. destruct (vempty (mv m)); [reflexivity|rewrite V; reflexivity]. }
  assert (Tm : forall t, not_c "," (term_to_string t) = true).
  { intros t. unfold term_to_string. cbv zeta. destruct (tc t =? 1); [|destruct (tc t =? -1)].
    - destruct (mono_is_const (tm t)); [destruct (vempty _); [reflexivity|apply V]|apply T, B].
    - destruct (mono_is_const (tm t)); [destruct (vempty _); [reflexivity|rewrite A, V; reflexivity]|apply T; rewrite A, B; reflexivity].
    - apply T. rewrite !A, B. destruct (0 <=? tc t); rewrite ?A, Zc; reflexivity. }
  revert first. induction l as [|[m c] l IH]; intros first; [reflexivity|]. cbn [poly_body]. rewrite !A, IH.
  destruct ((0 <? c) && negb first)%bool, (negb (c =? 0)); rewrite ?A, ?Tm; reflexivity.
Qed.
Lemma poly_text_no_comma p : not_c "," (poly_to_string p) = true.
Proof.
  unfold poly_to_string. destruct (is_zero p); [reflexivity|]. 
  assert (T : forall s, not_c "," s = true -> not_c "," (trim_end s) = true).
  { induction s as [|c s IH]; [reflexivity|]. unfold not_c in *. cbn [all_chars trim_end]. intros H. apply andb_prop in H as [H1 H2].
    specialize (IH H2). destruct (trim_end s) as [|d t] eqn:X; [destruct (Ascii.eqb c " "); cbn; [reflexivity|rewrite H1; reflexivity]|].
    cbn [all_chars] in *. rewrite H1, IH. reflexivity. }
  apply T, poly_body_no_comma.
Qed.
Lemma weierstrass_shape a b : exists l, weierstrass a b = (l ++ [(mkMono 3 0 0 None, 1)])%list.
Proof.
  unfold weierstrass, p_add_t. cbn [tb_build tb_xpow tb_coef tb_new tb_qpow tb_ypow]. unfold term_add, to_pol.
  destruct (Z.eqb_spec b 0) as [->|N].
  - eexists [_]. cbn. reflexivity.
  - eexists [_; _]. cbn. destruct b; [congruence| |]; reflexivity.
Qed.
Lemma drop_coef l m : coef (drop_zeros l) m = coef l m.
Proof.
  induction l as [|[k c] l IH]; [reflexivity|]. unfold drop_zeros in *. cbn [filter snd]. destruct (Z.eqb_spec c 0) as [->|N]; cbn [negb coef]; rewrite IH; [|reflexivity].
  destruct (mono_eqb k m); reflexivity.
Qed.
(** C79: the text of a curve determines its equation and field, and shows its cardinality and j-invariant. *)
Lemma c79_curve : forall a b p E a' b' p' E' s, curve_of a b p E -> curve_of a' b' p' E' -> curve_to_string E = Ok s -> curve_to_string E' = Ok s ->
  a = a' /\ b = b' /\ p = p' /\ cardinality E = cardinality E' /\ ec_j_invariant E = ec_j_invariant E'.
Proof.
  intros a b p E a' b' p' E' s HE HE' T T'. apply curve_of_fields in HE. apply curve_of_fields in HE'. destruct HE as (Ha & Hb & Hp & Hpol), HE' as (Ha' & Hb' & Hp' & Hpol').
  unfold curve_to_string in T, T'. destruct (ec_j_invariant E) as [j| |]; try discriminate. destruct (ec_j_invariant E') as [j'| |]; try discriminate.
  cbn [bind] in T, T'. assert (X := eq_trans T (eq_sym T')). clear T T'. rewrite Hp, Hp', Hpol, Hpol' in X.
  assert (X1 : z_to_string p ++ String ":" (" y^2 = " ++ poly_to_string (weierstrass a b) ++ ", cardinality:" ++ z_to_string (cardinality E) ++ ", j:" ++ z_to_string j) =
               z_to_string p' ++ String ":" (" y^2 = " ++ poly_to_string (weierstrass a' b') ++ ", cardinality:" ++ z_to_string (cardinality E') ++ ", j:" ++ z_to_string j')) by (cbn [String.append] in *; congruence).
  clear X. apply split_char in X1 as [P1 X]; [|apply z_no_char; reflexivity|apply z_no_char; reflexivity]. cbn [String.append] in X. injection X as X.
  apply split_char in X as [P2 X]; [|apply poly_text_no_comma|apply poly_text_no_comma]. injection X as X.
  apply split_char in X as [P3 X]; [|apply z_no_char; reflexivity|apply z_no_char; reflexivity]. injection X as X.
  apply z_inj in P1, P3, X. subst.
  assert (D : drop_zeros (weierstrass (ca E) (cb E)) = drop_zeros (weierstrass (ca E') (cb E'))).
  { destruct (weierstrass_shape (ca E) (cb E)) as [l Hl], (weierstrass_shape (ca E') (cb E')) as [l' Hl'].
    destruct (c73_zero_text_partial (weierstrass (ca E) (cb E))) as (_ & C & _). destruct (c73_zero_text_partial (weierstrass (ca E') (cb E'))) as (_ & C' & _).
    apply c72_injective; [apply drop_no_zero|apply drop_no_zero|].
    rewrite <- (C _ _ _ Hl) by discriminate. rewrite <- (C' _ _ _ Hl') by discriminate. exact P2. }
  assert (K : forall u v, coef (weierstrass u v) (mkMono 1 0 0 None) = u /\ coef (weierstrass u v) mone = v).
  { intros u v. unfold weierstrass, p_add_t, term_add, to_pol. cbn [tb_build tb_xpow tb_coef tb_new tb_qpow tb_ypow]. cbn. destruct v as [|v|v]; cbn; split; lia. }
  repeat split; try congruence.
  - rewrite <- (proj1 (K (ca E) (cb E))), <- (proj1 (K (ca E') (cb E'))), <- drop_coef, D, drop_coef. reflexivity.
  - rewrite <- (proj2 (K (ca E) (cb E))), <- (proj2 (K (ca E') (cb E'))), <- drop_coef, D, drop_coef. reflexivity.
Qed.
(** C79: a subscripted variable is determined, up to ==, by its text (empty for the empty variable, c_i_j otherwise), and it prints inside monomials as it does alone. *)
Lemma c79_variable : forall v w, (svar_to_string v = svar_to_string w <-> sv_eq v w = true) /\ svar_to_string v = var_to_string (canon v).
Proof.
  assert (X: forall v, svar_to_string v = var_to_string (canon v)) by (intros [i j []]; reflexivity).
  intros v w. split; [|apply X]. rewrite !X. unfold sv_eq, canon. destruct v as [i j e], w as [i' j' e']. cbn [sv_i sv_j sv_empty]. destruct e, e'; cbn [negb Bool.eqb andb].
  - split; reflexivity.
  - split; discriminate.
  - split; discriminate.
  - split.
    + intros E. apply var_inj in E. lia.
    + intros E. assert (i = i' /\ j = j') by lia. destruct H as (-> & ->). reflexivity.
Qed.
Example c79_case : curve_to_string (new_raw 0 2 7) = Ok "F_7: y^2 = x^3 + 2, cardinality:0, j:0" /\ points_to_string [mkPt 1 (-2) 1; infinity] = "(1, -2), O".
Proof. split; vm_compute; reflexivity. Qed.
