(** Lemmas behind C65: the exact value of isogeny. *)
From Coq Require Import Znumtheory ZifyBool Permutation.
From Verif Require Import Prelude M_Bigint M_Variable M_Term M_Poly M_Curve Spec SpecCurve P_Bigint P_Variable P_Group P_Fp P_Curve P_Curve2 P_Curve3 P_Curve4 P_CurveProps.
Open Scope Z_scope.

Definition isum (f : point -> Z) (L : list point) : Z := fold_right (fun P s => (if pz P =? 0 then 0 else f P) + s) 0 L.
Lemma iso_fold E odd L : cp E <> 0 -> forall v w, foldM (isogeny_step E odd) L (v, w) =
  Ok (v + isum (fun P => (if odd : bool then 1 else 2) * ((3 * px P ^ 2 + ca E) / cp E)) L,
      w + isum (fun P => ((- 2 * py P) / cp E) ^ 2 / cp E + px P * ((if odd then 1 else 2) * ((3 * px P ^ 2 + ca E) / cp E))) L).
Proof.
  intros Hp. assert (DF: forall z, div_floor z (cp E) = Ok (z / cp E)) by (intros z; unfold div_floor; destruct (cp E =? 0) eqn:Z0; [lia|reflexivity]).
  induction L as [|P L IH]; intros v w.
  - cbn [foldM isum fold_right]. rewrite !Z.add_0_r. reflexivity.
  - cbn [foldM]. unfold isogeny_step at 1. unfold isum at 1 2. cbn [fold_right]. fold (isum (fun P => (if odd then 1 else 2) * ((3 * px P ^ 2 + ca E) / cp E)) L).
    fold (isum (fun P => ((- 2 * py P) / cp E) ^ 2 / cp E + px P * ((if odd then 1 else 2) * ((3 * px P ^ 2 + ca E) / cp E))) L).
    unfold is_infinity. destruct (pz P =? 0) eqn:Z0; cbn [negb bind].
    + rewrite IH, !Z.add_0_l. reflexivity.
    + rewrite power_i32_spec by lia. cbn [bind]. rewrite !DF. cbn [bind]. rewrite power_i32_spec by lia. cbn [bind]. rewrite DF. cbn [bind]. rewrite IH. f_equal. f_equal; destruct odd; ring.
Qed.
(** C65: the exact result: isogeny follows Velu's formulas with floor division by p in place of reduction modulo p (the sums over the finite points of division_points(l)). *)
Lemma c65_formula_partial : forall a b p E l L, elliptic a b p -> ec_new a b p = Ok E -> division_points E l = Ok L ->
  let finite := filter (fun P => negb (pz P =? 0)) L in
  let sum f := fold_right Z.add 0 (map f finite) in
  let v P := (if Z.odd l then 1 else 2) * ((3 * px P ^ 2 + a) / p) in
  let u P := ((- 2 * py P) / p) ^ 2 / p in
  isogeny E l = ec_new ((a - 5 * (sum v / p)) / p) ((b - 7 * (sum (fun P => (u P + px P * v P)%Z) / p)) / p) p.
Proof.
  intros a b p E l L (Pp & P2 & NS) HE HL finite sum v u. pose proof (prime_ge_2 p Pp). pose proof (ec_new_fields a b p E HE) as (Ea & Eb & Ep & _).
  assert (DF: forall z, div_floor z p = Ok (z / p)) by (intros z; unfold div_floor; destruct (p =? 0) eqn:Z0; [lia|reflexivity]).
  assert (SU : forall f, isum f L = sum f).
  { intros f. unfold isum, sum, finite. clear. induction L as [|P L IH]; [reflexivity|]. cbn [fold_right filter]. destruct (pz P =? 0); cbn [negb map fold_right]; rewrite IH; [apply Z.add_0_l|reflexivity]. }
  unfold isogeny. rewrite HL. cbn [bind]. rewrite iso_fold by lia. cbn [bind]. rewrite Ep, !DF. cbn [bind]. rewrite Ea, Eb, !DF. cbn [bind]. rewrite !Z.add_0_l, !SU. reflexivity.
Qed.
(** The kernel {O, (2, 1), (2, 4)} of y^2 = x^3 + x + 1 over GF(5): v = 2 at both points, so v = 4, u = 0 and w = 8; floor(4/5) = 0 and floor(8/5) = 1,
    a' = floor(1/5) = 0 and b' = floor((1 - 7)/5) = -2. *)
Example c65_case_formula : exists E, elliptic 1 1 5 /\ ec_new 1 1 5 = Ok E /\ division_points E 3 = Ok [mkPt 2 1 1; mkPt 2 4 1; infinity] /\ isogeny E 3 = ec_new 0 (-2) 5.
Proof.
  eexists. split; [split; [apply is_prime_spec; reflexivity|split; [discriminate|intros (k & Hk); lia]]|]. split; [vm_compute; reflexivity|]. split; vm_compute; reflexivity.
Qed.
