(** C94-C96: representatives of points, canonicalize, repeated enumeration. *)
From Coq Require Import Znumtheory ZifyBool.
From Verif Require Import Prelude M_Bigint M_Variable M_Term M_Poly M_Curve Spec SpecCurve SpecRepr P_Bigint P_Variable P_Subst P_Group P_Fp P_Curve P_Curve2 P_Curve3 P_Curve4 P_CurveProps.
From Verif Require Import P_ReprProps.
Open Scope Z_scope.

(** C94 is false: a finite point whose z is a multiple of p becomes the point at infinity. *)
Theorem C94_canonicalize_refuted : exists a b p E P Q, elliptic a b p /\ curve_of a b p E /\ is_on_curve E P = Ok true /\ is_infinity P = false /\
  canonicalize E P = Ok Q /\ is_infinity Q = true.
Proof. exact c94_canonicalize_refuted. Qed.
Print Assumptions C94_canonicalize_refuted.
(** C94, what holds for every modulus p > 0: canonicalize returns the residues of the three coordinates, applied again it changes nothing, it keeps the affine point
    (unless z is a non-zero multiple of p) and the verdict of is_on_curve. *)
Theorem C94_canonicalize_partial : forall a b p E P, 0 < p -> curve_of a b p E -> exists Q, canonicalize E P = Ok Q /\ Q = mkPt (px P mod p) (py P mod p) (pz P mod p) /\
  canonicalize E Q = Ok Q /\ (pz P = 0 \/ ~ (p | pz P) -> affine p Q = affine p P /\ is_on_curve E Q = is_on_curve E P).
Proof. exact c94_canonicalize_partial. Qed.
Print Assumptions C94_canonicalize_partial.
Example C94_case : canonicalize (new_raw 1 1 5) (mkPt (-5) 6 3) = Ok (mkPt 0 1 3) /\ affine 5 (mkPt (-5) 6 3) = Some (0, 1).
Proof. exact c94_case. Qed.
(** C95: whether a point is on the curve depends only on the affine point. *)
Theorem C95_on_curve : forall a b p E P P', 0 < p -> curve_of a b p E -> affine p P = affine p P' -> is_on_curve E P = is_on_curve E P'.
Proof. exact c95_on_curve. Qed.
Print Assumptions C95_on_curve.
(** C95: plus, for every modulus p > 0 (also composite): the same panics, and the same result as an affine point; literally the same result for finite points. *)
Theorem C95_plus : forall a b p E P P' Q Q', 0 < p -> curve_of a b p E -> affine p P = affine p P' -> affine p Q = affine p Q' ->
  (plus E P Q = Panic /\ plus E P' Q' = Panic) \/ exists R R', plus E P Q = Ok R /\ plus E P' Q' = Ok R' /\ affine p R = affine p R' /\
    (is_infinity P = false -> is_infinity Q = false -> R = R').
Proof. exact c95_plus. Qed.
Print Assumptions C95_plus.
(** C95: negate. *)
Theorem C95_negate : forall a b p E P P', 0 < p -> curve_of a b p E -> affine p P = affine p P' ->
  exists R R', negate E P = Ok R /\ negate E P' = Ok R' /\ affine p R = affine p R'.
Proof. exact c95_negate. Qed.
Print Assumptions C95_negate.
(** C95: multiply_scalar, for every integer n and every modulus p > 0. *)
Theorem C95_multiply : forall a b p E P P' n, 0 < p -> curve_of a b p E -> affine p P = affine p P' ->
  multiply_scalar E P n = multiply_scalar E P' n \/ exists R R', multiply_scalar E P n = Ok R /\ multiply_scalar E P' n = Ok R' /\ affine p R = affine p R'.
Proof. exact c95_multiply. Qed.
Print Assumptions C95_multiply.
(** C95: point_order gives literally the same answer (and the same panics and divergence). *)
Theorem C95_order : forall a b p E P P' fuel, 0 < p -> curve_of a b p E -> affine p P = affine p P' -> point_order fuel E P = point_order fuel E P'.
Proof. exact c95_order. Qed.
Print Assumptions C95_order.
Example C95_case : affine 5 (mkPt 5 (-4) 7) = affine 5 (mkPt 0 1 1) /\ plus (new_raw 1 1 5) (mkPt 5 (-4) 7) (mkPt (-1) 2 1) = Ok (mkPt 2 1 1) /\ plus (new_raw 1 1 5) (mkPt 0 1 1) (mkPt 4 2 1) = Ok (mkPt 2 1 1).
Proof. exact c95_case. Qed.
(** C96 is false: a second call of create_points lists every point again. *)
Theorem C96_again_refuted : exists a b p E E', elliptic a b p /\ ec_new a b p = Ok E /\ create_points E = Ok E' /\ cardinality E' <> cardinality E.
Proof. exact c96_again_refuted. Qed.
Print Assumptions C96_again_refuted.
(** C96, what holds: new is new_raw followed by create_points. *)
Theorem C96_new_partial : forall a b p E, ec_new a b p = Ok E -> create_points (new_raw a b p) = Ok E.
Proof. exact c96_new_partial. Qed.
Print Assumptions C96_new_partial.
(** C96, what holds: after k more calls on a curve made by new nothing but the list of points has changed, each point of the curve is listed k + 1 times, nothing else is listed,
    and cardinality() is k + 1 times the number of points. *)
Theorem C96_again_partial : forall a b p E k, ec_new a b p = Ok E -> exists E', calls create_points k E = Ok E' /\ ca E' = a /\ cb E' = b /\ cp E' = p /\ cpol E' = cpol E /\
  cardinality E' = (Z.of_nat k + 1) * cardinality E /\
  forall P, occurrences P (ec_points E') = (if existsb (point_eqb P) (ec_points E) then k + 1 else 0)%nat.
Proof. exact c96_again_partial. Qed.
Print Assumptions C96_again_partial.
(** C96: new_raw and create_points with any modulus, prime or not: it returns, and every listed point other than (0,1,0) is a solution of the equation. *)
Theorem C96_any_modulus_partial : forall a b p, exists E, create_points (new_raw a b p) = Ok E /\ In infinity (ec_points E) /\
  forall P, In P (ec_points E) -> P = infinity \/ (pz P = 1 /\ 0 <= px P < p /\ 0 <= py P < p /\ curve_eqn a b p (px P) (py P)).
Proof. exact c96_any_modulus_partial. Qed.
Print Assumptions C96_any_modulus_partial.
(** C96: with a composite modulus solutions may be missing from the list: x = 0, y = 3 modulo 8. *)
Theorem C96_composite_refuted : exists a b p E P, 1 < p /\ create_points (new_raw a b p) = Ok E /\ is_on_curve E P = Ok true /\ pz P = 1 /\ 0 <= px P < p /\ 0 <= py P < p /\ ~ In P (ec_points E).
Proof. exact c96_composite_refuted. Qed.
Print Assumptions C96_composite_refuted.
Example C96_case : exists E, ec_new 1 1 5 = Ok E /\ cardinality E = 9 /\ exists E', calls create_points 2 E = Ok E' /\ cardinality E' = 27 /\ occurrences (mkPt 2 1 1) (ec_points E') = 3%nat.
Proof. exact c96_case. Qed.
