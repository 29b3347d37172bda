(** C65: the exact value of isogeny *)
From Coq Require Import Znumtheory ZifyBool Permutation.
From Verif Require Import Prelude M_Bigint M_Variable M_Term M_Poly M_Curve Spec SpecCurve P_Bigint P_Variable P_Group P_Fp P_Curve P_Curve2 P_Curve3 P_Curve4 P_CurveProps.
From Verif Require Import P_IsogenyProps.
Open Scope Z_scope.

(** C65: the exact result: isogeny follows Velu's formulas with floor division by p in place of reduction modulo p (the sums over the finite points of division_points(l)). *)
Theorem C65_formula_partial : forall a b p E l L, elliptic a b p -> ec_new a b p = Ok E -> division_points E l = Ok L ->
  let finite := filter (fun P => negb (pz P =? 0)) L in
  let sum f := fold_right Z.add 0 (map f finite) in
  let v P := (if Z.odd l then 1 else 2) * ((3 * px P ^ 2 + a) / p) in
  let u P := ((- 2 * py P) / p) ^ 2 / p in
  isogeny E l = ec_new ((a - 5 * (sum v / p)) / p) ((b - 7 * (sum (fun P => (u P + px P * v P)%Z) / p)) / p) p.
Proof. exact c65_formula_partial. Qed.
Print Assumptions C65_formula_partial.
(** The kernel {O, (2, 1), (2, 4)} of y^2 = x^3 + x + 1 over GF(5): v = 2 at both points, so v = 4, u = 0 and w = 8; floor(4/5) = 0 and floor(8/5) = 1,
    a' = floor(1/5) = 0 and b' = floor((1 - 7)/5) = -2. *)
Example C65_case_formula : exists E, elliptic 1 1 5 /\ ec_new 1 1 5 = Ok E /\ division_points E 3 = Ok [mkPt 2 1 1; mkPt 2 4 1; infinity] /\ isogeny E 3 = ec_new 0 (-2) 5.
Proof. exact c65_case_formula. Qed.
