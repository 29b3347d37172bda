(** C124: roots of the division polynomials over GF(p) *)
From Coq Require Import Znumtheory ZifyBool Permutation.
From Verif Require Import Prelude M_Bigint M_Variable M_Term M_Poly M_DivPoly M_Curve Spec SpecCurve SpecTwist P_Bigint P_Variable P_FSum P_Poly P_Rem P_PolyProps P_Subst P_Subst2 P_Subst3 P_SubstProps P_DivPoly P_DivPoly3 P_DivPoly4 P_DivProps P_Group P_Fp P_Curve P_Curve2 P_Curve3 P_Curve4 P_CurveProps P_Euler P_TwistProps P_Eds2 P_DivVal P_Mul P_MulProps P_RootProps P_DivUni P_DivUni2 P_DivUni3 P_DivUniProps P_AbGroup P_Torsion P_TorsionProps P_SchoofProps P_TorsCount.
From Verif Require Import P_TorsCountProps.
Open Scope Z_scope.

(** C124: for odd n, the roots of psi(n) modulo p count the n-torsion points of the curve and of its quadratic twist:
    twice their number is the number of finite n-torsion points on the two curves together. *)
Theorem C124_count_odd : forall p d a b a' b' E E' n r L L' R, elliptic a b p -> twisted p d a b a' b' -> ec_new a b p = Ok E -> ec_new a' b' p = Ok E' ->
  1 <= n <= 65534 -> Z.odd n = true -> psi a b n = Ok r ->
  NoDup L -> (forall P, In P L <-> In P (ec_points E) /\ ec_mult a p (affine p P) (Z.to_nat n) None) ->
  NoDup L' -> (forall P, In P L' <-> In P (ec_points E') /\ ec_mult a' p (affine p P) (Z.to_nat n) None) ->
  NoDup R -> (forall x, In x R <-> 0 <= x < p /\ exists v, eval_xy r x 0 = Ok v /\ (p | v)) ->
  2 * Z.of_nat (length R) = (Z.of_nat (length L) - 1) + (Z.of_nat (length L') - 1).
Proof. exact c124_count_odd. Qed.
Print Assumptions C124_count_odd.
(** C124: for even n the same, counting the x at which psi(n)(x, y) vanishes for a y with y^2 = x^3 + a x + b: the common roots of psi(n)(x, 1) and of the cubic together. *)
Theorem C124_count_even : forall p d a b a' b' E E' n r L L' R, elliptic a b p -> twisted p d a b a' b' -> ec_new a b p = Ok E -> ec_new a' b' p = Ok E' ->
  1 <= n <= 65534 -> Z.odd n = false -> psi a b n = Ok r ->
  NoDup L -> (forall P, In P L <-> In P (ec_points E) /\ ec_mult a p (affine p P) (Z.to_nat n) None) ->
  NoDup L' -> (forall P, In P L' <-> In P (ec_points E') /\ ec_mult a' p (affine p P) (Z.to_nat n) None) ->
  NoDup R -> (forall x, In x R <-> 0 <= x < p /\ exists v, eval_xy r x 1 = Ok v /\ (p | v * (x ^ 3 + a * x + b))) ->
  2 * Z.of_nat (length R) = (Z.of_nat (length L) - 1) + (Z.of_nat (length L') - 1).
Proof. exact c124_count_even. Qed.
Print Assumptions C124_count_even.
(** C124: for a prime l > 2 the polynomial psi(l) has a root modulo p exactly if l divides the cardinality of the curve or of its twist,
    that is, one of p + 1 - t and p + 1 + t. *)
Theorem C124_root : forall a b p E l r, elliptic a b p -> ec_new a b p = Ok E -> prime l -> l <> 2 -> l <= 65534 -> psi a b l = Ok r ->
  ((exists x v, 0 <= x < p /\ eval_xy r x 0 = Ok v /\ (p | v)) <-> (l | cardinality E) \/ (l | 2 * p + 2 - cardinality E)).
Proof. exact c124_root. Qed.
Print Assumptions C124_root.
(** C124: the greatest common divisor of psi(l) and x^p - x: gcd returns (in either order of the arguments) exactly in this case, ... *)
Theorem C124_gcd : forall a b p E l r u v, elliptic a b p -> ec_new a b p = Ok E -> p <= i32_max -> prime l -> l <> 2 -> l <> p -> l <= 65534 -> psi a b l = Ok r ->
  let d := [(mkMono 1 0 0 None, -1); (mkMono p 0 0 None, 1)] in (u, v) = (r, d) \/ (u, v) = (d, r) ->
  ((exists fuel g, p_gcd fuel u v p = Ok g) <-> (l | cardinality E) \/ (l | 2 * p + 2 - cardinality E)).
Proof. exact c124_gcd. Qed.
Print Assumptions C124_gcd.
(** C124: ... it is then monic of degree half the number of finite l-torsion points on the curve and its twist, ... *)
Theorem C124_degree : forall a b p E E' d a' b' l r u v fuel g L L', elliptic a b p -> ec_new a b p = Ok E -> twisted p d a b a' b' -> ec_new a' b' p = Ok E' ->
  p <= i32_max -> Z.odd l = true -> 3 <= l <= 65534 -> ~ (p | l) -> psi a b l = Ok r ->
  NoDup L -> (forall P, In P L <-> In P (ec_points E) /\ ec_mult a p (affine p P) (Z.to_nat l) None) ->
  NoDup L' -> (forall P, In P L' <-> In P (ec_points E') /\ ec_mult a' p (affine p P) (Z.to_nat l) None) ->
  let x := [(mkMono 1 0 0 None, -1); (mkMono p 0 0 None, 1)] in (u, v) = (r, x) \/ (u, v) = (x, r) -> p_gcd fuel u v p = Ok g ->
  tc (highest_term_x g) = 1 /\ 2 * mx (tm (highest_term_x g)) = (Z.of_nat (length L) - 1) + (Z.of_nat (length L') - 1).
Proof. exact c124_degree. Qed.
Print Assumptions C124_degree.
(** C124: ... and is_gcd_one answers true in this case (it never answers false, C27). *)
Theorem C124_is_gcd_one : forall a b p E l r u v, elliptic a b p -> ec_new a b p = Ok E -> p <= i32_max -> prime l -> l <> 2 -> l <> p -> l <= 65534 -> psi a b l = Ok r ->
  let d := [(mkMono 1 0 0 None, -1); (mkMono p 0 0 None, 1)] in (u, v) = (r, d) \/ (u, v) = (d, r) ->
  ((exists fuel, is_gcd_one fuel u v p = Ok true) <-> (l | cardinality E) \/ (l | 2 * p + 2 - cardinality E)).
Proof. exact c124_is_gcd_one. Qed.
Print Assumptions C124_is_gcd_one.
(** y^2 = x^3 + x + 1 over GF(5) has 9 points and its twist by 2, y^2 = x^3 + 4 x + 3, has 3: two finite points of order 3 on each, and psi(3) has 2 roots. *)
Example C124_case : exists E E' r, elliptic 1 1 5 /\ ec_new 1 1 5 = Ok E /\ twisted 5 2 1 1 4 3 /\ ec_new 4 3 5 = Ok E' /\ cardinality E = 9 /\ cardinality E' = 3 /\
  division_points E 3 = Ok [mkPt 2 1 1; mkPt 2 4 1; infinity] /\ division_points E' 3 = Ok [mkPt 2 2 1; mkPt 2 3 1; infinity] /\ psi 1 1 3 = Ok r /\
  filter (fun x => fval x 0 r mod 5 =? 0) (zrange 0 5) = [1; 2].
Proof. exact c124_case. Qed.
