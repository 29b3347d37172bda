(** C111-C112: Kronecker's congruence; symmetry of sea *)
From Coq Require Import Znumtheory ZifyBool Setoid Morphisms.
From Verif Require Import Prelude M_Bigint M_Variable M_Term M_Poly M_QSeries M_Solve M_Curve M_Modular Spec P_Bigint P_Variable P_FSum P_Poly P_Subst P_Binom P_Q P_QProps P_Modular P_Modular2 P_ModularProps P_ModRet2 P_Euler P_SingProps P_Subst2 SpecCurve SpecKron P_CurveProps P_Sea P_SeaProps P_ModRetProps P_Kron.
From Verif Require Import P_KronProps.
Open Scope Z_scope.

(** C111: a symmetric polynomial of the shape of the modular polynomial satisfies the equations of modular_polynomial(p) modulo p exactly when it is congruent to (x^p - y)(x - y^p) modulo p. *)
Theorem C111_equations : forall p Psi J c, prime p -> 3 * (p * p + p + 1) + 1 <= i32_max -> j_invariant (p * p + p) = Ok J -> symmetric_shape p c Psi ->
  ((forall k, - (p * p + p) <= k <= 0 -> (p | coef (jsubst p Psi J) (qmono k))) <-> feqm p Psi (kronecker p)).
Proof. exact c111_equations. Qed.
Print Assumptions C111_equations.
(** C111: so if its system of equations has a solution at all (the classical modular polynomial is one), modular_polynomial(p) is congruent to (x^p - y)(x - y^p) modulo p. *)
Theorem C111_kronecker : forall p Phi Psi J c, modular_polynomial p = Ok Phi -> j_invariant (p * p + p) = Ok J ->
  symmetric_shape p c Psi -> (forall k, - (p * p + p) <= k <= 0 -> coef (jsubst p Psi J) (qmono k) = 0) ->
  feqm p Phi (kronecker p).
Proof. exact c111_kronecker. Qed.
Print Assumptions C111_kronecker.
(** C111: over GF(p) itself, for a modular polynomial with Kronecker's congruence, sea(ec, p) always returns and reports exactly one isogenous j-invariant, that of ec. *)
Theorem C111_sea : forall a b p E Phi, prime p -> nonsingular a b p -> curve_of a b p E -> modular_polynomial p = Ok Phi -> feqm p Phi (kronecker p) ->
  exists fuel R j, ec_j_invariant E = Ok j /\ sea fuel E p = Ok R /\ sea_js R = [j] /\ sea_degree R = 1.
Proof. exact c111_sea. Qed.
Print Assumptions C111_sea.
Example C111_case : exists J, j_invariant (2 * 2 + 2) = Ok J /\ symmetric_shape 2 c75_c c46_phi2 /\
  (forall k, - (2 * 2 + 2) <= k <= 0 -> coef (jsubst 2 c46_phi2 J) (qmono k) = 0) /\ feqm 2 c46_phi2 (kronecker 2) /\ coef c46_phi2 (xymono 1 1) = 40773375 /\ coef c46_phi2 (xymono 2 2) = -1.
Proof. exact c111_case. Qed.
(** C112: if sea(ec, l) reports j' and ec' is a curve over the same field with j-invariant j', then sea(ec', l) returns too, and reports j(ec) (unless there are more than two roots, of which only two are reported). *)
Theorem C112_symmetric : forall a b a' b' p E E' l fuel R j j', elliptic a b p -> elliptic a' b' p -> p <= i32_max -> curve_of a b p E -> curve_of a' b' p E' ->
  ec_j_invariant E = Ok j -> ec_j_invariant E' = Ok j' -> sea fuel E l = Ok R -> In j' (sea_js R) ->
  exists fuel' R', sea fuel' E' l = Ok R' /\ (sea_degree R' <= 2 -> In j (sea_js R')).
Proof. exact c112_symmetric. Qed.
Print Assumptions C112_symmetric.
(** C112: and what sea(ec, l) does depends only on p and the j-invariant of ec. *)
Theorem C112_j_only : forall p E E' l fuel, cp E = p -> cp E' = p -> ec_j_invariant E' = ec_j_invariant E -> sea fuel E' l = sea fuel E l.
Proof. exact c112_j_only. Qed.
Print Assumptions C112_j_only.
Example C112_case : exists R R', sea 20 (new_raw 1 0 5) 2 = Ok R /\ ec_j_invariant (new_raw 1 0 5) = Ok 3 /\ In 1 (sea_js R) /\ ec_j_invariant (new_raw 4 1 5) = Ok 1 /\
  sea 20 (new_raw 4 1 5) 2 = Ok R' /\ In 3 (sea_js R').
Proof. exact c112_case. Qed.
