(** C121 (and C78): what schoof reports for l = 3 *)
From Coq Require Import Znumtheory ZifyBool Setoid Morphisms.
From Verif Require Import Prelude M_Bigint M_Variable M_Term M_Poly M_DivPoly M_Curve M_Schoof Spec SpecCurve SpecTwist SpecSchoof P_Bigint P_Variable P_DivVal P_Curve P_Curve2 P_Curve3 P_Curve4 P_CurveProps P_Mul P_MulProps P_Euler P_TwistProps P_SeaProps P_SchoofProps P_SchoofDecProps P_Three2 P_Three3.
From Verif Require Import P_ThreeProps.
Open Scope Z_scope.

(** C121: for l = 3 schoof's comparison of x-coordinates succeeds exactly when 3 does not divide the trace of Frobenius. *)
Theorem C121_match : forall a b q E, elliptic a b q -> ec_new a b q = Ok E -> 3 < q -> (x_matches a b q 3 1 <-> ~ (3 | q + 1 - cardinality E)).
Proof. exact c121_match. Qed.
Print Assumptions C121_match.
(** C121: the residue for l = 3 is 1 or 2 when 3 does not divide the trace t; otherwise it is 0 if q = 2 (mod 3), and if q = 1 (mod 3) it is 0
    exactly when -4 b is not the cube of an invertible residue. *)
Theorem C121_residue : forall fuel a b q E L r, elliptic a b q -> ec_new a b q = Ok E -> schoof fuel a b q = Ok L -> In (mkMod 3 r) L ->
  let t := q + 1 - cardinality E in
  0 <= r < 3 /\ (~ (3 | t) -> r <> 0) /\ ((3 | t) -> q mod 3 = 2 -> r = 0) /\
  ((3 | t) -> q mod 3 = 1 -> (r = 0 <-> ~ exists c, ~ (q | c) /\ (q | c * c * c + 4 * b))).
Proof. exact c121_residue. Qed.
Print Assumptions C121_residue.
(** C121: the residue for l = 3 is the trace up to sign, except exactly when q = 1 (mod 3), 3 divides the trace and -4 b is the cube of an invertible residue. *)
Theorem C121_up_to_sign : forall fuel a b q E L r, elliptic a b q -> ec_new a b q = Ok E -> schoof fuel a b q = Ok L -> In (mkMod 3 r) L ->
  let t := q + 1 - cardinality E in
  ((3 | r - t) \/ (3 | r + t)) <-> ~ (q mod 3 = 1 /\ (3 | t) /\ exists c, ~ (q | c) /\ (q | c * c * c + 4 * b)).
Proof. exact c121_up_to_sign. Qed.
Print Assumptions C121_up_to_sign.
(** C121: in particular, for q = 2 (mod 3) the residue for 3 is the trace up to sign. *)
Theorem C121_two_mod_three : forall fuel a b q E L r, elliptic a b q -> ec_new a b q = Ok E -> q mod 3 = 2 -> schoof fuel a b q = Ok L -> In (mkMod 3 r) L ->
  (3 | r - (q + 1 - cardinality E)) \/ (3 | r + (q + 1 - cardinality E)).
Proof. exact c121_two_mod_three. Qed.
Print Assumptions C121_two_mod_three.
Example C121_case : exists E, elliptic 1 0 5 /\ ec_new 1 0 5 = Ok E /\ 5 mod 3 = 2 /\ schoof 40 1 0 5 = Ok [mkMod 2 1; mkMod 3 2] /\ ~ (3 | 5 + 1 - cardinality E).
Proof. exact c121_case. Qed.
(** An exceptional curve: y^2 = x^3 + 2 x + 3 over GF(19) has trace 0, and -12 = 4^3 modulo 19. *)
Example C121_case_exceptional : exists E, elliptic 2 3 19 /\ ec_new 2 3 19 = Ok E /\ 19 mod 3 = 1 /\ 19 + 1 - cardinality E = 0 /\ ~ (19 | 4) /\ (19 | 4 * 4 * 4 + 4 * 3).
Proof. exact c121_case_exceptional. Qed.
(** C78, the part that holds for l = 3 in general: the residue is the trace modulo 3 up to sign, unless q = 1 (mod 3), 3 divides the trace and -4 b is a
    nonzero cube; then it is not. *)
Theorem C78_three_partial : forall fuel a b q E L r, elliptic a b q -> ec_new a b q = Ok E -> schoof fuel a b q = Ok L -> In (mkMod 3 r) L ->
  ((3 | r - (q + 1 - cardinality E)) \/ (3 | r + (q + 1 - cardinality E))) <->
  ~ (q mod 3 = 1 /\ (3 | q + 1 - cardinality E) /\ exists c, ~ (q | c) /\ (q | c * c * c + 4 * b)).
Proof. exact c78_three_partial. Qed.
Print Assumptions C78_three_partial.
