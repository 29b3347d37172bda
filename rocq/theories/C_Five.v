(** C122 (and C78): what schoof reports for l = 5 *)
From Coq Require Import Znumtheory ZifyBool.
From Verif Require Import Prelude M_Bigint M_Variable M_Term M_Poly M_DivPoly M_Curve M_Schoof Spec SpecCurve SpecTwist SpecSchoof P_Bigint P_Variable P_DivVal P_Curve P_Curve2 P_Curve3 P_Curve4 P_CurveProps P_SeaProps P_HasseZ P_HasseProps P_SchoofDecProps P_ThreeProps P_FiveZ.
From Verif Require Import P_FiveProps.
Open Scope Z_scope.

(** C122: for l = 5 and j = 1, 2 schoof's comparison of x-coordinates succeeds exactly when j is the trace t of Frobenius modulo 5 up to sign, or when
    Frobenius acts on the points of order 5 as multiplication by a square root w of q modulo 5, up to sign. *)
Theorem C122_match : forall a b q E j, elliptic a b q -> ec_new a b q = Ok E -> 5 < q -> 1 <= j <= 2 ->
  let t := q + 1 - cardinality E in
  x_matches a b q 5 j <-> ((5 | t - j) \/ (5 | t + j)) \/ exists w, 1 <= w <= 2 /\ (5 | w ^ 2 - q) /\ w_matches a a b q 5 w.
Proof. exact c122_match. Qed.
Print Assumptions C122_match.
(** C122: in the second case q is 1 and the trace is 2 modulo 5, or q is 4 and the trace is 1 modulo 5, the trace up to sign. *)
Theorem C122_scalar : forall a b q E w, elliptic a b q -> ec_new a b q = Ok E -> 5 < q -> 1 <= w <= 2 -> (5 | w ^ 2 - q) -> w_matches a a b q 5 w ->
  let t := q + 1 - cardinality E in
  (q mod 5 = 1 /\ w = 1 /\ ((5 | t - 2) \/ (5 | t + 2))) \/ (q mod 5 = 4 /\ w = 2 /\ ((5 | t - 1) \/ (5 | t + 1))).
Proof. exact c122_scalar. Qed.
Print Assumptions C122_scalar.
(** C122: the residue for l = 5 is the trace t up to sign, except exactly when (q = 1 (mod 5) and Frobenius fixes the x-coordinates of the points of order 5)
    or (5 divides t, q = w^2 (mod 5) and the comparison with [w](x, y) that schoof makes modulo the division polynomial of y^2 = x^3 + q x + b succeeds). *)
Theorem C122_up_to_sign : forall fuel a b q E L r, elliptic a b q -> ec_new a b q = Ok E -> schoof fuel a b q = Ok L -> In (mkMod 5 r) L ->
  let t := q + 1 - cardinality E in
  ((5 | r - t) \/ (5 | r + t)) <->
  ~ ((q mod 5 = 1 /\ w_matches a a b q 5 1) \/ ((5 | t) /\ exists w, 1 <= w <= 2 /\ (5 | w ^ 2 - q) /\ w_matches q a b q 5 w)).
Proof. exact c122_up_to_sign. Qed.
Print Assumptions C122_up_to_sign.
(** C122: in particular, for q = 2 or 3 (mod 5) the residue for 5 is the trace up to sign. *)
Theorem C122_nonresidue : forall fuel a b q E L r, elliptic a b q -> ec_new a b q = Ok E -> q mod 5 = 2 \/ q mod 5 = 3 -> schoof fuel a b q = Ok L -> In (mkMod 5 r) L ->
  (5 | r - (q + 1 - cardinality E)) \/ (5 | r + (q + 1 - cardinality E)).
Proof. exact c122_nonresidue. Qed.
Print Assumptions C122_nonresidue.
(** C122: the same for q = 4 (mod 5) when 5 does not divide the trace. *)
Theorem C122_four : forall fuel a b q E L r, elliptic a b q -> ec_new a b q = Ok E -> q mod 5 = 4 -> ~ (5 | q + 1 - cardinality E) -> schoof fuel a b q = Ok L -> In (mkMod 5 r) L ->
  (5 | r - (q + 1 - cardinality E)) \/ (5 | r + (q + 1 - cardinality E)).
Proof. exact c122_four. Qed.
Print Assumptions C122_four.
(** C122: if the residue for 5 is 0 the trace is a multiple of 5. *)
Theorem C122_zero : forall fuel a b q E L, elliptic a b q -> ec_new a b q = Ok E -> schoof fuel a b q = Ok L -> In (mkMod 5 0) L -> (5 | q + 1 - cardinality E).
Proof. exact c122_zero. Qed.
Print Assumptions C122_zero.
(** C122: for q = 2 (mod 3) and q = 2, 3 (mod 5) both odd residues are the trace up to sign. *)
Theorem C122_both : forall fuel a b q E L l r, elliptic a b q -> ec_new a b q = Ok E -> q mod 3 = 2 -> q mod 5 = 2 \/ q mod 5 = 3 -> schoof fuel a b q = Ok L ->
  In (mkMod l r) L -> l <> 2 -> (l | r - (q + 1 - cardinality E)) \/ (l | r + (q + 1 - cardinality E)).
Proof. exact c122_both. Qed.
Print Assumptions C122_both.
(** y^2 = x^3 + x + 4 over GF(7) has 10 points: the trace is -2 and the comparison succeeds for j = 2 only. *)
Example C122_case : exists E, elliptic 1 4 7 /\ ec_new 1 4 7 = Ok E /\ 7 mod 5 = 2 /\ 7 + 1 - cardinality E = -2 /\ x_matches 1 4 7 5 2 /\ ~ x_matches 1 4 7 5 1.
Proof. exact c122_case. Qed.
(** C78, the part that holds for l = 5 in general: the residue is the trace modulo 5 up to sign, with the exceptions of C122. *)
Theorem C78_five_partial : forall fuel a b q E L r, elliptic a b q -> ec_new a b q = Ok E -> schoof fuel a b q = Ok L -> In (mkMod 5 r) L ->
  ((5 | r - (q + 1 - cardinality E)) \/ (5 | r + (q + 1 - cardinality E))) <->
  ~ ((q mod 5 = 1 /\ w_matches a a b q 5 1) \/ ((5 | q + 1 - cardinality E) /\ exists w, 1 <= w <= 2 /\ (5 | w ^ 2 - q) /\ w_matches q a b q 5 w)).
Proof. exact c78_five_partial. Qed.
Print Assumptions C78_five_partial.
