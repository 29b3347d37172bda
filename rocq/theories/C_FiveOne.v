(** C122: the exceptions for q = 1 (mod 5) *)
From Coq Require Import Znumtheory ZifyBool.
From Verif Require Import Prelude M_Bigint M_Variable M_Term M_Poly M_DivPoly M_Curve M_Schoof Spec SpecCurve SpecTwist SpecSchoof SpecFive P_Bigint P_Variable P_DivVal P_Curve P_Curve2 P_Curve3 P_Curve4 P_CurveProps P_SeaProps P_SchoofProps P_SchoofDecProps P_FiveW P_FiveProps.
From Verif Require Import P_FiveOneProps.
Open Scope Z_scope.

(** C122: for w = 1 the last comparison modulo the fifth division polynomial of y^2 = x^3 + c x + b (c = a or the c = q of the code) says that this polynomial
    splits into distinct linear factors modulo q. *)
Theorem C122_split : forall a b c q, prime q -> 5 < q -> (w_matches c a b q 5 1 <-> psi5_splits c b q).
Proof. exact c122_split. Qed.
Print Assumptions C122_split.
(** C122: for q = 1 (mod 5) the residue for 5 is the trace t up to sign, except exactly when the fifth division polynomial of the curve splits modulo q, or
    5 divides t and the fifth division polynomial of the curve y^2 = x^3 + b splits modulo q. *)
Theorem C122_one_mod_five : forall fuel a b q E L r, elliptic a b q -> ec_new a b q = Ok E -> q mod 5 = 1 -> schoof fuel a b q = Ok L -> In (mkMod 5 r) L ->
  let t := q + 1 - cardinality E in
  ((5 | r - t) \/ (5 | r + t)) <-> ~ (psi5_splits a b q \/ ((5 | t) /\ psi5_splits 0 b q)).
Proof. exact c122_one_mod_five. Qed.
Print Assumptions C122_one_mod_five.
(** C122: what happens in the first of these cases: the trace is 2 or -2 modulo 5 and the residue is 1 or -1. *)
Theorem C122_split_residue : forall fuel a b q E L r, elliptic a b q -> ec_new a b q = Ok E -> q mod 5 = 1 -> psi5_splits a b q -> schoof fuel a b q = Ok L -> In (mkMod 5 r) L ->
  let t := q + 1 - cardinality E in
  ((5 | t - 2) \/ (5 | t + 2)) /\ (r = 1 \/ r = 4).
Proof. exact c122_split_residue. Qed.
Print Assumptions C122_split_residue.
(** y^2 = x^3 + 5 over GF(31) has 39 points, trace -7, and its fifth division polynomial splits. *)
Example C122_case_split : exists E, elliptic 0 5 31 /\ ec_new 0 5 31 = Ok E /\ 31 mod 5 = 1 /\ 31 + 1 - cardinality E = -7 /\ psi5_splits 0 5 31.
Proof. exact c122_case_split. Qed.
(** The second exception: y^2 = x^3 + 12 x + 5 over GF(31) has 27 points, trace 5. *)
Example C122_case_wrong_curve : exists E, elliptic 12 5 31 /\ ec_new 12 5 31 = Ok E /\ 31 mod 5 = 1 /\ (5 | 31 + 1 - cardinality E) /\ psi5_splits 0 5 31.
Proof. exact c122_case_wrong_curve. Qed.
