(** C123: the residue of schoof for l = 3 with its sign *)
From Coq Require Import Znumtheory ZifyBool.
From Verif Require Import Prelude M_Bigint M_Variable M_Term M_Poly M_DivPoly M_Curve M_Schoof Spec SpecCurve SpecTwist SpecSchoof SpecThree P_Bigint P_Variable P_DivVal P_Curve P_Curve2 P_Curve3 P_Curve4 P_CurveProps P_SeaProps P_HasseZ P_HasseProps P_SchoofDecProps P_ThreeProps P_ThreeSign2.
From Verif Require Import P_ThreeSignProps.
Open Scope Z_scope.

(** C123: the comparison of y-coordinates that schoof.rs performs for l = 3 and j = 1, when 3 does not divide the trace t: never successful for q = 2 (mod 3);
    for q = 1 (mod 3) successful exactly if the third division polynomial splits into distinct linear factors modulo q or t = 1 (mod 3) and q | a. *)
Theorem C123_match : forall a b q E, elliptic a b q -> ec_new a b q = Ok E -> 3 < q ->
  let t := q + 1 - cardinality E in
  ~ (3 | t) -> (y_matches (-1) a b q 3 1 <-> q mod 3 = 1 /\ (psi3_splits a b q \/ ((3 | t - 1) /\ (q | a)))).
Proof. exact c123_match. Qed.
Print Assumptions C123_match.
(** C123: the residue for 3 when 3 does not divide the trace t: it is 1 exactly if q = 1 (mod 3) and either the third division polynomial splits into distinct
    linear factors modulo q or t = 1 (mod 3) and q | a; otherwise it is 2. *)
Theorem C123_residue : forall fuel a b q E L r, elliptic a b q -> ec_new a b q = Ok E -> schoof fuel a b q = Ok L -> In (mkMod 3 r) L ->
  let t := q + 1 - cardinality E in
  ~ (3 | t) ->
  (r = 1 <-> q mod 3 = 1 /\ (psi3_splits a b q \/ ((3 | t - 1) /\ (q | a)))) /\
  (r = 2 <-> ~ (q mod 3 = 1 /\ (psi3_splits a b q \/ ((3 | t - 1) /\ (q | a))))).
Proof. exact c123_residue. Qed.
Print Assumptions C123_residue.
(** C123: exactly when the residue for 3 is the trace modulo 3. *)
Theorem C123_exact : forall fuel a b q E L r, elliptic a b q -> ec_new a b q = Ok E -> schoof fuel a b q = Ok L -> In (mkMod 3 r) L ->
  let t := q + 1 - cardinality E in
  (3 | r - t) <->
  ((3 | t) /\ ~ (q mod 3 = 1 /\ exists c, ~ (q | c) /\ (q | c * c * c + 4 * b))) \/
  ((3 | t - 1) /\ q mod 3 = 1 /\ (psi3_splits a b q \/ (q | a))) \/
  ((3 | t - 2) /\ ~ (q mod 3 = 1 /\ psi3_splits a b q)).
Proof. exact c123_exact. Qed.
Print Assumptions C123_exact.
(** C123: in particular, for q = 2 (mod 3) the residue for 3 is the trace modulo 3 unless the trace is 1 modulo 3; then it is 2. *)
Theorem C123_two_mod_three : forall fuel a b q E L r, elliptic a b q -> ec_new a b q = Ok E -> q mod 3 = 2 -> schoof fuel a b q = Ok L -> In (mkMod 3 r) L ->
  let t := q + 1 - cardinality E in
  ((3 | r - t) <-> ~ (3 | t - 1)) /\ ((3 | t - 1) -> r = 2).
Proof. exact c123_two_mod_three. Qed.
Print Assumptions C123_two_mod_three.
(** q = 2 (mod 3): over GF(5), y^2 = x^3 + x has trace 2 and the residue 2 is right; y^2 = x^3 + 2 x has trace 4 = 1 (mod 3) and the residue 2 is wrong. *)
Example C123_case : exists E E', elliptic 1 0 5 /\ ec_new 1 0 5 = Ok E /\ 5 + 1 - cardinality E = 2 /\ schoof 40 1 0 5 = Ok [mkMod 2 1; mkMod 3 2] /\
  elliptic 2 0 5 /\ ec_new 2 0 5 = Ok E' /\ 5 + 1 - cardinality E' = 4 /\ exists L, schoof 80 2 0 5 = Ok L /\ In (mkMod 3 2) L.
Proof. exact c123_case. Qed.
(** q = 1 (mod 3): y^2 = x^3 + 2 over GF(7) has 9 points, trace -1, and its third division polynomial splits: the residue 1 is wrong. *)
Example C123_case_split : exists E, elliptic 0 2 7 /\ ec_new 0 2 7 = Ok E /\ 7 mod 3 = 1 /\ 7 + 1 - cardinality E = -1 /\ psi3_splits 0 2 7.
Proof. exact c123_case_split. Qed.
(** y^2 = x^3 + 3 over GF(7) has 13 points, trace -5 = 1 (mod 3), and q | a: the residue 1 is right. *)
Example C123_case_zero : exists E, elliptic 0 3 7 /\ ec_new 0 3 7 = Ok E /\ 7 mod 3 = 1 /\ 7 + 1 - cardinality E = -5 /\ (3 | -5 - 1) /\ (7 | 0).
Proof. exact c123_case_zero. Qed.
(** C78 for l = 3, the sign included: exactly when the residue is the trace modulo 3. *)
Theorem C78_three_exact_partial : forall fuel a b q E L r, elliptic a b q -> ec_new a b q = Ok E -> schoof fuel a b q = Ok L -> In (mkMod 3 r) L ->
  let t := q + 1 - cardinality E in
  (3 | r - t) <->
  ((3 | t) /\ ~ (q mod 3 = 1 /\ exists c, ~ (q | c) /\ (q | c * c * c + 4 * b))) \/
  ((3 | t - 1) /\ q mod 3 = 1 /\ (psi3_splits a b q \/ (q | a))) \/
  ((3 | t - 2) /\ ~ (q mod 3 = 1 /\ psi3_splits a b q)).
Proof. exact c78_three_exact_partial. Qed.
Print Assumptions C78_three_exact_partial.
