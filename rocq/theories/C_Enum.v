(** C128: the order of the listed points *)
From Coq Require Import Znumtheory ZifyBool Sorting.Sorted.
From Verif Require Import Prelude M_Bigint M_Variable M_Term M_Poly M_Curve Spec SpecCurve SpecEnum P_Bigint P_Variable P_Subst P_Curve2 P_Curve4 P_CurveProps.
From Verif Require Import P_EnumProps.
Open Scope Z_scope.

(** C128: points() lists the finite points in lexicographic order of (x, y), followed by the point at infinity; with C61 this determines the list. *)
Theorem C128_points : forall a b p E, ec_new a b p = Ok E ->
  exists L, ec_points E = L ++ [infinity] /\ StronglySorted lex L /\
    forall L', StronglySorted lex L' -> (forall P, In P L' <-> pz P = 1 /\ 0 <= px P < p /\ 0 <= py P < p /\ curve_eqn a b p (px P) (py P)) -> L' = L.
Proof. exact c128_points. Qed.
Print Assumptions C128_points.
(** C128: coefficients congruent modulo p give the same list of points. *)
Theorem C128_congruent : forall a b a' b' p E E', ec_new a b p = Ok E -> ec_new a' b' p = Ok E' -> (p | a' - a) -> (p | b' - b) -> ec_points E' = ec_points E.
Proof. exact c128_congruent. Qed.
Print Assumptions C128_congruent.
(** C128: division_points(n) keeps that order and ends with the point at infinity. *)
Theorem C128_division : forall a b p E n V, elliptic a b p -> ec_new a b p = Ok E -> 1 <= n -> division_points E n = Ok V ->
  exists L, V = L ++ [infinity] /\ StronglySorted lex L.
Proof. exact c128_division. Qed.
Print Assumptions C128_division.
Example C128_case : exists E E', ec_new 1 1 5 = Ok E /\ ec_new 6 (-4) 5 = Ok E' /\ elliptic 1 1 5 /\ ec_points E' = ec_points E /\
  ec_points E = [mkPt 0 1 1; mkPt 0 4 1; mkPt 2 1 1; mkPt 2 4 1; mkPt 3 1 1; mkPt 3 4 1; mkPt 4 2 1; mkPt 4 3 1; infinity] /\
  division_points E 3 = Ok [mkPt 2 1 1; mkPt 2 4 1; infinity].
Proof. exact c128_case. Qed.
