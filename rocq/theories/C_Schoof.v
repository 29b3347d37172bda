(** C102 and C78: what schoof reports for l = 3 and 5 on curves with rational l-torsion *)
From Coq Require Import Znumtheory ZifyBool Setoid Morphisms.
From Verif Require Import Prelude M_Bigint M_Variable M_Term M_Poly M_DivPoly M_Curve M_Schoof Spec SpecCurve P_Bigint P_Variable P_FSum P_Poly P_Rem P_PolyProps P_Subst2 P_Subst3 P_DivProps P_DivVal P_Group P_Fp P_Curve P_Curve2 P_Curve3 P_Curve4 P_CurveProps P_Mul P_MulProps P_DisplayProps P_SeaProps P_AbGroup P_TorsionProps P_SchoofVal.
From Verif Require Import P_SchoofProps.
Open Scope Z_scope.

(** C102: on a curve with a rational point of order 3 over GF(q), q = 2 mod 3, q > 3, the residue for 3 that schoof reports is right (and is 0). *)
Theorem C102_three : forall fuel a b q E L, elliptic a b q -> ec_new a b q = Ok E -> 3 < q -> q mod 3 = 2 -> (3 | cardinality E) -> schoof fuel a b q = Ok L ->
  In (mkMod 3 0) L /\ (3 | q + 1 - cardinality E - 0).
Proof. exact c102_three. Qed.
Print Assumptions C102_three.
(** C102: on a curve with a rational point of order 5 over GF(q), q = 2 or 3 mod 5, q > 5, the residue for 5 is right or 0. *)
Theorem C102_five : forall fuel a b q E L, elliptic a b q -> ec_new a b q = Ok E -> 5 < q -> q mod 5 = 2 \/ q mod 5 = 3 -> (5 | cardinality E) -> schoof fuel a b q = Ok L ->
  exists r, In (mkMod 5 r) L /\ 0 <= r < 5 /\ (r = 0 \/ (5 | q + 1 - cardinality E - r)).
Proof. exact c102_five. Qed.
Print Assumptions C102_five.
Example C102_case : exists E, elliptic 0 1 5 /\ ec_new 0 1 5 = Ok E /\ 5 mod 3 = 2 /\ (3 | cardinality E) /\ schoof 4000 0 1 5 = Ok [mkMod 2 1; mkMod 3 0].
Proof. exact c102_case. Qed.
Example C102_case5 : exists E, elliptic 1 4 7 /\ ec_new 1 4 7 = Ok E /\ 7 mod 5 = 2 /\ (5 | cardinality E).
Proof. exact c102_case5. Qed.
(** C78, the part that holds: on curves with rational l-torsion (q = 2 mod 3 for l = 3; q = 2, 3 mod 5 for l = 5) the reported residue is
    the trace modulo 3, and the trace modulo 5 or 0. *)
Theorem C78_residue_partial : forall fuel a b q E L, elliptic a b q -> ec_new a b q = Ok E -> schoof fuel a b q = Ok L ->
  (3 < q -> q mod 3 = 2 -> (3 | cardinality E) -> exists r, In (mkMod 3 r) L /\ (3 | q + 1 - cardinality E - r)) /\
  (5 < q -> q mod 5 = 2 \/ q mod 5 = 3 -> (5 | cardinality E) -> exists r, In (mkMod 5 r) L /\ (r = 0 \/ (5 | q + 1 - cardinality E - r))).
Proof. exact c78_residue_partial. Qed.
Print Assumptions C78_residue_partial.
