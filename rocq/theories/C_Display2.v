(** Property C79: Display of points, point lists, curves and subscripted variables *)
From Coq Require Import String Ascii ZifyBool.
From Verif Require Import Prelude M_Bigint M_Variable M_Term M_Poly M_Curve M_Display Spec SpecCurve SpecDisplay P_Bigint P_Variable P_Poly P_Subst P_Subst2 P_Curve2 P_Display P_DisplayProps.
From Verif Require Import P_Display2Props.
Local Open Scope string_scope.
Local Open Scope Z_scope.

(** C79: two points print alike exactly when both are infinity or both are affine with the same coordinates. *)
Theorem C79_point : forall P Q, point_to_string P = point_to_string Q <-> same_point P Q.
Proof. exact c79_point. Qed.
Print Assumptions C79_point.
(** C79: a list of points is determined, in order, by its text. *)
Theorem C79_points : forall l l', points_to_string l = points_to_string l' <-> Forall2 same_point l l'.
Proof. exact c79_points. Qed.
Print Assumptions C79_points.
(** C79: the text of a curve determines its equation and field, and shows its cardinality and j-invariant. *)
Theorem C79_curve : forall a b p E a' b' p' E' s, curve_of a b p E -> curve_of a' b' p' E' -> curve_to_string E = Ok s -> curve_to_string E' = Ok s ->
  a = a' /\ b = b' /\ p = p' /\ cardinality E = cardinality E' /\ ec_j_invariant E = ec_j_invariant E'.
Proof. exact c79_curve. Qed.
Print Assumptions C79_curve.
(** C79: a subscripted variable is determined, up to ==, by its text (empty for the empty variable, c_i_j otherwise), and it prints inside monomials as it does alone. *)
Theorem C79_variable : forall v w, (svar_to_string v = svar_to_string w <-> sv_eq v w = true) /\ svar_to_string v = var_to_string (canon v).
Proof. exact c79_variable. Qed.
Print Assumptions C79_variable.
Example C79_case : curve_to_string (new_raw 0 2 7) = Ok "F_7: y^2 = x^3 + 2, cardinality:0, j:0" /\ points_to_string [mkPt 1 (-2) 1; infinity] = "(1, -2), O".
Proof. exact c79_case. Qed.
