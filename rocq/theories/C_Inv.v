(** Property C93: the number of points modulo p *)
From Coq Require Import Znumtheory ZifyBool Permutation.
From Verif Require Import Prelude M_Bigint M_Variable M_Term M_Poly M_Curve Spec SpecCurve P_Bigint P_Variable P_FSum P_Poly P_Rem P_PolyProps P_Subst2 P_Roots P_Curve2 P_CurveProps P_Euler P_HasseProps.
From Verif Require Import P_InvProps.
Open Scope Z_scope.

(** C93: cardinality() is congruent modulo p to 1 minus the coefficient of x^(p-1) in (x^3 + a x + b)^((p-1)/2) computed by power_modulo. *)
Theorem C93_congruence : forall a b p E c, p <> 2 -> ec_new a b p = Ok E -> p_power_modulo (weierstrass a b) ((p - 1) / 2) p = Ok c ->
  (p | cardinality E - (1 - coef c (mkMono (p - 1) 0 0 None))).
Proof. exact c93_congruence. Qed.
Print Assumptions C93_congruence.
(** C93: power_modulo returns there whenever the exponents fit, i.e. for 3 (p-1)/2 < 2^31. *)
Theorem C93_returns : forall a b p, 3 <= p -> 3 * ((p - 1) / 2) <= i32_max -> exists c, p_power_modulo (weierstrass a b) ((p - 1) / 2) p = Ok c.
Proof. exact c93_returns. Qed.
Print Assumptions C93_returns.
(** C93: for p >= 17 this coefficient determines cardinality(): p + 1 - cardinality() is the residue of it of absolute value at most 2 sqrt p. *)
Theorem C93_determines : forall a b p E c t, elliptic a b p -> 17 <= p -> ec_new a b p = Ok E -> p_power_modulo (weierstrass a b) ((p - 1) / 2) p = Ok c ->
  (cardinality E = p + 1 - t <-> t ^ 2 <= 4 * p /\ (p | t - coef c (mkMono (p - 1) 0 0 None))).
Proof. exact c93_determines. Qed.
Print Assumptions C93_determines.
(** C93: the coefficient vanishes exactly when p divides the trace; for p >= 5 exactly when cardinality() is p + 1. *)
Theorem C93_supersingular : forall a b p E c, elliptic a b p -> 5 <= p -> ec_new a b p = Ok E -> p_power_modulo (weierstrass a b) ((p - 1) / 2) p = Ok c ->
  (coef c (mkMono (p - 1) 0 0 None) = 0 <-> cardinality E = p + 1).
Proof. exact c93_supersingular. Qed.
Print Assumptions C93_supersingular.
Example C93_case : elliptic 1 1 5 /\ exists E c, ec_new 1 1 5 = Ok E /\ p_power_modulo (weierstrass 1 1) 2 5 = Ok c /\ coef c (mkMono 4 0 0 None) = 2 /\ cardinality E = 9.
Proof. exact c93_case. Qed.
