(** C133: double roots and squares of linear factors *)
From Coq Require Import Znumtheory ZifyBool Setoid Morphisms Ring.
From Verif Require Import Prelude M_Bigint M_Variable M_Term M_Poly Spec SpecLead P_Bigint P_Variable P_FSum P_Poly P_Rem P_PolyProps P_Subst P_Subst2 P_Subst3 P_SubstProps P_Mod P_Gcd P_Gcd2 P_GcdProps P_Roots P_XQuot P_XQuotProps P_Sqfree P_SqfreeProps P_LeadProps P_FactorProps.
From Verif Require Import P_DoubleProps.
Open Scope Z_scope.

(** C133: (x - r)^2 divides a modulo p (the remainder is the zero polynomial) exactly when r is a root modulo p of a and of its derivative. *)
Theorem C133_double_root : forall fuel a a' d p s r u v, prime p -> sorted a -> only_x a -> p_square (p_sub (to_pol (tb_build (tb_xpow 1 (tb_coef 1 tb_new)))) (to_pol (tb_build (tb_coef r tb_new)))) = Ok d ->
  polynomial_modular fuel a d p = Ok s -> derivative_x a = Ok a' -> eval_xy a r 0 = Ok u -> eval_xy a' r 0 = Ok v ->
  (is_zero s = true <-> (p | u) /\ (p | v)).
Proof. exact c133_double_root. Qed.
Print Assumptions C133_double_root.
(** C133: all the calls return. *)
Theorem C133_returns : forall a p r, prime p -> sorted a -> only_x a -> i32_poly a ->
  exists d fuel s a' u v, p_square (p_sub (to_pol (tb_build (tb_xpow 1 (tb_coef 1 tb_new)))) (to_pol (tb_build (tb_coef r tb_new)))) = Ok d /\ polynomial_modular fuel a d p = Ok s /\ derivative_x a = Ok a' /\ eval_xy a r 0 = Ok u /\ eval_xy a' r 0 = Ok v.
Proof. exact c133_returns. Qed.
Print Assumptions C133_returns.
Example C133_case : let a := [(mkMono 0 0 0 None, 1); (mkMono 2 0 0 None, 4); (mkMono 4 0 0 None, 1)] in let d := [(mkMono 0 0 0 None, 1); (mkMono 1 0 0 None, -2); (mkMono 2 0 0 None, 1)] in
  sorted a /\ only_x a /\ p_square (p_sub (to_pol (tb_build (tb_xpow 1 (tb_coef 1 tb_new)))) (to_pol (tb_build (tb_coef 1 tb_new)))) = Ok d /\ polynomial_modular 9 a d 3 = Ok [] /\ eval_xy a 1 0 = Ok 6 /\
  derivative_x a = Ok [(mkMono 1 0 0 None, 8); (mkMono 3 0 0 None, 4)] /\ eval_xy [(mkMono 1 0 0 None, 8); (mkMono 3 0 0 None, 4)] 1 0 = Ok 12.
Proof. exact c133_case. Qed.
