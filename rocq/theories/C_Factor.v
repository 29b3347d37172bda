(** C132: remainder and factor theorems *)
From Coq Require Import Znumtheory ZifyBool.
From Verif Require Import Prelude M_Bigint M_Variable M_Term M_Poly Spec SpecLead P_Bigint P_Variable P_FSum P_Poly P_Rem P_PolyProps P_Subst P_Subst2 P_Subst3 P_SubstProps P_Mod P_Gcd P_GcdProps P_Roots P_LeadProps.
From Verif Require Import P_FactorProps.
Open Scope Z_scope.

(** C132: at a root r (modulo p) of the divisor, the remainder has the value of the dividend. *)
Theorem C132_root : forall fuel a d p s r u v t, 0 < p -> sorted a -> sorted d -> only_x a -> only_x d -> eval_xy d r 0 = Ok t -> (p | t) ->
  polynomial_modular fuel a d p = Ok s -> eval_xy a r 0 = Ok u -> eval_xy s r 0 = Ok v -> (p | u - v).
Proof. exact c132_root. Qed.
Print Assumptions C132_root.
(** C132: the remainder by a linear polynomial with root r and unit leading coefficient modulo p (such as x - r) is the constant a(r) mod p; in particular it is the
    zero polynomial exactly when r is a root of a modulo p. *)
Theorem C132_linear : forall fuel a d c p s r u t, prime p -> sorted a -> only_x a -> leading d c 1 -> ~ (p | c) -> eval_xy d r 0 = Ok t -> (p | t) ->
  polynomial_modular fuel a d p = Ok s -> eval_xy a r 0 = Ok u ->
  s = (if u mod p =? 0 then [] else [(mkMono 0 0 0 None, u mod p)]) /\ (is_zero s = true <-> (p | u)).
Proof. exact c132_linear. Qed.
Print Assumptions C132_linear.
(** C132: the division by such a divisor always returns. *)
Theorem C132_returns : forall a d c p, prime p -> sorted a -> only_x a -> i32_poly a -> leading d c 1 -> ~ (p | c) -> exists fuel s, polynomial_modular fuel a d p = Ok s.
Proof. exact c132_returns. Qed.
Print Assumptions C132_returns.
Example C132_case : let d := p_sub (to_pol (tb_build (tb_xpow 1 (tb_coef 1 tb_new)))) (to_pol (tb_build (tb_coef 3 tb_new))) in let a := [(mkMono 0 0 0 None, 5); (mkMono 2 0 0 None, 1)] in
  leading d 1 1 /\ eval_xy d 3 0 = Ok 0 /\ eval_xy a 3 0 = Ok 14 /\ polynomial_modular 5 a d 11 = Ok [(mkMono 0 0 0 None, 3)] /\ polynomial_modular 5 a d 7 = Ok [].
Proof. exact c132_case. Qed.
