(** C130: leading terms and degrees *)
From Coq Require Import Znumtheory ZifyBool.
From Verif Require Import Prelude M_Bigint M_Variable M_Term M_Poly Spec SpecLead P_Bigint P_Variable P_FSum P_Poly P_Rem P_PolyProps P_Subst P_Subst2 P_Subst3 P_SubstProps P_Mod P_Gcd.
From Verif Require Import P_LeadProps.
Open Scope Z_scope.

(** C130: the leading term of a product is the product of the leading terms; in particular a product of polynomials that are not zero is not zero. *)
Theorem C130_mul : forall a b c d c' d' r, leading a c d -> leading b c' d' -> p_mul a b = Ok r ->
  leading r (c * c') (d + d') /\ degree_x r = Ok (d + d') /\ ~ feq r [].
Proof. exact c130_mul. Qed.
Print Assumptions C130_mul.
(** C130: the leading term of a power is the power of the leading term. *)
Theorem C130_power : forall a c d n r, leading a c d -> p_power a n = Ok r -> leading r (c ^ n) (n * d) /\ degree_x r = Ok (n * d).
Proof. exact c130_power. Qed.
Print Assumptions C130_power.
(** C130: the sum of two polynomials of different degrees leads with the term of higher degree; of equal degrees, with the sum of the leading coefficients unless it is 0. *)
Theorem C130_add : forall a b c d c' d', leading a c d -> leading b c' d' ->
  (d < d' -> leading (p_add a b) c' d' /\ leading (p_add b a) c' d') /\
  (d = d' -> c + c' <> 0 -> leading (p_add a b) (c + c') d) /\
  forall k, degree_x (p_add a b) = Ok k -> k <= Z.max d d'.
Proof. exact c130_add. Qed.
Print Assumptions C130_add.
(** C130: the derivative of a polynomial of degree d >= 1 leads with d c x^(d-1). *)
Theorem C130_derivative : forall a c d, leading a c d -> 1 <= d -> exists r, derivative_x a = Ok r /\ leading r (d * c) (d - 1) /\ degree_x r = Ok (d - 1).
Proof. exact c130_derivative. Qed.
Print Assumptions C130_derivative.
(** C130: reduction modulo p keeps the degree when the leading coefficient is not divisible by p; so modulo a prime the degree of a product is the sum of the degrees. *)
Theorem C130_modulo : forall a c d p r, leading a c d -> 0 < p -> ~ (p | c) -> p_rem a p = Ok r -> leading r (c mod p) d /\ degree_x r = Ok d.
Proof. exact c130_modulo. Qed.
Print Assumptions C130_modulo.
Theorem C130_modulo_mul : forall a b c d c' d' p s r, leading a c d -> leading b c' d' -> prime p -> ~ (p | c) -> ~ (p | c') -> p_mul a b = Ok s -> p_rem s p = Ok r ->
  leading r ((c * c') mod p) (d + d') /\ degree_x r = Ok (d + d').
Proof. exact c130_modulo_mul. Qed.
Print Assumptions C130_modulo_mul.
Example C130_case : let a := [(X 0, -1); (X 1, 2)] in let b := [(X 0, 4); (X 2, 3)] in leading a 2 1 /\ leading b 3 2 /\
  (exists r, p_mul a b = Ok r /\ highest_term_x r = mkTerm 6 (X 3)) /\ (exists r, p_power a 5 = Ok r /\ highest_term_x r = mkTerm 32 (X 5)).
Proof. exact c130_case. Qed.
