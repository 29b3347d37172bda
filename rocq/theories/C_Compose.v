(** C131: degree of a composition *)
From Coq Require Import Znumtheory ZifyBool.
From Verif Require Import Prelude M_Bigint M_Variable M_Term M_Poly Spec SpecLead P_Bigint P_Variable P_FSum P_Poly P_Rem P_PolyProps P_Subst P_Subst2 P_Subst3 P_SubstProps P_Mod P_Gcd P_LeadProps.
From Verif Require Import P_ComposeProps.
Open Scope Z_scope.

(** C131: the degree of a composition is the product of the degrees, and its leading coefficient is c c'^d. *)
Theorem C131_compose : forall a s c d c' d' r, leading a c d -> leading s c' d' -> 1 <= d' -> eval_x_polynomial a s = Ok r ->
  leading r (c * c' ^ d) (d * d') /\ degree_x r = Ok (d * d').
Proof. exact c131_compose. Qed.
Print Assumptions C131_compose.
Example C131_case : let a := [(X 0, -1); (X 2, 2)] in let b := [(X 0, 4); (X 3, 3)] in leading a 2 2 /\ leading b 3 3 /\
  exists r, eval_x_polynomial a b = Ok r /\ highest_term_x r = mkTerm 18 (X 6).
Proof. exact c131_case. Qed.
