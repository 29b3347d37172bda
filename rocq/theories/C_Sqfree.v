(** Property theorem C109 (src/polynomial.rs: gcd, derivative_x). *)
From Coq Require Import Znumtheory ZifyBool Setoid Morphisms Ring.
From Verif Require Import Prelude M_Bigint M_Variable M_Term M_Poly Spec P_Bigint P_Variable P_FSum P_Binom P_Poly P_Rem P_PolyProps P_Subst P_Subst2 P_Subst3 P_Mod P_Gcd P_Gcd2 P_GcdProps P_Roots P_XQuot P_Sqfree P_GcdLawProps.
From Verif Require Import P_SqfreeProps.
Open Scope Z_scope.

(** C109: with f' the derivative of f and d = f' mod p not zero, gcd(f, d) returns exactly when f has a repeated factor modulo p;
    otherwise it never returns. *)
Theorem C109_repeated : forall f f' d p, prime p -> gcd_arg p f -> f <> [] -> derivative_x f = Ok f' -> modular_assign f' p = Ok d -> d <> [] ->
  (has_square_factor p f <-> exists fuel g, p_gcd fuel f d p = Ok g) /\
  (~ has_square_factor p f -> forall fuel, p_gcd fuel f d p = NoFuel).
Proof. exact c109_repeated. Qed.
Print Assumptions C109_repeated.
(** C109: if the derivative vanishes modulo p (and f is not constant) then f has a repeated factor too, but gcd(f, d) never returns. *)
Theorem C109_zero_derivative : forall f f' p, prime p -> gcd_arg p f -> 1 <= mx (tm (highest_term_x f)) -> derivative_x f = Ok f' -> modular_assign f' p = Ok [] ->
  has_square_factor p f /\ forall fuel, p_gcd fuel f [] p = NoFuel.
Proof. exact c109_zero_derivative. Qed.
Print Assumptions C109_zero_derivative.
(** C109: when it returns, the roots of the result are exactly the multiple roots of f. *)
Theorem C109_multiple_roots : forall fuel f f' d p g r, prime p -> gcd_arg p f -> derivative_x f = Ok f' -> modular_assign f' p = Ok d ->
  p_gcd fuel f d p = Ok g ->
  ((p | fval r 0 g) <-> exists k, only_x k /\ feqm p f (conv (conv [(mone, - r); (mkMono 1 0 0 None, 1)] [(mone, - r); (mkMono 1 0 0 None, 1)]) k)).
Proof. exact c109_multiple_roots. Qed.
Print Assumptions C109_multiple_roots.
(** C109: for the cubic of a curve, p > 3: gcd of (x^3 + a x + b) mod p with its derivative mod p returns exactly when the curve is singular. *)
Theorem C109_cubic : forall a b p f f' d, prime p -> 3 < p -> modular_assign (weierstrass a b) p = Ok f -> derivative_x f = Ok f' -> modular_assign f' p = Ok d ->
  ((p | 4 * a ^ 3 + 27 * b ^ 2) <-> exists fuel g, p_gcd fuel f d p = Ok g).
Proof. exact c109_cubic. Qed.
Print Assumptions C109_cubic.
Example C109_case : (* (x+1)^2 (x+3) and (x+1)(x+3), modulo 5 *)
  let f := [(mone, 3); (mkMono 1 0 0 None, 2); (mkMono 3 0 0 None, 1)] in
  derivative_x f = Ok [(mone, 2); (mkMono 2 0 0 None, 3)] /\ gcd_arg 5 f /\ p_gcd 9 f [(mone, 2); (mkMono 2 0 0 None, 3)] 5 = Ok [(mone, 1); (mkMono 1 0 0 None, 1)].
Proof. exact c109_case. Qed.
