(** C99: counting roots by the gcd with x^p - x *)
From Coq Require Import Znumtheory ZifyBool Setoid Morphisms Ring.
From Verif Require Import Prelude M_Bigint M_Variable M_Term M_Poly Spec P_Bigint P_Variable P_FSum P_Poly P_Rem P_PolyProps P_Subst P_Subst2 P_Subst3 P_Mod P_Gcd P_Gcd2 P_Roots.
From Verif Require Import P_RootProps.
Open Scope Z_scope.

(** C99: for f in x with leading coefficient prime to p, whenever gcd(f, x^p - x) (in either order) returns g: g is monic, its degree is the
    number of roots of f in GF(p), and the roots of g are those of f. *)
Theorem C99_count : forall fuel p f g u v, prime p -> p <= i32_max -> sorted f -> only_x f -> i32_poly f -> f <> [] -> ~ (p | tc (highest_term_x f)) ->
  let d := [(mkMono 1 0 0 None, -1); (mkMono p 0 0 None, 1)] in (u, v) = (f, d) \/ (u, v) = (d, f) -> p_gcd fuel u v p = Ok g ->
  tc (highest_term_x g) = 1 /\ mx (tm (highest_term_x g)) = Z.of_nat (length (filter (fun x => fval x 0 f mod p =? 0) (zrange 0 p))) /\
  forall x, (p | fval x 0 g) <-> (p | fval x 0 f).
Proof. exact c99_count. Qed.
Print Assumptions C99_count.
(** C99: it returns exactly when f has a root, and runs forever otherwise. *)
Theorem C99_returns : forall p f u v, prime p -> p <= i32_max -> sorted f -> only_x f -> i32_poly f -> f <> [] -> ~ (p | tc (highest_term_x f)) ->
  let d := [(mkMono 1 0 0 None, -1); (mkMono p 0 0 None, 1)] in (u, v) = (f, d) \/ (u, v) = (d, f) ->
  ((exists x, 0 <= x < p /\ (p | fval x 0 f)) <-> exists fuel g, p_gcd fuel u v p = Ok g) /\
  (~ (exists x, 0 <= x < p /\ (p | fval x 0 f)) -> forall fuel, p_gcd fuel u v p = NoFuel).
Proof. exact c99_returns. Qed.
Print Assumptions C99_returns.
Example C99_case : let f := [(mkMono 0 0 0 None, 1); (mkMono 2 0 0 None, 1)] in
  p_gcd 9 f [(mkMono 1 0 0 None, -1); (mkMono 5 0 0 None, 1)] 5 = Ok f /\ filter (fun x => fval x 0 f mod 5 =? 0) (zrange 0 5) = [2; 3] /\ prime 5.
Proof. exact c99_case. Qed.
