(** Property theorem C107 (src/polynomial.rs: polynomial_modular). *)
From Coq Require Import Znumtheory ZifyBool Setoid Morphisms Ring.
From Verif Require Import Prelude M_Bigint M_Variable M_Term M_Poly Spec P_Bigint P_Variable P_FSum P_Poly P_Rem P_PolyProps P_Subst P_Subst2 P_Subst3 P_Mod P_Gcd P_Gcd2 P_XQuot.
From Verif Require Import P_XQuotProps.
Open Scope Z_scope.

(** C107: two dividends without negative powers of x (they may contain y and q) have the same remainder exactly when they
    differ by a multiple of the divisor modulo p. *)
Theorem C107_decides : forall fuel fuel' a b d p r s, prime p -> sorted a -> sorted b ->
  (forall m c, In (m, c) a -> 0 <= mx m) -> (forall m c, In (m, c) b -> 0 <= mx m) ->
  sorted d -> only_x d -> 1 <= mx (tm (highest_term_x d)) -> ~ (p | tc (highest_term_x d)) ->
  polynomial_modular fuel a d p = Ok r -> polynomial_modular fuel' b d p = Ok s ->
  (r = s <-> exists k, (forall m c, In (m, c) k -> 0 <= mx m) /\ feqm p a (fadd b (conv d k))).
Proof. exact c107_decides. Qed.
Print Assumptions C107_decides.
(** C107: for polynomials in x only: the same remainder exactly when the divisor divides the difference. *)
Theorem C107_divides : forall fuel fuel' a b d p r s, prime p -> sorted a -> sorted b -> only_x a -> only_x b ->
  sorted d -> only_x d -> 1 <= mx (tm (highest_term_x d)) -> ~ (p | tc (highest_term_x d)) ->
  polynomial_modular fuel a d p = Ok r -> polynomial_modular fuel' b d p = Ok s ->
  (r = s <-> fdivides p d (fsub a b)).
Proof. exact c107_divides. Qed.
Print Assumptions C107_divides.
(** C107: the remainder is zero exactly when the divisor divides the dividend. *)
Theorem C107_zero : forall fuel a d p r, prime p -> sorted a -> only_x a ->
  sorted d -> only_x d -> 1 <= mx (tm (highest_term_x d)) -> ~ (p | tc (highest_term_x d)) ->
  polynomial_modular fuel a d p = Ok r -> (is_zero r = true <-> fdivides p d a).
Proof. exact c107_zero. Qed.
Print Assumptions C107_zero.
(** C107: reducing before an addition, a subtraction or a multiplication does not change the remainder of the result. *)
Theorem C107_add : forall f1 f2 f3 f4 a b r s t u d p, prime p -> sorted a -> sorted b ->
  (forall m c, In (m, c) a -> 0 <= mx m) -> (forall m c, In (m, c) b -> 0 <= mx m) ->
  sorted d -> only_x d -> 1 <= mx (tm (highest_term_x d)) -> ~ (p | tc (highest_term_x d)) ->
  polynomial_modular f1 a d p = Ok r -> polynomial_modular f2 b d p = Ok s ->
  polynomial_modular f3 (p_add a b) d p = Ok t -> polynomial_modular f4 (p_add r s) d p = Ok u -> t = u.
Proof. exact c107_add. Qed.
Print Assumptions C107_add.
Theorem C107_sub : forall f1 f2 f3 f4 a b r s t u d p, prime p -> sorted a -> sorted b ->
  (forall m c, In (m, c) a -> 0 <= mx m) -> (forall m c, In (m, c) b -> 0 <= mx m) ->
  sorted d -> only_x d -> 1 <= mx (tm (highest_term_x d)) -> ~ (p | tc (highest_term_x d)) ->
  polynomial_modular f1 a d p = Ok r -> polynomial_modular f2 b d p = Ok s ->
  polynomial_modular f3 (p_sub a b) d p = Ok t -> polynomial_modular f4 (p_sub r s) d p = Ok u -> t = u.
Proof. exact c107_sub. Qed.
Print Assumptions C107_sub.
Theorem C107_mul : forall f1 f2 f3 f4 a b r s m n t u d p, prime p -> sorted a -> sorted b ->
  (forall m c, In (m, c) a -> 0 <= mx m) -> (forall m c, In (m, c) b -> 0 <= mx m) ->
  sorted d -> only_x d -> 1 <= mx (tm (highest_term_x d)) -> ~ (p | tc (highest_term_x d)) ->
  polynomial_modular f1 a d p = Ok r -> polynomial_modular f2 b d p = Ok s ->
  p_mul a b = Ok m -> p_mul r s = Ok n ->
  polynomial_modular f3 m d p = Ok t -> polynomial_modular f4 n d p = Ok u -> t = u.
Proof. exact c107_mul. Qed.
Print Assumptions C107_mul.
(** C107: a remainder is its own remainder. *)
Theorem C107_idempotent : forall fuel fuel' a d p r, prime p -> sorted a -> sorted d -> only_x d -> 1 <= mx (tm (highest_term_x d)) ->
  polynomial_modular fuel a d p = Ok r -> polynomial_modular fuel' r d p = Ok r.
Proof. exact c107_idempotent. Qed.
Print Assumptions C107_idempotent.
Example C107_case : let a := [(mkMono 0 1 0 None, 3); (mkMono 2 1 0 None, 1)] in let b := [(mkMono 0 1 0 None, 3); (mkMono 1 1 0 None, 1); (mkMono 2 1 0 None, 3); (mkMono 3 1 0 None, 3)] in
  let d := [(mone, 1); (mkMono 1 0 0 None, 2); (mkMono 2 0 0 None, 3)] in
  sorted a /\ sorted b /\ sorted d /\ only_x d /\ 1 <= mx (tm (highest_term_x d)) /\
  polynomial_modular 5 a d 7 = Ok [(mkMono 0 1 0 None, 5); (mkMono 1 1 0 None, 4)] /\
  polynomial_modular 5 b d 7 = Ok [(mkMono 0 1 0 None, 5); (mkMono 1 1 0 None, 4)].
Proof. exact c107_case. Qed.
