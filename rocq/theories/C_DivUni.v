(** Division polynomials: divisibility, dependence on the coefficients modulo p, weights (C113-C115). *)
From Coq Require Import Znumtheory ZifyBool Setoid Morphisms Ring.
From Verif Require Import Prelude M_Bigint M_Variable M_Term M_Poly M_DivPoly Spec P_Bigint P_Variable P_FSum P_Poly P_Rem P_PolyProps P_Subst P_Subst2 P_Subst3 P_SubstProps P_DivPoly P_DivPoly2 P_DivPoly3 P_DivPoly4 P_DivProps P_NormalProps P_Eds2 P_DivVal P_GcdProps P_XQuotProps P_DivUni P_DivUni2 P_DivUni3.
From Verif Require Import P_DivUniProps.
Open Scope Z_scope.

(** C113: the elliptic divisibility relation
      psi(M+N) psi(M-N) = psi(M+1) psi(M-1) psi(N)^2 - psi(N+1) psi(N-1) psi(M)^2
    holds modulo the curve equation, over the integers, for all M >= N >= 1 with M + N <= 65536. *)
Theorem C113_eds : forall a b M N, 1 <= N <= M -> M + N <= 65536 ->
  exists s d m1 m2 m n1 n2 n, psi a b (M + N) = Ok s /\ psi a b (M - N) = Ok d /\ psi a b (M + 1) = Ok m1 /\ psi a b (M - 1) = Ok m2 /\ psi a b M = Ok m /\
    psi a b (N + 1) = Ok n1 /\ psi a b (N - 1) = Ok n2 /\ psi a b N = Ok n /\
    cong_ideal 0 (fcurve a b) (conv s d) (fsub (conv (conv m1 m2) (fpow n 2)) (conv (conv n1 n2) (fpow m 2))).
Proof. exact c113_eds. Qed.
Print Assumptions C113_eds.
(** C113: if m divides n then the polynomial psi(m) divides psi(n): the quotient has integer coefficients and y-degree at most 1. *)
Theorem C113_divides : forall a b m n r s, 1 <= m -> (m | n) -> 1 <= n <= 65536 -> psi a b m = Ok r -> psi a b n = Ok s ->
  exists g, (forall k c, In (k, c) g -> 0 <= mx k /\ 0 <= my k <= 1 /\ mq k = 0 /\ mv k = None) /\ feq s (conv r g).
Proof. exact c113_divides. Qed.
Print Assumptions C113_divides.
(** C113: consequently, reducing psi(n) by an odd psi(m) with m | n, modulo a prime not dividing m, leaves remainder 0. *)
Theorem C113_remainder : forall a b p m n r s, prime p -> 3 <= m -> Z.odd m = true -> ~ (p | m) -> (m | n) -> 1 <= n <= 65536 ->
  psi a b m = Ok r -> psi a b n = Ok s -> exists fuel, polynomial_modular fuel s r p = Ok [].
Proof. exact c113_remainder. Qed.
Print Assumptions C113_remainder.
Example C113_case : exists r s fuel, psi 2 3 3 = Ok r /\ psi 2 3 6 = Ok s /\ polynomial_modular fuel s r 7 = Ok [] /\ mx (tm (highest_term_x r)) = 4 /\ mx (tm (highest_term_x s)) = 16.
Proof. exact c113_case. Qed.
(** C114: modulo any p > 0, psi(n) depends only on the residues of a and b: the reductions are the same map. *)
Theorem C114_psi : forall p a b a' b' n, 0 < p -> (p | a - a') -> (p | b - b') -> 0 <= n <= 65536 ->
  exists r r' u, psi a b n = Ok r /\ psi a' b' n = Ok r' /\ p_rem r p = Ok u /\ p_rem r' p = Ok u.
Proof. exact c114_psi. Qed.
Print Assumptions C114_psi.
(** C114: the same for phi. *)
Theorem C114_phi : forall p a b a' b' n, 0 < p -> (p | a - a') -> (p | b - b') -> 1 <= n <= 46340 ->
  exists r r' u, phi a b n = Ok r /\ phi a' b' n = Ok r' /\ p_rem r p = Ok u /\ p_rem r' p = Ok u.
Proof. exact c114_phi. Qed.
Print Assumptions C114_phi.
(** C114: the same for omega, modulo any odd p. *)
Theorem C114_omega : forall p a b a' b' n, 0 < p -> Z.odd p = true -> (p | a - a') -> (p | b - b') -> 1 <= n <= 37837 ->
  exists r r' u, omega a b n = Ok r /\ omega a' b' n = Ok r' /\ p_rem r p = Ok u /\ p_rem r' p = Ok u.
Proof. exact c114_omega. Qed.
Print Assumptions C114_omega.
Example C114_case : exists r r' u, psi 2 3 5 = Ok r /\ psi (-5) 10 5 = Ok r' /\ r <> r' /\ p_rem r 7 = Ok u /\ p_rem r' 7 = Ok u.
Proof. exact c114_case. Qed.
Example C114_case2 : exists r r' u, omega 2 3 2 = Ok r /\ omega (-5) 10 2 = Ok r' /\ r <> r' /\ p_rem r 7 = Ok u /\ p_rem r' 7 = Ok u.
Proof. exact c114_case2. Qed.
(** C115: psi(n) is isobaric of weight n^2 - 1: passing to the isomorphic curve (t^4 a, t^6 b) and the point (t^2 x, t^3 y)
    multiplies its value by t^(n^2-1). *)
Theorem C115_psi : forall a b x y t n, t <> 0 -> 1 <= n <= 65536 -> exists r r' v, psi a b n = Ok r /\ psi (t ^ 4 * a) (t ^ 6 * b) n = Ok r' /\
  eval_xy r x y = Ok v /\ eval_xy r' (t ^ 2 * x) (t ^ 3 * y) = Ok (t ^ (n ^ 2 - 1) * v).
Proof. exact c115_psi. Qed.
Print Assumptions C115_psi.
(** C115: phi(n) is isobaric of weight 2 n^2. *)
Theorem C115_phi : forall a b x y t n, t <> 0 -> 1 <= n <= 46340 -> exists r r' v, phi a b n = Ok r /\ phi (t ^ 4 * a) (t ^ 6 * b) n = Ok r' /\
  eval_xy r x y = Ok v /\ eval_xy r' (t ^ 2 * x) (t ^ 3 * y) = Ok (t ^ (2 * n ^ 2) * v).
Proof. exact c115_phi. Qed.
Print Assumptions C115_phi.
(** C115: omega(n) is isobaric of weight 3 n^2. *)
Theorem C115_omega : forall a b x y t n, t <> 0 -> 1 <= n <= 37837 -> exists r r' v, omega a b n = Ok r /\ omega (t ^ 4 * a) (t ^ 6 * b) n = Ok r' /\
  eval_xy r x y = Ok v /\ eval_xy r' (t ^ 2 * x) (t ^ 3 * y) = Ok (t ^ (3 * n ^ 2) * v).
Proof. exact c115_omega. Qed.
Print Assumptions C115_omega.
Example C115_case : exists r r', psi 2 3 3 = Ok r /\ psi 32 192 3 = Ok r' /\ eval_xy r 5 0 = Ok 2351 /\ eval_xy r' 20 0 = Ok (2 ^ 8 * 2351).
Proof. exact c115_case. Qed.
