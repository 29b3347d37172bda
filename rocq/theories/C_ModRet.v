(** C103 - C105: exactly when modular_polynomial, the q-series of j and sea return; positivity of the coefficients of j. *)
From Coq Require Import Znumtheory ZifyBool.
From Verif Require Import Prelude M_Bigint M_Variable M_Term M_Poly M_QSeries M_Solve M_Curve M_Modular Spec SpecCurve P_Bigint P_Variable P_FSum P_Poly P_QProps P_Q P_Modular P_Modular2 P_CurveProps P_Sea P_SeaProps P_JPos P_ModRet P_ModRet2 P_ModRet3.
From Verif Require Import P_ModRetProps.
Open Scope Z_scope.

(** C103: modular_polynomial(p) returns for the primes up to 211 and panics for every other p (for larger primes an i32
    exponent of q overflows). *)
Theorem C103_returns : forall p, (prime p /\ p <= 211 <-> exists Phi, modular_polynomial p = Ok Phi) /\ (~ (prime p /\ p <= 211) <-> modular_polynomial p = Panic).
Proof. exact c103_returns. Qed.
Print Assumptions C103_returns.
(** C103: the list of equations (subscripted_variable_modular_polynomial_list) exists in the same range. *)
Theorem C103_list : forall p, (prime p /\ p <= 211 <-> exists L, modular_template_list p = Ok L) /\ (~ (prime p /\ p <= 211) <-> modular_template_list p = Panic).
Proof. exact c103_list. Qed.
Print Assumptions C103_list.
Example C103_case : (exists Phi, modular_polynomial 5 = Ok Phi) /\ (exists Phi, modular_polynomial 211 = Ok Phi) /\ modular_polynomial 223 = Panic /\ modular_polynomial 4 = Panic.
Proof. exact c103_case. Qed.
(** C104: j_invariant1(N), N >= 0, returns exactly for 3 N <= i32::MAX, j_invariant(N), N >= -1, exactly for 3 (N+1) <= i32::MAX. *)
Theorem C104_j1_returns : forall N, 0 <= N -> (3 * N <= i32_max <-> exists r, j_invariant1 N = Ok r) /\ (i32_max < 3 * N <-> j_invariant1 N = Panic).
Proof. exact c104_j1_returns. Qed.
Print Assumptions C104_j1_returns.
Theorem C104_j_returns : forall N, -1 <= N -> (3 * (N + 1) <= i32_max <-> exists J, j_invariant N = Ok J) /\ (i32_max < 3 * (N + 1) <-> j_invariant N = Panic).
Proof. exact c104_j_returns. Qed.
Print Assumptions C104_j_returns.
(** C104: all coefficients of j and of 1/Delta (up to the requested order) are positive: no term is missing. *)
Theorem C104_j_positive : forall N J, -1 <= N -> j_invariant N = Ok J -> forall n, -1 <= n <= N -> 1 <= coef J (qmono n).
Proof. exact c104_j_positive. Qed.
Print Assumptions C104_j_positive.
Theorem C104_j1_positive : forall N r, 0 <= N -> j_invariant1 N = Ok r -> forall n, 0 <= n <= N -> 1 <= coef r (qmono n).
Proof. exact c104_j1_positive. Qed.
Print Assumptions C104_j1_positive.
Theorem C104_inverse_positive : forall N i, 0 <= N -> 2 * N + 1 <= i32_max -> delta1_inverse N = Ok i -> forall n, 0 <= n <= N -> 1 <= coef i (qmono n).
Proof. exact c104_inverse_positive. Qed.
Print Assumptions C104_inverse_positive.
Example C104_case : j_invariant 1 = Ok [(qmono (-1), 1); (qmono 0, 744); (qmono 1, 196884)] /\ 3 * 715827882 <= i32_max /\ j_invariant1 715827883 = Panic.
Proof. exact c104_case. Qed.
(** C105: what sea(E, l) does, for every elliptic curve over a prime p that fits an i32 and every l: it panics unless l is a
    prime up to 211; otherwise it returns if Phi_l(x, j(E)) has a root modulo p and runs forever if it has none. *)
Theorem C105_sea : forall a b p E l, prime p -> nonsingular a b p -> p <= i32_max -> curve_of a b p E ->
  (~ (prime l /\ l <= 211) -> forall fuel, sea fuel E l = Panic) /\
  (prime l -> l <= 211 -> exists Phi j, modular_polynomial l = Ok Phi /\ ec_j_invariant E = Ok j /\
     ((exists x, 0 <= x < p /\ (p | fval x j Phi)) -> exists fuel R, sea fuel E l = Ok R) /\
     (~ (exists x, 0 <= x < p /\ (p | fval x j Phi)) -> forall fuel, sea fuel E l = NoFuel)).
Proof. exact c105_sea. Qed.
Print Assumptions C105_sea.
Example C105_case : prime 5 /\ nonsingular 1 1 5 /\ curve_of 1 1 5 (new_raw 1 1 5) /\ (forall fuel, sea fuel (new_raw 1 1 5) 4 = Panic) /\ forall fuel, sea fuel (new_raw 1 1 5) 223 = Panic.
Proof. exact c105_case. Qed.
