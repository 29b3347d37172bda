(** C39-C43: divisor sums, Eisenstein series, Delta and the j-invariant. *)
From Coq Require Import Znumtheory.
From Verif Require Import Prelude M_Bigint M_Variable M_Term M_Poly M_QSeries Spec P_Bigint P_Variable P_FSum P_Poly P_Subst P_Subst2 P_Subst3 P_Mod P_Q.
From Verif Require Import P_QProps.
Open Scope Z_scope.

(** C39: the divisor power sum. *)
Theorem C39_sigma : forall n k, 0 <= k -> 0 <= n < i32_max -> sigma_divisor n k = Ok (sigma k n).
Proof. exact c39_sigma. Qed.
Print Assumptions C39_sigma.
(** C39: negative arguments. *)
Theorem C39_negative : forall n k, n < 0 \/ k < 0 -> sigma_divisor n k = Ok 0.
Proof. exact c39_negative. Qed.
Print Assumptions C39_negative.
(** C39: what the specification's sum ranges over: exactly the positive divisors of n, each once. *)
Theorem C39_divisors : forall n, 0 < n -> NoDup (upto n) /\ (forall d, In d (upto n) /\ n mod d = 0 <-> 0 < d /\ (d | n)).
Proof. exact c39_divisors. Qed.
Print Assumptions C39_divisors.
Example C39_case : sigma_divisor 12 3 = Ok 2044 /\ sigma 3 12 = 1 ^ 3 + 2 ^ 3 + 3 ^ 3 + 4 ^ 3 + 6 ^ 3 + 12 ^ 3.
Proof. exact c39_case. Qed.
(** C40: coefficient 1 at q^0, 240 sigma_3(n) at q^n, nothing else. *)
Theorem C40_eisenstein : forall N, 0 <= N < i32_max -> exists e, eisenstein4 N = Ok e /\ sorted e /\ no_zero e /\
  coef e (qmono 0) = 1 /\ (forall n, 1 <= n <= N -> coef e (qmono n) = 240 * sigma 3 n) /\
  (forall m c, In (m, c) e -> exists n, 0 <= n <= N /\ m = qmono n).
Proof. exact c40_eisenstein. Qed.
Print Assumptions C40_eisenstein.
Example C40_case : eisenstein4 2 = Ok [(qmono 0, 1); (qmono 1, 240); (qmono 2, 2160)] /\ 0 <= 2 < i32_max.
Proof. exact c40_case. Qed.
(** C41: the truncated product. *)
Theorem C41_delta : forall N, 0 <= N -> 2 * N + 1 <= i32_max -> exists d, delta1 N = Ok d /\ sorted d /\
  feq_upto N d (eta_product N) /\ (forall m c, In (m, c) d -> exists n, 0 <= n <= N /\ m = qmono n).
Proof. exact c41_delta. Qed.
Print Assumptions C41_delta.
(** C41: no later factor changes an order already computed. *)
Theorem C41_stable : forall N M d d', 0 <= N <= M -> 2 * M + 1 <= i32_max -> delta1 N = Ok d -> delta1 M = Ok d' -> feq_upto N d d'.
Proof. exact c41_stable. Qed.
Print Assumptions C41_stable.
Example C41_case : delta1 2 = Ok [(qmono 0, 1); (qmono 1, -24); (qmono 2, 252)].
Proof. exact c41_case. Qed.
(** C42: the inverse series. *)
Theorem C42_inverse : forall N, 0 <= N -> 2 * N + 1 <= i32_max -> exists d i, delta1 N = Ok d /\ delta1_inverse N = Ok i /\ sorted i /\
  feq_upto N (conv i d) (fconst 1) /\ (forall m c, In (m, c) i -> exists n, 0 <= n <= N /\ m = qmono n).
Proof. exact c42_inverse. Qed.
Print Assumptions C42_inverse.
Example C42_case : delta1_inverse 2 = Ok [(qmono 0, 1); (qmono 1, 24); (qmono 2, 324)].
Proof. exact c42_case. Qed.
(** C43: j1 Delta = E4^3. *)
Theorem C43_j1 : forall N, 0 <= N -> 3 * N + 1 <= i32_max -> exists e d r, eisenstein4 N = Ok e /\ delta1 N = Ok d /\ j_invariant1 N = Ok r /\ sorted r /\
  feq_upto N (conv r d) (fpow e 3) /\ (forall m c, In (m, c) r -> exists n, 0 <= n <= N /\ m = qmono n).
Proof. exact c43_j1. Qed.
Print Assumptions C43_j1.
(** C43: j is j1 shifted by q^-1, and starts with q^-1. *)
Theorem C43_j : forall N, -1 <= N -> 3 * (N + 1) + 1 <= i32_max -> exists r j, j_invariant1 (N + 1) = Ok r /\ j_invariant N = Ok j /\ sorted j /\
  (forall n, coef j (qmono n) = coef r (qmono (n + 1))) /\ coef j (qmono (-1)) = 1 /\
  (forall m c, In (m, c) j -> exists n, -1 <= n <= N /\ m = qmono n).
Proof. exact c43_j. Qed.
Print Assumptions C43_j.
(** C43: raising the order never changes a coefficient already computed. *)
Theorem C43_stable : forall N M r s, 0 <= N <= M -> 3 * M + 1 <= i32_max -> j_invariant1 N = Ok r -> j_invariant1 M = Ok s -> feq_upto N r s.
Proof. exact c43_stable. Qed.
Print Assumptions C43_stable.
Theorem C43_j_stable : forall N M r s, -1 <= N <= M -> 3 * (M + 1) + 1 <= i32_max -> j_invariant N = Ok r -> j_invariant M = Ok s -> feq_upto N r s.
Proof. exact c43_j_stable. Qed.
Print Assumptions C43_j_stable.
Example C43_case : j_invariant 1 = Ok [(qmono (-1), 1); (qmono 0, 744); (qmono 1, 196884)].
Proof. exact c43_case. Qed.
