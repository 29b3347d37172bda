(** C103 - C105: exactly when modular_polynomial, the q-series and sea return; positivity of the q-series. *)
From Coq Require Import Znumtheory ZifyBool.
From Verif Require Import Prelude M_Bigint M_Variable M_Term M_Poly M_QSeries M_Solve M_Curve M_Modular Spec SpecCurve P_Bigint P_Variable P_FSum P_Poly P_QProps P_Q P_Modular P_Modular2 P_CurveProps P_Sea P_SeaProps P_JPos P_ModRet P_ModRet2 P_ModRet3.
Open Scope Z_scope.

(** C103: modular_polynomial(p) returns for the primes up to 211 and panics for every other p (for larger primes an i32
    exponent of q overflows). *)
Lemma c103_returns : forall p, (prime p /\ p <= 211 <-> exists Phi, modular_polynomial p = Ok Phi) /\ (~ (prime p /\ p <= 211) <-> modular_polynomial p = Panic).
Proof.
  intros p. assert (A : prime p /\ p <= 211 -> exists Phi, modular_polynomial p = Ok Phi) by (intros (P & L); apply modular_returns; [exact P|apply proom_211; assumption]).
  assert (B : forall Phi, modular_polynomial p = Ok Phi -> prime p /\ p <= 211) by (intros Phi H; destruct (modular_inv p Phi H) as (P & _); split; [exact P|]; apply proom_211; [exact P|exact (modular_range p Phi H)]).
  split; split.
  - exact A.
  - intros (Phi & H). exact (B Phi H).
  - intros N. apply modular_panics. intros (P & R). apply N. split; [exact P|]. apply proom_211; assumption.
  - intros E N. destruct (A N) as (Phi & H). congruence.
Qed.
(** C103: the list of equations (subscripted_variable_modular_polynomial_list) exists in the same range. *)
Lemma c103_list : forall p, (prime p /\ p <= 211 <-> exists L, modular_template_list p = Ok L) /\ (~ (prime p /\ p <= 211) <-> modular_template_list p = Panic).
Proof.
  intros p. assert (A : prime p /\ p <= 211 -> exists L, modular_template_list p = Ok L) by (intros (P & L); apply template_list_returns; [exact P|apply proom_211; assumption]).
  split; split.
  - exact A.
  - intros (L & H). destruct (template_list_bound p L H) as (P & _). split; [exact P|]. apply proom_211; [exact P|exact (list_range p L H)].
  - intros N. apply list_panics. intros (P & R). apply N. split; [exact P|]. apply proom_211; assumption.
  - intros E N. destruct (A N) as (L & H). congruence.
Qed.
Example c103_case : (exists Phi, modular_polynomial 5 = Ok Phi) /\ (exists Phi, modular_polynomial 211 = Ok Phi) /\ modular_polynomial 223 = Panic /\ modular_polynomial 4 = Panic.
Proof.
  split; [apply c103_returns; split; [apply is_prime_spec; reflexivity|lia]|]. split; [apply c103_returns; split; [apply is_prime_spec; reflexivity|lia]|].
  split; apply c103_returns; intros (P & L); [lia|]. apply is_prime_spec in P. discriminate.
Qed.
(** C104: j_invariant1(N), N >= 0, returns exactly for 3 N <= i32::MAX, j_invariant(N), N >= -1, exactly for 3 (N+1) <= i32::MAX. *)
Lemma c104_j1_returns : forall N, 0 <= N -> (3 * N <= i32_max <-> exists r, j_invariant1 N = Ok r) /\ (i32_max < 3 * N <-> j_invariant1 N = Panic).
Proof.
  intros N HN. assert (A : 3 * N <= i32_max -> exists r, j_invariant1 N = Ok r).
  { intros H. destruct (j1_spec N HN ltac:(unfold i32_max in *; lia)) as (e & d & i & r & _ & _ & _ & Er & _). exists r. exact Er. }
  assert (B : forall r, j_invariant1 N = Ok r -> 3 * N <= i32_max) by (intros r H; pose proof (j1_range N r HN H); lia).
  split; split; [exact A|intros (r & H); exact (B r H)| |].
  - intros H. pose proof (nf_j1 N) as F. destruct (j_invariant1 N) as [r| |] eqn:E; [specialize (B r eq_refl); lia|reflexivity|contradiction].
  - intros E. destruct (Z.le_gt_cases (3 * N) i32_max) as [L|L]; [|exact L]. destruct (A L) as (r & H). congruence.
Qed.
Lemma c104_j_returns : forall N, -1 <= N -> (3 * (N + 1) <= i32_max <-> exists J, j_invariant N = Ok J) /\ (i32_max < 3 * (N + 1) <-> j_invariant N = Panic).
Proof.
  intros N HN. assert (A : 3 * (N + 1) <= i32_max -> exists J, j_invariant N = Ok J).
  { intros H. destruct (j_spec N HN ltac:(unfold i32_max in *; lia)) as (r & J & _ & EJ & _). exists J. exact EJ. }
  assert (B : forall J, j_invariant N = Ok J -> 3 * (N + 1) <= i32_max) by (intros J H; pose proof (j_range N J HN H); lia).
  split; split; [exact A|intros (r & H); exact (B r H)| |].
  - intros H. pose proof (nf_j N) as F. destruct (j_invariant N) as [r| |] eqn:E; [specialize (B r eq_refl); lia|reflexivity|contradiction].
  - intros E. destruct (Z.le_gt_cases (3 * (N + 1)) i32_max) as [L|L]; [|exact L]. destruct (A L) as (r & H). congruence.
Qed.
(** C104: all coefficients of j and of 1/Delta (up to the requested order) are positive: no term is missing. *)
Lemma c104_j_positive : forall N J, -1 <= N -> j_invariant N = Ok J -> forall n, -1 <= n <= N -> 1 <= coef J (qmono n).
Proof. intros N J HN H. apply (j_pos N J HN H). Qed.
Lemma c104_j1_positive : forall N r, 0 <= N -> j_invariant1 N = Ok r -> forall n, 0 <= n <= N -> 1 <= coef r (qmono n).
Proof. intros N r HN H n Hn. apply (j1_pos N r n HN (j1_range N r HN H) H Hn). Qed.
Lemma c104_inverse_positive : forall N i, 0 <= N -> 2 * N + 1 <= i32_max -> delta1_inverse N = Ok i -> forall n, 0 <= n <= N -> 1 <= coef i (qmono n).
Proof. intros N i HN B H n Hn. exact (inverse_coef_pos N i n HN B H Hn). Qed.
Example c104_case : j_invariant 1 = Ok [(qmono (-1), 1); (qmono 0, 744); (qmono 1, 196884)] /\ 3 * 715827882 <= i32_max /\ j_invariant1 715827883 = Panic.
Proof. split; [vm_compute; reflexivity|]. split; [unfold i32_max; lia|]. apply (proj2 (c104_j1_returns 715827883 ltac:(lia))). unfold i32_max. lia. Qed.
(** C105: what sea(E, l) does, for every elliptic curve over a prime p that fits an i32 and every l: it panics unless l is a
    prime up to 211; otherwise it returns if Phi_l(x, j(E)) has a root modulo p and runs forever if it has none. *)
Lemma c105_sea : forall a b p E l, prime p -> nonsingular a b p -> p <= i32_max -> curve_of a b p E ->
  (~ (prime l /\ l <= 211) -> forall fuel, sea fuel E l = Panic) /\
  (prime l -> l <= 211 -> exists Phi j, modular_polynomial l = Ok Phi /\ ec_j_invariant E = Ok j /\
     ((exists x, 0 <= x < p /\ (p | fval x j Phi)) -> exists fuel R, sea fuel E l = Ok R) /\
     (~ (exists x, 0 <= x < p /\ (p | fval x j Phi)) -> forall fuel, sea fuel E l = NoFuel)).
Proof.
  intros a b p E l Pp NS Bp HC. split.
  - intros N fuel. unfold sea. rewrite (proj1 (proj2 (c103_returns l)) N). reflexivity.
  - intros Pl Ll. destruct (proj1 (proj1 (c103_returns l)) (conj Pl Ll)) as (Phi & EP). destruct (c66_j_value a b p E Pp NS HC) as (j & Ej & _). exists Phi, j. split; [exact EP|]. split; [exact Ej|].
    destruct (c71_atkin_partial a b p E l Phi j Pp NS Bp HC EP Ej) as (A & B). split; [apply A|exact B].
Qed.
Example c105_case : prime 5 /\ nonsingular 1 1 5 /\ curve_of 1 1 5 (new_raw 1 1 5) /\ (forall fuel, sea fuel (new_raw 1 1 5) 4 = Panic) /\ forall fuel, sea fuel (new_raw 1 1 5) 223 = Panic.
Proof.
  assert (P5 : prime 5) by (apply is_prime_spec; reflexivity). assert (N5 : nonsingular 1 1 5) by (intros (z & D); lia). assert (C5 : curve_of 1 1 5 (new_raw 1 1 5)) by (left; reflexivity).
  do 3 (split; [assumption|]). split; apply (c105_sea 1 1 5 _ _ P5 N5 ltac:(unfold i32_max; lia) C5); intros (P & L); [apply is_prime_spec in P; discriminate|lia].
Qed.
