(** Properties C39-C43: divisor sums, Eisenstein series, Delta and j. *)
From Coq Require Import Znumtheory.
From Verif Require Import Prelude M_Bigint M_Variable M_Term M_Poly M_QSeries Spec P_Bigint P_Variable P_FSum P_Poly P_Subst P_Subst2 P_Subst3 P_Mod P_Q.
Open Scope Z_scope.

(** C39: the divisor power sum. *)
Lemma c39_sigma : forall n k, 0 <= k -> 0 <= n < i32_max -> sigma_divisor n k = Ok (sigma k n).
Proof. intros n k Hk Hn. apply sigma_spec; assumption. Qed.
(** C39: negative arguments. *)
Lemma c39_negative : forall n k, n < 0 \/ k < 0 -> sigma_divisor n k = Ok 0.
Proof. intros n k H. unfold sigma_divisor. destruct (k <? 0) eqn:E; [reflexivity|]. destruct (n <? 0) eqn:E'; [reflexivity|]. lia. Qed.
(** C39: what the specification's sum ranges over: exactly the positive divisors of n, each once. *)
Lemma c39_divisors : forall n, 0 < n -> NoDup (upto n) /\ (forall d, In d (upto n) /\ n mod d = 0 <-> 0 < d /\ (d | n)).
Proof.
  intros n Hn. split; [apply upto_NoDup|]. intros d. rewrite in_upto. split.
  - intros (H & H'). split; [lia|]. apply Z.mod_divide; [lia|exact H'].
  - intros (H & H'). split; [split; [lia|apply Z.divide_pos_le; assumption]|]. apply Z.mod_divide; [lia|exact H'].
Qed.
Example c39_case : sigma_divisor 12 3 = Ok 2044 /\ sigma 3 12 = 1 ^ 3 + 2 ^ 3 + 3 ^ 3 + 4 ^ 3 + 6 ^ 3 + 12 ^ 3.
Proof. split; reflexivity. Qed.

(** C40: coefficient 1 at q^0, 240 sigma_3(n) at q^n, nothing else. *)
Lemma c40_eisenstein : forall N, 0 <= N < i32_max -> exists e, eisenstein4 N = Ok e /\ sorted e /\ no_zero e /\
  coef e (qmono 0) = 1 /\ (forall n, 1 <= n <= N -> coef e (qmono n) = 240 * sigma 3 n) /\
  (forall m c, In (m, c) e -> exists n, 0 <= n <= N /\ m = qmono n).
Proof.
  intros N HN. destruct (eisenstein4_spec N HN) as (e & E & Se & Ze & Ke & Fe). exists e. split; [exact E|]. split; [exact Se|]. split; [exact Ze|].
  split; [|split].
  - rewrite (Fe _), (e4_coef N 0) by lia. reflexivity.
  - intros n Hn. rewrite (Fe _), (e4_coef N n) by lia. destruct (n =? 0) eqn:X; [lia|]. destruct (n <=? N) eqn:Y; [reflexivity|lia].
  - intros m c Hi. destruct (qkey_mono N m (Ke _ _ Hi)) as (X & Y). exists (mq m). auto.
Qed.
Example c40_case : eisenstein4 2 = Ok [(qmono 0, 1); (qmono 1, 240); (qmono 2, 2160)] /\ 0 <= 2 < i32_max.
Proof. split; [vm_compute; reflexivity|unfold i32_max; lia]. Qed.

(** C41: the truncated product. *)
Lemma c41_delta : forall N, 0 <= N -> 2 * N + 1 <= i32_max -> exists d, delta1 N = Ok d /\ sorted d /\
  feq_upto N d (eta_product N) /\ (forall m c, In (m, c) d -> exists n, 0 <= n <= N /\ m = qmono n).
Proof.
  intros N HN HM. destruct (delta1_spec N HN HM) as (d & E & Sd & Kd & Fd). exists d. split; [exact E|]. split; [exact Sd|]. split; [exact Fd|].
  intros m c Hi. destruct (qkey_mono N m (Kd _ _ Hi)) as (X & Y). exists (mq m). auto.
Qed.
(** C41: no later factor changes an order already computed. *)
Lemma c41_stable : forall N M d d', 0 <= N <= M -> 2 * M + 1 <= i32_max -> delta1 N = Ok d -> delta1 M = Ok d' -> feq_upto N d d'.
Proof.
  intros N M d d' H HM E E'. destruct (delta1_spec N ltac:(lia) ltac:(lia)) as (d0 & E0 & _ & _ & F). destruct (delta1_spec M ltac:(lia) ltac:(lia)) as (d1 & E1 & _ & _ & F').
  assert (d0 = d) by congruence. assert (d1 = d') by congruence. subst. rewrite F. rewrite (upto_le M N _ _ ltac:(lia) F').
  symmetry. replace M with (N + Z.of_nat (Z.to_nat (M - N))) by lia. apply eta_product_stable. lia.
Qed.
Example c41_case : delta1 2 = Ok [(qmono 0, 1); (qmono 1, -24); (qmono 2, 252)].
Proof. vm_compute. reflexivity. Qed.

(** C42: the inverse series. *)
Lemma c42_inverse : forall N, 0 <= N -> 2 * N + 1 <= i32_max -> exists d i, delta1 N = Ok d /\ delta1_inverse N = Ok i /\ sorted i /\
  feq_upto N (conv i d) (fconst 1) /\ (forall m c, In (m, c) i -> exists n, 0 <= n <= N /\ m = qmono n).
Proof.
  intros N HN HM. destruct (delta1_inverse_spec N HN HM) as (d & i & Ed & E & Sd & Kd & Fd). exists d, i. split; [exact Ed|]. split; [exact E|]. split; [exact Sd|]. split; [exact Fd|].
  intros m c Hi. destruct (qkey_mono N m (Kd _ _ Hi)) as (X & Y). exists (mq m). auto.
Qed.
Example c42_case : delta1_inverse 2 = Ok [(qmono 0, 1); (qmono 1, 24); (qmono 2, 324)].
Proof. vm_compute. reflexivity. Qed.

(** C43: j1 Delta = E4^3. *)
Lemma c43_j1 : forall N, 0 <= N -> 3 * N + 1 <= i32_max -> exists e d r, eisenstein4 N = Ok e /\ delta1 N = Ok d /\ j_invariant1 N = Ok r /\ sorted r /\
  feq_upto N (conv r d) (fpow e 3) /\ (forall m c, In (m, c) r -> exists n, 0 <= n <= N /\ m = qmono n).
Proof.
  intros N HN HM. destruct (j1_spec N HN HM) as (e & d & i & r & Ee & Ed & Ei & Er & Sr & Kr & _ & F). exists e, d, r. do 5 (split; [assumption|]).
  intros m c Hi. destruct (qkey_mono N m (Kr _ _ Hi)) as (X & Y). exists (mq m). auto.
Qed.
(** C43: j is j1 shifted by q^-1, and starts with q^-1. *)
Lemma c43_j : forall N, -1 <= N -> 3 * (N + 1) + 1 <= i32_max -> exists r j, j_invariant1 (N + 1) = Ok r /\ j_invariant N = Ok j /\ sorted j /\
  (forall n, coef j (qmono n) = coef r (qmono (n + 1))) /\ coef j (qmono (-1)) = 1 /\
  (forall m c, In (m, c) j -> exists n, -1 <= n <= N /\ m = qmono n).
Proof.
  intros N HN HM. destruct (j_spec N HN HM) as (r & j & Er & Ej & Sj & Sh & K). exists r, j. split; [exact Er|]. split; [exact Ej|]. split; [exact Sj|].
  assert (Sh': forall n, coef j (qmono n) = coef r (qmono (n + 1))) by (intros n; rewrite Sh; reflexivity). split; [exact Sh'|]. split; [|exact K].
  rewrite Sh'. cbn [Z.add Z.opp].
  assert (E0: j_invariant1 0 = Ok [(qmono 0, 1)]) by (vm_compute; reflexivity).
  symmetry. apply (j1_stable 0 (N + 1) _ r ltac:(lia) HM E0 Er (qmono 0)). cbn. lia.
Qed.
(** C43: raising the order never changes a coefficient already computed. *)
Lemma c43_stable : forall N M r s, 0 <= N <= M -> 3 * M + 1 <= i32_max -> j_invariant1 N = Ok r -> j_invariant1 M = Ok s -> feq_upto N r s.
Proof. exact j1_stable. Qed.
Lemma c43_j_stable : forall N M r s, -1 <= N <= M -> 3 * (M + 1) + 1 <= i32_max -> j_invariant N = Ok r -> j_invariant M = Ok s -> feq_upto N r s.
Proof.
  intros N M r s H HM Er Es. destruct (j_spec N ltac:(lia) ltac:(lia)) as (r1 & r' & E1 & E' & _ & Sh & _). destruct (j_spec M ltac:(lia) HM) as (s1 & s' & E1s & Es' & _ & Shs & _).
  assert (r' = r) by congruence. assert (s' = s) by congruence. subst. intros m Hm. rewrite Sh, Shs.
  apply (j1_stable (N + 1) (M + 1) r1 s1 ltac:(lia) HM E1 E1s). cbn. lia.
Qed.
Example c43_case : j_invariant 1 = Ok [(qmono (-1), 1); (qmono 0, 744); (qmono 1, 196884)].
Proof. vm_compute. reflexivity. Qed.
