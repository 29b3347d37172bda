(** Lemmas behind the property theorem C107. *)
From Coq Require Import Znumtheory ZifyBool Setoid Morphisms Ring.
From Verif Require Import Prelude M_Bigint M_Variable M_Term M_Poly Spec P_Bigint P_Variable P_FSum P_Poly P_Rem P_PolyProps P_Subst P_Subst2 P_Subst3 P_Mod P_Gcd P_Gcd2 P_XQuot.
Open Scope Z_scope.

(** C107: two dividends without negative powers of x (they may contain y and q) have the same remainder exactly when they
    differ by a multiple of the divisor modulo p. *)
Lemma c107_decides : forall fuel fuel' a b d p r s, prime p -> sorted a -> sorted b ->
  (forall m c, In (m, c) a -> 0 <= mx m) -> (forall m c, In (m, c) b -> 0 <= mx m) ->
  sorted d -> only_x d -> 1 <= mx (tm (highest_term_x d)) -> ~ (p | tc (highest_term_x d)) ->
  polynomial_modular fuel a d p = Ok r -> polynomial_modular fuel' b d p = Ok s ->
  (r = s <-> exists k, (forall m c, In (m, c) k -> 0 <= mx m) /\ feqm p a (fadd b (conv d k))).
Proof. intros fuel fuel' a b d p r s Hp Sa Sb Ka Kb Sd Od HD HL Er Es. exact (pm_unique p d Hp Sd Od HD HL fuel fuel' a b r s Sa Sb Ka Kb Er Es). Qed.
(** C107: for polynomials in x only: the same remainder exactly when the divisor divides the difference. *)
Lemma c107_divides : forall fuel fuel' a b d p r s, prime p -> sorted a -> sorted b -> only_x a -> only_x b ->
  sorted d -> only_x d -> 1 <= mx (tm (highest_term_x d)) -> ~ (p | tc (highest_term_x d)) ->
  polynomial_modular fuel a d p = Ok r -> polynomial_modular fuel' b d p = Ok s ->
  (r = s <-> fdivides p d (fsub a b)).
Proof.
  intros fuel fuel' a b d p r s Hp Sa Sb Oa Ob Sd Od HD HL Er Es. pose proof (prime_ge_2 p Hp).
  assert (Ka: keysP xnn a) by (intros m c Hi; apply (Oa _ _ Hi)). assert (Kb: keysP xnn b) by (intros m c Hi; apply (Ob _ _ Hi)).
  split.
  - intros E. subst s. destruct (pm_only_x _ a d p r ltac:(lia) Sa Sd Oa Od Er) as (_ & k & Kk & F), (pm_only_x _ b d p r ltac:(lia) Sb Sd Ob Od Es) as (_ & l & Kl & G).
    exists (fsub k l). split; [exact (only_x_add k (fneg l) Kk (only_x_neg l Kl))|]. rewrite F, G. apply feq_feqm.
    change (fsub k l) with (fadd k (fneg l)). rewrite conv_add_r, conv_neg_r. ring.
  - intros (k & Kk & F). apply (proj2 (pm_unique p d Hp Sd Od HD HL fuel fuel' a b r s Sa Sb Ka Kb Er Es)).
    exists k. split; [intros m c Hi; apply (Kk _ _ Hi)|]. rewrite <- F. apply feq_feqm. ring.
Qed.
(** C107: the remainder is zero exactly when the divisor divides the dividend. *)
Lemma c107_zero : forall fuel a d p r, prime p -> sorted a -> only_x a ->
  sorted d -> only_x d -> 1 <= mx (tm (highest_term_x d)) -> ~ (p | tc (highest_term_x d)) ->
  polynomial_modular fuel a d p = Ok r -> (is_zero r = true <-> fdivides p d a).
Proof.
  intros fuel a d p r Hp Sa Oa Sd Od HD HL Er. pose proof (prime_ge_2 p Hp).
  assert (E0: polynomial_modular 0 [] d p = Ok []).
  { rewrite pm_eq by exact Od. rewrite pm_loop_exit by (cbn; lia). cbn [bind]. rewrite modular_assign_eq by (try exact I; lia). reflexivity. }
  pose proof (c107_divides fuel 0 a [] d p r [] Hp Sa I Oa ltac:(intros ? ? []) Sd Od HD HL Er E0) as C.
  unfold fsub in C. cbn [fneg map] in C. rewrite app_nil_r in C. rewrite is_zero_nil. exact C.
Qed.
(** C107: reducing before an addition, a subtraction or a multiplication does not change the remainder of the result. *)
Lemma c107_add : forall f1 f2 f3 f4 a b r s t u d p, prime p -> sorted a -> sorted b ->
  (forall m c, In (m, c) a -> 0 <= mx m) -> (forall m c, In (m, c) b -> 0 <= mx m) ->
  sorted d -> only_x d -> 1 <= mx (tm (highest_term_x d)) -> ~ (p | tc (highest_term_x d)) ->
  polynomial_modular f1 a d p = Ok r -> polynomial_modular f2 b d p = Ok s ->
  polynomial_modular f3 (p_add a b) d p = Ok t -> polynomial_modular f4 (p_add r s) d p = Ok u -> t = u.
Proof.
  intros f1 f2 f3 f4 a b r s t u d p Hp Sa Sb Ka Kb Sd Od HD HL Er Es Et Eu. pose proof (prime_ge_2 p Hp).
  destruct (pm_spec _ a d p r ltac:(lia) Sa Sd Er) as (Sr & _). destruct (pm_spec _ b d p s ltac:(lia) Sb Sd Es) as (Ss & _).
  pose proof (proj1 (pm_xnn _ a d p r ltac:(lia) Sa Sd Ka Od Er)) as Kr. pose proof (proj1 (pm_xnn _ b d p s ltac:(lia) Sb Sd Kb Od Es)) as Ks.
  apply (proj2 (pm_unique p d Hp Sd Od HD HL f3 f4 (p_add a b) (p_add r s) t u (p_add_sorted _ _ Sa) (p_add_sorted _ _ Sr)
    (p_add_keys _ _ _ Sa Ka Kb) (p_add_keys _ _ _ Sr Kr Ks) Et Eu)).
  apply (xcong_feqm p d (fadd a b) (fadd r s)); [apply feq_feqm; symmetry; apply p_add_feq, Sa|apply feq_feqm; symmetry; apply p_add_feq, Sr|].
  apply xcong_add; [exact (pm_cong p d Hp Sd Od f1 a r Sa Ka Er)|exact (pm_cong p d Hp Sd Od f2 b s Sb Kb Es)].
Qed.
Lemma c107_sub : forall f1 f2 f3 f4 a b r s t u d p, prime p -> sorted a -> sorted b ->
  (forall m c, In (m, c) a -> 0 <= mx m) -> (forall m c, In (m, c) b -> 0 <= mx m) ->
  sorted d -> only_x d -> 1 <= mx (tm (highest_term_x d)) -> ~ (p | tc (highest_term_x d)) ->
  polynomial_modular f1 a d p = Ok r -> polynomial_modular f2 b d p = Ok s ->
  polynomial_modular f3 (p_sub a b) d p = Ok t -> polynomial_modular f4 (p_sub r s) d p = Ok u -> t = u.
Proof.
  intros f1 f2 f3 f4 a b r s t u d p Hp Sa Sb Ka Kb Sd Od HD HL Er Es Et Eu. pose proof (prime_ge_2 p Hp).
  destruct (pm_spec _ a d p r ltac:(lia) Sa Sd Er) as (Sr & _). destruct (pm_spec _ b d p s ltac:(lia) Sb Sd Es) as (Ss & _).
  pose proof (proj1 (pm_xnn _ a d p r ltac:(lia) Sa Sd Ka Od Er)) as Kr. pose proof (proj1 (pm_xnn _ b d p s ltac:(lia) Sb Sd Kb Od Es)) as Ks.
  apply (proj2 (pm_unique p d Hp Sd Od HD HL f3 f4 (p_sub a b) (p_sub r s) t u (p_sub_sorted _ _ Sa) (p_sub_sorted _ _ Sr)
    (p_sub_keys _ _ _ Sa Sb Ka Kb) (p_sub_keys _ _ _ Sr Ss Kr Ks) Et Eu)).
  apply (xcong_feqm p d (fsub a b) (fsub r s)); [apply feq_feqm; symmetry; apply p_sub_feq; assumption|apply feq_feqm; symmetry; apply p_sub_feq; assumption|].
  apply (xcong_add p d a (fneg b) r (fneg s)); [exact (pm_cong p d Hp Sd Od f1 a r Sa Ka Er)|].
  destruct (pm_cong p d Hp Sd Od f2 b s Sb Kb Es) as (k & Kk & F). exists (fneg k). split; [exact (keys_fneg xnn k Kk)|]. rewrite F. apply feq_feqm. rewrite conv_neg_r. ring.
Qed.
Lemma c107_mul : forall f1 f2 f3 f4 a b r s m n t u d p, prime p -> sorted a -> sorted b ->
  (forall m c, In (m, c) a -> 0 <= mx m) -> (forall m c, In (m, c) b -> 0 <= mx m) ->
  sorted d -> only_x d -> 1 <= mx (tm (highest_term_x d)) -> ~ (p | tc (highest_term_x d)) ->
  polynomial_modular f1 a d p = Ok r -> polynomial_modular f2 b d p = Ok s ->
  p_mul a b = Ok m -> p_mul r s = Ok n ->
  polynomial_modular f3 m d p = Ok t -> polynomial_modular f4 n d p = Ok u -> t = u.
Proof.
  intros f1 f2 f3 f4 a b r s m n t u d p Hp Sa Sb Ka Kb Sd Od HD HL Er Es Em En Et Eu. pose proof (prime_ge_2 p Hp).
  destruct (pm_spec _ a d p r ltac:(lia) Sa Sd Er) as (Sr & _). destruct (pm_spec _ b d p s ltac:(lia) Sb Sd Es) as (Ss & _).
  pose proof (proj1 (pm_xnn _ a d p r ltac:(lia) Sa Sd Ka Od Er)) as Kr. pose proof (proj1 (pm_xnn _ b d p s ltac:(lia) Sb Sd Kb Od Es)) as Ks.
  assert (K: forall x y z, keysP xnn x -> keysP xnn y -> p_mul x y = Ok z -> keysP xnn z).
  { intros x y z Kx Ky E. apply (p_mul_keys xnn xnn xnn _ _ _ E Kx Ky). intros m1 m2 H1 H2 _. unfold xnn, mmul in *. cbn [mx]. lia. }
  apply (proj2 (pm_unique p d Hp Sd Od HD HL f3 f4 m n t u (p_mul_sorted _ _ _ Em) (p_mul_sorted _ _ _ En) (K _ _ _ Ka Kb Em) (K _ _ _ Kr Ks En) Et Eu)).
  apply (xcong_feqm p d (conv a b) (conv r s)); [apply feq_feqm; symmetry; apply p_mul_feq, Em|apply feq_feqm; symmetry; apply p_mul_feq, En|].
  apply xcong_mul; [exact Ka|exact Ks|exact (pm_cong p d Hp Sd Od f1 a r Sa Ka Er)|exact (pm_cong p d Hp Sd Od f2 b s Sb Kb Es)].
Qed.
(** C107: a remainder is its own remainder. *)
Lemma c107_idempotent : forall fuel fuel' a d p r, prime p -> sorted a -> sorted d -> only_x d -> 1 <= mx (tm (highest_term_x d)) ->
  polynomial_modular fuel a d p = Ok r -> polynomial_modular fuel' r d p = Ok r.
Proof.
  intros fuel fuel' a d p r Hp Sa Sd Od HD Er. pose proof (prime_ge_2 p Hp). destruct (pm_spec _ a d p r ltac:(lia) Sa Sd Er) as (Sr & Rr & Lr & _).
  rewrite pm_eq by exact Od. rewrite pm_loop_exit.
  - cbn [bind]. rewrite modular_assign_eq by (assumption || lia). f_equal.
    apply (canonical_mod p); [lia|apply redp_sorted, Sr|exact Sr|apply redp_reduced; lia|exact Rr|]. apply redp_feqm; [lia|exact Sr].
  - destruct (highest_in r Sr) as [(_ & ->)|(_ & Hi)]; [cbn; lia|exact (Lr _ _ Hi)].
Qed.
Example c107_case : let a := [(mkMono 0 1 0 None, 3); (mkMono 2 1 0 None, 1)] in let b := [(mkMono 0 1 0 None, 3); (mkMono 1 1 0 None, 1); (mkMono 2 1 0 None, 3); (mkMono 3 1 0 None, 3)] in
  let d := [(mone, 1); (mkMono 1 0 0 None, 2); (mkMono 2 0 0 None, 3)] in
  sorted a /\ sorted b /\ sorted d /\ only_x d /\ 1 <= mx (tm (highest_term_x d)) /\
  polynomial_modular 5 a d 7 = Ok [(mkMono 0 1 0 None, 5); (mkMono 1 1 0 None, 4)] /\
  polynomial_modular 5 b d 7 = Ok [(mkMono 0 1 0 None, 5); (mkMono 1 1 0 None, 4)].
Proof. split; [csorted|]. split; [csorted|]. split; [csorted|]. split; [intros m c H; in_cases H; cbn; intuition lia|]. split; [cbn; lia|]. split; vm_compute; reflexivity. Qed.
