(** Lemmas behind C132 (remainder and factor theorems). *)
From Coq Require Import Znumtheory ZifyBool.
From Verif Require Import Prelude M_Bigint M_Variable M_Term M_Poly Spec SpecLead P_Bigint P_Variable P_FSum P_Poly P_Rem P_PolyProps P_Subst P_Subst2 P_Subst3 P_SubstProps P_Mod P_Gcd P_GcdProps P_Roots P_LeadProps.
Open Scope Z_scope.

Lemma ox_nonneg a : only_x a -> nonneg_xy a.
Proof. intros O m c I. destruct (O m c I) as (A & B & _). lia. Qed.
(** C132: at a root r (modulo p) of the divisor, the remainder has the value of the dividend. *)
Lemma c132_root : forall fuel a d p s r u v t, 0 < p -> sorted a -> sorted d -> only_x a -> only_x d -> eval_xy d r 0 = Ok t -> (p | t) ->
  polynomial_modular fuel a d p = Ok s -> eval_xy a r 0 = Ok u -> eval_xy s r 0 = Ok v -> (p | u - v).
Proof.
  intros fuel a d p s r u v t Hp Sa Sd Oa Od Ht Dt H Hu Hv. destruct (pm_only_x fuel a d p s Hp Sa Sd Oa Od H) as (Os & k & Ok & F).
  rewrite eval_xy_spec in Ht by (apply ox_nonneg; assumption). rewrite eval_xy_spec in Hu by (apply ox_nonneg; assumption). rewrite eval_xy_spec in Hv by (apply ox_nonneg; assumption).
  injection Ht as <-. injection Hu as <-. injection Hv as <-. apply (fval_feqm p r 0) in F. unfold fadd in F. rewrite fval_app, fval_conv_x in F by assumption.
  replace (fval r 0 a - fval r 0 s) with (fval r 0 a - (fval r 0 d * fval r 0 k + fval r 0 s) + fval r 0 d * fval r 0 k) by ring.
  apply Z.divide_add_r; [exact F|]. apply Z.divide_mul_l, Dt.
Qed.
Lemma const_poly s : sorted s -> only_x s -> (forall m c, In (m, c) s -> mx m < 1) -> s = [] \/ exists c, s = [(X 0, c)].
Proof.
  intros Ss Os B. assert (K : forall m c, In (m, c) s -> m = X 0).
  { intros m c I. pose proof (B m c I). rewrite (only_x_key s m c Os I). destruct (Os m c I) as (A & _). f_equal. lia. }
  destruct s as [|[m c] [|[m' c'] s]]; [left; reflexivity|right; exists c; rewrite (K m c) by (left; reflexivity); reflexivity|exfalso].
  destruct Ss as (Lt & _). specialize (Lt m' c' (or_introl eq_refl)). rewrite (K m c), (K m' c') in Lt by (cbn; tauto). discriminate.
Qed.
(** C132: the remainder by a linear polynomial with root r and unit leading coefficient modulo p (such as x - r) is the constant a(r) mod p; in particular it is the
    zero polynomial exactly when r is a root of a modulo p. *)
Lemma c132_linear : forall fuel a d c p s r u t, prime p -> sorted a -> only_x a -> leading d c 1 -> ~ (p | c) -> eval_xy d r 0 = Ok t -> (p | t) ->
  polynomial_modular fuel a d p = Ok s -> eval_xy a r 0 = Ok u ->
  s = (if u mod p =? 0 then [] else [(mkMono 0 0 0 None, u mod p)]) /\ (is_zero s = true <-> (p | u)).
Proof.
  intros fuel a d c p s r u t Hp Sa Oa L Nc Ht Dt H Hu. pose proof (prime_ge_2 p Hp) as P2. pose proof L as (Sd & Od & C0 & HL).
  destruct (pm_only_x fuel a d p s ltac:(lia) Sa Sd Oa Od H) as (Os & _). destruct (pm_spec fuel a d p s ltac:(lia) Sa Sd H) as (Ss & Rs & B & _). rewrite HL in B. cbn [tm mx] in B.
  assert (V : forall w, fval r 0 s = w -> (p | u - w)).
  { intros w <-. apply (c132_root fuel a d p s r u (fval r 0 s) t ltac:(lia) Sa Sd Oa Od Ht Dt H Hu). apply eval_xy_spec, ox_nonneg, Os. }
  assert (E : s = (if u mod p =? 0 then [] else [(mkMono 0 0 0 None, u mod p)])).
  { destruct (const_poly s Ss Os B) as [E|(w & E)]; rewrite E in V, Rs.
    - specialize (V 0 eq_refl). rewrite Z.sub_0_r in V. rewrite (proj2 (Z.mod_divide u p ltac:(lia)) V). exact E.
    - specialize (Rs _ _ (or_introl eq_refl)). specialize (V w). cbn [fval] in V. unfold mval in V. cbn [mx my] in V. rewrite !Z.pow_0_r in V. specialize (V ltac:(ring)).
      assert (W : u mod p = w). { apply mod_eq_divide in V; [|lia]. rewrite V. apply Z.mod_small. lia. }
      rewrite W. destruct (w =? 0) eqn:W0; [lia|exact E]. }
  split; [exact E|]. rewrite E. rewrite <- Z.mod_divide by lia. destruct (u mod p =? 0) eqn:Q; cbn [is_zero]; split; intros; (reflexivity || discriminate || lia).
Qed.
(** C132: the division by such a divisor always returns. *)
Lemma c132_returns : forall a d c p, prime p -> sorted a -> only_x a -> i32_poly a -> leading d c 1 -> ~ (p | c) -> exists fuel s, polynomial_modular fuel a d p = Ok s.
Proof.
  intros a d c p Hp Sa Oa Ia (Sd & Od & C0 & HL) Nc. destruct (c23_polynomial_modular a d p) as (fuel & s & H & _); [exact Hp|exact Sa|exact Ia|intros m e I; apply (Oa m e I)|exact Sd|exact Od|rewrite HL; cbn; lia|rewrite HL; exact Nc|]. exists fuel, s. exact H.
Qed.
Example c132_case : let d := p_sub (to_pol (tb_build (tb_xpow 1 (tb_coef 1 tb_new)))) (to_pol (tb_build (tb_coef 3 tb_new))) in let a := [(mkMono 0 0 0 None, 5); (mkMono 2 0 0 None, 1)] in
  leading d 1 1 /\ eval_xy d 3 0 = Ok 0 /\ eval_xy a 3 0 = Ok 14 /\ polynomial_modular 5 a d 11 = Ok [(mkMono 0 0 0 None, 3)] /\ polynomial_modular 5 a d 7 = Ok [].
Proof.
  intros d a. split; [|split; [|split; [|split]]]; try (vm_compute; reflexivity).
  assert (E : d = [(X 0, -3); (X 1, 1)]) by (vm_compute; reflexivity). rewrite E.
  split; [split; [intros m c [H|[]]; injection H as <- <-; reflexivity|split; [intros ? ? []|exact I]]|]. split; [|split; [lia|reflexivity]].
  intros m e [H|[H|[]]]; injection H as <- <-; cbn; repeat split; lia.
Qed.
