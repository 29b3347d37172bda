(** Lemmas behind C133 (double roots). *)
From Coq Require Import Znumtheory ZifyBool Setoid Morphisms Ring.
From Verif Require Import Prelude M_Bigint M_Variable M_Term M_Poly Spec SpecLead P_Bigint P_Variable P_FSum P_Poly P_Rem P_PolyProps P_Subst P_Subst2 P_Subst3 P_SubstProps P_Mod P_Gcd P_Gcd2 P_GcdProps P_Roots P_XQuot P_XQuotProps P_Sqfree P_SqfreeProps P_LeadProps P_FactorProps.
Open Scope Z_scope.

(** x - r as a caller builds it. *)
Notation x_minus r := (p_sub (to_pol (tb_build (tb_xpow 1 (tb_coef 1 tb_new)))) (to_pol (tb_build (tb_coef r tb_new)))).
Lemma x_minus_lead r : leading (x_minus r) 1 1 /\ feq (x_minus r) (lin_factor r).
Proof.
  destruct (Z.eq_dec r 0) as [->|N].
  - assert (E : x_minus 0 = [(X 1, 1)]) by (vm_compute; reflexivity). rewrite E. split.
    + split; [split; [intros ? ? []|exact I]|]. split; [|split; [lia|reflexivity]]. intros m e [H|[]]; injection H as <- <-; cbn; repeat split; lia.
    + intros m. unfold lin_factor. cbn [coef]. destruct (mono_eqb (X 1) m), (mono_eqb mone m); ring.
  - assert (E : x_minus r = [(X 0, - r); (X 1, 1)]).
    { unfold to_pol. cbn. destruct (r =? 0) eqn:Z0; [lia|]. destruct r; [lia| |]; vm_compute; reflexivity. }
    rewrite E. split; [|intros m; reflexivity].
    split; [split; [intros m c [H|[]]; injection H as <- <-; reflexivity|split; [intros ? ? []|exact I]]|]. split; [|split; [lia|reflexivity]].
    intros m e [H|[H|[]]]; injection H as <- <-; cbn; repeat split; lia.
Qed.
Lemma x_minus_exp r : exp_bound 1 (x_minus r).
Proof.
  destruct (Z.eq_dec r 0) as [->|N].
  - assert (E : x_minus 0 = [(X 1, 1)]) by (vm_compute; reflexivity). rewrite E. intros m c [H|[]]; injection H as <- <-; cbn; repeat split; lia.
  - assert (E : x_minus r = [(X 0, - r); (X 1, 1)]).
    { unfold to_pol. cbn. destruct (r =? 0) eqn:Z0; [lia|]. destruct r; [lia| |]; vm_compute; reflexivity. }
    rewrite E. intros m c [H|[H|[]]]; injection H as <- <-; cbn; repeat split; lia.
Qed.
Lemma lin_ox r : only_x (lin_factor r).
Proof. intros m e [H|[H|[]]]; injection H as <- <-; cbn; repeat split; lia. Qed.
Lemma lin_val r : fval r 0 (lin_factor r) = 0.
Proof. unfold lin_factor. cbn [fval]. unfold mval. cbn [mx my mone]. rewrite !Z.pow_0_r, Z.pow_1_r. ring. Qed.
(** The derivative of (x - r) k at r is k(r). *)
Lemma der_val p r a k : prime p -> only_x k -> feqm p a (conv (lin_factor r) k) -> forall a', only_x a' -> feqm p a' (fdx a) -> (p | fval r 0 a' - fval r 0 k).
Proof.
  intros Hp Ok F a' Oa' Fa. destruct (fdx_only_x p k Hp Ok) as (k' & (_ & _ & Ok') & Fk').
  assert (FE : feq (fdx (lin_factor r)) (fconst 1)).
  { intros m. unfold lin_factor, fconst, fdx. cbn [map fst snd mx mone set_x coef]. replace (0 * - r) with 0 by ring. change (1 * 1) with 1. change (set_x (1 - 1) (X 1)) with mone. destruct (mono_eqb _ m), (mono_eqb mone m); ring. }
  assert (G : feqm p a' (fadd (conv (fconst 1) k) (conv (lin_factor r) k'))).
  { rewrite Fa, (fdx_proper p _ _ F), (feq_feqm p _ _ (fdx_conv _ _)). rewrite <- Fk', (feq_feqm p _ _ FE). reflexivity. }
  apply (fval_feqm p r 0) in G. unfold fadd in G. rewrite fval_app, !fval_conv_x in G by (assumption || apply lin_ox || apply only_x_const). rewrite lin_val, fval_fconst in G.
  replace (fval r 0 a' - fval r 0 k) with (fval r 0 a' - (1 * fval r 0 k + 0 * fval r 0 k')) by ring. exact G.
Qed.
Lemma ox_conv a b : only_x a -> only_x b -> only_x (conv a b).
Proof.
  intros Oa Ob m c I. unfold conv in I. apply in_flat_map in I. destruct I as ([m1 c1] & I1 & I2). apply in_map_iff in I2. destruct I2 as ([m2 c2] & E & I2). cbn in E. injection E as <- <-.
  destruct (Oa _ _ I1) as (A1 & A2 & A3 & A4), (Ob _ _ I2) as (B1 & B2 & B3 & B4). unfold mmul. cbn [mx my mq mv]. rewrite A2, B2, A3, B3, A4, B4. cbn. repeat split; lia.
Qed.
(** C133: (x - r)^2 divides a modulo p (the remainder is the zero polynomial) exactly when r is a root modulo p of a and of its derivative. *)
Lemma c133_double_root : forall fuel a a' d p s r u v, prime p -> sorted a -> only_x a -> p_square (x_minus r) = Ok d ->
  polynomial_modular fuel a d p = Ok s -> derivative_x a = Ok a' -> eval_xy a r 0 = Ok u -> eval_xy a' r 0 = Ok v ->
  (is_zero s = true <-> (p | u) /\ (p | v)).
Proof.
  intros fuel a a' d p s r u v Hp Sa Oa HD H HA Hu Hv. pose proof (prime_ge_2 p Hp) as P2. destruct (x_minus_lead r) as (Le & Fe). pose proof Le as (Se & Oe & _).
  destruct (c130_power (x_minus r) 1 1 2 d Le HD) as (Ld & _). pose proof Ld as (Sd & Od & _ & HLd).
  destruct (c19_square_cube (x_minus r) d Se) as (Fd & _). specialize (Fd HD).
  assert (Fd' : feq d (conv (lin_factor r) (lin_factor r))) by (rewrite Fd, Fe; reflexivity).
  destruct (derivative_x_spec a Sa) as (a1 & HA' & _ & _ & Fa' & Ka'); [intros m e I; apply (Oa m e I)|]. assert (a1 = a') as -> by congruence.
  assert (Oa' : only_x a').
  { intros m e I. destruct (Ka' m e I) as (e' & I' & B). apply Oa in I'. destruct m. cbn in *. tauto. }
  rewrite eval_xy_spec in Hu by (apply ox_nonneg; assumption). rewrite eval_xy_spec in Hv by (apply ox_nonneg; assumption). injection Hu as <-. injection Hv as <-.
  rewrite (c107_zero fuel a d p s Hp Sa Oa Sd Od) by (rewrite ?HLd; cbn; try lia; try exact H; intros D; apply Z.divide_pos_le in D; cbn in D; lia).
  split.
  - intros (k & Ok & F). rewrite (feq_feqm p _ _ (conv_proper_feq _ _ Fd' _ _ (Equivalence_Reflexive k))) in F.
    assert (F2 : feqm p a (conv (lin_factor r) (conv (lin_factor r) k))) by (rewrite F; apply feq_feqm; ring).
    assert (Ock : only_x (conv (lin_factor r) k)) by (apply ox_conv; [apply lin_ox|exact Ok]). split.
    + apply (divides_root p (lin_factor r) a r (lin_ox r)); [exists (conv (lin_factor r) k); split; [exact Ock|exact F2]|rewrite lin_val; apply Z.divide_0_r].
    + pose proof (der_val p r a _ Hp Ock F2 a' Oa' (feq_feqm p _ _ Fa')) as D. rewrite fval_conv_x, lin_val in D by (apply lin_ox || exact Ok). replace (fval r 0 a') with (fval r 0 a' - 0 * fval r 0 k) by ring. exact D.
  - intros (Du & Dv). destruct (root_factor p r a Oa Du) as (k & Ok & F). pose proof (der_val p r a k Hp Ok F a' Oa' (feq_feqm p _ _ Fa')) as D.
    assert (Dk : (p | fval r 0 k)) by (replace (fval r 0 k) with (fval r 0 a' - (fval r 0 a' - fval r 0 k)) by ring; apply Z.divide_sub_r; assumption).
    destruct (root_factor p r k Ok Dk) as (k2 & Ok2 & F2). exists k2. split; [exact Ok2|]. rewrite F, F2. apply feq_feqm. rewrite Fd'. ring.
Qed.
(** C133: all the calls return. *)
Lemma c133_returns : forall a p r, prime p -> sorted a -> only_x a -> i32_poly a ->
  exists d fuel s a' u v, p_square (x_minus r) = Ok d /\ polynomial_modular fuel a d p = Ok s /\ derivative_x a = Ok a' /\ eval_xy a r 0 = Ok u /\ eval_xy a' r 0 = Ok v.
Proof.
  intros a p r Hp Sa Oa Ia. pose proof (prime_ge_2 p Hp) as P2. destruct (x_minus_lead r) as (Le & Fe). pose proof Le as (Se & Oe & _ & HLe).
  destruct (c19_power_returns (x_minus r) 2 1) as (d & HD'); [lia|lia|unfold i32_max; lia|exact (x_minus_exp r)|]. pose proof (HD' : p_square (x_minus r) = Ok d) as HD.
  destruct (c130_power (x_minus r) 1 1 2 d Le HD) as (Ld & _). pose proof Ld as (Sd & Od & _ & HLd).
  destruct (c23_polynomial_modular a d p) as (fuel & s & H & _); [exact Hp|exact Sa|exact Ia|intros m e I; apply (Oa m e I)|exact Sd|exact Od|rewrite HLd; cbn; lia|rewrite HLd; cbn; intros D; apply Z.divide_pos_le in D; lia|].
  destruct (derivative_x_spec a Sa) as (a' & HA' & _ & _ & _ & Ka'); [intros m e I; apply (Oa m e I)|].
  assert (Oa' : only_x a').
  { intros m e I. destruct (Ka' m e I) as (e' & I' & B). apply Oa in I'. destruct m. cbn in *. tauto. }
  exists d, fuel, s, a'. do 2 eexists. split; [exact HD|]. split; [exact H|]. split; [exact HA'|].
  split; apply eval_xy_spec; apply ox_nonneg; assumption.
Qed.
Example c133_case : let a := [(mkMono 0 0 0 None, 1); (mkMono 2 0 0 None, 4); (mkMono 4 0 0 None, 1)] in let d := [(mkMono 0 0 0 None, 1); (mkMono 1 0 0 None, -2); (mkMono 2 0 0 None, 1)] in
  sorted a /\ only_x a /\ p_square (x_minus 1) = Ok d /\ polynomial_modular 9 a d 3 = Ok [] /\ eval_xy a 1 0 = Ok 6 /\
  derivative_x a = Ok [(mkMono 1 0 0 None, 8); (mkMono 3 0 0 None, 4)] /\ eval_xy [(mkMono 1 0 0 None, 8); (mkMono 3 0 0 None, 4)] 1 0 = Ok 12.
Proof.
  intros a d. split; [split; [intros m c [H|[H|[]]]; injection H as <- <-; reflexivity|split; [intros m c [H|[]]; injection H as <- <-; reflexivity|split; [intros ? ? []|exact I]]]|].
  split; [intros m e [H|[H|[H|[]]]]; injection H as <- <-; cbn; repeat split; lia|]. repeat apply conj; vm_compute; reflexivity.
Qed.
