(** polynomial_modular as a normal form of polynomials modulo p and a polynomial d in x. *)
From Coq Require Import Znumtheory ZifyBool Setoid Morphisms Ring.
From Verif Require Import Prelude M_Bigint M_Variable M_Term M_Poly Spec P_Bigint P_Variable P_FSum P_Poly P_Rem P_PolyProps P_Subst P_Subst2 P_Subst3 P_Mod P_Gcd P_Gcd2.
Open Scope Z_scope.

Definition xnn (m : mono) : Prop := 0 <= mx m.

Lemma conv_top d k : sorted d -> only_x d -> d <> [] -> sorted k -> k <> [] ->
  coef (conv d k) (mmul (tm (highest_term_x d)) (tm (highest_term_x k))) = tc (highest_term_x d) * tc (highest_term_x k).
Proof.
  intros Sd Od Nd Sk Nk. destruct (highest_spec d Sd Nd) as (H1 & _ & M1), (highest_spec k Sk Nk) as (H2 & _ & M2).
  pose proof (only_x_key d _ _ Od H1) as K1. set (D := tm (highest_term_x d)) in *. set (h := tm (highest_term_x k)) in *.
  rewrite coef_lin, lin_conv. rewrite (lin_single _ d D (tc (highest_term_x d)) Sd H1).
  - f_equal. rewrite (lin_single _ k h (tc (highest_term_x k)) Sk H2).
    + unfold delta. rewrite mono_eqb_refl. ring.
    + intros m e Hm N. unfold delta. rewrite mono_eqb_neq; [reflexivity|]. intros E. apply N.
      rewrite K1 in E. unfold mmul in E. cbn [mx my mq mv vmul] in E. injection E. intros. destruct m, h; cbn in *. f_equal; (lia || assumption).
  - intros m e Hm N. rewrite (lin_ext_in _ (fun _ => 0) k); [apply lin_zero|]. intros m2 e2 Hm2. unfold delta. rewrite mono_eqb_neq; [reflexivity|]. intros E. apply N.
    rewrite (only_x_key d m e Od Hm), K1. f_equal. injection E as E1 _ _ _. pose proof (M1 _ _ Hm). pose proof (M2 _ _ Hm2). lia.
Qed.

(** A multiple of d (by a polynomial without negative x exponents) of smaller x-degree vanishes modulo p. *)
Lemma small_multiple p d e k : prime p -> sorted d -> only_x d -> d <> [] -> ~ (p | tc (highest_term_x d)) ->
  keysP xnn k -> keysP (fun m => mx m < mx (tm (highest_term_x d))) e -> feqm p e (conv d k) -> feqm p e [].
Proof.
  intros Hp Sd Od Nd HL Kk Ke F. pose proof (prime_ge_2 p Hp) as Hp2.
  destruct (nf_spec p k ltac:(lia)) as (Sk & Rk & Fk & _).
  assert (Kk': keysP xnn (nf p k)) by (unfold nf; apply redp_keys, p_add_keys; [exact I|intros ? ? []|exact Kk]).
  set (k' := nf p k) in *. rewrite <- Fk in F. destruct k' as [|e0 k1] eqn:Ek; [rewrite F, (feq_feqm p _ _ (conv_comm d [])); reflexivity|exfalso].
  rewrite <- Ek in *. assert (Nk: k' <> []) by (rewrite Ek; discriminate). clear Ek.
  specialize (F (mmul (tm (highest_term_x d)) (tm (highest_term_x k')))). rewrite (conv_top d k' Sd Od Nd Sk Nk) in F.
  destruct (highest_spec k' Sk Nk) as (Hk & _). pose proof (Kk' _ _ Hk) as P0. unfold xnn in P0.
  rewrite (coef_notin e) in F.
  - assert (D: (p | tc (highest_term_x d) * tc (highest_term_x k'))) by (destruct F as (z & F); exists (- z); lia).
    apply (prime_mult p Hp) in D. destruct D as [D|D]; [exact (HL D)|exact (reduced_lead p k' Hp Sk Nk Rk D)].
  - intros c Hi. apply Ke in Hi. unfold mmul in Hi. cbn [mx] in Hi. lia.
Qed.

(** The loop keeps x exponents non-negative, and so does the quotient. *)
Lemma pm_loop_xnn other p : sorted other -> only_x other -> forall fuel r s, sorted r -> keysP xnn r ->
  polynomial_modular_loop fuel other (highest_term_x other) p r = Ok s ->
  keysP xnn s /\ exists k, keysP xnn k /\ feqm p r (fadd (conv other k) s).
Proof.
  intros So Oo. induction fuel as [|f IH]; intros r s Sr Or H; [cbn [polynomial_modular_loop] in H|rewrite pm_loop_S in H]; destruct (_ <? _) eqn:E.
  1, 3: injection H as <-; split; [exact Or|]; exists []; split; [intros ? ? []|]; rewrite (feq_feqm p _ _ (conv_comm other [])); cbn; reflexivity.
  - discriminate.
  - apply bind_Ok in H. destruct H as (r' & Es & H). destruct (pm_step_spec other p r r' So Sr Es) as (Hp & inv & _ & Sr' & _ & F).
    destruct (IH r' s Sr') as (Os & k & Ok & Fk); [|exact H|].
    { apply (pm_step_keys xnn other p r r' So Sr Es Or). intros m c Hm q _. destruct (Oo _ _ Hm) as (A & _). unfold xnn, mmul, q. cbn [mx]. lia. }
    split; [exact Os|].
    match type of F with feqm p r' (fsub r (conv ?q other)) => exists (fadd k q); set (u := q) in * end.
    split.
    { intros m c Hi. apply in_app_iff in Hi. destruct Hi as [Hi|[Ei|[]]]; [apply (Ok m c Hi)|]. injection Ei; intros; subst. unfold xnn. cbn [mx]. lia. }
    assert (G: feqm p r (fadd r' (conv u other))) by (rewrite F; unfold fsub; intros m; unfold fadd; rewrite !coef_app, coef_neg; exists 0; ring).
    rewrite G, Fk. apply feq_feqm. rewrite conv_add_r, (conv_comm u other). ring.
Qed.
Lemma pm_xnn fuel a d p r : 0 < p -> sorted a -> sorted d -> keysP xnn a -> only_x d -> polynomial_modular fuel a d p = Ok r ->
  keysP xnn r /\ exists k, keysP xnn k /\ feqm p a (fadd (conv d k) r).
Proof.
  intros Hp Sa Sd Oa Od H. rewrite pm_eq in H by exact Od. apply bind_Ok in H. destruct H as (s & Es & H).
  destruct (pm_loop_spec d p Sd fuel a s Sa Es) as (Ss & _ & L). destruct (pm_loop_xnn d p Sd Od fuel a s Sa Oa Es) as (Os & k & Ok & F).
  rewrite modular_assign_eq in H by assumption. injection H as <-. split; [apply redp_keys, Os|].
  exists k. split; [exact Ok|]. rewrite F, (redp_feqm p s Hp Ss). reflexivity.
Qed.

(** a and b differ by a multiple of d, without negative powers of x, modulo p. *)
Definition xcong (p : Z) (d a b : fsum) : Prop :=
  exists k, (forall m c, In (m, c) k -> 0 <= mx m) /\ feqm p a (fadd b (conv d k)).
Lemma keys_fneg (P : mono -> Prop) a : keysP P a -> keysP P (fneg a).
Proof. intros H m c Hi. apply fneg_in in Hi. exact (H _ _ Hi). Qed.
Lemma keys_fadd (P : mono -> Prop) a b : keysP P a -> keysP P b -> keysP P (fadd a b).
Proof. intros Ha Hb m c Hi. apply in_app_iff in Hi. destruct Hi as [Hi|Hi]; [exact (Ha _ _ Hi)|exact (Hb _ _ Hi)]. Qed.
Lemma xnn_conv a b : keysP xnn a -> keysP xnn b -> keysP xnn (conv a b).
Proof.
  intros Ha Hb m c Hi. apply in_conv in Hi. destruct Hi as (m1 & c1 & m2 & c2 & H1 & H2 & -> & _). apply Ha in H1. apply Hb in H2. unfold xnn, mmul in *. cbn [mx]. lia.
Qed.
Lemma xcong_sym p d a b : xcong p d a b -> xcong p d b a.
Proof. intros (k & Kk & F). exists (fneg k). split; [exact (keys_fneg xnn k Kk)|]. rewrite F. apply feq_feqm. rewrite conv_neg_r. ring. Qed.
Lemma xcong_trans p d a b c : xcong p d a b -> xcong p d b c -> xcong p d a c.
Proof. intros (k & Kk & F) (l & Kl & G). exists (fadd l k). split; [exact (keys_fadd xnn l k Kl Kk)|]. rewrite F, G. apply feq_feqm. rewrite conv_add_r. ring. Qed.
Lemma xcong_add p d a b a' b' : xcong p d a a' -> xcong p d b b' -> xcong p d (fadd a b) (fadd a' b').
Proof. intros (k & Kk & F) (l & Kl & G). exists (fadd k l). split; [exact (keys_fadd xnn k l Kk Kl)|]. rewrite F, G. apply feq_feqm. rewrite conv_add_r. ring. Qed.
Lemma xcong_feqm p d a b a' b' : feqm p a a' -> feqm p b b' -> xcong p d a b -> xcong p d a' b'.
Proof. intros H1 H2 (k & Kk & F). exists k. split; [exact Kk|]. rewrite <- H1, <- H2. exact F. Qed.
Lemma xcong_scale p d c a b : keysP xnn c -> xcong p d a b -> xcong p d (conv c a) (conv c b).
Proof.
  intros Kc (k & Kk & F). exists (conv c k). split; [exact (xnn_conv c k Kc Kk)|]. rewrite F. apply feq_feqm. rewrite conv_add_r.
  rewrite (conv_assoc c d k), (conv_comm c d), <- (conv_assoc d c k). reflexivity.
Qed.
Lemma xcong_mul p d a b a' b' : keysP xnn a -> keysP xnn b' -> xcong p d a a' -> xcong p d b b' -> xcong p d (conv a b) (conv a' b').
Proof.
  intros Ka Kb H1 H2. apply (xcong_trans p d _ (conv a b')); [apply xcong_scale; assumption|].
  apply (xcong_feqm p d (conv b' a) (conv b' a')); [apply feq_feqm, conv_comm|apply feq_feqm, conv_comm|]. apply xcong_scale; assumption.
Qed.

Section Normal.
  Variable (p : Z) (d : fsum).
  Hypothesis (Hp : prime p) (Sd : sorted d) (Od : only_x d) (HD : 1 <= mx (tm (highest_term_x d))) (HL : ~ (p | tc (highest_term_x d))).
  Lemma Nd' : d <> [].
  Proof. intros E. rewrite E in HD. cbn in HD. lia. Qed.
  Lemma pm_cong fuel a r : sorted a -> keysP xnn a -> polynomial_modular fuel a d p = Ok r -> xcong p d a r.
  Proof.
    intros Sa Ka E. pose proof (prime_ge_2 p Hp). destruct (pm_xnn fuel a d p r ltac:(lia) Sa Sd Ka Od E) as (_ & k & Kk & F).
    exists k. split; [exact Kk|]. rewrite F. apply feq_feqm. ring.
  Qed.
  Lemma small_unique r s : sorted r -> sorted s -> reduced p r -> reduced p s ->
    keysP (fun m => mx m < mx (tm (highest_term_x d))) r -> keysP (fun m => mx m < mx (tm (highest_term_x d))) s -> xcong p d r s -> r = s.
  Proof.
    intros Sr Ss Rr Rs Lr Ls (k & Kk & F). pose proof (prime_ge_2 p Hp). apply (canonical_mod p r s ltac:(lia) Sr Ss Rr Rs).
    assert (Z0: feqm p (fsub r s) []).
    { apply (small_multiple p d (fsub r s) k Hp Sd Od Nd' HL Kk).
      - apply (keys_fadd _ r (fneg s) Lr), keys_fneg, Ls.
      - rewrite F. apply feq_feqm. ring. }
    intros m. specialize (Z0 m). unfold fsub in Z0. rewrite coef_app, coef_neg in Z0. cbn [coef] in Z0. destruct Z0 as (z & Z0). exists z. lia.
  Qed.
  Lemma pm_unique fuel fuel' a b r s : sorted a -> sorted b -> keysP xnn a -> keysP xnn b ->
    polynomial_modular fuel a d p = Ok r -> polynomial_modular fuel' b d p = Ok s -> (r = s <-> xcong p d a b).
  Proof.
    intros Sa Sb Ka Kb Er Es. pose proof (prime_ge_2 p Hp).
    pose proof (pm_cong _ _ _ Sa Ka Er) as Cr. pose proof (pm_cong _ _ _ Sb Kb Es) as Cs. split.
    - intros ->. exact (xcong_trans _ _ _ _ _ Cr (xcong_sym _ _ _ _ Cs)).
    - intros C. destruct (pm_spec _ a d p r ltac:(lia) Sa Sd Er) as (Sr & Rr & Lr & _). destruct (pm_spec _ b d p s ltac:(lia) Sb Sd Es) as (Ss & Rs & Ls & _).
      apply (small_unique r s Sr Ss Rr Rs Lr Ls). exact (xcong_trans _ _ _ _ _ (xcong_sym _ _ _ _ Cr) (xcong_trans _ _ _ _ _ C Cs)).
  Qed.
End Normal.
