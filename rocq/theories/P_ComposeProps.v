(** Lemmas behind C131 (degree of a composition). *)
From Coq Require Import Znumtheory ZifyBool.
From Verif Require Import Prelude M_Bigint M_Variable M_Term M_Poly Spec SpecLead P_Bigint P_Variable P_FSum P_Poly P_Rem P_PolyProps P_Subst P_Subst2 P_Subst3 P_SubstProps P_Mod P_Gcd P_LeadProps.
Open Scope Z_scope.

Lemma foldM_app {S A} (f : S -> A -> res S) l1 : forall l2 s, foldM f (l1 ++ l2) s = (t <- foldM f l1 s ;; foldM f l2 t).
Proof. induction l1 as [|x l1 IH]; intros l2 s; [reflexivity|]. cbn [app foldM]. destruct (f s x); cbn [bind]; [apply IH|reflexivity|reflexivity]. Qed.
(** A polynomial in x whose exponents are below D. *)
Definition low (D : Z) (u : poly) : Prop := sorted u /\ only_x u /\ forall m e, In (m, e) u -> mx m < D.
Lemma add_keys_x u v : sorted u -> only_x u -> only_x v -> only_x (p_add u v).
Proof. intros Su Ou Ov. exact (p_add_keys (fun m => 0 <= mx m /\ my m = 0 /\ mq m = 0 /\ mv m = None) v u Su Ou Ov). Qed.
Lemma add_keys_bound D u v : sorted u -> (forall m e, In (m, e) u -> mx m < D) -> (forall m e, In (m, e) v -> mx m < D) -> forall m e, In (m, e) (p_add u v) -> mx m < D.
Proof. intros Su Mu Mv. apply (p_add_keys (fun m => mx m < D) v u Su); assumption. Qed.
Lemma add_low u w C D : low D u -> leading w C D -> leading (p_add u w) C D.
Proof.
  intros (Su & Ou & Mu) L. destruct (lead_in w C D L) as (_ & E & M & _). pose proof L as (Sw & Ow & Cw & _). destruct (c13_add u w Su Sw) as (S1 & C1 & _).
  apply lead_char; [exact S1|apply add_keys_x; assumption|exact Cw| |].
  - rewrite C1, E, (coef_notin u); [ring|]. intros e I. apply Mu in I. cbn [mx] in I. lia.
  - intros m e I. pose proof (add_keys_bound (D + 1) u w Su) as K. assert (mx m < D + 1); [|lia]. apply (K) with (e := e); [intros m' e' I'; apply Mu in I'; lia|intros m' e' I'; apply M in I'; lia|exact I].
Qed.
Lemma one_lead : leading (to_pol (tb_build (tb_variable None (tb_qpow 0 (tb_ypow 0 tb_new))))) 1 0.
Proof. split; [split; [intros ? ? []|exact I]|]. split; [intros m e [X|[]]; injection X as <- <-; cbn; repeat split; lia|]. split; [lia|reflexivity]. Qed.
Lemma const_lead c : c <> 0 -> leading (to_pol (tb_build (tb_coef c tb_new))) c 0.
Proof.
  intros N. assert (E : to_pol (tb_build (tb_coef c tb_new)) = [(X 0, c)]) by (unfold to_pol; cbn; destruct (c =? 0) eqn:Z0; [lia|reflexivity]). rewrite E.
  split; [split; [intros ? ? []|exact I]|]. split; [intros m e [Y|[]]; injection Y as <- <-; cbn; repeat split; lia|]. split; [exact N|reflexivity].
Qed.
Lemma const_keys c : only_x (to_pol (tb_build (tb_coef c tb_new))) /\ forall m e, In (m, e) (to_pol (tb_build (tb_coef c tb_new))) -> mx m <= 0.
Proof.
  unfold to_pol; cbn. destruct (c =? 0); cbn; split.
  - intros ? ? [].
  - intros ? ? [].
  - intros m e [Y|[]]; injection Y as <- <-; cbn; repeat split; lia.
  - intros m e [Y|[]]; injection Y as <- <-; cbn; lia.
Qed.
Lemma mono_lead n s c d w : leading s c d -> mono_eval_x_polynomial (X n) s = Ok w -> leading w (c ^ n) (n * d).
Proof.
  intros L H. unfold mono_eval_x_polynomial in H. cbn [mx my mq mv] in H. apply bind_Ok in H. destruct H as (v & Hv & H).
  destruct (c130_power s c d n v L Hv) as (Lv & _). destruct (c130_mul v _ _ _ _ _ w Lv one_lead H) as (Lw & _). rewrite Z.mul_1_r, Z.add_0_r in Lw. exact Lw.
Qed.
(** C131: the degree of a composition is the product of the degrees, and its leading coefficient is c c'^d. *)
Lemma c131_compose : forall a s c d c' d' r, leading a c d -> leading s c' d' -> 1 <= d' -> eval_x_polynomial a s = Ok r ->
  leading r (c * c' ^ d) (d * d') /\ degree_x r = Ok (d * d').
Proof.
  intros a s c d c' d' r La Ls Hd H. assert (L : leading r (c * c' ^ d) (d * d')); [|split; [exact L|exact (lead_degree _ _ _ L)]].
  destruct (lead_in a c d La) as (_ & _ & Ma & D0). pose proof (lead_ne a c d La) as N. pose proof La as (Sa & Oa & Ca & Ha).
  destruct (exists_last N) as (b & [m e] & E). subst a. rewrite highest_last in Ha. injection Ha as -> ->.
  apply sorted_app in Sa. destruct Sa as (Sb & _ & Sl).
  assert (Mb : forall m e, In (m, e) b -> 0 <= mx m < d /\ m = X (mx m)).
  { intros m e I. pose proof (Oa m e (proj2 (in_app_iff _ _ _) (or_introl I))) as (A & B & C & D). assert (K : m = X (mx m)) by (destruct m; cbn in *; subst; reflexivity).
    specialize (Sl m e (X d) c I (or_introl eq_refl)). rewrite K in Sl. apply mono_cmp_lt_iff in Sl. cbn [mx my mq mv] in Sl. split; [|exact K].
    destruct Sl as [Sl|(_ & [Sl|(_ & [Sl|(_ & Sl)])])]; [lia|lia|lia|cbn in Sl; discriminate]. }
  unfold eval_x_polynomial in H. rewrite foldM_app in H. apply bind_Ok in H. destruct H as (u & Hu & H).
  assert (Lu : low (d * d') u).
  { revert Hu. apply (foldM_inv (low (d * d'))); [|split; [exact I|split; [intros m e []|intros m e []]]].
    intros t [m e] t' I (St & Ot & Mt) F. cbn [fst snd] in F. destruct (Mb m e I) as (Bm & K). rewrite K in F.
    apply bind_Ok in F. destruct F as (w & Hw & F). apply bind_Ok in F. destruct F as (w' & Hw' & F). injection F as <-. change (p_add_assign t w') with (p_add t w').
    pose proof (mono_lead (mx m) s c' d' w Ls Hw) as Lw. destruct (lead_in _ _ _ Lw) as (_ & _ & Mw & _). pose proof Lw as (_ & Ow & _). destruct (const_keys e) as (Oc & Mc).
    destruct (mul_keys w _ w' _ 0 Ow Oc Mw Mc Hw') as (Ow' & Mw'). pose proof (p_mul_sorted _ _ _ Hw') as Sw'.
    split; [apply (c13_add t w' St Sw')|]. split; [apply add_keys_x; assumption|]. apply add_keys_bound; [exact St|exact Mt|]. intros m' e' I'. apply Mw' in I'. nia. }
  cbn [foldM] in H. apply bind_Ok in H. destruct H as (r' & H & HR). injection HR as <-. cbn [fst snd] in H.
  apply bind_Ok in H. destruct H as (w & Hw & H). apply bind_Ok in H. destruct H as (w' & Hw' & H). injection H as <-. change (p_add_assign u w') with (p_add u w').
  apply add_low; [exact Lu|]. pose proof (mono_lead d s c' d' w Ls Hw) as Lw. destruct (c130_mul w _ _ _ _ _ w' Lw (const_lead c Ca) Hw') as (L & _). rewrite Z.add_0_r, Z.mul_comm in L. exact L.
Qed.
Example c131_case : let a := [(X 0, -1); (X 2, 2)] in let b := [(X 0, 4); (X 3, 3)] in leading a 2 2 /\ leading b 3 3 /\
  exists r, eval_x_polynomial a b = Ok r /\ highest_term_x r = mkTerm 18 (X 6).
Proof.
  intros a b. split; [|split].
  - split; [split; [intros m c [H|[]]; injection H as <- <-; reflexivity|split; [intros ? ? []|exact I]]|]. split; [|split; [lia|reflexivity]].
    intros m e [H|[H|[]]]; injection H as <- <-; cbn; repeat split; lia.
  - split; [split; [intros m c [H|[]]; injection H as <- <-; reflexivity|split; [intros ? ? []|exact I]]|]. split; [|split; [lia|reflexivity]].
    intros m e [H|[H|[]]]; injection H as <- <-; cbn; repeat split; lia.
  - eexists. split; vm_compute; reflexivity.
Qed.
