(** The linear system of modular_polynomial is triangular, so it is solved. *)
From Coq Require Import Znumtheory ZifyBool Setoid Morphisms Ring.
From Verif Require Import Prelude M_Bigint M_Variable M_Term M_Poly M_QSeries M_Solve M_Curve M_Modular Spec P_Bigint P_Variable P_FSum P_Poly P_Rem P_PolyProps P_Subst P_Subst2 P_Subst3 P_SubstProps P_Mod P_Q P_QProps P_Solve P_SolveProps P_Modular P_Modular2 P_ModRet.
Open Scope Z_scope.

(** a = c q^s + higher powers *)
Definition lead (s c : Z) (a : fsum) : Prop := ord_ge (s + 1) (fsub a [(qmono s, c)]).
Lemma lead_ord s c a : lead s c a -> ord_ge s a.
Proof.
  intros H m Hm. specialize (H m ltac:(lia)). unfold fsub in H. rewrite coef_app, coef_neg in H. cbn [coef] in H. rewrite mono_eqb_neq in H by (intros <-; cbn in Hm; lia). lia.
Qed.
Lemma lead_coef s c a : lead s c a -> coef a (qmono s) = c.
Proof. intros H. specialize (H (qmono s) ltac:(cbn; lia)). unfold fsub in H. rewrite coef_app, coef_neg in H. cbn [coef] in H. rewrite mono_eqb_refl in H. lia. Qed.
Lemma lead_conv s c t d a b : lead s c a -> lead t d b -> lead (s + t) (c * d) (conv a b).
Proof.
  intros Ha Hb. pose proof (lead_ord _ _ _ Ha) as Oa. unfold lead in *.
  assert (Oq : ord_ge t [(qmono t, d)]) by (apply ord_keys; intros m k [E|[]]; injection E; intros; subst; cbn; lia).
  assert (E : feq [(qmono (s + t), c * d)] (conv [(qmono s, c)] [(qmono t, d)])) by (intros m; reflexivity).
  apply (ord_ge_feq _ (fadd (conv a (fsub b [(qmono t, d)])) (conv (fsub a [(qmono s, c)]) [(qmono t, d)]))).
  - transitivity (fsub (conv a b) (conv [(qmono s, c)] [(qmono t, d)])); [|intros m; unfold fsub; rewrite !coef_app, !coef_neg, (E m); reflexivity]. generalize [(qmono s, c)], [(qmono t, d)]. intros u v. ring.
  - apply ord_add.
    + replace (s + t + 1) with (s + (t + 1)) by ring. apply ord_conv; assumption.
    + replace (s + t + 1) with (s + 1 + t) by ring. apply ord_conv; assumption.
Qed.
Lemma lead_one : lead 0 1 (fconst 1).
Proof. apply ord_zero. intros m. unfold fsub. rewrite coef_app, coef_neg. cbn. destruct (mono_eqb _ _); ring. Qed.
Lemma lead_fpow s a k : lead s 1 a -> lead (s * Z.of_nat k) 1 (fpow a k).
Proof.
  intros H. induction k as [|k IH]; [rewrite Z.mul_0_r; apply lead_one|]. cbn [fpow]. replace (s * Z.of_nat (S k)) with (s + s * Z.of_nat k) by lia. apply (lead_conv s 1 _ 1); assumption.
Qed.
Section J.
Variables (p : Z) (J : fsum).
Hypothesis Hp : 2 <= p.
Hypothesis PJ : keysP qpure J.
Hypothesis KJ : forall m c, In (m, c) J -> -1 <= mq m.
Hypothesis J1 : coef J (qmono (-1)) = 1.
Lemma lead_J : lead (-1) 1 J.
Proof.
  intros m Hm. unfold fsub. rewrite coef_app, coef_neg. cbn [coef]. destruct (mono_eq_dec m (qmono (-1))) as [->|Ne]; [rewrite mono_eqb_refl, J1; ring|].
  rewrite mono_eqb_neq by congruence. rewrite coef_absent; [ring|]. intros c Hc. pose proof (qpure_eq _ (PJ _ _ Hc)) as E. apply KJ in Hc. apply Ne. rewrite E. f_equal. lia.
Qed.
Lemma lead_Jp : lead (- p) 1 (fmap (qpower p) J).
Proof.
  intros m Hm. unfold fsub. rewrite coef_app, coef_neg. cbn [coef]. destruct (mono_eq_dec m (qmono (- p))) as [->|Ne].
  - rewrite mono_eqb_refl. replace (- p) with (p * -1) by ring. rewrite coef_fmap_q by lia. rewrite J1. ring.
  - rewrite mono_eqb_neq by congruence. rewrite coef_absent; [ring|]. intros c Hc. apply fmap_in in Hc. destruct Hc as (k & Hk & ->). pose proof (qpure_eq _ (PJ _ _ Hk)) as E. apply KJ in Hk. apply Ne. rewrite E in *. unfold qpower, qmono in *. cbn in *. f_equal. nia.
Qed.
Lemma kap_lead i j : 0 <= i -> 0 <= j -> lead (- (i + p * j)) 1 (conv (fpow J (Z.to_nat i)) (fpow (fmap (qpower p) J) (Z.to_nat j))).
Proof.
  intros Hi Hj. replace (- (i + p * j)) with (-1 * Z.of_nat (Z.to_nat i) + - p * Z.of_nat (Z.to_nat j)) by (rewrite !Z2Nat.id by lia; ring). apply (lead_conv _ 1 _ 1); apply lead_fpow; [apply lead_J|apply lead_Jp].
Qed.
Lemma kap_below i j k : 0 <= i -> 0 <= j -> k < - (i + p * j) -> kap p J k i j = 0.
Proof. intros Hi Hj Hk. unfold kap, kappa. apply (lead_ord _ _ _ (kap_lead i j Hi Hj)). exact Hk. Qed.
Lemma kap_at i j : 0 <= i -> 0 <= j -> kap p J (- (i + p * j)) i j = 1.
Proof. intros Hi Hj. apply (lead_coef _ _ _ (kap_lead i j Hi Hj)). Qed.
Definition dg (ij : Z * Z) : Z := fst ij + p * snd ij.
Lemma esum_below ij k : 0 <= fst ij <= snd ij -> k < - dg ij -> esum p J k ij = 0.
Proof.
  destruct ij as [i j]. unfold dg, esum. cbn [fst snd]. intros H Hk. rewrite kap_below by lia. destruct (Z.eqb_spec i j); [reflexivity|]. rewrite kap_below by nia. reflexivity.
Qed.
Lemma esum_at ij : 0 <= fst ij <= snd ij -> esum p J (- dg ij) ij = 1.
Proof.
  destruct ij as [i j]. unfold dg, esum. cbn [fst snd]. intros H. rewrite kap_at by lia. destruct (Z.eqb_spec i j); [reflexivity|]. rewrite kap_below by nia. reflexivity.
Qed.
Lemma dg_inj i j i' j' : 0 <= i <= j -> j <= p -> 0 <= i' <= j' -> j' <= p -> dg (i, j) = dg (i', j') -> i = i' /\ j = j'.
Proof. unfold dg. cbn [fst snd]. intros. assert (j = j') by nia. subst. lia. Qed.
End J.
Lemma fold_single (f : nat -> Z) l k : NoDup l -> In k l -> (forall x, In x l -> x <> k -> f x = 0) -> fold_right Z.add 0 (map f l) = f k.
Proof.
  intros Nd. induction Nd as [|x l Hx Nd IH]; intros Hi H; [destruct Hi|]. cbn [map fold_right]. destruct Hi as [->|Hi].
  - assert (Hz : forall l', (forall y, In y l' -> f y = 0) -> fold_right Z.add 0 (map f l') = 0).
    { induction l' as [|y l' IHl]; intros Hy; [reflexivity|]. cbn. rewrite Hy by (left; reflexivity). rewrite IHl by (intros; apply Hy; right; assumption). reflexivity. }
    rewrite (Hz l); [ring|]. intros y Hy. apply H; [right; exact Hy|]. intros ->. contradiction.
  - rewrite H by (try (left; reflexivity); intros ->; contradiction). rewrite IH; [ring|exact Hi|]. intros y Hy. apply H. right. exact Hy.
Qed.
Lemma system_trivial p J a (n := length (conv_pairs (p + 1))) : 2 <= p -> keysP qpure J -> (forall m c, In (m, c) J -> -1 <= mq m) -> coef J (qmono (-1)) = 1 ->
  length a = Z.to_nat (p * p + p + 1) ->
  (forall k, - (p * p + p) <= k <= 0 -> nth (Z.to_nat (k + (p * p + p))) a [] = map (esum p J k) (conv_pairs (p + 1)) ++ [cterm p J k]) ->
  forall x, solution n 0 a x -> forall l, (l < n)%nat -> x l = 0.
Proof.
  intros Hp PJ KJ J1 La Hrow x Hx.
  assert (G : forall (u : nat) l, (l < n)%nat -> p * p + p - dg p (nth l (conv_pairs (p + 1)) (0, 0)) < Z.of_nat u -> x l = 0).
  { induction u as [|u IH]; intros l Hl Hu.
    - exfalso. assert (Hi : In (nth l (conv_pairs (p + 1)) (0, 0)) (conv_pairs (p + 1))) by (apply nth_In, Hl). destruct (nth l (conv_pairs (p + 1)) (0, 0)) as [i j]. apply in_conv_pairs in Hi. unfold dg in Hu. cbn [fst snd] in Hu. nia.
    - set (ij := nth l (conv_pairs (p + 1)) (0, 0)) in *. assert (Hi : In ij (conv_pairs (p + 1))) by (apply nth_In, Hl). 
      assert (Hij : 0 <= fst ij <= snd ij /\ snd ij <= p) by (destruct ij as [i j]; apply in_conv_pairs in Hi; cbn [fst snd]; lia).
      assert (Hd : 0 <= dg p ij <= p * p + p) by (unfold dg; nia). set (k := - dg p ij). assert (Hk : - (p * p + p) <= k <= 0) by (unfold k; lia).
      assert (Hin : In (nth (Z.to_nat (k + (p * p + p))) a []) a) by (apply nth_In; rewrite La; lia).
      pose proof (Hx _ Hin) as E. rewrite Hrow in E by exact Hk. rewrite dot_map in E by reflexivity. rewrite Z.mul_0_l in E.
      rewrite (fold_single _ _ l) in E; [|apply seq_NoDup|apply in_seq; fold n; lia|].
      + fold ij in E. unfold k in E. rewrite (esum_at p J Hp PJ KJ J1 ij) in E by lia. lia.
      + intros l' Hl' Ne. apply in_seq in Hl'. fold n in Hl'. set (ij' := nth l' (conv_pairs (p + 1)) (0, 0)). assert (Hi' : In ij' (conv_pairs (p + 1))) by (apply nth_In; fold n; lia).
        assert (Hij' : 0 <= fst ij' <= snd ij' /\ snd ij' <= p) by (destruct ij' as [i j]; apply in_conv_pairs in Hi'; cbn [fst snd]; lia).
        destruct (Z.lt_trichotomy (dg p ij') (dg p ij)) as [L|[L|L]].
        * rewrite (esum_below p J Hp PJ KJ J1 ij' k) by (unfold k; lia). ring.
        * exfalso. apply Ne. assert (ij' = ij). { destruct ij as [i j], ij' as [i' j']. cbn [fst snd] in *. destruct (dg_inj p Hp i' j' i j) as (-> & ->); try lia; reflexivity. }
          unfold ij', ij in H. pose proof (proj1 (NoDup_nth (conv_pairs (p + 1)) (0, 0)) (NoDup_conv_pairs (p + 1)) l' l) as N. apply N; [fold n; lia|fold n; lia|exact H].
        * rewrite (IH l'); [ring|lia|]. fold ij'. lia. }
  intros l Hl. apply (G (Z.to_nat (p * p + p - dg p (nth l (conv_pairs (p + 1)) (0, 0)) + 1)) l Hl). lia.
Qed.
Lemma matrix_returns p L n : jroom p -> modular_template_list p = Ok L -> n = Z.of_nat (length (conv_pairs (p + 1))) -> exists a, modular_matrix p L (n + 1) = Ok a.
Proof.
  intros HR EL ->. destruct (template_list_bound p L EL) as (Pp & Bp). destruct (template_list_spec p L HR EL) as (T & J & _ & _ & _ & _ & _ & LL & HL). unfold modular_matrix. apply mapM_returns. intros pl Hpl.
  destruct (In_nth L pl [] Hpl) as (i & Hi & Ei). assert (Hi' : (i < Z.to_nat (p * p + p + 1))%nat) by (rewrite <- LL; exact Hi).
  destruct (HL (Z.of_nat i - (p * p + p)) ltac:(lia)) as (Sr & _ & Kr). replace (Z.to_nat (Z.of_nat i - (p * p + p) + (p * p + p))) with i in * by lia. rewrite Ei in *.
  assert (Hv : forall v, exists y, to_variable_coef pl v = Ok y) by (intros v; eexists; apply c38_variable_coef; [exact Sr|intros m c Hm; destruct (Kr _ _ Hm) as (w & ->); auto]).
  apply mapM_returns. intros col Hc. apply in_zrange in Hc. destruct (col <? _) eqn:X; [|apply Hv]. pose proof (vfi_nth p (Z.to_nat col) ltac:(lia) ltac:(lia)) as V. cbv zeta in V. rewrite Z2Nat.id in V by lia. rewrite V. cbn [bind]. apply Hv.
Qed.
Lemma assemble_returns p b (n := length (conv_pairs (p + 1))) : 2 <= p <= conv_max -> (n <= length b)%nat -> rectangular n b -> exists r, assemble p (Z.of_nat n + 1) b = Ok r.
Proof.
  intros Hp Lb (_ & Rb). unfold assemble. replace (Z.of_nat n + 1 - 1) with (Z.of_nat n) by lia.
  destruct (foldM_returns (fun _ => True) (assemble_step p (Z.of_nat n + 1) b) (zrange 0 (Z.of_nat n))) with (s := p_new) as (s & -> & _); [|exact I|].
  - intros t k Hk _. apply in_zrange in Hk. unfold assemble_step. pose proof (vfi_nth p (Z.to_nat k) ltac:(lia) ltac:(unfold n in Hk; lia)) as V. cbv zeta in V. rewrite Z2Nat.id in V by lia. rewrite V. cbn [bind].
    replace (Z.of_nat n + 1 - 1) with (Z.of_nat n) by lia. rewrite Nat2Z.id.
    assert (exists v, mget b (Z.to_nat k) n = Ok v) as (v & ->).
    { unfold mget, vget. destruct (nth_error b (Z.to_nat k)) as [row|] eqn:E; [|apply nth_error_None in E; lia]. cbn [bind]. apply nth_error_In in E. apply Rb in E. destruct (nth_error row n) eqn:E'; [eexists; reflexivity|]. apply nth_error_None in E'. lia. }
    cbn [bind]. eexists. split; [reflexivity|exact I].
  - cbn [bind]. rewrite i32_ok by (unfold conv_max, i32_min, i32_max in *; lia). cbn [bind]. eexists. reflexivity.
Qed.
Lemma modular_returns p : prime p -> proom p -> exists r, modular_polynomial p = Ok r.
Proof.
  intros Pp R. assert (Hp : 2 <= p) by (destruct Pp; lia). pose proof (proom_j p Hp R) as RJ. destruct (template_list_returns p Pp R) as (L & EL). destruct (template_list_bound p L EL) as (_ & Bp).
  unfold modular_polynomial. rewrite EL. cbn [bind]. unfold converter_new. destruct (2 <=? p) eqn:X; [|lia]. cbn [assertb bind]. rewrite (proj2 (is_prime_spec p) Pp). cbn [negb bind].
  rewrite conv_count_spec by (unfold conv_max, i32_max in *; lia). cbn [bind].
  assert (E: (p + 1) * (p + 2) / 2 = Z.of_nat (length (conv_pairs (p + 1)))). { pose proof (length_conv_pairs (p + 1) ltac:(lia)). replace ((p + 1) * (p + 2)) with (Z.of_nat (length (conv_pairs (p + 1))) * 2) by lia. apply Z.div_mul. lia. }
  rewrite E. destruct (matrix_returns p L _ RJ EL eq_refl) as (a & Ea). rewrite Ea. cbn [bind].
  destruct (c43_j (p * p + p) ltac:(nia) RJ) as (j1 & J & _ & EJ & _ & _ & J1 & KJ).
  assert (KJ': forall m d, In (m, d) J -> -1 <= mq m) by (intros m d Hi; destruct (KJ _ _ Hi) as (z & Hz' & ->); cbn; lia).
  assert (PJ: keysP qpure J) by (apply (j_pure (p * p + p)); [nia|exact RJ|exact EJ]).
  destruct (matrix_spec p L J RJ EL EJ a Ea) as (La & Ra & Hrow).
  destruct (proj1 (c44_returns _ a Ra)) as (b & Eb); [apply (system_trivial p J a Hp PJ KJ' J1 La Hrow)|]. rewrite Eb. cbn [bind].
  destruct (c44_solve _ a b Ra Eb) as (Rb & _ & Ln & _). apply assemble_returns; assumption.
Qed.
