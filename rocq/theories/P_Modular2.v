(** The modular polynomial: matrix, solution, result. *)
From Coq Require Import Znumtheory ZifyBool Setoid Morphisms Ring.
From Verif Require Import Prelude M_Bigint M_Variable M_Term M_Poly M_QSeries M_Solve M_Curve M_Modular Spec P_Bigint P_Variable P_FSum P_Poly P_Rem P_PolyProps P_Subst P_Subst2 P_Subst3 P_SubstProps P_Mod P_Q P_QProps P_Solve P_SolveProps P_Modular.
Open Scope Z_scope.

Lemma vfi_nth p k : 0 <= p <= conv_max -> (k < length (conv_pairs (p + 1)))%nat ->
  let ij := nth k (conv_pairs (p + 1)) (0, 0) in variable_from_index p (Z.of_nat k) = Ok (mkSV (fst ij) (snd ij) false).
Proof.
  intros Hp Hk. cbv zeta. unfold variable_from_index. pose proof (conv_size p Hp). rewrite i32_ok by (unfold conv_max, i32_min, i32_max in *; lia). cbn [bind].
  rewrite variable_search_spec by (unfold i32_max in *; lia). rewrite as_i32_small by (unfold i32_max in *; lia). rewrite Z.sub_0_r, Nat2Z.id.
  rewrite (nth_error_nth' (conv_pairs (p + 1)) (0, 0) Hk). destruct (nth k (conv_pairs (p + 1)) (0, 0)). destruct (_ && _) eqn:E; [reflexivity|]. lia.
Qed.
Fixpoint pos (ij : Z * Z) (l : list (Z * Z)) : nat :=
  match l with [] => O | x :: r => if (fst x =? fst ij) && (snd x =? snd ij) then O else S (pos ij r) end.
Lemma pos_nth l : NoDup l -> forall k, (k < length l)%nat -> pos (nth k l (0, 0)) l = k.
Proof.
  intros Nd. induction Nd as [|[x y] l Hx Nd IH]; intros k Hk; [cbn in Hk; lia|]. destruct k as [|k]; cbn [nth pos fst snd].
  - rewrite !Z.eqb_refl. reflexivity.
  - cbn in Hk. assert (In (nth k l (0, 0)) l) by (apply nth_In; lia). destruct (nth k l (0, 0)) as [i j] eqn:E. cbn [fst snd].
    destruct ((x =? i) && (y =? j)) eqn:B; [exfalso; apply andb_true_iff in B; destruct B as (B1 & B2); apply Z.eqb_eq in B1, B2; subst; contradiction|]. rewrite <- E, IH by lia. reflexivity.
Qed.
Lemma pos_in l ij : In ij l -> (pos ij l < length l)%nat /\ nth (pos ij l) l (0, 0) = ij.
Proof.
  induction l as [|[x y] l IH]; intros H; [destruct H|]. cbn [pos length fst snd]. destruct ij as [i j]. cbn [fst snd] in *. destruct ((x =? i) && (y =? j)) eqn:B.
  - apply andb_true_iff in B. destruct B as (B1 & B2). apply Z.eqb_eq in B1, B2. subst. split; [lia|reflexivity].
  - destruct H as [E|H]; [injection E; intros; subst; rewrite !Z.eqb_refl in B; discriminate|]. destruct (IH H) as (A & C). split; [lia|exact C].
Qed.
Lemma flat_map_seq_nth {A B} (f : A -> list B) (l : list A) d : flat_map (fun k => f (nth k l d)) (seq 0 (length l)) = flat_map f l.
Proof. rewrite <- (map_nth_seq l d) at 2. rewrite !flat_map_concat_map, map_map. reflexivity. Qed.
Lemma mget_inv b i k v : mget b i k = Ok v -> (i < length b)%nat /\ (k < length (nth i b []))%nat /\ nth k (nth i b []) 0 = v.
Proof.
  unfold mget, vget. destruct (nth_error b i) as [r|] eqn:E; [|discriminate]. cbn [bind]. destruct (nth_error r k) as [x|] eqn:E'; [|discriminate]. intros H. apply Ok_inj in H. subst x.
  split; [apply nth_error_Some; congruence|]. rewrite (nth_error_nth b i [] E). split; [apply nth_error_Some; congruence|]. apply nth_error_nth, E'.
Qed.
Definition solved (p : Z) (b : list (list Z)) (i j : Z) : Z := - nth (length (conv_pairs (p + 1))) (nth (pos (i, j) (conv_pairs (p + 1))) b []) 0.
Lemma assemble_spec p b r : 0 <= p <= conv_max -> assemble p (Z.of_nat (length (conv_pairs (p + 1))) + 1) b = Ok r ->
  sorted r /\ feq r (sterms p false (solved p b)).
Proof.
  intros Hp H. unfold assemble in H. apply bind_Ok in H. destruct H as (s & H & H'). apply bind_Ok in H'. destruct H' as (p1 & E1 & H'). apply i32_inv in E1. destruct E1 as (-> & B1). apply Ok_inj in H'. subst r.
  set (n := length (conv_pairs (p + 1))) in *. replace (Z.of_nat n + 1 - 1) with (Z.of_nat n) in H by lia.
  match type of H with foldM ?f _ _ = _ => set (F := f) in H end.
  destruct (foldM_sum F (fun k => stermsv false (solved p b) (nth (Z.to_nat k) (conv_pairs (p + 1)) (0, 0))) 0 (zrange 0 (Z.of_nat n))) with (s := p_new) (s' := s) as (S1 & F1); [|exact I|exact H|].
  { intros t k t' Hk St E. apply in_zrange in Hk. unfold F, assemble_step in E. assert (Hk': (Z.to_nat k < n)%nat) by lia.
    pose proof (vfi_nth p (Z.to_nat k) Hp Hk') as V. cbv zeta in V. rewrite Z2Nat.id in V by lia. rewrite V in E. cbn [bind sv_i sv_j] in E.
    apply bind_Ok in E. destruct E as (val & Ev & E). apply Ok_inj in E. replace (Z.of_nat n + 1 - 1) with (Z.of_nat n) in Ev by lia. rewrite Nat2Z.id in Ev. apply mget_inv in Ev. destruct Ev as (_ & _ & Ev).
    assert (Sv: solved p b (fst (nth (Z.to_nat k) (conv_pairs (p + 1)) (0, 0))) (snd (nth (Z.to_nat k) (conv_pairs (p + 1)) (0, 0))) = - val).
    { unfold solved. rewrite <- surjective_pairing. rewrite pos_nth; [|apply NoDup_conv_pairs|exact Hk']. fold n. rewrite Ev. reflexivity. }
    set (ij := nth (Z.to_nat k) (conv_pairs (p + 1)) (0, 0)) in *. unfold stermsv. rewrite Sv. destruct ij as [i j]. cbn [fst snd] in *. unfold tb_build, tb_ypow, tb_xpow, tb_coef, tb_new in E. cbn in E. destruct (i =? j); cbn [negb] in E; subst t'.
    - match goal with |- sorted (p_add_assign_t ?a ?u) /\ _ => destruct (p_add_assign_t_feq a u St) as (Sa & Fa) end. split; [exact Sa|]. apply feqm_0. rewrite Fa. reflexivity.
    - match goal with |- sorted (p_add_assign_t (p_add_assign_t ?a ?u) ?w) /\ _ => destruct (p_add_assign_t_feq a u St) as (Sa & Fa); destruct (p_add_assign_t_feq (p_add_assign_t a u) w Sa) as (Sb & Fb) end. split; [exact Sb|]. apply feqm_0. rewrite Fb, Fa. unfold fadd. rewrite <- app_assoc. reflexivity. }
  apply (proj1 (feqm_0 _ _)) in F1.
  match goal with |- sorted (p_add_assign_t (p_add_assign_t ?a ?u) ?w) /\ _ => destruct (p_add_assign_t_feq a u S1) as (Sa & Fa); destruct (p_add_assign_t_feq (p_add_assign_t a u) w Sa) as (Sb & Fb) end.
  split; [exact Sb|]. rewrite Fb, Fa, F1. unfold sterms. 
  assert (E: flat_map (fun k => stermsv false (solved p b) (nth (Z.to_nat k) (conv_pairs (p + 1)) (0, 0))) (zrange 0 (Z.of_nat n)) = flat_map (stermsv false (solved p b)) (conv_pairs (p + 1))).
  { rewrite <- (flat_map_seq_nth (stermsv false (solved p b)) (conv_pairs (p + 1)) (0, 0)). unfold zrange. rewrite flat_map_concat_map, map_map, <- flat_map_concat_map. rewrite Z.sub_0_r, Nat2Z.id. apply flat_map_ext. intros a. f_equal. f_equal. lia. }
  rewrite E. intros m. unfold fadd, p_new. cbn [app]. rewrite !coef_app. cbn [coef tm tc tb_build tb_xpow tb_ypow tb_new]. unfold xymono. cbn. ring.
Qed.
Lemma template_list_bound p L : modular_template_list p = Ok L -> prime p /\ 2 <= p <= conv_max.
Proof.
  intros H. unfold modular_template_list in H. apply bind_Ok in H. destruct H as (pq & Hq & H). apply bind_Ok in H. destruct H as (pp & Epp & H). apply i32_pow_2 in Epp. destruct Epp as (-> & Bpp).
  unfold modular_template_q in Hq. apply bind_Ok in Hq. destruct Hq as (T & ET & Hq). destruct (modular_template_spec p T ET) as (Pp & _). assert (2 <= p) by (destruct Pp; lia). split; [exact Pp|]. split; [lia|].
  unfold i32_range, i32_max, conv_max in *. nia.
Qed.
Lemma modular_inv p r : modular_polynomial p = Ok r -> prime p /\ 2 <= p <= conv_max /\ exists L a b, modular_template_list p = Ok L /\
  modular_matrix p L (Z.of_nat (length (conv_pairs (p + 1))) + 1) = Ok a /\ solve a = Ok b /\ assemble p (Z.of_nat (length (conv_pairs (p + 1))) + 1) b = Ok r.
Proof.
  intros H. unfold modular_polynomial in H. apply bind_Ok in H. destruct H as (L & EL & H). destruct (template_list_bound p L EL) as (Pp & Bp). split; [exact Pp|]. split; [exact Bp|].
  apply bind_Ok in H. destruct H as (p' & Ep & H). assert (p' = p). { unfold converter_new in Ep. apply bind_Ok in Ep. destruct Ep as (u & _ & Ep). destruct (negb (is_prime p)); [discriminate|]. congruence. } subst p'.
  apply bind_Ok in H. destruct H as (cnt & Ec & H). rewrite conv_count_spec in Ec by (unfold conv_max, i32_max in *; lia). apply Ok_inj in Ec. subst cnt.
  assert (E: (p + 1) * (p + 2) / 2 = Z.of_nat (length (conv_pairs (p + 1)))). { pose proof (length_conv_pairs (p + 1) ltac:(lia)). replace ((p + 1) * (p + 2)) with (Z.of_nat (length (conv_pairs (p + 1))) * 2) by lia. apply Z.div_mul. lia. }
  rewrite E in H. cbv zeta in H. apply bind_Ok in H. destruct H as (a & Ea & H). apply bind_Ok in H. destruct H as (b & Eb & H). exists L, a, b. auto.
Qed.
Lemma modular_shape p r : modular_polynomial p = Ok r -> sorted r /\ exists c, symmetric_shape p c r.
Proof.
  intros H. destruct (modular_inv p r H) as (Pp & Bp & L & a & b & EL & Ea & Eb & Er). destruct (assemble_spec p b r ltac:(lia) Er) as (Sr & Fr). split; [exact Sr|].
  exists (solved p b). destruct (sterms_shape p (solved p b) ltac:(lia)) as (A & B & C & D). split; [|split; [|split]].
  - intros i j Hi Hj. rewrite (Fr _). apply A; assumption.
  - rewrite (Fr _). exact B.
  - rewrite (Fr _). exact C.
  - intros m Hm. rewrite (Fr _). apply D, Hm.
Qed.

(** The matrix *)
Lemma matrix_spec p L J : jroom p -> modular_template_list p = Ok L -> j_invariant (p * p + p) = Ok J ->
  let n := length (conv_pairs (p + 1)) in
  forall a, modular_matrix p L (Z.of_nat n + 1) = Ok a -> length a = Z.to_nat (p * p + p + 1) /\ rectangular n a /\
    forall k, - (p * p + p) <= k <= 0 -> nth (Z.to_nat (k + (p * p + p))) a [] = map (esum p J k) (conv_pairs (p + 1)) ++ [cterm p J k].
Proof.
  intros HR EL EJ n a Ea. destruct (template_list_bound p L EL) as (Pp & Bp). destruct (template_list_spec p L HR EL) as (T & J' & ET & EJ' & _ & PJ & SJ & LL & HL). assert (J' = J) by congruence. subst J'.
  destruct (modular_template_spec p T ET) as (_ & _ & ST & FT). unfold modular_matrix in Ea. destruct (mapM_inv _ _ a [] [] Ea) as (La & Na). assert (LL': @length poly L = Z.to_nat (p * p + p + 1)) by exact LL. assert (La' : length a = Z.to_nat (p * p + p + 1)) by (etransitivity; [exact La|exact LL]). clear La. rename La' into La. assert (Na' : forall i, (i < Z.to_nat (p * p + p + 1))%nat -> mapM (fun col => if col <? Z.of_nat n + 1 - 1 then v <- variable_from_index p col ;; to_variable_coef (nth i L []) (canon v) else to_variable_coef (nth i L []) (canon sv_new)) (zrange 0 (Z.of_nat n + 1)) = Ok (nth i a [])) by (intros i Hi; apply Na; rewrite <- LL in Hi; exact Hi). clear Na. rename Na' into Na.
  assert (Hr: forall k, - (p * p + p) <= k <= 0 -> nth (Z.to_nat (k + (p * p + p))) a [] = map (esum p J k) (conv_pairs (p + 1)) ++ [cterm p J k]).
  { intros k Hk. assert (Hk': (Z.to_nat (k + (p * p + p)) < Z.to_nat (p * p + p + 1))%nat) by lia. specialize (Na _ Hk'). destruct (HL k Hk) as (Sr & Cr & Kr).
    set (pl := nth (Z.to_nat (k + (p * p + p))) L []) in *. set (row := nth (Z.to_nat (k + (p * p + p))) a []) in *.
    destruct (mapM_inv _ _ row 0 0 Na) as (Lr & Nr). rewrite zrange_length, Z.sub_0_r in Lr, Nr.
    assert (Hv: forall v, to_variable_coef pl v = Ok (coef (jsubst p (tterms p) J) (mkMono 0 0 k v))).
    { intros v. rewrite c38_variable_coef; [|exact Sr|intros m c Hi; destruct (Kr _ _ Hi) as (w & ->); auto]. f_equal. rewrite Cr. apply jsubst_feq, FT. }
    apply (nth_ext _ _ 0 0).
    - rewrite Lr, app_length, map_length. cbn. fold n. lia.
    - intros i Hi. rewrite Lr in Hi. specialize (Nr i Hi). rewrite nth_zrange in Nr by lia. cbn [Z.add] in Nr. destruct (Z.ltb_spec (Z.of_nat i) (Z.of_nat n + 1 - 1)) as [Hin|Hin].
      + assert (Hi': (i < n)%nat) by lia. pose proof (vfi_nth p i ltac:(lia) Hi') as V. cbv zeta in V. rewrite V in Nr. cbn [bind canon sv_empty sv_i sv_j] in Nr. rewrite Hv in Nr. apply Ok_inj in Nr. rewrite <- Nr.
        rewrite app_nth1 by (rewrite map_length; exact Hi'). rewrite (nth_indep _ 0 (esum p J k (0, 0))) by (rewrite map_length; exact Hi'). rewrite map_nth.
        assert (Hx: In (nth i (conv_pairs (p + 1)) (0, 0)) (conv_pairs (p + 1))) by (apply nth_In, Hi'). destruct (nth i (conv_pairs (p + 1)) (0, 0)) as [x y]. apply in_conv_pairs in Hx. cbn [fst snd].
        apply tterms_var; [exact PJ|lia|lia].
      + assert (i = n) by lia. subst i. cbn [canon sv_new sv_empty] in Nr. rewrite Hv in Nr. apply Ok_inj in Nr. rewrite <- Nr. rewrite app_nth2 by (rewrite map_length; fold n; lia). rewrite map_length. fold n. rewrite Nat.sub_diag. cbn [nth].
        apply tterms_const, PJ. }
  split; [exact La|]. split; [|exact Hr]. split; [intros ->; cbn in La; nia|]. intros row Hi. destruct (In_nth a row [] Hi) as (i & Hi' & <-).
  replace i with (Z.to_nat ((Z.of_nat i - (p * p + p)) + (p * p + p))) by lia. rewrite Hr by lia. rewrite app_length, map_length. cbn. fold n. lia.
Qed.
Lemma dot_map n f l v x : length l = n -> dot n (map f l ++ [v]) x = fold_right Z.add 0 (map (fun k => f (nth k l (0, 0)) * x k) (seq 0 n)).
Proof.
  intros H. unfold dot. f_equal. apply map_ext_in. intros k Hk. apply in_seq in Hk. rewrite app_nth1 by (rewrite map_length; lia). rewrite (nth_indep _ 0 (f (0, 0))) by (rewrite map_length; lia). rewrite map_nth. reflexivity.
Qed.
Lemma psum_seq f l : psum f l = fold_right Z.add 0 (map (fun k => f (nth k l (0, 0))) (seq 0 (length l))).
Proof. unfold psum. rewrite <- (map_nth_seq l (0, 0)) at 1. rewrite map_map. reflexivity. Qed.
Lemma conv_pairs_0 p1 : 2 <= p1 -> nth 0 (conv_pairs p1) (0, 0) = (0, 1).
Proof.
  intros H. unfold conv_pairs, zrange. replace (Z.to_nat (p1 - 0)) with (S (Z.to_nat (p1 - 1))) by lia. cbn [seq map flat_map]. change (Z.of_nat 0) with 0. replace (Z.to_nat (p1 - (0 + 0 + 1))) with (S (Z.to_nat (p1 - 2))) by lia.
  cbn [seq map app nth]. reflexivity.
Qed.
Lemma coef_fmap_q J p k : p <> 0 -> coef (fmap (qpower p) J) (qmono (p * k)) = coef J (qmono k).
Proof.
  intros Hp. unfold fmap. induction J as [|[m c] J IH]; [reflexivity|]. cbn [map coef fst snd]. rewrite IH. f_equal.
  destruct (mono_eq_dec m (qmono k)) as [->|Ne].
  - rewrite mono_eqb_refl. unfold qpower, qmono. cbn. replace (k * p) with (p * k) by ring. rewrite mono_eqb_refl. reflexivity.
  - rewrite (mono_eqb_neq m) by exact Ne. rewrite mono_eqb_neq; [reflexivity|]. intros E. apply Ne. unfold qpower, qmono in *. destruct m as [x y q v]. cbn in *. injection E; intros; subst. f_equal. apply (Z.mul_reg_r _ _ p); [exact Hp|lia].
Qed.
Lemma coef_absent a m : (forall c, ~ In (m, c) a) -> coef a m = 0.
Proof.
  induction a as [|[k d] a IH]; intros H; [reflexivity|]. cbn. rewrite IH by (intros c Hc; apply (H c); right; exact Hc). rewrite mono_eqb_neq; [reflexivity|]. intros ->. apply (H d). left. reflexivity.
Qed.
Lemma esum_01 p J k : 2 <= p -> keysP qpure J -> (forall m c, In (m, c) J -> -1 <= mq m) -> coef J (qmono (-1)) = 1 -> k <= - p -> esum p J k (0, 1) = if k =? - p then 1 else 0.
Proof.
  intros Hp PJ KJ J1 Hk. unfold esum, kap, kappa. cbn [fst snd]. change (Z.to_nat 0) with 0%nat. change (Z.to_nat 1) with 1%nat. cbn [Z.eqb fpow].
  assert (E1: coef (conv (fconst 1) (conv (fmap (qpower p) J) (fconst 1))) (qmono k) = coef (fmap (qpower p) J) (qmono k)).
  { assert (F: feq (conv (fconst 1) (conv (fmap (qpower p) J) (fconst 1))) (fmap (qpower p) J)) by ring. apply F. }
  assert (E2: coef (conv (conv J (fconst 1)) (fconst 1)) (qmono k) = coef J (qmono k)).
  { assert (F: feq (conv (conv J (fconst 1)) (fconst 1)) J) by (generalize J; intros u; ring). apply F. }
  rewrite E1, E2. rewrite (coef_absent J); [|intros c Hc; apply KJ in Hc; cbn in Hc; lia].
  destruct (Z.eqb_spec k (- p)) as [->|Ne].
  - replace (- p) with (p * -1) by ring. rewrite coef_fmap_q by lia. rewrite J1. reflexivity.
  - rewrite coef_absent; [reflexivity|]. intros c Hc. apply fmap_in in Hc. destruct Hc as (m & Hm & E). apply KJ in Hm. destruct m as [x y q v]. unfold qpower, qmono in E. cbn in *. injection E; intros. nia.
Qed.

Lemma modular_unique p Phi Psi J c : jroom p -> modular_polynomial p = Ok Phi -> j_invariant (p * p + p) = Ok J ->
  symmetric_shape p c Psi -> (forall k, - (p * p + p) <= k <= 0 -> coef (jsubst p Psi J) (qmono k) = 0) -> feq Phi Psi.
Proof.
  intros HR H EJ HPsi Hz. destruct (modular_inv p Phi H) as (Pp & Bp & L & a & b & EL & Ea & Eb & Er). destruct (assemble_spec p b Phi ltac:(lia) Er) as (Sr & Fr).
  destruct (matrix_spec p L J HR EL EJ a Ea) as (La & Ra & Hrow). set (n := length (conv_pairs (p + 1))) in *.
  assert (PJ: keysP qpure J) by (apply (j_pure (p * p + p)); [nia|exact HR|exact EJ]).
  set (x := fun k => - c (fst (nth k (conv_pairs (p + 1)) (0, 0))) (snd (nth k (conv_pairs (p + 1)) (0, 0)))).
  assert (Hx: solution n 1 a x).
  { intros row Hi. destruct (In_nth a row [] Hi) as (i & Hi' & <-). set (k := Z.of_nat i - (p * p + p)). assert (Hk: - (p * p + p) <= k <= 0) by (unfold k; lia).
    replace i with (Z.to_nat (k + (p * p + p))) by (unfold k; lia). rewrite Hrow by exact Hk. rewrite dot_map by reflexivity. rewrite app_nth2, map_length by (rewrite map_length; unfold n; lia). fold n. rewrite Nat.sub_diag. cbn [nth].
    assert (F: feq Psi (sterms p false c)) by (apply (shape_unique p c c); [exact HPsi|apply sterms_shape; lia|reflexivity]).
    specialize (Hz k Hk). rewrite (jsubst_feq p Psi _ J _ F) in Hz. unfold qmono in Hz. rewrite jsubst_sterms in Hz by exact PJ. cbn [var_eqb] in Hz. rewrite psum_seq in Hz. fold n in Hz.
    assert (N: forall l : list nat, fold_right Z.add 0 (map (fun k0 => esum p J k (nth k0 (conv_pairs (p + 1)) (0, 0)) * x k0) l) = - fold_right Z.add 0 (map (fun k0 => c (fst (nth k0 (conv_pairs (p + 1)) (0, 0))) (snd (nth k0 (conv_pairs (p + 1)) (0, 0))) * esum p J k (nth k0 (conv_pairs (p + 1)) (0, 0))) l)).
    { induction l as [|y l IH]; [reflexivity|]. cbn [map fold_right]. rewrite IH. unfold x. ring. }
    rewrite N. lia. }
  assert (Hn: (0 < n)%nat). { pose proof (length_conv_pairs (p + 1) ltac:(lia)). unfold n. nia. }
  destruct (c45_normalises_partial n a b x Ra Eb Hx) as (N1 & N0). destruct (N0 Hn) as (_ & N0'). clear N0.
  assert (B00: nth 0 (nth 0 b []) 0 = 1).
  { destruct (c45_first_pivot_partial n a b Ra Hn Eb) as (r & Hr & Hf & Hne & ->).
    destruct (c43_j (p * p + p) ltac:(nia) HR) as (j1 & J' & _ & EJ' & _ & _ & J1 & KJ). assert (J' = J) by congruence. subst J'.
    assert (KJ': forall m d, In (m, d) J -> -1 <= mq m) by (intros m d Hi; destruct (KJ _ _ Hi) as (z & Hz' & ->); cbn; lia).
    assert (C0: forall k, - (p * p + p) <= k <= - p -> nth 0 (nth (Z.to_nat (k + (p * p + p))) a []) 0 = if k =? - p then 1 else 0).
    { intros k Hk. rewrite Hrow by lia. rewrite app_nth1 by (rewrite map_length; exact Hn). rewrite (nth_indep _ 0 (esum p J k (0, 0))) by (rewrite map_length; exact Hn). rewrite map_nth, conv_pairs_0 by lia. apply esum_01; [lia|exact PJ|exact KJ'|exact J1|lia]. }
    set (k := Z.of_nat r - (p * p + p)). assert (Hk: k <= - p).
    { destruct (Z.le_gt_cases k (- p)) as [K|K]; [exact K|]. exfalso. specialize (Hf (Z.to_nat (- p + (p * p + p))) ltac:(unfold k in K; nia)). rewrite C0 in Hf by nia. rewrite Z.eqb_refl in Hf. discriminate. }
    replace r with (Z.to_nat (k + (p * p + p))) in * by (unfold k; lia). rewrite C0 in * by (unfold k in *; nia). destruct (k =? - p); [reflexivity|]. contradiction. }
  rewrite Fr. apply (shape_unique p (solved p b) c); [apply sterms_shape; lia|exact HPsi|].
  intros i j Hij Hj. assert (Hin: In (i, j) (conv_pairs (p + 1))) by (apply in_conv_pairs; lia). destruct (pos_in _ _ Hin) as (Hp & Np). unfold solved. fold n. set (k := pos (i, j) (conv_pairs (p + 1))) in *.
  assert (Xk: nth n (nth k b []) 0 = x k). { destruct (Nat.eq_dec k 0) as [E0|Ne]; [rewrite E0; apply N0', B00|]. apply N1. fold n in Hp. lia. }
  rewrite Xk. unfold x. rewrite Np. cbn [fst snd]. ring.
Qed.

(** ** Longer series do not change the equations *)
Lemma ord_zero k a : feq a [] -> ord_ge k a.
Proof. intros H m _. rewrite (H m). reflexivity. Qed.
Lemma ord_le k k' a : k' <= k -> ord_ge k a -> ord_ge k' a.
Proof. intros H Ha m Hm. apply Ha. lia. Qed.
Lemma ord_fpow_neg d a k : ord_ge (- d) a -> ord_ge (- (d * Z.of_nat k)) (fpow a k).
Proof.
  intros H. induction k as [|k IH]; [rewrite Z.mul_0_r; apply (ord_const 1)|]. cbn [fpow]. replace (- (d * Z.of_nat (S k))) with (- d + - (d * Z.of_nat k)) by lia. apply ord_conv; assumption.
Qed.
Lemma fpow_diff d e a b k : ord_ge (- d) a -> ord_ge (- d) b -> ord_ge e (fsub a b) -> ord_ge (e - d * (Z.of_nat k - 1)) (fsub (fpow a k) (fpow b k)).
Proof.
  intros Ha Hb H. induction k as [|k IH].
  - apply ord_zero. cbn [fpow]. intros m. unfold fsub. rewrite coef_app, coef_neg. cbn [coef]. ring.
  - cbn [fpow]. apply (ord_ge_feq _ (fadd (conv a (fsub (fpow a k) (fpow b k))) (conv (fsub a b) (fpow b k)))); [ring|]. apply ord_add.
    + replace (e - d * (Z.of_nat (S k) - 1)) with (- d + (e - d * (Z.of_nat k - 1))) by lia. apply ord_conv; assumption.
    + replace (e - d * (Z.of_nat (S k) - 1)) with (e + - (d * Z.of_nat k)) by lia. apply ord_conv; [exact H|apply ord_fpow_neg, Hb].
Qed.
Lemma ord_keys k a : (forall m c, In (m, c) a -> k <= mq m) -> ord_ge k a.
Proof. intros H m Hm. apply coef_absent. intros c Hc. apply H in Hc. lia. Qed.
Lemma kap_stable p N J K k i j : 1 <= p -> 0 <= i -> 0 <= j -> k <= 0 -> i + p * j <= N + 1 ->
  (forall m c, In (m, c) J -> -1 <= mq m) -> (forall m c, In (m, c) K -> -1 <= mq m) -> (forall m, mq m <= N -> coef J m = coef K m) ->
  kap p J k i j = kap p K k i j.
Proof.
  intros Hp Hi Hj Hk Hb KJ KK HE. unfold kap, kappa.
  assert (A: forall X, (forall m c, In (m, c) X -> -1 <= mq m) -> ord_ge (- p) (fmap (qpower p) X)).
  { intros X HX. apply ord_keys. intros m c Hm. apply fmap_in in Hm. destruct Hm as (m' & Hm & ->). apply HX in Hm. cbn. nia. }
  assert (E1: ord_ge (N + 1) (fsub J K)) by (intros m Hm; unfold fsub; rewrite coef_app, coef_neg, HE by lia; ring).
  assert (E2: ord_ge (p * (N + 1)) (fsub (fmap (qpower p) J) (fmap (qpower p) K))).
  { apply (ord_ge_feq _ (fmap (qpower p) (fsub J K))). { unfold fsub, fmap. rewrite map_app. unfold fneg. rewrite !map_map. reflexivity. }
    apply (ord_ge_feq _ (fmap (qpower p) (filter (fun e => N + 1 <=? mq (fst e)) (fsub J K)))).
    { intros m. rewrite !coef_lin. unfold fmap. assert (L: forall a : fsum, lin (delta m) (map (fun e => (qpower p (fst e), snd e)) a) = lin (fun t => delta m (qpower p t)) a).
      { induction a as [|[t c] a IH]; [reflexivity|]. cbn [map lin fst snd]. rewrite IH. reflexivity. }
      rewrite !L. symmetry. apply feq_lin. apply ord_filter, E1. }
    apply ord_keys. intros m c Hm. apply fmap_in in Hm. destruct Hm as (m' & Hm & ->). apply filter_In in Hm. destruct Hm as (_ & Hm). cbn [fst] in Hm. cbn. nia. }
  assert (OJ: ord_ge (- (1)) J) by (apply ord_keys; exact KJ). assert (OK': ord_ge (- (1)) K) by (apply ord_keys; exact KK).
  pose proof (fpow_diff 1 (N + 1) J K (Z.to_nat i) OJ OK' E1) as D1. pose proof (fpow_diff p (p * (N + 1)) _ _ (Z.to_nat j) (A J KJ) (A K KK) E2) as D2. rewrite Z2Nat.id in D1, D2 by lia.
  pose proof (ord_fpow_neg p _ (Z.to_nat j) (A J KJ)) as O1. pose proof (ord_fpow_neg 1 _ (Z.to_nat i) OK') as O2. rewrite Z2Nat.id in O1, O2 by lia.
  set (u := fpow J (Z.to_nat i)) in *. set (u' := fpow K (Z.to_nat i)) in *. set (w := fpow (fmap (qpower p) J) (Z.to_nat j)) in *. set (w' := fpow (fmap (qpower p) K) (Z.to_nat j)) in *.
  assert (D: ord_ge 1 (fsub (conv u w) (conv u' w'))).
  { apply (ord_ge_feq _ (fadd (conv (fsub u u') w) (conv u' (fsub w w')))); [ring|]. apply ord_add.
    - apply (ord_le (N + 1 - 1 * (i - 1) + - (p * j))); [lia|]. apply ord_conv; assumption.
    - apply (ord_le (- (1 * i) + (p * (N + 1) - p * (j - 1)))); [nia|]. apply ord_conv; assumption. }
  specialize (D (qmono k) ltac:(cbn; lia)). unfold fsub in D. rewrite coef_app, coef_neg in D. lia.
Qed.
Lemma jsubst_stable p T J K k v : 2 <= p -> feq T (tterms p) -> keysP qpure J -> keysP qpure K -> k <= 0 ->
  (forall m c, In (m, c) J -> -1 <= mq m) -> (forall m c, In (m, c) K -> -1 <= mq m) -> (forall m, mq m <= p * p + p -> coef J m = coef K m) ->
  coef (jsubst p T J) (mkMono 0 0 k v) = coef (jsubst p T K) (mkMono 0 0 k v).
Proof.
  intros Hp FT PJ PK Hk KJ KK HE. rewrite !(jsubst_feq p T _ _ _ FT), tterms_eq. rewrite !jsubst_sterms by assumption.
  assert (S: forall i j, 0 <= i -> 0 <= j -> i + p * j <= p * p + p + 1 -> kap p J k i j = kap p K k i j).
  { intros i j Hi Hj Hij. apply (kap_stable p (p * p + p)); try assumption; lia. }
  f_equal.
  - unfold cterm. rewrite !S by nia. reflexivity.
  - apply psum_ext. intros [i j] Hij. apply in_conv_pairs in Hij. unfold esum. cbn [fst snd]. rewrite !S by nia. reflexivity.
Qed.
Lemma jsubst_low p T J k v : 2 <= p -> feq T (tterms p) -> keysP qpure J -> (forall m c, In (m, c) J -> -1 <= mq m) -> k < - (p * p + p) -> coef (jsubst p T J) (mkMono 0 0 k v) = 0.
Proof.
  intros Hp FT PJ KJ Hk. rewrite !(jsubst_feq p T _ _ _ FT), tterms_eq. rewrite !jsubst_sterms by assumption.
  assert (S: forall i j, 0 <= i -> 0 <= j -> i + p * j <= p * p + p -> kap p J k i j = 0).
  { intros i j Hi Hj Hij. unfold kap, kappa. assert (O1: ord_ge (- (1)) J) by (apply ord_keys; exact KJ). apply (ord_fpow_neg 1 _ (Z.to_nat i)) in O1.
    assert (O2: ord_ge (- p) (fmap (qpower p) J)). { apply ord_keys. intros m c Hm. apply fmap_in in Hm. destruct Hm as (m' & Hm & ->). apply KJ in Hm. cbn. nia. }
    apply (ord_fpow_neg p _ (Z.to_nat j)) in O2. rewrite Z2Nat.id in O1, O2 by lia. apply (ord_conv _ _ _ _ O1 O2). unfold qmono; cbn [mq]; lia. }
  unfold cterm. rewrite !S by nia. rewrite psum_zero; [destruct (var_eqb None v); reflexivity|]. intros [i j] Hij. apply in_conv_pairs in Hij. unfold esum. cbn [fst snd]. rewrite !S by nia. destruct (i =? j), (var_eqb _ _); ring.
Qed.

(** ** Returns *)
Lemma template_returns p : prime p -> p + 1 <= i32_max -> exists T, modular_template p = Ok T.
Proof.
  intros Pp Hp. assert (2 <= p) by (destruct Pp; lia). unfold modular_template. destruct (2 <=? p) eqn:E; [|lia]. cbn [assertb bind]. apply is_prime_spec in Pp. rewrite Pp. cbn [assertb bind].
  rewrite i32_ok by (unfold i32_min, i32_max in *; lia). cbn [bind]. set (s0 := p_add_assign _ _). clearbody s0.
  assert (R1: forall l s, (forall i, In i l -> 0 <= i) -> exists s', foldM (fun pol i => t <- template_term i i i i ;; Ok (p_add_assign pol t)) l s = Ok s').
  { induction l as [|i l IH]; intros s Hl; [eexists; reflexivity|]. cbn [foldM]. rewrite template_term_eq. assert (0 <= i) by (apply Hl; left; reflexivity). destruct (0 <=? i) eqn:X; [|lia]. cbn [andb bind]. apply IH. intros; apply Hl; right; assumption. }
  destruct (R1 (zrange 0 (p + 1)) s0) as (s1 & ->); [intros i Hi; apply in_zrange in Hi; lia|]. cbn [bind].
  match goal with |- exists T, foldM ?f _ _ = _ => destruct (foldM_returns (fun _ => True) f (zrange 0 (p + 1))) with (s := s1) as (r & E1 & _) end; [|exact I|exists r; exact E1].
  intros s i Hi _. apply in_zrange in Hi.
  match goal with |- exists T, foldM ?f ?l _ = _ /\ _ => destruct (foldM_returns (fun _ => True) f l) with (s := s) as (r & E1 & _) end; [|exact I|exists r; split; [exact E1|exact I]].
  intros t j Hj _. apply in_zrange in Hj. rewrite !template_term_eq. destruct (0 <=? i) eqn:X; [|lia]. destruct (0 <=? j) eqn:Y; [|lia]. cbn [andb bind]. eexists. split; [reflexivity|exact I].
Qed.
