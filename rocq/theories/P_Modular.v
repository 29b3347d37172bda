(** Lemmas about the modular polynomial. *)
From Coq Require Import Znumtheory ZifyBool Setoid Morphisms Ring.
From Verif Require Import Prelude M_Bigint M_Variable M_Term M_Poly M_QSeries M_Solve M_Curve M_Modular Spec P_Bigint P_Variable P_FSum P_Poly P_Rem P_PolyProps P_Subst P_Subst2 P_Subst3 P_SubstProps P_Mod P_Q P_QProps P_Solve P_SolveProps.
Open Scope Z_scope.

(** ** Linear functionals of substitutions *)
Lemma lin_flat_map {X} phi (G : X -> fsum) (l : list X) : lin phi (flat_map G l) = fold_right Z.add 0 (map (fun x => lin phi (G x)) l).
Proof. induction l as [|x l IH]; [reflexivity|]. cbn [flat_map map fold_right]. rewrite lin_app, IH. reflexivity. Qed.
Lemma lin_fsubst_x phi a s : lin phi (fsubst_x a s) = lin (fun t => lin (fun u => phi (mmul (set_x 0 t) u)) (fpow s (Z.to_nat (mx t)))) a.
Proof.
  unfold fsubst_x. induction a as [|[m c] a IH]; [reflexivity|]. cbn [flat_map lin fst snd]. rewrite lin_app, IH, lin_conv. cbn [lin]. ring.
Qed.
Lemma lin_fsubst_y phi a s : lin phi (fsubst_y a s) = lin (fun t => lin (fun u => phi (mmul (set_y 0 t) u)) (fpow s (Z.to_nat (my t)))) a.
Proof.
  unfold fsubst_y. induction a as [|[m c] a IH]; [reflexivity|]. cbn [flat_map lin fst snd]. rewrite lin_app, IH, lin_conv. cbn [lin]. ring.
Qed.
(** Only powers of q. *)
Definition qpure (m : mono) : Prop := mx m = 0 /\ my m = 0 /\ mv m = None.
Lemma qpure_mmul a b : qpure a -> qpure b -> qpure (mmul a b).
Proof. intros (A & B & C) (A' & B' & C'). unfold qpure, mmul. cbn. rewrite A, A', B, B', C, C'. auto. Qed.
Lemma qpure_eq m : qpure m -> m = qmono (mq m).
Proof. intros (A & B & C). destruct m; cbn in *; subst. reflexivity. Qed.
Lemma keysP_fpow (P : mono -> Prop) a k : P mone -> (forall m m', P m -> P m' -> P (mmul m m')) -> keysP P a -> keysP P (fpow a k).
Proof.
  intros P1 PM Ha. induction k as [|k IH]; [intros m c [E|[]]; injection E; intros; subst; exact P1|]. cbn [fpow]. intros m c Hi. apply in_conv in Hi.
  destruct Hi as (m1 & c1 & m2 & c2 & H1 & H2 & -> & _). apply PM; [apply (Ha _ _ H1)|apply (IH _ _ H2)].
Qed.
Lemma qpure_fpow a k : keysP qpure a -> keysP qpure (fpow a k).
Proof. apply keysP_fpow; [unfold qpure; cbn; auto|exact qpure_mmul]. Qed.
Definition kappa (J J' : fsum) (k i j : Z) : Z := coef (conv (fpow J (Z.to_nat i)) (fpow J' (Z.to_nat j))) (qmono k).
Lemma subst_coef T J J' k v : (forall m c, In (m, c) T -> mq m = 0) -> keysP qpure J -> keysP qpure J' ->
  coef (fsubst_y (fsubst_x T J) J') (mkMono 0 0 k v) = lin (fun t => if var_eqb (mv t) v then kappa J J' k (mx t) (my t) else 0) T.
Proof.
  intros HT HJ HJ'. rewrite coef_lin, lin_fsubst_y, lin_fsubst_x. apply lin_ext_in. intros t c Ht. specialize (HT _ _ Ht).
  transitivity (lin (fun u => lin (fun w => if var_eqb (mv t) v then delta (qmono k) (mmul u w) else 0) (fpow J' (Z.to_nat (my t)))) (fpow J (Z.to_nat (mx t)))).
  - apply lin_ext_in. intros u d Hu. pose proof (qpure_fpow J _ HJ _ _ Hu) as (U1 & U2 & U3).
    assert (My: my (mmul (set_x 0 t) u) = my t) by (unfold mmul, set_x; cbn; lia). rewrite My. apply lin_ext_in. intros w e Hw.
    pose proof (qpure_fpow J' _ HJ' _ _ Hw) as (W1 & W2 & W3). unfold delta. destruct u as [ux uy uq uv], w as [wx wy wq wv], t as [tx ty tq tv]; cbn in *; subst.
    unfold mmul, set_x, set_y, qmono. cbn. destruct (var_eqb tv v) eqn:E.
    + apply var_eqb_eq in E. subst tv. destruct v as [[v1 v2]|]; cbn [vmul].
      * match goal with |- (if mono_eqb ?a ?b then _ else _) = (if mono_eqb ?c ?d then _ else _) => destruct (mono_eqb a b) eqn:X, (mono_eqb c d) eqn:Y; try reflexivity; exfalso end.
        -- apply mono_eqb_eq in X. injection X; intros. assert (uq + wq = k) by lia. subst k. rewrite mono_eqb_refl in Y. discriminate.
        -- apply mono_eqb_eq in Y. injection Y; intros. subst k. rewrite mono_eqb_refl in X. discriminate.
      * reflexivity.
    + rewrite mono_eqb_neq; [reflexivity|]. intros X. injection X; intros Hv _. assert (tv = v) by (destruct tv as [[? ?]|]; cbn [vmul] in Hv; exact Hv). subst v.
      assert (var_eqb tv tv = true) by (apply var_eqb_eq; reflexivity). congruence.
  - unfold kappa. rewrite coef_lin, lin_conv. destruct (var_eqb (mv t) v); [reflexivity|]. rewrite (lin_ext _ (fun _ => 0)); [apply lin_zero|]. intros u. apply lin_zero.
Qed.

Lemma Ok_inj {A} (a b : A) : Ok a = Ok b -> a = b.
Proof. congruence. Qed.
Lemma flat_map_ext_in {A B} (f h : A -> list B) l : (forall x, In x l -> f x = h x) -> flat_map f l = flat_map h l.
Proof. induction l as [|x l IH]; intros H; [reflexivity|]. cbn [flat_map]. rewrite H by (left; reflexivity). rewrite IH by (intros; apply H; right; assumption). reflexivity. Qed.
(** ** The template *)
Definition tterms (p : Z) : fsum := [(xymono (p + 1) 0, 1); (xymono 0 (p + 1), 1)] ++
  flat_map (fun ij => (mkMono (fst ij) (snd ij) 0 (Some ij), 1) :: (if fst ij =? snd ij then [] else [(mkMono (snd ij) (fst ij) 0 (Some ij), 1)])) (conv_pairs (p + 1)).
Lemma template_term_eq i j k l : template_term i j k l = if (0 <=? k) && (0 <=? l) then Ok [(mkMono i j 0 (Some (k, l)), 1)] else Panic.
Proof. unfold template_term, tb_variable_ij. destruct (0 <=? k), (0 <=? l); reflexivity. Qed.
Lemma in_zrange a b k : In k (zrange a b) <-> a <= k < b.
Proof.
  unfold zrange. rewrite in_map_iff. split.
  - intros (n & <- & H). apply in_seq in H. lia.
  - intros H. exists (Z.to_nat (k - a)). split; [lia|]. apply in_seq. lia.
Qed.
Lemma modular_template_spec p T : modular_template p = Ok T -> prime p /\ p + 1 <= i32_max /\ sorted T /\ feq T (tterms p).
Proof.
  intros H. unfold modular_template in H. destruct (2 <=? p) eqn:E2; [|discriminate]. cbn [assertb bind] in H. destruct (is_prime p) eqn:Ep; [|discriminate]. cbn [assertb bind] in H.
  apply bind_Ok in H. destruct H as (p1 & E1 & H). apply i32_inv in E1. destruct E1 as (-> & B). split; [apply is_prime_spec, Ep|]. split; [lia|].
  apply bind_Ok in H. destruct H as (s1 & H1 & H2). 
  set (s0 := p_add_assign (to_pol (tb_build (tb_xpow (p + 1) tb_new))) (to_pol (tb_build (tb_ypow (p + 1) tb_new)))) in H1.
  assert (S0: sorted s0) by (apply p_add_sorted, to_pol_sorted).
  assert (F0: feq s0 [(xymono (p + 1) 0, 1); (xymono 0 (p + 1), 1)]) by (unfold s0; change p_add_assign with p_add; rewrite p_add_feq by apply to_pol_sorted; reflexivity).
  match type of H1 with foldM ?f _ _ = _ => set (F := f) in H1 end.
  destruct (foldM_sum F (fun i => [(mkMono i i 0 (Some (i, i)), 1)]) 0 (zrange 0 (p + 1))) with (s := s0) (s' := s1) as (S1 & F1); [|exact S0|exact H1|].
  { intros s i s' Hi Ss E. unfold F in E. rewrite template_term_eq in E. destruct (_ && _); [|discriminate]. cbn [bind] in E. apply Ok_inj in E. subst s'. change p_add_assign with p_add.
    split; [apply p_add_sorted, Ss|apply feqm_0, p_add_feq, Ss]. }
  match type of H2 with foldM ?f _ _ = _ => set (F' := f) in H2 end.
  destruct (foldM_sum F' (fun i => flat_map (fun j => [(mkMono i j 0 (Some (i, j)), 1); (mkMono j i 0 (Some (i, j)), 1)]) (zrange (i + 1) (p + 1))) 0 (zrange 0 (p + 1))) with (s := s1) (s' := T) as (S2 & F2);
    [|exact S1|exact H2|].
  { intros s i s' Hi Ss E. unfold F' in E. match type of E with foldM ?f _ _ = _ => set (G := f) in E end.
    apply (foldM_sum G (fun j => [(mkMono i j 0 (Some (i, j)), 1); (mkMono j i 0 (Some (i, j)), 1)]) 0 (zrange (i + 1) (p + 1))); [|exact Ss|exact E].
    intros t j t' Hj St Et. unfold G in Et. rewrite !template_term_eq in Et. destruct (_ && _); [|discriminate]. cbn [bind] in Et. apply Ok_inj in Et. subst t'. change p_add_assign with p_add.
    split; [apply p_add_sorted, p_add_sorted, St|]. apply feqm_0. rewrite p_add_feq by apply p_add_sorted, St. rewrite p_add_feq by exact St. unfold fadd. rewrite <- app_assoc. reflexivity. }
  split; [exact S2|]. apply (proj1 (feqm_0 _ _)) in F1. apply (proj1 (feqm_0 _ _)) in F2. rewrite F2, F1, F0. unfold tterms, conv_pairs.
  rewrite flat_map_app.
  assert (E0: flat_map (fun ij : Z * Z => (mkMono (fst ij) (snd ij) 0 (Some ij), 1) :: (if fst ij =? snd ij then [] else [(mkMono (snd ij) (fst ij) 0 (Some ij), 1)]))
    (map (fun i => (i, i)) (zrange 0 (p + 1))) = flat_map (fun i => [(mkMono i i 0 (Some (i, i)), 1)]) (zrange 0 (p + 1))).
  { generalize (zrange 0 (p + 1)). intros z. induction z as [|i l IH]; [reflexivity|]. cbn [map flat_map fst snd]. rewrite Z.eqb_refl, IH. reflexivity. }
  rewrite E0.
  assert (E: flat_map (fun ij : Z * Z => (mkMono (fst ij) (snd ij) 0 (Some ij), 1) :: (if fst ij =? snd ij then [] else [(mkMono (snd ij) (fst ij) 0 (Some ij), 1)]))
    (flat_map (fun i => map (fun j => (i, j)) (zrange (i + 1) (p + 1))) (zrange 0 (p + 1))) =
    flat_map (fun i => flat_map (fun j => [(mkMono i j 0 (Some (i, j)), 1); (mkMono j i 0 (Some (i, j)), 1)]) (zrange (i + 1) (p + 1))) (zrange 0 (p + 1))).
  { generalize (zrange 0 (p + 1)). intros z. induction z as [|i l IH]; [reflexivity|]. cbn [flat_map]. rewrite flat_map_app, IH. f_equal.
    assert (L: forall j, In j (zrange (i + 1) (p + 1)) -> i < j) by (intros j Hj; apply in_zrange in Hj; lia).
    clear - L. revert L. generalize (zrange (i + 1) (p + 1)). intros z L. induction z as [|j l' IH']; [reflexivity|]. cbn [map flat_map fst snd]. rewrite IH' by (intros; apply L; right; assumption).
    specialize (L j (or_introl eq_refl)). destruct (Z.eqb_spec i j); [lia|reflexivity]. }
  rewrite E. intros m. unfold fadd. rewrite !coef_app. ring.
Qed.

(** Sums over the pairs *)
Definition psum (f : Z * Z -> Z) (l : list (Z * Z)) : Z := fold_right Z.add 0 (map f l).
Lemma psum_single f l ij : NoDup l -> In ij l -> (forall x, In x l -> x <> ij -> f x = 0) -> psum f l = f ij.
Proof.
  intros Nd. induction Nd as [|x l Hx Nd IH]; intros Hi H; [destruct Hi|]. unfold psum in *. cbn [map fold_right]. destruct Hi as [->|Hi].
  - assert (Z0: fold_right Z.add 0 (map f l) = 0); [|rewrite Z0; ring]. assert (forall l', (forall y, In y l' -> f y = 0) -> fold_right Z.add 0 (map f l') = 0) as Hz.
    { induction l' as [|y l' IHl]; intros Hy; [reflexivity|]. cbn. rewrite Hy by (left; reflexivity). rewrite IHl by (intros; apply Hy; right; assumption). reflexivity. }
    apply Hz. intros y Hy. apply H; [right; exact Hy|]. intros ->. contradiction.
  - rewrite H by (try (left; reflexivity); intros ->; contradiction). rewrite IH; [ring|exact Hi|]. intros y Hy. apply H. right. exact Hy.
Qed.
Lemma psum_zero f l : (forall x, In x l -> f x = 0) -> psum f l = 0.
Proof. unfold psum. induction l as [|y l IHl]; intros Hy; [reflexivity|]. cbn. rewrite Hy by (left; reflexivity). rewrite IHl by (intros; apply Hy; right; assumption). reflexivity. Qed.
Lemma psum_ext f h l : (forall x, In x l -> f x = h x) -> psum f l = psum h l.
Proof. intros H. unfold psum. f_equal. apply map_ext_in. exact H. Qed.

(** A symmetric polynomial with coefficients c *)
Definition stermsv (tag : bool) (c : Z -> Z -> Z) (ij : Z * Z) : fsum :=
  let v := if tag then Some ij else None in
  (mkMono (fst ij) (snd ij) 0 v, c (fst ij) (snd ij)) :: (if fst ij =? snd ij then [] else [(mkMono (snd ij) (fst ij) 0 v, c (fst ij) (snd ij))]).
Definition sterms (p : Z) (tag : bool) (c : Z -> Z -> Z) : fsum := [(xymono (p + 1) 0, 1); (xymono 0 (p + 1), 1)] ++ flat_map (stermsv tag c) (conv_pairs (p + 1)).
Lemma tterms_eq p : tterms p = sterms p true (fun _ _ => 1).
Proof. reflexivity. Qed.
Lemma coef_sterms p tag c m : coef (sterms p tag c) m = delta m (xymono (p + 1) 0) + delta m (xymono 0 (p + 1)) + psum (fun ij => coef (stermsv tag c ij) m) (conv_pairs (p + 1)).
Proof.
  unfold sterms. rewrite coef_app. cbn [coef]. unfold delta. rewrite coef_lin, lin_flat_map. unfold psum. rewrite (map_ext (fun x => lin (delta m) (stermsv tag c x)) (fun x => coef (stermsv tag c x) m)) by (intros; rewrite coef_lin; reflexivity).
  destruct (mono_eqb (xymono (p + 1) 0) m), (mono_eqb (xymono 0 (p + 1)) m); ring.
Qed.
Lemma coef_stermsv tag c k l m : coef (stermsv tag c (k, l)) m = 
  c k l * (delta m (mkMono k l 0 (if tag then Some (k, l) else None)) + if k =? l then 0 else delta m (mkMono l k 0 (if tag then Some (k, l) else None))).
Proof.
  unfold stermsv, delta. cbn [coef fst snd]. destruct (k =? l); cbn [coef]; repeat match goal with |- context [mono_eqb ?a ?b] => destruct (mono_eqb a b) end; ring.
Qed.
Lemma delta_refl m : delta m m = 1.
Proof. unfold delta. rewrite mono_eqb_refl. reflexivity. Qed.
Lemma delta_neq m k : k <> m -> delta m k = 0.
Proof. intros H. unfold delta. rewrite mono_eqb_neq by exact H. reflexivity. Qed.
Lemma sterms_shape p c : 0 <= p -> symmetric_shape p c (sterms p false c).
Proof.
  intros Hp. split; [|split; [|split]].
  - intros i j Hi Hj. rewrite coef_sterms. rewrite !delta_neq by (unfold xymono; intros E; injection E; lia).
    rewrite (psum_single _ _ (Z.min i j, Z.max i j)).
    + rewrite coef_stermsv. unfold xymono. destruct (Z.eqb_spec (Z.min i j) (Z.max i j)).
      * replace (mkMono (Z.min i j) (Z.max i j) 0 None) with (mkMono i j 0 None) by (f_equal; lia). rewrite delta_refl. ring.
      * destruct (Z.le_gt_cases i j).
        -- replace (Z.min i j) with i by lia. replace (Z.max i j) with j by lia. rewrite delta_refl, delta_neq; [ring|]. intros E; injection E; lia.
        -- replace (Z.min i j) with j by lia. replace (Z.max i j) with i by lia. rewrite delta_refl, delta_neq; [ring|]. intros E; injection E; lia.
    + apply NoDup_conv_pairs.
    + apply in_conv_pairs. lia.
    + intros [k l] Hkl Ne. apply in_conv_pairs in Hkl. rewrite coef_stermsv. unfold xymono. rewrite !delta_neq; [destruct (k =? l); ring| |]; intros E; injection E; intros; apply Ne; f_equal; lia.
  - rewrite coef_sterms, delta_refl, (delta_neq _ (xymono 0 (p + 1))) by (unfold xymono; intros E; injection E; lia). rewrite psum_zero; [reflexivity|].
    intros [k l] Hkl. apply in_conv_pairs in Hkl. rewrite coef_stermsv. unfold xymono. rewrite !delta_neq; [destruct (k =? l); ring| |]; intros E; injection E; lia.
  - rewrite coef_sterms, delta_refl, (delta_neq _ (xymono (p + 1) 0)) by (unfold xymono; intros E; injection E; lia). rewrite psum_zero; [reflexivity|].
    intros [k l] Hkl. apply in_conv_pairs in Hkl. rewrite coef_stermsv. unfold xymono. rewrite !delta_neq; [destruct (k =? l); ring| |]; intros E; injection E; lia.
  - intros m Hm. rewrite coef_sterms, !delta_neq; [|intros <-; apply Hm; exists 0, (p + 1); auto|intros <-; apply Hm; exists (p + 1), 0; auto]. rewrite psum_zero; [reflexivity|].
    intros [k l] Hkl. apply in_conv_pairs in Hkl. rewrite coef_stermsv. rewrite !delta_neq; [destruct (k =? l); ring| |]; intros <-; apply Hm; [exists l, k|exists k, l]; (split; [reflexivity|left; lia]).
Qed.
Lemma shape_unique p c c' Phi Psi : symmetric_shape p c Phi -> symmetric_shape p c' Psi -> (forall i j, 0 <= i <= j -> j <= p -> c i j = c' i j) -> feq Phi Psi.
Proof.
  intros (A1 & A2 & A3 & A4) (B1 & B2 & B3 & B4) H m.
  destruct (Z.eq_dec (mq m) 0) as [Q|Q].
  - destruct (mv m) as [v|] eqn:V.
    + rewrite A4, B4; [reflexivity| |]; intros (i & j & -> & _); discriminate.
    + assert (exists i j, m = xymono i j) as (i & j & ->) by (exists (mx m), (my m); destruct m; cbn in *; subst; reflexivity).
      assert (C: (0 <= i <= p /\ 0 <= j <= p) \/ (i = p + 1 /\ j = 0) \/ (i = 0 /\ j = p + 1) \/ ~ ((0 <= i <= p /\ 0 <= j <= p) \/ (i = p + 1 /\ j = 0) \/ (i = 0 /\ j = p + 1))) by lia.
      destruct C as [(C1 & C2)|[(-> & ->)|[(-> & ->)|C]]].
      * rewrite A1, B1 by lia. apply H; lia.
      * rewrite A2, B2. reflexivity.
      * rewrite A3, B3. reflexivity.
      * rewrite A4, B4; [reflexivity| |]; intros (i' & j' & E & X); unfold xymono in E; injection E; intros; apply C; subst; exact X.
  - rewrite A4, B4; [reflexivity| |]; intros (i & j & -> & _); apply Q; reflexivity.
Qed.

(** ** The substituted template *)
Lemma jsubst_feq p a b J m : feq a b -> coef (jsubst p a J) m = coef (jsubst p b J) m.
Proof. intros H. unfold jsubst. rewrite !coef_lin, !lin_fsubst_y, !lin_fsubst_x. apply feq_lin, H. Qed.
Lemma fmap_qpower_pure p J : keysP qpure J -> keysP qpure (fmap (qpower p) J).
Proof. intros H m c Hi. apply fmap_in in Hi. destruct Hi as (k & Hk & ->). destruct (H _ _ Hk) as (A & B & C). unfold qpure, qpower. cbn. auto. Qed.
Definition kap (p : Z) (J : fsum) (k i j : Z) : Z := kappa J (fmap (qpower p) J) k i j.
Definition esum (p : Z) (J : fsum) (k : Z) (ij : Z * Z) : Z := kap p J k (fst ij) (snd ij) + if fst ij =? snd ij then 0 else kap p J k (snd ij) (fst ij).
Definition cterm (p : Z) (J : fsum) (k : Z) : Z := kap p J k (p + 1) 0 + kap p J k 0 (p + 1).
Lemma jsubst_sterms p tag c J k v : keysP qpure J -> coef (jsubst p (sterms p tag c) J) (mkMono 0 0 k v) =
  (if var_eqb None v then cterm p J k else 0) + psum (fun ij => if var_eqb (if tag then Some ij else None) v then c (fst ij) (snd ij) * esum p J k ij else 0) (conv_pairs (p + 1)).
Proof.
  intros HJ. unfold jsubst. rewrite subst_coef; [|intros m d Hi|exact HJ|apply fmap_qpower_pure, HJ].
  - unfold sterms. rewrite lin_app, lin_flat_map. cbn [lin]. unfold xymono. cbn [mx my mv]. fold (kap p J k (p + 1) 0) (kap p J k 0 (p + 1)). unfold cterm.
    assert (E: fold_right Z.add 0 (map (fun x => lin (fun t => if var_eqb (mv t) v then kappa J (fmap (qpower p) J) k (mx t) (my t) else 0) (stermsv tag c x)) (conv_pairs (p + 1))) =
      psum (fun ij => if var_eqb (if tag then Some ij else None) v then c (fst ij) (snd ij) * esum p J k ij else 0) (conv_pairs (p + 1))).
    { unfold psum. f_equal. apply map_ext. intros [i j]. unfold stermsv, esum, kap. cbn [fst snd lin mx my mv].
      destruct (i =? j); cbn [lin mx my mv]; destruct (var_eqb (if tag then Some (i, j) else None) v); ring. }
    rewrite E. destruct (var_eqb None v); ring.
  - unfold sterms in Hi. apply in_app_or in Hi. destruct Hi as [[E|[E|[]]]|Hi]; [injection E; intros; subst; reflexivity..|].
    apply in_flat_map in Hi. destruct Hi as ([i j] & _ & Hi). unfold stermsv in Hi. cbn [fst snd] in Hi. destruct Hi as [E|Hi]; [injection E; intros; subst; reflexivity|].
    destruct (i =? j); [destruct Hi|]. destruct Hi as [E|[]]. injection E; intros; subst; reflexivity.
Qed.
Lemma tterms_var p J k i j : keysP qpure J -> 0 <= i <= j -> j <= p -> coef (jsubst p (tterms p) J) (mkMono 0 0 k (Some (i, j))) = esum p J k (i, j).
Proof.
  intros HJ Hij Hj. rewrite tterms_eq, jsubst_sterms by exact HJ. rewrite (psum_single _ _ (i, j)); [|apply NoDup_conv_pairs|apply in_conv_pairs; lia|].
  - assert (var_eqb (Some (i, j)) (Some (i, j)) = true) as -> by (apply var_eqb_eq; reflexivity). cbn [var_eqb]. ring.
  - intros x Hx Ne. destruct (var_eqb (Some x) (Some (i, j))) eqn:E; [apply var_eqb_eq in E; congruence|reflexivity].
Qed.
Lemma tterms_const p J k : keysP qpure J -> coef (jsubst p (tterms p) J) (mkMono 0 0 k None) = cterm p J k.
Proof.
  intros HJ. rewrite tterms_eq, jsubst_sterms by exact HJ. rewrite psum_zero; [cbn; ring|]. intros [x y] Hx. reflexivity.
Qed.
Lemma j_pure N J : -1 <= N -> 3 * (N + 1) + 1 <= i32_max -> j_invariant N = Ok J -> keysP qpure J.
Proof.
  intros H H' E. destruct (j_spec N H H') as (r & J' & _ & E' & _ & _ & K). assert (J' = J) by congruence. subst J'. intros m c Hi. destruct (K _ _ Hi) as (n & _ & ->). unfold qpure. auto.
Qed.
Lemma mapM_inv {A B} (f : A -> res B) l r da db : mapM f l = Ok r -> length r = length l /\ forall i, (i < length l)%nat -> f (nth i l da) = Ok (nth i r db).
Proof.
  revert r. induction l as [|x l IH]; intros r H; cbn [mapM] in H.
  - injection H; intros; subst. split; [reflexivity|]. intros i Hi. cbn in Hi. lia.
  - apply bind_Ok in H. destruct H as (y & E & H). apply bind_Ok in H. destruct H as (ys & E' & H). apply Ok_inj in H. subst r. destruct (IH ys E') as (L & N). split; [cbn; lia|].
    intros [|i] Hi; [exact E|]. cbn. apply N. cbn in Hi. lia.
Qed.
Lemma nth_zrange a b i : (i < Z.to_nat (b - a))%nat -> nth i (zrange a b) 0 = a + Z.of_nat i.
Proof.
  intros H. unfold zrange. rewrite (nth_indep _ 0 ((fun k => a + Z.of_nat k) 0%nat)) by (rewrite map_length, seq_length; exact H).
  rewrite (map_nth (fun k => a + Z.of_nat k)), seq_nth by exact H. reflexivity.
Qed.
Lemma zrange_length a b : length (zrange a b) = Z.to_nat (b - a).
Proof. unfold zrange. rewrite map_length, seq_length. reflexivity. Qed.
Lemma i32_pow_2 p v : i32_pow p 2 = Ok v -> v = p * p /\ i32_range (p * p).
Proof.
  unfold i32_pow. cbn [Z.eqb]. change (halvings 2) with 2%nat. cbn [i32_pow_loop Z.ltb Z.compare Pos.compare Pos.compare_cont Z.odd bind]. intros H.
  apply bind_Ok in H. destruct H as (b & E & H). apply i32_inv in E. destruct E as (-> & B). cbn in H. change (2 / 2) with 1 in H. cbn in H.
  destruct (p * p) eqn:X; apply i32_inv in H; destruct H as (-> & B'); unfold i32_range; rewrite ?X; split; lia.
Qed.
Definition jroom (p : Z) : Prop := 3 * (p * p + p + 1) + 1 <= i32_max.
Lemma omit_qonly a k r : omit_high_order_q a k = Ok r -> qonly a /\ i32_range (k + 1).
Proof.
  intros H. unfold omit_high_order_q in H.
  destruct (has_x a) eqn:X; [discriminate|]. destruct (has_y a) eqn:Y; [discriminate|]. split; [apply qonly_has; auto|].
  cbn [negb assertb bind] in H. apply bind_Ok in H. destruct H as (k1 & E & _). apply i32_inv in E. exact (proj2 E).
Qed.
Lemma q_power_range (a : poly) n r : to_q_power a n = Ok r -> forall m c, In (m, c) a -> i32_range (mq m * n).
Proof.
  intros H m c Hi. unfold to_q_power in H. destruct (foldM_all _ _ _ _ H _ Hi) as (s1 & s2 & E). unfold term_to_q_power in E. cbn [tm tc fst snd] in E.
  apply bind_Ok in E. destruct E as (u & Eu & _). apply bind_Ok in Eu. destruct Eu as (q & Eq & _). apply i32_inv in Eq. exact (proj2 Eq).
Qed.
Lemma template_list_spec p L : jroom p -> modular_template_list p = Ok L ->
  exists T J, modular_template p = Ok T /\ j_invariant (p * p + p) = Ok J /\ prime p /\ keysP qpure J /\ sorted J /\
    length L = Z.to_nat (p * p + p + 1) /\
    forall k, - (p * p + p) <= k <= 0 -> let r := nth (Z.to_nat (k + (p * p + p))) L [] in
      sorted r /\ (forall v, coef r (mkMono 0 0 0 v) = coef (jsubst p T J) (mkMono 0 0 k v)) /\ (forall m c, In (m, c) r -> exists v, m = mkMono 0 0 0 v).
Proof.
  intros HR H. unfold modular_template_list in H. apply bind_Ok in H. destruct H as (pq & Hq & H). apply bind_Ok in H. destruct H as (pp & Epp & H). apply i32_pow_2 in Epp. destruct Epp as (-> & Bpp).
  apply bind_Ok in H. destruct H as (np & Enp & H). apply i32_inv in Enp. destruct Enp as (-> & Bnp). apply bind_Ok in H. destruct H as (mn & Emn & H). apply i32_inv in Emn. destruct Emn as (-> & Bmn).
  unfold modular_template_q in Hq. apply bind_Ok in Hq. destruct Hq as (T & ET & Hq). apply bind_Ok in Hq. destruct Hq as (pp & Epp & Hq). apply i32_inv in Epp. destruct Epp as (-> & _).
  apply bind_Ok in Hq. destruct Hq as (jo & Ejo & Hq). apply i32_inv in Ejo. destruct Ejo as (-> & Bjo). apply bind_Ok in Hq. destruct Hq as (J & EJ & Hq).
  apply bind_Ok in Hq. destruct Hq as (J' & EJ' & Hq). apply bind_Ok in Hq. destruct Hq as (p1 & E1 & Hq). apply bind_Ok in Hq. destruct Hq as (p2 & E2 & Hq).
  destruct (modular_template_spec p T ET) as (Pp & Bp & ST & FT). assert (2 <= p) by (destruct Pp; lia).
  destruct (j_spec (p * p + p) ltac:(nia) HR) as (j1 & J0 & _ & EJ0 & SJ & _ & KJ). assert (J0 = J) by congruence. subst J0.
  assert (PJ: keysP qpure J) by (apply (j_pure (p * p + p)); [nia|exact HR|exact EJ]).
  assert (KI: key_inj (qpower p) J) by (intros m c m' c' _ _; apply qpower_inj; lia).
  destruct (to_q_power_spec J p SJ KI) as (J0 & E0 & SJ' & _ & FJ'); [intros m c Hi; apply (q_power_range J p J' EJ' m c Hi)|]. assert (J0 = J') by congruence. subst J0.
  destruct (eval_x_polynomial_feq T J p1 SJ E1) as (S1 & F1 & _). destruct (eval_y_polynomial_feq p1 J' p2 SJ' E2) as (S2 & F2 & _).
  destruct (omit_qonly p2 0 pq Hq) as (Q2 & _). destruct (c37_omit p2 0 S2 Q2 ltac:(unfold i32_range, i32_min, i32_max; lia)) as (pq' & Eq' & Sq & Kq). assert (pq' = pq) by congruence. subst pq'.
  assert (Fq: feq p2 (jsubst p T J)).
  { intros m. rewrite (F2 m). unfold jsubst. rewrite !coef_lin, !lin_fsubst_y. rewrite (feq_lin _ _ _ F1). apply lin_ext. intros t. apply feq_lin. apply feqm_0, fpow_proper, feqm_0, FJ'. }
  assert (Qq: qonly pq) by (intros m c Hi; apply Kq in Hi; apply (Q2 m c); apply Hi).
  exists T, J. do 5 (split; [assumption|]). destruct (mapM_inv _ _ L 0 [] H) as (Ll & Nl). rewrite zrange_length in Ll, Nl. split; [rewrite Ll; f_equal; lia|].
  intros k Hk. set (i := Z.to_nat (k + (p * p + p))). assert (Hi: (i < Z.to_nat (1 - (- (p * p) - p)))%nat) by (unfold i; lia). specialize (Nl i Hi). rewrite nth_zrange in Nl by exact Hi.
  replace (- (p * p) - p + Z.of_nat i) with k in Nl by (unfold i; lia). cbv zeta. destruct (q_coef_spec pq k Sq Qq) as (r & Er & Sr & Kr & Cr). rewrite Er in Nl. apply Ok_inj in Nl. rewrite <- Nl.
  split; [exact Sr|]. split; [|intros m c Hm; apply Kr in Hm; destruct Hm as (v & -> & _); eauto].
  intros v. rewrite Cr. rewrite (omit_coef p2 pq 0 _ S2 Sq Kq). cbn [mq]. destruct (k <=? 0) eqn:X; [|lia]. apply Fq.
Qed.
