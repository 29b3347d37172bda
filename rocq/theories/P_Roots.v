(** Roots of polynomials in x modulo a prime: factor theorem, root count, x^p - x. *)
From Coq Require Import Znumtheory ZifyBool Setoid Morphisms Ring.
From Verif Require Import Prelude M_Bigint M_Variable M_Term M_Poly Spec P_Bigint P_Variable P_FSum P_Poly P_Rem P_PolyProps P_Subst P_Subst2 P_Subst3 P_Mod P_Gcd P_Gcd2.
Open Scope Z_scope.

Definition lin_factor (r : Z) : fsum := [(mone, - r); (mkMono 1 0 0 None, 1)].
Lemma lin_factor_only_x r : only_x (lin_factor r).
Proof. intros m c [E|[E|[]]]; injection E; intros; subst; cbn; intuition lia. Qed.
Lemma lin_factor_val r x : fval x 0 (lin_factor r) = x - r.
Proof. unfold lin_factor. cbn [fval]. unfold mval, mone. cbn [mx my]. rewrite !Z.pow_0_r, Z.pow_1_r. ring. Qed.
Lemma only_x_nonneg a : only_x a -> nonneg_xy a.
Proof. intros H m c Hi. destruct (H m c Hi) as (? & ? & _). lia. Qed.
Lemma fval_conv_x x a b : only_x a -> only_x b -> fval x 0 (conv a b) = fval x 0 a * fval x 0 b.
Proof. intros Ha Hb. apply fval_conv; apply only_x_nonneg; assumption. Qed.
Lemma only_x_mono n : 0 <= n -> only_x (fmono 1 n 0 0).
Proof. intros H m c [E|[]]. injection E; intros; subst; cbn; intuition lia. Qed.

Lemma x_minus r n : exists k, only_x k /\ feq (fmono 1 (Z.of_nat n) 0 0) (fadd (conv (lin_factor r) k) (fconst (r ^ Z.of_nat n))).
Proof.
  induction n as [|n (k & Hk & F)].
  - exists []. split; [intros ? ? []|]. intros m. rewrite (fadd_proper_feq _ _ (conv_comm (lin_factor r) []) _ _ (reflexivity _) m). reflexivity.
  - exists (fadd (conv (fmono 1 1 0 0) k) (fconst (r ^ Z.of_nat n))). split.
    { apply only_x_add; [|apply only_x_const]. apply only_x_conv; [apply only_x_mono; lia|exact Hk]. }
    transitivity (conv (fmono 1 1 0 0) (fmono 1 (Z.of_nat n) 0 0)).
    { intros m. unfold fmono, conv. cbn [flat_map map app fst snd]. unfold mmul. cbn [mx my mq mv vmul]. replace (1 + Z.of_nat n) with (Z.of_nat (S n)) by lia. reflexivity. }
    rewrite F. rewrite Nat2Z.inj_succ, Z.pow_succ_r by lia.
    assert (E: feq (fmono 1 1 0 0) (fadd (lin_factor r) (fconst r))).
    { intros m. unfold fmono, lin_factor, fconst, fadd. cbn [app coef]. destruct (mono_eqb _ _); destruct (mono_eqb _ _); lia. }
    assert (E2: feq (fconst (r * r ^ Z.of_nat n)) (conv (fconst r) (fconst (r ^ Z.of_nat n)))).
    { intros m. unfold fconst, conv. cbn [flat_map map app fst snd]. unfold mmul, mone. cbn [mx my mq mv vmul]. reflexivity. }
    rewrite E2, E. generalize (fconst (r ^ Z.of_nat n)) (fconst r) (lin_factor r) k. intros u v w z. ring.
Qed.
Lemma factor_theorem r a : only_x a -> exists k, only_x k /\ feq a (fadd (conv (lin_factor r) k) (fconst (fval r 0 a))).
Proof.
  induction a as [|[m c] a IH]; intros Ha.
  - exists []. split; [intros ? ? []|]. intros m. rewrite (fadd_proper_feq _ _ (conv_comm (lin_factor r) []) _ _ (reflexivity _) m). cbn. unfold fconst, fval. cbn. destruct (mono_eqb _ _); reflexivity.
  - destruct IH as (k & Hk & F); [intros m' c' Hi; apply (Ha m' c'); right; exact Hi|].
    destruct (Ha m c (or_introl eq_refl)) as (M1 & M2 & M3 & M4). destruct (x_minus r (Z.to_nat (mx m))) as (k1 & Hk1 & F1). rewrite Z2Nat.id in F1 by lia.
    exists (fadd (conv (fconst c) k1) k). split; [apply only_x_add; [apply only_x_conv; [apply only_x_const|exact Hk1]|exact Hk]|].
    assert (E: feq ((m, c) :: a) (fadd (conv (fconst c) (fmono 1 (mx m) 0 0)) a)).
    { intros t. destruct m as [x y q v]. cbn in *. subst. unfold fconst, conv, fmono, fadd. cbn [flat_map map app fst snd]. unfold mmul, mone. cbn [mx my mq mv vmul]. cbn [coef]. rewrite Z.mul_1_r. reflexivity. }
    assert (E2: feq (fconst (fval r 0 ((m, c) :: a))) (fadd (conv (fconst c) (fconst (r ^ mx m))) (fconst (fval r 0 a)))).
    { intros t. unfold fconst, conv, fadd. cbn [flat_map map app fst snd coef]. unfold mmul, mone. cbn [mx my mq mv vmul]. cbn [fval]. unfold mval. rewrite M2. rewrite Z.pow_0_r.
      destruct (mono_eqb _ _); ring. }
    etransitivity; [exact E|]. etransitivity; [|apply fadd_proper_feq; [reflexivity|symmetry; exact E2]].
    etransitivity; [apply fadd_proper_feq; [apply conv_proper_feq; [reflexivity|exact F1]|exact F]|].
    generalize (fconst (r ^ mx m)) (fconst (fval r 0 a)) (fconst c) (lin_factor r) k k1. intros u v w z k' k1'. ring.
Qed.
Lemma root_factor p r a : only_x a -> (p | fval r 0 a) -> fdivides p (lin_factor r) a.
Proof.
  intros Ha D. destruct (factor_theorem r a Ha) as (k & Hk & F). exists k. split; [exact Hk|]. rewrite (feq_feqm p _ _ F). intros m. unfold fadd. rewrite coef_app.
  unfold fconst. cbn [coef]. destruct (mono_eqb _ _).
  - replace (_ - _) with (fval r 0 a) by ring. exact D.
  - exists 0. ring.
Qed.
Lemma divides_root p h a x : only_x h -> fdivides p h a -> (p | fval x 0 h) -> (p | fval x 0 a).
Proof.
  intros Hh (k & Hk & F) D. apply (fval_feqm p x 0) in F. rewrite fval_conv_x in F by assumption. replace (fval x 0 a) with ((fval x 0 a - fval x 0 h * fval x 0 k) + fval x 0 h * fval x 0 k) by ring.
  apply Z.divide_add_r; [exact F|]. apply Z.divide_mul_l, D.
Qed.

Lemma highest_key a : sorted a -> only_x a -> a <> [] -> tm (highest_term_x a) = mkMono (mx (tm (highest_term_x a))) 0 0 None.
Proof. intros Sa Oa Na. destruct (highest_spec a Sa Na) as (H & _). apply (only_x_key a _ _ Oa H). Qed.
(** If all keys of the reduced polynomial r are at most D and its coefficient at x^D is 1 mod p, then its highest term is x^D. *)
Lemma nf_highest p a D : 1 < p -> only_x a -> (forall m c, In (m, c) a -> mx m <= D) -> (p | coef a (mkMono D 0 0 None) - 1) ->
  highest_term_x (nf p a) = mkTerm 1 (mkMono D 0 0 None).
Proof.
  intros Hp Oa K C. destruct (nf_spec p a ltac:(lia)) as (Sn & Rn & Fn & On). specialize (On Oa).
  assert (C1: coef (nf p a) (mkMono D 0 0 None) = 1).
  { pose proof (Fn (mkMono D 0 0 None)) as F. assert (D1: (p | coef (nf p a) (mkMono D 0 0 None) - 1)).
    { replace (_ - 1) with ((coef (nf p a) (mkMono D 0 0 None) - coef a (mkMono D 0 0 None)) + (coef a (mkMono D 0 0 None) - 1)) by ring. apply Z.divide_add_r; assumption. }
    destruct (bm_get (mkMono D 0 0 None) (nf p a)) as [c|] eqn:G; rewrite (bm_get_coef _ _ Sn), G in *.
    - apply bm_get_in in G. apply Rn in G. destruct D1 as (z & Ez). assert (z = 0) by nia. lia.
    - apply Z.divide_opp_r in D1. replace (- (0 - 1)) with 1 in D1 by ring. apply Z.divide_pos_le in D1; lia. }
  destruct (coef_in (nf p a) (mkMono D 0 0 None)) as (c & Hi); [lia|]. rewrite (sorted_coef _ _ _ Sn Hi) in C1. subst c.
  assert (Nn: nf p a <> []) by (intros E; rewrite E in Hi; destruct Hi).
  destruct (highest_spec (nf p a) Sn Nn) as (Hh & _ & M). pose proof (M _ _ Hi) as L. cbn [mx] in L.
  assert (KK: keysP (fun m => mx m <= D) (nf p a)) by (unfold nf; apply redp_keys, p_add_keys; [exact I|intros ? ? []|exact K]).
  pose proof (KK _ _ Hh) as L2. cbn beta in L2. pose proof (highest_key _ Sn On Nn) as Ek. replace (mx (tm (highest_term_x (nf p a)))) with D in Ek by lia.
  assert (Ec: tc (highest_term_x (nf p a)) = 1).
  { rewrite Ek in Hh. rewrite <- (sorted_coef _ _ _ Sn Hh). apply (sorted_coef _ _ _ Sn Hi). }
  destruct (highest_term_x (nf p a)) as [c m]. cbn in *. subst. reflexivity.
Qed.

(** Distinct roots split off as a monic factor. *)
Lemma split_roots p : prime p -> forall l a, only_x a -> NoDup l -> (forall x, In x l -> 0 <= x < p /\ (p | fval x 0 a)) ->
  exists h, sorted h /\ reduced p h /\ only_x h /\ h <> [] /\ highest_term_x h = mkTerm 1 (mkMono (Z.of_nat (length l)) 0 0 None) /\ fdivides p h a /\
    (forall x, 0 <= x < p -> (p | fval x 0 h) -> In x l).
Proof.
  intros Hp. pose proof (prime_ge_2 p Hp) as Hp2. induction l as [|r l IH]; intros a Oa Nd Hl.
  - exists (fconst 1). split; [cbn; split; [intros ? ? []|exact I]|]. split; [intros m c [E|[]]; injection E; intros; subst; lia|]. split; [apply only_x_const|]. split; [discriminate|]. split; [reflexivity|]. split.
    + exists a. split; [exact Oa|]. rewrite (feq_feqm p _ _ (conv_1_l a)). reflexivity.
    + intros x Hx. rewrite fval_fconst. intros D. apply Z.divide_pos_le in D; lia.
  - inversion Nd as [|? ? Nr Nd']; subst. destruct (IH a Oa Nd') as (h & Sh & Rh & Oh & Nh & Hh & (k & Ok & F) & R); [intros x Hx; apply Hl; right; exact Hx|].
    destruct (Hl r (or_introl eq_refl)) as (Br & Dr).
    assert (Dk: (p | fval r 0 k)).
    { pose proof (fval_feqm p r 0 _ _ F) as G. rewrite fval_conv_x in G by assumption.
      assert (D2: (p | fval r 0 h * fval r 0 k)). { replace (_ * _) with (fval r 0 a - (fval r 0 a - fval r 0 h * fval r 0 k)) by ring. apply Z.divide_sub_r; assumption. }
      apply (prime_mult p Hp) in D2. destruct D2 as [D2|D2]; [|exact D2]. exfalso. apply Nr, R; assumption. }
    destruct (root_factor p r k Ok Dk) as (k2 & Ok2 & F2).
    set (u := conv h (lin_factor r)). assert (Ou: only_x u) by (apply only_x_conv; [exact Oh|apply lin_factor_only_x]).
    assert (Sl: sorted (lin_factor r)) by (unfold lin_factor; csorted).
    assert (Hlf: highest_term_x (lin_factor r) = mkTerm 1 (mkMono 1 0 0 None)) by reflexivity.
    pose proof (top_coef h (lin_factor r) Sh Sl Oh (lin_factor_only_x r) Nh ltac:(discriminate)) as T. rewrite Hh, Hlf in T. cbn [tm tc mx] in T.
    destruct (nf_spec p u ltac:(lia)) as (Sn & Rn & Fn & On). specialize (On Ou).
    assert (Hn: highest_term_x (nf p u) = mkTerm 1 (mkMono (Z.of_nat (length (r :: l))) 0 0 None)).
    { cbn [length]. rewrite Nat2Z.inj_succ. apply nf_highest; [lia|exact Ou| |].
      - intros m c Hi. unfold u in Hi. apply in_conv in Hi. destruct Hi as (m1 & c1 & m2 & c2 & H1 & H2 & -> & _). unfold mmul. cbn [mx].
        pose proof (highest_max h m1 c1 Sh H1) as L1. rewrite Hh in L1. cbn [tm mx] in L1. destruct H2 as [E|[E|[]]]; injection E; intros; subst; cbn [mone mx]; lia.
      - unfold u. replace (Z.succ (Z.of_nat (length l))) with (Z.of_nat (length l) + 1) by lia. rewrite T. exists 0. ring. }
    exists (nf p u). split; [exact Sn|]. split; [exact Rn|]. split; [exact On|]. split; [intros E; rewrite E in Hn; apply (f_equal (fun t => mx (tm t))) in Hn; cbn [tm mx] in Hn; cbn in Hn; lia|].
    split; [exact Hn|]. split.
    + exists k2. split; [exact Ok2|]. rewrite Fn, F. rewrite F2. unfold u. apply feq_feqm. generalize (lin_factor r). intros w. ring.
    + intros x Hx D. assert (Du: (p | fval x 0 u)). { apply (fval_feqm p x 0) in Fn. replace (fval x 0 u) with (fval x 0 (nf p u) - (fval x 0 (nf p u) - fval x 0 u)) by ring. apply Z.divide_sub_r; assumption. }
      unfold u in Du. rewrite fval_conv_x in Du by (try assumption; apply lin_factor_only_x). rewrite lin_factor_val in Du.
      apply (prime_mult p Hp) in Du. destruct Du as [Du|Du]; [right; apply R; assumption|left]. destruct Du as (z & Ez). assert (z = 0) by nia. lia.
Qed.
(** A polynomial has at most as many roots as its degree. *)
Lemma root_count p a l : prime p -> sorted a -> only_x a -> a <> [] -> ulead p a -> NoDup l -> (forall x, In x l -> 0 <= x < p /\ (p | fval x 0 a)) ->
  Z.of_nat (length l) <= mx (tm (highest_term_x a)).
Proof.
  intros Hp Sa Oa Na Ua Nd Hl. destruct (split_roots p Hp l a Oa Nd Hl) as (h & Sh & Rh & Oh & Nh & Hh & D & _).
  pose proof (ufactor_degree p h a Hp Sh Rh Oh Nh Sa Ua Oa Na D) as L. rewrite Hh in L. exact L.
Qed.

Definition fermat_poly (p : Z) : fsum := [(mkMono 1 0 0 None, -1); (mkMono p 0 0 None, 1)].
Lemma fermat_only_x p : 0 <= p -> only_x (fermat_poly p).
Proof. intros Hp m c [E|[E|[]]]; injection E; intros; subst; cbn; intuition lia. Qed.
Lemma fermat_sorted p : 2 <= p -> sorted (fermat_poly p).
Proof. intros Hp. split; [|split; [intros ? ? []|exact I]]. intros m c [E|[]]. injection E; intros; subst. unfold mono_cmp. cbn [mx]. replace (1 <? p) with true by lia. reflexivity. Qed.
Lemma fermat_val p x : fval x 0 (fermat_poly p) = x ^ p - x.
Proof. unfold fermat_poly. cbn [fval]. unfold mval. cbn [mx my]. rewrite !Z.pow_0_r, Z.pow_1_r. ring. Qed.
Lemma fermat_roots p x : prime p -> (p | fval x 0 (fermat_poly p)).
Proof.
  intros Hp. rewrite fermat_val. pose proof (prime_ge_2 p Hp). replace p with (Z.succ (p - 1)) at 2 by lia. rewrite Z.pow_succ_r by lia.
  replace (x * x ^ (p - 1) - x) with (x * (x ^ (p - 1) - 1)) by ring.
  destruct (Zdivide_dec p x) as [D|D]; [apply Z.divide_mul_l, D|]. apply Z.divide_mul_r.
  exact (fermat_little p x Hp D).
Qed.
Lemma fermat_highest p : 2 <= p -> highest_term_x (fermat_poly p) = mkTerm 1 (mkMono p 0 0 None).
Proof. reflexivity. Qed.

Definition rootb (p : Z) (a : fsum) (x : Z) : bool := fval x 0 a mod p =? 0.
Lemma rootb_true p a x : p <> 0 -> rootb p a x = true <-> (p | fval x 0 a).
Proof. intros Hp. unfold rootb. rewrite Z.eqb_eq. split; intros H; [apply Z.mod_divide; assumption|apply Z.mod_divide in H; assumption]. Qed.
Definition roots (p : Z) (a : fsum) : list Z := filter (rootb p a) (zrange 0 p).
Lemma in_roots p a x : 0 < p -> In x (roots p a) <-> 0 <= x < p /\ (p | fval x 0 a).
Proof. intros Hp. unfold roots. rewrite filter_In, P_Bigint.in_zrange, rootb_true by lia. reflexivity. Qed.
Lemma filter_or_length {A} (f g : A -> bool) l : (forall x, In x l -> f x = true \/ g x = true) -> (length l <= length (filter f l) + length (filter g l))%nat.
Proof.
  induction l as [|x l IH]; intros H; cbn [filter length]; [lia|]. specialize (IH (fun y Hy => H y (or_intror Hy))).
  destruct (H x (or_introl eq_refl)) as [E|E]; rewrite E; destruct (f x), (g x); cbn [length]; lia.
Qed.
(** A divisor of x^p - x has exactly as many roots as its degree. *)
Lemma roots_of_divisor p g : prime p -> sorted g -> reduced p g -> only_x g -> g <> [] -> fdivides p g (fermat_poly p) ->
  Z.of_nat (length (roots p g)) = mx (tm (highest_term_x g)).
Proof.
  intros Hp Sg Rg Og Ng (k & Ok & F). pose proof (prime_ge_2 p Hp) as Hp2.
  destruct (nf_spec p k ltac:(lia)) as (Sk & Rk & Fk & Ok'). specialize (Ok' Ok). set (k' := nf p k) in *. rewrite <- Fk in F.
  assert (Nk: k' <> []).
  { intros E. rewrite E in F. specialize (F (mkMono p 0 0 None)). rewrite (conv_comm g [] _) in F. cbn [conv flat_map] in F. unfold fermat_poly in F. cbn [coef] in F.
    rewrite mono_eqb_refl in F. rewrite mono_eqb_neq in F by (intros E1; injection E1; lia). replace (0 + (1 + 0) - 0) with 1 in F by ring. apply Z.divide_pos_le in F; lia. }
  pose proof (root_count p g (roots p g) Hp Sg Og Ng (reduced_ulead p g Hp Sg Rg) (NoDup_filter _ (NoDup_zrange 0 p)) (fun x Hx => proj1 (in_roots p g x ltac:(lia)) Hx)) as L1.
  pose proof (root_count p k' (roots p k') Hp Sk Ok' Nk (reduced_ulead p k' Hp Sk Rk) (NoDup_filter _ (NoDup_zrange 0 p)) (fun x Hx => proj1 (in_roots p k' x ltac:(lia)) Hx)) as L2.
  assert (L3: (length (zrange 0 p) <= length (roots p g) + length (roots p k'))%nat).
  { apply filter_or_length. intros x _. rewrite !rootb_true by lia. apply (prime_mult p Hp). pose proof (fval_feqm p x 0 _ _ F) as G. rewrite fval_conv_x in G by assumption.
    replace (_ * _) with (fval x 0 (fermat_poly p) - (fval x 0 (fermat_poly p) - fval x 0 g * fval x 0 k')) by ring. apply Z.divide_sub_r; [apply fermat_roots, Hp|exact G]. }
  rewrite length_zrange in L3.
  assert (L4: mx (tm (highest_term_x g)) + mx (tm (highest_term_x k')) <= p).
  { pose proof (top_coef g k' Sg Sk Og Ok' Ng Nk) as T. set (D := mx (tm (highest_term_x g)) + mx (tm (highest_term_x k'))) in *.
    destruct (Z_le_gt_dec D p) as [|Gt]; [assumption|exfalso]. specialize (F (mkMono D 0 0 None)). rewrite T in F. unfold fermat_poly in F. cbn [coef] in F.
    rewrite !mono_eqb_neq in F by (intros E1; injection E1; lia). assert (DD: (p | tc (highest_term_x g) * tc (highest_term_x k'))) by (destruct F as (z & F); exists (- z); lia).
    apply (prime_mult p Hp) in DD. destruct DD as [DD|DD]; [apply (reduced_lead p g Hp Sg Ng Rg DD)|apply (reduced_lead p k' Hp Sk Nk Rk DD)]. }
  lia.
Qed.
Lemma nf_lin_factor p r : prime p -> sorted (nf p (lin_factor r)) /\ reduced p (nf p (lin_factor r)) /\ only_x (nf p (lin_factor r)) /\ In (mkMono 1 0 0 None, 1) (nf p (lin_factor r)) /\
  feqm p (nf p (lin_factor r)) (lin_factor r).
Proof.
  intros Hp. pose proof (prime_ge_2 p Hp) as Hp2. destruct (nf_spec p (lin_factor r) ltac:(lia)) as (Sn & Rn & Fn & On). specialize (On (lin_factor_only_x r)).
  assert (H: highest_term_x (nf p (lin_factor r)) = mkTerm 1 (mkMono 1 0 0 None)).
  { apply nf_highest; [lia|apply lin_factor_only_x| |].
    - intros m c [E|[E|[]]]; injection E; intros; subst; cbn; lia.
    - unfold lin_factor. cbn [coef]. rewrite mono_eqb_neq by discriminate. rewrite mono_eqb_refl. exists 0. ring. }
  split; [exact Sn|]. split; [exact Rn|]. split; [exact On|]. split; [|exact Fn].
  assert (N: nf p (lin_factor r) <> []) by (intros E; rewrite E in H; discriminate).
  destruct (highest_spec _ Sn N) as (Hh & _). rewrite H in Hh. exact Hh.
Qed.
(** Coprimality to x^p - x is having no root. *)
Lemma common_factor_fermat p a : prime p -> only_x a -> common_factor p a (fermat_poly p) <-> exists x, 0 <= x < p /\ (p | fval x 0 a).
Proof.
  intros Hp Oa. pose proof (prime_ge_2 p Hp) as Hp2. split.
  - intros (h & m & c & Sh & Rh & Oh & Hi & Hm & Da & Df). assert (Nh: h <> []) by (intros ->; destruct Hi).
    pose proof (roots_of_divisor p h Hp Sh Rh Oh Nh Df) as L. pose proof (highest_max h m c Sh Hi) as L2.
    destruct (roots p h) as [|x l] eqn:E; [cbn in L; lia|]. assert (Hx: In x (roots p h)) by (rewrite E; left; reflexivity).
    apply in_roots in Hx; [|lia]. exists x. split; [apply Hx|]. apply (divides_root p h a x Oh Da). apply Hx.
  - intros (x & Bx & Dx). destruct (nf_lin_factor p x Hp) as (Sn & Rn & On & Hi & Fn). exists (nf p (lin_factor x)), (mkMono 1 0 0 None), 1.
    assert (T: forall b, fdivides p (lin_factor x) b -> fdivides p (nf p (lin_factor x)) b) by (intros b (k & Hk & G); exists k; split; [exact Hk|]; rewrite Fn; exact G).
    repeat (split; [assumption || (cbn; lia)|]). split; apply T, root_factor; try assumption; [apply fermat_only_x; lia|apply fermat_roots, Hp].
Qed.
Lemma common_factor_sym p a b : common_factor p a b -> common_factor p b a.
Proof. intros (h & m & c & H1 & H2 & H3 & H4 & H5 & H6 & H7). exists h, m, c. auto 10. Qed.
(** x^p - x as built by the code. *)
Lemma fermat_built p : 2 <= p -> term_sub (tb_build (tb_xpow p tb_new)) (tb_build (tb_xpow 1 tb_new)) = fermat_poly p.
Proof.
  intros Hp. assert (C: mono_cmp (mkMono 1 0 0 None) (mkMono p 0 0 None) = Lt) by (unfold mono_cmp; cbn [mx]; replace (1 <? p) with true by lia; reflexivity).
  change (term_sub (tb_build (tb_xpow p tb_new)) (tb_build (tb_xpow 1 tb_new))) with
    (match (match mono_cmp (mkMono 1 0 0 None) (mkMono p 0 0 None) with Lt => None | Eq => Some 1 | Gt => None end) with
     | Some av => bm_insert (mkMono 1 0 0 None) (av + -1) [(mkMono p 0 0 None, 1)]
     | None => match mono_cmp (mkMono 1 0 0 None) (mkMono p 0 0 None) with
               | Lt => [(mkMono 1 0 0 None, -1); (mkMono p 0 0 None, 1)] | Eq => [(mkMono p 0 0 None, -1)] | Gt => [(mkMono p 0 0 None, 1); (mkMono 1 0 0 None, -1)] end
     end).
  rewrite C. reflexivity.
Qed.
Lemma weierstrass_only_x a b : only_x (weierstrass a b).
Proof. exact (weierstrass_xkey a b). Qed.
Lemma weierstrass_highest a b : highest_term_x (weierstrass a b) = mkTerm 1 (mkMono 3 0 0 None).
Proof.
  pose proof (weierstrass_sorted a b) as Ss. assert (C: coef (weierstrass a b) (mkMono 3 0 0 None) = 1).
  { rewrite (weierstrass_feq a b _). unfold fweier. cbn [coef]. rewrite mono_eqb_refl, !mono_eqb_neq by discriminate. ring. }
  destruct (coef_in (weierstrass a b) (mkMono 3 0 0 None)) as (c & Hi); [lia|]. rewrite (sorted_coef _ _ _ Ss Hi) in C. subst c.
  assert (N: weierstrass a b <> []) by (intros E; rewrite E in Hi; destruct Hi).
  destruct (highest_spec _ Ss N) as (Hh & _ & M). pose proof (M _ _ Hi) as L. cbn [mx] in L.
  assert (K: keysP (fun m => mx m <= 3) (weierstrass a b)) by (apply weierstrass_keys; cbn; lia).
  pose proof (K _ _ Hh) as L2. cbn beta in L2. pose proof (highest_key _ Ss (weierstrass_only_x a b) N) as Ek. replace (mx (tm (highest_term_x (weierstrass a b)))) with 3 in Ek by lia.
  assert (Ec: tc (highest_term_x (weierstrass a b)) = 1).
  { rewrite Ek in Hh. rewrite <- (sorted_coef _ _ _ Ss Hh). apply (sorted_coef _ _ _ Ss Hi). }
  destruct (highest_term_x (weierstrass a b)) as [c m]. cbn in *. subst. reflexivity.
Qed.
Lemma weierstrass_i32 a b : i32_poly (weierstrass a b).
Proof. intros m c Hi. apply weierstrass_bound in Hi. unfold i32_mono, i32_range, i32_min, i32_max. lia. Qed.
Lemma weierstrass_ulead a b p : 1 < p -> ulead p (weierstrass a b).
Proof. intros Hp. right. rewrite weierstrass_highest. cbn. intros D. apply Z.divide_pos_le in D; lia. Qed.
Lemma fermat_i32 p : 0 <= p <= i32_max -> i32_poly (fermat_poly p).
Proof. unfold i32_max. intros Hp m c [E|[E|[]]]; injection E; intros; subst; unfold i32_mono, i32_range, i32_min, i32_max; cbn; lia. Qed.
Lemma fermat_ulead p : 2 <= p -> ulead p (fermat_poly p).
Proof. intros Hp. right. rewrite fermat_highest by exact Hp. cbn. intros D. apply Z.divide_pos_le in D; lia. Qed.
