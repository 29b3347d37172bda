(** modular_polynomial only returns for p <= 211; ranges of the q-series. *)
From Coq Require Import Znumtheory ZifyBool Setoid Morphisms Ring.
From Verif Require Import Prelude M_Bigint M_Variable M_Term M_Poly M_QSeries M_Solve M_Curve M_Modular Spec P_Bigint P_Variable P_FSum P_Poly P_Rem P_PolyProps P_Subst P_Subst2 P_Subst3 P_SubstProps P_Mod P_Q P_QProps P_Solve P_SolveProps P_Modular P_Modular2 P_JPos P_ModRet P_ModRet2.
Open Scope Z_scope.

Lemma pow_loop_i32 fuel : forall e b r c, p_power_loop fuel e b r = Ok c -> i32_poly c.
Proof.
  induction fuel as [|f IH]; intros e b r c H; cbn [p_power_loop] in H; destruct (1 <? e); [discriminate|exact (p_mul_i32 _ _ _ H)| |exact (p_mul_i32 _ _ _ H)].
  apply bind_Ok in H. destruct H as (r' & Er & H). apply bind_Ok in H. destruct H as (b' & Eb & H). exact (IH _ _ _ _ H).
Qed.
Lemma power_i32_keys s n c : 1 <= n -> p_power s n = Ok c -> i32_poly c.
Proof.
  intros Hn H. unfold p_power in H. apply bind_Ok in H. destruct H as (_ & _ & H). destruct (n =? 0) eqn:E; [lia|]. exact (pow_loop_i32 _ _ _ _ _ H).
Qed.
Lemma qpow_entry a k n c : 1 <= c -> In (qmono n, c) a -> exists d, 1 <= d /\ In (qmono (n * Z.of_nat k), d) (fpow a k).
Proof.
  intros Hc H. induction k as [|k (d & Hd & IH)]; [exists 1; split; [lia|rewrite Z.mul_0_r; left; reflexivity]|]. exists (c * d). split; [nia|]. cbn [fpow].
  replace (qmono (n * Z.of_nat (S k))) with (mmul (qmono n) (qmono (n * Z.of_nat k))) by (unfold mmul, qmono; cbn [mx my mq mv]; f_equal; lia). apply conv_entry; assumption.
Qed.
(** A power of a series with nonnegative coefficients has the power of each of its terms. *)
Lemma power_term (s w : poly) k n c : 1 <= k -> sorted s -> allpos s -> 1 <= c -> In (qmono n, c) s -> p_power s k = Ok w -> i32_range (n * k).
Proof.
  intros Hk Ss As Hc Hi E. destruct (p_power_spec s k w Ss E) as (_ & Sw & Fw). destruct (qpow_entry s (Z.to_nat k) n c Hc Hi) as (d & Hd & Id). rewrite Z2Nat.id in Id by lia.
  apply pos_ge in Id; [|apply pos_fpow, As]. destruct (coef_in w (qmono (n * k))) as (e & Ie); [rewrite (Fw _); lia|]. apply (power_i32_keys s k w Hk E) in Ie. apply Ie.
Qed.
Lemma e4_pos N e : 0 <= N < i32_max -> eisenstein4 N = Ok e -> sorted e /\ allpos e /\ exists c, 1 <= c /\ In (qmono N, c) e.
Proof.
  intros HN Ee. destruct (c40_eisenstein N HN) as (e' & Ee' & Se & Ze & C0 & Cn & Ke). assert (e' = e) as -> by congruence. split; [exact Se|].
  assert (Pe : allpos e). { intros m c I. destruct (Ke m c I) as (k & Hk & ->). rewrite <- (sorted_coef e _ _ Se I). destruct (Z.eq_dec k 0) as [-> |]; [lia|]. rewrite Cn by lia. pose proof (sigma_nonneg 3 k ltac:(lia)). lia. }
  split; [exact Pe|]. assert (1 <= coef e (qmono N)). { destruct (Z.eq_dec N 0) as [-> |]; [lia|]. rewrite Cn by lia. pose proof (sigma_pos 3 N). lia. }
  destruct (coef_in e (qmono N)) as (c & I); [lia|]. exists c. split; [|exact I]. rewrite <- (sorted_coef e _ _ Se I). lia.
Qed.
Lemma i32_Ok_range n v : i32 n = Ok v -> v = n /\ i32_range n.
Proof. intros H. apply i32_inv in H. exact H. Qed.
Lemma j1_range N r : 0 <= N -> j_invariant1 N = Ok r -> 3 * N + 1 <= i32_max.
Proof.
  intros HN H. unfold j_invariant1 in H. apply bind_Ok in H. destruct H as (di & Ed & H). apply bind_Ok in H. destruct H as (e & Ee & H). apply bind_Ok in H. destruct H as (w & Ew & H).
  assert (B : N < i32_max). { unfold eisenstein4 in Ee. apply bind_Ok in Ee. destruct Ee as (m1 & E1 & _). apply i32_Ok_range in E1. unfold i32_range in E1. lia. }
  destruct (e4_pos N e ltac:(lia) Ee) as (Se & Pe & c & Hc & I). change p_power_i32 with p_power in Ew. pose proof (power_term e w 3 N c ltac:(lia) Se Pe Hc I Ew) as R. unfold i32_range, i32_max in *. lia.
Qed.
Lemma j_range N J : -1 <= N -> j_invariant N = Ok J -> 3 * (N + 1) + 1 <= i32_max.
Proof.
  intros HN H. unfold j_invariant in H. apply bind_Ok in H. destruct H as (o & Eo & H). apply i32_Ok_range in Eo. destruct Eo as (-> & Ro). apply bind_Ok in H. destruct H as (r & Er & H). apply (j1_range (N + 1) r); [lia|exact Er].
Qed.
Lemma j_pos N J : -1 <= N -> j_invariant N = Ok J -> sorted J /\ allpos J /\ (forall n, -1 <= n <= N -> 1 <= coef J (qmono n)) /\ exists c, 1 <= c /\ In (qmono N, c) J.
Proof.
  intros HN H. pose proof (j_range N J HN H) as B. destruct (j_spec N HN B) as (r & J' & Er & EJ & SJ & CJ & KJ). assert (J' = J) as -> by congruence. split; [exact SJ|].
  assert (P : forall n, -1 <= n <= N -> 1 <= coef J (qmono n)).
  { intros n Hn. rewrite CJ. change (mmul (qmono n) (qmono 1)) with (qmono (n + 1)). apply (j1_pos (N + 1)); [lia|exact B|exact Er|lia]. }
  split; [|split; [exact P|]].
  - intros m c I. destruct (KJ _ _ I) as (n & Hn & ->). rewrite <- (sorted_coef J _ _ SJ I). specialize (P n Hn). lia.
  - specialize (P N ltac:(lia)). destruct (coef_in J (qmono N)) as (c & I); [lia|]. exists c. split; [rewrite <- (sorted_coef J _ _ SJ I); exact P|exact I].
Qed.
(** The template's y^(p+1) survives the substitution for x. *)
Lemma template_y p T J : 2 <= p -> feq T (tterms p) -> keysP qpure J -> coef (fsubst_x T J) (mkMono 0 (p + 1) 0 None) = 1.
Proof.
  intros Hp FT PJ. rewrite coef_lin, lin_fsubst_x. rewrite (feq_lin _ _ _ FT). set (phi := fun t => lin _ _).
  assert (Z0 : forall t, my t <> p + 1 -> phi t = 0).
  { intros t Ht. unfold phi. transitivity (lin (fun _ => 0) (fpow J (Z.to_nat (mx t)))); [|apply lin_zero]. apply lin_ext_in. intros u c Hu. destruct (qpure_fpow J _ PJ _ _ Hu) as (_ & U & _).
    apply delta_neq. intros E. apply (f_equal my) in E. unfold mmul, set_x in E. cbn in E. lia. }
  rewrite tterms_eq. unfold sterms. rewrite lin_app, lin_flat_map. cbn [lin]. rewrite (Z0 (xymono (p + 1) 0)) by (cbn; lia).
  assert (E1 : phi (xymono 0 (p + 1)) = 1).
  { unfold phi. change (mx (xymono 0 (p + 1))) with 0. change (Z.to_nat 0) with 0%nat. cbn [fpow]. unfold fconst. cbn [lin].
    assert (mmul (set_x 0 (xymono 0 (p + 1))) mone = mkMono 0 (p + 1) 0 None) as -> by (unfold mmul, set_x, xymono; cbn; f_equal; lia). rewrite delta_refl. reflexivity. }
  rewrite E1.
  assert (E2 : forall l, (forall ij, In ij l -> 0 <= fst ij <= p /\ 0 <= snd ij <= p) -> fold_right Z.add 0 (map (fun x => lin phi (stermsv true (fun _ _ => 1) x)) l) = 0).
  { induction l as [|[i j] l IH]; intros H; [reflexivity|]. cbn [map fold_right]. rewrite IH by (intros; apply H; right; assumption). specialize (H (i, j) (or_introl eq_refl)). cbn [fst snd] in H. unfold stermsv. cbn [fst snd].
    destruct (i =? j); cbn [lin]; rewrite ?Z0 by (cbn; lia); reflexivity. }
  rewrite E2; [reflexivity|]. intros [i j] Hi. apply in_conv_pairs in Hi. cbn [fst snd]. lia.
Qed.
Lemma list_range p L : modular_template_list p = Ok L -> proom p.
Proof.
  intros EL. destruct (template_list_bound p L EL) as (Pp & Bp). unfold modular_template_list in EL. apply bind_Ok in EL. destruct EL as (pq & Hq & _).
  unfold modular_template_q in Hq. apply bind_Ok in Hq. destruct Hq as (T & ET & Hq). apply bind_Ok in Hq. destruct Hq as (pp & Epp & Hq). apply i32_inv in Epp. destruct Epp as (-> & _).
  apply bind_Ok in Hq. destruct Hq as (jo & Ejo & Hq). apply i32_inv in Ejo. destruct Ejo as (-> & Bjo). apply bind_Ok in Hq. destruct Hq as (J & EJ & Hq).
  apply bind_Ok in Hq. destruct Hq as (J' & EJ' & Hq). apply bind_Ok in Hq. destruct Hq as (p1 & E1 & Hq). apply bind_Ok in Hq. destruct Hq as (p2 & E2 & _).
  destruct (modular_template_spec p T ET) as (_ & _ & ST & FT). set (M := p * p + p) in *. assert (HM : 6 <= M) by (unfold M; nia).
  destruct (j_pos M J ltac:(lia) EJ) as (SJ & AJ & _ & c & Hc & Ic). pose proof (j_pure M J ltac:(lia) (j_range M J ltac:(lia) EJ) EJ) as PJ.
  assert (KI: key_inj (qpower p) J) by (intros m d m' d' _ _; apply qpower_inj; lia).
  destruct (to_q_power_spec J p SJ KI) as (J0 & E0 & SJ' & KJ' & FJ'); [intros m d Hi; apply (q_power_range J p J' EJ' m d Hi)|]. assert (J0 = J') by congruence. subst J0.
  assert (AJ' : allpos J') by (intros m d Hi; apply KJ' in Hi; apply fmap_in in Hi; destruct Hi as (k & Hk & ->); exact (AJ _ _ Hk)).
  assert (Ic' : In (qmono (p * M), c) J').
  { apply KJ'. unfold fmap. apply in_map_iff. exists (qmono M, c). split; [|exact Ic]. cbn [fst snd]. f_equal. unfold qpower, qmono. cbn. f_equal. ring. }
  destruct (eval_x_polynomial_feq T J p1 SJ E1) as (S1 & F1 & _).
  destruct (coef_in p1 (mkMono 0 (p + 1) 0 None)) as (d & Id); [rewrite (F1 _), (template_y p T J ltac:(lia) FT PJ); lia|].
  unfold eval_y_polynomial in E2. destruct (foldM_all _ _ _ _ E2 _ Id) as (s1 & s2 & E). cbn [fst snd] in E. apply bind_Ok in E. destruct E as (w & Ew & _). unfold mono_eval_y_polynomial in Ew. cbn [my] in Ew.
  apply bind_Ok in Ew. destruct Ew as (w' & Ew & _). change p_power_i32 with p_power in Ew. pose proof (power_term J' w' (p + 1) (p * M) c ltac:(lia) SJ' AJ' Hc Ic' Ew) as R. unfold i32_range in R. unfold proom. fold M. nia.
Qed.
Lemma modular_range p r : modular_polynomial p = Ok r -> proom p.
Proof. intros H. destruct (modular_inv p r H) as (Pp & Bp & L & a & b & EL & _). exact (list_range p L EL). Qed.
Lemma proom_211 p : prime p -> (proom p <-> p <= 211).
Proof.
  intros Pp. assert (2 <= p) by (destruct Pp; lia). unfold proom, i32_max. split.
  - intros R. assert (p <= 214). { assert (p * p + p <= 46340) by nia. nia. }
    destruct (Z.eq_dec p 212) as [E|N2]; [exfalso; subst p; apply is_prime_spec in Pp; vm_compute in Pp; discriminate|]. destruct (Z.eq_dec p 213) as [E|N3]; [exfalso; subst p; apply is_prime_spec in Pp; vm_compute in Pp; discriminate|].
    destruct (Z.eq_dec p 214) as [E|N4]; [exfalso; subst p; apply is_prime_spec in Pp; vm_compute in Pp; discriminate|]. lia.
  - intros L. assert (p * p + p <= 44732) by nia. assert (0 <= p * p + p) by nia. replace (p * (p + 1)) with (p * p + p) by ring. nia.
Qed.

(** ** Calls without unbounded loops always end *)
Definition nf {A} (r : res A) : Prop := r <> NoFuel.
Lemma nf_bind {A B} (x : res A) (f : A -> res B) : nf x -> (forall v, x = Ok v -> nf (f v)) -> nf (bind x f).
Proof. intros Hx Hf. destruct x; [apply Hf; reflexivity|discriminate|contradiction]. Qed.
Lemma nf_i32 n : nf (i32 n).
Proof. unfold i32. destruct (in_i32 n); discriminate. Qed.
Lemma nf_assertb b : nf (assertb b).
Proof. destruct b; discriminate. Qed.
Lemma nf_ok {A} (a : A) : nf (Ok a).
Proof. discriminate. Qed.
Lemma nf_foldM {S X} (f : S -> X -> res S) l : (forall s x, In x l -> nf (f s x)) -> forall s, nf (foldM f l s).
Proof.
  induction l as [|x l IH]; intros H s; [apply nf_ok|]. cbn [foldM]. apply nf_bind; [apply H; left; reflexivity|]. intros v _. apply IH. intros; apply H; right; assumption.
Qed.
Lemma nf_mapM {A B} (f : A -> res B) l : (forall x, In x l -> nf (f x)) -> nf (mapM f l).
Proof.
  induction l as [|x l IH]; intros H; [apply nf_ok|]. cbn [mapM]. apply nf_bind; [apply H; left; reflexivity|]. intros v _. apply nf_bind; [apply IH; intros; apply H; right; assumption|]. intros; apply nf_ok.
Qed.
Lemma nf_mul a b : nf (p_mul a b).
Proof. unfold nf. rewrite p_mul_eq. destruct (all_ok a b); discriminate. Qed.
Lemma nf_power_loop fuel : forall e b r, 1 <= e -> (halvings e <= fuel)%nat -> nf (p_power_loop fuel e b r).
Proof.
  induction fuel as [|f IH]; intros e b r He Hf; [unfold halvings in Hf; lia|]. cbn [p_power_loop]. destruct (1 <? e) eqn:E; [|apply nf_mul].
  destruct (halvings_step e ltac:(lia)) as (k & Hk & Hk'). destruct (quot2_split e ltac:(lia)) as (Hs & Hq).
  apply nf_bind; [destruct (Z.odd e); [apply nf_mul|apply nf_ok]|]. intros r' _. apply nf_bind; [apply nf_mul|]. intros b' _. apply IH; lia.
Qed.
Lemma nf_power a n : nf (p_power_i32 a n).
Proof.
  unfold p_power_i32. destruct (0 <=? n) eqn:E; [|discriminate]. cbn [assertb bind]. destruct (n =? 0) eqn:E0; [discriminate|]. apply nf_power_loop; lia.
Qed.
Ltac nf_step := first [apply nf_ok | apply nf_i32 | apply nf_assertb | apply nf_mul | apply nf_power | discriminate
  | (apply nf_bind; [|intros]) | (apply nf_foldM; intros) | (apply nf_mapM; intros) ].
Lemma nf_omit a k : nf (omit_high_order_q a k).
Proof. unfold omit_high_order_q. repeat nf_step. Qed.
Lemma nf_power_omit a n k : nf (power_omit_high_order_q a n k).
Proof. unfold power_omit_high_order_q. repeat first [apply nf_omit | nf_step]. Qed.
Lemma nf_delta1 N : nf (delta1 N).
Proof. unfold delta1. repeat first [apply nf_omit | apply nf_power_omit | nf_step]. Qed.
Lemma nf_delta1_inverse N : nf (delta1_inverse N).
Proof. unfold delta1_inverse. repeat first [apply nf_delta1 | apply nf_power_omit | nf_step]. Qed.
Lemma nf_sigma n k : nf (sigma_divisor n k).
Proof.
  unfold sigma_divisor. destruct (k <? 0) eqn:K; [discriminate|]. destruct (n <? 0); [discriminate|]. repeat nf_step. destruct (_ =? 0); [|apply nf_ok]. apply nf_bind; [|intros; apply nf_ok]. rewrite power_i32_spec by lia. apply nf_ok.
Qed.
Lemma nf_eisenstein N : nf (eisenstein4 N).
Proof. unfold eisenstein4. repeat first [apply nf_sigma | nf_step]. Qed.
Lemma nf_j1 N : nf (j_invariant1 N).
Proof. unfold j_invariant1. repeat first [apply nf_delta1_inverse | apply nf_eisenstein | apply nf_omit | nf_step]. Qed.
Lemma nf_j N : nf (j_invariant N).
Proof. unfold j_invariant. repeat first [apply nf_j1 | nf_step]. Qed.
Lemma nf_tterm i j k l : nf (template_term i j k l).
Proof. rewrite template_term_eq. destruct (_ && _); discriminate. Qed.
Lemma nf_template p : nf (modular_template p).
Proof. unfold modular_template. repeat first [apply nf_tterm | nf_step]. Qed.
Lemma nf_qpow a n : nf (to_q_power a n).
Proof. unfold to_q_power, term_to_q_power. repeat nf_step. Qed.
Lemma nf_evalx a s : nf (eval_x_polynomial a s).
Proof. unfold eval_x_polynomial, mono_eval_x_polynomial. repeat nf_step. Qed.
Lemma nf_evaly a s : nf (eval_y_polynomial a s).
Proof. unfold eval_y_polynomial, mono_eval_y_polynomial. repeat nf_step. Qed.
Lemma nf_pow2 p : nf (i32_pow p 2).
Proof.
  unfold i32_pow. cbn [Z.eqb]. change (halvings 2) with 2%nat. cbn [i32_pow_loop Z.ltb Z.compare Pos.compare Pos.compare_cont Z.odd bind]. repeat nf_step.
Qed.
Lemma nf_list p : nf (modular_template_list p).
Proof.
  unfold modular_template_list. apply nf_bind.
  - unfold modular_template_q. repeat first [apply nf_template | apply nf_j | apply nf_qpow | apply nf_evalx | apply nf_evaly | apply nf_omit | nf_step].
  - intros pq _. unfold to_q_power_coef. repeat first [apply nf_pow2 | nf_step].
Qed.
Lemma list_panics p : ~ (prime p /\ proom p) -> modular_template_list p = Panic.
Proof.
  intros H. pose proof (nf_list p) as N. destruct (modular_template_list p) as [L| |] eqn:E; [|reflexivity|contradiction]. exfalso. apply H. split; [apply (template_list_bound p L E)|exact (list_range p L E)].
Qed.
Lemma modular_panics p : ~ (prime p /\ proom p) -> modular_polynomial p = Panic.
Proof. intros H. unfold modular_polynomial. rewrite (list_panics p H). reflexivity. Qed.
