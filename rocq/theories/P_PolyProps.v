(** Lemmas behind the property theorems C12-C22. *)
From Coq Require Import Znumtheory ZifyBool Setoid Morphisms Ring.
From Verif Require Import Prelude M_Bigint M_Variable M_Term M_Poly Spec P_Bigint P_Variable P_FSum P_Poly P_Rem.
Open Scope Z_scope.

(** C12: Term * Term: coefficients multiply, exponents add, the one variable is kept; panics exactly
    when two variables meet or an exponent sum leaves i32. *)
Lemma c12_term_mul : forall s t,
  (mul_ok (tm s) (tm t) -> term_mul s t = Ok (mkTerm (tc s * tc t) (mmul (tm s) (tm t)))) /\
  (~ mul_ok (tm s) (tm t) -> term_mul s t = Panic).
Proof.
  intros s t. rewrite term_mul_eq. pose proof (mul_okb_spec (tm s) (tm t)) as H.
  destruct (mul_okb (tm s) (tm t)); split; intros H'; try reflexivity; exfalso; intuition congruence.
Qed.
Example c12_mul_case : let s := mkTerm 3 (mkMono 2 0 (-1) (Some (1, 2))) in let t := mkTerm (-5) (mkMono 1 4 1 None) in
  mul_ok (tm s) (tm t) /\ term_mul s t = Ok (mkTerm (-15) (mkMono 3 4 0 (Some (1, 2)))) /\
  ~ mul_ok (tm s) (tm s) /\ term_mul s s = Panic.
Proof. cbv zeta. split; [unfold mul_ok, i32_min, i32_max; cbn; intuition lia|]. split; [reflexivity|]. split; [|reflexivity]. unfold mul_ok; cbn. intuition discriminate. Qed.

(** C12: Term / Term: floor of the coefficient quotient, exponent differences. *)
Lemma c12_term_div : forall s t, mv (tm t) = None -> tc t <> 0 ->
  i32_mono (mkMono (mx (tm s) - mx (tm t)) (my (tm s) - my (tm t)) (mq (tm s) - mq (tm t)) None) ->
  term_div s t = Ok (mkTerm (tc s / tc t)
    (mkMono (mx (tm s) - mx (tm t)) (my (tm s) - my (tm t)) (mq (tm s) - mq (tm t)) (mv (tm s)))).
Proof.
  intros s t Hv Hc (Hx & Hy & Hq). unfold term_div. rewrite Hv. cbn [vempty negb]. unfold div_floor.
  destruct (tc t =? 0) eqn:E; [lia|]. cbn [bind]. cbn [mx my mq] in *. unfold i32_range in *. rewrite !i32_ok by assumption. reflexivity.
Qed.
Lemma c12_term_div_panics : forall s t, mv (tm t) <> None \/ tc t = 0 -> term_div s t = Panic.
Proof.
  intros s t H. unfold term_div. destruct (mv (tm t)) eqn:E; cbn [vempty negb]; [reflexivity|].
  destruct H as [H|H]; [congruence|]. unfold div_floor. rewrite H. reflexivity.
Qed.
(** C12: dividing a product by one of its factors gives the other factor. *)
Lemma c12_mul_div : forall s t u, i32_mono (tm s) -> mv (tm t) = None -> tc t <> 0 ->
  term_mul s t = Ok u -> term_div u t = Ok s.
Proof.
  intros s t u Hs Hv Hc H. rewrite term_mul_eq in H. destruct (mul_okb (tm s) (tm t)); [|discriminate].
  injection H; intros; subst u. destruct s as [cs [sx sy sq sv]], t as [ct [tx ty tq tv]]. cbn [tm tc mx my mq mv] in *. subst tv.
  rewrite c12_term_div; cbn [tm tc mx my mq mv mmul]; auto.
  - f_equal. f_equal; [apply Z.div_mul; exact Hc|]. f_equal; try ring. destruct sv as [[i j]|]; reflexivity.
  - unfold i32_mono, i32_range in *. cbn [mx my mq] in *. lia.
Qed.
Example c12_div_case : term_div (mkTerm (-7) (mkMono 3 4 0 (Some (1, 2)))) (mkTerm 2 (mkMono 1 (-1) 0 None))
  = Ok (mkTerm (-4) (mkMono 2 5 0 (Some (1, 2)))).
Proof. reflexivity. Qed.
(** C12: -t negates the coefficient only. *)
Lemma c12_term_neg : forall t, tc (term_neg t) = - tc t /\ tm (term_neg t) = tm t.
Proof. intros t. split; reflexivity. Qed.

(** C12: power(n) is the coefficient power and the exponent multiple ... *)
Lemma c12_term_power : forall t n, mv (tm t) = None -> 0 <= n <= i32_max ->
  i32_mono (mkMono (mx (tm t) * n) (my (tm t) * n) (mq (tm t) * n) None) ->
  term_power t n = Ok (mkTerm (tc t ^ n) (mkMono (mx (tm t) * n) (my (tm t) * n) (mq (tm t) * n) None)) /\
  term_power_i32 t n = term_power t n.
Proof.
  intros t n Hv Hn (Hx & Hy & Hq). cbn [mx my mq] in *. unfold i32_range in *.
  assert (E: term_power t n = Ok (mkTerm (tc t ^ n) (mkMono (mx (tm t) * n) (my (tm t) * n) (mq (tm t) * n) None))).
  { unfold term_power, to_i32. rewrite Hv. cbn [vempty negb]. rewrite i32_ok by (unfold i32_min, i32_max in *; lia). cbn [bind].
    rewrite power_spec by lia. cbn [bind]. rewrite !i32_ok by assumption. reflexivity. }
  split; [exact E|]. unfold term_power_i32. rewrite Hv. reflexivity.
Qed.
Lemma term_power_inv t n u : 0 <= n -> term_power t n = Ok u ->
  mv (tm t) = None /\ 0 <= n <= i32_max /\ i32_mono (mkMono (mx (tm t) * n) (my (tm t) * n) (mq (tm t) * n) None) /\
  u = mkTerm (tc t ^ n) (mkMono (mx (tm t) * n) (my (tm t) * n) (mq (tm t) * n) None).
Proof.
  intros Hn H. unfold term_power, to_i32 in H. destruct (mv (tm t)) eqn:Ev; [discriminate|]. cbn [vempty negb] in H.
  apply bind_Ok in H. destruct H as (nn & Hnn & H). apply i32_inv in Hnn. destruct Hnn as (-> & Rn).
  rewrite power_spec in H by lia. cbn [bind] in H.
  apply bind_Ok in H. destruct H as (x & Hx & H). apply i32_inv in Hx. destruct Hx as (-> & Rx).
  apply bind_Ok in H. destruct H as (y & Hy & H). apply i32_inv in Hy. destruct Hy as (-> & Ry).
  apply bind_Ok in H. destruct H as (q & Hq & H). apply i32_inv in Hq. destruct Hq as (-> & Rq).
  injection H; intros; subst. unfold i32_mono, i32_range. cbn [mx my mq]. split; [reflexivity|]. split; [lia|]. split; [tauto|reflexivity].
Qed.
(** ... i.e. the n-fold product of the term with itself, and power_modulo(n,p) is power(n) reduced. *)
Lemma c12_term_power_iterated : forall t n u, 0 <= n -> term_power t n = Ok u ->
  Nat.iter (Z.to_nat n) (fun r => r <- r ;; term_mul r t) (Ok term_one) = Ok u.
Proof.
  intros t n u Hn H. destruct (term_power_inv t n u Hn H) as (Hv & Hr & (Bx & By & Bq) & ->). clear H. cbn [mx my mq] in *.
  unfold i32_range in *.
  assert (G: forall k, (k <= Z.to_nat n)%nat ->
    Nat.iter k (fun r => r <- r ;; term_mul r t) (Ok term_one) =
    Ok (mkTerm (tc t ^ Z.of_nat k) (mkMono (mx (tm t) * Z.of_nat k) (my (tm t) * Z.of_nat k) (mq (tm t) * Z.of_nat k) None))).
  { induction k as [|k IH]; intros Hk.
    - cbn. unfold term_one, tb_build, tb_new. cbn. rewrite !Z.mul_0_r. reflexivity.
    - change (Nat.iter (S k) (fun r => r <- r ;; term_mul r t) (Ok term_one))
        with (r <- Nat.iter k (fun r => r <- r ;; term_mul r t) (Ok term_one) ;; term_mul r t).
      rewrite IH by lia. cbn [bind].
      rewrite (proj1 (c12_term_mul _ _)); cbn [tm tc].
      + f_equal. rewrite Nat2Z.inj_succ. unfold mmul. cbn [mx my mq mv]. rewrite Hv. cbn [vmul]. f_equal.
        * rewrite Z.pow_succ_r by lia. ring.
        * f_equal; ring.
      + unfold mul_ok. cbn [mx my mq mv]. unfold i32_min, i32_max in *. split; [left; reflexivity|].
        replace (mx (tm t) * Z.of_nat k + mx (tm t)) with (mx (tm t) * (Z.of_nat k + 1)) by ring.
        replace (my (tm t) * Z.of_nat k + my (tm t)) with (my (tm t) * (Z.of_nat k + 1)) by ring.
        replace (mq (tm t) * Z.of_nat k + mq (tm t)) with (mq (tm t) * (Z.of_nat k + 1)) by ring.
        assert (1 <= Z.of_nat k + 1 <= n) by lia. nia. }
  rewrite (G (Z.to_nat n)) by lia. rewrite Z2Nat.id by lia. reflexivity.
Qed.
Lemma c12_term_power_modulo : forall t n p, mv (tm t) = None -> 0 <= n -> 2 <= p ->
  term_power_modulo t n p = (u <- term_power t n ;; term_modulo u p).
Proof.
  intros t n p Hv Hn Hp. unfold term_power_modulo, term_power, to_i32. rewrite Hv. cbn [vempty negb].
  destruct (i32 n) as [nn| |] eqn:E; cbn [bind]; try reflexivity.
  destruct (power_modulo_canonical (tc t) n p Hn Hp) as (r & -> & _ & Er). rewrite power_spec by exact Hn. cbn [bind].
  destruct (i32 (mx (tm t) * nn)); cbn [bind]; try reflexivity.
  destruct (i32 (my (tm t) * nn)); cbn [bind]; try reflexivity.
  destruct (i32 (mq (tm t) * nn)); cbn [bind]; try reflexivity.
  unfold term_modulo, mod_floor. destruct (p =? 0) eqn:E0; [lia|]. cbn [bind tb_build]. subst r. reflexivity.
Qed.
Example c12_power_case : term_power (mkTerm 3 (mkMono 2 0 (-1) None)) 4 = Ok (mkTerm 81 (mkMono 8 0 (-4) None)) /\
  term_power_modulo (mkTerm 3 (mkMono 2 0 (-1) None)) 4 7 = Ok (mkTerm 4 (mkMono 8 0 (-4) None)).
Proof. split; reflexivity. Qed.

(** C13: +, - and unary - act coefficientwise; results are again maps (sorted) in normal form. *)
Lemma c13_add : forall a b, sorted a -> sorted b ->
  sorted (p_add a b) /\ (forall m, coef (p_add a b) m = coef a m + coef b m) /\
  (no_zero a -> no_zero b -> no_zero (p_add a b)).
Proof.
  intros a b Ha Hb. split; [apply p_add_sorted, Ha|]. split; [intros m; apply p_add_coef, Ha|]. apply p_add_no_zero, Ha.
Qed.
Lemma c13_sub : forall a b, sorted a -> sorted b ->
  sorted (p_sub a b) /\ (forall m, coef (p_sub a b) m = coef a m - coef b m) /\
  (no_zero a -> no_zero b -> no_zero (p_sub a b)).
Proof.
  intros a b Ha Hb. split; [apply p_sub_sorted, Ha|]. split; [|apply p_sub_no_zero; assumption].
  intros m. rewrite p_sub_eq by exact Hb. rewrite p_add_coef, coef_neg by exact Ha. ring.
Qed.
Lemma c13_neg : forall a, sorted a ->
  sorted (p_neg a) /\ (forall m, coef (p_neg a) m = - coef a m) /\ (no_zero a -> no_zero (p_neg a)).
Proof.
  intros a Ha. rewrite p_neg_eq by exact Ha. split; [apply fneg_sorted, Ha|]. split; [intros m; apply coef_neg|apply fneg_no_zero].
Qed.
(** C13: the assigning forms and the Term-mixed forms agree with the value forms. *)
Lemma c13_assign_forms : forall a b t, sorted a -> sorted b ->
  p_add_assign a b = p_add a b /\ p_sub_assign a b = p_sub a b /\
  p_add_t a t = p_add a (to_pol t) /\ t_add_p t a = p_add (to_pol t) a /\
  p_sub_t a t = p_sub a (to_pol t) /\ t_sub_p t a = p_sub (to_pol t) a /\
  (tc t <> 0 -> p_add_assign_t a t = p_add a (to_pol t)).
Proof.
  intros a b t Ha Hb. split; [reflexivity|]. split; [apply p_sub_assign_eq, Hb|]. do 4 (split; [reflexivity|]).
  intros Hc. rewrite p_add_assign_t_eq, to_pol_eq. destruct (tc t =? 0) eqn:E; [lia|]. reflexivity.
Qed.
(** C13: += Term is coefficientwise also for a zero term. *)
Lemma c13_add_assign_t : forall a t m, sorted a ->
  coef (p_add_assign_t a t) m = coef a m + (if mono_eqb (tm t) m then tc t else 0).
Proof. intros a t m Ha. rewrite p_add_assign_t_eq. apply add_entry_coef, Ha. Qed.
(** C13: a Term as a polynomial. *)
Lemma c13_to_pol : forall t, sorted (to_pol t) /\ no_zero (to_pol t) /\
  (forall m, coef (to_pol t) m = if mono_eqb (tm t) m then tc t else 0).
Proof.
  intros t. split; [apply to_pol_sorted|]. split; [apply to_pol_no_zero|]. intros m. rewrite (to_pol_feq t m). cbn. ring.
Qed.
Definition ex_a : poly := [(mkMono 0 0 0 None, 3); (mkMono 1 0 0 None, -2); (mkMono 1 2 0 (Some (0, 1)), 5)].
Definition ex_b : poly := [(mkMono 1 0 0 None, 2); (mkMono 3 0 0 None, 4)].
Example c13_case : sorted ex_a /\ sorted ex_b /\ no_zero ex_a /\ no_zero ex_b /\
  p_add ex_a ex_b = [(mkMono 0 0 0 None, 3); (mkMono 1 2 0 (Some (0, 1)), 5); (mkMono 3 0 0 None, 4)].
Proof.
  split; [|split; [|split; [|split]]].
  - cbn. repeat split; intros m' c' H; intuition (try congruence); repeat match goal with H : (_, _) = (_, _) |- _ => injection H; intros; subst; clear H end; try reflexivity.
  - cbn. repeat split; intros m' c' H; intuition (try congruence); repeat match goal with H : (_, _) = (_, _) |- _ => injection H; intros; subst; clear H end; try reflexivity.
  - intros m c H. cbn in H. intuition congruence.
  - intros m c H. cbn in H. intuition congruence.
  - reflexivity.
Qed.

(** C14: commutative group laws for the structural ==. *)
Lemma c14_group : forall a b c, sorted a -> sorted b -> sorted c -> no_zero a -> no_zero b -> no_zero c ->
  poly_eqb (p_add a b) (p_add b a) = true /\
  poly_eqb (p_add (p_add a b) c) (p_add a (p_add b c)) = true /\
  poly_eqb (p_add a p_new) a = true /\ poly_eqb (p_add p_new a) a = true /\
  is_zero (p_sub a a) = true /\ poly_eqb (p_add a (p_neg a)) p_new = true.
Proof.
  intros a b c Sa Sb Sc Na Nb Nc. rewrite !poly_eqb_eq, is_zero_nil.
  assert (Sn: sorted p_new) by exact I. assert (Nn: no_zero p_new) by (intros ? ? []).
  assert (Z0: p_sub a a = []).
  { apply canonical; auto using p_sub_sorted, p_sub_no_zero. intros m. rewrite (proj1 (proj2 (c13_sub a a Sa Sa))). cbn. ring. }
  split; [|split; [|split; [reflexivity|split; [|split]]]].
  - apply canonical; auto using p_add_sorted, p_add_no_zero. intros m. rewrite !p_add_coef by auto. ring.
  - apply canonical; auto using p_add_sorted, p_add_no_zero. intros m. rewrite !p_add_coef by auto using p_add_sorted. ring.
  - apply canonical; auto using p_add_sorted, p_add_no_zero. intros m. rewrite p_add_coef by auto. cbn. ring.
  - exact Z0.
  - exact Z0.
Qed.

(** C15: the product is the convolution, it returns exactly when every pair of monomials can be
    multiplied, and it is a map with i32 exponents. *)
Lemma c15_mul : forall a b c, p_mul a b = Ok c ->
  sorted c /\ i32_poly c /\ (forall m, coef c m = coef (conv a b) m).
Proof.
  intros a b c H. split; [eapply p_mul_sorted, H|]. split; [eapply p_mul_i32, H|]. apply p_mul_feq, H.
Qed.
Lemma c15_mul_returns : forall a b,
  ((forall m1 c1 m2 c2, In (m1, c1) a -> In (m2, c2) b -> mul_ok m1 m2) <-> exists c, p_mul a b = Ok c) /\
  ((exists m1 c1 m2 c2, In (m1, c1) a /\ In (m2, c2) b /\ ~ mul_ok m1 m2) <-> p_mul a b = Panic).
Proof.
  intros a b. split; split.
  - apply p_mul_returns.
  - intros (c & H). apply p_mul_Ok in H. apply all_ok_spec, H.
  - intros (m1 & c1 & m2 & c2 & H1 & H2 & H). eapply p_mul_panics; eassumption.
  - rewrite p_mul_eq. unfold all_ok. intros H.
    destruct (forallb _ a) eqn:E; [discriminate|]. clear H.
    assert (G: exists e, In e a /\ forallb (fun f => mul_okb (fst e) (fst f)) b = false).
    { clear -E. induction a as [|e a IH]; [discriminate|]. cbn in E. apply andb_false_iff in E. destruct E as [E|E].
      - exists e. split; [left; reflexivity|exact E].
      - destruct (IH E) as (e' & Hi & He). exists e'. split; [right; exact Hi|exact He]. }
    destruct G as ([m1 c1] & H1 & E1).
    assert (G: exists f, In f b /\ mul_okb (fst (m1, c1)) (fst f) = false).
    { clear -E1. induction b as [|e b IH]; [discriminate|]. cbn in E1. apply andb_false_iff in E1. destruct E1 as [E|E].
      - exists e. split; [left; reflexivity|exact E].
      - destruct (IH E) as (e' & Hi & He). exists e'. split; [right; exact Hi|exact He]. }
    destruct G as ([m2 c2] & H2 & E2). exists m1, c1, m2, c2. split; [exact H1|]. split; [exact H2|].
    intros Hm. apply mul_okb_spec in Hm. cbn in E2. congruence.
Qed.
Lemma c15_mul_forms : forall a b t,
  p_mul_assign a b = p_mul a b /\ p_mul_t a t = p_mul a (to_pol t) /\ t_mul_p t a = p_mul (to_pol t) a.
Proof. intros. repeat split. Qed.
Example c15_case : p_mul ex_a ex_b = Ok [(mkMono 1 0 0 None, 6); (mkMono 2 0 0 None, -4); (mkMono 2 2 0 (Some (0, 1)), 10);
  (mkMono 3 0 0 None, 12); (mkMono 4 0 0 None, -8); (mkMono 4 2 0 (Some (0, 1)), 20)] /\ p_mul ex_a ex_a = Panic.
Proof. split; reflexivity. Qed.

(** C16: ring laws of the product, on every coefficient, whenever the products involved return. *)
Lemma c16_ring : forall a b c, sorted a -> sorted b -> sorted c ->
  (forall ab ba, p_mul a b = Ok ab -> p_mul b a = Ok ba -> feq ab ba) /\
  (forall ab bc l r, p_mul a b = Ok ab -> p_mul ab c = Ok l -> p_mul b c = Ok bc -> p_mul a bc = Ok r -> feq l r) /\
  (forall ab ac s, p_mul a b = Ok ab -> p_mul a c = Ok ac -> p_mul a (p_add b c) = Ok s -> feq s (p_add ab ac)) /\
  (forall r, p_mul p_one a = Ok r -> feq r a) /\ p_mul p_new a = Ok p_new.
Proof.
  intros a b c Sa Sb Sc. split; [|split; [|split; [|split]]].
  - intros ab ba H H'. rewrite (p_mul_feq _ _ _ H), (p_mul_feq _ _ _ H'). ring.
  - intros ab bc l r H1 H2 H3 H4. rewrite (p_mul_feq _ _ _ H2), (p_mul_feq _ _ _ H4), (p_mul_feq _ _ _ H1), (p_mul_feq _ _ _ H3). ring.
  - intros ab ac s H1 H2 H3. rewrite (p_mul_feq _ _ _ H3), (p_add_feq ab ac (p_mul_sorted _ _ _ H1)).
    rewrite (p_add_feq b c Sb), (p_mul_feq _ _ _ H1), (p_mul_feq _ _ _ H2). ring.
  - intros r H. rewrite (p_mul_feq _ _ _ H), p_one_eq. apply conv_1_l.
  - reflexivity.
Qed.
(** C16: a*b returns iff b*a does; and the products of a sum return if the summands' products do. *)
Lemma c16_comm_returns : forall a b, (exists c, p_mul a b = Ok c) -> exists c, p_mul b a = Ok c.
Proof.
  intros a b H0. pose proof (proj2 (proj1 (c15_mul_returns a b)) H0) as H. apply p_mul_returns. intros m1 c1 m2 c2 H1 H2.
  specialize (H _ _ _ _ H2 H1). unfold mul_ok in *. rewrite (Z.add_comm (mx m1)), (Z.add_comm (my m1)), (Z.add_comm (mq m1)). tauto.
Qed.
Lemma c16_distr_returns : forall a b c ab ac, sorted b -> p_mul a b = Ok ab -> p_mul a c = Ok ac ->
  exists s, p_mul a (p_add b c) = Ok s.
Proof.
  intros a b c ab ac Sb Hb Hc. apply p_mul_returns. intros m1 c1 m2 c2 H1 H2.
  refine (p_add_keys (fun m => forall m1 c1, In (m1, c1) a -> mul_ok m1 m) c b Sb _ _ m2 c2 H2 m1 c1 H1).
  - intros m d Hd m' c' Hi. apply p_mul_Ok in Hb. exact (proj1 (all_ok_spec a b) (proj1 Hb) _ _ _ _ Hi Hd).
  - intros m d Hd m' c' Hi. apply p_mul_Ok in Hc. exact (proj1 (all_ok_spec a c) (proj1 Hc) _ _ _ _ Hi Hd).
Qed.
Example c16_case : exists ab abc bc, p_mul ex_b ex_b = Ok ab /\ p_mul ab ex_a = Ok abc /\ p_mul ex_b ex_a = Ok bc /\ p_mul ex_b bc = Ok abc.
Proof. do 3 eexists. split; [vm_compute; reflexivity|]. split; [vm_compute; reflexivity|]. split; [vm_compute; reflexivity|vm_compute; reflexivity]. Qed.

(** C17 is false of the code: (x+1)(x-1) keeps an explicit zero coefficient at x, so == and
    is_zero do not decide equality: (x+1)(x-1) is not == to x^2-1, and (x+1)(x-1) - (x^2-1) is not is_zero. *)
Lemma c17_product_normal_form_refuted : exists a b c d,
  sorted a /\ sorted b /\ sorted c /\ no_zero a /\ no_zero b /\ no_zero c /\ p_mul a b = Ok d /\ feq d c /\
  ~ no_zero d /\ poly_eqb d c = false /\ is_zero (p_sub d c) = false.
Proof.
  exists [(mone, 1); (mkMono 1 0 0 None, 1)], [(mone, -1); (mkMono 1 0 0 None, 1)],
         [(mone, -1); (mkMono 2 0 0 None, 1)], [(mone, -1); (mkMono 1 0 0 None, 0); (mkMono 2 0 0 None, 1)].
  assert (S2: forall c d k, 0 < k -> sorted [(mone, c); (mkMono k 0 0 None, d)]).
  { intros c d k Hk. cbn. split; [|split; [intros ? ? []|exact I]]. intros m' c' [E|[]]. injection E; intros; subst.
    apply mono_cmp_lt_iff. left. exact Hk. }
  assert (N2: forall c d k, c <> 0 -> d <> 0 -> no_zero [(mone, c); (mkMono k 0 0 None, d)]).
  { intros c d k Hc Hd m e H. cbn in H. intuition congruence. }
  split; [apply S2; lia|]. split; [apply S2; lia|]. split; [apply S2; lia|].
  split; [apply N2; lia|]. split; [apply N2; lia|]. split; [apply N2; lia|].
  split; [reflexivity|]. split; [|split; [|split; reflexivity]].
  - intros m. cbn [coef]. destruct (mono_eqb (mkMono 1 0 0 None) m); ring.
  - intros H. apply (H (mkMono 1 0 0 None) 0); [right; left; reflexivity|reflexivity].
Qed.
(** C17, what holds: after a reduction modulo p > 0 the normal form is restored, so == of reduced
    products decides congruence modulo p; and == / is_zero never give a false positive. *)
Lemma c17_product_normal_form_partial : forall a b c d p r s, sorted c -> p_mul a b = Ok d ->
  (poly_eqb d c = true -> feq (conv a b) c) /\
  (is_zero (p_sub d c) = true -> feq (conv a b) c) /\
  (0 < p -> p_rem d p = Ok r -> p_rem c p = Ok s -> (poly_eqb r s = true <-> feqm p (conv a b) c)) /\
  (0 < p -> p_rem (p_sub d c) p = Ok r -> (is_zero r = true <-> feqm p (conv a b) c)).
Proof.
  intros a b c d p r s Sc H. pose proof (p_mul_sorted _ _ _ H) as Sd. pose proof (p_mul_feq _ _ _ H) as Fd.
  split; [|split; [|split]].
  - intros E. apply poly_eqb_eq in E. subst. symmetry. exact Fd.
  - intros E. apply is_zero_nil in E. rewrite <- Fd. intros m. pose proof (proj1 (proj2 (c13_sub d c Sd Sc)) m) as G.
    rewrite E in G. cbn in G. lia.
  - intros Hp E1 E2. rewrite p_rem_eq in E1, E2 by assumption. injection E1; injection E2; intros; subst.
    rewrite poly_eqb_eq, redp_ext by assumption. split; intros F.
    + rewrite <- F. symmetry. apply feq_feqm, Fd.
    + rewrite <- F. apply feq_feqm, Fd.
  - intros Hp E1. rewrite p_rem_eq in E1 by (auto using p_sub_sorted). injection E1; intros; subst.
    rewrite is_zero_nil, redp_nil_iff by (auto using p_sub_sorted).
    assert (G: feqm p (p_sub d c) [] <-> feqm p d c).
    { unfold feqm. split; intros F m; specialize (F m); rewrite (proj1 (proj2 (c13_sub d c Sd Sc)) m) in *; cbn [coef] in *;
      rewrite Z.sub_0_r in *; exact F. }
    rewrite G. split; intros F.
    + rewrite <- F. symmetry. apply feq_feqm, Fd.
    + rewrite <- F. apply feq_feqm, Fd.
Qed.

(** C18 is false of the code: x - x is a polynomial with an explicit zero coefficient. *)
Lemma c18_term_sum_refuted : exists t, tc t <> 0 /\ ~ no_zero (term_sub t t) /\ is_zero (term_sub t t) = false /\
  (exists s, tc s <> 0 /\ ~ no_zero (term_add t s)).
Proof.
  exists (mkTerm 1 (mkMono 1 0 0 None)). split; [discriminate|]. split; [|split; [reflexivity|]].
  - intros H. apply (H (mkMono 1 0 0 None) 0); [left; reflexivity|reflexivity].
  - exists (mkTerm (-1) (mkMono 1 0 0 None)). split; [discriminate|]. intros H.
    apply (H (mkMono 1 0 0 None) 0); [left; reflexivity|reflexivity].
Qed.
(** C18, what holds: the coefficients are right, and for terms with different monomials and
    non-zero coefficients the result is in normal form. *)
Lemma c18_term_sum_partial : forall s t,
  sorted (term_add s t) /\ sorted (term_sub s t) /\
  (forall m, coef (term_add s t) m = (if mono_eqb (tm s) m then tc s else 0) + (if mono_eqb (tm t) m then tc t else 0)) /\
  (forall m, coef (term_sub s t) m = (if mono_eqb (tm s) m then tc s else 0) - (if mono_eqb (tm t) m then tc t else 0)) /\
  (tm s <> tm t -> tc t <> 0 -> no_zero (term_add s t) /\ no_zero (term_sub s t)).
Proof.
  intros s t. split; [apply term_add_sorted|]. split; [apply term_add_sorted|]. split; [|split].
  - intros m. rewrite (term_add_feq s t m). cbn [coef]. ring.
  - intros m. unfold term_sub. rewrite (term_add_feq s (term_neg t) m). cbn [coef term_neg tm tc]. destruct (mono_eqb (tm t) m); ring.
  - intros Hm Hc. split; [apply term_add_no_zero; assumption|]. apply term_add_no_zero; [exact Hm|]. cbn. lia.
Qed.
Example c18_case : term_sub (mkTerm 1 (mkMono 1 0 0 None)) (mkTerm 2 (mkMono 3 0 0 None)) = [(mkMono 1 0 0 None, 1); (mkMono 3 0 0 None, -2)].
Proof. reflexivity. Qed.

(** C19: power is the n-fold product; it never runs forever; negative exponents panic. *)
Lemma c19_power : forall a n c, sorted a -> (p_power a n = Ok c \/ p_power_i32 a n = Ok c) ->
  0 <= n /\ sorted c /\ feq c (fpow a (Z.to_nat n)).
Proof. intros a n c Sa [H|H]; apply (p_power_spec a n c Sa H). Qed.
Lemma c19_power_total : forall a n,
  p_power_i32 a n = p_power a n /\ (n < 0 -> p_power a n = Panic) /\ p_power a n <> NoFuel /\
  p_power a 0 = Ok (fconst 1).
Proof. intros a n. split; [reflexivity|]. split; [apply p_power_neg|]. split; [apply p_power_fuel|reflexivity]. Qed.
Lemma c19_square_cube : forall a c, sorted a ->
  (p_square a = Ok c -> feq c (conv a a)) /\ (p_cube a = Ok c -> feq c (conv a (conv a a))).
Proof.
  intros a c Sa. split; intros H; apply (p_power_spec a _ c Sa) in H; destruct H as (_ & _ & H); rewrite H.
  - change (Z.to_nat 2) with 2%nat. cbn [fpow]. ring.
  - change (Z.to_nat 3) with 3%nat. cbn [fpow]. ring.
Qed.
(** C19: a sufficient condition for power to return: no variables and all partial exponents in i32. *)
Lemma exp_bound_mul B C (a b : poly) : B + C <= i32_max -> exp_bound B a -> exp_bound C b ->
  exists c, p_mul a b = Ok c /\ exp_bound (B + C) c.
Proof.
  intros HB Ha Hb.
  assert (R: exists c, p_mul a b = Ok c).
  { apply p_mul_returns. intros m1 c1 m2 c2 H1 H2. apply Ha in H1. apply Hb in H2. unfold mul_ok, i32_min, i32_max in *. intuition lia. }
  destruct R as (c & Hc). exists c. split; [exact Hc|].
  apply (p_mul_keys (fun m => Z.abs (mx m) <= B /\ Z.abs (my m) <= B /\ Z.abs (mq m) <= B /\ mv m = None)
                    (fun m => Z.abs (mx m) <= C /\ Z.abs (my m) <= C /\ Z.abs (mq m) <= C /\ mv m = None) _ a b c Hc Ha Hb).
  intros m1 m2 (A1 & A2 & A3 & A4) (B1 & B2 & B3 & B4) _. unfold mmul. cbn [mx my mq mv]. rewrite A4, B4. repeat split; try lia.
Qed.
Lemma exp_bound_mono B C a : B <= C -> exp_bound B a -> exp_bound C a.
Proof. intros H Ha m c Hi. apply Ha in Hi. intuition lia. Qed.
Lemma p_power_loop_returns fuel : forall e (b r : poly) B R, 0 <= B -> 0 <= R -> 1 <= e -> (halvings e <= fuel)%nat ->
  R + e * B <= i32_max -> exp_bound B b -> exp_bound R r -> exists c, p_power_loop fuel e b r = Ok c /\ exp_bound (R + e * B) c.
Proof.
  induction fuel as [|f IH]; intros e b r B R HB HR He Hf Hm Hb Hr; [unfold halvings in Hf; lia|].
  cbn [p_power_loop]. destruct (1 <? e) eqn:E.
  - destruct (quot2_split e ltac:(lia)) as (Hs & Hq). destruct (halvings_step e ltac:(lia)) as (k & Hk & Hk').
    set (h := Z.quot e 2) in *.
    assert (G: exists r', (if Z.odd e then p_mul_assign r b else Ok r) = Ok (r' : poly) /\ exp_bound (R + (if Z.odd e then B else 0)) r').
    { destruct (Z.odd e).
      - unfold p_mul_assign. apply exp_bound_mul; auto. nia.
      - exists r. split; [reflexivity|]. eapply exp_bound_mono; [|exact Hr]. lia. }
    destruct G as (r' & -> & Hr'). cbn [bind].
    destruct (exp_bound_mul B B b b) as (b' & -> & Hb'); auto; [nia|]. cbn [bind].
    destruct (IH h b' r' (B + B) (R + (if Z.odd e then B else 0))) as (c & Hc & Hbc); auto; try lia.
    + destruct (Z.odd e); lia.
    + destruct (Z.odd e); nia.
    + exists c. split; [exact Hc|]. eapply exp_bound_mono; [|exact Hbc]. destruct (Z.odd e); nia.
  - assert (e = 1) by lia. subst e. destruct (exp_bound_mul R B r b) as (c & Hc & Hbc); auto; [lia|].
    exists c. split; [exact Hc|]. eapply exp_bound_mono; [|exact Hbc]. lia.
Qed.
Lemma p_power_returns (a : poly) n B : 0 <= n -> 0 <= B -> n * B <= i32_max -> exp_bound B a ->
  exists c, p_power a n = Ok c /\ exp_bound (n * B) c.
Proof.
  intros Hn HB Hm Ha. unfold p_power. destruct (0 <=? n) eqn:E; [|lia]. cbn [assertb bind]. destruct (n =? 0) eqn:E0.
  - exists p_one. split; [reflexivity|]. intros m c [Ei|[]]. injection Ei; intros; subst. cbn. repeat split; nia.
  - destruct (p_power_loop_returns (halvings n) n a p_one B 0) as (c & Hc & Hb); auto; try lia.
    + intros m c [Ei|[]]. injection Ei; intros; subst. cbn. repeat split; lia.
    + exists c. split; [exact Hc|]. exact Hb.
Qed.
Lemma c19_power_returns : forall a n B, 0 <= n -> 0 <= B -> n * B <= i32_max ->
  (forall m c, In (m, c) a -> Z.abs (mx m) <= B /\ Z.abs (my m) <= B /\ Z.abs (mq m) <= B /\ mv m = None) ->
  exists c, p_power a n = Ok c.
Proof. intros a n B Hn HB Hm Ha. destruct (p_power_returns a n B Hn HB Hm Ha) as (c & Hc & _). exists c; exact Hc. Qed.
Example c19_case : p_power ex_b 2 = Ok [(mkMono 2 0 0 None, 4); (mkMono 4 0 0 None, 16); (mkMono 6 0 0 None, 16)].
Proof. reflexivity. Qed.

(** C20: a % p and modular_assign are the canonical reduction. *)
Lemma c20_rem : forall a p, 0 < p -> sorted a -> exists r,
  p_rem a p = Ok r /\ p_rem_i32 a p = Ok r /\ modular_assign a p = Ok r /\ sorted r /\ reduced p r /\
  (forall m, coef r m = coef a m mod p) /\ (forall m c, In (m, c) r -> exists d, In (m, d) a /\ c = d mod p) /\
  p_rem r p = Ok r.
Proof.
  intros a p Hp Sa. exists (redp p a). split; [apply p_rem_eq; assumption|]. split; [apply p_rem_eq; assumption|].
  split; [apply modular_assign_eq; assumption|]. split; [apply redp_sorted, Sa|]. split; [apply redp_reduced, Hp|].
  split; [intros m; apply redp_coef, Sa|]. split.
  - intros m c Hi. apply redp_in in Hi. destruct Hi as (d & Hi & E & _). eauto.
  - rewrite p_rem_eq by (auto using redp_sorted). rewrite redp_id; auto using redp_sorted, redp_reduced.
Qed.
(** C20: == of reductions decides congruence. *)
Lemma c20_rem_decides : forall a b p r s, 0 < p -> sorted a -> sorted b -> p_rem a p = Ok r -> p_rem b p = Ok s ->
  (poly_eqb r s = true <-> feqm p a b).
Proof.
  intros a b p r s Hp Sa Sb H H'. rewrite p_rem_eq in H, H' by assumption. injection H; injection H'; intros; subst.
  rewrite poly_eqb_eq. apply redp_ext; assumption.
Qed.
(** C20: p <= 0 panics, except on the polynomial without terms. *)
Lemma c20_rem_nonpos : forall a p, p <= 0 -> a <> [] -> p_rem a p = Panic /\ modular_assign a p = Panic.
Proof. intros a p Hp Ha. rewrite p_rem_nonpos, modular_assign_nonpos by exact Hp. destruct a; [congruence|]. split; reflexivity. Qed.
Lemma c20_rem_empty : forall p, p_rem [] p = Ok [] /\ modular_assign [] p = Ok [].
Proof. intros p. split; reflexivity. Qed.
Example c20_case : p_rem ex_a 5 = Ok [(mkMono 0 0 0 None, 3); (mkMono 1 0 0 None, 3)] /\ 0 < 5 /\ sorted ex_a.
Proof. split; [reflexivity|]. split; [lia|]. apply c13_case. Qed.

(** C21: power_modulo(n,p) == power(n) % p for n >= 1 (whenever power(n) returns). *)
Lemma c21_power_modulo : forall a n p c, 0 < p -> 1 <= n -> sorted a -> p_power a n = Ok c ->
  p_power_modulo a n p = p_rem c p.
Proof. exact p_power_modulo_eq. Qed.
(** C21: and whenever power_modulo returns (power itself may exceed i32), it is the reduced n-th power. *)
Lemma c21_power_modulo_coef : forall a n p c, 0 < p -> 1 <= n -> sorted a -> p_power_modulo a n p = Ok c ->
  sorted c /\ reduced p c /\ feqm p c (fpow a (Z.to_nat n)).
Proof. exact p_power_modulo_spec. Qed.
Example c21_case : p_power_modulo ex_b 2 5 = Ok [(mkMono 2 0 0 None, 4); (mkMono 4 0 0 None, 1); (mkMono 6 0 0 None, 1)].
Proof. reflexivity. Qed.

(** C22 is false of the code: power_modulo(0,p) returns self % p, not 1. *)
Lemma c22_power_modulo_zero_refuted : exists a p r, 2 <= p /\ sorted a /\ p_power_modulo a 0 p = Ok r /\
  ~ feqm p r (fconst 1).
Proof.
  exists [(mkMono 1 0 0 None, 1)], 5, [(mkMono 1 0 0 None, 1)]. split; [lia|]. split; [cbn; split; [intros ? ? []|exact I]|].
  split; [reflexivity|]. intros H. specialize (H mone). cbn in H. destruct H as [k Hk]. lia.
Qed.
(** C22, what happens instead, for every polynomial. *)
Lemma c22_power_modulo_zero_partial : forall a p, 0 < p -> sorted a -> i32_poly a -> p_power_modulo a 0 p = p_rem a p.
Proof. exact p_power_modulo_zero. Qed.
