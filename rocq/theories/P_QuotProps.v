(** Proofs of C77, C80, C81: division by a single term, TermBuilder, Term operations against Polynomial operations. *)
From Coq Require Import Znumtheory ZifyBool Setoid Morphisms.
From Verif Require Import Prelude M_Bigint M_Variable M_Term M_Poly Spec P_Bigint P_Variable P_FSum P_Poly P_Rem P_PolyProps P_Subst P_Subst2 P_Subst3 P_Mod P_DivPoly P_Modular.
Open Scope Z_scope.

Lemma to_pol_nz t : tc t <> 0 -> to_pol t = [(tm t, tc t)].
Proof. intros H. unfold to_pol. replace (tc t =? 0) with false by lia. reflexivity. Qed.
Lemma mmul_mdiv m k : mv k = None -> mmul (mdiv m k) k = m.
Proof. intros Hk. unfold mmul, mdiv. cbn [mx my mq mv]. rewrite Hk. destruct m as [x y q [[i j]|]]; cbn; f_equal; ring. Qed.
Lemma mdiv_mmul m k : mv k = None -> mdiv (mmul m k) k = m.
Proof. intros Hk. unfold mmul, mdiv. cbn [mx my mq mv]. rewrite Hk. destruct m as [x y q [[i j]|]]; cbn; f_equal; ring. Qed.

(** C77: dividing by a single term t without variable, when all exponent differences fit i32: the result is sorted and its coefficient
    at m is the floor quotient of the dividend's coefficient at m * t by the coefficient of t. *)
Lemma c77_quotient : forall (a : poly) (t : term), sorted a -> tc t <> 0 -> mv (tm t) = None ->
  (forall m c, In (m, c) a -> i32_range (mx m - mx (tm t)) /\ i32_range (my m - my (tm t)) /\ i32_range (mq m - mq (tm t))) ->
  exists d, p_div_t a t = Ok d /\ sorted d /\ forall m, coef d m = coef a (mmul m (tm t)) / tc t.
Proof.
  intros a t Sa Ht Hv Hi. unfold p_div_t. rewrite to_pol_nz by exact Ht.
  destruct (p_div_single a (tm t) (tc t) Ht Hv Sa) as (d & Hd & Sd & Id).
  { intros m c H. destruct (Hi m c H) as (A & B & C). unfold i32_mono. cbn [mx my mq]. auto. }
  exists d. split; [exact Hd|]. split; [exact Sd|]. intros m.
  destruct (Z.eq_dec (coef a (mmul m (tm t))) 0) as [E|E].
  - rewrite E, Z.div_0_l by exact Ht. destruct (Z.eq_dec (coef d m) 0) as [F|F]; [exact F|exfalso].
    destruct (coef_in d m F) as [c Hc]. assert (Dc := sorted_coef d m c Sd Hc). apply Id in Hc as (k & e & Hk & Em & Ec).
    assert (k = mmul m (tm t)). { rewrite Em. symmetry. change (mmul (mdiv k (tm t)) (tm t) = k). apply mmul_mdiv, Hv. }
    subst k. rewrite (sorted_coef a _ _ Sa Hk) in E. subst e. rewrite Z.div_0_l in Ec by exact Ht. congruence.
  - destruct (coef_in a _ E) as [e He]. rewrite (sorted_coef a _ _ Sa He). apply sorted_coef; [exact Sd|]. apply Id.
    exists (mmul m (tm t)), e. split; [exact He|]. split; [|reflexivity]. symmetry. apply mdiv_mmul, Hv.
Qed.
(** C77: so the remainder of every coefficient is the floor remainder; the division is exact when the coefficients are divisible. *)
Lemma c77_remainder : forall (a d : poly) (t : term), sorted a -> tc t <> 0 -> mv (tm t) = None ->
  (forall m c, In (m, c) a -> i32_range (mx m - mx (tm t)) /\ i32_range (my m - my (tm t)) /\ i32_range (mq m - mq (tm t))) ->
  p_div_t a t = Ok d ->
  (forall m, coef a m = coef (conv d [(tm t, tc t)]) m + coef a m mod tc t) /\
  ((forall m, (tc t | coef a m)) -> feq (conv d [(tm t, tc t)]) a).
Proof.
  intros a d t Sa Ht Hv Hi Hd. destruct (c77_quotient a t Sa Ht Hv Hi) as (d' & Hd' & Sd & Cd). rewrite Hd' in Hd. apply Ok_inj in Hd. subst d'.
  assert (K : forall m, coef (conv d [(tm t, tc t)]) m = tc t * (coef a m / tc t)).
  { intros m. rewrite (conv_comm d _ m), coef_conv1 by exact Hv. rewrite Cd, mmul_mdiv by exact Hv. reflexivity. }
  split.
  - intros m. rewrite K. apply Z.div_mod, Ht.
  - intros H m. rewrite K. symmetry. apply Z_div_exact_full_2; [exact Ht|]. apply Zdivide_mod, H.
Qed.
(** C77: (a * t) / t gives back a. *)
Lemma c77_exact : forall (a c : poly) (t : term), sorted a -> no_zero a -> i32_poly a -> tc t <> 0 -> mv (tm t) = None ->
  p_mul_t a t = Ok c -> p_div_t c t = Ok a.
Proof.
  intros a c t Sa Na Ia Ht Hv Hc. unfold p_mul_t in Hc. rewrite to_pol_nz in Hc by exact Ht.
  assert (Sc := p_mul_sorted _ _ _ Hc). assert (Fc := p_mul_feq _ _ _ Hc).
  assert (Cc : forall m, coef c m = tc t * coef a (mdiv m (tm t))) by (intros m; rewrite (Fc m), (conv_comm a _ m), coef_conv1 by exact Hv; reflexivity).
  assert (Kc : forall m e, In (m, e) c -> exists k f, In (k, f) a /\ m = mmul k (tm t)).
  { intros m e H. apply (p_mul_keys (fun m => exists f, In (m, f) a) (fun m => m = tm t) (fun m => exists k f, In (k, f) a /\ m = mmul k (tm t)) a [(tm t, tc t)] c Hc) with (c := e).
    - intros k f Hk. exists f. exact Hk.
    - intros k f [E|[]]. injection E as <- _. reflexivity.
    - intros m1 m2 [f Hf] ->. exists m1, f. auto.
    - exact H. }
  destruct (c77_quotient c t Sc Ht Hv) as (d & Hd & Sd & Cd).
  { intros m e H. destruct (Kc m e H) as (k & f & Hk & ->). destruct (Ia k f Hk) as (A & B & C). unfold mmul. cbn [mx my mq].
    rewrite !Z.add_simpl_r. auto. }
  assert (F : feq d a). { intros m. rewrite Cd, Cc, mdiv_mmul by exact Hv. rewrite Z.mul_comm. apply Z.div_mul, Ht. }
  rewrite Hd. f_equal. apply canonical; auto.
  intros m e H. assert (Nz : coef a m <> 0 \/ coef a m = 0) by lia. rewrite <- (sorted_coef d m e Sd H). rewrite (F m).
  unfold p_div_t in Hd. rewrite to_pol_nz in Hd by exact Ht.
  destruct (p_div_single c (tm t) (tc t) Ht Hv Sc) as (d' & Hd' & _ & Id).
  { intros m' e' H'. destruct (Kc m' e' H') as (k & f & Hk & ->). destruct (Ia k f Hk) as (A & B & C). unfold i32_mono, mmul. cbn [mx my mq].
    rewrite !Z.add_simpl_r. auto. }
  rewrite Hd' in Hd. apply Ok_inj in Hd. subst d'. apply Id in H as (k & f & Hk & Em & _). destruct (Kc k f Hk) as (k' & f' & Hk' & ->).
  assert (Mk : m = k') by (rewrite Em; change (mdiv (mmul k' (tm t)) (tm t) = k'); apply mdiv_mmul, Hv). clear Em. subst m.
  rewrite (sorted_coef a _ _ Sa Hk'). exact (Na _ _ Hk').
Qed.
(** C77: every other division panics: by the zero polynomial, by two or more terms, and (unless the dividend is zero) by a term with a
    variable, by a term with zero coefficient, or when an exponent difference overflows. The zero dividend gives zero. *)
Lemma c77_panics : forall (a b : poly),
  (b = [] -> p_div a b = Panic) /\ (2 <= Z.of_nat (length b) -> p_div a b = Panic) /\
  (forall m c, b = [(m, c)] -> p_div [] b = Ok []) /\
  (forall m c, b = [(m, c)] -> a <> [] -> mv m <> None \/ c = 0 -> p_div a b = Panic) /\
  (forall m c k e, b = [(m, c)] -> In (k, e) a -> ~ (i32_range (mx k - mx m) /\ i32_range (my k - my m) /\ i32_range (mq k - mq m)) -> p_div a b = Panic).
Proof.
  intros a b. split; [intros ->; reflexivity|]. split.
  { intros H. destruct b as [|e [|e' b]]; cbn [length] in H; try lia. unfold p_div. cbn [is_zero length Nat.eqb]. destruct e; reflexivity. }
  split; [intros m c ->; reflexivity|].
  assert (P : forall m c k e (l r : poly), a = (l ++ (k, e) :: r)%list -> (forall x, In x a -> term_div (mkTerm (snd x) (fst x)) (mkTerm c m) <> NoFuel) ->
     term_div (mkTerm e k) (mkTerm c m) = Panic -> p_div a [(m, c)] = Panic).
  { intros m c k e l r -> NF H. unfold p_div. cbn [is_zero length Nat.eqb]. generalize p_new. induction l as [|[k' e'] l IH]; intros acc; cbn [List.app foldM].
    - rewrite H. reflexivity.
    - destruct (term_div (mkTerm e' k') (mkTerm c m)) eqn:T; cbn [bind].
      + apply IH. intros x Hx. apply NF. right. exact Hx.
      + reflexivity.
      + exfalso. apply (NF (k', e')); [left; reflexivity|exact T]. }
  assert (NFall : forall m c x, term_div (mkTerm (snd x) (fst x)) (mkTerm c m) <> NoFuel).
  { intros m c [k e]. unfold term_div. cbn [tc tm fst snd]. destruct (negb _); [discriminate|]. unfold div_floor. destruct (c =? 0); [discriminate|]. cbn [bind].
    unfold i32. destruct (in_i32 _); [|discriminate]. cbn [bind]. destruct (in_i32 _); [|discriminate]. cbn [bind]. destruct (in_i32 _); cbn [bind]; discriminate. }
  split.
  - intros m c -> Hn Hb. destruct a as [|[k e] a]; [congruence|]. apply (P m c k e [] a eq_refl); [auto|].
    unfold term_div. cbn [tc tm]. destruct Hb as [Hb| ->].
    + destruct (mv m); [reflexivity|congruence].
    + destruct (negb (vempty (mv m))); reflexivity.
  - intros m c k e -> Hk Hr. apply in_split in Hk as (l & r & E). apply (P m c k e l r E); [auto|].
    unfold term_div. cbn [tc tm]. destruct (negb (vempty (mv m))); [reflexivity|]. unfold div_floor. destruct (c =? 0); [reflexivity|]. cbn [bind].
    unfold i32, in_i32. unfold i32_range in Hr. destruct (_ && _) eqn:E1; [|reflexivity]. cbn [bind]. destruct (_ && _) eqn:E2 in |- *; [|reflexivity]. cbn [bind].
    destruct (_ && _) eqn:E3 in |- *; [|reflexivity]. exfalso. apply Hr. lia.
Qed.
(** C77: the five forms of / and /= agree. *)
Lemma c77_forms : forall (a b : poly) (t : term),
  p_div_assign a b = p_div a b /\ p_div_t a t = p_div a (to_pol t) /\ p_div_assign_t a t = p_div a (to_pol t) /\ t_div_p t b = p_div (to_pol t) b.
Proof. repeat split. Qed.
Example c77_case : let a := [(mkMono 1 2 0 (Some (0, 1)), -7); (mkMono 3 1 0 None, 4)] in let t := mkTerm 2 (mkMono 1 1 0 None) in
  p_div_t a t = Ok [(mkMono 0 1 0 (Some (0, 1)), -4); (mkMono 2 0 0 None, 2)] /\ p_div_t (p_add a a) t = Ok [(mkMono 0 1 0 (Some (0, 1)), -7); (mkMono 2 0 0 None, 4)].
Proof. split; reflexivity. Qed.

(** ** TermBuilder *)
(** C80: whatever the builder held before, setting a field changes that field and no other; build reads the fields off. *)
Lemma c80_setters : forall b c x y q v,
  tb_build tb_new = mkTerm 1 (mkMono 0 0 0 None) /\
  tb_build (tb_coef c b) = mkTerm c (tm (tb_build b)) /\
  tb_build (tb_xpow x b) = (let t := tb_build b in mkTerm (tc t) (mkMono x (my (tm t)) (mq (tm t)) (mv (tm t)))) /\
  tb_build (tb_ypow y b) = (let t := tb_build b in mkTerm (tc t) (mkMono (mx (tm t)) y (mq (tm t)) (mv (tm t)))) /\
  tb_build (tb_qpow q b) = (let t := tb_build b in mkTerm (tc t) (mkMono (mx (tm t)) (my (tm t)) q (mv (tm t)))) /\
  tb_build (tb_variable v b) = (let t := tb_build b in mkTerm (tc t) (mkMono (mx (tm t)) (my (tm t)) (mq (tm t)) v)).
Proof. repeat split. Qed.
(** C80: variable_ij sets the variable c_i_j for non-negative i, j and panics otherwise. *)
Lemma c80_variable_ij : forall b i j,
  (0 <= i -> 0 <= j -> tb_variable_ij i j b = Ok (tb_variable (Some (i, j)) b)) /\ (i < 0 \/ j < 0 -> tb_variable_ij i j b = Panic).
Proof.
  intros b i j. unfold tb_variable_ij, assertb. split.
  - intros Hi Hj. replace (0 <=? i) with true by lia. replace (0 <=? j) with true by lia. reflexivity.
  - intros H. destruct (0 <=? i) eqn:E; cbn [bind]; [|reflexivity]. replace (0 <=? j) with false by lia. reflexivity.
Qed.
(** C80: every term can be built, and one() and new() are 1 and 0. *)
Lemma c80_complete : forall t, tb_build (tb_variable (mv (tm t)) (tb_qpow (mq (tm t)) (tb_ypow (my (tm t)) (tb_xpow (mx (tm t)) (tb_coef (tc t) tb_new))))) = t /\
  to_pol term_one = fconst 1 /\ to_pol term_new = [].
Proof. intros [c [x y q v]]. repeat split. Qed.
Example c80_case : tb_build (tb_xpow 4 (tb_coef 3 (tb_ypow 2 tb_new))) = mkTerm 3 (mkMono 4 2 0 None) /\ tb_variable_ij 1 (-1) tb_new = Panic.
Proof. split; reflexivity. Qed.

(** ** Term operations against Polynomial operations *)
Definition lift (r : res term) : res poly := t <- r ;; Ok (to_pol t).
(** C81: on a term with nonzero coefficient, each of these Term methods gives the term of the one-term polynomial that the Polynomial method of
    the same name gives (and panics exactly when that does). *)
Lemma c81_agree : forall t n, tc t <> 0 ->
  lift (term_to_frob t n) = to_frob (to_pol t) n /\
  lift (term_to_y_power t n) = to_y_power (to_pol t) n /\
  lift (term_to_q_power t n) = to_q_power (to_pol t) n /\
  lift (term_derivative_x t) = derivative_x (to_pol t) /\
  lift (term_derivative_y t) = derivative_y (to_pol t) /\
  (0 < n -> lift (term_modulo t n) = p_rem (to_pol t) n) /\
  to_pol (term_neg t) = p_neg (to_pol t) /\
  term_has_x t = has_x (to_pol t) /\ term_has_y t = has_y (to_pol t) /\ term_has_q t = has_q (to_pol t) /\
  highest_term_x (to_pol t) = t.
Proof.
  intros t n Ht. rewrite (to_pol_nz t Ht).
  assert (L : forall c m, lift (Ok (mkTerm c m)) = Ok (if negb (c =? 0) then [(m, c)] else [])).
  { intros c m. unfold lift, to_pol. cbn [bind tc tm]. destruct (c =? 0); reflexivity. }
  assert (I : forall z, i32 z = Ok z \/ i32 z = Panic) by (intros z; unfold i32; destruct (in_i32 z); auto).
  split; [|split; [|split; [|split; [|split; [|split]]]]].
  - unfold to_frob, term_to_frob. cbn [foldM fst snd tc tm]. destruct (I (mx (tm t) * n)) as [-> | ->]; cbn [bind]; [|reflexivity].
    destruct (I (my (tm t) * n)) as [-> | ->]; cbn [bind]; [|reflexivity]. rewrite L. replace (tc t =? 0) with false by lia. reflexivity.
  - unfold to_y_power, term_to_y_power. cbn [foldM fst snd tc tm]. destruct (I (my (tm t) * n)) as [-> | ->]; cbn [bind]; [|reflexivity].
    rewrite L. replace (tc t =? 0) with false by lia. reflexivity.
  - unfold to_q_power, term_to_q_power. cbn [foldM fst snd tc tm]. destruct (I (mq (tm t) * n)) as [-> | ->]; cbn [bind]; [|reflexivity].
    rewrite L. replace (tc t =? 0) with false by lia. reflexivity.
  - unfold derivative_x, term_derivative_x. cbn [foldM fst snd tc tm]. unfold assertb. destruct (0 <=? mx (tm t)); cbn [bind]; [|reflexivity].
    destruct (Z.ltb_spec 0 (mx (tm t))); cbn [bind tb_build tb_coef tb_new tc tm b_coef]; [|reflexivity]. rewrite L. destruct (negb (_ =? 0)); reflexivity.
  - unfold derivative_y, term_derivative_y. cbn [foldM fst snd tc tm]. unfold assertb. destruct (0 <=? my (tm t)); cbn [bind]; [|reflexivity].
    destruct (Z.ltb_spec 0 (my (tm t))); cbn [bind tb_build tb_coef tb_new tc tm b_coef]; [|reflexivity]. rewrite L. destruct (negb (_ =? 0)); reflexivity.
  - intros Hn. unfold p_rem, term_modulo. cbn [foldM rem_entry]. unfold mod_floor. destruct (n =? 0) eqn:N; cbn [bind negb]; [reflexivity|].
    unfold assertb. cbn [tc tm]. destruct (Z.ltb_spec (tc t mod n) n) as [B|B]; cbn [bind].
    + rewrite L. destruct (tc t mod n =? 0); cbn [negb]; [reflexivity|]. unfold check_lt. cbn [bm_insert p_new foldM snd]. rewrite N. cbn [negb].
      unfold assertb. replace (tc t mod n <? n) with true by lia. reflexivity.
    + exfalso. pose proof (Z.mod_pos_bound (tc t) n Hn). lia.
  - split; [|split; [|split; [|split]]].
    + unfold term_neg, to_pol. cbn [tc tm]. replace (- tc t =? 0) with false by lia. reflexivity.
    + unfold has_x. cbn [existsb fst snd]. destruct t as [c0 m0]; cbn [tc tm]. rewrite Bool.orb_false_r. reflexivity.
    + unfold has_y. cbn [existsb fst snd]. destruct t as [c0 m0]; cbn [tc tm]. rewrite Bool.orb_false_r. reflexivity.
    + unfold has_q. cbn [existsb fst snd]. destruct t as [c0 m0]; cbn [tc tm]. rewrite Bool.orb_false_r. reflexivity.
    + destruct t; reflexivity.
Qed.
(** C81: is_equal_order compares the exponents of x, y and q and ignores coefficient and variable. *)
Lemma c81_equal_order : forall s t, is_equal_order s t = true <-> mx (tm s) = mx (tm t) /\ my (tm s) = my (tm t) /\ mq (tm s) = mq (tm t).
Proof. intros s t. unfold is_equal_order. lia. Qed.
(** C81: modular_assign (in place) and modulo (by value) give the same term, with the coefficient's floor residue. *)
Lemma c81_modular : forall t n, n <> 0 -> term_modular_assign t n = term_modulo t n /\ term_modulo t n = Ok (mkTerm (tc t mod n) (tm t)).
Proof. intros t n Hn. unfold term_modular_assign, term_modulo, mod_floor. replace (n =? 0) with false by lia. split; reflexivity. Qed.
(** C81: Monomial::eval_xy is the value x^xpow y^ypow, and the value of the one-term polynomial is coefficient times that. *)
Lemma c81_eval : forall t x y, tc t <> 0 -> 0 <= mx (tm t) -> 0 <= my (tm t) ->
  mono_eval_xy (tm t) x y = Ok (x ^ mx (tm t) * y ^ my (tm t)) /\ eval_xy (to_pol t) x y = Ok (tc t * (x ^ mx (tm t) * y ^ my (tm t))).
Proof.
  intros t x y Ht Hx Hy. assert (E : mono_eval_xy (tm t) x y = Ok (x ^ mx (tm t) * y ^ my (tm t))).
  { unfold mono_eval_xy. rewrite !power_i32_spec by assumption. reflexivity. }
  split; [exact E|]. rewrite to_pol_nz by exact Ht. unfold eval_xy. cbn [foldM fst snd]. rewrite E. cbn [bind]. f_equal. ring.
Qed.
(** C81: substituting a polynomial into a term agrees with substituting into the one-term polynomial. *)
Lemma c81_substitute : forall t (s r r' : poly), tc t <> 0 ->
  (term_eval_x_polynomial t s = Ok r -> eval_x_polynomial (to_pol t) s = Ok r' -> feq r r') /\
  (term_eval_y_polynomial t s = Ok r -> eval_y_polynomial (to_pol t) s = Ok r' -> feq r r').
Proof.
  intros t s r r' Ht. rewrite (to_pol_nz t Ht). unfold term_eval_x_polynomial, eval_x_polynomial, term_eval_y_polynomial, eval_y_polynomial.
  cbn [foldM fst snd]. set (k := to_pol (tb_build (tb_coef (tc t) tb_new))).
  assert (G : forall w : res poly, (t0 <- w ;; p_mul k t0) = Ok r ->
    (s' <- (w0 <- w ;; w1 <- p_mul w0 k ;; Ok (p_add_assign p_new w1)) ;; Ok s') = Ok r' -> feq r r').
  { intros w A B. destruct w as [w0| |]; cbn [bind] in A, B; try discriminate. destruct (p_mul w0 k) as [w1| |] eqn:M; cbn [bind] in B; try discriminate. apply Ok_inj in B. subst r'.
    intros m. rewrite (p_mul_feq _ _ _ A m), (conv_comm k w0 m), <- (p_mul_feq _ _ _ M m). symmetry.
    change (p_add_assign p_new w1) with (p_add p_new w1). rewrite p_add_coef by exact I. reflexivity. }
  split; intros A B; eapply G; [exact A| |exact A|].
  - exact B.
  - exact B.
Qed.
Example c81_case : let t := mkTerm 3 (mkMono 2 1 0 None) in tc t <> 0 /\ term_derivative_x t = Ok (mkTerm 6 (mkMono 1 1 0 None)) /\
  term_to_frob t 5 = Ok (mkTerm 3 (mkMono 10 5 0 None)) /\ term_modulo t 2 = Ok (mkTerm 1 (mkMono 2 1 0 None)) /\ eval_xy (to_pol t) 2 5 = Ok 60.
Proof. repeat split; discriminate. Qed.
