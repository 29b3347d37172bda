(** Property theorems C29-C38 (src/polynomial.rs, src/term.rs: derivatives, substitutions, evaluation, truncation, extraction). *)
From Coq Require Import Znumtheory ZifyBool Setoid Morphisms Ring.
From Verif Require Import Prelude M_Bigint M_Variable M_Term M_Poly Spec P_Bigint P_Variable P_FSum P_Poly P_Rem P_PolyProps P_Subst P_Subst2 P_Subst3.
From Verif Require Import P_SubstProps.
Open Scope Z_scope.

(** C29: coefficient of m in the derivative is (exponent+1) times the coefficient one degree up; the
    result is in normal form. *)
Theorem C29_derivative_x : forall a, sorted a -> (forall m c, In (m, c) a -> 0 <= mx m) ->
  exists r, derivative_x a = Ok r /\ sorted r /\ no_zero r /\
    forall m, coef r m = (mx m + 1) * coef a (set_x (mx m + 1) m).
Proof. exact c29_derivative_x. Qed.
Print Assumptions C29_derivative_x.
Theorem C29_derivative_y : forall a, sorted a -> (forall m c, In (m, c) a -> 0 <= my m) ->
  exists r, derivative_y a = Ok r /\ sorted r /\ no_zero r /\
    forall m, coef r m = (my m + 1) * coef a (set_y (my m + 1) m).
Proof. exact c29_derivative_y. Qed.
Print Assumptions C29_derivative_y.
(** C29: additive and Leibniz, as polynomials (equal coefficients). *)
Theorem C29_add : forall a b, sorted a -> sorted b -> nonneg_xy a -> nonneg_xy b ->
  exists da db ds ea eb es, derivative_x a = Ok da /\ derivative_x b = Ok db /\ derivative_x (p_add a b) = Ok ds /\
    derivative_y a = Ok ea /\ derivative_y b = Ok eb /\ derivative_y (p_add a b) = Ok es /\
    feq ds (fadd da db) /\ feq es (fadd ea eb).
Proof. exact c29_add. Qed.
Print Assumptions C29_add.
Theorem C29_leibniz : forall a b c, sorted a -> sorted b -> nonneg_xy a -> nonneg_xy b -> p_mul a b = Ok c ->
  exists da db dc ea eb ec, derivative_x a = Ok da /\ derivative_x b = Ok db /\ derivative_x c = Ok dc /\
    derivative_y a = Ok ea /\ derivative_y b = Ok eb /\ derivative_y c = Ok ec /\
    feq dc (fadd (conv da b) (conv a db)) /\ feq ec (fadd (conv ea b) (conv a eb)).
Proof. exact c29_leibniz. Qed.
Print Assumptions C29_leibniz.
Theorem C29_panics : forall a m c, In (m, c) a ->
  (mx m < 0 -> derivative_x a = Panic) /\ (my m < 0 -> derivative_y a = Panic).
Proof. exact c29_panics. Qed.
Print Assumptions C29_panics.
Example C29_case : let a := [(mkMono 0 3 0 None, 7); (mkMono 2 1 0 None, -4); (mkMono 5 0 0 None, 2)] in
  sorted a /\ nonneg_xy a /\ derivative_x a = Ok [(mkMono 1 1 0 None, -8); (mkMono 4 0 0 None, 10)] /\
  derivative_y a = Ok [(mkMono 0 2 0 None, 21); (mkMono 2 0 0 None, -4)].
Proof. exact c29_case. Qed.
(** C30: for n >= 1 the power substitutions move every coefficient to the monomial with multiplied
    exponents, keep exactly the terms they are given, and return exactly when the exponents fit i32. *)
Theorem C30_to_frob : forall a n, sorted a -> 1 <= n -> (forall m c, In (m, c) a -> i32_range (mx m * n) /\ i32_range (my m * n)) ->
  exists r, to_frob a n = Ok r /\ sorted r /\ (forall m c, In (m, c) r <-> exists k, In (k, c) a /\ m = frob n k) /\
    (forall m, coef r (frob n m) = coef a m).
Proof. exact c30_to_frob. Qed.
Print Assumptions C30_to_frob.
Theorem C30_to_y_power : forall a n, sorted a -> 1 <= n -> (forall m c, In (m, c) a -> i32_range (my m * n)) ->
  exists r, to_y_power a n = Ok r /\ sorted r /\ (forall m c, In (m, c) r <-> exists k, In (k, c) a /\ m = ypower n k) /\
    (forall m, coef r (ypower n m) = coef a m).
Proof. exact c30_to_y_power. Qed.
Print Assumptions C30_to_y_power.
Theorem C30_to_q_power : forall a n, sorted a -> 1 <= n -> (forall m c, In (m, c) a -> i32_range (mq m * n)) ->
  exists r, to_q_power a n = Ok r /\ sorted r /\ (forall m c, In (m, c) r <-> exists k, In (k, c) a /\ m = qpower n k) /\
    (forall m, coef r (qpower n m) = coef a m).
Proof. exact c30_to_q_power. Qed.
Print Assumptions C30_to_q_power.
(** C30: they commute with + and *. *)
Theorem C30_frob_add_mul : forall a b n fa fb, sorted a -> sorted b -> 1 <= n -> to_frob a n = Ok fa -> to_frob b n = Ok fb ->
  (forall r, to_frob (p_add a b) n = Ok r -> feq r (fadd fa fb)) /\
  (forall c r, p_mul a b = Ok c -> to_frob c n = Ok r -> feq r (conv fa fb)).
Proof. exact c30_frob_add_mul. Qed.
Print Assumptions C30_frob_add_mul.
Theorem C30_y_power_add_mul : forall a b n fa fb, sorted a -> sorted b -> 1 <= n -> to_y_power a n = Ok fa -> to_y_power b n = Ok fb ->
  (forall r, to_y_power (p_add a b) n = Ok r -> feq r (fadd fa fb)) /\
  (forall c r, p_mul a b = Ok c -> to_y_power c n = Ok r -> feq r (conv fa fb)).
Proof. exact c30_y_power_add_mul. Qed.
Print Assumptions C30_y_power_add_mul.
Theorem C30_q_power_add_mul : forall a b n fa fb, sorted a -> sorted b -> 1 <= n -> to_q_power a n = Ok fa -> to_q_power b n = Ok fb ->
  (forall r, to_q_power (p_add a b) n = Ok r -> feq r (fadd fa fb)) /\
  (forall c r, p_mul a b = Ok c -> to_q_power c n = Ok r -> feq r (conv fa fb)).
Proof. exact c30_q_power_add_mul. Qed.
Print Assumptions C30_q_power_add_mul.
Example C30_case : let a := [(mkMono 0 0 0 None, 5); (mkMono 1 2 (-1) None, -3)] in
  to_frob a 7 = Ok [(mkMono 0 0 0 None, 5); (mkMono 7 14 (-1) None, -3)] /\
  to_y_power a 7 = Ok [(mkMono 0 0 0 None, 5); (mkMono 1 14 (-1) None, -3)] /\
  to_q_power a 7 = Ok [(mkMono 0 0 0 None, 5); (mkMono 1 2 (-7) None, -3)].
Proof. exact c30_case. Qed.
(** C31: refuted: to_frob(0) of x + 1 is 1, although 1 + 1 = 2. *)
Theorem C31_frob_zero_refuted : exists a r, sorted a /\ no_zero a /\ nonneg_xy a /\ to_frob a 0 = Ok r /\
  ~ feq r (fmap (frob 0) a) /\ fval 1 1 r <> fval 1 1 a.
Proof. exact c31_frob_zero_refuted. Qed.
Print Assumptions C31_frob_zero_refuted.
(** C31: what does hold: exponent 0 is right as long as no two monomials collide. *)
Theorem C31_frob_zero_partial : forall a, sorted a ->
  (forall m c m' c', In (m, c) a -> In (m', c') a -> frob 0 m = frob 0 m' -> m = m') ->
  exists r, to_frob a 0 = Ok r /\ feq r (fmap (frob 0) a).
Proof. exact c31_frob_zero_partial. Qed.
Print Assumptions C31_frob_zero_partial.
Example C31_case : to_frob [(mkMono 1 0 3 None, 4); (mkMono 2 5 1 None, 6)] 0 = Ok [(mkMono 0 0 1 None, 6); (mkMono 0 0 3 None, 4)].
Proof. exact c31_case. Qed.
(** C32: reduction returns (when the exponents of the result fit i32), leaves no y-power above 1 ... *)
Theorem C32_reduction : forall pol a b, (forall m c, In (m, c) pol -> red_room m) ->
  exists r, reduction pol a b = Ok r /\ sorted r /\ (forall m c, In (m, c) r -> 0 <= my m <= 1).
Proof. exact c32_reduction. Qed.
Print Assumptions C32_reduction.
(** ... is congruent to its input modulo y^2 - (x^3+ax+b) ... *)
Theorem C32_reduction_ideal : forall pol a b r, i32_poly pol -> reduction pol a b = Ok r -> exists k, feq r (fadd pol (conv (fcurve a b) k)).
Proof. exact c32_reduction_ideal. Qed.
Print Assumptions C32_reduction_ideal.
(** ... and takes the same value (residue modulo any n, n = 0 included) at every point of the curve. *)
Theorem C32_reduction_value : forall n x y pol a b r, i32_poly pol -> nonneg_xy pol -> reduction pol a b = Ok r ->
  (n | y ^ 2 - (x ^ 3 + a * x + b)) -> (n | fval x y r - fval x y pol).
Proof. exact c32_reduction_value. Qed.
Print Assumptions C32_reduction_value.
Example C32_case : let pol := [(mkMono 1 3 0 None, 2)] in (forall m c, In (m, c) pol -> red_room m) /\
  reduction pol 5 7 = Ok [(mkMono 1 1 0 None, 14); (mkMono 2 1 0 None, 10); (mkMono 4 1 0 None, 2)].
Proof. exact c32_case. Qed.
(** C33: reduction_modular is reduction followed by % p. *)
Theorem C33_reduction_modular : forall pol a b p r, 0 < p -> i32_poly pol -> reduction pol a b = Ok r ->
  reduction_modular pol a b p = p_rem r p.
Proof. exact c33_reduction_modular. Qed.
Print Assumptions C33_reduction_modular.
Theorem C33_no_y : forall pol a b p, 0 < p -> (forall m c, In (m, c) pol -> red_room m) ->
  exists r, reduction_modular pol a b p = Ok r /\ sorted r /\ reduced p r /\ (forall m c, In (m, c) r -> 0 <= my m <= 1).
Proof. exact c33_no_y. Qed.
Print Assumptions C33_no_y.
Example C33_case : reduction_modular [(mkMono 1 3 0 None, 2)] 5 7 5 = Ok [(mkMono 1 1 0 None, 4); (mkMono 4 1 0 None, 2)].
Proof. exact c33_case. Qed.
(** C34: eval_xy is the value of the polynomial ... *)
Theorem C34_eval_xy : forall a x y, nonneg_xy a -> eval_xy a x y = Ok (fval x y a).
Proof. exact c34_eval_xy. Qed.
Print Assumptions C34_eval_xy.
(** ... so it is a ring homomorphism ... *)
Theorem C34_hom : forall a b x y va vb, sorted a -> sorted b -> nonneg_xy a -> nonneg_xy b ->
  eval_xy a x y = Ok va -> eval_xy b x y = Ok vb ->
  eval_xy (p_add a b) x y = Ok (va + vb) /\ eval_xy (p_sub a b) x y = Ok (va - vb) /\
  (forall c, p_mul a b = Ok c -> eval_xy c x y = Ok (va * vb)) /\
  (forall n c, p_power a n = Ok c -> eval_xy c x y = Ok (va ^ n)).
Proof. exact c34_hom. Qed.
Print Assumptions C34_hom.
(** ... and evaluating x, then y, then to_scalar gives the same number. *)
Theorem C34_chain : forall a x y, nonneg_xy a -> (forall m c, In (m, c) a -> mq m = 0 /\ mv m = None) ->
  exists u v, eval_x a x = Ok u /\ eval_y u y = Ok v /\ to_scalar v = Ok (fval x y a) /\ eval_xy a x y = Ok (fval x y a).
Proof. exact c34_chain. Qed.
Print Assumptions C34_chain.
Example C34_case : let a := [(mkMono 0 3 0 None, 7); (mkMono 2 1 0 None, -4); (mkMono 5 0 0 None, 2)] in
  nonneg_xy a /\ eval_xy a 2 (-3) = Ok (-77).
Proof. exact c34_case. Qed.
(** C35: refuted: x evaluated at 0 keeps an explicit zero, so is_zero misses the root. *)
Theorem C35_eval_refuted : exists a r, sorted a /\ no_zero a /\ only_x a /\ eval_x a 0 = Ok r /\ fval 0 0 a = 0 /\
  is_zero r = false /\ ~ no_zero r.
Proof. exact c35_eval_refuted. Qed.
Print Assumptions C35_eval_refuted.
(** C35: what does hold: is_zero never reports a non-root, and to_scalar of the result is the value. *)
Theorem C35_eval_partial : forall a v, only_x a -> exists r, eval_x a v = Ok r /\ to_scalar r = Ok (fval v 0 a) /\
  (is_zero r = true -> fval v 0 a = 0).
Proof. exact c35_eval_partial. Qed.
Print Assumptions C35_eval_partial.
(** C35: the coefficients of the result are the right sums for every polynomial (also with y, q, variables). *)
Theorem C35_eval_value_partial : forall a v, nonneg_xy a ->
  exists r s, eval_x a v = Ok r /\ sorted r /\ feq r (fsubst_x a (fconst v)) /\
              eval_y a v = Ok s /\ sorted s /\ feq s (fsubst_y a (fconst v)).
Proof. exact c35_eval_value_partial. Qed.
Print Assumptions C35_eval_value_partial.
Example C35_case : eval_x [(mkMono 0 1 0 None, 5); (mkMono 2 1 0 None, 3); (mkMono 2 2 0 None, 1)] 4 = Ok [(mkMono 0 1 0 None, 53); (mkMono 0 2 0 None, 16)].
Proof. exact c35_case. Qed.
(** C36: polynomial substitution, for polynomials, terms and monomials. *)
Theorem C36_subst_x : forall a s r, sorted s -> eval_x_polynomial a s = Ok r -> sorted r /\ feq r (fsubst_x a s).
Proof. exact c36_subst_x. Qed.
Print Assumptions C36_subst_x.
Theorem C36_subst_y : forall a s r, sorted s -> eval_y_polynomial a s = Ok r -> sorted r /\ feq r (fsubst_y a s).
Proof. exact c36_subst_y. Qed.
Print Assumptions C36_subst_y.
Theorem C36_term : forall u s r, sorted s ->
  (term_eval_x_polynomial u s = Ok r -> feq r (fsubst_x [(tm u, tc u)] s)) /\
  (term_eval_y_polynomial u s = Ok r -> feq r (fsubst_y [(tm u, tc u)] s)).
Proof. exact c36_term. Qed.
Print Assumptions C36_term.
Theorem C36_mono : forall m s r, sorted s ->
  (mono_eval_x_polynomial m s = Ok r -> feq r (fsubst_x [(m, 1)] s)) /\
  (mono_eval_y_polynomial m s = Ok r -> feq r (fsubst_y [(m, 1)] s)).
Proof. exact c36_mono. Qed.
Print Assumptions C36_mono.
Theorem C36_value : forall a s r x y, sorted s -> nonneg_xy a -> nonneg_xy s ->
  (eval_x_polynomial a s = Ok r -> fval x y r = fval (fval x y s) y a) /\
  (eval_y_polynomial a s = Ok r -> fval x y r = fval x (fval x y s) a).
Proof. exact c36_value. Qed.
Print Assumptions C36_value.
Theorem C36_returns : forall a s B C D, 0 <= B -> 0 <= C -> D * B + C <= i32_max -> exp_bound B s ->
  ((forall m c, In (m, c) a -> 0 <= mx m <= D /\ Z.abs (my m) <= C /\ Z.abs (mq m) <= C) -> exists r, eval_x_polynomial a s = Ok r) /\
  ((forall m c, In (m, c) a -> 0 <= my m <= D /\ Z.abs (mx m) <= C /\ Z.abs (mq m) <= C) -> exists r, eval_y_polynomial a s = Ok r).
Proof. exact c36_returns. Qed.
Print Assumptions C36_returns.
Example C36_case : eval_x_polynomial [(mkMono 0 1 0 (Some (0, 1)), 5); (mkMono 2 0 0 (Some (1, 1)), 3)] [(mkMono 0 0 0 None, 1); (mkMono 0 0 1 None, 2)]
  = Ok [(mkMono 0 0 0 (Some (1, 1)), 3); (mkMono 0 0 1 (Some (1, 1)), 12); (mkMono 0 0 2 (Some (1, 1)), 12); (mkMono 0 1 0 (Some (0, 1)), 5)].
Proof. exact c36_case. Qed.
(** C37: omit_high_order_q(k) keeps exactly the terms of q-order <= k. *)
Theorem C37_omit : forall a k, sorted a -> qonly a -> i32_range (k + 1) ->
  exists r, omit_high_order_q a k = Ok r /\ sorted r /\ (forall m c, In (m, c) r <-> In (m, c) a /\ mq m <= k).
Proof. exact c37_omit. Qed.
Print Assumptions C37_omit.
Theorem C37_omit_panics : forall a k, ~ qonly a \/ ~ i32_range (k + 1) -> omit_high_order_q a k = Panic.
Proof. exact c37_omit_panics. Qed.
Print Assumptions C37_omit_panics.
(** C37: power_omit_high_order_q(n,k) is the n-th power up to O(q^(k+1)), with no higher order (n >= 1). *)
Theorem C37_power_omit : forall a n order r, sorted a -> qnonneg a -> 0 <= n -> 0 <= order ->
  power_omit_high_order_q a n order = Ok r ->
  sorted r /\ qnonneg r /\ feq_upto order r (fpow a (Z.to_nat n)) /\ (forall m c, In (m, c) r -> mq m <= order).
Proof. exact c37_power_omit. Qed.
Print Assumptions C37_power_omit.
(** C37: it returns for every variable-free q-polynomial with exponents in [0, order], 2*order within i32. *)
Theorem C37_power_omit_returns : forall a n order, sorted a -> 0 <= order -> 2 * order + 1 <= i32_max ->
  (forall m c, In (m, c) a -> mx m = 0 /\ my m = 0 /\ 0 <= mq m <= order /\ mv m = None) ->
  exists r, power_omit_high_order_q a n order = Ok r.
Proof. exact c37_power_omit_returns. Qed.
Print Assumptions C37_power_omit_returns.
Example C37_case : let a := [(mkMono 0 0 0 None, 1); (mkMono 0 0 1 None, -1)] in
  sorted a /\ qonly a /\ qnonneg a /\ power_omit_high_order_q a 5 2 = Ok [(mkMono 0 0 0 None, 1); (mkMono 0 0 1 None, -5); (mkMono 0 0 2 None, 10)].
Proof. exact c37_case. Qed.
(** C38: coefficient of q^k, as a polynomial in the variables. *)
Theorem C38_q_coef : forall a k, sorted a -> qonly a ->
  exists r, to_q_power_coef a k = Ok r /\ sorted r /\
    (forall m c, In (m, c) r <-> exists v, m = mkMono 0 0 0 v /\ In (mkMono 0 0 k v, c) a) /\
    (forall v, coef r (mkMono 0 0 0 v) = coef a (mkMono 0 0 k v)).
Proof. exact c38_q_coef. Qed.
Print Assumptions C38_q_coef.
Theorem C38_variable_coef : forall a v, sorted a -> (forall m c, In (m, c) a -> mx m = 0 /\ my m = 0 /\ mq m = 0) ->
  to_variable_coef a v = Ok (coef a (mkMono 0 0 0 v)).
Proof. exact c38_variable_coef. Qed.
Print Assumptions C38_variable_coef.
(** C38: highest_term_x is the greatest term, and has the greatest x-exponent; degree_x is that exponent. *)
Theorem C38_highest : forall a, sorted a -> a <> [] ->
  In (tm (highest_term_x a), tc (highest_term_x a)) a /\
  (forall m c, In (m, c) a -> m <> tm (highest_term_x a) -> mono_cmp m (tm (highest_term_x a)) = Lt) /\
  (forall m c, In (m, c) a -> mx m <= mx (tm (highest_term_x a))).
Proof. exact c38_highest. Qed.
Print Assumptions C38_highest.
Theorem C38_degree : forall a, sorted a -> (forall m c, In (m, c) a -> my m = 0 /\ mq m = 0) ->
  (a = [] -> degree_x a = Ok 0) /\
  (a <> [] -> exists d, degree_x a = Ok d /\ (exists m c, In (m, c) a /\ mx m = d) /\ (forall m c, In (m, c) a -> mx m <= d)).
Proof. exact c38_degree. Qed.
Print Assumptions C38_degree.
(** C38: occurrence tests and the documented panics. *)
Theorem C38_has : forall a,
  (has_x a = true <-> exists m c, In (m, c) a /\ mx m <> 0) /\
  (has_y a = true <-> exists m c, In (m, c) a /\ my m <> 0) /\
  (has_q a = true <-> exists m c, In (m, c) a /\ mq m <> 0).
Proof. exact c38_has. Qed.
Print Assumptions C38_has.
Theorem C38_panics : forall a,
  ((has_x a = true \/ has_y a = true) <-> to_q_power_coef a 0 = Panic) /\
  (forall k l, to_q_power_coef a k = Panic -> to_q_power_coef a l = Panic) /\
  (forall v, (has_x a = true \/ has_y a = true \/ has_q a = true) <-> to_variable_coef a v = Panic) /\
  ((has_y a = true \/ has_q a = true) <-> degree_x a = Panic).
Proof. exact c38_panics. Qed.
Print Assumptions C38_panics.
(** C38: to_scalar returns exactly for the empty polynomial and for a single term free of x, y and q (a variable is ignored), with its value;
    it panics on everything else. *)
Theorem C38_to_scalar : forall a : poly,
  (forall c, to_scalar a = Ok c <-> (a = [] /\ c = 0) \/ exists m, a = [(m, c)] /\ mx m = 0 /\ my m = 0 /\ mq m = 0) /\
  (forall c x y, to_scalar a = Ok c -> fval x y a = c) /\
  ((exists c, to_scalar a = Ok c) \/ to_scalar a = Panic).
Proof. exact c38_to_scalar. Qed.
Print Assumptions C38_to_scalar.
Example C38_case : let a := [(mkMono 0 0 0 (Some (0, 1)), 5); (mkMono 0 0 2 None, 7); (mkMono 0 0 2 (Some (1, 1)), -3)] in
  sorted a /\ qonly a /\ to_q_power_coef a 2 = Ok [(mkMono 0 0 0 None, 7); (mkMono 0 0 0 (Some (1, 1)), -3)] /\
  (r <- to_q_power_coef a 2 ;; to_variable_coef r (Some (1, 1))) = Ok (-3).
Proof. exact c38_case. Qed.
