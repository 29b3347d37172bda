(** Properties C77, C80, C81: division by a term, TermBuilder, Term methods *)
From Coq Require Import Znumtheory ZifyBool Setoid Morphisms.
From Verif Require Import Prelude M_Bigint M_Variable M_Term M_Poly Spec P_Bigint P_Variable P_FSum P_Poly P_Rem P_PolyProps P_Subst P_Subst2 P_Subst3 P_Mod P_DivPoly P_Modular.
From Verif Require Import P_QuotProps.
Open Scope Z_scope.

(** C77: dividing by a single term t without variable, when all exponent differences fit i32: the result is sorted and its coefficient
    at m is the floor quotient of the dividend's coefficient at m * t by the coefficient of t. *)
Theorem C77_quotient : forall (a : poly) (t : term), sorted a -> tc t <> 0 -> mv (tm t) = None ->
  (forall m c, In (m, c) a -> i32_range (mx m - mx (tm t)) /\ i32_range (my m - my (tm t)) /\ i32_range (mq m - mq (tm t))) ->
  exists d, p_div_t a t = Ok d /\ sorted d /\ forall m, coef d m = coef a (mmul m (tm t)) / tc t.
Proof. exact c77_quotient. Qed.
Print Assumptions C77_quotient.
(** C77: so the remainder of every coefficient is the floor remainder; the division is exact when the coefficients are divisible. *)
Theorem C77_remainder : forall (a d : poly) (t : term), sorted a -> tc t <> 0 -> mv (tm t) = None ->
  (forall m c, In (m, c) a -> i32_range (mx m - mx (tm t)) /\ i32_range (my m - my (tm t)) /\ i32_range (mq m - mq (tm t))) ->
  p_div_t a t = Ok d ->
  (forall m, coef a m = coef (conv d [(tm t, tc t)]) m + coef a m mod tc t) /\
  ((forall m, (tc t | coef a m)) -> feq (conv d [(tm t, tc t)]) a).
Proof. exact c77_remainder. Qed.
Print Assumptions C77_remainder.
(** C77: (a * t) / t gives back a. *)
Theorem C77_exact : forall (a c : poly) (t : term), sorted a -> no_zero a -> i32_poly a -> tc t <> 0 -> mv (tm t) = None ->
  p_mul_t a t = Ok c -> p_div_t c t = Ok a.
Proof. exact c77_exact. Qed.
Print Assumptions C77_exact.
(** C77: every other division panics: by the zero polynomial, by two or more terms, and (unless the dividend is zero) by a term with a
    variable, by a term with zero coefficient, or when an exponent difference overflows. The zero dividend gives zero. *)
Theorem C77_panics : forall (a b : poly),
  (b = [] -> p_div a b = Panic) /\ (2 <= Z.of_nat (length b) -> p_div a b = Panic) /\
  (forall m c, b = [(m, c)] -> p_div [] b = Ok []) /\
  (forall m c, b = [(m, c)] -> a <> [] -> mv m <> None \/ c = 0 -> p_div a b = Panic) /\
  (forall m c k e, b = [(m, c)] -> In (k, e) a -> ~ (i32_range (mx k - mx m) /\ i32_range (my k - my m) /\ i32_range (mq k - mq m)) -> p_div a b = Panic).
Proof. exact c77_panics. Qed.
Print Assumptions C77_panics.
(** C77: the five forms of / and /= agree. *)
Theorem C77_forms : forall (a b : poly) (t : term),
  p_div_assign a b = p_div a b /\ p_div_t a t = p_div a (to_pol t) /\ p_div_assign_t a t = p_div a (to_pol t) /\ t_div_p t b = p_div (to_pol t) b.
Proof. exact c77_forms. Qed.
Print Assumptions C77_forms.
Example C77_case : let a := [(mkMono 1 2 0 (Some (0, 1)), -7); (mkMono 3 1 0 None, 4)] in let t := mkTerm 2 (mkMono 1 1 0 None) in
  p_div_t a t = Ok [(mkMono 0 1 0 (Some (0, 1)), -4); (mkMono 2 0 0 None, 2)] /\ p_div_t (p_add a a) t = Ok [(mkMono 0 1 0 (Some (0, 1)), -7); (mkMono 2 0 0 None, 4)].
Proof. exact c77_case. Qed.
(** C80: whatever the builder held before, setting a field changes that field and no other; build reads the fields off. *)
Theorem C80_setters : forall b c x y q v,
  tb_build tb_new = mkTerm 1 (mkMono 0 0 0 None) /\
  tb_build (tb_coef c b) = mkTerm c (tm (tb_build b)) /\
  tb_build (tb_xpow x b) = (let t := tb_build b in mkTerm (tc t) (mkMono x (my (tm t)) (mq (tm t)) (mv (tm t)))) /\
  tb_build (tb_ypow y b) = (let t := tb_build b in mkTerm (tc t) (mkMono (mx (tm t)) y (mq (tm t)) (mv (tm t)))) /\
  tb_build (tb_qpow q b) = (let t := tb_build b in mkTerm (tc t) (mkMono (mx (tm t)) (my (tm t)) q (mv (tm t)))) /\
  tb_build (tb_variable v b) = (let t := tb_build b in mkTerm (tc t) (mkMono (mx (tm t)) (my (tm t)) (mq (tm t)) v)).
Proof. exact c80_setters. Qed.
Print Assumptions C80_setters.
(** C80: variable_ij sets the variable c_i_j for non-negative i, j and panics otherwise. *)
Theorem C80_variable_ij : forall b i j,
  (0 <= i -> 0 <= j -> tb_variable_ij i j b = Ok (tb_variable (Some (i, j)) b)) /\ (i < 0 \/ j < 0 -> tb_variable_ij i j b = Panic).
Proof. exact c80_variable_ij. Qed.
Print Assumptions C80_variable_ij.
(** C80: every term can be built, and one() and new() are 1 and 0. *)
Theorem C80_complete : forall t, tb_build (tb_variable (mv (tm t)) (tb_qpow (mq (tm t)) (tb_ypow (my (tm t)) (tb_xpow (mx (tm t)) (tb_coef (tc t) tb_new))))) = t /\
  to_pol term_one = fconst 1 /\ to_pol term_new = [].
Proof. exact c80_complete. Qed.
Print Assumptions C80_complete.
Example C80_case : tb_build (tb_xpow 4 (tb_coef 3 (tb_ypow 2 tb_new))) = mkTerm 3 (mkMono 4 2 0 None) /\ tb_variable_ij 1 (-1) tb_new = Panic.
Proof. exact c80_case. Qed.
(** C81: on a term with nonzero coefficient, each of these Term methods gives the term of the one-term polynomial that the Polynomial method of
    the same name gives (and panics exactly when that does). *)
Theorem C81_agree : forall t n, tc t <> 0 ->
  lift (term_to_frob t n) = to_frob (to_pol t) n /\
  lift (term_to_y_power t n) = to_y_power (to_pol t) n /\
  lift (term_to_q_power t n) = to_q_power (to_pol t) n /\
  lift (term_derivative_x t) = derivative_x (to_pol t) /\
  lift (term_derivative_y t) = derivative_y (to_pol t) /\
  (0 < n -> lift (term_modulo t n) = p_rem (to_pol t) n) /\
  to_pol (term_neg t) = p_neg (to_pol t) /\
  term_has_x t = has_x (to_pol t) /\ term_has_y t = has_y (to_pol t) /\ term_has_q t = has_q (to_pol t) /\
  highest_term_x (to_pol t) = t.
Proof. exact c81_agree. Qed.
Print Assumptions C81_agree.
(** C81: is_equal_order compares the exponents of x, y and q and ignores coefficient and variable. *)
Theorem C81_equal_order : forall s t, is_equal_order s t = true <-> mx (tm s) = mx (tm t) /\ my (tm s) = my (tm t) /\ mq (tm s) = mq (tm t).
Proof. exact c81_equal_order. Qed.
Print Assumptions C81_equal_order.
(** C81: modular_assign (in place) and modulo (by value) give the same term, with the coefficient's floor residue. *)
Theorem C81_modular : forall t n, n <> 0 -> term_modular_assign t n = term_modulo t n /\ term_modulo t n = Ok (mkTerm (tc t mod n) (tm t)).
Proof. exact c81_modular. Qed.
Print Assumptions C81_modular.
(** C81: Monomial::eval_xy is the value x^xpow y^ypow, and the value of the one-term polynomial is coefficient times that. *)
Theorem C81_eval : forall t x y, tc t <> 0 -> 0 <= mx (tm t) -> 0 <= my (tm t) ->
  mono_eval_xy (tm t) x y = Ok (x ^ mx (tm t) * y ^ my (tm t)) /\ eval_xy (to_pol t) x y = Ok (tc t * (x ^ mx (tm t) * y ^ my (tm t))).
Proof. exact c81_eval. Qed.
Print Assumptions C81_eval.
(** C81: substituting a polynomial into a term agrees with substituting into the one-term polynomial. *)
Theorem C81_substitute : forall t (s r r' : poly), tc t <> 0 ->
  (term_eval_x_polynomial t s = Ok r -> eval_x_polynomial (to_pol t) s = Ok r' -> feq r r') /\
  (term_eval_y_polynomial t s = Ok r -> eval_y_polynomial (to_pol t) s = Ok r' -> feq r r').
Proof. exact c81_substitute. Qed.
Print Assumptions C81_substitute.
Example C81_case : let t := mkTerm 3 (mkMono 2 1 0 None) in tc t <> 0 /\ term_derivative_x t = Ok (mkTerm 6 (mkMono 1 1 0 None)) /\
  term_to_frob t 5 = Ok (mkTerm 3 (mkMono 10 5 0 None)) /\ term_modulo t 2 = Ok (mkTerm 1 (mkMono 2 1 0 None)) /\ eval_xy (to_pol t) 2 5 = Ok 60.
Proof. exact c81_case. Qed.
