(** Property theorems C12-C22 (src/term.rs, src/polynomial.rs: ring operations, reduction, power). *)
From Coq Require Import Znumtheory ZifyBool Setoid Morphisms Ring.
From Verif Require Import Prelude M_Bigint M_Variable M_Term M_Poly Spec P_Bigint P_Variable P_FSum P_Poly P_Rem.
From Verif Require Import P_PolyProps.
Open Scope Z_scope.

(** C12: Term * Term: coefficients multiply, exponents add, the one variable is kept; panics exactly
    when two variables meet or an exponent sum leaves i32. *)
Theorem C12_term_mul : forall s t,
  (mul_ok (tm s) (tm t) -> term_mul s t = Ok (mkTerm (tc s * tc t) (mmul (tm s) (tm t)))) /\
  (~ mul_ok (tm s) (tm t) -> term_mul s t = Panic).
Proof. exact c12_term_mul. Qed.
Print Assumptions C12_term_mul.
Example C12_mul_case : let s := mkTerm 3 (mkMono 2 0 (-1) (Some (1, 2))) in let t := mkTerm (-5) (mkMono 1 4 1 None) in
  mul_ok (tm s) (tm t) /\ term_mul s t = Ok (mkTerm (-15) (mkMono 3 4 0 (Some (1, 2)))) /\
  ~ mul_ok (tm s) (tm s) /\ term_mul s s = Panic.
Proof. exact c12_mul_case. Qed.
(** C12: Term / Term: floor of the coefficient quotient, exponent differences. *)
Theorem C12_term_div : forall s t, mv (tm t) = None -> tc t <> 0 ->
  i32_mono (mkMono (mx (tm s) - mx (tm t)) (my (tm s) - my (tm t)) (mq (tm s) - mq (tm t)) None) ->
  term_div s t = Ok (mkTerm (tc s / tc t)
    (mkMono (mx (tm s) - mx (tm t)) (my (tm s) - my (tm t)) (mq (tm s) - mq (tm t)) (mv (tm s)))).
Proof. exact c12_term_div. Qed.
Print Assumptions C12_term_div.
Theorem C12_term_div_panics : forall s t, mv (tm t) <> None \/ tc t = 0 -> term_div s t = Panic.
Proof. exact c12_term_div_panics. Qed.
Print Assumptions C12_term_div_panics.
(** C12: dividing a product by one of its factors gives the other factor. *)
Theorem C12_mul_div : forall s t u, i32_mono (tm s) -> mv (tm t) = None -> tc t <> 0 ->
  term_mul s t = Ok u -> term_div u t = Ok s.
Proof. exact c12_mul_div. Qed.
Print Assumptions C12_mul_div.
Example C12_div_case : term_div (mkTerm (-7) (mkMono 3 4 0 (Some (1, 2)))) (mkTerm 2 (mkMono 1 (-1) 0 None))
  = Ok (mkTerm (-4) (mkMono 2 5 0 (Some (1, 2)))).
Proof. exact c12_div_case. Qed.
(** C12: -t negates the coefficient only. *)
Theorem C12_term_neg : forall t, tc (term_neg t) = - tc t /\ tm (term_neg t) = tm t.
Proof. exact c12_term_neg. Qed.
Print Assumptions C12_term_neg.
(** C12: power(n) is the coefficient power and the exponent multiple ... *)
Theorem C12_term_power : forall t n, mv (tm t) = None -> 0 <= n <= i32_max ->
  i32_mono (mkMono (mx (tm t) * n) (my (tm t) * n) (mq (tm t) * n) None) ->
  term_power t n = Ok (mkTerm (tc t ^ n) (mkMono (mx (tm t) * n) (my (tm t) * n) (mq (tm t) * n) None)) /\
  term_power_i32 t n = term_power t n.
Proof. exact c12_term_power. Qed.
Print Assumptions C12_term_power.
(** ... i.e. the n-fold product of the term with itself, and power_modulo(n,p) is power(n) reduced. *)
Theorem C12_term_power_iterated : forall t n u, 0 <= n -> term_power t n = Ok u ->
  Nat.iter (Z.to_nat n) (fun r => r <- r ;; term_mul r t) (Ok term_one) = Ok u.
Proof. exact c12_term_power_iterated. Qed.
Print Assumptions C12_term_power_iterated.
Theorem C12_term_power_modulo : forall t n p, mv (tm t) = None -> 0 <= n -> 2 <= p ->
  term_power_modulo t n p = (u <- term_power t n ;; term_modulo u p).
Proof. exact c12_term_power_modulo. Qed.
Print Assumptions C12_term_power_modulo.
Example C12_power_case : term_power (mkTerm 3 (mkMono 2 0 (-1) None)) 4 = Ok (mkTerm 81 (mkMono 8 0 (-4) None)) /\
  term_power_modulo (mkTerm 3 (mkMono 2 0 (-1) None)) 4 7 = Ok (mkTerm 4 (mkMono 8 0 (-4) None)).
Proof. exact c12_power_case. Qed.
(** C13: +, - and unary - act coefficientwise; results are again maps (sorted) in normal form. *)
Theorem C13_add : forall a b, sorted a -> sorted b ->
  sorted (p_add a b) /\ (forall m, coef (p_add a b) m = coef a m + coef b m) /\
  (no_zero a -> no_zero b -> no_zero (p_add a b)).
Proof. exact c13_add. Qed.
Print Assumptions C13_add.
Theorem C13_sub : forall a b, sorted a -> sorted b ->
  sorted (p_sub a b) /\ (forall m, coef (p_sub a b) m = coef a m - coef b m) /\
  (no_zero a -> no_zero b -> no_zero (p_sub a b)).
Proof. exact c13_sub. Qed.
Print Assumptions C13_sub.
Theorem C13_neg : forall a, sorted a ->
  sorted (p_neg a) /\ (forall m, coef (p_neg a) m = - coef a m) /\ (no_zero a -> no_zero (p_neg a)).
Proof. exact c13_neg. Qed.
Print Assumptions C13_neg.
(** C13: the assigning forms and the Term-mixed forms agree with the value forms. *)
Theorem C13_assign_forms : forall a b t, sorted a -> sorted b ->
  p_add_assign a b = p_add a b /\ p_sub_assign a b = p_sub a b /\
  p_add_t a t = p_add a (to_pol t) /\ t_add_p t a = p_add (to_pol t) a /\
  p_sub_t a t = p_sub a (to_pol t) /\ t_sub_p t a = p_sub (to_pol t) a /\
  (tc t <> 0 -> p_add_assign_t a t = p_add a (to_pol t)).
Proof. exact c13_assign_forms. Qed.
Print Assumptions C13_assign_forms.
(** C13: += Term is coefficientwise also for a zero term. *)
Theorem C13_add_assign_t : forall a t m, sorted a ->
  coef (p_add_assign_t a t) m = coef a m + (if mono_eqb (tm t) m then tc t else 0).
Proof. exact c13_add_assign_t. Qed.
Print Assumptions C13_add_assign_t.
(** C13: a Term as a polynomial. *)
Theorem C13_to_pol : forall t, sorted (to_pol t) /\ no_zero (to_pol t) /\
  (forall m, coef (to_pol t) m = if mono_eqb (tm t) m then tc t else 0).
Proof. exact c13_to_pol. Qed.
Print Assumptions C13_to_pol.
Example C13_case : sorted ex_a /\ sorted ex_b /\ no_zero ex_a /\ no_zero ex_b /\
  p_add ex_a ex_b = [(mkMono 0 0 0 None, 3); (mkMono 1 2 0 (Some (0, 1)), 5); (mkMono 3 0 0 None, 4)].
Proof. exact c13_case. Qed.
(** C14: commutative group laws for the structural ==. *)
Theorem C14_group : forall a b c, sorted a -> sorted b -> sorted c -> no_zero a -> no_zero b -> no_zero c ->
  poly_eqb (p_add a b) (p_add b a) = true /\
  poly_eqb (p_add (p_add a b) c) (p_add a (p_add b c)) = true /\
  poly_eqb (p_add a p_new) a = true /\ poly_eqb (p_add p_new a) a = true /\
  is_zero (p_sub a a) = true /\ poly_eqb (p_add a (p_neg a)) p_new = true.
Proof. exact c14_group. Qed.
Print Assumptions C14_group.
(** C15: the product is the convolution, it returns exactly when every pair of monomials can be
    multiplied, and it is a map with i32 exponents. *)
Theorem C15_mul : forall a b c, p_mul a b = Ok c ->
  sorted c /\ i32_poly c /\ (forall m, coef c m = coef (conv a b) m).
Proof. exact c15_mul. Qed.
Print Assumptions C15_mul.
Theorem C15_mul_returns : forall a b,
  ((forall m1 c1 m2 c2, In (m1, c1) a -> In (m2, c2) b -> mul_ok m1 m2) <-> exists c, p_mul a b = Ok c) /\
  ((exists m1 c1 m2 c2, In (m1, c1) a /\ In (m2, c2) b /\ ~ mul_ok m1 m2) <-> p_mul a b = Panic).
Proof. exact c15_mul_returns. Qed.
Print Assumptions C15_mul_returns.
Theorem C15_mul_forms : forall a b t,
  p_mul_assign a b = p_mul a b /\ p_mul_t a t = p_mul a (to_pol t) /\ t_mul_p t a = p_mul (to_pol t) a.
Proof. exact c15_mul_forms. Qed.
Print Assumptions C15_mul_forms.
Example C15_case : p_mul ex_a ex_b = Ok [(mkMono 1 0 0 None, 6); (mkMono 2 0 0 None, -4); (mkMono 2 2 0 (Some (0, 1)), 10);
  (mkMono 3 0 0 None, 12); (mkMono 4 0 0 None, -8); (mkMono 4 2 0 (Some (0, 1)), 20)] /\ p_mul ex_a ex_a = Panic.
Proof. exact c15_case. Qed.
(** C16: ring laws of the product, on every coefficient, whenever the products involved return. *)
Theorem C16_ring : forall a b c, sorted a -> sorted b -> sorted c ->
  (forall ab ba, p_mul a b = Ok ab -> p_mul b a = Ok ba -> feq ab ba) /\
  (forall ab bc l r, p_mul a b = Ok ab -> p_mul ab c = Ok l -> p_mul b c = Ok bc -> p_mul a bc = Ok r -> feq l r) /\
  (forall ab ac s, p_mul a b = Ok ab -> p_mul a c = Ok ac -> p_mul a (p_add b c) = Ok s -> feq s (p_add ab ac)) /\
  (forall r, p_mul p_one a = Ok r -> feq r a) /\ p_mul p_new a = Ok p_new.
Proof. exact c16_ring. Qed.
Print Assumptions C16_ring.
(** C16: a*b returns iff b*a does; and the products of a sum return if the summands' products do. *)
Theorem C16_comm_returns : forall a b, (exists c, p_mul a b = Ok c) -> exists c, p_mul b a = Ok c.
Proof. exact c16_comm_returns. Qed.
Print Assumptions C16_comm_returns.
Theorem C16_distr_returns : forall a b c ab ac, sorted b -> p_mul a b = Ok ab -> p_mul a c = Ok ac ->
  exists s, p_mul a (p_add b c) = Ok s.
Proof. exact c16_distr_returns. Qed.
Print Assumptions C16_distr_returns.
Example C16_case : exists ab abc bc, p_mul ex_b ex_b = Ok ab /\ p_mul ab ex_a = Ok abc /\ p_mul ex_b ex_a = Ok bc /\ p_mul ex_b bc = Ok abc.
Proof. exact c16_case. Qed.
(** C17 is false of the code: (x+1)(x-1) keeps an explicit zero coefficient at x, so == and
    is_zero do not decide equality: (x+1)(x-1) is not == to x^2-1, and (x+1)(x-1) - (x^2-1) is not is_zero. *)
Theorem C17_product_normal_form_refuted : exists a b c d,
  sorted a /\ sorted b /\ sorted c /\ no_zero a /\ no_zero b /\ no_zero c /\ p_mul a b = Ok d /\ feq d c /\
  ~ no_zero d /\ poly_eqb d c = false /\ is_zero (p_sub d c) = false.
Proof. exact c17_product_normal_form_refuted. Qed.
Print Assumptions C17_product_normal_form_refuted.
(** C17, what holds: after a reduction modulo p > 0 the normal form is restored, so == of reduced
    products decides congruence modulo p; and == / is_zero never give a false positive. *)
Theorem C17_product_normal_form_partial : forall a b c d p r s, sorted c -> p_mul a b = Ok d ->
  (poly_eqb d c = true -> feq (conv a b) c) /\
  (is_zero (p_sub d c) = true -> feq (conv a b) c) /\
  (0 < p -> p_rem d p = Ok r -> p_rem c p = Ok s -> (poly_eqb r s = true <-> feqm p (conv a b) c)) /\
  (0 < p -> p_rem (p_sub d c) p = Ok r -> (is_zero r = true <-> feqm p (conv a b) c)).
Proof. exact c17_product_normal_form_partial. Qed.
Print Assumptions C17_product_normal_form_partial.
(** C18 is false of the code: x - x is a polynomial with an explicit zero coefficient. *)
Theorem C18_term_sum_refuted : exists t, tc t <> 0 /\ ~ no_zero (term_sub t t) /\ is_zero (term_sub t t) = false /\
  (exists s, tc s <> 0 /\ ~ no_zero (term_add t s)).
Proof. exact c18_term_sum_refuted. Qed.
Print Assumptions C18_term_sum_refuted.
(** C18, what holds: the coefficients are right, and for terms with different monomials and
    non-zero coefficients the result is in normal form. *)
Theorem C18_term_sum_partial : forall s t,
  sorted (term_add s t) /\ sorted (term_sub s t) /\
  (forall m, coef (term_add s t) m = (if mono_eqb (tm s) m then tc s else 0) + (if mono_eqb (tm t) m then tc t else 0)) /\
  (forall m, coef (term_sub s t) m = (if mono_eqb (tm s) m then tc s else 0) - (if mono_eqb (tm t) m then tc t else 0)) /\
  (tm s <> tm t -> tc t <> 0 -> no_zero (term_add s t) /\ no_zero (term_sub s t)).
Proof. exact c18_term_sum_partial. Qed.
Print Assumptions C18_term_sum_partial.
Example C18_case : term_sub (mkTerm 1 (mkMono 1 0 0 None)) (mkTerm 2 (mkMono 3 0 0 None)) = [(mkMono 1 0 0 None, 1); (mkMono 3 0 0 None, -2)].
Proof. exact c18_case. Qed.
(** C19: power is the n-fold product; it never runs forever; negative exponents panic. *)
Theorem C19_power : forall a n c, sorted a -> (p_power a n = Ok c \/ p_power_i32 a n = Ok c) ->
  0 <= n /\ sorted c /\ feq c (fpow a (Z.to_nat n)).
Proof. exact c19_power. Qed.
Print Assumptions C19_power.
Theorem C19_power_total : forall a n,
  p_power_i32 a n = p_power a n /\ (n < 0 -> p_power a n = Panic) /\ p_power a n <> NoFuel /\
  p_power a 0 = Ok (fconst 1).
Proof. exact c19_power_total. Qed.
Print Assumptions C19_power_total.
Theorem C19_square_cube : forall a c, sorted a ->
  (p_square a = Ok c -> feq c (conv a a)) /\ (p_cube a = Ok c -> feq c (conv a (conv a a))).
Proof. exact c19_square_cube. Qed.
Print Assumptions C19_square_cube.
Theorem C19_power_returns : forall a n B, 0 <= n -> 0 <= B -> n * B <= i32_max ->
  (forall m c, In (m, c) a -> Z.abs (mx m) <= B /\ Z.abs (my m) <= B /\ Z.abs (mq m) <= B /\ mv m = None) ->
  exists c, p_power a n = Ok c.
Proof. exact c19_power_returns. Qed.
Print Assumptions C19_power_returns.
Example C19_case : p_power ex_b 2 = Ok [(mkMono 2 0 0 None, 4); (mkMono 4 0 0 None, 16); (mkMono 6 0 0 None, 16)].
Proof. exact c19_case. Qed.
(** C20: a % p and modular_assign are the canonical reduction. *)
Theorem C20_rem : forall a p, 0 < p -> sorted a -> exists r,
  p_rem a p = Ok r /\ p_rem_i32 a p = Ok r /\ modular_assign a p = Ok r /\ sorted r /\ reduced p r /\
  (forall m, coef r m = coef a m mod p) /\ (forall m c, In (m, c) r -> exists d, In (m, d) a /\ c = d mod p) /\
  p_rem r p = Ok r.
Proof. exact c20_rem. Qed.
Print Assumptions C20_rem.
(** C20: == of reductions decides congruence. *)
Theorem C20_rem_decides : forall a b p r s, 0 < p -> sorted a -> sorted b -> p_rem a p = Ok r -> p_rem b p = Ok s ->
  (poly_eqb r s = true <-> feqm p a b).
Proof. exact c20_rem_decides. Qed.
Print Assumptions C20_rem_decides.
(** C20: p <= 0 panics, except on the polynomial without terms. *)
Theorem C20_rem_nonpos : forall a p, p <= 0 -> a <> [] -> p_rem a p = Panic /\ modular_assign a p = Panic.
Proof. exact c20_rem_nonpos. Qed.
Print Assumptions C20_rem_nonpos.
Theorem C20_rem_empty : forall p, p_rem [] p = Ok [] /\ modular_assign [] p = Ok [].
Proof. exact c20_rem_empty. Qed.
Print Assumptions C20_rem_empty.
Example C20_case : p_rem ex_a 5 = Ok [(mkMono 0 0 0 None, 3); (mkMono 1 0 0 None, 3)] /\ 0 < 5 /\ sorted ex_a.
Proof. exact c20_case. Qed.
(** C21: power_modulo(n,p) == power(n) % p for n >= 1 (whenever power(n) returns). *)
Theorem C21_power_modulo : forall a n p c, 0 < p -> 1 <= n -> sorted a -> p_power a n = Ok c ->
  p_power_modulo a n p = p_rem c p.
Proof. exact c21_power_modulo. Qed.
Print Assumptions C21_power_modulo.
(** C21: and whenever power_modulo returns (power itself may exceed i32), it is the reduced n-th power. *)
Theorem C21_power_modulo_coef : forall a n p c, 0 < p -> 1 <= n -> sorted a -> p_power_modulo a n p = Ok c ->
  sorted c /\ reduced p c /\ feqm p c (fpow a (Z.to_nat n)).
Proof. exact c21_power_modulo_coef. Qed.
Print Assumptions C21_power_modulo_coef.
Example C21_case : p_power_modulo ex_b 2 5 = Ok [(mkMono 2 0 0 None, 4); (mkMono 4 0 0 None, 1); (mkMono 6 0 0 None, 1)].
Proof. exact c21_case. Qed.
(** C22 is false of the code: power_modulo(0,p) returns self % p, not 1. *)
Theorem C22_power_modulo_zero_refuted : exists a p r, 2 <= p /\ sorted a /\ p_power_modulo a 0 p = Ok r /\
  ~ feqm p r (fconst 1).
Proof. exact c22_power_modulo_zero_refuted. Qed.
Print Assumptions C22_power_modulo_zero_refuted.
(** C22, what happens instead, for every polynomial. *)
Theorem C22_power_modulo_zero_partial : forall a p, 0 < p -> sorted a -> i32_poly a -> p_power_modulo a 0 p = p_rem a p.
Proof. exact c22_power_modulo_zero_partial. Qed.
Print Assumptions C22_power_modulo_zero_partial.
