(** Model of /repo/src/term.rs and /repo/src/term_builder.rs, except the
    functions that return polynomials (M_Poly.v) and Display (M_Display.v). *)
From Verif Require Import Prelude M_Bigint M_Variable.

(** src/term.rs:22-29  struct Monomial: x^xpow * y^ypow * c_i_j * q^qpow.
    Exponents are i32 values held in Z.  Simplification: [variable] is stored in
    canonical form (see M_Variable.canon). *)
Record mono := mkMono { mx : Z; my : Z; mq : Z; mv : option (Z * Z) }.

(** src/term.rs:15-20  struct Term: coef * monomial. *)
Record term := mkTerm { tc : Z; tm : mono }.

(** src/subscripted_variable.rs:39-62 on canonical variables. *)
Definition var_cmp (a b : option (Z * Z)) : comparison :=
  match a, b with
  | None, None => Eq
  | None, Some _ => Lt
  | Some _, None => Gt
  | Some (i, j), Some (i', j') =>
      if i <? i' then Lt else if i' <? i then Gt
      else if j <? j' then Lt else if j' <? j then Gt else Eq
  end.

(** src/subscripted_variable.rs:26-36 on canonical variables. *)
Definition var_eqb (a b : option (Z * Z)) : bool :=
  match a, b with
  | None, None => true
  | Some (i, j), Some (i', j') => (i =? i') && (j =? j')
  | _, _ => false
  end.

(** src/term.rs:339-363  impl Ord for Monomial. *)
Definition mono_cmp (a b : mono) : comparison :=
  if mx a <? mx b then Lt else if mx b <? mx a then Gt
  else if my a <? my b then Lt else if my b <? my a then Gt
  else if mq a <? mq b then Lt else if mq b <? mq a then Gt
  else match var_cmp (mv a) (mv b) with
       | Lt => Lt
       | Gt => Gt
       | Eq => Eq
       end.

(** src/term.rs:23  derive(PartialEq) for Monomial. *)
Definition mono_eqb (a b : mono) : bool :=
  (mx a =? mx b) && (my a =? my b) && (mq a =? mq b) && var_eqb (mv a) (mv b).

(** src/term.rs:333-337  impl Ord for Term: compares monomials only. *)
Definition term_cmp (a b : term) : comparison := mono_cmp (tm a) (tm b).

(** src/term.rs:16  derive(PartialEq) for Term. *)
Definition term_eqb (a b : term) : bool := (tc a =? tc b) && mono_eqb (tm a) (tm b).

(** src/term_builder.rs:9-16  struct TermBuilder. *)
Record builder := mkB { b_coef : Z; b_x : Z; b_y : Z; b_q : Z; b_v : option (Z * Z) }.

(** src/term_builder.rs:45-50  TermBuilder::new. *)
Definition tb_new : builder := mkB 1 0 0 0 None.
(** src/term_builder.rs:23-42  coef (three overloads). *)
Definition tb_coef (c : Z) (b : builder) : builder := mkB c (b_x b) (b_y b) (b_q b) (b_v b).
(** src/term_builder.rs:52-55  xpow. *)
Definition tb_xpow (n : Z) (b : builder) : builder := mkB (b_coef b) n (b_y b) (b_q b) (b_v b).
(** src/term_builder.rs:57-60  ypow. *)
Definition tb_ypow (n : Z) (b : builder) : builder := mkB (b_coef b) (b_x b) n (b_q b) (b_v b).
(** src/term_builder.rs:62-65  qpow. *)
Definition tb_qpow (n : Z) (b : builder) : builder := mkB (b_coef b) (b_x b) (b_y b) n (b_v b).
(** src/term_builder.rs:67-70  variable. *)
Definition tb_variable (v : option (Z * Z)) (b : builder) : builder :=
  mkB (b_coef b) (b_x b) (b_y b) (b_q b) v.
(** src/term_builder.rs:72-79  variable_ij. *)
Definition tb_variable_ij (i j : Z) (b : builder) : res builder :=
  _ <- assertb (0 <=? i) ;;
  _ <- assertb (0 <=? j) ;;
  Ok (mkB (b_coef b) (b_x b) (b_y b) (b_q b) (Some (i, j))).
(** src/term_builder.rs:81-91  build. *)
Definition tb_build (b : builder) : term := mkTerm (b_coef b) (mkMono (b_x b) (b_y b) (b_q b) (b_v b)).

(** src/term.rs:31-35  Term::one. *)
Definition term_one : term := tb_build tb_new.

(** src/term.rs:174-188  Term::new. *)
Definition term_new : term := mkTerm 0 (mkMono 0 0 0 None).

(** variable().empty *)
Definition vempty (v : option (Z * Z)) : bool := match v with None => true | Some _ => false end.

(** src/term.rs:47-60  Term * Term. *)
Definition term_mul (a b : term) : res term :=
  if negb (vempty (mv (tm a))) && negb (vempty (mv (tm b))) then Panic
  else
    x <- i32 (mx (tm a) + mx (tm b)) ;;
    y <- i32 (my (tm a) + my (tm b)) ;;
    q <- i32 (mq (tm a) + mq (tm b)) ;;
    Ok (mkTerm (tc a * tc b)
          (mkMono x y q (if negb (vempty (mv (tm a))) then mv (tm a) else mv (tm b)))).

(** src/term.rs:66-77  Term / Term. *)
Definition term_div (a b : term) : res term :=
  if negb (vempty (mv (tm b))) then Panic
  else
    c <- div_floor (tc a) (tc b) ;;
    x <- i32 (mx (tm a) - mx (tm b)) ;;
    y <- i32 (my (tm a) - my (tm b)) ;;
    q <- i32 (mq (tm a) - mq (tm b)) ;;
    Ok (mkTerm c (mkMono x y q (mv (tm a)))).

(** src/term.rs:79-87  - Term. *)
Definition term_neg (a : term) : term := mkTerm (- tc a) (tm a).

(** n.to_i32().unwrap() *)
Definition to_i32 (n : Z) : res Z := i32 n.

(** src/term.rs:99-118  Power<&BigInt> for Term. *)
Definition term_power (a : term) (n : Z) : res term :=
  if negb (vempty (mv (tm a))) then Panic
  else
    nn <- to_i32 n ;;
    c <- power (tc a) n ;;
    x <- i32 (mx (tm a) * nn) ;;
    y <- i32 (my (tm a) * nn) ;;
    q <- i32 (mq (tm a) * nn) ;;
    Ok (tb_build (tb_qpow q (tb_ypow y (tb_xpow x (tb_coef c tb_new))))).

(** src/term.rs:90-97  Power<i32> for Term. *)
Definition term_power_i32 (a : term) (n : Z) : res term :=
  if negb (vempty (mv (tm a))) then Panic else term_power a n.

(** src/term.rs:206-216  Term::power_modulo. *)
Definition term_power_modulo (a : term) (n p : Z) : res term :=
  nn <- to_i32 n ;;
  c <- power_modulo (tc a) n p ;;
  x <- i32 (mx (tm a) * nn) ;;
  y <- i32 (my (tm a) * nn) ;;
  q <- i32 (mq (tm a) * nn) ;;
  Ok (mkTerm c (mkMono x y q (mv (tm a)))).

(** src/term.rs:200-204  is_equal_order. *)
Definition is_equal_order (a b : term) : bool :=
  (mx (tm a) =? mx (tm b)) && (my (tm a) =? my (tm b)) && (mq (tm a) =? mq (tm b)).

(** src/term.rs:218-228  Term::to_frob: x -> x^n, y -> y^n. *)
Definition term_to_frob (a : term) (n : Z) : res term :=
  x <- i32 (mx (tm a) * n) ;;
  y <- i32 (my (tm a) * n) ;;
  Ok (mkTerm (tc a) (mkMono x y (mq (tm a)) (mv (tm a)))).

(** src/term.rs:230-239  Term::to_y_power. *)
Definition term_to_y_power (a : term) (n : Z) : res term :=
  y <- i32 (my (tm a) * n) ;;
  Ok (mkTerm (tc a) (mkMono (mx (tm a)) y (mq (tm a)) (mv (tm a)))).

(** src/term.rs:241-250  Term::to_q_power. *)
Definition term_to_q_power (a : term) (n : Z) : res term :=
  q <- i32 (mq (tm a) * n) ;;
  Ok (mkTerm (tc a) (mkMono (mx (tm a)) (my (tm a)) q (mv (tm a)))).

(** src/term.rs:252-265  Term::modulo  and  267-274  Term::modular_assign: same result
    ([modular_assign] mutates; here it returns the new value). *)
Definition term_modulo (a : term) (n : Z) : res term :=
  c <- mod_floor (tc a) n ;; Ok (mkTerm c (tm a)).
Definition term_modular_assign (a : term) (n : Z) : res term :=
  c <- mod_floor (tc a) n ;; Ok (mkTerm c (tm a)).

(** src/term.rs:276-286  has_x, has_y, has_q. *)
Definition term_has_x (a : term) : bool := negb (mx (tm a) =? 0).
Definition term_has_y (a : term) : bool := negb (my (tm a) =? 0).
Definition term_has_q (a : term) : bool := negb (mq (tm a) =? 0).

(** src/term.rs:306-317  Term::derivative_x. *)
Definition term_derivative_x (a : term) : res term :=
  let m := tm a in
  _ <- assertb (0 <=? mx m) ;;
  if 0 <? mx m then Ok (mkTerm (tc a * mx m) (mkMono (mx m - 1) (my m) (mq m) (mv m)))
  else Ok (tb_build (tb_coef 0 tb_new)).

(** src/term.rs:319-330  Term::derivative_y. *)
Definition term_derivative_y (a : term) : res term :=
  let m := tm a in
  _ <- assertb (0 <=? my m) ;;
  if 0 <? my m then Ok (mkTerm (tc a * my m) (mkMono (mx m) (my m - 1) (mq m) (mv m)))
  else Ok (tb_build (tb_coef 0 tb_new)).

(** src/term.rs:121-123  Monomial::eval_xy. *)
Definition mono_eval_xy (m : mono) (x y : Z) : res Z :=
  a <- power_i32 x (mx m) ;;
  b <- power_i32 y (my m) ;;
  Ok (a * b).

(** i32 [as] u32. *)
Definition as_u32 (k : Z) : Z := k mod 4294967296.

(** core's i32::pow(exp: u32), overflow checks on (dev profile):
      if exp == 0 { return 1 }
      while exp > 1 { if exp & 1 == 1 { acc *= base }; exp /= 2; base *= base }
      acc * base
    (the implementation since Rust 1.34; every multiplication checked). *)
Fixpoint i32_pow_loop (fuel : nat) (exp base acc : Z) : res Z :=
  if 1 <? exp then
    match fuel with
    | O => NoFuel
    | S f =>
        acc <- (if Z.odd exp then i32 (acc * base) else Ok acc) ;;
        base <- i32 (base * base) ;;
        i32_pow_loop f (exp / 2) base acc
    end
  else i32 (acc * base).
Definition i32_pow (base exp : Z) : res Z :=
  if exp =? 0 then Ok 1 else i32_pow_loop (halvings exp) exp base 1.

(** src/term.rs:145-147  Monomial::eval_q. *)
Definition mono_eval_q (m : mono) (q : Z) : res Z := i32_pow q (as_u32 (mq m)).
