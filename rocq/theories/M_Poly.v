(** Model of /repo/src/polynomial.rs (Display is in M_Display.v) and of the
    functions of /repo/src/term.rs that involve polynomials. *)
From Verif Require Import Prelude M_Bigint M_Variable M_Term.

(** src/polynomial.rs:14-18  struct Polynomial { terms: BTreeMap<Monomial, BigInt> }:
    an association list, strictly increasing in [mono_cmp] (predicate [wf] in P_Poly.v). *)
Definition poly := list (mono * Z).

(** BTreeMap::get *)
Fixpoint bm_get (m : mono) (p : poly) : option Z :=
  match p with
  | [] => None
  | (k, c) :: r =>
      match mono_cmp m k with
      | Lt => None
      | Eq => Some c
      | Gt => bm_get m r
      end
  end.

(** BTreeMap::insert: replaces the value of an equal key. *)
Fixpoint bm_insert (m : mono) (c : Z) (p : poly) : poly :=
  match p with
  | [] => [(m, c)]
  | (k, d) :: r =>
      match mono_cmp m k with
      | Lt => (m, c) :: p
      | Eq => (k, c) :: r
      | Gt => (k, d) :: bm_insert m c r
      end
  end.

(** BTreeMap::remove *)
Fixpoint bm_remove (m : mono) (p : poly) : poly :=
  match p with
  | [] => []
  | (k, d) :: r =>
      match mono_cmp m k with
      | Lt => p
      | Eq => r
      | Gt => (k, d) :: bm_remove m r
      end
  end.

(** BTreeMap::split_off(&m): what stays in the map, i.e. the keys < m. *)
Fixpoint bm_split_off (m : mono) (p : poly) : poly :=
  match p with
  | [] => []
  | (k, d) :: r =>
      match mono_cmp k m with
      | Lt => (k, d) :: bm_split_off m r
      | _ => []
      end
  end.

(** src/polynomial.rs:259-267  Zero, and 308-312  Polynomial::new. *)
Definition p_new : poly := [].
Definition is_zero (p : poly) : bool := Nat.eqb (length p) 0.

(** src/polynomial.rs:15  derive(PartialEq): BTreeMap == compares the entries in order. *)
Fixpoint poly_eqb (a b : poly) : bool :=
  match a, b with
  | [], [] => true
  | (k, c) :: r, (k', c') :: r' => mono_eqb k k' && (c =? c') && poly_eqb r r'
  | _, _ => false
  end.

(** src/term.rs:190-198  Term::to_pol. *)
Definition to_pol (t : term) : poly :=
  if negb (tc t =? 0) then bm_insert (tm t) (tc t) p_new else p_new.

(** src/polynomial.rs:269-273  One. *)
Definition p_one : poly := to_pol term_one.

(** Body of the loops of [+] (src/polynomial.rs:23-32) and [+=] (48-57): identical. *)
Definition add_entry (pol : poly) (e : mono * Z) : poly :=
  let (bk, bv) := e in
  match bm_get bk pol with
  | Some av =>
      let av := av + bv in
      if av =? 0 then bm_remove bk pol else bm_insert bk av pol
  | None => bm_insert bk bv pol
  end.

(** src/polynomial.rs:20-34  Polynomial + Polynomial. *)
Definition p_add (a b : poly) : poly := fold_left add_entry b a.
(** src/polynomial.rs:46-58  Polynomial += Polynomial. *)
Definition p_add_assign (a b : poly) : poly := fold_left add_entry b a.
(** src/polynomial.rs:60-70  Polynomial += Term: note that a zero coefficient is inserted
    when the monomial is absent. *)
Definition p_add_assign_t (a : poly) (t : term) : poly :=
  match bm_get (tm t) a with
  | Some av =>
      let av := av + tc t in
      if av =? 0 then bm_remove (tm t) a else bm_insert (tm t) av a
  | None => bm_insert (tm t) (tc t) a
  end.
(** src/polynomial.rs:36-39  Polynomial + Term. *)
Definition p_add_t (a : poly) (t : term) : poly := p_add a (to_pol t).
(** src/polynomial.rs:41-44  Term + Polynomial. *)
Definition t_add_p (t : term) (b : poly) : poly := p_add (to_pol t) b.

(** src/term.rs:37-45  Term + Term. *)
Definition term_add (a b : term) : poly :=
  let pol := to_pol a in
  match bm_get (tm b) pol with
  | Some av => bm_insert (tm b) (av + tc b) pol
  | None => bm_insert (tm b) (tc b) pol
  end.
(** src/term.rs:62-64  Term - Term. *)
Definition term_sub (a b : term) : poly := term_add a (term_neg b).

(** src/polynomial.rs:101-108  negation. *)
Definition p_neg (a : poly) : poly :=
  fold_left (fun pol (e : mono * Z) => let (m, coef) := e in bm_insert m (- coef) pol) a p_new.
(** src/polynomial.rs:72-75  Polynomial - Polynomial. *)
Definition p_sub (a b : poly) : poly := p_add a (p_neg b).
(** src/polynomial.rs:77-80  Polynomial - Term. *)
Definition p_sub_t (a : poly) (t : term) : poly := p_add a (p_neg (to_pol t)).
(** src/polynomial.rs:82-85  Term - Polynomial. *)
Definition t_sub_p (t : term) (b : poly) : poly := p_add (to_pol t) (p_neg b).
(** src/polynomial.rs:87-99  Polynomial -= Polynomial. *)
Definition sub_entry (a : poly) (e : mono * Z) : poly :=
  let (bk, bv) := e in
  match bm_get bk a with
  | Some av =>
      let av := av - bv in
      if av =? 0 then bm_remove bk a else bm_insert bk av a
  | None => bm_insert bk (- bv) a
  end.
Definition p_sub_assign (a b : poly) : poly := fold_left sub_entry b a.

(** src/polynomial.rs:115-123: inner loop body of [*]. No zero test after [+=]. *)
Definition mul_entry (i : term) (pol : poly) (e : mono * Z) : res poly :=
  let (jk, jv) := e in
  l <- term_mul i (mkTerm jv jk) ;;
  Ok (match bm_get (tm l) pol with
      | Some lv => bm_insert (tm l) (lv + tc l) pol
      | None => bm_insert (tm l) (tc l) pol
      end).
(** src/polynomial.rs:110-126  Polynomial * Polynomial. *)
Definition p_mul (a b : poly) : res poly :=
  foldM (fun pol (e : mono * Z) => let (ik, iv) := e in foldM (mul_entry (mkTerm iv ik)) b pol)
        a p_new.
(** src/polynomial.rs:128-131  Polynomial * Term. *)
Definition p_mul_t (a : poly) (t : term) : res poly := p_mul a (to_pol t).
(** src/polynomial.rs:133-136  Term * Polynomial. *)
Definition t_mul_p (t : term) (b : poly) : res poly := p_mul (to_pol t) b.
(** src/polynomial.rs:138-143  Polynomial *= Polynomial. *)
Definition p_mul_assign (a b : poly) : res poly := p_mul a b.

(** src/polynomial.rs:145-163  Polynomial / Polynomial: only by a single term. *)
Definition p_div (a b : poly) : res poly :=
  if is_zero b then Panic
  else
    match b with
    | [(m, coef)] =>
        foldM (fun pol (e : mono * Z) =>
                 let (ak, av) := e in
                 u <- term_div (mkTerm av ak) (mkTerm coef m) ;;
                 Ok (bm_insert (tm u) (tc u) pol))
              a p_new
    | _ => Panic
    end.
(** src/polynomial.rs:165-168  Polynomial / Term;  182-187  Polynomial /= Term. *)
Definition p_div_t (a : poly) (t : term) : res poly := p_div a (to_pol t).
Definition p_div_assign_t (a : poly) (t : term) : res poly := p_div a (to_pol t).
(** src/polynomial.rs:170-173  Term / Polynomial. *)
Definition t_div_p (t : term) (b : poly) : res poly := p_div (to_pol t) b.
(** src/polynomial.rs:175-180  Polynomial /= Polynomial. *)
Definition p_div_assign (a b : poly) : res poly := p_div a b.

(** src/polynomial.rs:226-234 and 247-255: loop of power (both overloads identical). *)
Fixpoint p_power_loop (fuel : nat) (e : Z) (b r : poly) : res poly :=
  if 1 <? e then
    match fuel with
    | O => NoFuel
    | S f =>
        r <- (if Z.odd e then p_mul_assign r b else Ok r) ;;
        b <- p_mul b b ;;
        p_power_loop f (Z.quot e 2) b r
    end
  else p_mul r b.
(** src/polynomial.rs:211-236  Power<BigInt>, Power<&BigInt>. *)
Definition p_power (a : poly) (n : Z) : res poly :=
  _ <- assertb (0 <=? n) ;;
  if n =? 0 then Ok p_one else p_power_loop (halvings n) n a p_one.
(** src/polynomial.rs:238-257  Power<i32>. *)
Definition p_power_i32 (a : poly) (n : Z) : res poly :=
  _ <- assertb (0 <=? n) ;;
  if n =? 0 then Ok p_one else p_power_loop (halvings n) n a p_one.
(** src/polynomial.rs:314-320  square, cube. *)
Definition p_square (a : poly) : res poly := p_power_i32 a 2.
Definition p_cube (a : poly) : res poly := p_power_i32 a 3.

(** src/polynomial.rs:288-296: loop body of Rem. *)
Definition rem_entry (p : Z) (pol : poly) (e : mono * Z) : res poly :=
  let (m, coef) := e in
  c <- mod_floor coef p ;;
  _ <- (if negb (p =? 0) then assertb (c <? p) else Ok tt) ;;
  Ok (if negb (c =? 0) then bm_insert m c pol else pol).
(** src/polynomial.rs:298-302 / 399-404: the final check loop. *)
Definition check_lt (p : Z) (pol : poly) : res unit :=
  foldM (fun _ (e : mono * Z) =>
           if negb (p =? 0) then assertb (snd e <? p) else Ok tt) pol tt.
(** src/polynomial.rs:283-305  &Polynomial % &BigInt. *)
Definition p_rem (a : poly) (p : Z) : res poly :=
  pol <- foldM (rem_entry p) a p_new ;;
  _ <- check_lt p pol ;;
  Ok pol.
(** src/polynomial.rs:275-281  &Polynomial % i32. *)
Definition p_rem_i32 (a : poly) (p : Z) : res poly := p_rem a p.

(** src/polynomial.rs:381-390: first loop of modular_assign: every coefficient replaced in
    place, keys of zero coefficients collected in [del]. *)
Definition modular_entry (p : Z) (s : poly * list mono) (e : mono * Z) : res (poly * list mono) :=
  let (m, coef) := e in
  c <- mod_floor coef p ;;
  _ <- (if negb (p =? 0) then assertb (c <? p) else Ok tt) ;;
  Ok (bm_insert m c (fst s), if c =? 0 then m :: snd s else snd s).
(** src/polynomial.rs:392-397: removal loop. *)
Definition remove_all (del : list mono) (pol : poly) : poly :=
  fold_left (fun pol m => match bm_get m pol with Some _ => bm_remove m pol | None => pol end)
            del pol.
(** src/polynomial.rs:379-405  modular_assign. *)
Definition modular_assign (a : poly) (p : Z) : res poly :=
  '(pol, del) <- foldM (modular_entry p) a (a, []) ;;
  let pol := remove_all del pol in
  _ <- check_lt p pol ;;
  Ok pol.

(** src/polynomial.rs:327-335: loop of power_modulo. *)
Fixpoint p_power_modulo_loop (fuel : nat) (p e : Z) (b r : poly) : res poly :=
  if 1 <? e then
    match fuel with
    | O => NoFuel
    | S f =>
        r <- (if Z.odd e then r <- p_mul_assign r b ;; modular_assign r p else Ok r) ;;
        b <- p_mul_assign b b ;;
        b <- modular_assign b p ;;
        p_power_modulo_loop f p (Z.quot e 2) b r
    end
  else r <- p_mul_assign r b ;; modular_assign r p.
(** src/polynomial.rs:322-339  power_modulo (no special case for n = 0). *)
Definition p_power_modulo (a : poly) (n p : Z) : res poly :=
  _ <- assertb (0 <=? n) ;;
  b <- p_rem a p ;;
  p_power_modulo_loop (halvings n) p n b p_one.

(** src/polynomial.rs:468-496  has_x, has_y, has_q. *)
Definition has_x (a : poly) : bool := existsb (fun e => term_has_x (mkTerm (snd e) (fst e))) a.
Definition has_y (a : poly) : bool := existsb (fun e => term_has_y (mkTerm (snd e) (fst e))) a.
Definition has_q (a : poly) : bool := existsb (fun e => term_has_q (mkTerm (snd e) (fst e))) a.

(** src/polynomial.rs:407-415  highest_term_x: the last entry of the map (first of .rev()). *)
Definition highest_term_x (a : poly) : term :=
  if is_zero a then term_new
  else match rev a with
       | (m, c) :: _ => mkTerm c m
       | [] => term_new (* unreachable *)
       end.

(** src/polynomial.rs:663-674  omit_high_order_q. *)
Definition omit_high_order_q (a : poly) (order : Z) : res poly :=
  _ <- assertb (negb (has_x a)) ;;
  _ <- assertb (negb (has_y a)) ;;
  o1 <- i32 (order + 1) ;;
  Ok (bm_split_off (mkMono 0 0 o1 None) a).

(** src/polynomial.rs:341-350  power_omit_high_order_q. *)
Definition power_omit_high_order_q (a : poly) (n order : Z) : res poly :=
  _ <- assertb (negb (has_x a)) ;;
  _ <- assertb (negb (has_y a)) ;;
  foldM (fun pol _ => pol <- p_mul_assign pol a ;; omit_high_order_q pol order)
        (zrange 0 n) p_one.

(** src/polynomial.rs:357-374: loop of polynomial_modular.  Runs until the x-exponent of
    the highest term of r drops below that of the divisor; [fuel] bounds the iterations. *)
Fixpoint polynomial_modular_loop (fuel : nat) (other : poly) (oh : term) (p : Z) (r : poly) : res poly :=
  let rh := highest_term_x r in
  if mx (tm rh) <? mx (tm oh) then Ok r
  else
    match fuel with
    | O => NoFuel
    | S f =>
        inv <- inverse (tc oh) p ;;
        x <- i32 (mx (tm rh) - mx (tm oh)) ;;
        let q := tb_build (tb_qpow (mq (tm rh)) (tb_ypow (my (tm rh))
                   (tb_xpow x (tb_coef (tc rh * inv) tb_new)))) in
        q <- term_modular_assign q p ;;
        d <- t_mul_p q other ;;
        d <- modular_assign d p ;;
        let r := p_sub_assign r d in
        r <- modular_assign r p ;;
        polynomial_modular_loop f other oh p r
    end.
(** src/polynomial.rs:352-377  polynomial_modular. *)
Definition polynomial_modular (fuel : nat) (a other : poly) (p : Z) : res poly :=
  _ <- assertb (negb (has_y other)) ;;
  _ <- assertb (negb (has_q other)) ;;
  let oh := highest_term_x other in
  r <- polynomial_modular_loop fuel other oh p a ;;
  modular_assign r p.

(** src/polynomial.rs:457-466  to_monic. *)
Definition to_monic (a : poly) (p : Z) : res poly :=
  if is_zero a then Ok a
  else
    let s := highest_term_x a in
    inv <- inverse (tc s) p ;;
    pol <- p_mul_t a (tb_build (tb_coef inv tb_new)) ;;
    modular_assign pol p.

(** src/polynomial.rs:444-455  gcd; [fuel] bounds the recursion depth and each remainder loop. *)
Fixpoint p_gcd (fuel : nat) (a b : poly) (p : Z) : res poly :=
  match fuel with
  | O => NoFuel
  | S f =>
      let s := highest_term_x a in
      let o := highest_term_x b in
      if mx (tm s) <? mx (tm o) then p_gcd f b a p
      else
        r <- polynomial_modular f a b p ;;
        if is_zero r then to_monic b p else p_gcd f b r p
  end.
(** src/polynomial.rs:439-442  is_gcd_one. *)
Definition is_gcd_one (fuel : nat) (a b : poly) (p : Z) : res bool :=
  m <- p_gcd fuel a b p ;; Ok (negb (is_zero m)).

(** src/polynomial.rs:417-426  derivative_x;  428-437  derivative_y. *)
Definition derivative_x (a : poly) : res poly :=
  foldM (fun pol (e : mono * Z) =>
           t <- term_derivative_x (mkTerm (snd e) (fst e)) ;;
           Ok (if negb (tc t =? 0) then bm_insert (tm t) (tc t) pol else pol)) a p_new.
Definition derivative_y (a : poly) : res poly :=
  foldM (fun pol (e : mono * Z) =>
           t <- term_derivative_y (mkTerm (snd e) (fst e)) ;;
           Ok (if negb (tc t =? 0) then bm_insert (tm t) (tc t) pol else pol)) a p_new.

(** src/polynomial.rs:498-508  to_frob. *)
Definition to_frob (a : poly) (n : Z) : res poly :=
  foldM (fun pol (e : mono * Z) =>
           u <- term_to_frob (mkTerm (snd e) (fst e)) n ;;
           Ok (bm_insert (tm u) (tc u) pol)) a p_new.
(** src/polynomial.rs:510-519  to_y_power. *)
Definition to_y_power (a : poly) (n : Z) : res poly :=
  foldM (fun pol (e : mono * Z) =>
           u <- term_to_y_power (mkTerm (snd e) (fst e)) n ;;
           Ok (bm_insert (tm u) (tc u) pol)) a p_new.
(** src/polynomial.rs:521-530  to_q_power. *)
Definition to_q_power (a : poly) (n : Z) : res poly :=
  foldM (fun pol (e : mono * Z) =>
           u <- term_to_q_power (mkTerm (snd e) (fst e)) n ;;
           Ok (bm_insert (tm u) (tc u) pol)) a p_new.

(** src/polynomial.rs:543-545 / 569-571 (and src/elliptic_curve.rs:39-41, 54-56,
    src/schoof.rs:26-28): x^3 + a x + b built as (Term + Term) + Term. *)
Definition weierstrass (a b : Z) : poly :=
  p_add_t (term_add (tb_build (tb_xpow 3 tb_new))
                    (tb_build (tb_xpow 1 (tb_coef a tb_new))))
          (tb_build (tb_coef b tb_new)).

(** src/polynomial.rs:535-553: loop body of reduction. *)
Definition reduction_entry (a b : Z) (t : poly) (e : mono * Z) : res poly :=
  let u := mkTerm (snd e) (fst e) in
  if 2 <=? my (tm u) then
    let y := my (tm u) / 2 in
    y2 <- i32 (y * 2) ;;
    e <- p_div_assign_t (to_pol u) (tb_build (tb_ypow y2 tb_new)) ;;
    ee <- p_power (weierstrass a b) y ;;
    e <- p_mul_assign e ee ;;
    Ok (p_add_assign t e)
  else Ok (p_add_assign_t t u).
(** src/polynomial.rs:532-555  reduction. *)
Definition reduction (pol : poly) (a b : Z) : res poly :=
  foldM (reduction_entry a b) pol p_new.

(** src/polynomial.rs:557-582  reduction_modular.  It calls itself (line 573) on
    ee = (x^3+ax+b)^y mod p, which contains no y, so the recursion has depth 2;
    [depth] makes it structural. *)
Fixpoint reduction_modular_depth (depth : nat) (pol : poly) (a b p : Z) : res poly :=
  match depth with
  | O => NoFuel
  | S d =>
      t <- foldM (fun t (e : mono * Z) =>
             let u := mkTerm (snd e) (fst e) in
             if 2 <=? my (tm u) then
               let y := my (tm u) / 2 in
               y2 <- i32 (y * 2) ;;
               e <- p_div_assign_t (to_pol u) (tb_build (tb_ypow y2 tb_new)) ;;
               ee <- p_power_modulo (weierstrass a b) y p ;;
               ee <- reduction_modular_depth d ee a b p ;;
               e <- p_mul_assign e ee ;;
               Ok (p_add_assign t e)
             else Ok (p_add_assign_t t u)) pol p_new ;;
      modular_assign t p
  end.
Definition reduction_modular (pol : poly) (a b p : Z) : res poly :=
  reduction_modular_depth 2 pol a b p.

(** src/polynomial.rs:584-591  eval_xy. *)
Definition eval_xy (a : poly) (x y : Z) : res Z :=
  foldM (fun sum (e : mono * Z) => v <- mono_eval_xy (fst e) x y ;; Ok (sum + v * snd e)) a 0.

(** src/polynomial.rs:593-609  eval_x. *)
Definition eval_x (a : poly) (x : Z) : res poly :=
  foldM (fun pol (e : mono * Z) =>
           let m := fst e in
           v <- power_i32 x (mx m) ;;
           Ok (p_add_assign_t pol (mkTerm (snd e * v) (mkMono 0 (my m) (mq m) (mv m))))) a p_new.
(** src/polynomial.rs:611-627  eval_y. *)
Definition eval_y (a : poly) (y : Z) : res poly :=
  foldM (fun pol (e : mono * Z) =>
           let m := fst e in
           v <- power_i32 y (my m) ;;
           Ok (p_add_assign_t pol (mkTerm (snd e * v) (mkMono (mx m) 0 (mq m) (mv m))))) a p_new.

(** src/polynomial.rs:629-649  to_scalar. *)
Definition to_scalar (a : poly) : res Z :=
  match a with
  | [] => Ok 0
  | [(m, coef)] =>
      if negb (mx m =? 0) then Panic
      else if negb (my m =? 0) then Panic
      else if negb (mq m =? 0) then Panic
      else Ok coef
  | _ => Panic
  end.

(** src/polynomial.rs:651-661  degree_x. *)
Definition degree_x (a : poly) : res Z :=
  _ <- assertb (negb (has_y a)) ;;
  _ <- assertb (negb (has_q a)) ;;
  if is_zero a then Ok 0 else Ok (mx (tm (highest_term_x a))).

(** src/term.rs:125-133  Monomial::eval_x_polynomial;  135-143  Monomial::eval_y_polynomial. *)
Definition mono_eval_x_polynomial (m : mono) (s : poly) : res poly :=
  let t := to_pol (tb_build (tb_variable (mv m) (tb_qpow (mq m) (tb_ypow (my m) tb_new)))) in
  w <- p_power_i32 s (mx m) ;;
  p_mul w t.
Definition mono_eval_y_polynomial (m : mono) (s : poly) : res poly :=
  let t := to_pol (tb_build (tb_variable (mv m) (tb_qpow (mq m) (tb_xpow (mx m) tb_new)))) in
  w <- p_power_i32 s (my m) ;;
  p_mul w t.
(** src/term.rs:288-295  Term::eval_x_polynomial;  297-304  Term::eval_y_polynomial. *)
Definition term_eval_x_polynomial (u : term) (pol : poly) : res poly :=
  let s := to_pol (tb_build (tb_coef (tc u) tb_new)) in
  t <- mono_eval_x_polynomial (tm u) pol ;;
  p_mul s t.
Definition term_eval_y_polynomial (u : term) (pol : poly) : res poly :=
  let s := to_pol (tb_build (tb_coef (tc u) tb_new)) in
  t <- mono_eval_y_polynomial (tm u) pol ;;
  p_mul s t.
(** src/polynomial.rs:676-686  eval_x_polynomial;  688-698  eval_y_polynomial. *)
Definition eval_x_polynomial (a s : poly) : res poly :=
  foldM (fun pol (e : mono * Z) =>
           let t := to_pol (tb_build (tb_coef (snd e) tb_new)) in
           w <- mono_eval_x_polynomial (fst e) s ;;
           w <- p_mul w t ;;
           Ok (p_add_assign pol w)) a p_new.
Definition eval_y_polynomial (a s : poly) : res poly :=
  foldM (fun pol (e : mono * Z) =>
           let t := to_pol (tb_build (tb_coef (snd e) tb_new)) in
           w <- mono_eval_y_polynomial (fst e) s ;;
           w <- p_mul w t ;;
           Ok (p_add_assign pol w)) a p_new.

(** src/polynomial.rs:700-717  to_q_power_coef. *)
Definition to_q_power_coef (a : poly) (power : Z) : res poly :=
  _ <- assertb (negb (has_x a)) ;;
  _ <- assertb (negb (has_y a)) ;;
  Ok (fold_left (fun pol (e : mono * Z) =>
        if mq (fst e) =? power then bm_insert (mkMono 0 0 0 (mv (fst e))) (snd e) pol else pol)
        a p_new).

(** src/polynomial.rs:719-730  to_variable_coef. *)
Fixpoint find_variable (v : option (Z * Z)) (a : poly) : Z :=
  match a with
  | [] => 0
  | (m, coef) :: r => if var_eqb (mv m) v then coef else find_variable v r
  end.
Definition to_variable_coef (a : poly) (v : option (Z * Z)) : res Z :=
  _ <- assertb (negb (has_x a)) ;;
  _ <- assertb (negb (has_y a)) ;;
  _ <- assertb (negb (has_q a)) ;;
  Ok (find_variable v a).
