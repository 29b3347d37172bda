(** Model of /repo/src/modular_polynomial.rs and /repo/src/schoof_elkies_atkins.rs. *)
From Verif Require Import Prelude M_Bigint M_Variable M_Term M_Poly M_QSeries M_Solve M_Curve.

(** src/modular_polynomial.rs:24-28: one term x^i y^j c_k_l as a polynomial. *)
Definition template_term (i j k l : Z) : res poly :=
  b <- tb_variable_ij k l (tb_ypow j (tb_xpow i tb_new)) ;;
  Ok (to_pol (tb_build b)).

(** src/modular_polynomial.rs:13-45  subscripted_variable_modular_polynomial. *)
Definition modular_template (p : Z) : res poly :=
  _ <- assertb (2 <=? p) ;;
  _ <- assertb (is_prime p) ;;
  p1 <- i32 (p + 1) ;;
  let pol := to_pol (tb_build (tb_xpow p1 tb_new)) in
  let pol := p_add_assign pol (to_pol (tb_build (tb_ypow p1 tb_new))) in
  pol <- foldM (fun pol i => t <- template_term i i i i ;; Ok (p_add_assign pol t))
               (zrange 0 p1) pol ;;
  foldM (fun pol i =>
           foldM (fun pol j =>
                    t <- template_term i j i j ;;
                    let pol := p_add_assign pol t in
                    t <- template_term j i i j ;;
                    Ok (p_add_assign pol t))
                 (zrange (i + 1) p1) pol)
        (zrange 0 p1) pol.

(** src/modular_polynomial.rs:57-67  subscripted_variable_modular_polynomial_q. *)
Definition modular_template_q (p : Z) : res poly :=
  pol <- modular_template p ;;
  pp <- i32 (p * p) ;;
  j_order <- i32 (pp + p) ;;
  j <- j_invariant j_order ;;
  j_q_power <- to_q_power j p ;;
  pol1 <- eval_x_polynomial pol j ;;
  pol2 <- eval_y_polynomial pol1 j_q_power ;;
  omit_high_order_q pol2 0.

(** src/modular_polynomial.rs:47-55  subscripted_variable_modular_polynomial_list. *)
Definition modular_template_list (p : Z) : res (list poly) :=
  pol_q <- modular_template_q p ;;
  pp <- i32_pow p 2 ;;
  np <- i32 (- pp) ;;
  min <- i32 (np - p) ;;
  mapM (fun i => to_q_power_coef pol_q i) (zrange min 1).

(** src/modular_polynomial.rs:75-88: the coefficient matrix.  Loop bounds guarantee
    col <= col_count - 1, so the third branch of the code (assert!(false)) is dead. *)
Definition modular_matrix (p : Z) (list_ : list poly) (col_count : Z) : res matrix :=
  mapM (fun pl =>
          mapM (fun col =>
                  if col <? col_count - 1 then
                    v <- variable_from_index p col ;;
                    to_variable_coef pl (canon v)
                  else to_variable_coef pl (canon sv_new))
               (zrange 0 col_count)) list_.

(** src/modular_polynomial.rs:92-111: assembling the result from the solved matrix. *)
Definition assemble_step (p col_count : Z) (b : matrix) (pol : poly) (i : Z) : res poly :=
  v <- variable_from_index p i ;;
  val <- mget b (Z.to_nat i) (Z.to_nat (col_count - 1)) ;;
  let pol := p_add_assign_t pol
               (tb_build (tb_ypow (sv_j v) (tb_xpow (sv_i v) (tb_coef (- val) tb_new)))) in
  Ok (if negb (sv_i v =? sv_j v) then
        p_add_assign_t pol
          (tb_build (tb_ypow (sv_i v) (tb_xpow (sv_j v) (tb_coef (- val) tb_new))))
      else pol).
Definition assemble (p col_count : Z) (b : matrix) : res poly :=
  pol <- foldM (assemble_step p col_count b) (zrange 0 (col_count - 1)) p_new ;;
  p1 <- i32 (p + 1) ;;
  let pol := p_add_assign_t pol (tb_build (tb_xpow p1 tb_new)) in
  Ok (p_add_assign_t pol (tb_build (tb_ypow p1 tb_new))).

(** src/modular_polynomial.rs:69-112  modular_polynomial. *)
Definition modular_polynomial (p : Z) : res poly :=
  list_ <- modular_template_list p ;;
  p <- converter_new p ;;
  cnt <- conv_count p ;;
  let col_count := cnt + 1 in
  a <- modular_matrix p list_ col_count ;;
  b <- solve a ;;
  assemble p col_count b.

(** src/schoof_elkies_atkins.rs:13-18  struct SEAResult. *)
Record sea_result := mkSea {
  sea_gcd : poly;
  sea_degree : Z;
  sea_is_elkies : bool;
  sea_js : list Z }.

(** src/schoof_elkies_atkins.rs:37-48: root search with its break. *)
Fixpoint sea_roots (p degree : Z) (g : poly) (js : list Z) (acc : list Z) : res (list Z) :=
  match js with
  | [] => Ok acc
  | j :: r =>
      tmp <- eval_x g j ;;
      tmp <- modular_assign tmp p ;;
      if is_zero tmp then
        let acc := acc ++ [j] in
        if (degree =? Z.of_nat (length acc)) || Nat.eqb (length acc) 2 then Ok acc
        else sea_roots p degree g r acc
      else sea_roots p degree g r acc
  end.

(** src/schoof_elkies_atkins.rs:27-55: everything after the modular polynomial is computed;
    [mpol] is modular_polynomial(l). *)
Definition sea_with (fuel : nat) (E : curve) (mpol : poly) : res sea_result :=
  mpol <- modular_assign mpol (cp E) ;;
  j <- ec_j_invariant E ;;
  mpol <- eval_y mpol j ;;
  mpol <- modular_assign mpol (cp E) ;;
  pp <- to_i32 (cp E) ;;
  let pol := term_sub (tb_build (tb_xpow pp tb_new)) (tb_build (tb_xpow 1 tb_new)) in
  g <- p_gcd fuel pol mpol (cp E) ;;
  degree <- degree_x g ;;
  let is_elkies_prime := 0 <? degree in
  js <- (if is_elkies_prime then sea_roots (cp E) degree g (zrange 0 (cp E)) [] else Ok []) ;;
  Ok (mkSea g degree is_elkies_prime js).
(** src/schoof_elkies_atkins.rs:22-56  sea. *)
Definition sea (fuel : nat) (E : curve) (l : Z) : res sea_result :=
  mpol <- modular_polynomial l ;;
  sea_with fuel E mpol.
