(** Model of /repo/src/division_polynomial.rs. *)
From Verif Require Import Prelude M_Bigint M_Variable M_Term M_Poly.

(** src/division_polynomial.rs:22-25: psi_3 = 3x^4 + 6a x^2 + 12b x - a^2. *)
Definition psi3 (a b : Z) : res poly :=
  a2 <- power_i32 a 2 ;;
  Ok (p_add_t (p_add_t (term_add
        (tb_build (tb_xpow 4 (tb_coef 3 tb_new)))
        (tb_build (tb_xpow 2 (tb_coef (6 * a) tb_new))))
        (tb_build (tb_xpow 1 (tb_coef (12 * b) tb_new))))
        (tb_build (tb_coef (- a2) tb_new))).

(** src/division_polynomial.rs:27-34: psi_4 = 4y (x^6 + 5a x^4 + 20b x^3 - 5a^2 x^2 - 4ab x - 8b^2 - a^3). *)
Definition psi4 (a b : Z) : res poly :=
  a2 <- power_i32 a 2 ;;
  b2 <- power_i32 b 2 ;;
  a3 <- power_i32 a 3 ;;
  t_mul_p (tb_build (tb_ypow 1 (tb_coef 4 tb_new)))
    (p_add_t (p_add_t (p_add_t (p_add_t (term_add
        (tb_build (tb_xpow 6 tb_new))
        (tb_build (tb_xpow 4 (tb_coef (5 * a) tb_new))))
        (tb_build (tb_xpow 3 (tb_coef (20 * b) tb_new))))
        (tb_build (tb_xpow 2 (tb_coef (-5 * a2) tb_new))))
        (tb_build (tb_xpow 1 (tb_coef (-4 * a * b) tb_new))))
        (tb_build (tb_coef (-8 * b2 - a3) tb_new))).

(** src/division_polynomial.rs:13-55  psi; the recursive calls have smaller n for n >= 5,
    [fuel] makes the recursion structural. *)
Fixpoint psi_fuel (fuel : nat) (a b n : Z) : res poly :=
  match fuel with
  | O => NoFuel
  | S f =>
      _ <- assertb (0 <=? n) ;;
      if n =? 0 then Ok p_new
      else if n =? 1 then Ok (to_pol (tb_build tb_new))
      else if n =? 2 then Ok (to_pol (tb_build (tb_ypow 1 (tb_coef 2 tb_new))))
      else if n =? 3 then psi3 a b
      else if n =? 4 then psi4 a b
      else if n mod 2 =? 1 then
        let m := (n - 1) / 2 in
        _ <- assertb (m <? n) ;;
        e <- psi_fuel f a b (m + 2) ;;
        f0 <- psi_fuel f a b m ;;
        f1 <- p_power_i32 f0 3 ;;
        g <- psi_fuel f a b (m - 1) ;;
        h0 <- psi_fuel f a b (m + 1) ;;
        h <- p_power_i32 h0 3 ;;
        ef <- p_mul e f1 ;;
        gh <- p_mul g h ;;
        reduction (p_sub ef gh) a b
      else
        let m := n / 2 in
        _ <- assertb (m <? n) ;;
        e <- psi_fuel f a b (m + 2) ;;
        f0 <- psi_fuel f a b (m - 1) ;;
        f1 <- p_power_i32 f0 2 ;;
        g <- psi_fuel f a b (m - 2) ;;
        h0 <- psi_fuel f a b (m + 1) ;;
        h <- p_power_i32 h0 2 ;;
        i0 <- psi_fuel f a b m ;;
        ef <- p_mul e f1 ;;
        gh <- p_mul g h ;;
        i <- p_mul i0 (p_sub ef gh) ;;
        j <- p_div_t i (tb_build (tb_ypow 1 (tb_coef 2 tb_new))) ;;
        reduction j a b
  end.
Definition psi (a b n : Z) : res poly := psi_fuel (S (Z.to_nat n)) a b n.

(** src/division_polynomial.rs:57-62  phi. *)
Definition phi (a b n : Z) : res poly :=
  _ <- assertb (1 <=? n) ;;
  pn <- psi a b n ;;
  pn2 <- p_power_i32 pn 2 ;;
  t <- t_mul_p (tb_build (tb_xpow 1 tb_new)) pn2 ;;
  n1 <- i32 (n + 1) ;;
  u <- psi a b n1 ;;
  v <- psi a b (n - 1) ;;
  uv <- p_mul u v ;;
  reduction (p_sub t uv) a b.

(** src/division_polynomial.rs:64-74  omega. *)
Definition omega (a b n : Z) : res poly :=
  _ <- assertb (1 <=? n) ;;
  if n =? 1 then Ok (to_pol (tb_build (tb_ypow 1 tb_new)))
  else
    n2 <- i32 (n + 2) ;;
    u <- psi a b n2 ;;
    v <- psi a b (n - 1) ;;
    v2 <- p_power_i32 v 2 ;;
    uv <- p_mul u v2 ;;
    s <- psi a b (n - 2) ;;
    t <- psi a b (n + 1) ;;
    t2 <- p_power_i32 t 2 ;;
    st <- p_mul s t2 ;;
    i <- p_div_t (p_sub uv st) (tb_build (tb_ypow 1 (tb_coef 4 tb_new))) ;;
    reduction i a b.
