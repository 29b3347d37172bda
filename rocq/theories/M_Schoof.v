(** Model of /repo/src/schoof.rs (println! not modelled). *)
From Verif Require Import Prelude M_Bigint M_Variable M_Term M_Poly M_DivPoly.

(** Abbreviations used only in this file: psi(a,b,n).power(k), x^k, y^k as Terms. *)
Definition psi_pow (a b n k : Z) : res poly := w <- psi a b n ;; p_power_i32 w k.
Definition tx (k : Z) : term := tb_build (tb_xpow k tb_new).
Definition ty (k : Z) : term := tb_build (tb_ypow k tb_new).

(** src/schoof.rs:91-114: loop over j looking for a match of the x-coordinates. *)
Fixpoint schoof_find_j (fuel : nat) (a b q : Z) (num1 den1 psi_l : poly) (js : list Z) : res (option Z) :=
  match js with
  | [] => Ok None
  | j :: r =>
      num2 <- phi a b j ;;
      num2 <- to_frob num2 q ;;
      num2 <- reduction_modular num2 a b q ;;
      den2 <- psi a b j ;;
      den2 <- to_frob den2 q ;;
      den2 <- p_power_i32 den2 2 ;;
      u <- p_mul num1 den2 ;;
      v <- p_mul num2 den1 ;;
      p1 <- modular_assign (p_sub u v) q ;;
      p1 <- reduction_modular p1 a b q ;;
      p1 <- polynomial_modular fuel p1 psi_l q ;;
      p1 <- modular_assign p1 q ;;
      if is_zero p1 then Ok (Some j)
      else schoof_find_j fuel a b q num1 den1 psi_l r
  end.

(** src/schoof.rs:52-84: num1, den1. *)
Definition schoof_num1_den1 (a b q ql q2 : Z) : res (poly * poly) :=
  nn1 <- omega a b ql ;;
  nn1 <- reduction_modular nn1 a b q ;;
  ps3 <- psi_pow a b ql 3 ;;
  nn2 <- t_mul_p (ty q2) ps3 ;;
  nn2 <- reduction_modular nn2 a b q ;;
  n1 <- p_power_i32 (p_sub nn1 nn2) 2 ;;
  n1 <- modular_assign n1 q ;;
  ph <- phi a b ql ;;
  ps2 <- psi_pow a b ql 2 ;;
  xps2 <- t_mul_p (tx q2) ps2 ;;
  let n2 := p_neg (p_add ph xps2) in
  n3 <- p_power_i32 (p_sub ph xps2) 2 ;;
  n23 <- p_mul n2 n3 ;;
  num1 <- modular_assign (p_add n1 n23) q ;;
  num1 <- reduction_modular num1 a b q ;;
  den1 <- p_mul ps2 n3 ;;
  den1 <- reduction_modular den1 a b q ;;
  Ok (num1, den1).

(** src/schoof.rs:116-179: case "x found": decide the sign with the y-coordinates. *)
Definition schoof_found (fuel : nat) (a b q l ql q2 : Z) (psi_l : poly) (jj : Z) : res mod_result :=
  g <- reduction_modular (to_pol (ty q2)) a b q ;;
  omg <- omega a b ql ;;
  omg <- modular_assign omg q ;;
  ps3 <- psi_pow a b ql 3 ;;
  gps3 <- p_mul g ps3 ;;
  d <- reduction_modular (p_sub omg gps3) a b q ;;
  ph <- phi a b ql ;;
  ps2 <- psi_pow a b ql 2 ;;
  x2ps2 <- t_mul_p (tb_build (tb_xpow q2 (tb_coef 2 tb_new))) ps2 ;;
  e <- modular_assign (p_add (p_neg ph) x2ps2) q ;;
  e <- reduction_modular e a b q ;;
  xps2 <- t_mul_p (tx q2) ps2 ;;
  f <- modular_assign (p_sub ph xps2) q ;;
  f <- reduction_modular f a b q ;;
  f2 <- p_power_i32 f 2 ;;
  ef2 <- p_mul e f2 ;;
  d2 <- p_power_i32 d 2 ;;
  dd <- p_mul d (p_sub ef2 d2) ;;
  f3 <- p_power_i32 f 3 ;;
  gps3f3 <- p_mul gps3 f3 ;;
  num3 <- reduction_modular (p_sub dd gps3f3) a b q ;;
  ps1 <- psi a b ql ;;
  num3 <- p_mul_assign num3 ps1 ;;
  num3 <- reduction_modular num3 a b q ;;
  den3 <- p_mul ps3 f3 ;;
  den3 <- p_mul den3 ps1 ;;
  den3 <- reduction_modular den3 a b q ;;
  num4 <- omega a b jj ;;
  num4 <- to_frob num4 q ;;
  num4 <- reduction_modular num4 a b q ;;
  den4 <- psi a b jj ;;
  den4 <- to_frob den4 q ;;
  den4 <- p_power_i32 den4 3 ;;
  den4 <- reduction_modular den4 a b q ;;
  u <- p_mul num3 den4 ;;
  v <- p_mul num4 den3 ;;
  p7 <- modular_assign (p_sub u v) q ;;
  p8 <- reduction_modular p7 a b q ;;
  p9 <- (if has_y p8 then p_div_t p8 (ty 1) else Ok p8) ;;
  p9 <- modular_assign p9 q ;;
  p9 <- polynomial_modular fuel p9 psi_l q ;;
  let jj := if negb (is_zero p9) then - jj else jj in
  let jj := if jj <? 0 then jj + l else jj in
  Ok (mkMod l jj).

(** src/schoof.rs:184-192: first i in 1..l with i^2 = ql (mod l). *)
Fixpoint find_w (l ql : Z) (is_ : list Z) : option Z :=
  match is_ with
  | [] => None
  | i :: r => if (i * i) mod l =? ql then Some i else find_w l ql r
  end.

(** src/schoof.rs:181-232: case "x not found".  Line 203 passes q as the curve coefficient. *)
Definition schoof_not_found (fuel : nat) (a b q l ql : Z) : res mod_result :=
  match find_w l ql (zrange 1 l) with
  | None => Ok (mkMod l 0)
  | Some w =>
      ps2 <- psi_pow a b w 2 ;;
      xps2 <- t_mul_p (tx q) ps2 ;;
      ph <- phi a b w ;;
      p12 <- modular_assign (p_sub xps2 ph) q ;;
      p13 <- reduction_modular p12 a b q ;;
      p14 <- psi q b l ;;
      p14 <- p_rem_i32 p14 q ;;
      p15 <- polynomial_modular fuel p13 p14 q ;;
      if negb (is_zero p15) then Ok (mkMod l 0)
      else
        aa <- to_i32 a ;;
        ps3 <- psi_pow a b w 3 ;;
        yps3 <- t_mul_p (ty aa) ps3 ;;
        om <- omega a b w ;;
        p16 <- p_div_t (p_sub yps3 om) (ty 1) ;;
        p16 <- modular_assign p16 q ;;
        p17 <- reduction_modular p16 a b q ;;
        psl <- psi a b l ;;
        g1 <- is_gcd_one fuel p17 psl q ;;
        let ww := if g1 then - 2 * w else 2 * w in
        let ww := if ww <? 0 then ww + l else ww in
        Ok (mkMod l ww)
  end.

(** src/schoof.rs:42-234: one prime l >= 3. *)
Definition schoof_l (fuel : nat) (a b q l : Z) : res mod_result :=
  let ql := q mod l in
  let jmax := Z.quot (l - 1) 2 in
  q2 <- i32_pow q 2 ;;
  '(num1, den1) <- schoof_num1_den1 a b q ql q2 ;;
  ps <- psi a b l ;;
  psi_l <- p_rem_i32 ps q ;;
  fj <- schoof_find_j fuel a b q num1 den1 psi_l (zrange 1 (jmax + 1)) ;;
  match fj with
  | Some jj => schoof_found fuel a b q l ql q2 psi_l jj
  | None => schoof_not_found fuel a b q l ql
  end.

(** src/schoof.rs:42-47: the loop over [3, 5] with [if l >= q { break }]. *)
Fixpoint schoof_loop (fuel : nat) (a b q : Z) (ls : list Z) (acc : list mod_result) : res (list mod_result) :=
  match ls with
  | [] => Ok acc
  | l :: r =>
      if q <=? l then Ok acc
      else
        m <- schoof_l fuel a b q l ;;
        schoof_loop fuel a b q r (acc ++ [m])
  end.

(** src/schoof.rs:22-37: the entry for l = 2. *)
Definition schoof_l2 (fuel : nat) (a b q : Z) : res mod_result :=
  let pol_l2 := term_sub (tx q) (tx 1) in
  g1 <- is_gcd_one fuel (weierstrass a b) pol_l2 q ;;
  Ok (mkMod 2 (if g1 then 1 else 0)).

(** src/schoof.rs:19-236  schoof. *)
Definition schoof (fuel : nat) (a b q : Z) : res (list mod_result) :=
  m2 <- schoof_l2 fuel a b q ;;
  schoof_loop fuel a b q [3; 5] [m2].
