(** Model of /repo/src/divisor.rs, eisenstein.rs, delta.rs, j_invariant.rs. *)
From Verif Require Import Prelude M_Bigint M_Variable M_Term M_Poly.

(** src/divisor.rs:7-21  sigma_divisor ([n + 1] is an i32 addition; [n % i] has i >= 1). *)
Definition sigma_divisor (n power : Z) : res Z :=
  if power <? 0 then Ok 0
  else if n <? 0 then Ok 0
  else
    n1 <- i32 (n + 1) ;;
    foldM (fun sum i =>
             if Z.rem n i =? 0 then (v <- power_i32 i power ;; Ok (sum + v)) else Ok sum)
          (zrange 1 n1) 0.

(** src/eisenstein.rs:11-23  eisenstein4. *)
Definition eisenstein4 (max_q_order : Z) : res poly :=
  m1 <- i32 (max_q_order + 1) ;;
  foldM (fun pol n =>
           sigma <- sigma_divisor n 3 ;;
           let t := to_pol (tb_build (tb_qpow n (tb_coef (240 * sigma) tb_new))) in
           Ok (p_add_assign pol t))
        (zrange 1 m1) p_one.

(** src/delta.rs:7-17  delta1. *)
Definition delta1 (order : Z) : res poly :=
  o1 <- i32 (order + 1) ;;
  foldM (fun pol n =>
           let t := to_pol (tb_build (tb_qpow n tb_new)) in
           u <- power_omit_high_order_q (p_sub p_one t) 24 order ;;
           pol <- p_mul_assign pol u ;;
           omit_high_order_q pol order)
        (zrange 1 o1) p_one.

(** src/delta.rs:20-28  delta1_inverse. *)
Definition delta1_inverse (order : Z) : res poly :=
  d <- delta1 order ;;
  let a := p_sub p_one d in
  o1 <- i32 (order + 1) ;;
  foldM (fun pol n =>
           t <- power_omit_high_order_q a n order ;;
           Ok (p_add_assign pol t))
        (zrange 1 o1) p_one.

(** src/j_invariant.rs:9-16  j_invariant1. *)
Definition j_invariant1 (order : Z) : res poly :=
  di <- delta1_inverse order ;;
  e4 <- eisenstein4 order ;;
  e4 <- p_power_i32 e4 3 ;;
  e4 <- omit_high_order_q e4 order ;;
  j <- p_mul di e4 ;;
  omit_high_order_q j order.

(** src/j_invariant.rs:19-26  j_invariant. *)
Definition j_invariant (order : Z) : res poly :=
  o1 <- i32 (order + 1) ;;
  j1 <- j_invariant1 o1 ;;
  let t := to_pol (tb_build (tb_qpow (-1) tb_new)) in
  p_mul j1 t.
