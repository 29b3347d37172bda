(** Sanity checks of the model, NOT proofs of properties: the unit tests of /repo replayed
    on the model (the Rust code itself is not run here). Each is a closed computation,
    run when this file is compiled ([Succeed]: the build fails if the two sides differ) and then
    discarded, so that nothing of it is left for coqchk to recompute without the VM. *)
From Coq Require Import String.
From Verif Require Import Prelude M_Bigint M_Variable M_Term M_Poly M_Curve M_DivPoly M_QSeries
  M_Solve M_Modular M_Schoof M_Display.
Local Open Scope string_scope.
Local Open Scope Z_scope.

Definition show (r : res poly) : string :=
  match r with Ok p => poly_to_string p | Panic => "PANIC" | NoFuel => "NOFUEL" end.
Definition T (c x y q : Z) : term := mkTerm c (mkMono x y q None).
Ltac run := vm_compute; reflexivity.

(* src/polynomial.rs:733-840 *)
Succeed Definition t_p1 : poly_to_string (term_add (T 1 4 2 0) (T 3 2 4 0)) = "x^4 y^2 + 3 x^2 y^4" := ltac:(run).
Succeed Definition t_p5 : show (let p := term_add (T 1 4 2 0) (T 3 2 4 0) in p_mul p p)
  = "x^8 y^4 + 6 x^6 y^6 + 9 x^4 y^8" := ltac:(run).
Succeed Definition t_p9 : poly_to_string (p_neg (term_add (T 1 4 2 0) (T 3 2 4 0))) = "- x^4 y^2 - 3 x^2 y^4" := ltac:(run).
Succeed Definition t_p37 : show (p_rem_i32 (term_add (T 37 2 4 0) (T 35 3 5 0)) 6) = "5 x^3 y^5 + x^2 y^4" := ltac:(run).
Succeed Definition t_p38 : show (p_rem_i32 (term_add (T 37 2 4 0) (T 35 3 5 0)) 5) = "2 x^2 y^4" := ltac:(run).
Succeed Definition t_p40 : show (p <- p_rem_i32 (term_add (T 37 2 4 0) (T 35 3 5 0)) 6 ;; p_power_i32 p 2)
  = "25 x^6 y^10 + 10 x^5 y^9 + x^4 y^8" := ltac:(run).
Succeed Definition t_p42 : show (reduction (to_pol (T 1 1 3 0)) 2 7) = "x^4 y + 2 x^2 y + 7 x y" := ltac:(run).
Succeed Definition t_pmod : show (polynomial_modular 10 (term_add (T 3 4 0 0) (T 2 1 0 0)) (term_add (T 2 2 0 0) (T 3 0 0 0)) 19)
  = "2 x + 2" := ltac:(run).
Succeed Definition t_p49 : show (p_mul (term_add (T 3 4 0 0) (T 2 1 0 0)) (term_add (T 2 2 0 0) (T 3 0 0 0)))
  = "6 x^6 + 9 x^4 + 4 x^3 + 6 x" := ltac:(run).
Succeed Definition t_p80 : poly_to_string (p_sub_assign (term_add (T 6 6 0 0) (T 12 4 0 0)) (to_pol (T 2 6 0 0)))
  = "4 x^6 + 12 x^4" := ltac:(run).
Succeed Definition t_p50 : show (p_div (term_add (T 6 6 0 0) (T 12 4 0 0)) (to_pol (T 3 2 0 0))) = "2 x^4 + 4 x^2" := ltac:(run).
Succeed Definition t_minus : poly_to_string (p_add (to_pol (T 3 (-4) 0 0)) (to_pol (T 4 (-1) 0 0))) = "4 x^-1 + 3 x^-4" := ltac:(run).
Succeed Definition t_xpol1 : show (mono_eval_x_polynomial (mkMono 2 3 4 (Some (1,2)))
   (p_add (to_pol (T 2 0 0 (-1))) (to_pol (T 3 0 0 2))))
  = "9 y^3 q^8 c_1_2 + 12 y^3 q^5 c_1_2 + 4 y^3 q^2 c_1_2" := ltac:(run).
Succeed Definition t_ypol2 : show (eval_y_polynomial
   (term_add (mkTerm 2 (mkMono 2 3 4 (Some (1,2)))) (mkTerm 3 (mkMono 1 1 4 (Some (0,0)))))
   (p_add (to_pol (T (-3) 0 0 (-1))) (to_pol (T 2 0 0 2))))
  = "16 x^2 q^10 c_1_2 - 72 x^2 q^7 c_1_2 + 108 x^2 q^4 c_1_2 - 54 x^2 q c_1_2 + 6 x q^6 c_0_0 - 9 x q^3 c_0_0" := ltac:(run).
Succeed Definition t_xpol4 : show (
   let pol := p_add_t (p_add_t (term_add (T 1 3 0 0) (T 1 0 3 0)) (T (-1) 2 2 0)) (T (-1) 1 1 0) in
   p1 <- eval_x_polynomial pol (to_pol (T 1 0 0 (-1))) ;; eval_y_polynomial p1 (to_pol (T 1 0 0 (-2)))) = "0" := ltac:(run).
Succeed Definition t_omit : show (power_omit_high_order_q (term_add (T 1 0 0 0) (T 1 0 0 1)) 24 1) = "24 q + 1" := ltac:(run).
(* src/polynomial.rs isogeny_test *)
Succeed Definition t_isog : show (
   let p := p_add_t (term_add (T 1 2 0 0) (T 301 1 0 0)) (T 527 0 0 0) in
   let q := term_add (T 1 1 0 0) (T 301 0 0 0) in
   let r := p_add_t (term_add (T 1 2 0 0) (T 602 1 0 0)) (T 1942 0 0 0) in
   let s := p_add_t (term_add (T 1 2 0 0) (T 602 1 0 0)) (T 466 0 0 0) in
   r2 <- p_power_i32 r 2 ;; q2 <- p_power_i32 q 2 ;; q3 <- p_power_i32 q 3 ;;
   p3 <- p_power_i32 p 3 ;; s2 <- p_power_i32 s 2 ;;
   u <- t_mul_p (T 1 0 2 0) r2 ;; u <- p_mul u q3 ;;
   v <- p_mul p3 s2 ;;
   w <- t_mul_p (T 500 0 0 0) p ;; w <- p_mul w s2 ;; w <- p_mul w q2 ;;
   z <- t_mul_p (T 1005 0 0 0) s2 ;; z <- p_mul z q3 ;;
   reduction_modular (p_sub (p_sub (p_sub u v) w) z) 1132 278 2003) = "0" := ltac:(run).
Succeed Definition t_der : show (derivative_x (term_add (T 4 6 3 3) (T 2 5 2 0))) = "24 x^5 y^3 q^3 + 10 x^4 y^2" := ltac:(run).
Succeed Definition t_der2 : show (derivative_y (term_add (T 4 6 3 3) (T 2 5 2 0))) = "12 x^6 y^2 q^3 + 4 x^5 y" := ltac:(run).

(* src/elliptic_curve.rs *)
Succeed Definition t_ec2 : (E <- ec_new 1 1 5 ;; s <- curve_to_string E ;; Ok (s, points_to_string (ec_points E)))
  = Ok ("F_5: y^2 = x^3 + x + 1, cardinality:9, j:2",
        "(0, 1), (0, 4), (2, 1), (2, 4), (3, 1), (3, 4), (4, 2), (4, 3), O") := ltac:(run).
Succeed Definition t_ec3 : (E <- ec_new 1 1 5 ;; mapM (point_order 20 E) (ec_points E)) = Ok [9;9;3;3;9;9;9;9;1] := ltac:(run).
Succeed Definition t_iso1 : (E <- ec_new 1 1 19 ;; mapM (fun n => v <- division_points E n ;; Ok (points_to_string v)) [2;3;7])
  = Ok ["O"; "(2, 7), (2, 12), O"; "(10, 2), (10, 17), (14, 2), (14, 17), (15, 3), (15, 16), O"] := ltac:(run).
Succeed Definition t_secp : ('(E, g) <- secp256k1_new ;; on <- is_on_curve E g ;; l <- mapM (multiply_scalar E g) [1;2;3] ;;
                  Ok (on, map point_to_string l))
  = Ok (true, [
  "(55066263022277343669578718895168534326250603453777594175500187360389116729240, 32670510020758816978083085130507043184471273380659243275938904335757337482424)";
  "(89565891926547004231252920425935692360644145829622209833684329913297188986597, 12158399299693830322967808612713398636155367887041628176798871954788371653930)";
  "(112711660439710606056748659173929673102114977341539408544630613555209775888121, 25583027980570883691656905877401976406448868254816295069919888960541586679410)"]) := ltac:(run).

(* src/division_polynomial.rs *)
Succeed Definition t_psi : map (fun n => show (psi 1 1 n)) [0;1;2;3;4;5] =
 ["0"; "1"; "2 y"; "3 x^4 + 6 x^2 + 12 x - 1"; "4 x^6 y + 20 x^4 y + 80 x^3 y - 20 x^2 y - 16 x y - 36 y";
  "5 x^12 + 62 x^10 + 380 x^9 - 105 x^8 + 240 x^7 - 540 x^6 - 696 x^5 - 2045 x^4 - 1680 x^3 - 290 x^2 - 740 x - 287"] := ltac:(run).
Succeed Definition t_phi : map (fun n => show (phi 1 1 n)) [1;2;3] =
 ["x"; "x^4 - 2 x^2 - 8 x + 1"; "x^9 - 12 x^7 - 96 x^6 + 30 x^5 - 24 x^4 + 84 x^3 + 48 x^2 + 105 x + 72"] := ltac:(run).
Succeed Definition t_omega : map (fun n => show (omega 1 1 n)) [1;2;3;4] =
 ["y"; "x^6 + 5 x^4 + 20 x^3 - 5 x^2 - 4 x - 9";
  "x^12 y + 22 x^10 y + 220 x^9 y - 165 x^8 y - 528 x^7 y - 1868 x^6 y + 264 x^5 y - 1145 x^4 y - 400 x^3 y - 714 x^2 y - 1028 x y - 611 y";
  "x^24 + 68 x^22 + 1232 x^21 - 1694 x^20 - 9856 x^19 - 61964 x^18 + 10032 x^17 - 170561 x^16 - 23040 x^15 - 341752 x^14 - 632800 x^13 - 1329636 x^12 - 2539264 x^11 - 4549752 x^10 - 4618144 x^9 - 5622449 x^8 - 6799872 x^7 - 4564812 x^6 - 4212208 x^5 - 3158750 x^4 - 892544 x^3 - 248700 x^2 - 222864 x - 40879"] := ltac:(run).

(* src/bigint.rs *)
Succeed Definition t_pm : (map (fun e => power_modulo 3 e 5) [2;3;4]) = [Ok 4; Ok 2; Ok 1] := ltac:(run).
Succeed Definition t_inv : map (fun a => inverse a 19) [1;2;3;4] = [Ok 1; Ok 10; Ok 13; Ok 5] := ltac:(run).
Succeed Definition t_egcd : extended_gcd 8 11 = Ok (1, -4, 3) /\ extended_gcd 11 8 = Ok (1, 3, -4) := ltac:(split; run).
Succeed Definition t_crt : chinese_remainder [mkMod 3 2; mkMod 5 3; mkMod 7 2] = Ok (mkMod 105 (23 - 105)) := ltac:(run).

(* src/divisor.rs, eisenstein.rs, delta.rs, j_invariant.rs *)
Succeed Definition t_sigma : map (fun n => sigma_divisor n 3) [1;2;3;4;12] = [Ok 1; Ok 9; Ok 28; Ok 73; Ok 2044] := ltac:(run).
Succeed Definition t_e4 : show (eisenstein4 6) = "60480 q^6 + 30240 q^5 + 17520 q^4 + 6720 q^3 + 2160 q^2 + 240 q + 1" := ltac:(run).
Succeed Definition t_delta : show (delta1 3) = "- 1472 q^3 + 252 q^2 - 24 q + 1" /\ show (delta1_inverse 3) = "3200 q^3 + 324 q^2 + 24 q + 1" := ltac:(split; run).
Succeed Definition t_j1 : show (j_invariant1 4) = "864299970 q^4 + 21493760 q^3 + 196884 q^2 + 744 q + 1" := ltac:(run).
Succeed Definition t_j : show (j_invariant 2) = "21493760 q^2 + 196884 q + 744 + q^-1" := ltac:(run).

(* src/subscripted_variable.rs *)
Succeed Definition t_conv : (p <- converter_new 3 ;; c <- conv_count p ;;
   l <- mapM (variable_from_index p) (zrange 0 10) ;; i <- index_from_variable p (mkSV 2 3 false) ;;
   Ok (c, map svar_to_string l, i))
 = Ok (10, ["c_0_1";"c_0_2";"c_0_3";"c_1_2";"c_1_3";"c_2_3";"c_0_0";"c_1_1";"c_2_2";"c_3_3"], Some 5) := ltac:(run).

(* src/modular_polynomial.rs *)
Succeed Definition t_mt : show (modular_template 2) =
 "x^3 + x^2 y^2 c_2_2 + x^2 y c_1_2 + x^2 c_0_2 + x y^2 c_1_2 + x y c_1_1 + x c_0_1 + y^3 + y^2 c_0_2 + y c_0_1 + c_0_0" := ltac:(run).
Succeed Definition t_mq : (l <- modular_template_list 2 ;; Ok (map poly_to_string l)) = Ok [
 "c_2_2 + 1"; "1488 c_2_2 + c_1_2"; "948792 c_2_2 + 745 c_1_2 + c_0_2 + 2232";
 "338165056 c_2_2 + 199860 c_1_2 + c_1_1 + 1";
 "73885159932 c_2_2 + 23548880 c_1_2 + 744 c_1_1 + 1489 c_0_2 + c_0_1 + 2253492";
 "10291429500960 c_2_2 + 1495268650 c_1_2 + 197628 c_1_1 + 1488 c_0_2 + c_0_1 + 2251260";
 "941847590656704 c_2_2 + 126112980648 c_1_2 + 22047296 c_1_1 + 1894608 c_0_2 + 1488 c_0_1 + c_0_0 + 2710404480"] := ltac:(run).
Succeed Definition t_mod2 : show (modular_polynomial 2) =
 "x^3 - x^2 y^2 + 1488 x^2 y - 162000 x^2 + 1488 x y^2 + 40773375 x y + 8748000000 x + y^3 - 162000 y^2 + 8748000000 y - 157464000000000" := ltac:(run).
Succeed Definition t_mod3 : show (modular_polynomial 3) =
 "x^4 - x^3 y^3 + 2232 x^3 y^2 - 1069956 x^3 y + 36864000 x^3 + 2232 x^2 y^3 + 2587918086 x^2 y^2 + 8900222976000 x^2 y + 452984832000000 x^2 - 1069956 x y^3 + 8900222976000 x y^2 - 770845966336000000 x y + 1855425871872000000000 x + y^4 + 36864000 y^3 + 452984832000000 y^2 + 1855425871872000000000 y" := ltac:(run).
(* src/schoof_elkies_atkins.rs *)
Succeed Definition t_sea1 : (E <- ec_new 1 7 23 ;; r <- sea 100 E 3 ;;
   Ok (poly_to_string (sea_gcd r), sea_degree r, sea_is_elkies r, sea_js r))
  = Ok ("x^2 + 4 x + 3", 2, true, [20; 22]) := ltac:(run).
