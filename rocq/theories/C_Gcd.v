(** Property theorems C23-C28 (src/polynomial.rs: polynomial_modular, gcd, is_gcd_one, to_monic). *)
From Coq Require Import Znumtheory ZifyBool Setoid Morphisms Ring.
From Verif Require Import Prelude M_Bigint M_Variable M_Term M_Poly Spec P_Bigint P_Variable P_FSum P_Poly P_Rem P_PolyProps P_Subst P_Subst2 P_Subst3 P_Mod P_Gcd.
From Verif Require Import P_GcdProps.
Open Scope Z_scope.

(** C23: by a divisor of positive degree in x with unit leading coefficient, polynomial_modular terminates
    with the canonical remainder.  The dividend may contain y and q (no subscripted variables). *)
Theorem C23_polynomial_modular : forall a d p, prime p -> sorted a -> i32_poly a -> (forall m c, In (m, c) a -> mv m = None) ->
  sorted d -> only_x d -> 1 <= mx (tm (highest_term_x d)) -> ~ (p | tc (highest_term_x d)) ->
  exists fuel r, polynomial_modular fuel a d p = Ok r /\ sorted r /\ reduced p r /\
    (forall m c, In (m, c) r -> mx m < mx (tm (highest_term_x d))) /\ (exists k, feqm p a (fadd (conv d k) r)) /\
    (only_x a -> only_x r).
Proof. exact c23_polynomial_modular. Qed.
Print Assumptions C23_polynomial_modular.
(** C23: the model's step bound only cuts off running loops: more fuel never changes a result. *)
Theorem C23_fuel : forall f f' a d p x, (f <= f')%nat -> polynomial_modular f a d p = x -> x <> NoFuel -> polynomial_modular f' a d p = x.
Proof. exact c23_fuel. Qed.
Print Assumptions C23_fuel.
(** C23: the remainder of polynomials in x is unique. *)
Theorem C23_unique : forall a d p r s k l, prime p -> sorted d -> only_x d -> 1 <= mx (tm (highest_term_x d)) -> reduced p d ->
  sorted r -> sorted s -> reduced p r -> reduced p s -> only_x r -> only_x s ->
  (forall m c, In (m, c) r -> mx m < mx (tm (highest_term_x d))) -> (forall m c, In (m, c) s -> mx m < mx (tm (highest_term_x d))) ->
  only_x k -> only_x l -> feqm p a (fadd (conv d k) r) -> feqm p a (fadd (conv d l) s) -> r = s.
Proof. exact c23_unique. Qed.
Print Assumptions C23_unique.
Example C23_case : let a := [(mkMono 0 1 0 None, 3); (mkMono 2 1 0 None, 1); (mkMono 4 0 0 None, 2)] in let d := [(mkMono 0 0 0 None, 1); (mkMono 2 0 0 None, 3)] in
  sorted a /\ sorted d /\ only_x d /\ 1 <= mx (tm (highest_term_x d)) /\
  polynomial_modular 5 a d 7 = Ok [(mkMono 0 0 0 None, 1); (mkMono 0 1 0 None, 5)].
Proof. exact c23_case. Qed.
(** C24: refuted: by a constant (also a non-zero one, and also by the polynomial without terms) the division
    of any polynomial in x never ends, for any modulus >= 2. *)
Theorem C24_constant_divisor : forall a d p, 2 <= p -> sorted a -> only_x a -> i32_poly a -> sorted d -> only_x d ->
  (forall m c, In (m, c) d -> mx m = 0) -> forall fuel, polynomial_modular fuel a d p = NoFuel.
Proof. exact c24_constant_divisor. Qed.
Print Assumptions C24_constant_divisor.
Theorem C24_terminates_refuted : exists a d p, prime p /\ sorted a /\ sorted d /\ only_x a /\ only_x d /\ reduced p a /\ reduced p d /\ d <> [] /\
  forall fuel, polynomial_modular fuel a d p = NoFuel.
Proof. exact c24_terminates_refuted. Qed.
Print Assumptions C24_terminates_refuted.
(** C24: what does hold: every divisor that is reduced mod p and of positive degree is fine. *)
Theorem C24_terminates_partial : forall a d p, prime p -> sorted a -> only_x a -> i32_poly a -> sorted d -> only_x d -> reduced p d ->
  1 <= mx (tm (highest_term_x d)) -> exists fuel r, polynomial_modular fuel a d p = Ok r.
Proof. exact c24_terminates_partial. Qed.
Print Assumptions C24_terminates_partial.
(** C25: whatever gcd returns is the monic greatest common divisor. *)
Theorem C25_gcd : forall fuel a b p g, prime p -> sorted a -> sorted b -> only_x a -> only_x b -> i32_poly a -> i32_poly b -> reduced p a -> reduced p b ->
  p_gcd fuel a b p = Ok g ->
  sorted g /\ reduced p g /\ only_x g /\ tc (highest_term_x g) = 1 /\
  fdivides p g a /\ fdivides p g b /\
  (exists u v, only_x u /\ only_x v /\ feqm p g (fadd (conv u a) (conv v b))) /\
  (forall h, fdivides p h a -> fdivides p h b -> fdivides p h g).
Proof. exact c25_gcd. Qed.
Print Assumptions C25_gcd.
Example C25_case : (* (x+1)(x+2) and (x+1)(x+3) mod 5 *) let a := [(mone, 2); (mkMono 1 0 0 None, 3); (mkMono 2 0 0 None, 1)] in
  let b := [(mone, 3); (mkMono 1 0 0 None, 4); (mkMono 2 0 0 None, 1)] in
  sorted a /\ sorted b /\ only_x a /\ reduced 5 a /\ reduced 5 b /\ p_gcd 9 a b 5 = Ok [(mone, 1); (mkMono 1 0 0 None, 1)].
Proof. exact c25_case. Qed.
(** C26: gcd returns exactly when there is a common factor of positive degree; otherwise it runs forever. *)
Theorem C26_gcd_iff : forall a b p, prime p -> sorted a -> sorted b -> only_x a -> only_x b -> i32_poly a -> i32_poly b -> reduced p a -> reduced p b ->
  a <> [] -> b <> [] ->
  (common_factor p a b -> exists fuel g, p_gcd fuel a b p = Ok g) /\
  (~ common_factor p a b -> forall fuel, p_gcd fuel a b p = NoFuel).
Proof. exact c26_gcd_iff. Qed.
Print Assumptions C26_gcd_iff.
Theorem C26_gcd_terminates_refuted : exists a b p, prime p /\ sorted a /\ sorted b /\ only_x a /\ only_x b /\ reduced p a /\ reduced p b /\ a <> [] /\ b <> [] /\
  forall fuel, p_gcd fuel a b p = NoFuel.
Proof. exact c26_gcd_terminates_refuted. Qed.
Print Assumptions C26_gcd_terminates_refuted.
Theorem C26_gcd_terminates_partial : forall a b p, prime p -> sorted a -> sorted b -> only_x a -> only_x b -> i32_poly a -> i32_poly b -> reduced p a -> reduced p b ->
  a <> [] -> b <> [] -> ((exists fuel g, p_gcd fuel a b p = Ok g) <-> common_factor p a b).
Proof. exact c26_gcd_terminates_partial. Qed.
Print Assumptions C26_gcd_terminates_partial.
(** C27: refuted: is_gcd_one answers true for x+1, x+1, which have the common factor x+1. *)
Theorem C27_is_gcd_one_refuted : exists a b p fuel, prime p /\ sorted a /\ sorted b /\ reduced p a /\ reduced p b /\ only_x a /\ only_x b /\
  is_gcd_one fuel a b p = Ok true /\ common_factor p a b.
Proof. exact c27_is_gcd_one_refuted. Qed.
Print Assumptions C27_is_gcd_one_refuted.
(** C27: exact behaviour: it answers true precisely on polynomials that are NOT coprime, never answers false,
    and runs forever on coprime ones. *)
Theorem C27_is_gcd_one_partial : forall a b p, prime p -> sorted a -> sorted b -> only_x a -> only_x b -> i32_poly a -> i32_poly b -> reduced p a -> reduced p b ->
  a <> [] -> b <> [] ->
  (common_factor p a b -> exists fuel, is_gcd_one fuel a b p = Ok true) /\
  (~ common_factor p a b -> forall fuel, is_gcd_one fuel a b p = NoFuel) /\
  (forall fuel, is_gcd_one fuel a b p <> Ok false).
Proof. exact c27_is_gcd_one_partial. Qed.
Print Assumptions C27_is_gcd_one_partial.
(** C28: to_monic. *)
Theorem C28_to_monic : forall a p, prime p -> sorted a -> i32_poly a -> a <> [] -> ~ (p | tc (highest_term_x a)) ->
  exists r, to_monic a p = Ok r /\ sorted r /\ reduced p r /\ highest_term_x r = mkTerm 1 (tm (highest_term_x a)) /\
    feqm p (conv (fconst (tc (highest_term_x a))) r) a.
Proof. exact c28_to_monic. Qed.
Print Assumptions C28_to_monic.
Theorem C28_zero : forall p, to_monic [] p = Ok [].
Proof. exact c28_zero. Qed.
Print Assumptions C28_zero.
Example C28_case : to_monic [(mkMono 0 1 0 None, 4); (mkMono 2 0 0 None, 3)] 7 = Ok [(mkMono 0 1 0 None, 6); (mkMono 2 0 0 None, 1)] /\ prime 7 /\ ~ (7 | 3).
Proof. exact c28_case. Qed.
