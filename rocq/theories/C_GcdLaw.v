(** Property theorem C108 (src/polynomial.rs: gcd). *)
From Coq Require Import Znumtheory ZifyBool Setoid Morphisms Ring.
From Verif Require Import Prelude M_Bigint M_Variable M_Term M_Poly Spec P_Bigint P_Variable P_FSum P_Binom P_Poly P_Rem P_PolyProps P_Subst P_Subst2 P_Subst3 P_Mod P_Gcd P_Gcd2 P_GcdProps P_XQuot P_Sqfree.
From Verif Require Import P_GcdLawProps.
Open Scope Z_scope.

(** C108: the result is the only monic polynomial that divides both arguments and is divided by every common divisor. *)
Theorem C108_unique : forall fuel a b p g h, prime p -> gcd_arg p a -> gcd_arg p b -> p_gcd fuel a b p = Ok g ->
  sorted h -> reduced p h -> only_x h -> h <> [] -> tc (highest_term_x h) = 1 -> fdivides p h a -> fdivides p h b ->
  (forall k, fdivides p k a -> fdivides p k b -> fdivides p k h) -> h = g.
Proof. exact c108_unique. Qed.
Print Assumptions C108_unique.
(** C108: gcd is commutative, including whether it returns. *)
Theorem C108_commutative : forall fuel a b p g, prime p -> gcd_arg p a -> gcd_arg p b -> p_gcd fuel a b p = Ok g -> exists fuel', p_gcd fuel' b a p = Ok g.
Proof. exact c108_commutative. Qed.
Print Assumptions C108_commutative.
(** C108: gcd(a, a) is a made monic. *)
Theorem C108_self : forall fuel a p g, prime p -> gcd_arg p a -> p_gcd fuel a a p = Ok g -> to_monic a p = Ok g.
Proof. exact c108_self. Qed.
Print Assumptions C108_self.
(** C108: adding a multiple of one argument to the other does not change the result. *)
Theorem C108_add_multiple : forall f f' a b c k p g h, prime p -> gcd_arg p a -> gcd_arg p b -> gcd_arg p c -> only_x k -> feqm p c (fadd a (conv k b)) ->
  p_gcd f a b p = Ok g -> p_gcd f' c b p = Ok h -> g = h.
Proof. exact c108_add_multiple. Qed.
Print Assumptions C108_add_multiple.
(** C108: gcd is associative where it returns. *)
Theorem C108_associative : forall f1 f2 f3 f4 a b c p g h u v, prime p -> gcd_arg p a -> gcd_arg p b -> gcd_arg p c ->
  p_gcd f1 a b p = Ok g -> p_gcd f2 g c p = Ok u -> p_gcd f3 b c p = Ok h -> p_gcd f4 a h p = Ok v -> u = v.
Proof. exact c108_associative. Qed.
Print Assumptions C108_associative.
(** C108: a common factor comes out: gcd(ac, bc) is gcd(a, b) times c made monic. *)
Theorem C108_common_factor : forall f1 f2 a b c ac bc m p g h, prime p -> gcd_arg p a -> gcd_arg p b -> gcd_arg p c -> gcd_arg p ac -> gcd_arg p bc ->
  feqm p ac (conv a c) -> feqm p bc (conv b c) -> c <> [] ->
  p_gcd f1 a b p = Ok g -> p_gcd f2 ac bc p = Ok h -> to_monic c p = Ok m -> feqm p h (conv g m).
Proof. exact c108_common_factor. Qed.
Print Assumptions C108_common_factor.
Example C108_case : (* (x+1)(x+2) and (x+1)(x+3) mod 5, both orders *) let a := [(mone, 2); (mkMono 1 0 0 None, 3); (mkMono 2 0 0 None, 1)] in
  let b := [(mone, 3); (mkMono 1 0 0 None, 4); (mkMono 2 0 0 None, 1)] in gcd_arg 5 a /\ gcd_arg 5 b /\
  p_gcd 9 a b 5 = Ok [(mone, 1); (mkMono 1 0 0 None, 1)] /\ p_gcd 9 b a 5 = Ok [(mone, 1); (mkMono 1 0 0 None, 1)] /\ p_gcd 9 a a 5 = Ok a.
Proof. exact c108_case. Qed.
