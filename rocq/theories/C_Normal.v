(** C97-C98: reduction_modular as a normal form, to_frob as the Frobenius map. *)
From Coq Require Import Znumtheory ZifyBool Setoid Morphisms Ring.
From Verif Require Import Prelude M_Bigint M_Variable M_Term M_Poly Spec P_Bigint P_Variable P_FSum P_Poly P_Rem P_PolyProps P_Subst P_Subst2 P_Subst3 P_SubstProps P_Binom.
From Verif Require Import P_NormalProps.
Open Scope Z_scope.

(** C97: two polynomials have the same reduction_modular exactly when they are congruent modulo p and modulo y^2 - (x^3 + a x + b). *)
Theorem C97_decides : forall f g a b p r s, 0 < p -> (forall m c, In (m, c) f -> red_room m) -> (forall m c, In (m, c) g -> red_room m) ->
  reduction_modular f a b p = Ok r -> reduction_modular g a b p = Ok s -> (r = s <-> cong_ideal p (fcurve a b) f g).
Proof. exact c97_decides. Qed.
Print Assumptions C97_decides.
(** C97: the reduction is the only reduced polynomial of y-degree at most 1 congruent to the argument. *)
Theorem C97_unique : forall f a b p r u, 0 < p -> (forall m c, In (m, c) f -> red_room m) -> reduction_modular f a b p = Ok r ->
  (sorted u /\ reduced p u /\ (forall m c, In (m, c) u -> 0 <= my m <= 1) /\ cong_ideal p (fcurve a b) u f <-> u = r).
Proof. exact c97_unique. Qed.
Print Assumptions C97_unique.
(** C97: the same for reduction (integer coefficients), compared coefficientwise. *)
Theorem C97_exact : forall f g a b r s, (forall m c, In (m, c) f -> red_room m) -> (forall m c, In (m, c) g -> red_room m) ->
  reduction f a b = Ok r -> reduction g a b = Ok s -> (feq r s <-> cong_ideal 0 (fcurve a b) f g).
Proof. exact c97_exact. Qed.
Print Assumptions C97_exact.
Example C97_case : reduction_modular [(mkMono 0 4 0 None, 1)] 1 1 5 = reduction_modular [(mkMono 0 2 0 None, 1); (mkMono 1 2 0 None, 1); (mkMono 3 2 0 None, 1)] 1 1 5 /\
  red_room (mkMono 0 4 0 None) /\ red_room (mkMono 3 2 0 None).
Proof. exact c97_case. Qed.
(** C98: for polynomials in x and y, power_modulo(q, p) with q a power of the prime p is to_frob(q) % p. *)
Theorem C98_frobenius : forall a p k c r, prime p -> 0 <= k -> sorted a -> (forall m d, In (m, d) a -> mq m = 0 /\ mv m = None) ->
  p_power_modulo a (p ^ k) p = Ok c -> to_frob a (p ^ k) = Ok r -> p_rem r p = Ok c.
Proof. exact c98_frobenius. Qed.
Print Assumptions C98_frobenius.
(** C98: both calls return whenever q times the exponents fits i32. *)
Theorem C98_returns : forall a n p B, 0 < p -> 1 <= n -> 0 <= B -> n * B <= i32_max -> sorted a ->
  (forall m d, In (m, d) a -> Z.abs (mx m) <= B /\ Z.abs (my m) <= B /\ mq m = 0 /\ mv m = None) ->
  (exists c, p_power_modulo a n p = Ok c) /\ exists r, to_frob a n = Ok r.
Proof. exact c98_returns. Qed.
Print Assumptions C98_returns.
(** C98: to_frob(q) does not change the values modulo p. *)
Theorem C98_value : forall a p k r x y u v, prime p -> 0 <= k -> sorted a -> nonneg_xy a -> (forall m d, In (m, d) a -> mq m = 0 /\ mv m = None) -> to_frob a (p ^ k) = Ok r ->
  eval_xy a x y = Ok u -> eval_xy r x y = Ok v -> (p | v - u).
Proof. exact c98_value. Qed.
Print Assumptions C98_value.
(** C98: on the curve: reducing before applying to_frob(q) makes no difference after a final reduction. *)
Theorem C98_on_curve : forall f a b p k r F R s t, prime p -> 0 <= k -> sorted f -> (forall m c, In (m, c) f -> red_room m /\ mq m = 0 /\ mv m = None) ->
  reduction_modular f a b p = Ok r -> to_frob f (p ^ k) = Ok F -> to_frob r (p ^ k) = Ok R ->
  (forall m c, In (m, c) F -> red_room m) -> (forall m c, In (m, c) R -> red_room m) ->
  reduction_modular F a b p = Ok s -> reduction_modular R a b p = Ok t -> s = t.
Proof. exact c98_on_curve. Qed.
Print Assumptions C98_on_curve.
Example C98_case : let f := [(mkMono 0 0 0 None, 3); (mkMono 0 2 0 None, 1); (mkMono 1 0 0 None, 7)] in
  exists r, p_power_modulo f 25 5 = Ok r /\ (u <- to_frob f 25 ;; p_rem u 5) = Ok r /\ r = [(mkMono 0 0 0 None, 3); (mkMono 0 50 0 None, 1); (mkMono 25 0 0 None, 2)].
Proof. exact c98_case. Qed.
