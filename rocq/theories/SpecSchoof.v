(** Specification of the congruences that schoof.rs decides for a prime l (independent of the model of schoof.rs). *)
From Verif Require Import Prelude M_Term M_DivPoly Spec.
Open Scope Z_scope.

(** f is a multiple of the polynomial d, modulo q and modulo y^2 = x^3 + a x + b. *)
Definition multiple (q a b : Z) (d f : fsum) : Prop :=
  exists k, (forall m c, In (m, c) k -> 0 <= mx m /\ 0 <= my m /\ mq m = 0 /\ mv m = None) /\ cong_ideal q (fcurve a b) f (conv d k).

(** The points added are Q1 = (ph / ps^2, om / ps^3) = [n](x, y) and Q2 = (x^(q^2), y^(q^2)), the image of (x, y) under the square of Frobenius.
    Over the common denominators: D / ps^3 is the difference of the y-coordinates, F / ps^2 the difference of the x-coordinates,
    so D / (ps F) is the slope of the chord. *)
Definition xpow (n : Z) : fsum := fmono 1 n 0 0.
Definition ypow (n : Z) : fsum := fmono 1 0 n 0.
Definition chord_D (q : Z) (ps om : fsum) : fsum := fsub om (conv (ypow (q ^ 2)) (fpow ps 3)).
Definition chord_F (q : Z) (ps ph : fsum) : fsum := fsub ph (conv (xpow (q ^ 2)) (fpow ps 2)).
(** x-coordinate of Q1 + Q2: slope^2 - x(Q1) - x(Q2). *)
Definition sum_xnum (q : Z) (ps ph om : fsum) : fsum :=
  fsub (fpow (chord_D q ps om) 2) (conv (fadd ph (conv (xpow (q ^ 2)) (fpow ps 2))) (fpow (chord_F q ps ph) 2)).
Definition sum_xden (q : Z) (ps ph : fsum) : fsum := conv (fpow ps 2) (fpow (chord_F q ps ph) 2).
(** y-coordinate of Q1 + Q2: slope * (x(Q2) - x(Q1+Q2)) - y(Q2), where x(Q2) - x(Q1+Q2) = s x(Q1) + 2 x(Q2) - slope^2;  s = 1 is the addition law. *)
Definition sum_ynum (s q : Z) (ps ph om : fsum) : fsum :=
  fsub (conv (chord_D q ps om)
             (fsub (conv (fadd (conv (fconst s) ph) (conv (fconst 2) (conv (xpow (q ^ 2)) (fpow ps 2)))) (fpow (chord_F q ps ph) 2))
                   (fpow (chord_D q ps om) 2)))
       (conv (ypow (q ^ 2)) (conv (fpow ps 3) (fpow (chord_F q ps ph) 3))).
Definition sum_yden (q : Z) (ps ph : fsum) : fsum := conv (fpow ps 3) (fpow (chord_F q ps ph) 3).

(** The x-coordinate of Q1 + Q2 equals that of the Frobenius image of (phj / psj^2, omj / psj^3) = [j](x, y), modulo d. *)
Definition x_match (a b q : Z) (d ps ph om psj phj : fsum) : Prop :=
  multiple q a b d (fsub (conv (sum_xnum q ps ph om) (fpow (fmap (frob q) psj) 2)) (conv (fmap (frob q) phj) (sum_xden q ps ph))).
(** The same for the y-coordinate (both sides multiplied by ps). *)
Definition y_match (s a b q : Z) (d ps ph om psj omj : fsum) : Prop :=
  multiple q a b d (conv ps (fsub (conv (sum_ynum s q ps ph om) (fpow (fmap (frob q) psj) 3)) (conv (fmap (frob q) omj) (sum_yden q ps ph)))).
(** The x-coordinate of the Frobenius image of (x, y) equals that of (phw / psw^2, _) = [w](x, y), modulo d. *)
Definition w_match (a b q : Z) (d psw phw : fsum) : Prop := multiple q a b d (fsub (conv (xpow q) (fpow psw 2)) phw).

(** The same for the division polynomials psi, phi, omega themselves: modulo psi(l), the sum of [q mod l](x, y) and the image of (x, y) under the
    square of Frobenius has the x-coordinate (the y-coordinate, for s = 1) of the Frobenius image of [j](x, y). *)
Definition x_matches (a b q l j : Z) : Prop :=
  exists d ps ph om psj phj, psi a b l = Ok d /\ psi a b (q mod l) = Ok ps /\ phi a b (q mod l) = Ok ph /\ omega a b (q mod l) = Ok om /\
    psi a b j = Ok psj /\ phi a b j = Ok phj /\ x_match a b q d ps ph om psj phj.
Definition y_matches (s a b q l j : Z) : Prop :=
  exists d ps ph om psj omj, psi a b l = Ok d /\ psi a b (q mod l) = Ok ps /\ phi a b (q mod l) = Ok ph /\ omega a b (q mod l) = Ok om /\
    psi a b j = Ok psj /\ omega a b j = Ok omj /\ y_match s a b q d ps ph om psj omj.
(** The Frobenius image of (x, y) has the x-coordinate of [w](x, y), modulo the division polynomial psi(l) of the curve y^2 = x^3 + c x + b. *)
Definition w_matches (c a b q l w : Z) : Prop :=
  exists d psw phw, psi c b l = Ok d /\ psi a b w = Ok psw /\ phi a b w = Ok phw /\ w_match a b q d psw phw.
