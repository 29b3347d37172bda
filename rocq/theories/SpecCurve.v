(** Specification vocabulary for elliptic curves y^2 = x^3 + a x + b modulo p; independent of the code. *)
From Coq Require Import Znumtheory.
From Verif Require Import Prelude M_Curve.
Open Scope Z_scope.

(** The curve equation modulo p. *)
Definition curve_eqn (a b p x y : Z) : Prop := (p | y * y - (x * x * x + a * x + b)).
(** A point up to representation: None is the point at infinity, coordinates are residues in [0, p). *)
Definition apoint := option (Z * Z).
Definition affine (p : Z) (P : point) : apoint :=
  if pz P =? 0 then None else Some (px P mod p, py P mod p).
Definition on_curve (a b p : Z) (P : apoint) : Prop :=
  match P with
  | None => True
  | Some (x, y) => 0 <= x < p /\ 0 <= y < p /\ curve_eqn a b p x y
  end.
(** The third intersection, mirrored: the point with slope m from (x1, y1) and (x2, _). *)
Definition line_third (p m x1 y1 x2 : Z) : apoint :=
  let x3 := (m * m - x1 - x2) mod p in Some (x3, (m * (x1 - x3) - y1) mod p).
(** The chord-and-tangent law: [ec_sum a p P Q R] says P + Q = R. *)
Inductive ec_sum (a p : Z) : apoint -> apoint -> apoint -> Prop :=
| sum_O_l : forall Q, ec_sum a p None Q Q
| sum_O_r : forall P, ec_sum a p P None P
| sum_opposite : forall x y1 y2, (p | y1 + y2) -> ec_sum a p (Some (x, y1)) (Some (x, y2)) None
| sum_chord : forall x1 y1 x2 y2 m, ~ (p | x2 - x1) -> (p | m * (x2 - x1) - (y2 - y1)) ->
    ec_sum a p (Some (x1, y1)) (Some (x2, y2)) (line_third p m x1 y1 x2)
| sum_tangent : forall x y m, ~ (p | 2 * y) -> (p | m * (2 * y) - (3 * (x * x) + a)) ->
    ec_sum a p (Some (x, y)) (Some (x, y)) (line_third p m x y x).
(** [ec_mult a p P n R]: R = P + ... + P, n times. *)
Inductive ec_mult (a p : Z) (P : apoint) : nat -> apoint -> Prop :=
| mult_O : ec_mult a p P 0 None
| mult_S : forall n Q R, ec_mult a p P n Q -> ec_sum a p P Q R -> ec_mult a p P (S n) R.
Definition ec_neg (p : Z) (P : apoint) : apoint :=
  match P with None => None | Some (x, y) => Some (x, (- y) mod p) end.
(** The discriminant does not vanish modulo p. *)
Definition nonsingular (a b p : Z) : Prop := ~ (p | 4 * (a * a * a) + 27 * (b * b)).
(** An elliptic curve over GF(p), p odd. *)
Definition elliptic (a b p : Z) : Prop := prime p /\ p <> 2 /\ nonsingular a b p.
(** n is the order of P. *)
Definition ec_order (a p : Z) (P : apoint) (n : Z) : Prop :=
  1 <= n /\ ec_mult a p P (Z.to_nat n) None /\ forall k, 1 <= k < n -> ~ ec_mult a p P (Z.to_nat k) None.
(** A curve value obtained through the API for y^2 = x^3 + a x + b over Z/p. *)
Definition curve_of (a b p : Z) (E : curve) : Prop := E = new_raw a b p \/ ec_new a b p = Ok E.
