(** Specification vocabulary for changes of variables and twists of y^2 = x^3 + a x + b; independent of the code. *)
From Coq Require Import Znumtheory.
From Verif Require Import Prelude M_Curve.
Open Scope Z_scope.

(** The change of variables (x, y) -> (u^2 x, u^3 y). *)
Definition iso_point (u : Z) (P : point) : point := mkPt (u ^ 2 * px P) (u ^ 3 * py P) (pz P).
(** It carries y^2 = x^3 + a x + b to y^2 = x^3 + a' x + b' modulo p, u invertible. *)
Definition iso_curves (p u a b a' b' : Z) : Prop := ~ (p | u) /\ (p | a' - u ^ 4 * a) /\ (p | b' - u ^ 6 * b).
(** d is not a square modulo p. *)
Definition non_residue (p d : Z) : Prop := ~ exists y, (p | y * y - d).
(** y^2 = x^3 + a' x + b' is the quadratic twist of y^2 = x^3 + a x + b by d. *)
Definition twisted (p d a b a' b' : Z) : Prop := non_residue p d /\ (p | a' - d ^ 2 * a) /\ (p | b' - d ^ 3 * b).
