(** Specification for l = 3 (independent of the model). *)
From Coq Require Import ZArith List.
Import ListNotations.
Open Scope Z_scope.

(** The third division polynomial of y^2 = x^3 + a x + b: its roots are the x-coordinates of the points of order 3. *)
Definition psi3_at (a b x : Z) : Z := 3 * x ^ 4 + 6 * a * x ^ 2 + 12 * b * x - a ^ 2.
(** It has degree 4 modulo q > 3; it splits into 4 distinct linear factors. *)
Definition psi3_splits (a b q : Z) : Prop :=
  exists l, length l = 4%nat /\ NoDup l /\ forall x, In x l -> 0 <= x < q /\ (q | psi3_at a b x).
