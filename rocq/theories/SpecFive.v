(** Specification of the exceptional curves for l = 5 (independent of the model). *)
From Coq Require Import ZArith List.
Import ListNotations.
Open Scope Z_scope.

(** The fifth division polynomial of y^2 = x^3 + a x + b. *)
Definition psi5_at (a b x : Z) : Z :=
  5 * x ^ 12 + 62 * a * x ^ 10 + 380 * b * x ^ 9 - 105 * a ^ 2 * x ^ 8 + 240 * a * b * x ^ 7 - (300 * a ^ 3 + 240 * b ^ 2) * x ^ 6
  - 696 * a ^ 2 * b * x ^ 5 - (125 * a ^ 4 + 1920 * a * b ^ 2) * x ^ 4 - (80 * a ^ 3 * b + 1600 * b ^ 3) * x ^ 3
  - (50 * a ^ 5 + 240 * a ^ 2 * b ^ 2) * x ^ 2 - (100 * a ^ 4 * b + 640 * a * b ^ 3) * x + a ^ 6 - 32 * a ^ 3 * b ^ 2 - 256 * b ^ 4.
(** It has degree 12 modulo q > 5; it splits into 12 distinct linear factors. *)
Definition psi5_splits (a b q : Z) : Prop :=
  exists l, length l = 12%nat /\ NoDup l /\ forall x, In x l -> 0 <= x < q /\ (q | psi5_at a b x).
