(** Specification vocabulary for C111: the right-hand side of Kronecker's congruence; independent of the code. *)
From Verif Require Import Prelude M_Term M_Poly Spec.
Open Scope Z_scope.

(** (x^p - y) (x - y^p) *)
Definition kronecker (p : Z) : fsum := conv [(xymono p 0, 1); (xymono 0 1, -1)] [(xymono 1 0, 1); (xymono 0 p, -1)].
