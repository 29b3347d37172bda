(** Specification for C128: lexicographic order of the coordinates of two points. *)
From Coq Require Import ZArith.
From Verif Require Import M_Curve.
Open Scope Z_scope.
Notation lex := (fun P Q : point => px P < px Q \/ px P = px Q /\ py P < py Q).
