(** Specification vocabulary for C94-C96: histories of calls. *)
From Verif Require Import Prelude M_Curve.
(** k calls of a method that may panic, one after the other. *)
Fixpoint calls {S : Type} (f : S -> res S) (k : nat) (s : S) : res S :=
  match k with O => Ok s | Datatypes.S k' => s' <- f s ;; calls f k' s' end.
(** How often P is listed. *)
Definition occurrences (P : point) (L : list point) : nat := length (filter (point_eqb P) L).
