(** Specification for C129: systems of congruences chinese_remainder is meant for. *)
From Coq Require Import ZArith Znumtheory List.
From Verif Require Import M_Bigint.
Open Scope Z_scope.
(** The moduli are pairwise coprime / all positive. *)
Notation coprime_moduli v := (ForallOrdPairs (fun m m' => rel_prime (mr_l m) (mr_l m')) v).
Notation positive_moduli v := (Forall (fun m => 0 < mr_l m) v).
