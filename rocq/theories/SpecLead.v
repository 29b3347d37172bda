(** Specification for C130: univariate polynomials with a given leading term. *)
From Coq Require Import ZArith.
From Verif Require Import M_Variable M_Term M_Poly Spec.
Open Scope Z_scope.
(** a is a polynomial in x alone, its greatest term (as the API returns it) is c x^d, and c is not 0. *)
Definition leading (a : poly) (c d : Z) : Prop := sorted a /\ only_x a /\ c <> 0 /\ highest_term_x a = mkTerm c (mkMono d 0 0 None).
