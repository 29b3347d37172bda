(** An algebraically closed extension with a transcendental element. *)
From mathcomp Require Import all_ssreflect all_algebra closed_field.
From mathcomp Require Import generic_quotient.
From Verif Require Import P_HasseFin.
Set Implicit Arguments. Unset Strict Implicit. Unset Printing Implicit Defensive.
Import GRing.Theory.
Local Open Scope ring_scope.
Local Open Scope quotient_scope.

Section Count.
Variable R : countIdomainType.
Lemma frac_cod : cancel (fun x : {fraction R} => let r := repr x in frac r) (fun r : R * R => \pi_({fraction R}) (insubd (Ratio 0 1) r)).
Proof. by move=> x; rewrite /= -[insubd _ _]/(insubd _ (val (repr x))) valKd reprK. Qed.
Definition fracCountMixin := CanCountMixin frac_cod.
Definition frac_countType := CountType {fraction R} fracCountMixin.
End Count.
Definition FC (R : countIdomainType) : countFieldType := @CountRing.Field.Pack {fraction R} (@CountRing.Field.Class _ (GRing.Field.class [fieldType of {fraction R}]) (Countable.mixin (Countable.class (frac_countType R)))).
Lemma tr_closure (F : countFieldType) : exists (K : closedFieldType) (i : {rmorphism F -> K}) (u : K), ~ algebraicOver i u.
Proof.
have [K [f _]] := countable_algebraic_closure (FC [countIdomainType of {poly F}]).
pose io := [rmorphism of @FracField.tofrac [idomainType of {poly F}]].
pose i : {rmorphism F -> K} := [rmorphism of f \o (io \o polyC)].
exists K, i, (f (io 'X)) => -[p p0].
have e : map_poly i p = map_poly f (map_poly (io \o polyC) p) by rewrite -map_poly_comp.
rewrite e /root horner_map fmorph_eq0 /=.
have -> : (map_poly (io \o polyC) p).[io 'X] = io p.
  rewrite (map_poly_comp io polyC) horner_map /=; congr (FracField.tofrac _).
  exact: comp_polyXr.
by rewrite tofrac_eq0 (negbTE p0).
Qed.
