(** Extending a ring morphism to a field of fractions; maps between groups of points induced by a field morphism and a change of scale. *)
From Coq Require Import ZArith Field_theory Ring Field.
From mathcomp Require Import all_ssreflect all_algebra.
From Verif Require Import P_Group P_HasseGcd P_Tors3 P_EK.
Set Implicit Arguments. Unset Strict Implicit. Unset Printing Implicit Defensive.
Import GRing.Theory.
Local Open Scope ring_scope.

Section Lift.
Variables (R : idomainType) (K L : fieldType) (io : {rmorphism R -> K}) (h : {rmorphism R -> L}).
Hypothesis io_inj : injective io.
Hypothesis io_frac : forall x : K, exists n d, d != 0 /\ x = io n / io d.
Hypothesis h_inj : injective h.
Lemma io_ne d : d != 0 -> io d != 0.
Proof. by rewrite -(inj_eq io_inj) rmorph0. Qed.
Lemma h_ne d : d != 0 -> h d != 0.
Proof. by rewrite -(inj_eq h_inj) rmorph0. Qed.
Lemma frac_b (x : K) : exists nd : R * R, (nd.2 != 0) && (x == io nd.1 / io nd.2).
Proof. by have [n [d [d0 e]]] := io_frac x; exists (n, d); rewrite d0 e eqxx. Qed.
Definition lift (x : K) : L := let nd := xchoose (frac_b x) in h nd.1 / h nd.2.
Lemma liftE n d : d != 0 -> lift (io n / io d) = h n / h d.
Proof.
move=> d0; rewrite /lift; have /andP[] := xchooseP (frac_b (io n / io d)).
case: (xchoose _) => n' d' /= d0' /eqP; move/eqP; rewrite eqr_div ?io_ne // -!rmorphM => /eqP /io_inj e.
by apply/eqP; rewrite eqr_div ?h_ne // -!rmorphM e.
Qed.
Lemma lift_io n : lift (io n) = h n.
Proof. by have := liftE n (oner_neq0 R); rewrite !rmorph1 !divr1. Qed.
Lemma lift_additive : additive lift.
Proof.
move=> x y; have [n [d [d0 ->]]] := io_frac x; have [n' [d' [d0' ->]]] := io_frac y.
have -> : io n / io d - io n' / io d' = io (n * d' - n' * d) / io (d * d').
  by rewrite -mulNr addf_div ?io_ne // mulNr !(rmorphB, rmorphM).
rewrite !liftE ?mulf_neq0 // -[- (h n' / _)]mulNr addf_div ?h_ne // mulNr; by rewrite !(rmorphB, rmorphM).
Qed.
Canonical lift_add := Additive lift_additive.
Lemma lift_multiplicative : multiplicative lift.
Proof.
split; last by rewrite -(rmorph1 io) lift_io rmorph1.
move=> x y; have [n [d [d0 ->]]] := io_frac x; have [n' [d' [d0' ->]]] := io_frac y.
by rewrite mulf_div -!rmorphM !liftE ?mulf_neq0 // mulf_div -!rmorphM.
Qed.
Canonical lift_rmorphism := AddRMorphism lift_multiplicative.
Definition liftr : {rmorphism K -> L} := [rmorphism of lift].
Lemma liftrE n : liftr (io n) = h n. Proof. exact: lift_io. Qed.
End Lift.

Section ScaleId.
Variable K : Type.
Variables (k0 k1 : K) (kadd kmul ksub : K -> K -> K) (kopp : K -> K) (kdiv : K -> K -> K) (kinv : K -> K).
Variable Kf : field_theory k0 k1 kadd kmul ksub kopp kdiv kinv (@eq K).
Add Field Kfield_sm : Kf.
Notation "0" := k0. Notation "1" := k1.
Infix "+" := kadd. Infix "*" := kmul. Infix "-" := ksub. Infix "/" := kdiv. Notation "- x" := (kopp x).
Notation "2" := (1 + 1). Notation "3" := (1 + 1 + 1).
Variable m : K.
Hypothesis m0 : m <> 0.
Lemma sc_on x y a b : y * y = x * x * x + a * (m * m * (m * m)) * x + b * (m * m * m * (m * m * m)) ->
  (y / (m * m * m)) * (y / (m * m * m)) = (x / (m * m)) * (x / (m * m)) * (x / (m * m)) + a * (x / (m * m)) + b.
Proof.
  intros e. transitivity (y * y / (m * m * m * (m * m * m))); [field; exact m0|]. rewrite e. field. exact m0.
Qed.
Lemma sc_chord x1 y1 x2 y2 : x1 - x2 <> 0 ->
  let l := (y2 / (m * m * m) - y1 / (m * m * m)) / (x2 / (m * m) - x1 / (m * m)) in l = ((y2 - y1) / (x2 - x1)) / m.
Proof. intros n l. unfold l. field. repeat split; auto. intros e. apply n. transitivity (- (x2 - x1)); [ring|]. rewrite e. ring. Qed.
Lemma sc_tan x1 y1 a : 2 * y1 <> 0 ->
  let l := (3 * ((x1 / (m * m)) * (x1 / (m * m))) + a) / (2 * (y1 / (m * m * m))) in l = ((3 * (x1 * x1) + a * (m * m * (m * m))) / (2 * y1)) / m.
Proof. intros n l. unfold l. field. repeat split; auto; intros e; apply n; rewrite e; ring. Qed.
Lemma sc_third x1 y1 x2 l : 
  (l / m) * (l / m) - x1 / (m * m) - x2 / (m * m) = (l * l - x1 - x2) / (m * m) /\
  (l / m) * (x1 / (m * m) - ((l / m) * (l / m) - x1 / (m * m) - x2 / (m * m))) - y1 / (m * m * m) = (l * (x1 - (l * l - x1 - x2)) - y1) / (m * m * m).
Proof. split; field; exact m0. Qed.
End ScaleId.

Section Smap.
Variables (K1 K2 : fieldType) (a1 b1 : K1) (a2 b2 : K2).
Variables (c21 : 1 + 1 <> 0 :> K1) (ns1 : forall x y : K1, y * y = x * x * x + a1 * x + b1 -> y = 0 -> (1 + 1 + 1) * (x * x) + a1 = 0 -> False).
Variables (c22 : 1 + 1 <> 0 :> K2) (ns2 : forall x y : K2, y * y = x * x * x + a2 * x + b2 -> y = 0 -> (1 + 1 + 1) * (x * x) + a2 = 0 -> False).
Notation V1 := (gpt c21 ns1). Notation V2 := (gpt c22 ns2).
Variables (s : {rmorphism K1 -> K2}) (m : K2).
Hypothesis m0 : m <> 0.
Hypothesis ha : s a1 = a2 * (m * m * (m * m)).
Hypothesis hb : s b1 = b2 * (m * m * m * (m * m * m)).
Notation ft := (field_ft K2).
Definition spt (P : option (K1 * K1)) : option (K2 * K2) := if P is Some (x, y) then Some (s x / (m * m), s y / (m * m * m)) else None.
Lemma m2 : m * m != 0. Proof. by apply/eqP => /eqP; rewrite mulf_eq0 orbb => /eqP. Qed.
Lemma m3 : m * m * m != 0. Proof. by rewrite mulf_neq0 ?m2 //; apply/eqP. Qed.
Lemma spt_on (P : V1) : onb a2 b2 (spt (ev P)).
Proof.
case: P => [[[x y]|] //=] /eqP e; apply/eqP.
have e' : s y * s y = s x * s x * s x + a2 * (m * m * (m * m)) * s x + b2 * (m * m * m * (m * m * m)) by rewrite -rmorphM e !(rmorphD, rmorphM) ha hb.
exact: (sc_on ft m0 e').
Qed.
Definition smap (P : V1) : V2 := @EP K2 a2 b2 (spt (ev P)) (spt_on P).
Lemma ev_smap (P : V1) : ev (smap P) = spt (ev P). Proof. by []. Qed.
Lemma spt_inj : injective spt.
Proof. by move=> [[x y]|] [[x' y']|] //= [/(mulIf (invr_neq0 m2)) /fmorph_inj -> /(mulIf (invr_neq0 m3)) /fmorph_inj ->]. Qed.
Lemma smap_inj : injective smap.
Proof. by move=> P Q /(congr1 (@ev K2 a2 b2)) /= /spt_inj /ev_inj. Qed.
Lemma spt_third x1 y1 x2 l l' : l' = s l / m ->
  P_Group.third _ *%R (fun x y => x - y) (s x1 / (m * m)) (s y1 / (m * m * m)) (s x2 / (m * m)) l' =
  (s (P_Group.third _ *%R (fun x y => x - y) x1 y1 x2 l).1 / (m * m), s (P_Group.third _ *%R (fun x y => x - y) x1 y1 x2 l).2 / (m * m * m)).
Proof.
move=> ->; rewrite /P_Group.third /= !(rmorphB, rmorphM).
have [e1 e2] := sc_third ft m0 (s x1) (s y1) (s x2) (s l).
by congr (_, _).
Qed.
Lemma spt_GA P Q : spt (GA a1 P Q) = GA a2 (spt P) (spt Q).
Proof.
case: P => [[x1 y1]|] //; case: Q => [[x2 y2]|] //=.
case: (kd x1 x2) => [->|n1].
- case: (kd (s x2 / (m * m)) (s x2 / (m * m))) => // _; case: (kd y1 (- y2)) => [->|n2].
    by case: (kd (s (- y2) / _) _) => // -[]; rewrite rmorphN mulNr.
  case: (kd (s y1 / (m * m * m)) _) => [e|_].
    by case: n2; apply: (fmorph_inj s); rewrite rmorphN; apply: (mulIf (invr_neq0 m3)); rewrite e mulNr.
  congr Some; symmetry; apply: spt_third.
  have [z|nz] := eqVneq ((1 + 1) * s y1) 0.
    have -> : (1 + 1) * (s y1 / (m * m * m)) = 0 by rewrite mulrA z mul0r.
    rewrite invr0 mulr0 rmorphM fmorphV !(rmorphD, rmorphM, rmorph1) z invr0 mulr0 mul0r //.
  have e := sc_tan ft m0 (s x2) a2 (elimN eqP nz).
  by rewrite -ha in e; rewrite !(rmorphM, rmorphD, rmorph1, fmorphV) in e *.
- case: (kd (s x1 / (m * m)) _) => [/(mulIf (invr_neq0 m2)) /fmorph_inj //|_].
  congr Some; symmetry; apply: spt_third.
  have d0 : s x1 - s x2 <> 0 by rewrite -rmorphB => /eqP; rewrite fmorph_eq0 subr_eq0 => /eqP.
  have e := sc_chord ft m0 (s y1) (s y2) d0.
  by rewrite !(rmorphM, rmorphB, fmorphV) in e *.
Qed.
Lemma smapD : {morph smap : P Q / P + Q}.
Proof. by move=> P Q; apply: ev_inj; rewrite evD /= spt_GA. Qed.
Lemma smap_add : additive smap.
Proof.
have f0 : smap 0 = 0 by apply: ev_inj.
have fN P : smap (- P) = - smap P by apply/eqP; rewrite -addr_eq0 -smapD addNr f0.
by move=> P Q; rewrite smapD fN.
Qed.
Canonical smap_additive := Additive smap_add.
End Smap.
