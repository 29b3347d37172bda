(** The points of y^2 = x^3 + a x + b over a field of characteristic other than 2 as a mathcomp abelian group. *)
From Coq Require Import ZArith Field_theory Ring Field.
From mathcomp Require Import all_ssreflect all_algebra.
From Verif Require Import P_Group P_HasseGcd P_Tors3.
Set Implicit Arguments. Unset Strict Implicit. Unset Printing Implicit Defensive.
Import GRing.Theory.
Local Open Scope ring_scope.

Section EK.
Variable K : fieldType.
Definition kd (x y : K) : {x = y} + {x <> y} := @eq_comparable K x y.
Variables a b : K.
Hypothesis c2 : 1 + 1 <> 0 :> K.
Hypothesis ns : forall x y : K, y * y = x * x * x + a * x + b -> y = 0 -> (1 + 1 + 1) * (x * x) + a = 0 -> False.
Notation ft := (field_ft K).
Add Field KF : ft.
Notation pt := (option (K * K)).
Definition GA : pt -> pt -> pt := @P_Group.gadd K 1 +%R *%R (fun x y => x - y) -%R (fun x y => x / y) kd a.
Definition GN : pt -> pt := @P_Group.neg K -%R.
Definition ON : pt -> Prop := @P_Group.on K +%R *%R a b.
Definition onb (P : pt) : bool := if P is Some (x, y) then y * y == x * x * x + a * x + b else true.
Lemma onP P : reflect (ON P) (onb P).
Proof. case: P => [[x y]|] /=; [exact: eqP|by constructor]. Qed.

Record epoint := EP { ev :> pt; _ : onb ev }.
Canonical epoint_subType := Eval hnf in [subType for ev].
Definition epoint_eqMixin := Eval hnf in [eqMixin of epoint by <:].
Canonical epoint_eqType := Eval hnf in EqType epoint epoint_eqMixin.
Definition epoint_choiceMixin := [choiceMixin of epoint by <:].
Canonical epoint_choiceType := Eval hnf in ChoiceType epoint epoint_choiceMixin.
Lemma ev_on (P : epoint) : ON P. Proof. by apply/onP; case: P. Qed.
Lemma ga_on (P Q : epoint) : onb (GA P Q).
Proof. apply/onP; apply: (@P_Group.gadd_on K 0 1 _ _ _ _ _ _ ft); [exact: c2|exact: ev_on|exact: ev_on]. Qed.
Lemma gn_on (P : epoint) : onb (GN P).
Proof. apply/onP; apply: (@P_Group.neg_on K 0 1 _ _ _ _ _ _ ft); exact: ev_on. Qed.
Definition ep0 : epoint := @EP None isT.
Definition epD (P Q : epoint) : epoint := EP (ga_on P Q).
Definition epN (P : epoint) : epoint := EP (gn_on P).
Lemma epA : associative epD.
Proof. move=> P Q R; apply: val_inj => /=; apply/esym; apply: (@P_Group.gadd_assoc K 0 1 _ _ _ _ _ _ ft _ c2 a b ns); exact: ev_on. Qed.
Lemma epC : commutative epD.
Proof. move=> P Q; apply: val_inj => /=; apply: (@P_Group.gadd_comm K 0 1 _ _ _ _ _ _ ft _ c2 a b); exact: ev_on. Qed.
Lemma ep0l : left_id ep0 epD.
Proof. by move=> P; apply: val_inj. Qed.
Lemma epNl : left_inverse ep0 epN epD.
Proof. move=> P; rewrite epC; apply: val_inj => /=; apply: (@P_Group.gadd_opp K 0 1 _ _ _ _ _ _ ft _ c2 a b); exact: ev_on. Qed.
Definition epoint_zmodMixin := ZmodMixin epA epC ep0l epNl.
(** The same type, carrying the two hypotheses, so that the group structure is found by inference outside this section. *)
Definition ept := epoint.
Lemma use_ : (1 + 1 <> 0 :> K) /\ (forall x y : K, y * y = x * x * x + a * x + b -> y = 0 -> (1 + 1 + 1) * (x * x) + a = 0 -> False). Proof. by []. Qed.
End EK.
Definition gpt (K : fieldType) (a b : K) (c2 : 1 + 1 <> 0 :> K) (ns : forall x y : K, y * y = x * x * x + a * x + b -> y = 0 -> (1 + 1 + 1) * (x * x) + a = 0 -> False) : Type := epoint a b.
Section Canon.
Variables (K : fieldType) (a b : K) (c2 : 1 + 1 <> 0 :> K) (ns : forall x y : K, y * y = x * x * x + a * x + b -> y = 0 -> (1 + 1 + 1) * (x * x) + a = 0 -> False).
Notation V := (gpt c2 ns).
Canonical gpt_subType := Eval hnf in [subType of V].
Canonical gpt_eqType := Eval hnf in [eqType of V].
Canonical gpt_choiceType := Eval hnf in [choiceType of V].
Canonical gpt_zmodType := Eval hnf in ZmodType V (epoint_zmodMixin c2 ns).
Lemma evD (P Q : V) : ev (P + Q : V) = GA a (ev P) (ev Q). Proof. by []. Qed.
Lemma evN (P : V) : ev (- P : V) = GN (ev P). Proof. by []. Qed.
Lemma ev0 : ev (0 : V) = None. Proof. by []. Qed.
Lemma ev_inj (P Q : V) : ev P = ev Q -> P = Q. Proof. exact: val_inj. Qed.
End Canon.

Section Frob.
Variables (K : fieldType) (a b : K) (c2 : 1 + 1 <> 0 :> K) (ns : forall x y : K, y * y = x * x * x + a * x + b -> y = 0 -> (1 + 1 + 1) * (x * x) + a = 0 -> False).
Notation V := (gpt c2 ns).
Variable fr : {rmorphism K -> K}.
Hypothesis fra : fr a = a.
Hypothesis frb : fr b = b.
Definition fpt (P : option (K * K)) : option (K * K) := if P is Some (x, y) then Some (fr x, fr y) else None.
Lemma fpt_on (P : V) : onb a b (fpt (ev P)).
Proof. by case: P => [[[x y]|] //=] /eqP e; rewrite -rmorphM e !rmorphD !rmorphM fra frb. Qed.
Definition frob (P : V) : V := @EP K a b (fpt (ev P)) (fpt_on P).
Lemma fpt_inj : injective fpt.
Proof. by move=> [[x y]|] [[x' y']|] //= [/fmorph_inj -> /fmorph_inj ->]. Qed.
Lemma frob_inj : injective frob.
Proof. by move=> P Q /(congr1 (@ev K a b)) /= /fpt_inj /ev_inj. Qed.
Lemma fpt_GA P Q : fpt (GA a P Q) = GA a (fpt P) (fpt Q).
Proof.
case: P => [[x1 y1]|] //; case: Q => [[x2 y2]|] //=; rewrite /P_Group.third.
case: (kd x1 x2) => [->|n1].
- case: (kd (fr x2) (fr x2)) => // _; case: (kd y1 (- y2)) => [->|n2].
    by case: (kd (fr (- y2)) (- fr y2)) => // -[]; rewrite rmorphN.
  case: (kd (fr y1) (- fr y2)) => [e|_]; first by case: n2; apply: (fmorph_inj fr); rewrite rmorphN.
  by rewrite /= !(rmorphB, rmorphD, rmorphM, fmorphV, rmorph1, fra).
- case: (kd (fr x1) (fr x2)) => [/fmorph_inj //|_].
  by rewrite /= !(rmorphB, rmorphD, rmorphM, fmorphV, rmorph1, fra).
Qed.
Lemma frobD : {morph frob : P Q / P + Q}.
Proof. by move=> P Q; apply: ev_inj; rewrite evD /= fpt_GA. Qed.
Lemma frob_add : additive frob.
Proof.
have f0 : frob 0 = 0 by apply: ev_inj.
have fN P : frob (- P) = - frob P by apply/eqP; rewrite -addr_eq0 -frobD addNr f0.
by move=> P Q; rewrite frobD fN.
Qed.
Canonical frob_additive := Additive frob_add.
End Frob.

Section Three.
Variables (K : fieldType) (a b : K) (c2 : 1 + 1 <> 0 :> K) (ns : forall x y : K, y * y = x * x * x + a * x + b -> y = 0 -> (1 + 1 + 1) * (x * x) + a = 0 -> False).
Notation V := (gpt c2 ns).
Notation ft := (field_ft K).
Notation "2" := (1 + 1 : K). Notation "3" := (1 + 1 + 1 : K).
Definition psi3K (x : K) : K := @psi3 K 1 +%R *%R (fun x y => x - y) a b x.
Definition tors3 (P : option (K * K)) : bool := if P is Some (x, _) then psi3K x == 0 else true.
Lemma psi3_y x y : y * y = x * x * x + a * x + b -> psi3K x = 0 -> y <> 0.
Proof. move=> e p0 y0; exact: (ns e y0 (psi3_sing K _ _ _ _ _ _ _ _ ft (@kd K) a b x y e p0 y0)). Qed.
Lemma torsP (P : V) : (P *+ 3 == 0) = tors3 (ev P).
Proof.
rewrite mulrS mulr2n addr_eq0 eq_sym -(inj_eq (@oppr_inj _)) opprK.
apply/eqP/idP => [/(congr1 (@ev K a b))|].
  rewrite evN evD; case: P => -[[x y]|] //= on; case: kd => // _; case: kd => //= ny [e1 _].
  have y0 : y <> 0 by move=> y0; apply: ny; rewrite y0 oppr0.
  by move/eqP: on => on; apply/eqP; apply: (double_psi3 K _ _ _ _ _ _ _ _ ft c2 a b x y on y0 e1).
move=> t; apply: ev_inj; rewrite evN evD; move: t; case: P => -[[x y]|] //= on /eqP p0; move/eqP: on => on.
have y0 := psi3_y on p0.
case: kd => // _; case: kd => [e|_]; first by case: y0; apply: (P_Group.k_opp_0 _ _ _ _ _ _ _ _ _ ft (@kd K) c2).
have [e1 e2] := psi3_double K _ _ _ _ _ _ _ _ ft (@kd K) c2 a b x y on y0 p0.
rewrite /P_Group.third /=; cbv zeta beta in e1, e2; congr (Some (_, _)); [exact: e1|exact: e2].
Qed.
(** Points with the same x-coordinate. *)
Lemma same_xE (A B : V) x y y' : ev A = Some (x, y) -> ev B = Some (x, y') -> A = B \/ A = - B.
Proof.
move=> eA eB; have := ev_on A; have := ev_on B; rewrite eA eB /= => oB oA.
case: (P_Group.same_x _ _ _ _ _ _ _ _ _ ft (@kd K) _ _ _ _ _ oA oB) => e; [left|right]; apply: ev_inj; rewrite ?evN eA eB e //.
Qed.
Lemma chordE (A B C : V) x1 y1 x2 y2 x3 y3 : ev A = Some (x1, y1) -> ev B = Some (x2, y2) -> ev C = Some (x3, y3) ->
  ((y1 - y2) * (y1 - y2) = (x1 + x2 + x3) * ((x1 - x2) * (x1 - x2)) <-> A = B \/ A + B = C \/ A + B = - C).
Proof.
move=> eA eB eC; have [e12|n12] := eqVneq x1 x2.
- subst x2; rewrite subrr mulr0 mulr0; split.
    move/eqP; rewrite mulf_eq0 orbb subr_eq0 => /eqP e; left; apply: ev_inj; by rewrite eA eB e.
  case=> [e|h]; first by move: eA; rewrite e eB => -[->]; rewrite subrr mulr0.
  case: (same_xE eA eB) => e; first by move: eA; rewrite e eB => -[->]; rewrite subrr mulr0.
  by exfalso; case: h; rewrite e addNr => /(congr1 (@ev K a b)); rewrite ?evN eC.
- have n : x1 <> x2 by apply/eqP.
  have eS : ev (A + B) = Some (P_Group.third _ *%R (fun x y => x - y) x1 y1 x2 ((y2 - y1) / (x2 - x1))) by rewrite evD eA eB /=; case: kd.
  have [h1 h2] := chord_x K _ _ _ _ _ _ _ _ ft (@kd K) x1 y1 x2 y2 x3 n.
  split=> [/h2 e|[e|h]].
  + right; rewrite /P_Group.third /= in eS; cbv zeta in e; rewrite [X in Some (X, _)]e in eS; exact: (@same_xE (A + B) C _ _ _ eS eC).
  + by exfalso; apply: n; move: eA; rewrite e eB => -[->].
  + by apply: h1; case: h => e; move: eS; rewrite e ?evN eC /= => -[<-].
Qed.
End Three.
