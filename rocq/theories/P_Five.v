(** The 5-division polynomial: points of order 5 over a field. *)
From Coq Require Import ZArith Field_theory Ring Field.
From mathcomp Require Import all_ssreflect all_algebra.
From Verif Require Import P_Group P_HasseGcd P_Tors3 P_EK.
Set Implicit Arguments. Unset Strict Implicit. Unset Printing Implicit Defensive.
Import GRing.Theory.
Local Open Scope ring_scope.

Section FiveId.
Variable K : Type.
Variables (k0 k1 : K) (kadd kmul ksub : K -> K -> K) (kopp : K -> K) (kdiv : K -> K -> K) (kinv : K -> K).
Variable Kf : field_theory k0 k1 kadd kmul ksub kopp kdiv kinv (@eq K).
Add Field Kfield_five : Kf.
Notation "0" := k0. Notation "1" := k1.
Infix "+" := kadd. Infix "*" := kmul. Infix "-" := ksub. Infix "/" := kdiv. Notation "- x" := (kopp x).
Notation "2" := (1 + 1). Notation "3" := (1 + 1 + 1).
Lemma mul_ne (u v : K) : u <> 0 -> v <> 0 -> u * v <> 0.
Proof. intros h1 h2 e. apply h2. transitivity (u * v / u); [field; exact h1|]. rewrite e. field. exact h1. Qed.
Ltac fld := field; repeat split; repeat apply mul_ne; auto.
Variables a b : K.
Notation p3 := (@psi3 K 1 kadd kmul ksub a b). Notation om := (@om2 K 1 kadd kmul ksub a b).
Definition fK (x : K) : K := x * x * x + a * x + b.
(** psi_5 = psi_4 psi_2^3 - psi_3^3 with psi_2 = 2 y, psi_4 = 4 y om2 and y^2 = f(x). *)
Definition p5 (x : K) : K := 2 * 2 * 2 * 2 * 2 * (fK x * fK x * om x) - p3 x * p3 x * p3 x.
Lemma five_chord0 x : let f := fK x in
  (om x - 2 * 2 * 2 * (f * f)) * (om x - 2 * 2 * 2 * (f * f)) = (2 * 2 * 3 * (x * f) - 2 * p3 x) * (p3 x * p3 x) - p5 x.
Proof. unfold p5, fK, om2, psi3. cbv zeta. ring. Qed.
Lemma five_chord x y : 2 <> 0 -> y <> 0 -> y * y = fK x -> p5 x = 0 ->
  let x2 := x - p3 x / (2 * 2 * (y * y)) in let y2 := om x / (2 * 2 * 2 * (y * y * y)) in
  (y2 - y) * (y2 - y) = (x2 + x + x2) * ((x2 - x) * (x2 - x)).
Proof.
  intros h2 hy e h5 x2 y2. pose proof (five_chord0 x) as I. cbv zeta in I. rewrite h5 -e in I.
  transitivity ((om x - 2 * 2 * 2 * (y * y * (y * y))) * (om x - 2 * 2 * 2 * (y * y * (y * y))) / (2 * 2 * 2 * (2 * 2 * 2) * (y * y * y * (y * y * y)))).
  - unfold y2. fld.
  - rewrite I. unfold x2. fld.
Qed.
Lemma five_double x y : 2 <> 0 -> y <> 0 -> y * y = fK x ->
  let l := (3 * (x * x) + a) / (2 * y) in let x2 := l * l - x - x in
  x2 = x - p3 x / (2 * 2 * (y * y)) /\ l * (x - x2) - y = om x / (2 * 2 * 2 * (y * y * y)).
Proof.
  intros h2 hy e l x2. 
  assert (E1 : x2 = x - p3 x / (2 * 2 * (y * y))).
  { transitivity (((3 * (x * x) + a) * (3 * (x * x) + a) - 2 * 2 * 2 * x * (y * y)) / (2 * 2 * (y * y))); [unfold x2, l; fld|].
    transitivity ((2 * 2 * x * (y * y) - p3 x) / (2 * 2 * (y * y))); [|fld].
    rewrite e. f_equal. unfold fK, psi3. ring. }
  split; [exact E1|]. rewrite E1. unfold l.
  transitivity (((3 * (x * x) + a) * p3 x - 2 * 2 * 2 * (y * y * (y * y))) / (2 * 2 * 2 * (y * y * y))); [fld|].
  f_equal. rewrite e. unfold fK, psi3, om2. ring.
Qed.
Lemma om_p3 x : om x = p3 x * (3 * (x * x) + a) - 2 * 2 * 2 * (fK x * fK x).
Proof. unfold fK, psi3, om2. ring. Qed.
(** The derivative: psi_3 psi_5' = 5 psi_4^2 + 20 f psi_5. *)
Lemma five_deriv x f' o' : f' = 3 * (x * x) + a ->
  o' = 2 * 3 * (x * x * x * x * x) + (2 * 2 + 1) * a * (2 * 2 * (x * x * x)) + 2 * 2 * (2 * 2 + 1) * b * (3 * (x * x)) - (2 * 2 + 1) * (a * a) * (2 * x) - 2 * 2 * a * b ->
  p3 x * (2 * 2 * 2 * 2 * 2 * (2 * (f' * fK x) * om x + fK x * fK x * o') - 3 * (p3 x * p3 x * (2 * 2 * 3 * fK x))) =
  (2 * 2 + 1) * (2 * 2 * 2 * 2) * (fK x * (om x * om x)) + (2 * 2 * (2 * 2 + 1)) * (fK x * p5 x).
Proof. intros -> ->. unfold p5, fK, om2, psi3. ring. Qed.
End FiveId.

Section Five.
Variables (K : fieldType) (a b : K) (c2 : 1 + 1 <> 0 :> K) (ns : forall x y : K, y * y = x * x * x + a * x + b -> y = 0 -> (1 + 1 + 1) * (x * x) + a = 0 -> False).
Notation V := (gpt c2 ns).
Notation ft := (field_ft K).
Notation "2" := (1 + 1 : K) : ring_scope. Notation "3" := (1 + 1 + 1 : K) : ring_scope.
Notation p3 := (psi3K a b). Notation om := (@om2 K 1 +%R *%R (fun x y => x - y) a b).
Definition psi5K (x : K) : K := @p5 K 1 +%R *%R (fun x y => x - y) a b x.
Lemma n2 : 2 != 0. Proof. exact/eqP. Qed.
Section P.
Variables x y : K.
Hypothesis on : y * y = x * x * x + a * x + b.
Hypothesis h5 : psi5K x = 0.
Lemma psi5E : psi5K x = 2 * 2 * 2 * 2 * 2 * (y * y * (y * y) * om x) - p3 x * p3 x * p3 x.
Proof. by rewrite /psi5K /p5 /fK -on. Qed.
Lemma p3_5 : p3 x * p3 x * p3 x = 2 * 2 * 2 * 2 * 2 * (y * y * (y * y) * om x).
Proof. by apply/eqP; rewrite eq_sym -subr_eq0 -psi5E h5. Qed.
Lemma omE : om x = p3 x * (3 * (x * x) + a) - 2 * 2 * 2 * (y * y * (y * y)).
Proof. rewrite on; exact (om_p3 ft a b x). Qed.
Lemma five_y : y <> 0.
Proof.
move=> y0; apply: (@psi3_y K a b ns x y on) => //; apply/eqP.
have /eqP := p3_5; rewrite y0 !(mulr0, mul0r) !mulf_eq0; by case/orP => [/orP []|].
Qed.
Lemma five_p3 : p3 x <> 0.
Proof.
move=> p0; have o := omE; rewrite p0 mul0r sub0r in o.
have /eqP := p3_5; rewrite p0 mulr0 eq_sym !mulf_eq0 (negbTE n2) /= o oppr_eq0 !mulf_eq0 (negbTE n2) /= !orbb => /eqP; exact: five_y.
Qed.
Lemma five_om : om x <> 0.
Proof.
move=> o; apply: five_p3; apply/eqP; have /eqP := p3_5; rewrite o !mulr0 !mulf_eq0 => /orP [/orP []|] //.
Qed.
Definition x2 := x - p3 x / (2 * 2 * (y * y)).
Definition y2 := om x / (2 * 2 * 2 * (y * y * y)).
Lemma y20 : 2 * y != 0. Proof. by rewrite mulf_neq0 ?n2 //; apply/eqP/five_y. Qed.
Variable P : V.
Hypothesis eP : ev P = Some (x, y).
Lemma ev_2 : ev (P *+ 2) = Some (x2, y2).
Proof.
rewrite mulr2n evD eP /=; case: kd => // _; case: kd => [e|_].
  by have /eqP := y20; case; rewrite mulrDl mul1r {1}e addNr.
have [e1 e2] := @five_double K _ _ _ _ _ _ _ _ ft a b x y c2 five_y on.
rewrite /P_Group.third /=; cbv zeta beta in e1, e2; congr (Some (_, _)); [exact: e1|exact: e2].
Qed.
Lemma P0' : P != 0. Proof. by apply/eqP => /(congr1 (@ev K a b)); rewrite eP. Qed.
Lemma five_3 : P *+ 3 = - (P *+ 2).
Proof.
have e := @five_chord K _ _ _ _ _ _ _ _ ft a b x y c2 five_y on h5.
have := (chordE ev_2 eP ev_2).1 e; rewrite -mulrSr; case=> [h|[h|//]].
- have : P *+ 2 - P = P - P by rewrite h.
  by rewrite mulrSr addrK mulr1n subrr => h0; case/eqP: P0'.
- have : P *+ 3 - P *+ 2 = 0 by rewrite h subrr.
  by rewrite mulrSr addrC addKr => h0; case/eqP: P0'.
Qed.
Lemma five_5 : P *+ 5 = 0. Proof. by rewrite (mulrnDr P 3 2) five_3 addNr. Qed.
Lemma five_4 : P *+ 4 = - P. Proof. by apply/eqP; rewrite -addr_eq0 -mulrSr five_5. Qed.
End P.
End Five.
