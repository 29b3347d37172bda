(** Hasse's bound, part 4: the theorem over a finite field of odd order. *)
From Coq Require Import ZArith.
From mathcomp Require Import all_ssreflect all_algebra zify.
From Verif Require Import P_HasseStep P_HasseDeg P_HasseFrob.
Set Implicit Arguments. Unset Strict Implicit. Unset Printing Implicit Defensive.
Import GRing.Theory.
Local Open Scope ring_scope.

Section FracEx.
Import FracField.
Variable R : idomainType.
Lemma frac_ex (x : {fraction R}) : exists n d : R, d != 0 /\ x = (@tofrac R n) / (@tofrac R d).
Proof.
elim/quotW: x => r; exists \n_r, \d_r; split; first exact: denom_ratioP.
have d0 : (@tofrac R \d_r) != 0 by rewrite tofrac_eq0 denom_ratioP.
apply: (mulIf d0); rewrite divfK //.
unlock tofrac; rewrite -[LHS]pi_mul; apply/eqmodP; rewrite /= /equivf /mulf !numden_Ratio ?(oner_neq0, mulr1, denom_ratioP) //.
by rewrite mulrC.
Qed.
End FracEx.

Section Hasse.
Variable F : finFieldType.
Variable h : nat.
Hypothesis qh : #|F| = (2 * h).+1.
Hypothesis h0 : (0 < h)%N.
Hypothesis qc : [char F].-nat #|F|.
Variables a b : F.
Hypothesis c2 : 1 + 1 != 0 :> F.
Hypothesis disc : (1 + 1) * (1 + 1) * (a * a * a) + (1 + 1 + 1) * (1 + 1 + 1) * (1 + 1 + 1) * (b * b) != 0.
Notation f := (f a b).
Lemma card_curve : #|[set xy : F * F | xy.2 * xy.2 == f xy.1]| = (n0 a b + 2 * np h a b)%N.
Proof.
rewrite -sum1_card (eq_bigl (fun xy : F * F => xy.2 * xy.2 == f xy.1)); last by move=> xy; rewrite inE.
rewrite -(pair_big_dep xpredT (fun x y : F => y * y == f x) (fun _ _ => 1%N)) /=.
have e x : (\sum_(y | (y * y)%R == f x) 1 = (f x == 0%R) + 2 * (f x ^+ h == 1%R))%N.
  have := card_sq qh c2 (f x); rewrite -sum1_card (eq_bigl (fun y => y * y == f x)) => [->|y]; last by rewrite inE.
  by have [fx|fx] := boolP (f x == 0); rewrite ?(f0h h0 fx) //; case: ifP.
rewrite (eq_bigr _ (fun x _ => e x)) big_split /= -big_distrr /=.
rewrite /n0 /np /rs !size_filter -!sum1_count !(big_mkcond (fun i => _ == _)) /=.
by congr (_ + 2 * _)%N; apply: eq_bigr => x _; case: eqP.
Qed.
Local Open Scope Z_scope.
Theorem hasse_fin : let c := Z.of_nat #|[set xy : F * F | (xy.2 * xy.2)%R == f xy.1]| - Z.of_nat #|F| in c * c <= 4 * Z.of_nat #|F|.
Proof.
move=> c; rewrite /c card_curve.
have inj : injective (@FracField.tofrac [idomainType of {poly F}]) by move=> x y /eqP; rewrite tofrac_eq => /eqP.
have H := hasse_quad qh h0 qc c2 disc inj (@frac_ex _).
move: (n0 a b + 2 * np h a b)%N H => N H; rewrite qh in H *.
have [[k e]|[k e]] := Z.Even_or_Odd (Z.of_nat N - Z.of_nat (2 * h).+1).
- have := H k; lia.
- have H1 := H k; have H2 := H (k + 1); rewrite e.
  have [E|E] : 4 * Z.of_nat (2 * h).+1 + 1 <= (2 * k + 1) * (2 * k + 1) \/ (2 * k + 1) * (2 * k + 1) <= 4 * Z.of_nat (2 * h).+1 by lia.
  + exfalso. have E2 : k * (k + 1) = 2 * Z.of_nat h + 1 by nia.
    have := Z.mul_succ_r; have : Z.even (k * (k + 1)) = true by rewrite Z.even_mul Z.even_add; case: (Z.even k).
    by rewrite E2 Z.even_add Z.even_mul.
  + lia.
Qed.
End Hasse.
