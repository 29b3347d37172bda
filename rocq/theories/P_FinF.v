(* P_FinF: the three facts on finite fields used by P_HasseFrob (x^q = x and the factorisation of X^q - X).
   They are the lemmas of mathcomp.field.finfield (same proofs), restated here so that the algebraic numbers that file loads
   stay out of the build. *)
From mathcomp Require Import all_ssreflect all_fingroup all_algebra cyclic.
Set Implicit Arguments.
Unset Strict Implicit.
Unset Printing Implicit Defensive.
Import GroupScope GRing.Theory FinRing.Theory.
Local Open Scope ring_scope.
Section FinField.
Variable F : finFieldType.
Lemma finRing_gt1 : (1 < #|F|)%N.
Proof. by rewrite -cardsT cardG_gt1; apply/trivgPn; exists 1; rewrite ?inE ?oner_neq0. Qed.
Lemma card_finField_unit : #|[set: {unit F}]| = #|F|.-1.
Proof. by rewrite -(cardC1 0) cardsT card_sub; apply: eq_card => x; rewrite unitfE. Qed.
Lemma expf_card x : x ^+ #|F| = x :> F.
Proof.
rewrite -[RHS]mulr1 -(ltn_predK finRing_gt1) exprS.
apply/eqP; rewrite -subr_eq0 -mulrBr mulf_eq0 subr_eq0 -implyNb -unitfE.
apply/implyP=> Ux; rewrite -(val_unitX _ (Sub x _)) -val_unit1 val_eqE.
by rewrite -order_dvdn -card_finField_unit order_dvdG ?inE.
Qed.
Lemma finField_genPoly : 'X^#|F| - 'X = \prod_x ('X - x%:P) :> {poly F}.
Proof.
set n := #|F|; set oppX := - 'X; set pF := LHS.
have le_oppX_n: (size oppX <= n)%N by rewrite size_opp size_polyX finRing_gt1.
have: size pF = (size (enum F)).+1 by rewrite -cardE size_addl size_polyXn.
move/all_roots_prod_XsubC->; last by rewrite uniq_rootsE enum_uniq.
  by rewrite big_enum lead_coefDl ?size_polyXn // lead_coefXn scale1r.
by apply/allP=> x _; rewrite rootE !hornerE hornerXn expf_card subrr.
Qed.
End FinField.
