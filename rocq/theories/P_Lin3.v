(** An additive injection on the 3-torsion of an abelian group with at most 9 elements of order dividing 3. *)
From mathcomp Require Import all_ssreflect all_algebra zify.
Set Implicit Arguments. Unset Strict Implicit. Unset Printing Implicit Defensive.
Import GRing.Theory.
Local Open Scope ring_scope.

Section Lin3.
Variables (V : zmodType) (phi : {additive V -> V}).
Hypothesis phi_inj : injective phi.
Definition T (P : V) := P *+ 3 == 0.
Hypothesis bound : forall s : seq V, uniq s -> all T s -> (size s <= 9)%N.
Lemma T0 : T 0. Proof. by rewrite /T mul0rn. Qed.
Lemma TD P Q : T P -> T Q -> T (P + Q). Proof. by rewrite /T mulrnDl => /eqP -> /eqP ->; rewrite addr0. Qed.
Lemma TN P : T P -> T (- P). Proof. by rewrite /T mulNrn oppr_eq0. Qed.
Lemma TB P Q : T P -> T Q -> T (P - Q). Proof. by move=> tP tQ; apply: TD => //; apply: TN. Qed.
Lemma Tn P n : T P -> T (P *+ n). Proof. by rewrite /T -mulrnA mulnC mulrnA => /eqP ->; rewrite mul0rn. Qed.
Lemma Tphi P : T P -> T (phi P). Proof. by rewrite /T -raddfMn => /eqP ->; rewrite raddf0. Qed.
Lemma Tmod P n : T P -> P *+ n = P *+ (n %% 3).
Proof. by move=> /eqP t; rewrite {1}(divn_eq n 3) mulrnDr mulnC mulrnA t mul0rn add0r. Qed.
Lemma T2 P : T P -> P *+ 2 = - P.
Proof. by move=> /eqP t; apply/eqP; rewrite -addr_eq0 -mulrSr t. Qed.
Lemma TPP P : T P -> P + P = - P. Proof. by rewrite -mulr2n; exact: T2. Qed.
Lemma TNN P : T P -> - P - P = P. Proof. by move=> t; rewrite (TPP (TN t)) opprK. Qed.
Lemma nopp P : T P -> P = - P -> P = 0.
Proof. by move=> t e; have := TPP t; rewrite {2}e subrr => /esym /eqP; rewrite oppr_eq0 => /eqP. Qed.
Lemma indep P Q i j : T P -> T Q -> P != 0 -> Q != 0 -> Q != P -> Q != - P -> (i < 3)%N -> (j < 3)%N -> P *+ i + Q *+ j = 0 -> i = 0%N /\ j = 0%N.
Proof.
move=> tP tQ P0 Q0 n1 n2.
case: i => [|[|[|//]]] _; case: j => [|[|[|//]]] _ //; rewrite ?mulr0n ?mulr1n ?add0r ?addr0 ?T2 // => /eqP; rewrite ?oppr_eq0 ?(negbTE P0) ?(negbTE Q0) //.
- by rewrite addrC addr_eq0 (negbTE n2).
- by rewrite subr_eq0 eq_sym (negbTE n1).
- by rewrite addrC subr_eq0 (negbTE n1).
- by rewrite -opprD oppr_eq0 addrC addr_eq0 (negbTE n2).
Qed.
Lemma span P Q R : T P -> T Q -> T R -> P != 0 -> Q != 0 -> Q != P -> Q != - P -> exists i j, (i < 3)%N /\ (j < 3)%N /\ R = P *+ i + Q *+ j.
Proof.
move=> tP tQ tR P0 Q0 n1 n2.
pose f (ij : 'I_3 * 'I_3) := P *+ ij.1 + Q *+ ij.2.
have fi : injective f.
  move=> [i j] [i' j'] /= e.
  have e2 : P *+ ((i + 2 * i') %% 3) + Q *+ ((j + 2 * j') %% 3) = 0.
    rewrite -!Tmod // !mulrnDr addrACA [X in X + _]e /f /= addrACA -!mulrnDr.
    have h3 (m : nat) : (m + (m + (m + 0)) = 3 * m)%N by lia.
    rewrite !h3 !mulrnA.
    by move/eqP: tP => ->; move/eqP: tQ => ->; rewrite !mul0rn addr0.
  have [h1 h2] := indep tP tQ P0 Q0 n1 n2 (ltn_pmod _ (isT : 0 < 3)%N) (ltn_pmod _ (isT : 0 < 3)%N) e2.
  by congr (_, _); apply: val_inj => /=; move: (ltn_ord i) (ltn_ord i') (ltn_ord j) (ltn_ord j') h1 h2; lia.
pose s := map f (enum [set: 'I_3 * 'I_3]).
have us : uniq s by rewrite map_inj_uniq // enum_uniq.
have ss : size s = 9%N by rewrite size_map -cardE cardsT card_prod card_ord.
have [|nR] := boolP (R \in s); first by case/mapP=> -[i j] _ ->; exists i, j; rewrite !ltn_ord.
have := @bound (R :: s); rewrite /= nR us tR ss => /(_ isT) H; suff : (10 <= 9)%N by [].
by apply: H; apply/allP=> X /mapP [[i j] _ ->]; apply: TD; apply: Tn.
Qed.
(** The tests of schoof's x-stage at a point of order 3, for q = 1 and q = 2 modulo 3. *)
Definition match1 P := P = phi (phi P) \/ P + phi (phi P) = phi P \/ P + phi (phi P) = - phi P.
Definition match2 P := - P = phi (phi P) \/ - P + phi (phi P) = phi P \/ - P + phi (phi P) = - phi P.
Definition eig1 := exists P, [/\ T P, P != 0 & phi P = P].
Definition eigN := exists P, [/\ T P, P != 0 & phi P = - P].
Lemma sq1 P : T P -> P != 0 -> P + phi (phi P) = - phi P -> eig1.
Proof.
move=> t n e; have [e1|n1] := eqVneq (phi P) P; first by exists P.
exists (phi P - P); split; [by apply: TB => //; apply: Tphi|by rewrite subr_eq0|].
have e2 : phi (phi P) = - phi P - P by rewrite -e addrC addKr.
by rewrite raddfB e2 addrAC TNN ?Tphi.
Qed.
Lemma sqN P : T P -> P != 0 -> P + phi (phi P) = phi P -> eigN.
Proof.
move=> t n e; have [e1|n1] := eqVneq (phi P) (- P); first by exists P.
exists (phi P + P); split; [by apply: TD => //; apply: Tphi|by rewrite addr_eq0|].
have e2 : phi (phi P) = phi P - P by apply/esym/eqP; rewrite subr_eq addrC e.
by rewrite raddfD e2 addrAC TPP ?Tphi // opprD.
Qed.
Lemma sq0 P : T P -> P != 0 -> P = phi (phi P) -> eig1 \/ eigN.
Proof.
move=> t n e; have [e1|n1] := eqVneq (phi P) (- P); first by right; exists P.
left; exists (phi P + P); split; [by apply: TD => //; apply: Tphi|by rewrite addr_eq0|].
by rewrite raddfD -e addrC.
Qed.
(** q = 1: a match at one nonzero point needs an eigenvalue 1 or -1. *)
Lemma m1_eig P : T P -> P != 0 -> match1 P -> eig1 \/ eigN.
Proof. by move=> t n [/sq0|[/sqN|/sq1]] H; auto. Qed.
(** q = 1: with exactly one of the eigenvalues 1, -1 every point matches. *)
Lemma eig1_m1 P : eig1 -> ~ eigN -> T P -> match1 P.
Proof.
case=> P0 [t0 n0 f0] nN t; right; right.
have key : phi (phi P) = - phi P - P; last by rewrite key addrC subrK.
have [e|nP] := eqVneq P 0; first by rewrite e !raddf0 ?oppr0 ?addr0.
have [e|n1] := eqVneq P P0; first by rewrite e !f0 TNN.
have [e|n2] := eqVneq P (- P0); first by rewrite e !(raddfN, f0) TNN // TN.
have [i [j [hi [hj e]]]] := span t0 t (Tphi t) n0 nP n1 n2.
have fi : phi (P0 *+ i) = P0 *+ i by rewrite raddfMn f0.
case: j hj e => [|[|[|//]]] _ e.
- exfalso; have e2 : P = P0 *+ i by apply: phi_inj; rewrite e fi mulr0n addr0.
  move: e2; case: (i) hi => [|[|[|//]]] _; rewrite ?mulr0n ?mulr1n ?T2 // => h; by move/eqP: h; rewrite ?(negbTE nP) ?(negbTE n1) ?(negbTE n2).
- rewrite mulr1n in e.
  by rewrite e raddfD fi e addrA (TPP (Tn i t0)) [in RHS]opprD -[in RHS]addrA TNN.
- exfalso; apply: nN; exists (P + P0 *+ i); rewrite T2 // in e; split; first by apply: TD => //; apply: Tn.
    apply/negP; rewrite addr_eq0 => /eqP e2; move: n1 n2 nP; rewrite e2.
    by case: (i) hi => [|[|[|//]]] _; rewrite ?mulr0n ?mulr1n ?T2 // ?oppr0 ?opprK ?eqxx.
  rewrite raddfD fi e addrAC TPP ?Tn // opprD addrC //.
Qed.
(** q = 2: no match at a point fixed by phi. *)
Lemma fix_m2 P : T P -> P != 0 -> phi P = P -> ~ match2 P.
Proof.
move=> t /eqP n e; rewrite /match2 !e; case=> [/esym /(nopp t) //|].
rewrite addNr; case=> /esym /eqP; rewrite ?oppr_eq0 => /eqP //.
Qed.
(** q = 2: without eigenvalues 1 and -1 every point matches. *)
Lemma noeig_m2 P : ~ eig1 -> ~ eigN -> T P -> P != 0 -> match2 P.
Proof.
move=> n1 nN t nP.
have f1 : phi P != P by apply/eqP => e; apply: n1; exists P.
have fN : phi P != - P by apply/eqP => e; apply: nN; exists P.
have f0 : phi P != 0 by apply/eqP => e; case/eqP: nP; apply: phi_inj; rewrite e raddf0.
have [i [j [hi [hj e]]]] := span t (Tphi t) (Tphi (Tphi t)) nP f0 f1 fN.
move: e; case: i hi => [|[|[|//]]] _; case: j hj => [|[|[|//]]] _; rewrite ?mulr0n ?mulr1n ?T2 ?Tphi // ?add0r ?addr0 => e.
- by exfalso; case/eqP: f0; apply: phi_inj; rewrite e raddf0.
- by exfalso; case/eqP: f1; apply: phi_inj.
- by exfalso; case/eqP: fN; apply: phi_inj; rewrite e raddfN.
- by exfalso; case: (sq0 t nP (esym e)).
- by right; left; rewrite e addKr.
- by right; right; rewrite e addKr.
- by left.
- by exfalso; apply: nN; apply: (sqN t nP); rewrite e addNKr.
- by exfalso; apply: n1; apply: (sq1 t nP); rewrite e addNKr.
Qed.
End Lin3.

Section Neg.
Variables (V : zmodType) (phi : {additive V -> V}).
Hypothesis phi_inj : injective phi.
Hypothesis bound : forall s : seq V, uniq s -> all (@T V) s -> (size s <= 9)%N.
Definition nphi (P : V) : V := - phi P.
Lemma nphi_add : additive nphi. Proof. by move=> P Q; rewrite /nphi raddfB opprB opprK addrC. Qed.
Canonical nphi_additive := Additive nphi_add.
Lemma eigN_m1 P : eigN phi -> ~ eig1 phi -> T P -> match1 phi P.
Proof.
move=> [P0 [t0 n0 f0]] n1 t.
have ni : injective nphi_additive by move=> X Y /oppr_inj /phi_inj.
have h1 : eig1 nphi_additive by exists P0; rewrite /= /nphi f0 opprK.
have hN : ~ eigN nphi_additive by move=> [X [tX nX /oppr_inj fX]]; apply: n1; exists X.
have e2 : nphi_additive (nphi_additive P) = phi (phi P) by rewrite /= /nphi raddfN opprK.
case: (eig1_m1 ni bound h1 hN t) => [|[]]; rewrite e2 /= /nphi ?opprK => h; [by left|by right; right|by right; left].
Qed.
End Neg.
