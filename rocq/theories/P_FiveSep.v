(** The 5-division polynomial has distinct roots. *)
From Coq Require Import ZArith Ring.
From mathcomp Require Import all_ssreflect all_algebra closed_field separable.
From Verif Require Import P_Group P_HasseGcd P_Tors3 P_EK P_Clos P_Five.
Set Implicit Arguments. Unset Strict Implicit. Unset Printing Implicit Defensive.
Import GRing.Theory.
Local Open Scope ring_scope.

Section Idents.
Variables (K : Type) (k0 k1 : K) (kadd kmul ksub : K -> K -> K) (kopp : K -> K).
Hypothesis Kr : ring_theory k0 k1 kadd kmul ksub kopp (@eq K).
Add Ring KR5 : Kr.
Notation "0" := k0. Notation "1" := k1.
Infix "+" := kadd. Infix "*" := kmul. Infix "-" := ksub. Notation "- x" := (kopp x).
Notation "2" := (1 + 1). Notation "3" := (1 + 1 + 1).
Lemma fs_deriv f f' o o' p p' :
  2 * 2 * 2 * 2 * 2 * ((f' * f + f * f') * o + f * f * o') - ((p' * p + p * p') * p + p * p * p') =
  2 * 2 * 2 * 2 * 2 * (2 * (f' * f) * o + f * f * o') - 3 * (p * p * p').
Proof. ring. Qed.
Lemma fs_f a x : (1 * x + x * 1) * x + x * x * 1 + a * 1 = 3 * (x * x) + a.
Proof. ring. Qed.
Lemma i_oph A B x : x * x * x * x * x * x + (2 * 2 + 1) * A * x * x * x * x + 2 * 2 * (2 * 2 + 1) * B * x * x * x - (2 * 2 + 1) * A * A * x * x - 2 * 2 * A * B * x - (2 * 2 * 2 * B * B + A * A * A) = @om2 K 1 kadd kmul ksub A B x.
Proof. unfold om2. ring. Qed.
Lemma i_fpd A x : (x + x) * x + x * x + A = 3 * x * x + A.
Proof. ring. Qed.
Lemma i_opd A B x : x * x * x * x * x + x * x * x * x * x + x * x * x * x * x +
 x * x * x * x * x + x * x * x * x * x + x * x * x * x * x +
 (2 * 2 + 1) * A * (x * x * x + x * x * x + x * x * x + x * x * x) +
 2 * 2 * (2 * 2 + 1) * B * (x * x + x * x + x * x) -
 (2 * 2 + 1) * A * A * (x + x) - 2 * 2 * A * B - 0 =
 2 * 3 * x * x * x * x * x + (2 * 2 + 1) * A * 2 * 2 * x * x * x +
 2 * 2 * (2 * 2 + 1) * B * 3 * x * x - (2 * 2 + 1) * A * A * 2 * x -
 2 * 2 * A * B.
Proof. ring. Qed.
Lemma fs_zero (p d e f o : K) : d = 0 -> p * d = (2 * 2 + 1) * (2 * 2 * 2 * 2) * (f * (o * o)) + (2 * 2 * (2 * 2 + 1)) * (f * e) -> (2 * 2 + 1) * (2 * 2) * f * (2 * 2 * (o * o) + e) = 0.
Proof. intros -> H. transitivity ((2 * 2 + 1) * (2 * 2 * 2 * 2) * (f * (o * o)) + (2 * 2 * (2 * 2 + 1)) * (f * e)); [ring|]. rewrite <- H. ring. Qed.
End Idents.

Section Sep.
Variables (K : closedFieldType) (A B : K).
Notation "2" := (1 + 1) : ring_scope. Notation "3" := (1 + 1 + 1) : ring_scope.
Hypothesis c2 : 2 <> 0 :> K.
Hypothesis c5 : 2 * 2 + 1 != 0 :> K.
Hypothesis ns : forall x y : K, y * y = x * x * x + A * x + B -> y = 0 -> 3 * (x * x) + A = 0 -> False.
Notation om := (@om2 K 1 +%R *%R (fun x y => x - y) A B).
Notation ft := (field_ft K).
Lemma comb_h (c : K) (f o p : {poly K}) x : (c *: (f * f * o) - p * p * p).[x] = c * (f.[x] * f.[x] * o.[x]) - p.[x] * p.[x] * p.[x].
Proof. by rewrite !hornerE. Qed.
Lemma comb_d (c : K) (f o p : {poly K}) x : (c *: (f * f * o) - p * p * p)^`().[x] = c * ((f^`().[x] * f.[x] + f.[x] * f^`().[x]) * o.[x] + f.[x] * f.[x] * o^`().[x]) - ((p^`().[x] * p.[x] + p.[x] * p^`().[x]) * p.[x] + p.[x] * p.[x] * p^`().[x]).
Proof. by rewrite derivB derivZ !derivM !hornerE. Qed.
Lemma comb2 (c d : K) (f o : {poly K}) x : (f * (c *: (o * o) + d%:P)).[x] = f.[x] * (c * (o.[x] * o.[x]) + d).
Proof. by rewrite hornerM hornerD hornerZ hornerM hornerC. Qed.
Definition fP : {poly K} := 'X * 'X * 'X + A%:P * 'X + B%:P.
Definition oP : {poly K} := 'X^6 + ((2 * 2 + 1) * A) *: 'X^4 + (2 * 2 * (2 * 2 + 1) * B) *: 'X^3 - ((2 * 2 + 1) * (A * A)) *: 'X^2 - (2 * 2 * A * B) *: 'X - (2 * 2 * 2 * (B * B) + A * A * A)%:P.
Definition P5 : {poly K} := (2 * 2 * 2 * 2 * 2) *: (fP * fP * oP) - psiP A B * psiP A B * psiP A B.
Lemma fP_h x : fP.[x] = x * x * x + A * x + B. Proof. by rewrite /fP !hornerE. Qed.
Lemma oP_h x : oP.[x] = om x.
Proof. rewrite /oP !hornerE /om2. exact (i_oph (ring_rt [comRingType of K]) A B x). Qed.
Lemma pP_h x : (psiP A B).[x] = psi3K A B x. Proof. by rewrite /psiP !hornerE. Qed.
Lemma pP_d x : (psiP A B)^`().[x] = 2 * 2 * 3 * (x * x * x + A * x + B).
Proof. rewrite /psiP !derivE !hornerE; exact: (psi3_dhorner K _ _ _ _ _ _ (ring_rt [comRingType of K])). Qed.
Lemma P5_h x : P5.[x] = psi5K A B x.
Proof. by rewrite /P5 comb_h fP_h oP_h pP_h. Qed.
Lemma fP_d x : fP^`().[x] = 3 * (x * x) + A.
Proof. rewrite /fP !derivE !hornerE /=. exact (i_fpd (ring_rt [comRingType of K]) A x). Qed.
Lemma oP_d x : oP^`().[x] = 2 * 3 * (x * x * x * x * x) + (2 * 2 + 1) * A * (2 * 2 * (x * x * x)) + 2 * 2 * (2 * 2 + 1) * B * (3 * (x * x)) - (2 * 2 + 1) * (A * A) * (2 * x) - 2 * 2 * A * B.
Proof. rewrite /oP !derivE !hornerE /=. exact (i_opd (ring_rt [comRingType of K]) A B x). Qed.
Lemma P5_d x : psi3K A B x * P5^`().[x] = (2 * 2 + 1) * (2 * 2 * 2 * 2) * (fP.[x] * (om x * om x)) + (2 * 2 * (2 * 2 + 1)) * (fP.[x] * P5.[x]).
Proof.
rewrite P5_h fP_h; have := @five_deriv K _ _ _ _ _ _ _ _ ft A B x _ _ (fP_d x) (oP_d x).
rewrite /P5 comb_d pP_d pP_h (@fs_deriv K _ _ _ _ _ _ (ring_rt [comRingType of K])) -oP_h.
rewrite !fP_h => e; exact: e.
Qed.
Lemma s1 : 1 + 1 != 0 :> K. Proof. exact/eqP. Qed.
Lemma c20 : (2 * 2 + 1) * (2 * 2) != 0 :> K. Proof. by rewrite !mulf_neq0 ?s1. Qed.
Lemma c80 : (2 * 2 + 1) * (2 * 2 * 2 * 2) != 0 :> K. Proof. by rewrite !mulf_neq0 ?s1. Qed.
Lemma P5_sep : separable_poly P5.
Proof.
rewrite /separable_poly; apply: Pdiv.ClosedField.root_coprimep => x; rewrite rootE => /eqP h.
apply/eqP => hd; have := P5_d x; rewrite hd h !mulr0 addr0 => /esym /eqP; rewrite mulf_eq0 (negbTE c80) orFb fP_h.
have [y ey] := sqrtK (x * x * x + A * x + B).
rewrite P5_h in h.
have yn := five_y ns ey h. have on := five_om c2 ns ey h.
rewrite -ey !mulf_eq0; case/orP; first by case/orP => /eqP.
by case/orP => /eqP.
Qed.
Lemma P5_fix : P5 = 0 -> False.
Proof.
by move=> e; have := P5_sep; rewrite e /separable_poly /= deriv0 /coprimep gcd0p size_poly0.
Qed.
Lemma P5_roots : exists rs : seq K, exists c, [/\ c != 0, P5 = c *: \prod_(z <- rs) ('X - z%:P) & uniq rs].
Proof.
have [rs e] := closed_field_poly_normal P5.
have lc : lead_coef P5 != 0 by rewrite lead_coef_eq0; apply/eqP/P5_fix.
exists rs, (lead_coef P5); split=> //.
by rewrite -(separable_prod_XsubC rs) -(eqp_separable (eqp_scale _ lc)) -e; exact: P5_sep.
Qed.
Lemma P5_dvd (G : {poly K}) : (P5 %| G) <-> forall x : K, psi5K A B x = 0 -> G.[x] = 0.
Proof.
split=> [/dvdpP [H e] x h|H]; first by rewrite e hornerM P5_h h mulr0.
have [rs [c [c0 e u]]] := P5_roots; rewrite e dvdpZl // uniq_roots_dvdp ?uniq_rootsE //.
apply/allP=> z zr; rewrite rootE H // -P5_h e hornerZ; apply/eqP; rewrite mulf_eq0; apply/orP; right.
by rewrite -rootE root_prod_XsubC.
Qed.
Lemma P5_root : exists x, psi5K A B x = 0.
Proof.
suff /closed_rootP [x] : size P5 != 1%N by rewrite rootE P5_h => /eqP; exists x.
apply/eqP => /eqP /size_poly1P [c c0 e].
have H x : fP.[x] * (2 * 2 * (om x * om x) + c) = 0.
  have d0 : P5^`().[x] = 0 by rewrite e derivC horner0.
  have := fs_zero (ring_rt [comRingType of K]) d0 (P5_d x); rewrite {1}e hornerC => /eqP.
  by rewrite -mulrA mulf_eq0 (negbTE c20) orFb => /eqP.
have H' x : (fP * ((2 * 2) *: (oP * oP) + c%:P)).[x] = 0 by rewrite comb2 oP_h.
have Z : fP * ((2 * 2) *: (oP * oP) + c%:P) = 0.
  apply/eqP; apply: contraT => nz.
  have [|x] := @closed_rootP K (fP * ((2 * 2) *: (oP * oP) + c%:P) + 1) _.
    apply/eqP => /eqP /size_poly1P [e0 e00 ee]; case/negP: nz.
    have : fP * ((2 * 2) *: (oP * oP) + c%:P) = (e0 - 1)%:P by rewrite polyCB -ee addrK.
    move=> ez; rewrite ez; have := H' 0; by rewrite ez hornerC => ->.
  by rewrite rootE hornerD H' hornerC add0r (oner_eq0 K).
have f0 : fP != 0.
  apply/eqP => /(congr1 (fun q : {poly K} => q`_3)); rewrite coef0 /fP !coefD coefC addr0 coefCM coefX mulr0 addr0 !coefMX coefX => /eqP.
  by rewrite oner_eq0.
move/eqP: Z; rewrite mulf_eq0 (negbTE f0) /= addr_eq0 => /eqP Z.
have o6 : oP`_6 = 1.
  by rewrite /oP !(coefD, coefN, coefZ, coefXn, coefX, coefC) /= !(mulr0, addr0, subr0).
have so : (6 < size oP)%N.
  rewrite ltnNge; apply/negP => h; have := o6; rewrite nth_default // => /eqP; by rewrite eq_sym oner_eq0.
have on : oP != 0 by rewrite -size_poly_gt0; apply: leq_trans so.
have := congr1 (fun q : {poly K} => size q) Z; rewrite size_scale ?mulf_neq0 ?s1 // size_opp size_mul // => s.
have := size_polyC_leq1 c; rewrite -s; case: (size oP) so => // m; rewrite addSn /= addnS !ltnS => h1 h2.
by have := leq_trans (leq_trans h1 (leq_addr m m)) h2.
Qed.
End Sep.
