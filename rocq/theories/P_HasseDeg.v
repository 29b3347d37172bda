(** Hasse's bound, part 2: the degree of a point over the field of rational functions, and its quadratic recurrence along P + n Q. *)
From Coq Require Import ZArith Field_theory Ring Field.
From mathcomp Require Import all_ssreflect all_algebra zify.
From Verif Require Import P_Group P_HasseId P_HasseGcd P_HasseStep.
Set Implicit Arguments. Unset Strict Implicit. Unset Printing Implicit Defensive.
Import GRing.Theory.
Local Open Scope ring_scope.

Section Deg.
Variable F : fieldType.
Variables a b : F.
Hypothesis c2 : 1 + 1 != 0 :> F.
Hypothesis disc : (1 + 1) * (1 + 1) * (a * a * a) + (1 + 1 + 1) * (1 + 1 + 1) * (1 + 1 + 1) * (b * b) != 0.
(** K is a fraction field of F[t]. *)
Variable K : fieldType.
Variable io : {rmorphism {poly F} -> K}.
Hypothesis io_inj : injective io.
Hypothesis io_frac : forall x : K, exists n d, d != 0 /\ x = io n / io d.
Notation kadd := (@GRing.add K) (only parsing).
Definition Kdec (x y : K) : {x = y} + {x <> y} := eq_comparable x y.
Definition ksub (x y : K) := x - y.
Definition kdiv (x y : K) := x / y.
Definition Kf : field_theory (0 : K) 1 +%R *%R ksub -%R kdiv GRing.inv eq := field_ft K.
Definition kl : K := io (lam a b).
Definition kt : K := io 'X.
Definition ka : K := io a%:P.
Definition kb : K := io b%:P.
Definition kA : K := ka * (kl * kl).
Definition kB : K := kb * (kl * kl * kl).
Definition point := option (K * K).
Definition gad : point -> point -> point := gadd K 1 +%R *%R ksub -%R kdiv Kdec kA.
Definition ng : point -> point := neg K -%R.
Definition onc : point -> Prop := on K +%R *%R kA kB.
Definition Q : point := Some (kl * kt, kl * kl).

Lemma io0 p : p != 0 -> io p != 0.
Proof. by apply: contra => /eqP h; apply/eqP/io_inj; rewrite h rmorph0. Qed.
Lemma kl0 : kl <> 0.
Proof. by apply/eqP; apply: io0; rewrite -size_poly_gt0 size_lam. Qed.
Lemma klE : kl = kt * kt * kt + ka * kt + kb.
Proof. by rewrite /kl /kt /ka /kb /lam !(rmorphD, rmorphM). Qed.
Lemma k2 : 1 + 1 <> 0 :> K.
Proof. by apply/eqP; rewrite -(rmorph1 io) -rmorphD; apply: io0; rewrite -polyC1 -polyCD polyC_eq0. Qed.
Lemma Qon : onc Q.
Proof. exact: (Q_on K _ _ _ _ _ _ _ _ Kf ka kb kl kt klE). Qed.

Definition rep (x : K) (X Z : {poly F}) := [/\ Z != 0, coprimep X Z & x = io X / io Z].
Lemma rep_ex x : exists X Z, rep x X Z.
Proof.
have [n [d [d0 ->]]] := io_frac x.
have g0 : gcdp n d != 0 by rewrite gcdp_eq0 negb_and d0 orbT.
have en : n = n %/ gcdp n d * gcdp n d by rewrite divpK ?dvdp_gcdl.
have ed : d = d %/ gcdp n d * gcdp n d by rewrite divpK ?dvdp_gcdr.
exists (n %/ gcdp n d), (d %/ gcdp n d); split.
- by apply: contraNneq d0 => h; rewrite ed h mul0r.
- by apply: coprimep_div_gcd; rewrite d0 orbT.
- have h (X Z g : {poly F}) : g != 0 -> io (X * g) / io (Z * g) = io X / io Z.
    by move=> h0; rewrite !rmorphM -mulf_div divff ?mulr1 // io0.
  by rewrite -(h (n %/ gcdp n d) (d %/ gcdp n d) _ g0) -en -ed.
Qed.
Lemma rep_uniq x X Z X' Z' : rep x X Z -> rep x X' Z' -> X %= X' /\ Z %= Z'.
Proof.
move=> [Z0 c e] [Z0' c' e'].
have h : X * Z' = X' * Z.
  apply: io_inj; rewrite !rmorphM; apply/eqP; rewrite -eqr_div ?io0 //; by rewrite -e -e'.
split; rewrite /eqp.
- apply/andP; split; first by rewrite -(Gauss_dvdpl _ c) -h dvdp_mulr.
  by rewrite -(Gauss_dvdpl _ c') h dvdp_mulr.
- apply/andP; split; first by rewrite -(@Gauss_dvdpr _ _ X) 1?coprimep_sym // h dvdp_mull.
  by rewrite -(@Gauss_dvdpr _ _ X') 1?coprimep_sym // -h dvdp_mull.
Qed.

Definition dgr (P : point) (d : nat) : Prop :=
  match P with
  | None => d = 0%N
  | Some (x, _) => exists X Z, [/\ rep (x / kl) X Z, (size Z < size X)%N & size X = d.+1]
  end.
Lemma dgr_uniq P d d' : dgr P d -> dgr P d' -> d = d'.
Proof.
case: P => [[x y]|] /=; last by move=> -> ->.
move=> [X [Z [r s e]]] [X' [Z' [r' s' e']]]; have [/eqp_size h _] := rep_uniq r r'.
by move: e'; rewrite -h e => -[].
Qed.
Lemma dgr_ng P d : dgr P d -> dgr (ng P) d.
Proof. by case: P => [[x y]|]. Qed.

Lemma rep_step x y u v X Z U V C D : x <> kt -> curve_eq K +%R *%R kA kB (kl * x) y ->
  u = (y - kl * kl) * (y - kl * kl) / (kl * kl * kl * ((x - kt) * (x - kt))) - x - kt ->
  v = (y + kl * kl) * (y + kl * kl) / (kl * kl * kl * ((x - kt) * (x - kt))) - x - kt ->
  rep x X Z -> rep u U V -> rep v C D ->
  [/\ MM X Z != 0, (U * D + V * C) * (MM X Z * MM X Z) = SS a b X Z * (V * D) & U * C * (MM X Z * MM X Z) = NN a b X Z * (V * D)].
Proof.
move=> xt ce eu ev [Z0 cXZ ex] [V0 cUV eu'] [D0 cCD ev'].
have iZ : io Z <> 0 by apply/eqP/io0. have iV : io V <> 0 by apply/eqP/io0. have iD : io D <> 0 by apply/eqP/io0.
have [hs hn] := sum_id K _ _ _ _ _ _ _ _ Kf Kdec ka kb kl kt kl0 klE x y u v xt ce eu ev.
rewrite ex eu' ev' in hs hn.
have es := clear_S K _ _ _ _ _ _ _ _ Kf ka kb kt _ _ _ _ _ _ iV iD iZ hs.
have en := clear_N K _ _ _ _ _ _ _ _ Kf ka kb kt _ _ _ _ _ _ iV iD iZ hn.
split.
- apply/negP=> /eqP h; apply: xt; rewrite ex; apply/eqP; rewrite (can2_eq (divfK (io0 Z0)) (mulfK (io0 Z0))).
  by rewrite /kt -rmorphM; apply/eqP; congr (io _); apply/eqP; rewrite -subr_eq0 -h.
- apply: io_inj; move: es; rewrite /SS /MM /ksub !(rmorphM, rmorphD, rmorphN, rmorph1); exact.
- apply: io_inj; move: en; rewrite /NN /MM /ksub !(rmorphM, rmorphD, rmorphN, rmorph1); exact.
Qed.

Lemma kl0b : kl != 0. Proof. by apply/eqP; exact: kl0. Qed.
Lemma scale_x (x : K) : x = kl * (x / kl).
Proof. by rewrite mulrC divfK // kl0b. Qed.
Lemma dgr_Q : dgr Q 1.
Proof.
exists 'X, 1; split; last by rewrite size_polyX.
  split; rewrite ?oner_neq0 ?coprimep1 // rmorph1 divr1 mulrC mulKf //; exact: kl0b.
by rewrite size_polyX size_poly1.
Qed.
Lemma size_FF : size (FF a b) = 5%N.
Proof.
have -> : FF a b = NN a b 'X 1.
  rewrite /FF /NN !mulr1; congr (_ - _); rewrite (_ : 'X + 'X = (1 + 1) * 'X :> {poly F}); last by rewrite mulrDl mul1r.
  rewrite -!mulrA; congr (_ * (_ * _)); by rewrite mulrCA.
by rewrite size_NN ?size_polyX ?size_poly1.
Qed.
Lemma dgr_2Q : dgr (gad Q Q) 4.
Proof.
have [y e] := double_Q K _ _ _ _ _ _ _ _ Kf Kdec k2 ka kb kl kt kl0 klE.
rewrite /gad /Q e /= mulrC mulKf ?kl0b //.
have c4 : (1 + 1) * (1 + 1) != 0 :> F by rewrite mulf_neq0.
exists (FF a b), (((1 + 1) * (1 + 1))%:P * lam a b); split; last by rewrite size_FF.
- split.
  + by rewrite mulf_neq0 // ?polyC_eq0 // -size_poly_gt0 size_lam.
  + rewrite mul_polyC coprimepZr //; exact: cop_F_lam.
  + rewrite /kdiv /ksub /FF /kl /kt /ka /kb !(rmorphM, rmorphD, rmorphN, rmorph1); congr (_ / (_ * _)).
- by rewrite size_FF mul_polyC size_scale // size_lam.
Qed.
Lemma gad_on P1 P2 : onc P1 -> onc P2 -> onc (gad P1 P2).
Proof. exact: (gadd_on K _ _ _ _ _ _ _ _ Kf Kdec k2 kA kB). Qed.
Lemma ng_on P1 : onc P1 -> onc (ng P1).
Proof. exact: (neg_on K _ _ _ _ _ _ _ _ Kf). Qed.
Lemma ngng P1 : ng (ng P1) = P1.
Proof. exact: (neg_neg K _ _ _ _ _ _ _ _ Kf). Qed.
Lemma ng_gad P1 P2 : onc P1 -> onc P2 -> ng (gad P1 P2) = gad (ng P1) (ng P2).
Proof. exact: (neg_gadd K _ _ _ _ _ _ _ _ Kf Kdec k2 kA kB). Qed.
Lemma gad_opp P1 : onc P1 -> gad P1 (ng P1) = None.
Proof. exact: (gadd_opp K _ _ _ _ _ _ _ _ Kf Kdec k2 kA kB). Qed.
Lemma step P d d' : onc P -> dgr P d -> dgr (gad P (ng Q)) d' -> exists2 d'', dgr (gad P Q) d'' & (d' + d'' = 2 * d + 2)%N.
Proof.
case: P => [[x y]|]; last first.
  move=> _ /= -> h; exists 1%N; first exact: dgr_Q.
  by have -> := @dgr_uniq (ng Q) _ _ h (dgr_ng dgr_Q).
rewrite (scale_x x); move: (x / kl) => {x} x ce.
have [xt|xt] := eqVneq x kt.
  subst x; have [e|e] := same_xQ K _ _ _ _ _ _ _ _ Kf Kdec ka kb kl kt klE y ce.
    subst y; rewrite -/Q => h h'; exists 4%N; first exact: dgr_2Q.
    have e1 := dgr_uniq h dgr_Q; subst d.
    by move: h'; rewrite (gad_opp Qon) => /= ->.
  subst y; have e : Some (kl * kt, - (kl * kl)) = ng Q by []. rewrite e => h h'.
  have e1 := dgr_uniq h (dgr_ng dgr_Q); subst d.
  exists 0%N; first by rewrite -[in X in gad _ X](ngng Q) (gad_opp (ng_on Qon)).
  by rewrite -(ng_gad Qon Qon) in h'; rewrite (dgr_uniq h' (dgr_ng dgr_2Q)).
move/eqP: xt => xt.
have [y1 e1] := chord_sub K _ _ _ _ _ _ _ _ Kf Kdec ka kb kl kt kl0 x y xt ce.
have [y2 e2] := chord_add K _ _ _ _ _ _ _ _ Kf Kdec ka kb kl kt kl0 x y xt ce.
rewrite /gad /ng /Q e1 e2 /=; rewrite !(mulrC kl) !mulfK ?kl0b //.
set v := ksub _ _; set u := ksub _ _.
move=> [X [Z [rx sx dx]]] [C [D [rv sv dv]]]; have [U [V ru]] := rep_ex u.
have [M0 eS eN] := rep_step xt ce (erefl u) (erefl v) rx ru rv.
have [Z0 cXZ _] := rx; have [D0 cCD _] := rv; have [V0 cUV _] := ru.
have [sU es] := poly_step c2 disc cXZ sx M0 cUV V0 cCD D0 sv eS eN.
rewrite dx dv in es; have su : (0 < size U)%N by exact: leq_ltn_trans sU.
exists (size U).-1; last by lia.
by exists U, V; split=> //; rewrite prednK.
Qed.
Lemma step' P d d' : onc P -> dgr P d -> dgr (gad P Q) d' -> exists2 d'', dgr (gad P (ng Q)) d'' & (d' + d'' = 2 * d + 2)%N.
Proof.
move=> oP h h'.
have h2 : dgr (gad (ng P) (ng Q)) d' by rewrite -ng_gad //; [exact: dgr_ng|exact: Qon].
have [d'' h3 e] := step (ng_on oP) (dgr_ng h) h2; exists d'' => //.
have -> : gad P (ng Q) = ng (gad (ng P) Q) by rewrite ng_gad ?ngng //; [exact: ng_on|exact: Qon].
exact: dgr_ng.
Qed.

(** The twisted curve is non-singular. *)
Lemma k_nonsing x y : curve_eq K +%R *%R kA kB x y -> y = 0 -> (1 + 1 + 1) * (x * x) + kA = 0 -> False.
Proof.
rewrite /curve_eq => h y0 h1; rewrite y0 mulr0 in h.
have d0 : (1 + 1) * (1 + 1) * (kA * kA * kA) + (1 + 1 + 1) * (1 + 1 + 1) * (1 + 1 + 1) * (kB * kB) = 0.
  exact: (disc_zero K _ _ _ _ _ _ _ _ Kf kA kB x (esym h) h1).
have e := disc_scale K _ _ _ _ _ _ _ _ Kf ka kb kl.
have : io ((1 + 1) * (1 + 1) * (a%:P * a%:P * a%:P) + (1 + 1 + 1) * (1 + 1 + 1) * (1 + 1 + 1) * (b%:P * b%:P)) != 0.
  apply: io0; rewrite (_ : _ + _ = ((1 + 1) * (1 + 1) * (a * a * a) + (1 + 1 + 1) * (1 + 1 + 1) * (1 + 1 + 1) * (b * b))%:P).
    by rewrite polyC_eq0.
  by rewrite !(polyCD, polyCM, polyC1).
rewrite !(rmorphM, rmorphD, rmorph1) => /negP; apply.
apply/eqP; move: e; rewrite -/kA -/kB d0 => /esym /eqP; rewrite !mulf_eq0 -/ka -/kb (negPf kl0b) /= => /eqP; exact.
Qed.
Lemma gad_sub P1 P2 : onc P1 -> onc P2 -> gad (gad P1 P2) (ng P2) = P1.
Proof. exact: (gadd_cancel_r K _ _ _ _ _ _ _ _ Kf Kdec k2 kA kB k_nonsing). Qed.

(** The sequence P0 + n Q. *)
Section Seq.
Variables (P0 : point) (d0 d1 : nat).
Hypothesis P0on : onc P0.
Hypothesis deg0 : dgr P0 d0.
Hypothesis deg1 : dgr (gad P0 (ng Q)) d1.
Fixpoint up n : point := if n is n'.+1 then gad (up n') Q else P0.
Fixpoint dn n : point := if n is n'.+1 then gad (dn n') (ng Q) else P0.
Lemma up_on n : onc (up n). Proof. by elim: n => //= n IH; apply: gad_on => //; exact: Qon. Qed.
Lemma dn_on n : onc (dn n). Proof. by elim: n => //= n IH; apply: gad_on => //; exact: (ng_on Qon). Qed.
Local Open Scope Z_scope.
Notation c := (Z.of_nat d0 + 1 - Z.of_nat d1).
Lemma up_deg n : exists d d', [/\ dgr (up n) d, dgr (up n.+1) d', Z.of_nat d = Z.of_nat n * Z.of_nat n + c * Z.of_nat n + Z.of_nat d0 &
   Z.of_nat d' = (Z.of_nat n + 1) * (Z.of_nat n + 1) + c * (Z.of_nat n + 1) + Z.of_nat d0].
Proof.
elim: n => [|n [d [d' [h h' e e']]]].
  have [d'' h e] := step P0on deg0 deg1; exists d0, d''; split=> //; lia.
have h2 : dgr (gad (up n.+1) (ng Q)) d by rewrite /= gad_sub //; [exact: up_on|exact: Qon].
have [d'' h3 e3] := step (up_on n.+1) h' h2; exists d', d''; split=> //; lia.
Qed.
Lemma dn_deg n : exists d d', [/\ dgr (dn n) d, dgr (dn n.+1) d', Z.of_nat d = Z.of_nat n * Z.of_nat n - c * Z.of_nat n + Z.of_nat d0 &
   Z.of_nat d' = (Z.of_nat n + 1) * (Z.of_nat n + 1) - c * (Z.of_nat n + 1) + Z.of_nat d0].
Proof.
elim: n => [|n [d [d' [h h' e e']]]].
  exists d0, d1; split=> //; lia.
have h2 : dgr (gad (dn n.+1) Q) d by rewrite /= -[in X in gad _ X](ngng Q) gad_sub //; [exact: dn_on|exact: (ng_on Qon)].
have [d'' h3 e3] := step' (dn_on n.+1) h' h2; exists d', d''; split=> //; lia.
Qed.
Lemma quad_nonneg n : 0 <= n * n + c * n + Z.of_nat d0.
Proof.
have [h|h] := Z.le_ge_cases 0 n.
  by have [d [d' [_ _ e _]]] := up_deg (Z.to_nat n); rewrite !Z2Nat.id // in e; lia.
have [d [d' [_ _ e _]]] := dn_deg (Z.to_nat (- n)); rewrite !Z2Nat.id // in e; lia.
Qed.
End Seq.
End Deg.
