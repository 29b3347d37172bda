(** Hasse's bound, part 3: the Frobenius point (t^q, lam^((q-1)/2)) minus Q has degree the number of points of the curve. *)
From Coq Require Import ZArith Field_theory Ring Field.
From mathcomp Require Import all_ssreflect all_algebra zify.
From Verif Require Import P_Group P_FinF P_HasseId P_HasseGcd P_HasseStep P_HasseDeg.
Set Implicit Arguments. Unset Strict Implicit. Unset Printing Implicit Defensive.
Import GRing.Theory.
Local Open Scope ring_scope.

Section Frob.
Variable F : finFieldType.
Notation q := #|F|.
Variable h : nat.
Hypothesis qh : q = (2 * h).+1.
Hypothesis h0 : (0 < h)%N.
Hypothesis qc : [char F].-nat q.
Variables a b : F.
Hypothesis c2 : 1 + 1 != 0 :> F.
Hypothesis disc : (1 + 1) * (1 + 1) * (a * a * a) + (1 + 1 + 1) * (1 + 1 + 1) * (1 + 1 + 1) * (b * b) != 0.
Notation RF := (GRing.Field.comRingType F).
Add Ring frf : (frozen_rt RF).
Ltac rf := freeze constr:(RF); ring.
Notation RP := (poly_comRingType (GRing.Field.comRingType F)).
Add Ring frp : (frozen_rt RP).
Ltac rr := freezeX F; freeze constr:(RP); ring.
Definition f (x : F) : F := x * x * x + a * x + b.

Lemma pow_2h (v : F) : v != 0 -> v ^+ (2 * h) = 1.
Proof. by move=> v0; apply: (mulfI v0); rewrite mulr1 -exprS -qh expf_card. Qed.
Lemma pow_h (v : F) : v != 0 -> (v ^+ h == 1) || (v ^+ h == -1).
Proof. by move=> v0; rewrite -eqf_sqr expr1n -exprM mulnC pow_2h. Qed.
Lemma one_neq_m1 : 1 != -1 :> F.
Proof. by rewrite -subr_eq0 opprK. Qed.
Lemma sq_h (y : F) : y != 0 -> (y * y) ^+ h = 1.
Proof. by move=> y0; rewrite -expr2 -exprM pow_2h. Qed.
Lemma root_ex (v : F) : v ^+ h = 1 -> exists y, y * y = v.
Proof.
move=> vh.
have dv : 'X^2 - v%:P %| \prod_(x : F) ('X - x%:P).
  rewrite -finField_genPoly (_ : 'X^q - 'X = 'X * (('X^2) ^+ h - v%:P ^+ h)).
    by rewrite subrXX dvdp_mull // dvdp_mulr.
  by rewrite -polyC_exp vh mulrBr mulr1 -exprM -exprS qh.
have [m em] := dvdp_prod_XsubC dv.
have s3 : size ('X^2 - v%:P) = 3%N by rewrite size_addl ?size_polyXn // size_opp size_polyC; case: (v == 0).
have := eqp_size em; rewrite s3 size_prod_XsubC => -[].
case e : (mask m (index_enum F)) em => [|y r] em //= _.
exists y; apply/eqP; rewrite -subr_eq0.
have : root ('X^2 - v%:P) y by rewrite (eqp_root em) big_cons rootM root_XsubC eqxx.
by rewrite rootE !hornerE.
Qed.
Lemma card_sq (v : F) : #|[set y | y * y == v]| = if v == 0 then 1%N else if v ^+ h == 1 then 2%N else 0%N.
Proof.
have [->|v0] := eqVneq v 0.
  by rewrite (_ : [set y | _] = [set 0]) ?cards1 //; apply/setP=> y; rewrite !inE mulf_eq0 orbb.
have [vh|vh] := eqVneq (v ^+ h) 1.
  have [y ey] := root_ex vh.
  have y0 : y != 0 by apply: contraNneq v0 => y0; rewrite -ey y0 mul0r.
  rewrite (_ : [set y | _] = [set y; - y]); last by apply/setP=> z; rewrite !inE -ey -!expr2 eqf_sqr.
  rewrite cards2 -addr_eq0 (_ : y + y = (1 + 1) * y); last by rewrite mulrDl mul1r.
  by rewrite mulf_eq0 (negPf c2) (negPf y0).
apply: eq_card0 => y; rewrite !inE; apply: contraNF vh => /eqP e.
have y0 : y != 0 by apply: contraNneq v0 => y0; rewrite -e y0 mul0r.
by rewrite -e sq_h.
Qed.

(** The roots of t^q - t, by the value of lam. *)
Definition rs (P : pred F) : seq F := [seq x <- index_enum F | P x].
Definition pr (P : pred F) : {poly F} := \prod_(x <- rs P) ('X - x%:P).
Definition p0 := pr (fun x => f x == 0).
Definition pp := pr (fun x => f x ^+ h == 1).
Definition pm := pr (fun x => f x ^+ h == -1).
Definition n0 := size (rs (fun x => f x == 0)).
Definition np := size (rs (fun x => f x ^+ h == 1)).
Definition nm := size (rs (fun x => f x ^+ h == -1)).
Lemma size_pr (P : pred F) : size (pr P) = (size (rs P)).+1.
Proof. by rewrite size_prod_XsubC. Qed.
Lemma pr_neq0 (P : pred F) : pr P != 0.
Proof. by rewrite -size_poly_gt0 size_pr. Qed.
Lemma root_pr (P : pred F) x : root (pr P) x = P x.
Proof. by rewrite root_prod_XsubC mem_filter mem_index_enum andbT. Qed.
Lemma pr_dvd (P : pred F) (g : {poly F}) : (forall x, P x -> root g x) -> pr P %| g.
Proof.
move=> H; apply: uniq_roots_dvdp; last by rewrite uniq_rootsE filter_uniq // index_enum_uniq.
by apply/allP=> x; rewrite mem_filter => /andP[/H].
Qed.
Lemma cop_pr (P : pred F) (g : {poly F}) : (forall x, P x -> ~~ root g x) -> coprimep g (pr P).
Proof.
move=> H; rewrite /pr; have : all P (rs P) by apply/allP=> x; rewrite mem_filter => /andP[].
elim: (rs P) => [|x r IH] /=; first by rewrite big_nil coprimep1.
by case/andP=> px /IH h1; rewrite big_cons coprimepMr h1 coprimep_XsubC H.
Qed.
Lemma f0h x : f x == 0 -> f x ^+ h == 1 = false.
Proof. by move/eqP->; rewrite expr0n eqn0Ngt h0 /= eq_sym oner_eq0. Qed.
Lemma f0hm x : f x == 0 -> f x ^+ h == -1 = false.
Proof. by move/eqP->; rewrite expr0n eqn0Ngt h0 /= eq_sym oppr_eq0 oner_eq0. Qed.
Lemma V_prod : 'X^q - 'X = p0 * pp * pm :> {poly F}.
Proof.
rewrite finField_genPoly /p0 /pp /pm /pr /rs !big_filter.
rewrite (bigID (fun x => f x == 0)) /= -mulrA; congr (_ * _).
rewrite (bigID (fun x => f x ^+ h == 1)) /=; congr (_ * _); apply: eq_bigl => x.
- by have [e|//] := boolP (f x == 0); rewrite f0h.
- have [e|e] := boolP (f x == 0); first by rewrite f0hm.
  have [e1|e1] := eqVneq (f x ^+ h) 1; first by rewrite /= e1 (negPf one_neq_m1).
  by have := pow_h e; rewrite (negPf e1) /= => ->.
Qed.
Lemma count3 : (n0 + np + nm = q)%N.
Proof.
have := congr1 (fun g : {poly F} => size g) V_prod.
rewrite size_subl ?size_polyXn ?size_polyX; last by rewrite qh; lia.
by rewrite !size_mulF ?mulf_neq0 ?pr_neq0 // !size_pr; rewrite -/n0 -/np -/nm; lia.
Qed.

Lemma lam_f x : (lam a b).[x] = f x.
Proof. by rewrite /lam /f !hornerE. Qed.
Lemma lamh_f x : ((lam a b) ^+ h + 1).[x] = f x ^+ h + 1.
Proof. by rewrite !hornerE horner_exp lam_f. Qed.
(** lam has no double root. *)
Lemma lam_sep l1 x : lam a b = p0 * l1 -> f x = 0 -> l1.[x] != 0.
Proof.
move=> e fx; apply/negP=> /eqP l1x.
have p0x : p0.[x] = 0 by apply/eqP; have := root_pr (fun x => f x == 0) x; rewrite fx eqxx.
have d : (lam a b)^`().[x] = 0 by rewrite e derivM !hornerE p0x l1x mulr0 mul0r addr0.
have d' : (1 + 1 + 1) * (x * x) + a = 0.
  rewrite -d /lam !(derivD, derivM, derivX, derivC) !hornerE; rewrite /=; rf.
have := disc_zero F _ _ _ _ _ _ _ _ (field_ft F) a b x fx d'.
by apply/eqP.
Qed.

(** Numerator and denominator of x(P0 - Q). *)
Notation T := ('X^q : {poly F}).
Notation L := (lam a b ^+ h).
Definition num : {poly F} := lam a b * ((L + 1) * (L + 1)) - (T + 'X) * ((T - 'X) * (T - 'X)).
Lemma lam_frob : lam a b * (L * L) = T * T * T + a%:P * T + b%:P.
Proof.
rewrite -exprD addnn -mul2n -exprS -qh.
have cc : [char {poly F}].-nat q by rewrite -(@eq_pnat [char F]) // => r; rewrite !inE -polyC1 -polyCMn polyC_eq0.
by rewrite /lam !(exprDn_char _ _ cc) !exprMn -!polyC_exp !expf_card.
Qed.
Lemma num_lead : num = T * T * 'X + (T * 'X * 'X - 'X * 'X * 'X + a%:P * T + b%:P + (1 + 1) * (lam a b * L) + lam a b).
Proof.
have -> : num = lam a b * (L * L) + (1 + 1) * (lam a b * L) + lam a b - (T + 'X) * ((T - 'X) * (T - 'X)) by rewrite /num; rr.
rewrite lam_frob; rr.
Qed.
Lemma size_num : size num = (2 * q).+2.
Proof.
have s1 : size (T * T * 'X) = (2 * q).+2.
  by rewrite -exprD -exprSr size_polyXn; lia.
rewrite num_lead size_addl s1 // ltnS.
have sl : size (lam a b) = 4%N by exact: size_lam.
have l0 : lam a b != 0 by rewrite -size_poly_gt0 sl.
have h1 : (size (T * 'X * 'X)%R <= 2 * q + 1)%N by rewrite -!exprSr size_polyXn; lia.
have h2 : (size ('X * 'X * 'X : {poly F})%R <= 2 * q + 1)%N by rewrite -expr2 -exprSr size_polyXn; lia.
have h3 : (size (a%:P * T)%R <= 2 * q + 1)%N by apply: leq_trans (size_CM _ _) _; rewrite size_polyXn; lia.
have h4 : (size (b%:P : {poly F}) <= 2 * q + 1)%N by apply: leq_trans (size_polyC_leq1 _) _; lia.
have h5 : (size ((1 + 1) * (lam a b * L))%R <= 2 * q + 1)%N.
  rewrite two_polyC; apply: leq_trans (size_CM _ _) _; rewrite -exprS; apply: leq_trans (leqSpred _) _; rewrite size_exp sl; lia.
have h6 : (size (lam a b) <= 2 * q + 1)%N by rewrite sl; lia.
have h7 : (size (- ('X * 'X * 'X : {poly F}))%R <= 2 * q + 1)%N by rewrite size_opp.
rewrite -addn1; apply: size_add_le; last exact: h6.
apply: size_add_le; last exact: h5.
apply: size_add_le; last exact: h4.
apply: size_add_le; last exact: h3.
apply: size_add_le; [exact: h1|exact: h7].
Qed.
Definition zz := p0 * pp * pp.
Definition gg := p0 * pm * pm.
Lemma VV_gz : (T - 'X) * (T - 'X) = gg * zz.
Proof. rewrite V_prod /gg /zz; rr. Qed.
Lemma size_mulE (u v : {poly F}) : u != 0 -> v != 0 -> size (u * v) = (size u + size v).-1.
Proof. exact: size_mul. Qed.
Lemma num_size (w : {poly F}) : num = gg * w -> size w = (n0 + 2 * np).+2.
Proof.
move=> e; have n0' : num != 0 by rewrite -size_poly_gt0 size_num.
move: n0'; rewrite e mulf_eq0 negb_or => /andP[g0 w0].
have sg : size gg = (n0 + 2 * nm).+1.
  rewrite /gg !size_mulF ?mulf_neq0 ?pr_neq0 // !size_pr -/n0 -/nm; lia.
have sw : (0 < size w)%N by rewrite size_poly_gt0.
have := size_num; rewrite e size_mulE // sg; have := count3; lia.
Qed.
Lemma num_red : exists w, [/\ num = gg * w, coprimep w zz & size w = (n0 + 2 * np).+2].
Proof.
have /dvdpP [l1 e1] : p0 %| lam a b by apply: pr_dvd => x; rewrite /= rootE lam_f.
have /dvdpP [m1 e2] : pm %| L + 1 by apply: pr_dvd => x /eqP; rewrite rootE lamh_f => ->; rewrite addNr.
exists (l1 * m1 * m1 - (T + 'X) * zz).
have e : num = gg * (l1 * m1 * m1 - (T + 'X) * zz).
  rewrite /num VV_gz {1}e1 e2 /gg; rr.
split=> //.
- rewrite coprimep_sym (_ : _ - _ = (- (T + 'X)) * zz + l1 * m1 * m1); last by rr.
  rewrite coprimep_addl_mul coprimep_sym.
  have H x : (f x == 0) || (f x ^+ h == 1) -> ~~ root (l1 * m1 * m1) x.
    move=> hx; rewrite !rootM !negb_or -andbA andbb; apply/andP; split.
      have [fx|fx] := eqVneq (f x) 0; first by apply: (lam_sep _ fx); rewrite e1 mulrC.
      apply: contra fx => /eqP l1x; by rewrite -lam_f e1 hornerM l1x mul0r.
    apply/negP=> /eqP m1x; have := lamh_f x; rewrite e2 hornerM m1x mul0r.
    case/orP: hx => /eqP ->; last by move/esym/eqP; rewrite (negPf c2).
    by rewrite expr0n eqn0Ngt h0 /= add0r => /esym/eqP; rewrite oner_eq0.
  by rewrite /zz !coprimepMr !cop_pr // => x hx; apply: H; rewrite hx ?orbT.
- exact: num_size e.
Qed.
Lemma size_zz : size zz = (n0 + 2 * np).+1.
Proof. rewrite /zz !size_mulF ?mulf_neq0 ?pr_neq0 // !size_pr -/n0 -/np; lia. Qed.

(** The degree of P0 and of P0 - Q. *)
Section Deg.
Variable K : fieldType.
Variable io : {rmorphism {poly F} -> K}.
Hypothesis io_inj : injective io.
Hypothesis io_frac : forall x : K, exists n d, d != 0 /\ x = io n / io d.
Notation kl := (kl a b io).
Notation kt := (kt io).
Definition x0 : K := io T.
Definition y0 : K := kl * kl * io L.
Definition P0 : point K := Some (kl * x0, y0).
Lemma V0 : T - 'X != 0.
Proof. by rewrite V_prod !mulf_neq0 ?pr_neq0. Qed.
Lemma x0t : x0 <> kt.
Proof. by move=> e; have := V0; rewrite (io_inj e) subrr eqxx. Qed.
Lemma ceq0 : curve_eq K +%R *%R (kA a b io) (kB a b io) (kl * x0) y0.
Proof.
have e : kl * (io L * io L) = x0 * x0 * x0 + io a%:P * x0 + io b%:P.
  by rewrite /P_HasseDeg.kl -(rmorphM io L) -(rmorphM io (lam a b)) lam_frob !(rmorphD, rmorphM).
exact: (frob_on K _ _ _ _ _ _ _ _ (field_ft K) (io a%:P) (io b%:P) kl x0 (io L) e).
Qed.
Lemma P0on : onc a b io P0.
Proof. exact: ceq0. Qed.
Lemma P0deg : dgr a b io P0 q.
Proof.
exists T, 1; split; last by rewrite size_polyXn.
  split; rewrite ?oner_neq0 ?coprimep1 // rmorph1 divr1 mulrC mulKf //; exact: kl0b.
by rewrite size_polyXn size_poly1 qh.
Qed.
Lemma P1deg : dgr a b io (gad a b io P0 (ng (Q a b io))) (n0 + 2 * np).+1.
Proof.
have kl0 : kl <> 0 := kl0 io_inj.
have [y2 e2] := chord_add K _ _ _ _ _ _ _ _ (Kf K) (@Kdec K) (ka a io) (kb b io) kl kt kl0 x0 y0 x0t ceq0.
rewrite /gad /ng /Q /P0 e2 /= [kl * _]mulrC mulfK; last exact/eqP.
have [w [e cw sw]] := num_red.
exists w, zz; split; rewrite ?sw ?size_zz //; split=> //; first by rewrite -size_poly_gt0 size_zz.
have g0 : io gg != 0 by apply: (io0 io_inj); rewrite !mulf_neq0 ?pr_neq0.
have z0 : io zz != 0 by apply: (io0 io_inj); rewrite !mulf_neq0 ?pr_neq0.
have v0 : io (T - 'X) <> 0 by apply/eqP; apply: (io0 io_inj); exact: V0.
have -> : io w / io zz = io num / io ((T - 'X) * (T - 'X)).
  by rewrite VV_gz e !(rmorphM io gg) -mulf_div divff // mul1r.
have ev : io (T - 'X) = ksub x0 kt by rewrite /ksub rmorphB.
have -> : io num = ksub (kl * ((io L + 1) * (io L + 1))) ((x0 + kt) * (ksub x0 kt * ksub x0 kt)).
  rewrite /num /ksub rmorphB; congr (_ - _).
    by rewrite (rmorphM io (lam a b)) (rmorphM io (L + 1)) (rmorphD io L 1) rmorph1.
  by rewrite (rmorphM io (T + 'X)) (rmorphM io (T - 'X)) (rmorphD io T 'X) (rmorphB io T 'X).
rewrite (rmorphM io (T - 'X)) ev in v0 *.
exact: (frob_x K _ _ _ _ _ _ _ _ (Kf K) kl kl0 x0 kt (io L) v0).
Qed.
Local Open Scope Z_scope.
Lemma hasse_quad (n : Z) : 0 <= n * n + (Z.of_nat q + 1 - Z.of_nat (n0 + 2 * np)%N.+1) * n + Z.of_nat q.
Proof. exact: (quad_nonneg c2 disc io_inj io_frac P0on P0deg P1deg). Qed.
End Deg.
End Frob.
