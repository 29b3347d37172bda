(** Schoof's comparisons for l = 5 in terms of the points of order 5 over an algebraically closed field. *)
From Coq Require Import ZArith Znumtheory List ZifyBool Ring.
From mathcomp Require Import all_ssreflect all_algebra closed_field separable.
From mathcomp Require Import zify.
From Verif Require Import Prelude M_Term M_DivPoly Spec P_Variable P_FSum P_Poly P_Rem P_Subst P_Subst2 P_NormalProps P_DivProps P_SchoofId2 SpecSchoof P_HasseZ P_HasseGcd P_Group P_Tors3 P_EK P_Clos P_FPoly P_Three P_XMatch P_Five P_PsiVal P_FiveVal P_FiveSep P_FiveAbs P_SchoofId3 P_SchoofDecProps.
Set Implicit Arguments. Unset Strict Implicit. Unset Printing Implicit Defensive.
Import GRing.Theory.

Section FM.
Variable q : Z.
Hypothesis pq : Znumtheory.prime q.
Hypothesis q5 : (5 < q)%Z.
Let n := Z.to_nat q.
Notation F := 'F_n.
Notation rd := (@red q).
Variables a b : Z.
Hypothesis disc : ~ (q | 4 * (a * a * a) + 27 * (b * b))%Z.
Local Open Scope ring_scope.
Variables (K : closedFieldType) (i : {rmorphism F -> K}).
Let rD := red_add pq. Let rM := red_mul pq. Let r1 := red_1 pq.
Notation A := (i (rd a)). Notation B := (i (rd b)).
Notation on := (@onK q K i a b).
Notation c2 := (c2K i (t_c2 pq (q3' q5))).
Notation ns := (nsK (i := i) (t_dd pq disc)).
Notation V := (gpt c2 ns).
Notation kv := (@kval q K i).
Notation pv := (@pv q a b K i). Notation fv := (@fv q a b K i). Notation ov := (@ov q a b K i).
Notation fr := [rmorphism of Frobenius_aut (t_cp pq i)].
Notation phi5 := (frob_additive c2 ns (frA i (t_cp pq i) (t_card pq) (rd a)) (frA i (t_cp pq i) (t_card pq) (rd b))).
Lemma c5K : (1 + 1) * (1 + 1) + 1 != 0 :> K.
Proof.
rewrite -(rmorph1 i) -!(rmorphM, rmorphD) fmorph_eq0 -r1 -!(rD, rM); apply/eqP => /(red_eq0 pq) /Zdivide_le; lia.
Qed.
Lemma D5 d : psi a b 5 = Ok d -> map_poly i (pj q 0 d) = P5 A B.
Proof.
move=> e; apply/eqP; rewrite -subr_eq0; apply/eqP.
have H x : (map_poly i (pj q 0 d) - P5 A B).[x] = 0.
  have [y o] := sqrtK (x * x * x + A * x + B).
  by rewrite hornerD hornerN P5_h -(pv_x pq i x y _ _ e) // (pv5 pq q5 o) subrr.
move: (_ - _) H => p H; apply/eqP; apply: contraT => nz.
have [|x] := @closed_rootP K (p + 1) _; last by rewrite rootE hornerD H hornerC add0r (oner_eq0 K).
apply/eqP => /eqP /size_poly1P [e0 e00 ee]; case/negP: nz.
have ez : p = (e0 - 1)%:P by rewrite polyCB -ee addrK.
by have := H 0; rewrite ez hornerC => ->.
Qed.
Definition S5 (P : V) : Prop := exists X Y, ev P = Some (X, Y) /\ psi5K A B X = 0.
Section D.
Variable d : fsum.
Hypothesis ed : psi a b 5 = Ok d.
Lemma d5x : only_x d.
Proof. by have [r [e [_ h]]] := c48_psi_odd a b 5 ltac:(lia) erefl; have -> : d = r := OkI (etrans (esym ed) e). Qed.
Lemma D5_h X : (map_poly i (pj q 0 d)).[X] = psi5K A B X. Proof. by rewrite (D5 ed) P5_h. Qed.
Lemma D5_dvd (G : {poly F}) : (pj q 0 d %| G) <-> forall X : K, (map_poly i (pj q 0 d)).[X] = 0 -> (map_poly i G).[X] = 0.
Proof. by rewrite -(dvdp_map i) (D5 ed) (P5_dvd c2 c5K ns); split=> h X; move: (h X); rewrite P5_h. Qed.
Lemma D5_y X Y : on X Y -> (map_poly i (pj q 0 d)).[X] = 0 -> Y + Y <> 0.
Proof.
rewrite D5_h => o r; have y0 := five_y ns o r; rewrite -mulr2n -mulr_natl => /eqP; rewrite mulf_eq0 => /orP [/eqP h|/eqP //].
by apply: c2; rewrite -[RHS]h.
Qed.
Lemma D5_s X : exists Y, on X Y. Proof. exact: sqrtK. Qed.
End D.
Lemma ev_onK (P : V) X Y : ev P = Some (X, Y) -> on X Y.
Proof.
case: P => [[[x y]|] onP] //= [<- <-]; rewrite /onK; move/eqP: onP => e; exact e.
Qed.
Lemma evfr P X Y : ev P = Some (X, Y) -> ev (phi5 P : V) = Some (fr X, fr Y).
Proof. by move=> e; rewrite /= /frob /= e. Qed.
Lemma fom k X Y (P : V) : ev P = Some (X, Y) -> on X Y -> psi5K A B X = 0 -> (1 <= k <= 4)%Z -> exists ps ph om RX RY, 
  [/\ psi a b k = Ok ps, phi a b k = Ok ph, omega a b k = Ok om & [/\ plain ps, plain ph & plain om]] /\
  let c := kv X Y ps in [/\ c != 0, ev ((P : V) *+ Z.to_nat k) = Some (RX, RY), kv X Y ph = RX * (c * c) & kv X Y om = RY * (c * (c * c))].
Proof.
move=> eP o r hk; have [RX [RY [e1 e2 e3 e4]]] := tabs pq q5 disc eP o r hk.
have [ps es] := psi_ok a b k ltac:(lia). have [ph ef] := phi_ok a b k ltac:(lia). have [om ew] := omega_ok a b k ltac:(lia).
have hk1 : (0 <= k <= 65536)%Z by lia.
have hk2 : (1 <= k <= 46340)%Z by lia.
have hk3 : (1 <= k <= 37837)%Z by lia.
exists ps, ph, om, RX, RY; split.
  by split=> //; split; [exact: (plain_psi' es hk1)|exact: (plain_phi hk2 ef)|exact: (plain_omega q hk3 ew)].
move: e2 e3 e4; rewrite /P_PsiVal.pv /P_PsiVal.fv /P_PsiVal.ov es ef ew /=; split=> //.
Qed.
Lemma five_match j : (1 <= j <= 4)%Z -> (1 <= q mod 5 <= 4)%Z -> 
  x_matches a b q 5 j <-> forall P : V, S5 P -> (P : V) *+ Z.to_nat (q mod 5) = phi5 (phi5 P) \/ (P : V) *+ Z.to_nat (q mod 5) + phi5 (phi5 P) = phi5 ((P : V) *+ Z.to_nat j) \/ (P : V) *+ Z.to_nat (q mod 5) + phi5 (phi5 P) = - phi5 ((P : V) *+ Z.to_nat j).
Proof.
move=> hj hn; set k := (q mod 5)%Z in hn *.
have [d ed] := psi_ok a b 5 ltac:(lia).
have [ps es] := psi_ok a b k ltac:(lia). have [ph ef] := phi_ok a b k ltac:(lia). have [om ew] := omega_ok a b k ltac:(lia).
have [psj esj] := psi_ok a b j ltac:(lia). have [phj efj] := phi_ok a b j ltac:(lia).
have -> : x_matches a b q 5 j <-> x_match a b q d ps ph om psj phj.
  rewrite /x_matches -/k; split=> [|h]; last by exists d, ps, ph, om, psj, phj.
  case=> d' [ps' [ph' [om' [psj' [phj' [h1 [h2 [h3 [h4 [h5 [h6 h]]]]]]]]]]].
  rewrite ed in h1; rewrite es in h2; rewrite ef in h3; rewrite ew in h4; rewrite esj in h5; rewrite efj in h6.
  by rewrite (OkI h1) (OkI h2) (OkI h3) (OkI h4) (OkI h5) (OkI h6).
pose Q X Y := forall P : V, ev P = Some (X, Y) -> (P : V) *+ Z.to_nat k = phi5 (phi5 P) \/ (P : V) *+ Z.to_nat k + phi5 (phi5 P) = phi5 ((P : V) *+ Z.to_nat j) \/ (P : V) *+ Z.to_nat k + phi5 (phi5 P) = - phi5 ((P : V) *+ Z.to_nat j).
have p1 : plain ps by exact: (@plain_psi' a b k ps es ltac:(lia)). have p2 : plain ph by exact: (@plain_phi a b k ph ltac:(lia) ef).
have p3 : plain om by exact: (@plain_omega q a b k om ltac:(lia) ew). have p4 : plain psj by exact: (@plain_psi' a b j psj esj ltac:(lia)).
have p5 : plain phj by exact: (@plain_phi a b j phj ltac:(lia) efj).
rewrite (@xm_gen q pq (q3' q5) a b K i d ps ph om psj phj Q (d5x ed) p1 p2 p3 p4 p5 (D5_dvd ed) (D5_y ed)).
  split=> [H P [X [Y [eP r]]]|H X Y o r P eP].
    have o : on X Y := ev_onK eP.
    have r' : (map_poly i (pj q 0 d)).[X] = 0 by rewrite (D5_h ed).
    exact: (H X Y o r' P eP).
  by apply: H; exists X, Y; rewrite -(D5_h ed).
move=> X Y o; rewrite (D5_h ed) => r.
have onP : onb A B (Some (X, Y)) by apply/eqP.
pose P : V := EP onP; have eP : ev P = Some (X, Y) by [].
have [ps' [ph' [om' [RX [RY [[h1 h2 h3 _] [h4 h5 h6 h7]]]]]]] := fom eP o r hn.
have [psj' [phj' [omj' [SX [SY [[g1 g2 g3 _] [g4 g5 g6 g7]]]]]]] := fom eP o r hj.
rewrite es in h1; rewrite ef in h2; rewrite ew in h3; rewrite esj in g1; rewrite efj in g2.
move: h4 h6 h7 g4 g6; rewrite -(OkI h1) -(OkI h2) -(OkI h3) -(OkI g1) -(OkI g2) => h4 h6 h7 g4 g6.
exists RX, RY, SX; split; first by [].
split; first by [].
rewrite (chordE h5 (evfr (evfr eP)) (evfr g5)) /Q; split=> [h P' eP'|h]; last exact: h.
by have -> : P' = P by apply: ev_inj; rewrite eP'.
Qed.
Lemma five_w w : (1 <= w <= 4)%Z -> w_matches a a b q 5 w <-> forall P : V, S5 P -> phi5 P = (P : V) *+ Z.to_nat w \/ phi5 P = - ((P : V) *+ Z.to_nat w).
Proof.
move=> hw.
have [d ed] := psi_ok a b 5 ltac:(lia).
have [ps es] := psi_ok a b w ltac:(lia). have [ph ef] := phi_ok a b w ltac:(lia).
have -> : w_matches a a b q 5 w <-> w_match a b q d ps ph.
  split=> [|h]; last by exists d, ps, ph.
  case=> d' [ps' [ph' [h1 [h2 [h3 h]]]]].
  rewrite ed in h1; rewrite es in h2; rewrite ef in h3.
  by rewrite (OkI h1) (OkI h2) (OkI h3).
have p1 : plain ps by exact: (@plain_psi' a b w ps es ltac:(lia)). have p2 : plain ph by exact: (@plain_phi a b w ph ltac:(lia) ef).
have px : plain (xpow q) by apply: plain_mono; lia.
have pe : plain (fsub (conv (xpow q) (fpow ps 2)) ph) by pl.
rewrite /w_match (multiple_vanish pq (d5x ed) pe pq (D5_y ed) D5_s (D5_dvd ed)).
have T X Y (P : V) : ev P = Some (X, Y) -> psi5K A B X = 0 -> kv X Y (fsub (conv (xpow q) (fpow ps 2)) ph) = 0 <-> phi5 P = (P : V) *+ Z.to_nat w \/ phi5 P = - ((P : V) *+ Z.to_nat w).
  move=> eP r; have o : on X Y := ev_onK eP.
  have [ps' [ph' [om' [RX [RY [[h1 h2 h3 _] [h4 h5 h6 h7]]]]]]] := fom eP o r hw.
  rewrite es in h1; rewrite ef in h2; move: h4 h6 h7; rewrite -(OkI h1) -(OkI h2) => h4 h6 h7.
  have nn := plain_nn.
  rewrite (kval_sub pq) h6 (kval_conv pq) ?(kval_fpow pq) ?kval_mono; try (apply: nn; pl).
  rewrite (frq pq i) r1 rmorph1 mul1r expr0 mulr1 expr2 -mulrBl; split.
    move/eqP; rewrite mulf_eq0 mulf_eq0 (negbTE h4) !orbF subr_eq0 => /eqP e.
    by have := evfr eP; rewrite e => e'; exact: same_xE e' h5.
  move=> h; suff -> : fr X = RX by rewrite subrr mul0r.
  have := evfr eP; case: h => ->; rewrite ?evN h5 /=; by case.
split=> [H P [X [Y [eP r]]]|H X Y o r].
  by apply/(T X Y P eP r); apply: H; [exact: ev_onK eP|rewrite (D5_h ed)].
have onP : onb A B (Some (X, Y)) by apply/eqP.
pose P : V := EP onP; have eP : ev P = Some (X, Y) by [].
rewrite (D5_h ed) in r; apply/(T X Y P eP r); apply: H; by exists X, Y.
Qed.
End FM.
