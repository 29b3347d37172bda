(** Schoof's comparison of y-coordinates at a point of order 3, over a field with a Frobenius endomorphism. *)
From Coq Require Import ZArith Field Ring.
From mathcomp Require Import all_ssreflect all_algebra.
From Verif Require Import P_Group P_HasseGcd P_Tors3 P_EK P_Lin3 P_ThreeAbs.
Set Implicit Arguments. Unset Strict Implicit. Unset Printing Implicit Defensive.
Import GRing.Theory.
Local Open Scope ring_scope.

Section Curve.
Variables (K : fieldType) (a b : K) (c2 : 1 + 1 <> 0 :> K) (ns : forall x y : K, y * y = x * x * x + a * x + b -> y = 0 -> (1 + 1 + 1) * (x * x) + a = 0 -> False).
Hypothesis c3 : 1 + 1 + 1 <> 0 :> K.
Variable fr : {rmorphism K -> K}.
Hypothesis fra : fr a = a.
Hypothesis frb : fr b = b.
Notation V := (gpt c2 ns).
Notation ft := (field_ft K).
Notation dec := (@kd K).
Notation phi := (frob_additive c2 ns fra frb).
Notation T := (@T [zmodType of V]).
Lemma injp : injective phi. Proof. exact: frob_inj. Qed.
Definition xc (P : V) : K := if ev P is Some (x, _) then x else 0.
Definition yc (P : V) : K := if ev P is Some (_, y) then y else 0.
Lemma ev_c (P : V) : P <> 0 -> ev P = Some (xc P, yc P).
Proof. by rewrite /xc /yc => h; case e: (ev P) => [[x y]|] //; case: h; apply: ev_inj. Qed.
Lemma x_root (P : V) : T P -> P <> 0 -> psi3K a b (xc P) = 0.
Proof. by rewrite /P_Lin3.T torsP => h P0; move: h; rewrite (ev_c P0) /= => /eqP. Qed.
Lemma y_ne (P : V) : T P -> P <> 0 -> yc P <> 0.
Proof. by move=> t P0; apply: (psi3_y ns _ (x_root t P0)); have := ev_on P; rewrite (ev_c P0). Qed.
Lemma x_eq (P Q : V) : P <> 0 -> Q <> 0 -> xc P = xc Q -> P = Q \/ P = - Q.
Proof. by move=> P0 Q0 e; apply: (same_xE (ev_c P0)); rewrite (ev_c Q0) e. Qed.
Lemma x_phi (P : V) : P <> 0 -> xc (phi P) = fr (xc P).
Proof. by move=> P0; rewrite /xc /= /frob /= (ev_c P0). Qed.
Lemma y_phi (P : V) : P <> 0 -> yc (phi P) = fr (yc P).
Proof. by move=> P0; rewrite /yc /= /frob /= (ev_c P0). Qed.
Lemma x_neg (P : V) : xc (- P) = xc P.
Proof. by rewrite /xc evN; case: (ev P) => [[]|]. Qed.
Lemma y_neg (P : V) : P <> 0 -> yc (- P) = - yc P.
Proof. by move=> h; rewrite /yc evN (ev_c h). Qed.
Lemma phi0 (P : V) : P <> 0 -> phi P <> 0.
Proof. by move=> h; rewrite -(raddf0 phi) => /injp. Qed.
Lemma neg0 (P : V) : P <> 0 -> - P <> 0.
Proof. by move=> h /eqP; rewrite oppr_eq0 => /eqP. Qed.
(** The chord through two points with different x-coordinates. *)
Lemma chord (A B C : V) : A <> 0 -> B <> 0 -> C <> 0 -> xc A <> xc B -> A + B = C -> exists l, 
  [/\ yc A - yc B = l * (xc A - xc B), xc C = l * l - xc A - xc B & yc C = l * (xc A - xc C) - yc A].
Proof.
move=> A0 B0 C0 n e; have : ev (A + B) = ev C by rewrite e.
rewrite evD (ev_c A0) (ev_c B0) (ev_c C0) /=; case: kd => // _; rewrite /P_Group.third => -[e1 e2].
exists ((yc B - yc A) / (xc B - xc A)); split=> //; last by rewrite -e1 -e2.
have n' : xc B - xc A != 0 by rewrite subr_eq0; apply/eqP => h; apply: n.
by rewrite -(opprB (xc B)) mulrN divfK // opprB.
Qed.
Notation yt := (@ytest K +%R *%R (fun x y => x - y)).
Let canc := @k_canc K _ _ _ _ _ _ _ _ ft dec.
Notation four := (ne4 (V := [zmodType of V])).
Lemma four_sum (A B C D : V) : T A -> T B -> T C -> T D -> A <> 0 -> B <> 0 -> C <> 0 -> D <> 0 -> four A B C D -> xc A + xc B + xc C + xc D = 0.
Proof.
move=> tA tB tC tD A0 B0 C0 D0 [n1 n2 n3 n4 [n5 n6 n7 n8 [n9 n10 n11 n12]]].
have N (P Q : V) : P <> 0 -> Q <> 0 -> P <> Q -> P <> - Q -> xc P <> xc Q by move=> P0 Q0 h h' /(x_eq P0 Q0) [].
apply: (@vieta K _ _ _ _ _ _ _ _ ft dec a b) => //; try (by apply: N); by apply: x_root.
Qed.
Lemma four_x (A B C D : V) : A <> 0 -> B <> 0 -> C <> 0 -> D <> 0 -> four A B C D -> [/\ xc A <> xc B, xc A <> xc C, xc A <> xc D, xc B <> xc C & [/\ xc B <> xc D & xc C <> xc D]].
Proof.
move=> A0 B0 C0 D0 [n1 n2 n3 n4 [n5 n6 n7 n8 [n9 n10 n11 n12]]].
have N (P Q : V) : P <> 0 -> Q <> 0 -> P <> Q -> P <> - Q -> xc P <> xc Q by move=> P0 Q0 h h' /(x_eq P0 Q0) [].
by do !split; apply: N.
Qed.
Section Pt.
Variable P : V.
Hypothesis tP : T P.
Hypothesis P0 : P <> 0.
Let Q0 : phi P <> 0 := phi0 P0.
Let R0 : phi (phi P) <> 0 := phi0 Q0.
Let S0 : phi (phi (phi P)) <> 0 := phi0 R0.
Let tQ : T (phi P) := Tphi phi tP.
Let tR : T (phi (phi P)) := Tphi phi tQ.
Let tS : T (phi (phi (phi P))) := Tphi phi tR.
(** The test at P, with the sign s of the first point Q1 = s P given by v. *)
Definition ytP (v : K) : Prop := yt (xc P) v (xc (phi P)) (yc (phi P)) (xc (phi (phi P))) (yc (phi (phi P))).
Lemma sum3 (u v w z : K) : u + v + w + z = 0 -> u + v + w = - z.
Proof. by move/eqP; rewrite addr_eq0 => /eqP. Qed.
Lemma lsum (l u v w : K) : v = l * l - u - w -> l * l = u + v + w.
Proof. by move=> ->; rewrite addrCA -!addrA addNr addr0 addrA addrAC addrK. Qed.
Lemma mul0 (u v : K) : u * v = 0 -> u = 0 \/ v = 0.
Proof. by move/eqP; rewrite mulf_eq0 => /orP [] /eqP; tauto. Qed.
Theorem minus_plus : - P + phi (phi P) = phi P -> ~ ytP (- yc P).
Proof.
move=> e; have F := g_minus_plus injp tP P0 e.
have s4 := four_sum tP tQ tR tS P0 Q0 R0 S0 F; have [n1 n2 n3 n4 [n5 n6]] := four_x P0 Q0 R0 S0 F.
have [l] := chord (neg0 P0) R0 Q0 (fun h => n2 (etrans (esym (x_neg P)) h)) e; rewrite x_neg (y_neg P0) => -[h1 h2 h3].
move=> /(ytest_plus ft dec c2 n2 h1 h2 h3) /mul0 [l0|x0].
- have := lsum h2; rewrite l0 mulr0 (sum3 s4) => /esym /eqP; rewrite oppr_eq0 => /eqP x3.
  by apply: n6; apply: (fmorph_inj fr); rewrite -!x_phi // x3 x_phi // x3 rmorph0.
- by apply: n1; rewrite x_phi // x0 rmorph0.
Qed.
Theorem minus_minus : - P + phi (phi P) = - phi P -> ~ ytP (- yc P).
Proof.
move=> e; have [F e4] := g_minus_minus injp tP P0 e.
have s4 := four_sum tP tQ tR tS P0 Q0 R0 S0 F; have [n1 n2 n3 n4 [n5 n6]] := four_x P0 Q0 R0 S0 F.
have [l] := chord (neg0 P0) R0 (neg0 Q0) (fun h => n2 (etrans (esym (x_neg P)) h)) e; rewrite !x_neg (y_neg P0) (y_neg Q0) => -[h1 h2 h3].
move=> /(ytest_minus ft dec c2 n2 h1 h2 h3) [y0 [y1 ll]].
have {}ll : l * l = - xc (phi (phi (phi P))) by rewrite ll (sum3 s4).
have sq0 : yc P * yc P = - (xc (phi (phi (phi P))) * (xc (phi P) * xc (phi P))) by rewrite (oppr_inj y0) mulrACA ll mulNr.
have sq1 : yc (phi P) * yc (phi P) = - (xc (phi (phi (phi P))) * (xc P * xc P)) by rewrite y1 mulrNN mulrACA ll mulNr.
have x4 : fr (xc (phi (phi (phi P)))) = xc P by rewrite -x_phi // e4 x_neg.
have xne (A : V) : A <> 0 -> xc (phi A) <> xc A -> xc A <> 0 by move=> A0 h h0; apply: h; rewrite x_phi // h0 rmorph0.
have u0 : xc P <> 0 by apply: xne => // h; apply: n1.
have u3 : xc (phi (phi (phi P))) <> 0 by apply: xne => // h; apply: n3; rewrite -h e4 x_neg.
have r2 : xc (phi (phi P)) * xc (phi (phi P)) = xc P * xc (phi (phi (phi P))).
  apply: (canc u0); have := congr1 fr sq0; rewrite rmorphM -y_phi // sq1 rmorphN !rmorphM x4 -!x_phi // => /oppr_inj <-.
  by rewrite mulrCA; congr (_ * _); exact: mulrC.
have f (A : V) : A <> 0 -> fr (xc A) = xc (phi A) by move=> h; rewrite x_phi.
have r3 : xc (phi (phi (phi P))) * xc (phi (phi (phi P))) = xc (phi P) * xc P by have := congr1 fr r2; rewrite !rmorphM x4 !f.
have r0 : xc P * xc P = xc (phi (phi P)) * xc (phi P) by have := congr1 fr r3; rewrite !rmorphM x4 !f.
have := cyc ft r2 r3 r0 s4 => /mul0 [|/mul0 []] //.
by move/eqP; rewrite subr_eq0 => /eqP.
Qed.
Lemma fix_x : xc (phi P) = xc P -> phi P = P \/ phi P = - P.
Proof. by move/(x_eq Q0 P0). Qed.
Theorem plus_plus : P + phi (phi P) = phi P -> (ytP (yc P) <-> xc (phi P) = xc P \/ a = 0).
Proof.
move=> e; have [e1|ne] := eqVneq (phi P) (- P).
  split; first by left; rewrite e1 x_neg.
  move=> _; have eR : phi (phi P) = P by rewrite e1 raddfN e1 opprK.
  by rewrite /ytP eR; apply/(ytest_same ft dec).
have ne' : phi P <> - P by apply/eqP.
have [n0 [R [tR' eR' R0' F]]] := g_plus_plus injp tP P0 e ne'.
have s4 := four_sum tP tQ tR tR' P0 Q0 R0 R0' F; have [n1 n2 n3 n4 [n5 n6]] := four_x P0 Q0 R0 R0' F.
have [l [h1 h2 h3]] := chord P0 R0 Q0 n2 e.
rewrite /ytP (ytest_plus ft dec c2 n2 h1 h2 h3).
have ll := lsum h2; rewrite (sum3 s4) in ll.
have px := x_root tR' R0'.
split.
- move=> /mul0 [l0|x0]; last by left; rewrite x_phi // x0 rmorph0.
  right; move: ll; rewrite l0 mulr0 => /esym /eqP; rewrite oppr_eq0 => /eqP x0.
  move: px; rewrite x0 /psi3K (psi3_zero ft) => /eqP; rewrite oppr_eq0 mulf_eq0 orbb => /eqP //.
- case=> [/fix_x [] //|a0].
  have p0 : psi3K a b 0 = 0 by rewrite /psi3K (psi3_zero ft) a0 mulr0 oppr0.
  have xne (A : V) : A <> 0 -> xc (phi A) <> xc A -> 0 <> xc A by move=> A0 h h0; apply: h; rewrite x_phi // -h0 rmorph0.
  have x0 : xc R = 0.
    have [//|/eqP x0] := eqVneq (xc R) 0.
    have m1 : xc P <> 0 by apply/nesym/xne => // h; apply: n1.
    have m2 : xc (phi P) <> 0 by apply/nesym/xne => // h; apply: n4.
    have m3 : xc (phi (phi P)) <> 0 by rewrite x_phi // => /eqP; rewrite fmorph_eq0 => /eqP.
    have := @vieta K _ _ _ _ _ _ _ _ ft dec a b (xc P) (xc (phi P)) (xc (phi (phi P))) 0 c3 n1 n2 m1 n4 m2 m3 (x_root tP P0) (x_root tQ Q0) (x_root tR R0) p0.
    by move=> h; apply: (addrI (xc P + xc (phi P) + xc (phi (phi P)))); rewrite s4 h.
  move: ll; rewrite x0 oppr0 => /mul0 [] ->; by rewrite mul0r.
Qed.
Theorem plus_minus : P + phi (phi P) = - phi P -> (ytP (yc P) <-> xc (phi P) = xc P).
Proof.
move=> e; have [e1|ne] := eqVneq (phi P) P.
  split; first by rewrite e1.
  by move=> _; rewrite /ytP e1 e1; apply/(ytest_same ft dec).
have [n0 eS [R [tR' eR' R0' F]]] := g_plus_minus injp tP P0 e (elimN eqP ne).
have s4 := four_sum tP tQ tR tR' P0 Q0 R0 R0' F; have [n1 n2 n3 n4 [n5 n6]] := four_x P0 Q0 R0 R0' F.
split; last by move=> /(@esym _ _ _).
have [l] := chord P0 R0 (neg0 Q0) n2 e; rewrite x_neg (y_neg Q0) => -[h1 h2 h3].
move=> /(ytest_minus ft dec c2 n2 h1 h2 h3) [y0 [y1 ll]]; exfalso.
have {}ll : l * l = - xc R by rewrite ll (sum3 s4).
have sq0 : yc P * yc P = - (xc R * (xc (phi P) * xc (phi P))) by rewrite y0 mulrNN mulrACA ll mulNr.
have sq1 : yc (phi P) * yc (phi P) = - (xc R * (xc P * xc P)) by rewrite y1 mulrNN mulrACA ll mulNr.
have xR : fr (xc R) = xc R by rewrite -x_phi // eR'.
have u : xc R <> 0.
  move=> h; move: sq1; rewrite h mul0r oppr0 => /mul0 []; exact: (y_ne tQ Q0).
have : xc (phi (phi P)) * xc (phi (phi P)) = xc P * xc P.
  apply: (canc u); have := congr1 fr sq0; rewrite rmorphM -y_phi // sq1 rmorphN !rmorphM xR -!x_phi // => /oppr_inj //.
move=> /(sq_eq ft dec) [h|h]; first by apply: n2.
have := congr1 fr h; rewrite rmorphN -!x_phi // eS => h'.
by apply: n4; rewrite h h' opprK.
Qed.
End Pt.
End Curve.
