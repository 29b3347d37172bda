(** The roots of psi_3 and the points of order 3 over an algebraically closed field containing the finite field F. *)
From Coq Require Import ZArith Ring.
From mathcomp Require Import all_ssreflect all_algebra closed_field separable zify.
From Verif Require Import P_Group P_HasseGcd P_Tors3 P_FinF P_EK P_Lin3.
Set Implicit Arguments. Unset Strict Implicit. Unset Printing Implicit Defensive.
Import GRing.Theory.
Local Open Scope ring_scope.

Section Clos.
Variables (F : finFieldType) (K : closedFieldType) (i : {rmorphism F -> K}).
Variables a b : F.
Hypothesis c2 : 1 + 1 != 0 :> F.
Hypothesis c3 : 1 + 1 + 1 != 0 :> F.
Hypothesis disc : (1 + 1) * (1 + 1) * (a * a * a) + (1 + 1 + 1) * (1 + 1 + 1) * (1 + 1 + 1) * (b * b) != 0.
Variable p : nat.
Hypothesis cp : p \in [char K].
Hypothesis Fp : #|F| = p.
Notation A := (i a). Notation B := (i b).
Lemma c2K : 1 + 1 <> 0 :> K.
Proof. by apply/eqP; rewrite -(rmorph1 i) -rmorphD fmorph_eq0. Qed.
Lemma c3K : 1 + 1 + 1 != 0 :> K.
Proof. by rewrite -(rmorph1 i) -!rmorphD fmorph_eq0. Qed.
Lemma c12K : (1 + 1) * (1 + 1) * (1 + 1 + 1) != 0 :> K.
Proof. by rewrite !mulf_neq0 //; try apply/eqP/c2K; exact: c3K. Qed.
Lemma nsK' (x : K) : x * x * x + A * x + B = 0 -> (1 + 1 + 1) * (x * x) + A = 0 -> False.
Proof.
move=> e1 e2; have := sing_disc K _ _ _ _ _ _ (ring_rt [comRingType of K]) _ _ _ e1 e2 => /eqP.
by rewrite -(rmorph1 i) -!(rmorphM, rmorphD) fmorph_eq0 (negbTE disc).
Qed.
Lemma nsK (x y : K) : y * y = x * x * x + A * x + B -> y = 0 -> (1 + 1 + 1) * (x * x) + A = 0 -> False.
Proof. by move=> e y0; apply: nsK'; rewrite -e y0 mulr0. Qed.
Notation V := (gpt c2K nsK).
(** The fixed field of x -> x^p. *)
Lemma fixed (x : K) : x ^+ p = x -> exists z, x = i z.
Proof.
move=> e; have := congr1 (map_poly i) (finField_genPoly F); rewrite rmorphB /= map_polyXn map_polyX Fp rmorph_prod /= => /(congr1 (fun P => P.[x])).
rewrite !hornerE hornerXn e subrr => /esym /eqP; rewrite horner_prod => /prodf_eq0 [z _].
by rewrite rmorphB /= map_polyX map_polyC !hornerE subr_eq0 => /eqP ->; exists z.
Qed.
Lemma fixedI z : (i z) ^+ p = i z.
Proof. by rewrite -rmorphX -Fp expf_card. Qed.
Notation fr := [rmorphism of Frobenius_aut cp].
Lemma frE x : fr x = x ^+ p. Proof. exact: Frobenius_autE. Qed.
Lemma frA z : fr (i z) = i z. Proof. by rewrite frE fixedI. Qed.
Notation phi := (frob_additive c2K nsK (frA a) (frA b)).
(** Square roots. *)
Lemma sqrtK (z : K) : exists y, y * y = z.
Proof.
have [|y] := @closed_rootP K ('X^2 - z%:P) _; first by rewrite size_addl size_polyXn // size_opp; apply: leq_ltn_trans (size_polyC_leq1 _) _.
by rewrite rootE !hornerE ?hornerXn subr_eq0 ?expr2 => /eqP; exists y.
Qed.
(** The polynomial psi_3. *)
Definition psiP (R : ringType) (u v : R) : {poly R} := (1 + 1 + 1) *: 'X^4 + ((1 + 1) * (1 + 1 + 1) * u) *: 'X^2 + ((1 + 1) * (1 + 1) * (1 + 1 + 1) * v) *: 'X - (u * u)%:P.
Lemma psiP_map : map_poly i (psiP a b) = psiP A B.
Proof. by rewrite /psiP !(rmorphB, rmorphD) /= !map_polyZ !map_polyXn map_polyX map_polyC /= !(rmorphM, rmorphD, rmorph1). Qed.
Lemma psiP_horner x : (psiP A B).[x] = psi3K A B x.
Proof.
by rewrite /psiP !hornerE.
Qed.
Lemma quartic_size (c u v w : K) : c != 0 -> size (c *: 'X^4 + u *: 'X^2 + v *: 'X - w%:P) = 5%N.
Proof.
move=> c0; rewrite -!addrA size_addl size_scale // size_polyXn //; apply: leq_ltn_trans (size_add _ _) _; rewrite gtn_max; apply/andP; split.
  by apply: leq_ltn_trans (size_scale_leq _ _) _; rewrite size_polyXn.
apply: leq_ltn_trans (size_add _ _) _; rewrite gtn_max; apply/andP; split.
  by apply: leq_ltn_trans (size_scale_leq _ _) _; rewrite size_polyX.
by rewrite size_opp; apply: leq_ltn_trans (size_polyC_leq1 _) _.
Qed.
Lemma psiP_size : size (psiP A B) = 5%N.
Proof. exact: quartic_size c3K. Qed.
Lemma psiP_deriv x : (psiP A B)^`().[x] = (1 + 1) * (1 + 1) * (1 + 1 + 1) * (x * x * x + A * x + B).
Proof.
rewrite /psiP !derivE !hornerE; exact: (psi3_dhorner K _ _ _ _ _ _ (ring_rt [comRingType of K])).
Qed.
(** psi_3 has four distinct roots. *)
Lemma psi_roots : exists rs : seq K, [/\ psiP A B = (1 + 1 + 1) *: \prod_(z <- rs) ('X - z%:P), uniq rs & size rs = 4%N].
Proof.
have [rs e] := closed_field_poly_normal (psiP A B).
have lc : lead_coef (psiP A B) != 0 by rewrite lead_coef_eq0 -size_poly_eq0 psiP_size.
have lc3 : lead_coef (psiP A B) = 1 + 1 + 1.
  by rewrite lead_coefE psiP_size /psiP !(coefD, coefN, coefZ, coefXn, coefX, coefC) /= !(mulr0, mulr1, addr0, oppr0).
exists rs; rewrite -lc3; split=> //.
  have sp : separable_poly (psiP A B).
    rewrite /separable_poly; apply: Pdiv.ClosedField.root_coprimep => x; rewrite rootE psiP_horner => /eqP h.
    rewrite psiP_deriv mulf_eq0 (negbTE c12K) /=; apply/eqP => h2.
    apply: (nsK' h2); apply: (psi3_sing K _ _ _ _ _ _ _ _ (field_ft K) (@kd K) A B x 0 _ h) => //.
    by rewrite mulr0 h2.
  by rewrite -(separable_prod_XsubC rs) -(eqp_separable (eqp_scale _ lc)) -e.
by have := psiP_size; rewrite e size_scale // size_prod_XsubC => -[].
Qed.
(** Divisibility by psi_3 is vanishing at its roots. *)
Lemma psi_dvd (G : {poly F}) : (psiP a b %| G) <-> forall x : K, psi3K A B x = 0 -> (map_poly i G).[x] = 0.
Proof.
rewrite -(dvdp_map i) psiP_map; split=> [/dvdpP [H e] x h|H].
  by rewrite e hornerM psiP_horner h mulr0.
have [rs [e u _]] := psi_roots; rewrite e dvdpZl ?c3K // uniq_roots_dvdp ?uniq_rootsE //.
apply/allP=> z zr; rewrite rootE H // -psiP_horner e hornerZ; apply/eqP; rewrite mulf_eq0; apply/orP; right.
by rewrite -rootE root_prod_XsubC.
Qed.
(** At most 9 points of order dividing 3. *)
Lemma fibre (rs : seq K) : exists L : seq (option (K * K)), (size L <= 2 * size rs)%N /\ forall x y, x \in rs -> y * y = x * x * x + A * x + B -> Some (x, y) \in L.
Proof.
elim: rs => [|z rs [L [sL HL]]]; first by exists [::].
have [s es] := sqrtK (z * z * z + A * z + B).
exists (Some (z, s) :: Some (z, - s) :: L); split; first by rewrite /= mulnS; lia.
move=> x y; rewrite !inE => /orP [/eqP -> e|xr e]; last by rewrite (HL x y) ?orbT.
have : (y - s) * (y + s) == 0 by rewrite -subr_sqr !expr2 e es subrr.
by rewrite mulf_eq0 subr_eq0 addr_eq0 => /orP [] /eqP ->; rewrite eqxx ?orbT.
Qed.
Lemma bound9 (s : seq V) : uniq s -> all (@T _) s -> (size s <= 9)%N.
Proof.
move=> us ts; have [rs [e u s4]] := psi_roots; have [L [sL HL]] := fibre rs; rewrite s4 in sL.
have : (size (map (@ev K A B) s) <= size (None :: L))%N.
  apply: uniq_leq_size; first by rewrite map_inj_uniq //; exact: val_inj.
  move=> X /mapP [P Ps ->]; have := allP ts _ Ps; rewrite /T torsP.
  have := ev_on P; case: (ev P) => [[x y]|] //= on /eqP h.
  rewrite inE /= HL //; rewrite -root_prod_XsubC rootE; move: h; rewrite -psiP_horner e hornerZ => /eqP; rewrite mulf_eq0 (negbTE c3K) /=.
  by move/eqP=> ->.
by rewrite size_map /= => h; apply: leq_trans h _; rewrite ltnS.
Qed.
(** Eigenvalues of Frobenius on the points of order 3, in terms of F. *)
Definition has1 := exists x y : F, y * y = x * x * x + a * x + b /\ psi3K a b x = 0.
Definition hasN := exists x : F, psi3K a b x = 0 /\ forall y, y * y <> x * x * x + a * x + b.
Lemma psi3_map x : psi3K A B (i x) = i (psi3K a b x).
Proof. by rewrite /psi3K /psi3 !(rmorphB, rmorphD, rmorphM, rmorph1). Qed.
Lemma f_map x : i x * i x * i x + A * i x + B = i (x * x * x + a * x + b).
Proof. by rewrite !(rmorphD, rmorphM). Qed.
Lemma eig1P : eig1 phi <-> has1.
Proof.
split.
- case=> P [t n e]; have := ev_on P; move: t n e; rewrite /T torsP.
  case: P => -[[x y]|] on //= /eqP h _ /(congr1 (@ev K A B)) /= [ex ey] _.
  have [u eu] := fixed ex; have [v ev] := fixed ey; subst x y.
  move/eqP: on; rewrite f_map -rmorphM => /fmorph_inj e; exists u, v; split=> //.
  by move/eqP: h; rewrite psi3_map fmorph_eq0 => /eqP.
- case=> u [v [e h]].
  have on : onb A B (Some (i u, i v)) by rewrite /= f_map -rmorphM e.
  exists (EP on : V); split; last by apply: ev_inj; congr (Some (_, _)); exact: frA.
    by rewrite /T torsP /= psi3_map h rmorph0.
  by apply/eqP => /(congr1 (@ev K A B)).
Qed.
Lemma eigNP : eigN phi <-> hasN.
Proof.
split.
- case=> P [t n e]; have := ev_on P; move: t n e; rewrite /T torsP.
  case: P => -[[x y]|] on //= /eqP h _ /(congr1 (@ev K A B)) /= [ex ey] _.
  have [u eu] := fixed ex; subst x; exists u; split; first by move/eqP: h; rewrite psi3_map fmorph_eq0 => /eqP.
  move=> v ve; move/eqP: on => on.
  have y0 := psi3_y nsK on h.
  have : (y - i v) * (y + i v) == 0 by rewrite -subr_sqr !expr2 on f_map -ve rmorphM subrr.
  rewrite mulf_eq0 subr_eq0 addr_eq0 -rmorphN => /orP [] /eqP yv; apply: y0; apply: (P_Group.k_opp_0 _ _ _ _ _ _ _ _ _ (field_ft K) (@kd K) c2K).
    by rewrite {1}yv -(fixedI v) -yv.
  by rewrite {1}yv -(fixedI (- v)) -yv.
- case=> u [h nsq]; have [y ey] := sqrtK (i u * i u * i u + A * i u + B).
  have on : onb A B (Some (i u, y)) by rewrite /= ey.
  exists (EP on : V); split; last first.
  + apply: ev_inj; rewrite evN; congr (Some (_, _)); first exact: frA.
    have : (fr y - y) * (fr y + y) == 0 by rewrite -subr_sqr !expr2 -rmorphM ey f_map frA subrr.
    rewrite mulf_eq0 subr_eq0 addr_eq0 => /orP [] /eqP // e; exfalso.
    have [v ev] := fixed (etrans (esym (frE y)) e); apply: (nsq v); apply: (fmorph_inj i).
    by rewrite rmorphM -ev ey f_map.
  + by apply/eqP => /(congr1 (@ev K A B)).
  + by rewrite /T torsP /= psi3_map h rmorph0.
Qed.
Lemma phi_inj : injective phi. Proof. exact: frob_inj. Qed.
(** The tests in coordinates; s = 1 or -1 is the sign of the first point. *)
Definition test (s x y : K) := (s * y - fr (fr y)) * (s * y - fr (fr y)) = (x + fr (fr x) + fr x) * ((x - fr (fr x)) * (x - fr (fr x))).
Lemma test1 (P : V) x y : ev P = Some (x, y) -> test 1 x y <-> match1 phi P.
Proof.
move=> e; rewrite /test mul1r; apply: (@chordE K A B c2K nsK P (phi (phi P)) (phi P) x y _ _ _ (fr y)); by rewrite /= ?e.
Qed.
Lemma test2 (P : V) x y : ev P = Some (x, y) -> test (-1) x y <-> match2 phi P.
Proof.
move=> e; rewrite /test mulN1r; apply: (@chordE K A B c2K nsK (- P) (phi (phi P)) (phi P) x (- y) _ _ _ (fr y)); by rewrite ?evN /= ?e.
Qed.
Definition alltest (s : K) := forall x y : K, y * y = x * x * x + A * x + B -> psi3K A B x = 0 -> test s x y.
Lemma point x : psi3K A B x = 0 -> exists y, y * y = x * x * x + A * x + B.
Proof. by move=> _; exact: sqrtK. Qed.
Lemma all1_yes : has1 \/ hasN -> ~ (has1 /\ hasN) -> alltest 1.
Proof.
rewrite -eig1P -eigNP => h n x y e0 h0.
have on : onb A B (Some (x, y)) by rewrite /= e0.
have t : T (EP on : V) by rewrite /T torsP /= h0.
apply/(@test1 (EP on) x y erefl); case: h => h.
  by apply: eig1_m1 => //; [exact: phi_inj|exact: bound9|move=> h'; apply: n].
by apply: eigN_m1 => //; [exact: phi_inj|exact: bound9|move=> h'; apply: n].
Qed.
Lemma some_root : exists x y : K, psi3K A B x = 0 /\ y * y = x * x * x + A * x + B.
Proof.
have [|x] := @closed_rootP K (psiP A B) _; first by rewrite psiP_size.
by rewrite rootE psiP_horner => /eqP h; have [y e] := point h; exists x, y.
Qed.
Lemma all1_no : ~ has1 -> ~ hasN -> ~ alltest 1.
Proof.
rewrite -eig1P -eigNP => n1 nN H; have [x [y [h e]]] := some_root.
have on : onb A B (Some (x, y)) by rewrite /= e.
have t : T (EP on : V) by rewrite /T torsP /= h.
have n0 : (EP on : V) != 0 by apply/eqP => /(congr1 (@ev K A B)).
by case: (m1_eig t n0 ((@test1 (EP on) x y erefl).1 (H x y e h))).
Qed.
Lemma all2_yes : ~ has1 -> ~ hasN -> alltest (-1).
Proof.
rewrite -eig1P -eigNP => n1 nN x y e0 h0.
have on : onb A B (Some (x, y)) by rewrite /= e0.
have t : T (EP on : V) by rewrite /T torsP /= h0.
apply/(@test2 (EP on) x y erefl); apply: (noeig_m2 phi_inj bound9 n1 nN t).
by apply/eqP => /(congr1 (@ev K A B)).
Qed.
Lemma all2_no : has1 -> ~ alltest (-1).
Proof.
rewrite -eig1P => -[P [t n0 e]] H; apply: (fix_m2 t n0 e).
have := ev_on P; move: t n0 (e); rewrite /T torsP; case ep: (ev P) => [[x y]|] //=; last first.
  by move=> _ /eqP []; apply: ev_inj.
by move=> /eqP h _ _ on; apply/(test2 ep); apply: H.
Qed.
End Clos.
