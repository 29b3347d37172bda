(** Schoof's comparison of y-coordinates for l = 3 in terms of the roots of psi_3 and the number of points. *)
From Coq Require Import ZArith Znumtheory List ZifyBool Ring.
From mathcomp Require Import all_ssreflect all_algebra closed_field separable finfield.
From mathcomp Require Import zify.
From Verif Require Import Prelude M_Term M_DivPoly Spec P_Variable P_FSum P_Poly P_Rem P_Subst P_Subst2 P_NormalProps P_DivProps P_SchoofId2 SpecSchoof P_HasseZ P_HasseFin P_HasseGcd P_Group P_Tors3 P_FinF P_EK P_Lin3 P_Clos P_FPoly P_Three P_XMatch P_ThreeAbs P_ThreeSign P_YMatch P_TrClos P_FrobChar P_FrobAll SpecThree.
Set Implicit Arguments. Unset Strict Implicit. Unset Printing Implicit Defensive.
Import GRing.Theory.

Section YS.
Variable q : Z.
Hypothesis pq : Znumtheory.prime q.
Hypothesis q3 : (3 < q)%Z.
Let n := Z.to_nat q.
Notation F := 'F_n.
Notation rd := (@red q).
Variables a b : Z.
Hypothesis disc : ~ (q | 4 * (a * a * a) + 27 * (b * b))%Z.
Local Open Scope ring_scope.
Variables (K : closedFieldType) (i : {rmorphism F -> K}).
Let rD := red_add pq. Let rM := red_mul pq. Let r1 := red_1 pq.
Notation A := (i (rd a)). Notation B := (i (rd b)).
Notation kv := (@kval q K i).
Notation on := (@onK q K i a b).
Notation fr := [rmorphism of Frobenius_aut (t_cp pq i)].
Notation yt := (@ytest K +%R *%R (fun x y => x - y)).
Let t2 := t_c2 pq q3. Let t3 := t_c3 pq q3. Let td := t_dd pq disc.
Lemma D3 d : psi a b 3 = Ok d -> pj q 0 d = psiP (rd a) (rd b).
Proof.
move=> ed; have [_ [_ [_ [[r [e' f]] _]]]] := c48_psi_base a b; have -> : d = r by congruence.
by rewrite -(pj_base3 pq); apply: (pj_feqm pq); exact: feq_feqm.
Qed.
Lemma D3_dvd d : psi a b 3 = Ok d -> forall G : {poly F}, (pj q 0 d %| G) <-> forall X : K, (map_poly i (pj q 0 d)).[X] = 0 -> (map_poly i G).[X] = 0.
Proof.
move=> ed G; rewrite (D3 ed) (psi_dvd i t2 t3 td).
by split=> h X; move: (h X); rewrite psiP_map psiP_horner.
Qed.
Lemma D3_y d X Y : psi a b 3 = Ok d -> on X Y -> (map_poly i (pj q 0 d)).[X] = 0 -> Y + Y <> 0.
Proof.
move=> ed; rewrite (psi3_root pq i X ed) => o r; have y0 := psi3_y (nsK (i := i) td) o r; rewrite -mulr2n -mulr_natl => /eqP; rewrite mulf_eq0 => /orP [/eqP h|/eqP //].
by apply: (c2K i t2); rewrite -[RHS]h.
Qed.
Definition ally (s : K) := forall X Y, on X Y -> psi3K A B X = 0 -> yt X (s * Y) (fr X) (fr Y) (fr (fr X)) (fr (fr Y)).
Lemma ym_test s d ps ph om : psi a b 3 = Ok d -> plain ps -> plain ph -> plain om ->
  (forall X Y, on X Y -> psi3K A B X = 0 -> let c := kv X Y ps in c <> 0 /\ kv X Y ph = X * (c * c) /\ kv X Y om = s * Y * (c * (c * c))) ->
  y_match (-1) a b q d ps ph om (fmono 1 0 0 0) (fmono 1 0 1 0) <-> ally s.
Proof.
move=> ed p1 p2 p3 H.
pose Q X Y := yt X (s * Y) (fr X) (fr Y) (fr (fr X)) (fr (fr Y)).
rewrite (@ym_gen q pq q3 a b K i d ps ph om (fmono 1 0 0 0) (fmono 1 0 1 0) Q (psi3_x q ed) p1 p2 p3 _ _ (D3_dvd ed) (fun X Y => @D3_y d X Y ed)); try by apply: plain_mono.
  by rewrite /ally /Q; split=> h X Y o r; apply: h => //; move: r; rewrite (psi3_root pq i X ed).
move=> X Y o; rewrite (psi3_root pq i X ed) => r; have [c0 [e1 e2]] := H X Y o r.
exists X, (s * Y), Y; rewrite /= !kval_mono r1 rmorph1 !expr0 !expr1 !mul1r !mulr1; do !split=> //; try exact/eqP.
by rewrite oner_eq0.
Qed.
Lemma ys_one : (q mod 3 = 1)%Z -> y_matches (-1) a b q 3 1 <-> ally 1.
Proof.
move=> qm; have [e0 [e1 [e2 [[d [e3 _]] _]]]] := c48_psi_base a b.
have eo := c50_omega_one a b.
have T : y_match (-1) a b q d (fmono 1 0 0 0) (fmono 1 1 0 0) (fmono 1 0 1 0) (fmono 1 0 0 0) (fmono 1 0 1 0) <-> ally 1.
  apply: ym_test => //; try by apply: plain_mono.
  move=> X Y o r; rewrite !kval_mono r1 rmorph1 /= !expr0 !expr1 !mul1r !mulr1; do !split=> //.
  by apply/eqP; rewrite oner_eq0.
rewrite -T /y_matches qm; split.
- case=> d' [ps [ph [om [psj [omj [h1 [h2 [h3 [h4 [h5 [h6 h]]]]]]]]]]]; rewrite phi1 in h3.
  have q1 : d' = d by congruence. have q2 : ps = fmono 1 0 0 0 by congruence. have q4 : ph = fmono 1 1 0 0 by congruence.
  have q5 : om = fmono 1 0 1 0 by congruence. have q6 : psj = fmono 1 0 0 0 by congruence. have q7 : omj = fmono 1 0 1 0 by congruence.
  by subst.
- by move=> h; exists d, (fmono 1 0 0 0), (fmono 1 1 0 0), (fmono 1 0 1 0), (fmono 1 0 0 0), (fmono 1 0 1 0).
Qed.
Lemma ys_two : (q mod 3 = 2)%Z -> y_matches (-1) a b q 3 1 <-> ally (-1).
Proof.
move=> qm; have [e0 [e1 [e2 [[d [e3 f3]] [p4 [e4 f4]]]]]] := c48_psi_base a b.
have eo := c50_omega_one a b.
have [ph [ps [p3 [p1 [h1 [h2 [h3 [h4 [_ [ox [cg _]]]]]]]]]]] := c50_phi a b 2 ltac:(lia).
have [om [u [v [s [t [g1 [g2 [g3 [g4 [g5 [_ [ky [cg' _]]]]]]]]]]]]] := c50_omega a b 2 ltac:(lia).
have q1 : ps = fmono 2 0 1 0 by congruence. have q2 : p3 = d by rewrite (_ : 2 + 1 = 3)%Z // in h3; congruence. have q4 : p1 = fmono 1 0 0 0 by rewrite (_ : 2 - 1 = 1)%Z // in h4; congruence.
have q5 : u = p4 by rewrite (_ : 2 + 2 = 4)%Z // in g2; congruence. have q6 : v = fmono 1 0 0 0 by rewrite (_ : 2 - 1 = 1)%Z // in g3; congruence. have q7 : s = [::] by rewrite (_ : 2 - 2 = 0)%Z // in g4; congruence.
have q8 : t = d by rewrite (_ : 2 + 1 = 3)%Z // in g5; congruence. subst.
have ox3 := psi3_x q e3.
have ppo : plain om by move=> m c /ky /= [? [-> ?]].
have pph : plain ph by exact: only_x_plain.
have pd : plain d by exact: only_x_plain.
have T : y_match (-1) a b q d (fmono 2 0 1 0) ph om (fmono 1 0 0 0) (fmono 1 0 1 0) <-> ally (-1).
  apply: ym_test => //; try by apply: plain_mono.
  move=> X Y o r; have y0 := psi3_y (nsK (i := i) td) o r; rewrite (kv_2 pq) /=.
  have k3 : kv X Y d = 0.
    have kd : keys01 d by move=> m c /ox3 [? [-> ?]]; do !split => //; tauto.
    have z : pj q 1 d = 0.
      apply/polyP => k; rewrite (coef_pj pq) coef0; apply/(red_eq0 pq).
      case: (Z.eq_dec (coef d (mkMono (Z.of_nat k) 1 0 None)) 0) => [->|/coef_in [c /ox3 /= [_ []]] //]; by exists 0%Z.
    by rewrite kval_pj // z rmorph0 horner0 mulr0 addr0 (psi3_root pq i X e3).
  have c0 : (1 + 1) * Y <> 0.
    by move/eqP; rewrite mulf_eq0 => /orP [/eqP|/eqP //]; exact: (c2K i t2).
  split=> //; split.
  - rewrite (kval_cong pq o pph _ (cong_0_q q cg)); last by pl.
    have ex : kv X Y (fsub (conv (fmono 1 1 0 0) (fpow (fmono 2 0 1 0) 2)) (conv d (fmono 1 0 0 0))) = kv X Y (fmono 1 1 0 0) * kv X Y (fmono 2 0 1 0) ^+ 2 - kv X Y d * kv X Y (fmono 1 0 0 0).
      rewrite (kval_sub pq) -(kval_fpow pq); last by apply: plain_nn; pl.
      by congr (_ - _); apply: (kval_conv pq); apply: plain_nn; pl.
    by rewrite ex k3 mul0r subr0 (kv_2 pq) kval_mono r1 rmorph1 mul1r expr0 expr1 mulr1 expr2.
  - have pp4 : plain p4.
      have [r4 [g [er [_ [k4 _]]]]] := c48_psi_even a b 4 ltac:(lia) erefl; have -> : p4 = r4 by congruence.
      by move=> m c /k4 [? [-> ?]].
    have pb : plain (base4 a b) by do 5 (apply: plain_add; [apply: plain_mono; lia|]); apply: plain_mono; lia.
    have k4 : kv X Y p4 = (1 + 1) * (1 + 1) * Y * @om2 K 1 +%R *%R (fun x y => x - y) A B X.
      have c4 : cong_ideal q (fcurve a b) p4 (conv (fmono 4 0 1 0) (base4 a b)) by apply: feqm_cong; apply: feq_feqm; exact f4.
      rewrite (kval_cong pq o pp4 _ c4); last by pl.
      rewrite (@kval_conv _ pq _ _ _ _ (fmono 4 0 1 0) (base4 a b)) ?(kv_base4 pq) ?kval_mono; try (apply: plain_nn; pl).
      by rewrite (_ : 4 = (1 + 1) * (1 + 1))%Z // rM !rD r1 rmorphM !rmorphD rmorph1 expr0 expr1 mulr1.
    have := kval_cong pq o _ _ (cong_0_q q cg'); rewrite (kval_sub pq) (@kval_conv _ pq _ _ _ _ (fmono 4 0 1 0) om) ?(@kval_conv _ pq _ _ _ _ p4) ?(@kval_conv _ pq _ _ _ _ [::]) ?(@kval_fpow _ pq _ _ _ _ (fmono 1 0 0 0)); try (apply: plain_nn; pl); try by move=> ? ? [].
    rewrite k4 !kval_mono {2}/kval big_nil mul0r subr0 r1 rmorph1 !expr0 expr1 !mulr1 expr1n mulr1.
    have -> : i (rd 4) = (1 + 1) * (1 + 1) by rewrite (_ : 4 = (1 + 1) * (1 + 1))%Z // rM !rD r1 rmorphM !rmorphD rmorph1.
    move=> h; have {}h : (1 + 1) * (1 + 1) * Y * kv X Y om = (1 + 1) * (1 + 1) * Y * @om2 K 1 +%R *%R (fun x y => x - y) A B X by apply: h; pl.
    have n4 : (1 + 1) * (1 + 1) * Y != 0 by apply/eqP; rewrite -mulrA => /eqP; rewrite mulf_eq0 => /orP [/eqP|/eqP //]; exact: (c2K i t2).
    rewrite (mulfI n4 h).
    have := om2_psi3 K _ _ _ _ _ _ _ _ (field_ft K) A B X.
    have -> : @psi3 K 1 +%R *%R (fun x y => x - y) A B X = 0 by exact: r.
    rewrite mul0r -o => hz; exact: (om_ident (ring_rt [comRingType of K]) hz).
rewrite -T /y_matches qm; split.
- case=> d' [ps [ph' [om' [psj [omj [k1 [k2 [k3 [k4 [k5 [k6 h]]]]]]]]]]].
  have q1 : d' = d by congruence. have q2 : ps = fmono 2 0 1 0 by congruence. have q4 : ph' = ph by congruence.
  have q5 : om' = om by congruence. have q6 : psj = fmono 1 0 0 0 by congruence. have q7 : omj = fmono 1 0 1 0 by congruence.
  by subst.
- by move=> h; exists d, (fmono 2 0 1 0), ph, om, (fmono 1 0 0 0), (fmono 1 0 1 0).
Qed.
(** psi_3 splits modulo q exactly if Frobenius fixes the x-coordinates of the points of order 3. *)
Lemma psi3_red x : psi3K (rd a) (rd b) (rd x) = rd (psi3_at a b x).
Proof.
rewrite /psi3_at (_ : (3 * x ^ 4 + 6 * a * x ^ 2 + 12 * b * x - a ^ 2) = (1 + 1 + 1) * x * x * x * x + (1 + 1) * (1 + 1 + 1) * a * x * x + (1 + 1) * (1 + 1) * (1 + 1 + 1) * b * x + - (a * a))%Z; last by ring.
by rewrite !(rD, rM, r1, red_opp pq).
Qed.
Lemma mapIn3 (l : list Z) (z : F) : z \in [seq rd x | x <- l] -> exists x, List.In x l /\ z = rd x.
Proof. by elim: l => [|x l IH] //=; rewrite inE => /orP [/eqP ->|/IH [y [h e]]]; [exists x; split=> //; left|exists y; split=> //; right]. Qed.
Lemma splitsP : psi3_splits a b q <-> forall X : K, psi3K A B X = 0 -> fr X = X.
Proof.
have D : (psiP (rd a) (rd b) %| 'X^#|F| - 'X) <-> forall X : K, psi3K A B X = 0 -> fr X = X.
  rewrite (psi_dvd i t2 t3 td); split=> h X r; move: (h X r); rewrite rmorphB /= map_polyXn map_polyX !hornerE hornerXn (t_card pq).
    by rewrite frE => /eqP; rewrite subr_eq0 => /eqP.
  by rewrite frE => ->; rewrite subrr.
rewrite -D.
have sd : size (psiP (rd a) (rd b)) = 5%nat by rewrite -(size_map_poly i) psiP_map; apply: quartic_size; exact: (c3K i t3).
have hd x : (psiP (rd a) (rd b)).[rd x] = rd (psi3_at a b x).
  by rewrite -psi3_red /psiP !hornerE.
have bk x : rd (back x) = x := red_back pq x.
split.
- case=> l [sl [nl hl]].
  pose r := [seq rd x | x <- l].
  have sr : size r = 4%nat by rewrite size_map -sl.
  have ur : uniq r.
    have hl' : forall x, List.In x l -> (0 <= x < q)%Z by move=> x /hl [].
    rewrite /r; move: nl hl'; clear -pq n; elim: l => [|x l IH] //= /NoDup_cons_iff [n1 n2] h.
    rewrite (IH n2) ?andbT; last by move=> y hy; apply: h; right.
    apply/negP => /mapIn3 [y [hy' e]]; apply: n1.
    have -> : x = y by rewrite -(back_red pq (h x (or_introl erefl))) -(back_red pq (h y (or_intror hy'))) e.
    exact: hy'.
  have ar : all (root (psiP (rd a) (rd b))) r.
    apply/allP => z /mapIn3 [x [hx ->]]; apply/eqP; rewrite hd; apply/(red_eq0 pq).
    by case: (hl x hx).
  have dv : \prod_(z <- r) ('X - z%:P) %| psiP (rd a) (rd b) by apply: uniq_roots_dvdp; rewrite ?uniq_rootsE.
  have eq : \prod_(z <- r) ('X - z%:P) %= psiP (rd a) (rd b) by rewrite -dvdp_size_eqp // size_prod_XsubC sr sd.
  rewrite -(eqp_dvdl _ eq); apply: uniq_roots_dvdp; last by rewrite uniq_rootsE.
  by apply/allP => z _; rewrite rootE !hornerE hornerXn expf_card subrr.
- rewrite finField_genPoly => /dvdp_prod_XsubC [m e].
  have := eqp_size e; rewrite sd size_prod_XsubC => -[s4].
  set l := mask m _ in e s4 *.
  have ul : uniq l by apply: mask_uniq; exact: index_enum_uniq.
  exists (List.map (@back q) l); split; first by rewrite List.map_length; symmetry.
  split.
    apply: FinFun.Injective_map_NoDup; first by move=> x y h; rewrite -[x]bk h bk.
    move: ul; clear; elim: l => [|x l IH] /=; first by move=> _; constructor.
    by case/andP=> h1 h2; constructor; [move=> h; move/negP: h1; apply; move: h; clear; elim: l => [|y l IH] //= [->|/IH h]; rewrite inE ?eqxx ?h ?orbT|exact: IH].
  move=> z /List.in_map_iff [x [<- hx]]; split; first exact: (back_bound pq).
  apply/(red_eq0 pq); rewrite -hd bk; apply/eqP; rewrite -[_ == _]/(root _ x) (eqp_root e) root_prod_XsubC.
  by move: hx; clear; elim: l => [|y l IH] //= [->|/IH h]; rewrite inE ?eqxx ?h ?orbT.
Qed.
End YS.

Section SZ.
Variable q : Z.
Hypothesis pq : Znumtheory.prime q.
Hypothesis q3 : (3 < q)%Z.
Let n := Z.to_nat q.
Let pn : prime.prime n := prime_nat pq.
Notation F := 'F_n.
Notation rd := (@red q).
Variables a b : Z.
Hypothesis disc : ~ (q | 4 * (a * a * a) + 27 * (b * b))%Z.
Local Open Scope ring_scope.
Definition T3 : Z := (q - Z.of_nat (length (zsols a b q)))%Z.
Let po : odd n.
Proof. case: (even_prime pn) => // h; exfalso; rewrite /n in h; lia. Qed.
Let h := n./2.
Let nh : n = (2 * h).+1. Proof. by rewrite -{1}(odd_double_half n) po /h; lia. Qed.
Let qh : #|F| = (2 * h).+1. Proof. by rewrite (card_Fp pn) -nh. Qed.
Let h0 : (0 < h)%nat. Proof. by move: nh; rewrite /n; lia. Qed.
Let qc : #|F| \in [char F]. Proof. by rewrite (card_Fp pn) char_Fp. Qed.
Let c2 := t_c2 pq q3.
Let dd := t_dd pq disc.
Lemma T3_tr : exists u v : nat, tr h (rd a) (rd b) = u%:Z - v%:Z /\ T3 = (Z.of_nat u - Z.of_nat v)%Z.
Proof.
exists n.+1, (ncard h (rd a) (rd b)); rewrite /tr (card_Fp pn) /T3 zsols_length /sols (card_curve qh h0 _ _ c2) /ncard; split; first by move: (_ + _)%nat; clear; lia.
move: (_ + _)%nat; rewrite /n; clear -q3; lia.
Qed.
Theorem sign_three : 
  ((q mod 3 = 2)%Z -> ~ (3 | T3)%Z -> ~ y_matches (-1) a b q 3 1) /\
  ((q mod 3 = 1)%Z -> (3 | T3 + 1)%Z -> (y_matches (-1) a b q 3 1 <-> psi3_splits a b q)) /\
  ((q mod 3 = 1)%Z -> (3 | T3 - 1)%Z -> (y_matches (-1) a b q 3 1 <-> psi3_splits a b q \/ (q | a)%Z)).
Proof.
have [K [i [u nu]]] := tr_closure [countFieldType of F].
have cp : #|F| \in [char K] by rewrite (fmorph_char i).
have inj : injective (@FracField.tofrac [idomainType of {poly F}]) by move=> x y /eqP; rewrite tofrac_eq => /eqP.
have char0 := char_alg qh h0 qc cp inj (@frac_ex _) (ex_intro _ u nu).
have c3 : 1 + 1 + 1 <> 0 :> K by apply/eqP; exact: (c3K i (t_c3 pq q3)).
pose ns := nsK (i := i) dd.
pose V := gpt (c2K i c2) ns.
have fa := frA i (t_cp pq i) (t_card pq) (rd a). have fb := frA i (t_cp pq i) (t_card pq) (rd b).
pose phi : {additive V -> V} := [additive of frob_additive (c2K i c2) ns fa fb].
have alg (P : V) : P_Lin3.T P -> alge i (ev P).
  rewrite /P_Lin3.T torsP; case e : (ev P) => [[X Y]|] //= /eqP r.
  have o : Y * Y = X * X * X + i (rd a) * X + i (rd b) by have := ev_on P; rewrite e.
  have aX : mxpoly.algebraicOver i X.
    exists (psiP (rd a) (rd b)); last by rewrite /root psiP_map psiP_horner r.
    by rewrite -size_poly_eq0 -(size_map_poly i) psiP_map quartic_size //; exact: (c3K i (t_c3 pq q3)).
  split=> //; exact: alg_fib o aX.
pose phiA := frob_additive (c2K i c2) ns (frA i cp (erefl #|F|) (rd a)) (frA i cp (erefl #|F|) (rd b)).
have ph P : phiA P = phi P.
  apply: ev_inj; rewrite /= ; case: (ev P) => [[x y]|] //=; congr (Some (_, _)); rewrite !Frobenius_autE (card_Fp pn) //.
have char P : P_Lin3.T P -> phi (phi P) - phi P *~ tr h (rd a) (rd b) + P *~ #|F|%:Z = 0.
  move=> /alg aP; have e : phiA (phiA P) - phiA P *~ tr h (rd a) (rd b) + P *~ #|F|%:Z = 0 := char0 _ _ c2 dd P aP.
  by rewrite !ph in e.
have m3 (P : V) (k : int) : P_Lin3.T P -> P *~ (k * 3) = 0.
  by rewrite /P_Lin3.T => /eqP t; rewrite mulrC mulrzA (_ : (3 : int) = 3%:Z) // -pmulrn t mul0rz.
have [u0 [v0 [eT eZ]]] := T3_tr.
have tr1 : (3 | T3 + 1)%Z -> exists k : int, tr h (rd a) (rd b) = k * 3 - 1.
  rewrite eT eZ => -[k e]; have [h1|h1] : (0 <= k \/ k < 0)%Z by lia.
    exists (Posz (Z.to_nat k)); clear -h1 e; lia.
  exists (- Posz (Z.to_nat (- k)))%R; clear -h1 e; lia.
have tr2 : (3 | T3 - 1)%Z -> exists k : int, tr h (rd a) (rd b) = k * 3 + 1.
  rewrite eT eZ => -[k e]; have [h1|h1] : (0 <= k \/ k < 0)%Z by lia.
    exists (Posz (Z.to_nat k)); clear -h1 e; lia.
  exists (- Posz (Z.to_nat (- k)))%R; clear -h1 e; lia.
have q1 : (q mod 3 = 1)%Z -> exists k : int, #|F|%:Z = k * 3 + 1.
  move=> e; exists (Z.to_nat (q / 3))%:Z; rewrite (card_Fp pn) /n; have := Z.div_mod q 3 ltac:(lia); have := Z.div_pos q 3 ltac:(lia) ltac:(lia); clear -e q3; lia.
have q2 : (q mod 3 = 2)%Z -> exists k : int, #|F|%:Z = k * 3 - 1.
  move=> e; exists (Z.to_nat (q / 3) + 1)%:Z; rewrite (card_Fp pn) /n; have := Z.div_mod q 3 ltac:(lia); have := Z.div_pos q 3 ltac:(lia) ltac:(lia); clear -e q3; lia.
have tphi P : P_Lin3.T P -> P_Lin3.T (phi P) := @Tphi _ phi P.
have mv (x y z : V) : x - y + z = 0 -> z + x = y by move=> e; apply/eqP; rewrite addrC -subr_eq0 -e addrAC.
have E11 P : (q mod 3 = 1)%Z -> (3 | T3 - 1)%Z -> P_Lin3.T P -> P + phi (phi P) = phi P.
  by move=> /q1 [k ek] /tr2 [k' ek'] t; have := char P t; rewrite ek ek' !mulrzDl !m3 ?add0r //; [exact: mv|exact: tphi].
have E12 P : (q mod 3 = 1)%Z -> (3 | T3 + 1)%Z -> P_Lin3.T P -> P + phi (phi P) = - phi P.
  by move=> /q1 [k ek] /tr1 [k' ek'] t; have := char P t; rewrite ek ek' !mulrzDl !m3 ?add0r //; [exact: mv|exact: tphi].
have E21 P : (q mod 3 = 2)%Z -> (3 | T3 - 1)%Z -> P_Lin3.T P -> - P + phi (phi P) = phi P.
  by move=> /q2 [k ek] /tr2 [k' ek'] t; have := char P t; rewrite ek ek' !mulrzDl !m3 ?add0r //; [exact: mv|exact: tphi].
have E22 P : (q mod 3 = 2)%Z -> (3 | T3 + 1)%Z -> P_Lin3.T P -> - P + phi (phi P) = - phi P.
  by move=> /q2 [k ek] /tr1 [k' ek'] t; have := char P t; rewrite ek ek' !mulrzDl !m3 ?add0r //; [exact: mv|exact: tphi].
pose onp X Y (o : @onK q K i a b X Y) : V := @EP K (i (rd a)) (i (rd b)) (Some (X, Y)) (introT eqP o).
have tp X Y o : psi3K (i (rd a)) (i (rd b)) X = 0 -> P_Lin3.T (@onp X Y o).
  by move=> r; rewrite /P_Lin3.T torsP /= r.
have np X Y o : @onp X Y o <> 0 by move/(congr1 (@ev K _ _)).
have [X0 r0] : exists X : K, psi3K (i (rd a)) (i (rd b)) X = 0.
  have [|x] := @closed_rootP K (psiP (i (rd a)) (i (rd b))) _; last by rewrite rootE psiP_horner => /eqP; exists x.
  by rewrite quartic_size //; apply/eqP.
have [Y0 o0] := sqrtK (X0 * X0 * X0 + i (rd a) * X0 + i (rd b)).
have A0 : i (rd a) = 0 <-> (q | a)%Z.
  by rewrite -(red_eq0 pq); split=> [/eqP|->]; rewrite ?rmorph0 // fmorph_eq0 => /eqP.
split; [|split].
- move=> qm tm /(ys_two pq q3 disc i qm) /(_ X0 Y0 o0 r0); rewrite mulN1r.
  have [d|d] : (3 | T3 - 1)%Z \/ (3 | T3 + 1)%Z.
    have := Z.div_mod T3 3 ltac:(lia); have := Z.mod_pos_bound T3 3 ltac:(lia); move: (T3 / 3)%Z (T3 mod 3)%Z => k r hr e.
    have [?|[?|?]] : (r = 0 \/ r = 1 \/ r = 2)%Z by lia.
    + by case: tm; exists k; lia.
    + by left; exists k; lia.
    + by right; exists (k + 1)%Z; lia.
  + exact: (minus_plus c3 (tp _ _ o0 r0) (np _ _ o0) (E21 _ qm d (tp _ _ o0 r0))).
  + exact: (minus_minus c3 (tp _ _ o0 r0) (np _ _ o0) (E22 _ qm d (tp _ _ o0 r0))).
- move=> qm d; rewrite (ys_one pq q3 disc i qm) (splitsP pq q3 disc i); split=> H.
  + move=> X r; have [Y o] := sqrtK (X * X * X + i (rd a) * X + i (rd b)).
    have := H X Y o r; rewrite mul1r => /(plus_minus c3 (tp _ _ o r) (np _ _ o) (E12 _ qm d (tp _ _ o r))) //.
  + move=> X Y o r; rewrite mul1r; apply/(plus_minus c3 (tp _ _ o r) (np _ _ o) (E12 _ qm d (tp _ _ o r))); exact: H.
- move=> qm d; rewrite (ys_one pq q3 disc i qm) (splitsP pq q3 disc i) -A0; split=> H.
  + have [a0|a0] := eqVneq (i (rd a)) 0; first by right.
    left=> X r; have [Y o] := sqrtK (X * X * X + i (rd a) * X + i (rd b)).
    have := H X Y o r; rewrite mul1r => /(plus_plus c3 (tp _ _ o r) (np _ _ o) (E11 _ qm d (tp _ _ o r))) [//|/eqP]; by rewrite (negbTE a0).
  + move=> X Y o r; rewrite mul1r; apply/(plus_plus c3 (tp _ _ o r) (np _ _ o) (E11 _ qm d (tp _ _ o r))).
    by case: H => [/(_ X r)|]; [left|right].
Qed.
End SZ.
