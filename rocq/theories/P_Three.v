(** Schoof's comparison for l = 3 in terms of the points of order 3 over an algebraically closed field. *)
From Coq Require Import ZArith Znumtheory List ZifyBool Ring.
From mathcomp Require Import all_ssreflect all_algebra closed_field.
From mathcomp Require Import zify.
From Verif Require Import Prelude M_Term M_DivPoly Spec P_Variable P_FSum P_Poly P_Rem P_Subst P_Subst2 P_NormalProps P_DivProps P_SchoofId2 SpecSchoof P_HasseZ P_HasseGcd P_Group P_Tors3 P_EK P_Clos P_FPoly.
Set Implicit Arguments. Unset Strict Implicit. Unset Printing Implicit Defensive.
Import GRing.Theory.

Lemma plain_conv u v : plain u -> plain v -> plain (conv u v).
Proof.
move=> nu nv m c /in_conv [m1 [c1 [m2 [c2 [/nu h1 [/nv h2 [-> _]]]]]]]; rewrite /mmul /=.
by case: h1 h2 => ? [? [-> ->]] [? [? [-> ->]]] /=; do !split; lia.
Qed.
Lemma plain_add u v : plain u -> plain v -> plain (fadd u v).
Proof. by move=> nu nv m c /in_app_iff [/nu|/nv]. Qed.
Lemma plain_neg u : plain u -> plain (fneg u).
Proof. by move=> nu m c /in_map_iff [[m' c'] [[<- _] /nu]]. Qed.
Lemma plain_sub u v : plain u -> plain v -> plain (fsub u v).
Proof. by move=> nu nv; apply: plain_add => //; apply: plain_neg. Qed.
Lemma plain_mono c x y : (0 <= x)%Z -> (0 <= y)%Z -> plain (fmono c x y 0).
Proof. by move=> hx hy m c' [[<- _]|[]] /=. Qed.
Lemma plain_fpow u k : plain u -> plain (fpow u k).
Proof. by move=> nu; elim: k => [|k IH] /=; [apply: plain_mono|apply: plain_conv]. Qed.
Ltac pl := repeat first [assumption | apply: plain_conv | apply: plain_fpow | apply: plain_sub | apply: plain_add | apply: plain_mono; lia].

Section Idents.
Variables (K : Type) (k0 k1 : K) (kadd kmul ksub : K -> K -> K) (kopp : K -> K).
Hypothesis Kr : ring_theory k0 k1 kadd kmul ksub kopp (@eq K).
Add Ring KR : Kr.
Local Notation "x + y" := (kadd x y). Local Notation "x * y" := (kmul x y). Local Notation "x - y" := (ksub x y).
Lemma xm_ident (c X Y s u v w : K) :
  ((s * Y * (c * (c * c)) - v * (c * (c * c))) * (s * Y * (c * (c * c)) - v * (c * (c * c))) - (X * (c * c) + u * (c * c)) * ((X * (c * c) - u * (c * c)) * (X * (c * c) - u * (c * c)))) * k1
   - w * ((c * c) * ((X * (c * c) - u * (c * c)) * (X * (c * c) - u * (c * c)))) =
  (c * (c * c)) * (c * (c * c)) * ((s * Y - v) * (s * Y - v) - (X + u + w) * ((X - u) * (X - u))).
Proof. ring. Qed.
Lemma om_ident (y z : K) : z + (k1 + k1) * (k1 + k1) * (k1 + k1) * ((y * y) * (y * y)) = k0 -> z = kopp k1 * y * (((k1 + k1) * y) * (((k1 + k1) * y) * ((k1 + k1) * y))).
Proof.
intros H. transitivity ((z + (k1 + k1) * (k1 + k1) * (k1 + k1) * ((y * y) * (y * y))) - (k1 + k1) * (k1 + k1) * (k1 + k1) * ((y * y) * (y * y))); [ring|]. rewrite H. ring.
Qed.
End Idents.

Section Three.
Variable q : Z.
Hypothesis pq : Znumtheory.prime q.
Hypothesis q3 : (3 < q)%Z.
Let n := Z.to_nat q.
Notation F := 'F_n.
Notation rd := (@red q).
Variables a b : Z.
Hypothesis disc : ~ (q | 4 * (a * a * a) + 27 * (b * b))%Z.
Local Open Scope ring_scope.
Variables (K : closedFieldType) (i : {rmorphism F -> K}).
Let rD := red_add pq. Let rM := red_mul pq. Let r1 := red_1 pq.
Lemma t_c2 : 1 + 1 != 0 :> F.
Proof. by rewrite -r1 -rD; apply/eqP => /(red_eq0 pq) /Zdivide_le; lia. Qed.
Lemma t_c3 : 1 + 1 + 1 != 0 :> F.
Proof. by rewrite -r1 -!rD; apply/eqP => /(red_eq0 pq) /Zdivide_le; lia. Qed.
Lemma t_dd : (1 + 1) * (1 + 1) * (rd a * rd a * rd a) + (1 + 1 + 1) * (1 + 1 + 1) * (1 + 1 + 1) * (rd b * rd b) != 0.
Proof. by rewrite -r1 -!(rD, rM); apply/eqP => /(red_eq0 pq); exact: disc. Qed.
Lemma t_cp : n \in [char K].
Proof. by rewrite (fmorph_char i); exact: char_Fp (prime_nat pq). Qed.
Lemma t_card : #|F| = n. Proof. exact: card_Fp (prime_nat pq). Qed.
Notation A := (i (rd a)). Notation B := (i (rd b)).
Definition base3 := (fmono 3 4 0 0 ++ fmono (6 * a) 2 0 0 ++ fmono (12 * b) 1 0 0 ++ fmono (- a ^ 2) 0 0 0)%list.
Definition base4 := (fmono 1 6 0 0 ++ fmono (5 * a) 4 0 0 ++ fmono (20 * b) 3 0 0 ++ fmono (-5 * a ^ 2) 2 0 0 ++ fmono (-4 * a * b) 1 0 0 ++ fmono (-8 * b ^ 2 - a ^ 3) 0 0 0)%list.
Lemma pj_mono c (k : nat) : pj q 0 (fmono c (Z.of_nat k) 0 0) = rd c *: 'X^k.
Proof. 
have e : xkey 0 (mkMono (Z.of_nat k) 0 0 None) := introT (xkeyP q 0 _) (ex_intro _ k erefl).
by rewrite /pj /fmono big_cons big_nil addr0 [xkey _ _]e Nat2Z.id.
Qed.
Lemma pj_base3 : pj q 0 base3 = psiP (rd a) (rd b).
Proof.
rewrite /base3 !pj_cat (pj_mono _ 4) (pj_mono _ 2) (pj_mono _ 1) (pj_mono _ 0).
rewrite (_ : 3 = 1 + 1 + 1)%Z // (_ : 6 * a = (1 + 1) * (1 + 1 + 1) * a)%Z; last lia.
rewrite (_ : 12 * b = (1 + 1) * (1 + 1) * (1 + 1 + 1) * b)%Z; last lia.
rewrite (_ : - a ^ 2 = - (a * a))%Z; last lia.
rewrite (red_opp pq) !(rD, rM, r1) /psiP expr0 expr1 -!addrA; do 3 congr (_ + _).
by rewrite scaleNr; congr (- _); rewrite alg_polyC.
Qed.
Notation kv := (@kval q K i).
Notation on := (@onK q K i a b).
Lemma kv_base4 X Y : kv X Y base4 = @om2 K 1 +%R *%R (fun x y => x - y) A B X.
Proof.
rewrite /base4 -!/(fadd _ _) !kval_add !kval_mono !expr0 !mulr1.
rewrite (_ : 5 * a = ((1 + 1) * (1 + 1) + 1) * a)%Z; last lia.
rewrite (_ : 20 * b = (1 + 1) * (1 + 1) * ((1 + 1) * (1 + 1) + 1) * b)%Z; last lia.
rewrite (_ : -5 * a ^ 2 = - (((1 + 1) * (1 + 1) + 1) * (a * a)))%Z; last lia.
rewrite (_ : -4 * a * b = - ((1 + 1) * (1 + 1) * a * b))%Z; last lia.
rewrite (_ : -8 * b ^ 2 - a ^ 3 = - ((1 + 1) * (1 + 1) * (1 + 1) * (b * b)) + - (a * a * a))%Z; last lia.
rewrite !(red_opp pq, rD, rM, r1) !(rmorphN, rmorphD, rmorphM, rmorph1) /om2 mul1r !mulNr.
rewrite -!addrA; congr (_ + (_ + (_ + (_ + (_ + _))))).
all: rewrite ?exprS ?expr0 ?mulr1 //.
all: rewrite -!mulrA //.
Qed.
Notation fr := [rmorphism of Frobenius_aut t_cp].
Lemma frq (X : K) : X ^+ Z.to_nat q = fr X. Proof. by rewrite frE. Qed.
Lemma frqq (X : K) : X ^+ Z.to_nat (q ^ 2) = fr (fr X).
Proof. rewrite !frE -exprM; congr (_ ^+ _); rewrite /n; nia. Qed.
Lemma psi3_root d X : psi a b 3 = Ok d -> (map_poly i (pj q 0 d)).[X] = psi3K A B X.
Proof.
move=> e; have [_ [_ [_ [[r [e' f]] _]]]] := c48_psi_base a b.
have -> : d = r by congruence.
rewrite (_ : pj q 0 r = psiP (rd a) (rd b)) ?psiP_map ?psiP_horner // -pj_base3; apply: (pj_feqm pq).
exact: feq_feqm.
Qed.
Lemma psi3_x d : psi a b 3 = Ok d -> only_x d.
Proof. by move=> e; have [r [e' [_ h]]] := c48_psi_odd a b 3 ltac:(lia) erefl; have -> : d = r by congruence. Qed.
(** The comparison, whenever [q mod 3](X, Y) = (X, s Y) at the points of order 3. *)
Lemma xm_test s d ps ph om : psi a b 3 = Ok d -> plain ps -> plain ph -> plain om ->
  (forall X Y, on X Y -> psi3K A B X = 0 -> let c := kv X Y ps in c <> 0 /\ kv X Y ph = X * (c * c) /\ kv X Y om = s * Y * (c * (c * c))) ->
  x_match a b q d ps ph om (fmono 1 0 0 0) (fmono 1 1 0 0) <-> alltest i (rd a) (rd b) t_cp s.
Proof.
move=> ed p1 p2 p3 H; rewrite /x_match.
have q0 : (0 <= q ^ 2)%Z by lia.
have px : plain (xpow (q ^ 2)) by apply: plain_mono.
have py : plain (ypow (q ^ 2)) by apply: plain_mono.
have pD : plain (chord_D q ps om) by rewrite /chord_D; pl.
have pF : plain (chord_F q ps ph) by rewrite /chord_F; pl.
have ef : fmap (Spec.frob q) (fmono 1 0 0 0) = fmono 1 0 0 0 by [].
have eg : fmap (Spec.frob q) (fmono 1 1 0 0) = fmono 1 q 0 0 by rewrite /fmap /Spec.frob /fmono; cbn [List.map fst snd mx my mq mv]; rewrite Z.mul_1_l Z.mul_0_l.
rewrite ef eg.
have pn : plain (sum_xnum q ps ph om) by rewrite /sum_xnum; pl.
have pd : plain (sum_xden q ps ph) by rewrite /sum_xden; pl.
have nsK' := nsK (i := i) t_dd.
have pe : plain (fsub (conv (sum_xnum q ps ph om) (fpow (fmono 1 0 0 0) 2)) (conv (fmono 1 q 0 0) (sum_xden q ps ph))) by pl.
have Hd (G : {poly F}) : pj q 0 d %| G <-> forall X : K, (map_poly i (pj q 0 d)).[X] = 0 -> (map_poly i G).[X] = 0.
  have -> : pj q 0 d = psiP (rd a) (rd b).
    have [_ [_ [_ [[r [e' f]] _]]]] := c48_psi_base a b; have -> : d = r by congruence.
    by rewrite -pj_base3; apply: (pj_feqm pq); exact: feq_feqm.
  by rewrite (psi_dvd i t_c2 t_c3 t_dd); split=> h X; move: (h X); rewrite psiP_map psiP_horner.
have Hy X Y : on X Y -> (map_poly i (pj q 0 d)).[X] = 0 -> Y + Y <> 0.
  rewrite psi3_root // => o r; have y0 := psi3_y nsK' o r; rewrite -mulr2n -mulr_natl => /eqP; rewrite mulf_eq0 => /orP [/eqP h|/eqP //].
  by apply: (c2K i t_c2); rewrite -[RHS]h.
have Hs X : exists Y, on X Y by exact: sqrtK.
have mv := multiple_vanish pq (psi3_x ed) pe pq Hy Hs Hd.
have ev X Y : on X Y -> psi3K A B X = 0 -> kv X Y (fsub (conv (sum_xnum q ps ph om) (fpow (fmono 1 0 0 0) 2)) (conv (fmono 1 q 0 0) (sum_xden q ps ph))) = 0 <-> test t_cp s X Y.
  move=> o r; have [c0 [e1 e2]] := H X Y o r; move: c0 e1 e2; set c := kv X Y ps => c0 e1 e2.
  have nn := plain_nn.
  have eD : kv X Y (chord_D q ps om) = s * Y * (c * (c * c)) - fr (fr Y) * (c * (c * c)).
    by rewrite /chord_D (kval_sub pq) e2 (kval_conv pq) ?(kval_fpow pq) ?kval_mono ?frqq ?r1 ?rmorph1 ?mul1r ?mulr1 ?expr0; [rewrite -/c !exprS expr0 !mulr1 ?mul1r|apply: nn; pl..].
  have eF : kv X Y (chord_F q ps ph) = X * (c * c) - fr (fr X) * (c * c).
    by rewrite /chord_F (kval_sub pq) e1 (kval_conv pq) ?(kval_fpow pq) ?kval_mono ?frqq ?r1 ?rmorph1 ?mul1r ?mulr1 ?expr0; [rewrite -/c !exprS expr0 !mulr1 ?mul1r|apply: nn; pl..].
  have eN : kv X Y (sum_xnum q ps ph om) = kv X Y (chord_D q ps om) * kv X Y (chord_D q ps om) - (X * (c * c) + fr (fr X) * (c * c)) * (kv X Y (chord_F q ps ph) * kv X Y (chord_F q ps ph)).
    have eA : kv X Y (fadd ph (conv (xpow (q ^ 2)) (fpow ps 2))) = X * (c * c) + fr (fr X) * (c * c).
      rewrite kval_add e1 (kval_conv pq) ?(kval_fpow pq) ?kval_mono; try (apply: nn; pl).
      by rewrite frqq r1 rmorph1 mul1r expr0 mulr1 expr2 -/c.
    rewrite /sum_xnum (kval_sub pq) (kval_conv pq); try (apply: nn; pl).
    rewrite eA !(kval_fpow pq); try (apply: nn; pl).
    by rewrite -/c !expr2.
  have eM : kv X Y (sum_xden q ps ph) = (c * c) * (kv X Y (chord_F q ps ph) * kv X Y (chord_F q ps ph)).
    rewrite /sum_xden (kval_conv pq); try (apply: nn; pl).
    rewrite !(kval_fpow pq); try (apply: nn; pl).
    by rewrite -/c !expr2.
  have ex : kv X Y (fsub (conv (sum_xnum q ps ph om) (fpow (fmono 1 0 0 0) 2)) (conv (fmono 1 q 0 0) (sum_xden q ps ph))) =
     kv X Y (sum_xnum q ps ph om) * (i (rd 1) * X ^+ 0 * Y ^+ 0) ^+ 2 - i (rd 1) * X ^+ Z.to_nat q * Y ^+ 0 * kv X Y (sum_xden q ps ph).
    rewrite (kval_sub pq); congr (_ - _).
      rewrite -(kval_mono i X Y 1 0 0 0) -(kval_fpow pq); last by apply: nn; pl.
      by apply: (kval_conv pq); apply: nn; pl.
    rewrite -(kval_mono i X Y 1 q 0 0); by apply: (kval_conv pq); apply: nn; pl.
  rewrite ex {ex}.
  rewrite eN eM eD eF frq r1 rmorph1 !expr0 !mulr1 expr1n !mul1r ?mulr1.
  have -> := etrans (esym (congr1 (fun z => z - _) (mulr1 _))) (@xm_ident K _ _ _ _ _ _ (ring_rt [comRingType of K]) c X Y s (fr (fr X)) (fr (fr Y)) (fr X)).
  have c6 : (c * (c * c)) * (c * (c * c)) != 0 by move/eqP: c0 => c0; rewrite !mulf_neq0.
  rewrite /test; split.
    by move/eqP; rewrite mulf_eq0 (negbTE c6) /= subr_eq0 => /eqP.
  by move=> ->; rewrite subrr mulr0.
rewrite mv /alltest; split=> h X Y o r.
  by apply/(ev X Y o r); apply: h => //; rewrite psi3_root.
by rewrite psi3_root // in r; apply/(ev X Y o r); apply: h.
Qed.
Lemma c2K' : 1 + 1 <> 0 :> K. Proof. exact: (c2K i t_c2). Qed.
Lemma phi1 : phi a b 1 = Ok (fmono 1 1 0 0). Proof. by []. Qed.
Lemma kv_2 X Y : kv X Y (fmono 2 0 1 0) = (1 + 1) * Y.
Proof. by rewrite kval_mono (_ : 2 = 1 + 1)%Z // rD r1 rmorphD rmorph1 expr0 expr1 mulr1. Qed.
Lemma xs_one : (q mod 3 = 1)%Z -> x_matches a b q 3 1 <-> alltest i (rd a) (rd b) t_cp 1.
Proof.
move=> qm; have [e0 [e1 [e2 [[d [e3 _]] _]]]] := c48_psi_base a b.
have eo := c50_omega_one a b.
have T : x_match a b q d (fmono 1 0 0 0) (fmono 1 1 0 0) (fmono 1 0 1 0) (fmono 1 0 0 0) (fmono 1 1 0 0) <-> alltest i (rd a) (rd b) t_cp 1.
  apply: xm_test => //; try by apply: plain_mono.
  move=> X Y o r; rewrite !kval_mono r1 rmorph1 /= !expr0 !expr1 !mul1r !mulr1; do !split=> //.
  by apply/eqP; rewrite oner_eq0.
rewrite -T /x_matches qm; split.
- case=> d' [ps [ph [om [psj [phj [h1 [h2 [h3 [h4 [h5 [h6 h]]]]]]]]]]]; rewrite phi1 in h3 h6.
  have q1 : d' = d by congruence. have q2 : ps = fmono 1 0 0 0 by congruence. have q4 : ph = fmono 1 1 0 0 by congruence.
  have q5 : om = fmono 1 0 1 0 by congruence. have q6 : psj = fmono 1 0 0 0 by congruence. have q7 : phj = fmono 1 1 0 0 by congruence.
  by subst.
- by move=> h; exists d, (fmono 1 0 0 0), (fmono 1 1 0 0), (fmono 1 0 1 0), (fmono 1 0 0 0), (fmono 1 1 0 0).
Qed.
Lemma xs_two : (q mod 3 = 2)%Z -> x_matches a b q 3 1 <-> alltest i (rd a) (rd b) t_cp (-1).
Proof.
move=> qm; have [e0 [e1 [e2 [[d [e3 f3]] [p4 [e4 f4]]]]]] := c48_psi_base a b.
have [ph [ps [p3 [p1 [h1 [h2 [h3 [h4 [_ [ox [cg _]]]]]]]]]]] := c50_phi a b 2 ltac:(lia).
have [om [u [v [s [t [g1 [g2 [g3 [g4 [g5 [_ [ky [cg' _]]]]]]]]]]]]] := c50_omega a b 2 ltac:(lia).
have q1 : ps = fmono 2 0 1 0 by congruence. have q2 : p3 = d by rewrite (_ : 2 + 1 = 3)%Z // in h3; congruence. have q4 : p1 = fmono 1 0 0 0 by rewrite (_ : 2 - 1 = 1)%Z // in h4; congruence.
have q5 : u = p4 by rewrite (_ : 2 + 2 = 4)%Z // in g2; congruence. have q6 : v = fmono 1 0 0 0 by rewrite (_ : 2 - 1 = 1)%Z // in g3; congruence. have q7 : s = [::] by rewrite (_ : 2 - 2 = 0)%Z // in g4; congruence.
have q8 : t = d by rewrite (_ : 2 + 1 = 3)%Z // in g5; congruence. subst.
have ox3 := psi3_x e3.
have ppo : plain om by move=> m c /ky /= [? [-> ?]].
have pph : plain ph by exact: only_x_plain.
have pd : plain d by exact: only_x_plain.
have T : x_match a b q d (fmono 2 0 1 0) ph om (fmono 1 0 0 0) (fmono 1 1 0 0) <-> alltest i (rd a) (rd b) t_cp (-1).
  apply: xm_test => //; try by apply: plain_mono.
  move=> X Y o r; have y0 := psi3_y (nsK (i := i) t_dd) o r; rewrite kv_2 /=.
  have k3 : kv X Y d = 0.
    have kd : keys01 d by move=> m c /ox3 [? [-> ?]]; do !split => //; tauto.
    have z : pj q 1 d = 0.
      apply/polyP => k; rewrite (coef_pj pq) coef0; apply/(red_eq0 pq).
      case: (Z.eq_dec (coef d (mkMono (Z.of_nat k) 1 0 None)) 0) => [->|/coef_in [c /ox3 /= [_ []]] //]; by exists 0%Z.
    by rewrite kval_pj // z rmorph0 horner0 mulr0 addr0 psi3_root.
  have c0 : (1 + 1) * Y <> 0.
    by move/eqP; rewrite mulf_eq0 => /orP [/eqP|/eqP //]; exact: c2K'.
  split=> //; split.
  - rewrite (kval_cong pq o pph _ (cong_0_q q cg)); last by pl.
    have ex : kv X Y (fsub (conv (fmono 1 1 0 0) (fpow (fmono 2 0 1 0) 2)) (conv d (fmono 1 0 0 0))) = kv X Y (fmono 1 1 0 0) * kv X Y (fmono 2 0 1 0) ^+ 2 - kv X Y d * kv X Y (fmono 1 0 0 0).
      rewrite (kval_sub pq) -(kval_fpow pq); last by apply: plain_nn; pl.
      by congr (_ - _); apply: (kval_conv pq); apply: plain_nn; pl.
    by rewrite ex k3 mul0r subr0 kv_2 kval_mono r1 rmorph1 mul1r expr0 expr1 mulr1 expr2.
  - have pp4 : plain p4.
      have [r4 [g [er [_ [k4 _]]]]] := c48_psi_even a b 4 ltac:(lia) erefl; have -> : p4 = r4 by congruence.
      by move=> m c /k4 [? [-> ?]].
    have pb : plain base4 by do 5 (apply: plain_add; [apply: plain_mono; lia|]); apply: plain_mono; lia.
    have k4 : kv X Y p4 = (1 + 1) * (1 + 1) * Y * @om2 K 1 +%R *%R (fun x y => x - y) A B X.
      have c4 : cong_ideal q (fcurve a b) p4 (conv (fmono 4 0 1 0) base4) by apply: feqm_cong; apply: feq_feqm; exact f4.
      rewrite (kval_cong pq o pp4 _ c4); last by pl.
      rewrite (@kval_conv _ pq _ _ _ _ (fmono 4 0 1 0) base4) ?kv_base4 ?kval_mono; try (apply: plain_nn; pl).
      by rewrite (_ : 4 = (1 + 1) * (1 + 1))%Z // rM !rD r1 rmorphM !rmorphD rmorph1 expr0 expr1 mulr1.
    have := kval_cong pq o _ _ (cong_0_q q cg'); rewrite (kval_sub pq) (@kval_conv _ pq _ _ _ _ (fmono 4 0 1 0) om) ?(@kval_conv _ pq _ _ _ _ p4) ?(@kval_conv _ pq _ _ _ _ [::]) ?(@kval_fpow _ pq _ _ _ _ (fmono 1 0 0 0)); try (apply: plain_nn; pl); try by move=> ? ? [].
    rewrite k4 !kval_mono {2}/kval big_nil mul0r subr0 r1 rmorph1 !expr0 expr1 !mulr1 expr1n mulr1.
    have -> : i (rd 4) = (1 + 1) * (1 + 1) by rewrite (_ : 4 = (1 + 1) * (1 + 1))%Z // rM !rD r1 rmorphM !rmorphD rmorph1.
    move=> h; have {}h : (1 + 1) * (1 + 1) * Y * kv X Y om = (1 + 1) * (1 + 1) * Y * @om2 K 1 +%R *%R (fun x y => x - y) A B X by apply: h; pl.
    have n4 : (1 + 1) * (1 + 1) * Y != 0 by apply/eqP; rewrite -mulrA => /eqP; rewrite mulf_eq0 => /orP [/eqP|/eqP //]; exact: c2K'.
    rewrite (mulfI n4 h).
    have := om2_psi3 K _ _ _ _ _ _ _ _ (field_ft K) A B X.
    have -> : @psi3 K 1 +%R *%R (fun x y => x - y) A B X = 0 by exact: r.
    rewrite mul0r -o => hz; exact: (om_ident (ring_rt [comRingType of K]) hz).
rewrite -T /x_matches qm; split.
- case=> d' [ps [ph' [om' [psj [phj [k1 [k2 [k3 [k4 [k5 [k6 h]]]]]]]]]]]; rewrite phi1 in k6.
  have q1 : d' = d by congruence. have q2 : ps = fmono 2 0 1 0 by congruence. have q4 : ph' = ph by congruence.
  have q5 : om' = om by congruence. have q6 : psj = fmono 1 0 0 0 by congruence. have q7 : phj = fmono 1 1 0 0 by congruence.
  by subst.
- by move=> h; exists d, (fmono 2 0 1 0), ph, om, (fmono 1 0 0 0), (fmono 1 1 0 0).
Qed.
End Three.
