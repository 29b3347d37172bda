(** The values of the division polynomials at a point of the curve over an extension field. *)
From Coq Require Import ZArith Znumtheory List ZifyBool Ring.
From mathcomp Require Import all_ssreflect all_algebra closed_field.
From mathcomp Require Import zify.
From Verif Require Import Prelude M_Term M_DivPoly Spec P_Variable P_FSum P_Poly P_Rem P_Subst P_Subst2 P_NormalProps P_DivProps P_SchoofId2 SpecSchoof P_HasseZ P_HasseGcd P_Group P_Tors3 P_EK P_Clos P_FPoly P_Three P_XMatch P_Five.
Set Implicit Arguments. Unset Strict Implicit. Unset Printing Implicit Defensive.
Import GRing.Theory.

Lemma OkI (T : Type) (x y : T) : Ok x = Ok y -> x = y. Proof. by case. Qed.
Section Vals.
Variable q : Z.
Hypothesis pq : Znumtheory.prime q.
Hypothesis q3 : (3 < q)%Z.
Let n := Z.to_nat q.
Notation F := 'F_n.
Notation rd := (@red q).
Variables a b : Z.
Hypothesis disc : ~ (q | 4 * (a * a * a) + 27 * (b * b))%Z.
Local Open Scope ring_scope.
Variables (K : closedFieldType) (i : {rmorphism F -> K}).
Let rD := red_add pq. Let rM := red_mul pq. Let r1 := red_1 pq.
Notation A := (i (rd a)). Notation B := (i (rd b)).
Notation kv := (@kval q K i).
Notation on := (@onK q K i a b).
Definition fo (r : res fsum) : fsum := if r is Ok s then s else [::].
Definition pv (k : Z) X Y : K := kv X Y (fo (psi a b k)).
Definition fv (k : Z) X Y : K := kv X Y (fo (phi a b k)).
Definition ov (k : Z) X Y : K := kv X Y (fo (omega a b k)).
Lemma plain_psi k s : (0 <= k <= 65536)%Z -> psi a b k = Ok s -> plain s.
Proof.
move=> hk e; case o : (Z.odd k).
  have [r [e' [_ h]]] := c48_psi_odd a b k hk o; have -> : s = r := OkI (etrans (esym e) e'). exact: only_x_plain.
have [r [g [e' [_ [h _]]]]] := c48_psi_even a b k hk o; have -> : s = r := OkI (etrans (esym e) e').
by move=> m c /h [? [-> ?]].
Qed.
Lemma plain_psi' k s : psi a b k = Ok s -> (0 <= k <= 65536)%Z -> plain s. Proof. by move=> e hk; exact: plain_psi e. Qed.
Lemma plain_phi k s : (1 <= k <= 46340)%Z -> phi a b k = Ok s -> plain s.
Proof.
move=> hk e; have [r [pn [u [v [e' [_ [_ [_ [_ [h _]]]]]]]]]] := c50_phi a b k hk; have -> : s = r := OkI (etrans (esym e) e').
exact: only_x_plain.
Qed.
Lemma plain_omega k s : (1 <= k <= 37837)%Z -> omega a b k = Ok s -> plain s.
Proof.
move=> hk e; case: (Z.eq_dec k 1) => [k1|k1].
  move: e; rewrite k1 c50_omega_one => e; have -> : s = fmono 1 0 1 0 := esym (OkI e). exact: plain_mono.
have [r [u [v [w [t [e' [_ [_ [_ [_ [_ [h _]]]]]]]]]]]] := c50_omega a b k ltac:(lia); have -> : s = r := OkI (etrans (esym e) e').
by move=> m c /h [? [-> ?]]; do !split => //; try tauto; case: ifP => _; lia.
Qed.
Lemma kv_conv X Y u v : plain u -> plain v -> kv X Y (conv u v) = kv X Y u * kv X Y v.
Proof. by move=> pu pv; apply: kval_conv => //; exact: plain_nn. Qed.
Lemma kv_fpow X Y u k : plain u -> kv X Y (fpow u k) = kv X Y u ^+ k.
Proof. by move=> pu; apply: kval_fpow => //; exact: plain_nn. Qed.
Lemma pv_odd m X Y : on X Y -> (1 <= m)%Z -> (2 * m + 1 <= 65536)%Z ->
  pv (2 * m + 1) X Y = pv (m + 2) X Y * (pv m X Y * (pv m X Y * pv m X Y)) - pv (m - 1) X Y * (pv (m + 1) X Y * (pv (m + 1) X Y * pv (m + 1) X Y)).
Proof.
move=> o h1 h2; have [r [e [f [g [h [e1 [e2 [e3 [e4 [e5 c]]]]]]]]]] := c48_psi_rec_odd a b m h1 h2.
have p1 := plain_psi' e1 ltac:(lia). have p2 := plain_psi' e2 ltac:(lia). have p3 := plain_psi' e3 ltac:(lia). have p4 := plain_psi' e4 ltac:(lia). have p5 := plain_psi' e5 ltac:(lia).
rewrite /pv e1 e2 e3 e4 e5 /= (kval_cong pq o p1 _ (cong_0_q q c)); last by pl.
rewrite (kval_sub pq) !kv_conv ?kv_fpow ?exprS ?expr0 ?(kval_one pq) ?mulr1 //; try pl.
Qed.
Lemma pv_even m X Y : on X Y -> (2 <= m)%Z -> (2 * m <= 65536)%Z ->
  (1 + 1) * Y * pv (2 * m) X Y = pv m X Y * (pv (m + 2) X Y * (pv (m - 1) X Y * pv (m - 1) X Y) - pv (m - 2) X Y * (pv (m + 1) X Y * pv (m + 1) X Y)).
Proof.
move=> o h1 h2; have [r [e [f [g [h [k [e1 [e2 [e3 [e4 [e5 [e6 c]]]]]]]]]]]] := c48_psi_rec_even a b m h1 h2.
have p1 := plain_psi' e1 ltac:(lia). have p2 := plain_psi' e2 ltac:(lia). have p3 := plain_psi' e3 ltac:(lia). have p4 := plain_psi' e4 ltac:(lia). have p5 := plain_psi' e5 ltac:(lia). have p6 := plain_psi' e6 ltac:(lia).
have p2y : plain (fmono 2 0 1 0) by apply: plain_mono.
rewrite /pv e1 e2 e3 e4 e5 e6 /=.
have := kval_cong pq o _ _ (cong_0_q q c); rewrite !kv_conv ?(kval_sub pq) ?kv_conv ?kv_fpow ?kv_2 ?exprS ?expr0 ?(kval_one pq) ?mulr1 //; try pl.
by apply; pl.
Qed.
Lemma fvE k X Y : on X Y -> (1 <= k <= 46340)%Z -> fv k X Y = X * (pv k X Y * pv k X Y) - pv (k + 1) X Y * pv (k - 1) X Y.
Proof.
move=> o hk; have [r [pn [u [v [e [e1 [e2 [e3 [_ [_ [c _]]]]]]]]]]] := c50_phi a b k hk.
have p0 := plain_phi hk e. have p1 := plain_psi' e1 ltac:(lia). have p2 := plain_psi' e2 ltac:(lia). have p3 := plain_psi' e3 ltac:(lia).
have px : plain (fmono 1 1 0 0) by apply: plain_mono.
rewrite /fv /pv e e1 e2 e3 /= (kval_cong pq o p0 _ (cong_0_q q c)); last by pl.
rewrite (kval_sub pq) !kv_conv ?kv_fpow ?kval_mono ?r1 ?rmorph1 ?mul1r ?expr0 ?expr1 ?mulr1 ?exprS ?expr0 ?(kval_one pq) ?mulr1 //; try pl.
Qed.
Lemma ovE k X Y : on X Y -> (2 <= k <= 37837)%Z ->
  (1 + 1) * (1 + 1) * Y * ov k X Y = pv (k + 2) X Y * (pv (k - 1) X Y * pv (k - 1) X Y) - pv (k - 2) X Y * (pv (k + 1) X Y * pv (k + 1) X Y).
Proof.
move=> o hk; have [r [u [v [s [t [e [e1 [e2 [e3 [e4 [_ [_ [c _]]]]]]]]]]]]] := c50_omega a b k hk.
have p0 : plain r by apply: plain_omega e; lia.
have p1 := plain_psi' e1 ltac:(lia). have p2 := plain_psi' e2 ltac:(lia). have p3 := plain_psi' e3 ltac:(lia). have p4 := plain_psi' e4 ltac:(lia).
have p4y : plain (fmono 4 0 1 0) by apply: plain_mono.
rewrite /ov /pv e e1 e2 e3 e4 /=.
have := kval_cong pq o _ _ (cong_0_q q c); rewrite !kv_conv ?(kval_sub pq) ?kv_conv ?kv_fpow ?kval_mono ?exprS ?expr0 ?(kval_one pq) ?mulr1 //; try pl.
have -> : i (rd 4) = (1 + 1) * (1 + 1) by rewrite (_ : 4 = (1 + 1) * (1 + 1))%Z // rM !rD r1 rmorphM !rmorphD rmorph1.
rewrite ?r1 ?rmorph1 ?mulr1; by apply; pl.
Qed.
Lemma pv0 X Y : pv 0 X Y = 0. Proof. by rewrite /pv /= /kval big_nil. Qed.
Lemma pv1 X Y : pv 1 X Y = 1. Proof. by rewrite /pv /= kval_mono r1 rmorph1 !expr0 !mulr1. Qed.
Lemma pv2 X Y : pv 2 X Y = (1 + 1) * Y. Proof. exact: kv_2. Qed.
Lemma pv_x k X Y d : (0 <= k <= 65536)%Z -> Z.odd k = true -> psi a b k = Ok d -> pv k X Y = (map_poly i (pj q 0 d)).[X].
Proof.
move=> hk o e; rewrite /pv e /=.
have [r [e' [_ ox]]] := c48_psi_odd a b k hk o; have {}ox : only_x d by have -> : d = r := OkI (etrans (esym e) e').
have kd : keys01 d by move=> m c /ox [? [-> ?]]; do !split => //; tauto.
have z : pj q 1 d = 0.
  apply/polyP => j; rewrite (coef_pj pq) coef0; apply/(red_eq0 pq).
  case: (Z.eq_dec (coef d (mkMono (Z.of_nat j) 1 0 None)) 0) => [->|/coef_in [c /ox /= [_ []]] //]; by exists 0%Z.
by rewrite kval_pj // z rmorph0 horner0 mulr0 addr0.
Qed.
Lemma pv3 X Y : pv 3 X Y = psi3K A B X.
Proof.
have [r [e [_ h]]] := c48_psi_odd a b 3 ltac:(lia) erefl.
by rewrite (pv_x _ _ _ _ e) // (psi3_root pq i X e).
Qed.
Lemma pv4 X Y : on X Y -> pv 4 X Y = (1 + 1) * (1 + 1) * Y * @om2 K 1 +%R *%R (fun x y => x - y) A B X.
Proof.
move=> o; have [_ [_ [_ [_ [p4 [e4 f4]]]]]] := c48_psi_base a b; rewrite /pv e4 /=.
have pp4 := plain_psi' e4 ltac:(lia).
have pb : plain (base4 a b) by do 5 (apply: plain_add; [apply: plain_mono; lia|]); apply: plain_mono; lia.
have c4 : cong_ideal q (fcurve a b) p4 (conv (fmono 4 0 1 0) (base4 a b)) by apply: feqm_cong; apply: feq_feqm; exact f4.
rewrite (kval_cong pq o pp4 _ c4); last by pl.
rewrite kv_conv ?(kv_base4 pq) ?kval_mono //; try (apply: plain_mono; lia).
by rewrite (_ : 4 = (1 + 1) * (1 + 1))%Z // rM !rD r1 rmorphM !rmorphD rmorph1 expr0 expr1 mulr1.
Qed.
End Vals.
