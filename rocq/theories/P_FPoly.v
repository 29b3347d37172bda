(** From formal sums in x and y to mathcomp polynomials over GF(q): divisibility and values in an extension field. *)
From Coq Require Import ZArith Znumtheory List ZifyBool.
From mathcomp Require Import all_ssreflect all_algebra.
From mathcomp Require Import zify.
From Verif Require Import Prelude M_Term M_DivPoly Spec P_Variable P_FSum P_Poly P_Rem P_Subst P_Subst2 P_NormalProps P_SchoofId2 SpecSchoof P_HasseZ.
Set Implicit Arguments. Unset Strict Implicit. Unset Printing Implicit Defensive.
Import GRing.Theory.

Section FPoly.
Variable q : Z.
Hypothesis pq : Znumtheory.prime q.
Let n := Z.to_nat q.
Notation F := 'F_n.
Notation rd := (@red q).
Local Open Scope ring_scope.
Definition xkey (j : Z) (m : mono) : bool := Z.eqb (my m) j && Z.eqb (mq m) 0 && (if mv m is None then true else false) && Z.leb 0 (mx m).
Definition pj (j : Z) (u : fsum) : {poly F} := \sum_(e <- u | xkey j e.1) rd e.2 *: 'X^(Z.to_nat (mx e.1)).
Lemma xkeyP j m : reflect (exists k : nat, m = mkMono (Z.of_nat k) j 0 None) (xkey j m).
Proof.
apply: (iffP idP).
- case: m => x y z [v|]; rewrite /xkey /= ?andbF //; move=> /andP [/andP [/andP [/Z.eqb_eq -> /Z.eqb_eq ->] _] /Z.leb_le h].
  by exists (Z.to_nat x); rewrite Z2Nat.id.
- by case=> k ->; rewrite /xkey /= !Z.eqb_refl /=; apply/Z.leb_le; lia.
Qed.
Lemma coef_pj j u k : (pj j u)`_k = rd (coef u (mkMono (Z.of_nat k) j 0 None)).
Proof.
elim: u => [|[m c] u IH]; first by rewrite /pj big_nil coef0 red_0.
rewrite /pj big_cons /=; case: ifP => [/xkeyP [k' ->]|nk].
- rewrite coefD coefZ coefXn [X in _ + X]IH (red_add pq) /= Nat2Z.id; congr (_ + _).
  have [e|ne] := eqVneq k k'; first by rewrite e (proj2 (mono_eqb_eq _ _) erefl) mulr1.
  rewrite mulr0; case: ifP => [/mono_eqb_eq [] /Nat2Z.inj e|_]; first by rewrite e eqxx in ne.
  by rewrite red_0.
- rewrite [LHS]IH; case: ifP => [/mono_eqb_eq e|_]; last by rewrite Z.add_0_l.
  by case/xkeyP: nk; exists k.
Qed.
Lemma pj_feqm j u v : feqm q u v -> pj j u = pj j v.
Proof. by move=> h; apply/polyP => k; rewrite !coef_pj; apply/(red_eq pq); exact: h. Qed.
Definition keys01 (u : fsum) := forall m c, In (m, c) u -> (0 <= mx m /\ 0 <= my m <= 1 /\ mq m = 0 /\ mv m = None)%Z.
Lemma feqm_pj u v : keys01 u -> keys01 v -> pj 0 u = pj 0 v -> pj 1 u = pj 1 v -> feqm q u v.
Proof.
move=> ku kv h0 h1 m; case: (@Bool.bool_dec (xkey 0 m || xkey 1 m) true) => [/orP|].
- case=> /xkeyP [k ->]; apply/(red_eq pq); rewrite -!coef_pj ?h0 ?h1 //.
- move=> nk; have z u' : keys01 u' -> coef u' m = 0%Z.
    move=> ku'; case: (Z.eq_dec (coef u' m) 0) => // /coef_in [c /ku']; case: (m) nk => x y z o /= nk [h2 [h3 [h4 h5]]]; subst z o.
    case: nk; have [->|->] : (y = 0 \/ y = 1)%Z by lia.
      by apply/orP; left; apply/xkeyP; exists (Z.to_nat x); rewrite Z2Nat.id.
    by apply/orP; right; apply/xkeyP; exists (Z.to_nat x); rewrite Z2Nat.id.
  by rewrite !z //; exists 0%Z.
Qed.
Lemma pj_cat j u v : pj j (u ++ v) = pj j u + pj j v. Proof. by rewrite /pj big_cat. Qed.
Lemma pj_conv j d k : only_x d -> (forall m c, In (m, c) k -> (0 <= mx m)%Z) -> pj j (conv d k) = pj 0 d * pj j k.
Proof.
elim: d => [|[m c] d IH] od kk; first by rewrite /pj !big_nil mul0r.
have -> : conv ((m, c) :: d) k = (List.map (fun f => (mmul m f.1, (c * f.2)%Z)) k ++ conv d k)%list by [].
rewrite pj_cat IH //; last by move=> m' c' h; apply: (od m' c'); right.
have [h1 [h2 [h3 h4]]] := od m c (or_introl erefl).
have xm : xkey 0 m by rewrite /xkey h2 h3 h4 /=; apply/Z.leb_le.
rewrite [pj 0 (_ :: _)]/pj big_cons xm /= mulrDl; congr (_ + _).
elim: k kk {IH} => [|[m' c'] k IHk] kk; first by rewrite /pj !big_nil mulr0.
rewrite /= /pj !big_cons /=.
have x' : (0 <= mx m')%Z by apply: (kk m' c'); left.
have -> : xkey j (mmul m m') = xkey j m'.
  rewrite /xkey /mmul /= h2 h3 h4 ?Z.add_0_l; congr (_ && _).
  by apply/idP/idP => _; apply/Z.leb_le; lia.
have {IHk} := IHk (fun a b h => kk a b (or_intror h)); rewrite /pj => IHk.
case: ifP => _; last by rewrite IHk.
rewrite IHk mulrDr; congr (_ + _).
by rewrite (red_mul pq) -scalerAl -scalerAr scalerA -exprD Z2Nat.inj_add.
Qed.
Definition of_poly (j : Z) (P : {poly F}) : fsum := List.map (fun k => (mkMono (Z.of_nat k) j 0 None, back P`_k)) (List.seq 0 (size P)).
Lemma of_poly_keys j P m c : In (m, c) (of_poly j P) -> (0 <= mx m /\ my m = j /\ mq m = 0 /\ mv m = None)%Z.
Proof. by move=> /in_map_iff [k [[<- _] _]] /=; do !split; lia. Qed.
Lemma seq_iota s k : List.seq s k = iota s k. Proof. by elim: k s => //= k IH s; rewrite IH. Qed.
Lemma pj_of_poly j P : pj j (of_poly j P) = P.
Proof.
rewrite /pj /of_poly seq_iota big_map /= -[RHS]coefK poly_def -(big_mkord xpredT (fun i => P`_i *: 'X^i)).
rewrite /index_iota subn0; apply: eq_big => k; first by apply/xkeyP; exists k.
by move=> _; rewrite Nat2Z.id (red_back pq).
Qed.
Lemma pj_of_poly' j j' P : j <> j' -> pj j' (of_poly j P) = 0.
Proof. move=> h; rewrite /pj /of_poly seq_iota big_map /= big1 // => k /xkeyP [k' []] _ /h //. Qed.
Lemma xmul_dvd d u : only_x d -> keys01 u -> xmul q d u <-> (pj 0 d %| pj 0 u) /\ (pj 0 d %| pj 1 u).
Proof.
move=> od ku; split.
- case=> k [kk e]; rewrite (pj_feqm 0 e) (pj_feqm 1 e) !pj_conv //; by split; apply: dvdp_mulr.
- case=> /dvdpP [A eA] /dvdpP [B eB].
  exists (of_poly 0 A ++ of_poly 1 B)%list; have kk m c : In (m, c) (of_poly 0 A ++ of_poly 1 B)%list -> (0 <= mx m /\ 0 <= my m <= 1 /\ mq m = 0 /\ mv m = None)%Z.
    by move=> /in_app_iff [] /of_poly_keys [h1 [h2 [h3 h4]]]; rewrite h2; do !split.
  split=> [m c /kk []|] //.
  have kk0 m c : In (m, c) (of_poly 0 A ++ of_poly 1 B)%list -> (0 <= mx m)%Z by move=> /kk [].
  apply: feqm_pj => //.
  + move=> m c /in_conv [m1 [c1 [m2 [c2 [h1 [h2 [-> _]]]]]]]; have := od _ _ h1; have := kk _ _ h2; rewrite /mmul /=.
    by case=> ? [? [-> ->]] [? [-> [-> ->]]] /=; do !split; lia.
  + by rewrite pj_conv // pj_cat pj_of_poly pj_of_poly' // addr0 eA mulrC.
  + by rewrite pj_conv // pj_cat pj_of_poly pj_of_poly' // add0r eB mulrC.
Qed.

(** Values in an extension field. *)
Variables (K : fieldType) (i : {rmorphism F -> K}).
Definition kval (X Y : K) (u : fsum) : K := \sum_(e <- u) i (rd e.2) * X ^+ Z.to_nat (mx e.1) * Y ^+ Z.to_nat (my e.1).
Lemma kval_cat X Y u v : kval X Y (u ++ v) = kval X Y u + kval X Y v. Proof. by rewrite /kval big_cat. Qed.
Lemma kval_add X Y u v : kval X Y (fadd u v) = kval X Y u + kval X Y v. Proof. exact: kval_cat. Qed.
Lemma kval_neg X Y u : kval X Y (fneg u) = - kval X Y u.
Proof. by rewrite /kval /fneg big_map raddf_sum; apply: eq_bigr => e _ /=; rewrite (red_opp pq) rmorphN !mulNr. Qed.
Lemma kval_sub X Y u v : kval X Y (fsub u v) = kval X Y u - kval X Y v. Proof. by rewrite /fsub kval_cat kval_neg. Qed.
Lemma kval_conv X Y u v : nonneg_xy u -> nonneg_xy v -> kval X Y (conv u v) = kval X Y u * kval X Y v.
Proof.
move=> nu nv; elim: u nu => [|[m c] u IH] nu; first by rewrite /kval !big_nil mul0r.
have -> : conv ((m, c) :: u) v = (List.map (fun f => (mmul m f.1, (c * f.2)%Z)) v ++ conv u v)%list by [].
rewrite kval_cat IH; last by move=> m' c' h; apply: (nu m' c'); right.
rewrite [kval _ _ (_ :: _)]/kval big_cons mulrDl; congr (_ + _); have [hx hy] := nu m c (or_introl erefl).
elim: v nv {IH nu} => [|[m' c'] v IHv] nv; first by rewrite /kval !big_nil mulr0.
rewrite /kval /= !big_cons mulrDr [X in _ + X]IHv; last by move=> a' b' h; apply: (nv a' b'); right.
congr (_ + _) => /=; have [hx' hy'] := nv m' c' (or_introl erefl).
rewrite (red_mul pq) rmorphM !Z2Nat.inj_add // !exprD /=.
by rewrite -!mulrA; congr (_ * _); rewrite mulrCA; congr (_ * _); rewrite !mulrA; congr (_ * _); rewrite mulrC mulrA.
Qed.
Lemma nn_conv u v : nonneg_xy u -> nonneg_xy v -> nonneg_xy (conv u v).
Proof. by move=> nu nv m c /in_conv [m1 [c1 [m2 [c2 [/nu h1 [/nv h2 [-> _]]]]]]] /=; lia. Qed.
Lemma nn_fpow u k : nonneg_xy u -> nonneg_xy (fpow u k).
Proof. by move=> nu; elim: k => [m c [[<- _]|[]] /=|k IH /=]; [lia|apply: nn_conv]. Qed.
Lemma kval_one X Y : kval X Y (fconst 1) = 1.
Proof. by rewrite /kval /fconst big_cons big_nil /= (red_1 pq) rmorph1 !mulr1 addr0. Qed.
Lemma kval_fpow X Y u k : nonneg_xy u -> kval X Y (fpow u k) = kval X Y u ^+ k.
Proof. by move=> nu; elim: k => [|k IH] /=; rewrite ?kval_one // kval_conv ?IH ?exprS //; exact: nn_fpow. Qed.
Lemma kval_mono X Y c x y z : kval X Y (fmono c x y z) = i (rd c) * X ^+ Z.to_nat x * Y ^+ Z.to_nat y.
Proof. by rewrite /kval /fmono big_cons big_nil addr0. Qed.
Lemma kval_pj X Y u : keys01 u -> kval X Y u = (map_poly i (pj 0 u)).[X] + Y * (map_poly i (pj 1 u)).[X].
Proof.
elim: u => [|[m c] u IH] ku; first by rewrite /kval /pj !big_nil rmorph0 horner0 mulr0 addr0.
rewrite /kval big_cons [X in _ + X]IH; last by move=> m' c' h; apply: (ku m' c'); right.
have [hx [hy [hq hv]]] := ku m c (or_introl erefl).
have k0 : Z.leb 0 (mx m) by apply/Z.leb_le.
rewrite /pj !big_cons /= /xkey hq hv k0 /=.
have [e|e] : (my m = 0 \/ my m = 1)%Z by lia.
- by rewrite e /= rmorphD /= map_polyZ map_polyXn hornerD hornerZ hornerXn expr0 mulr1 addrA.
- by rewrite e /= rmorphD /= map_polyZ map_polyXn hornerD hornerZ hornerXn mulrDr addrCA; congr (_ + (_ + _)); rewrite mulrC.
Qed.
(** On the curve. *)
Variables a b : Z.
Definition plain (u : fsum) := forall m c, In (m, c) u -> (0 <= mx m /\ 0 <= my m /\ mq m = 0 /\ mv m = None)%Z.
Lemma plain_nn u : plain u -> nonneg_xy u. Proof. by move=> h m c /h [? []]. Qed.
Definition onK (X Y : K) := Y * Y = X * X * X + i (rd a) * X + i (rd b).
Definition nform (u : fsum) : fsum := flat_map (red_term a b) u.
Lemma fweier_plain : only_x (fweier a b).
Proof. by move=> m c [[<- _]|[[<- _]|[[<- _]|[]]]] /=. Qed.
Lemma only_x_plain u : only_x u -> plain u. Proof. by move=> h m c /h [? [-> ?]]; do !split => //; tauto. Qed.
Lemma only_x_conv u v : only_x u -> only_x v -> only_x (conv u v).
Proof.
move=> nu nv m c /in_conv [m1 [c1 [m2 [c2 [/nu h1 [/nv h2 [-> _]]]]]]]; rewrite /mmul /=.
by case: h1 h2 => ? [-> [-> ->]] [? [-> [-> ->]]] /=; do !split; lia.
Qed.
Lemma only_x_fpow u k : only_x u -> only_x (fpow u k).
Proof. by move=> nu; elim: k => [m c [[<- _]|[]] /=|k IH /=] //; exact: only_x_conv. Qed.
Lemma nform_keys u : plain u -> keys01 (nform u).
Proof.
move=> pu m c /in_flat_map [[m' c'] [/pu [h1 [h2 [h3 h4]]]]]; rewrite /red_term; case: ifP => [/Z.leb_le l|/Z.leb_gt l].
- move/in_conv => [m1 [c1 [m2 [c2 [[[<- _]|[]] [/(only_x_fpow fweier_plain) [k1 [k2 [k3 k4]]] [-> _]]]]]]].
  rewrite /mmul /set_y /= k2 k3 k4 h3 h4 /=; have := Z.mod_pos_bound (my m') 2 erefl; move=> mb; do !split => //; try lia.
- by move: l => /= l; case=> // -[<- _]; do !split => //; lia.
Qed.
Lemma kval_fweier X Y : onK X Y -> kval X Y (fweier a b) = Y * Y.
Proof.
move=> ->; rewrite /kval /fweier !big_cons big_nil /= (red_1 pq) rmorph1 mul1r !mulr1 addr0 addrA expr1.
by congr (_ + _ + _); rewrite !exprS expr0 mulr1 mulrA.
Qed.
Lemma kval_nform X Y u : onK X Y -> nonneg_xy u -> kval X Y (nform u) = kval X Y u.
Proof.
move=> on; elim: u => [|[m c] u IH] nu //.
have -> : nform ((m, c) :: u) = (red_term a b (m, c) ++ nform u)%list by [].
rewrite kval_cat IH; last by move=> m' c' h; apply: (nu m' c'); right.
rewrite [kval _ _ (_ :: _)]/kval big_cons; congr (_ + _); have [hx hy] := nu m c (or_introl erefl).
rewrite /red_term; case: ifP => [/Z.leb_le l|/Z.leb_gt l]; last by rewrite /kval big_cons big_nil addr0.
have mp := Z.mod_pos_bound (my m) 2.
rewrite kval_conv; first last.
- by apply/nn_fpow/plain_nn/only_x_plain; exact: fweier_plain.
- by move=> m' c' [[<- _]|[]] /=; lia.
rewrite kval_fpow; last by apply/plain_nn/only_x_plain; exact: fweier_plain.
rewrite kval_fweier // /kval big_cons big_nil addr0 /= -mulrA -expr2 -exprM -exprD; congr (_ * _ ^+ _).
have := Z.div_mod (my m) 2; have := Z.div_pos (my m) 2; lia.
Qed.
Lemma kval_feqm X Y u v : keys01 u -> keys01 v -> feqm q u v -> kval X Y u = kval X Y v.
Proof. by move=> ku kv e; rewrite !kval_pj // (pj_feqm 0 e) (pj_feqm 1 e). Qed.
Lemma kval_cong X Y u v : onK X Y -> plain u -> plain v -> cong_ideal q (fcurve a b) u v -> kval X Y u = kval X Y v.
Proof.
move=> on pu pv c; rewrite -(kval_nform on (plain_nn pu)) -(kval_nform on (plain_nn pv)).
have k1 := nform_keys pu; have k2 := nform_keys pv.
apply: kval_feqm => //; apply: (@cong_unique q a b).
- apply: cong_trans (reds_cong a b q u) _; apply: cong_trans c _; apply: cong_sym; exact: reds_cong.
- by move=> m c' /k1 [_ []].
- by move=> m c' /k2 [_ []].
Qed.
Lemma cong_0_q g u v : cong_ideal 0 g u v -> cong_ideal q g u v.
Proof. by case=> k e; exists k => m; case: (e m) => z; rewrite Z.mul_0_r => ->; exists 0%Z. Qed.
Lemma multiple_vanish d u : only_x d -> plain u -> Znumtheory.prime q ->
  (forall X Y, onK X Y -> (map_poly i (pj 0 d)).[X] = 0 -> Y + Y <> 0) ->
  (forall X, exists Y, onK X Y) ->
  (forall G : {poly F}, (pj 0 d %| G) <-> forall X : K, (map_poly i (pj 0 d)).[X] = 0 -> (map_poly i G).[X] = 0) ->
  multiple q a b d u <-> forall X Y, onK X Y -> (map_poly i (pj 0 d)).[X] = 0 -> kval X Y u = 0.
Proof.
move=> od pu _ Hy Hs Hd; have kn := nform_keys pu.
have mc := multiple_cong a b q d u _ (cong_sym _ _ _ _ (reds_cong a b q u)).
have := xmul_multiple a b q d _ od kn; rewrite (xmul_dvd od kn) !Hd => xm.
have kv X Y : onK X Y -> kval X Y u = (map_poly i (pj 0 (nform u))).[X] + Y * (map_poly i (pj 1 (nform u))).[X].
  by move=> on; rewrite -(kval_nform on (plain_nn pu)) kval_pj.
split.
- move=> /mc /xm [h0 h1] X Y on r; by rewrite kv // h0 // h1 // mulr0 addr0.
- move=> h; apply/mc/xm.
  have k2 X : (map_poly i (pj 0 d)).[X] = 0 -> (map_poly i (pj 0 (nform u))).[X] = 0 /\ (map_poly i (pj 1 (nform u))).[X] = 0.
    move=> r; have [Y on] := Hs X; have y0 := Hy X Y on r.
    have on' : onK X (- Y) by rewrite /onK mulrNN.
    have e1 := h _ _ on r; have e2 := h _ _ on' r; rewrite !kv // in e1 e2.
    have e3 : (map_poly i (pj 1 (nform u))).[X] = 0.
      have : (Y + Y) * (map_poly i (pj 1 (nform u))).[X] = 0.
        rewrite -[RHS](subrr 0) -{1}e1 -e2 mulNr opprD opprK addrACA subrr add0r mulrDl //.
      by move/eqP; rewrite mulf_eq0 => /orP [/eqP //|/eqP].
    by move: e1; rewrite e3 mulr0 addr0.
  by split=> X /k2 [].
Qed.
End FPoly.
