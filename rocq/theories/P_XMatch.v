(** Schoof's comparison of x-coordinates at the points whose x-coordinate is a root of a division polynomial. *)
From Coq Require Import ZArith Znumtheory List ZifyBool Ring.
From mathcomp Require Import all_ssreflect all_algebra closed_field.
From mathcomp Require Import zify.
From Verif Require Import Prelude M_Term M_DivPoly Spec P_Variable P_FSum P_Poly P_Rem P_Subst P_Subst2 P_NormalProps P_DivProps P_SchoofId2 SpecSchoof P_HasseZ P_HasseGcd P_Group P_Tors3 P_EK P_Clos P_FPoly P_Three.
Set Implicit Arguments. Unset Strict Implicit. Unset Printing Implicit Defensive.
Import GRing.Theory.

Section Idents.
Variables (K : Type) (k0 k1 : K) (kadd kmul ksub : K -> K -> K) (kopp : K -> K).
Hypothesis Kr : ring_theory k0 k1 kadd kmul ksub kopp (@eq K).
Add Ring KR2 : Kr.
Local Notation "x + y" := (kadd x y). Local Notation "x * y" := (kmul x y). Local Notation "x - y" := (ksub x y).
Lemma xg_ident (c X Y u v w e : K) :
  ((Y * (c * (c * c)) - v * (c * (c * c))) * (Y * (c * (c * c)) - v * (c * (c * c))) - (X * (c * c) + u * (c * c)) * ((X * (c * c) - u * (c * c)) * (X * (c * c) - u * (c * c)))) * (e * e)
   - w * (e * e) * ((c * c) * ((X * (c * c) - u * (c * c)) * (X * (c * c) - u * (c * c)))) =
  (c * (c * c)) * (c * (c * c)) * (e * e) * ((Y - v) * (Y - v) - (X + u + w) * ((X - u) * (X - u))).
Proof. ring. Qed.
End Idents.

Section XM.
Variable q : Z.
Hypothesis pq : Znumtheory.prime q.
Hypothesis q3 : (3 < q)%Z.
Let n := Z.to_nat q.
Notation F := 'F_n.
Notation rd := (@red q).
Variables a b : Z.
Hypothesis disc : ~ (q | 4 * (a * a * a) + 27 * (b * b))%Z.
Local Open Scope ring_scope.
Variables (K : closedFieldType) (i : {rmorphism F -> K}).
Let rD := red_add pq. Let rM := red_mul pq. Let r1 := red_1 pq.
Notation A := (i (rd a)). Notation B := (i (rd b)).
Notation kv := (@kval q K i).
Notation on := (@onK q K i a b).
Notation fr := [rmorphism of Frobenius_aut (t_cp pq i)].
Lemma plain_frob f : plain f -> plain (fmap (Spec.frob q) f).
Proof.
move=> pf m c /in_map_iff [[m' c'] [[<- _] h]]; have [h1 [h2 [h3 h4]]] := pf _ _ h; rewrite /Spec.frob /=.
by do !split => //; nia.
Qed.
Lemma kv_frob X Y f : plain f -> kv X Y (fmap (Spec.frob q) f) = fr (kv X Y f).
Proof.
rewrite /kval /fmap big_map raddf_sum => pf; elim: f pf => [|[m c] f IH] pf; first by rewrite !big_nil.
rewrite !big_cons IH; last by move=> m' c' h; apply: (pf m' c'); right.
congr (_ + _); have [h1 [h2 _]] := pf m c (or_introl erefl); rewrite /= !rmorphM !rmorphX.
have fF (z : F) : fr (i z) = i z by apply: frA; exact: t_card.
rewrite fF ![fr _]frE -!exprM; congr (_ * _ ^+ _ * _ ^+ _); rewrite /n; nia.
Qed.
Lemma xm_gen d ps ph om psj phj (Q : K -> K -> Prop) : only_x d -> plain ps -> plain ph -> plain om -> plain psj -> plain phj ->
  (forall G : {poly F}, (pj q 0 d %| G) <-> forall X : K, (map_poly i (pj q 0 d)).[X] = 0 -> (map_poly i G).[X] = 0) ->
  (forall X Y, on X Y -> (map_poly i (pj q 0 d)).[X] = 0 -> Y + Y <> 0) ->
  (forall X Y, on X Y -> (map_poly i (pj q 0 d)).[X] = 0 -> exists RX RY SX, let c := kv X Y ps in let e := kv X Y psj in
    [/\ c != 0, kv X Y ph = RX * (c * c), kv X Y om = RY * (c * (c * c)) & e != 0] /\ kv X Y phj = SX * (e * e) /\
    ((RY - fr (fr Y)) * (RY - fr (fr Y)) = (RX + fr (fr X) + fr SX) * ((RX - fr (fr X)) * (RX - fr (fr X))) <-> Q X Y)) ->
  x_match a b q d ps ph om psj phj <-> forall X Y, on X Y -> (map_poly i (pj q 0 d)).[X] = 0 -> Q X Y.
Proof.
move=> od p1 p2 p3 p4 p5 Hd Hy H; rewrite /x_match.
have q0 : (0 <= q ^ 2)%Z by lia.
have px : plain (xpow (q ^ 2)) by apply: plain_mono.
have py : plain (ypow (q ^ 2)) by apply: plain_mono.
have pD : plain (chord_D q ps om) by rewrite /chord_D; pl.
have pF : plain (chord_F q ps ph) by rewrite /chord_F; pl.
have pn : plain (sum_xnum q ps ph om) by rewrite /sum_xnum; pl.
have pd : plain (sum_xden q ps ph) by rewrite /sum_xden; pl.
have f4 := plain_frob p4. have f5 := plain_frob p5.
have pe : plain (fsub (conv (sum_xnum q ps ph om) (fpow (fmap (Spec.frob q) psj) 2)) (conv (fmap (Spec.frob q) phj) (sum_xden q ps ph))) by pl.
have Hs X : exists Y, on X Y by exact: sqrtK.
rewrite (multiple_vanish pq od pe pq Hy Hs Hd).
suff ev X Y : on X Y -> (map_poly i (pj q 0 d)).[X] = 0 -> kv X Y (fsub (conv (sum_xnum q ps ph om) (fpow (fmap (Spec.frob q) psj) 2)) (conv (fmap (Spec.frob q) phj) (sum_xden q ps ph))) = 0 <-> Q X Y.
  by split=> h X Y o r; apply/(ev X Y o r); exact: h.
move=> o r; have [RX [RY [SX [[c0 e1 e2 e0] [e3 <-]]]]] := H X Y o r.
move: c0 e1 e2 e0 e3; set c := kv X Y ps; set e := kv X Y psj => c0 e1 e2 e0 e3.
have nn := plain_nn.
have qq := frqq pq q3 i.
have eD : kv X Y (chord_D q ps om) = RY * (c * (c * c)) - fr (fr Y) * (c * (c * c)).
  by rewrite /chord_D (kval_sub pq) e2 (kval_conv pq) ?(kval_fpow pq) ?kval_mono ?qq ?r1 ?rmorph1 ?mul1r ?mulr1 ?expr0; [rewrite -/c !exprS expr0 !mulr1 ?mul1r|apply: nn; pl..].
have eF : kv X Y (chord_F q ps ph) = RX * (c * c) - fr (fr X) * (c * c).
  by rewrite /chord_F (kval_sub pq) e1 (kval_conv pq) ?(kval_fpow pq) ?kval_mono ?qq ?r1 ?rmorph1 ?mul1r ?mulr1 ?expr0; [rewrite -/c !exprS expr0 !mulr1 ?mul1r|apply: nn; pl..].
have eN : kv X Y (sum_xnum q ps ph om) = kv X Y (chord_D q ps om) * kv X Y (chord_D q ps om) - (RX * (c * c) + fr (fr X) * (c * c)) * (kv X Y (chord_F q ps ph) * kv X Y (chord_F q ps ph)).
  have eA : kv X Y (fadd ph (conv (xpow (q ^ 2)) (fpow ps 2))) = RX * (c * c) + fr (fr X) * (c * c).
    rewrite kval_add e1 (kval_conv pq) ?(kval_fpow pq) ?kval_mono; try (apply: nn; pl).
    by rewrite qq r1 rmorph1 mul1r expr0 mulr1 expr2 -/c.
  rewrite /sum_xnum (kval_sub pq) (kval_conv pq); try (apply: nn; pl).
  rewrite eA !(kval_fpow pq); try (apply: nn; pl).
  by rewrite -/c !expr2.
have eM : kv X Y (sum_xden q ps ph) = (c * c) * (kv X Y (chord_F q ps ph) * kv X Y (chord_F q ps ph)).
  rewrite /sum_xden (kval_conv pq); try (apply: nn; pl).
  rewrite !(kval_fpow pq); try (apply: nn; pl).
  by rewrite -/c !expr2.
rewrite (kval_sub pq) (@kval_conv _ pq _ _ _ _ (sum_xnum q ps ph om)); try (apply: nn; pl).
rewrite (@kval_conv _ pq _ _ _ _ (fmap _ phj)); try (apply: nn; pl).
rewrite (kval_fpow pq); try (apply: nn; pl).
rewrite !kv_frob // e3 -/e eN eM eD eF rmorphM rmorphM expr2.
have -> := @xg_ident K _ _ _ _ _ _ (ring_rt [comRingType of K]) c RX RY (fr (fr X)) (fr (fr Y)) (fr SX) (fr e).
have c6 : (c * (c * c)) * (c * (c * c)) * (fr e * fr e) != 0 by rewrite !mulf_neq0 // fmorph_eq0.
split; first by move/eqP; rewrite mulf_eq0 (negbTE c6) /= subr_eq0 => /eqP.
by move=> ->; rewrite subrr mulr0.
Qed.
End XM.
