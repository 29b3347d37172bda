(** Schoof's comparison of y-coordinates at the points whose x-coordinate is a root of a division polynomial. *)
From Coq Require Import ZArith Znumtheory List ZifyBool Ring.
From mathcomp Require Import all_ssreflect all_algebra closed_field.
From mathcomp Require Import zify.
From Verif Require Import Prelude M_Term M_DivPoly Spec P_Variable P_FSum P_Poly P_Rem P_Subst P_Subst2 P_NormalProps P_DivProps P_SchoofId2 SpecSchoof P_HasseZ P_HasseGcd P_Group P_Tors3 P_EK P_Clos P_FPoly P_Three P_XMatch P_ThreeAbs.
Set Implicit Arguments. Unset Strict Implicit. Unset Printing Implicit Defensive.
Import GRing.Theory.

Section Idents.
Variables (K : Type) (k0 k1 : K) (kadd kmul ksub : K -> K -> K) (kopp : K -> K).
Hypothesis Kr : ring_theory k0 k1 kadd kmul ksub kopp (@eq K).
Add Ring KR4 : Kr.
Local Notation "x + y" := (kadd x y). Local Notation "x * y" := (kmul x y). Local Notation "x - y" := (ksub x y).
Lemma yg_ident (c X Y u v w e : K) :
  let D := Y * (c * (c * c)) - v * (c * (c * c)) in let G := X * (c * c) - u * (c * c) in
  c * ((D * ((kopp k1 * (X * (c * c)) + (k1 + k1) * (u * (c * c))) * (G * G) - D * D) - v * ((c * (c * c)) * (G * (G * G)))) * (e * (e * e)) - w * (e * (e * e)) * ((c * (c * c)) * (G * (G * G)))) =
  (c * (c * (c * (c * (c * (c * (c * (c * (c * c))))))))) * (e * (e * e)) *
   ((Y - v) * ((u + u - X) * ((X - u) * (X - u)) - (Y - v) * (Y - v)) - v * ((X - u) * (X - u) * (X - u)) - w * ((X - u) * (X - u) * (X - u))).
Proof. cbv zeta. ring. Qed.
End Idents.

Section YM.
Variable q : Z.
Hypothesis pq : Znumtheory.prime q.
Hypothesis q3 : (3 < q)%Z.
Let n := Z.to_nat q.
Notation F := 'F_n.
Notation rd := (@red q).
Variables a b : Z.
Hypothesis disc : ~ (q | 4 * (a * a * a) + 27 * (b * b))%Z.
Local Open Scope ring_scope.
Variables (K : closedFieldType) (i : {rmorphism F -> K}).
Let rD := red_add pq. Let rM := red_mul pq. Let r1 := red_1 pq.
Notation A := (i (rd a)). Notation B := (i (rd b)).
Notation kv := (@kval q K i).
Notation on := (@onK q K i a b).
Notation fr := [rmorphism of Frobenius_aut (t_cp pq i)].
Lemma ym_gen d ps ph om psj omj (Q : K -> K -> Prop) : only_x d -> plain ps -> plain ph -> plain om -> plain psj -> plain omj ->
  (forall G : {poly F}, (pj q 0 d %| G) <-> forall X : K, (map_poly i (pj q 0 d)).[X] = 0 -> (map_poly i G).[X] = 0) ->
  (forall X Y, on X Y -> (map_poly i (pj q 0 d)).[X] = 0 -> Y + Y <> 0) ->
  (forall X Y, on X Y -> (map_poly i (pj q 0 d)).[X] = 0 -> exists RX RY SY, let c := kv X Y ps in let e := kv X Y psj in
    [/\ c != 0, kv X Y ph = RX * (c * c), kv X Y om = RY * (c * (c * c)) & e != 0] /\ kv X Y omj = SY * (e * (e * e)) /\
    (forall x1, @ytest K +%R *%R (fun x y => x - y) RX RY x1 (fr SY) (fr (fr X)) (fr (fr Y)) <-> Q X Y)) ->
  y_match (-1) a b q d ps ph om psj omj <-> forall X Y, on X Y -> (map_poly i (pj q 0 d)).[X] = 0 -> Q X Y.
Proof.
move=> od p1 p2 p3 p4 p5 Hd Hy H; rewrite /y_match.
have q0 : (0 <= q ^ 2)%Z by lia.
have px : plain (xpow (q ^ 2)) by apply: plain_mono.
have py : plain (ypow (q ^ 2)) by apply: plain_mono.
have pD : plain (chord_D q ps om) by rewrite /chord_D; pl.
have pF : plain (chord_F q ps ph) by rewrite /chord_F; pl.
have pc1 : plain (fconst (-1)) by apply: plain_mono.
have pc2 : plain (fconst 2) by apply: plain_mono.
have pn : plain (sum_ynum (-1) q ps ph om) by rewrite /sum_ynum; pl.
have pd : plain (sum_yden q ps ph) by rewrite /sum_yden; pl.
have f4 := plain_frob q3 p4. have f5 := plain_frob q3 p5.
have pi : plain (fsub (conv (sum_ynum (-1) q ps ph om) (fpow (fmap (Spec.frob q) psj) 3)) (conv (fmap (Spec.frob q) omj) (sum_yden q ps ph))) by pl.
have pe : plain (conv ps (fsub (conv (sum_ynum (-1) q ps ph om) (fpow (fmap (Spec.frob q) psj) 3)) (conv (fmap (Spec.frob q) omj) (sum_yden q ps ph)))) by pl.
have Hs X : exists Y, on X Y by exact: sqrtK.
rewrite (multiple_vanish pq od pe pq Hy Hs Hd).
suff ev X Y : on X Y -> (map_poly i (pj q 0 d)).[X] = 0 -> kv X Y (conv ps (fsub (conv (sum_ynum (-1) q ps ph om) (fpow (fmap (Spec.frob q) psj) 3)) (conv (fmap (Spec.frob q) omj) (sum_yden q ps ph)))) = 0 <-> Q X Y.
  by split=> h X Y o r; apply/(ev X Y o r); exact: h.
move=> o r; have [RX [RY [SY [[c0 e1 e2 e0] [e3 HQ]]]]] := H X Y o r; rewrite -(HQ 0).
move: c0 e1 e2 e0 e3; set c := kv X Y ps; set e := kv X Y psj => c0 e1 e2 e0 e3.
have nn := plain_nn.
have qq := frqq pq q3 i.
have p3' (f : fsum) : plain f -> kv X Y (fpow f 3) = kv X Y f * (kv X Y f * kv X Y f).
  by move=> pf; rewrite (kval_fpow pq); [rewrite !exprS expr0 mulr1|exact: nn].
have p2' (f : fsum) : plain f -> kv X Y (fpow f 2) = kv X Y f * kv X Y f.
  by move=> pf; rewrite (kval_fpow pq); [rewrite !exprS expr0 mulr1|exact: nn].
have cv (f g : fsum) : plain f -> plain g -> kv X Y (conv f g) = kv X Y f * kv X Y g.
  by move=> pf pg; apply: (kval_conv pq); exact: nn.
have ex2 : kv X Y (xpow (q ^ 2)) = fr (fr X) by rewrite kval_mono qq r1 rmorph1 mul1r expr0 mulr1.
have ey2 : kv X Y (ypow (q ^ 2)) = fr (fr Y) by rewrite kval_mono qq r1 rmorph1 mul1r expr0 mul1r.
have eD : kv X Y (chord_D q ps om) = RY * (c * (c * c)) - fr (fr Y) * (c * (c * c)).
  by rewrite /chord_D (kval_sub pq) e2 cv ?p3' ?ey2 //; pl.
have eF : kv X Y (chord_F q ps ph) = RX * (c * c) - fr (fr X) * (c * c).
  by rewrite /chord_F (kval_sub pq) e1 cv ?p2' ?ex2 //; pl.
have k1 : kv X Y (fconst (-1)) = - 1 by rewrite kval_mono -[(-1)%Z]/(Z.opp 1) (red_opp pq) r1 rmorphN rmorph1 !expr0 !mulr1.
have k2 : kv X Y (fconst 2) = 1 + 1 by rewrite kval_mono (_ : 2 = 1 + 1)%Z // rD r1 rmorphD rmorph1 !expr0 !mulr1.
have eM : kv X Y (sum_yden q ps ph) = (c * (c * c)) * (kv X Y (chord_F q ps ph) * (kv X Y (chord_F q ps ph) * kv X Y (chord_F q ps ph))).
  by rewrite /sum_yden cv ?p3' //; pl.
have eN : kv X Y (sum_ynum (-1) q ps ph om) = 
   kv X Y (chord_D q ps om) * ((- 1 * (RX * (c * c)) + (1 + 1) * (fr (fr X) * (c * c))) * (kv X Y (chord_F q ps ph) * kv X Y (chord_F q ps ph)) - kv X Y (chord_D q ps om) * kv X Y (chord_D q ps om))
   - fr (fr Y) * ((c * (c * c)) * (kv X Y (chord_F q ps ph) * (kv X Y (chord_F q ps ph) * kv X Y (chord_F q ps ph)))).
  rewrite /sum_ynum (kval_sub pq) cv; [|by pl..]. rewrite (kval_sub pq) cv; [|by pl..]. rewrite kval_add cv; [|by pl..]. rewrite cv; [|by pl..]. rewrite cv; [|by pl..].
  rewrite !p2' //. rewrite cv; [|by pl..]. rewrite cv; [|by pl..]. by rewrite !p3' // k1 k2 ex2 ey2 e1 -/c.
rewrite cv // (kval_sub pq) cv; [|by pl..]. rewrite cv; [|by pl..]. rewrite p3' // !(kv_frob pq q3) // e3 -/e eN eM eD eF !rmorphM -/c.
have -> := @yg_ident K _ _ _ _ _ _ (ring_rt [comRingType of K]) c RX RY (fr (fr X)) (fr (fr Y)) (fr SY) (fr e).
rewrite /ytest.
have c6 : (c * (c * (c * (c * (c * (c * (c * (c * (c * c))))))))) * (fr e * (fr e * fr e)) != 0 by rewrite !mulf_neq0 // fmorph_eq0.
split; first by move/eqP; rewrite mulf_eq0 (negbTE c6) /= subr_eq0 => /eqP.
by move=> ->; rewrite subrr mulr0.
Qed.
End YM.
