(** The last test of schoof for l = 3, q = 1 mod 3: x^q - x against the division polynomial of y^2 = x^3 + q x + b. *)
From Coq Require Import ZArith Znumtheory List ZifyBool.
From mathcomp Require Import all_ssreflect all_algebra.
From mathcomp Require Import zify.
From Verif Require Import Prelude M_Term M_DivPoly Spec P_FSum P_Subst2 P_DivProps P_SchoofId2 SpecSchoof P_HasseZ P_FinF P_Clos P_FPoly P_Three.
Set Implicit Arguments. Unset Strict Implicit. Unset Printing Implicit Defensive.
Import GRing.Theory.

Section PolyW.
Variables (F : finFieldType) (b : F).
Local Open Scope ring_scope.
Hypothesis c2 : 1 + 1 != 0 :> F.
Hypothesis c3 : 1 + 1 + 1 != 0 :> F.
Notation b4 := ((1 + 1) * (1 + 1) * b).
Lemma psiP0 : psiP 0 b = (1 + 1 + 1) *: ('X * ('X^3 + b4%:P)).
Proof.
rewrite /psiP !mulr0 scale0r addr0 subr0 (mulrDr 'X) -exprS scalerDr; congr (_ + _).
by rewrite [_ * b4%:P]mulrC mul_polyC scalerA; congr (_ *: _); rewrite [RHS]mulrA; congr (_ * _); rewrite mulrC.
Qed.
Lemma w_dvd k : #|F| = (3 * k).+1 -> (psiP 0 b %| 'X^#|F| - 'X) <-> exists c : F, c != 0 /\ c * c * c + b4 = 0.
Proof.
move=> ek; rewrite psiP0 dvdpZl //; split.
- rewrite finField_genPoly; set P := _ * _ => /dvdp_prod_XsubC [m e].
  have sz : size P = 5%N.
    rewrite /P mulrC size_mulX ?size_addl ?size_polyXn //; first by apply: leq_ltn_trans (size_polyC_leq1 _) _.
    by rewrite -size_poly_eq0 size_addl ?size_polyXn //; apply: leq_ltn_trans (size_polyC_leq1 _) _.
  have := eqp_size e; rewrite sz size_prod_XsubC => -[s4].
  have um : uniq (mask m (index_enum F)) by apply: mask_uniq; exact: index_enum_uniq.
  have [c cm c0] : exists2 c, c \in mask m (index_enum F) & c != 0.
    case: (mask m _) s4 um => [|x [|y l]] //= _ /andP [nx _].
    have [x0|x0] := eqVneq x 0; last by exists x; rewrite ?inE ?eqxx.
    exists y; first by rewrite !inE eqxx orbT.
    by apply/eqP => y0; rewrite x0 y0 !inE eqxx in nx.
  exists c; split=> //; have : root P c by rewrite (eqp_root e) root_prod_XsubC.
  rewrite /P rootM rootX (negbTE c0) /= rootE !hornerE ?hornerXn => /eqP.
  move=> h; rewrite -[RHS]h; congr (_ + _); by rewrite ?exprS ?expr0 ?mulr1 ?mulrA.
- case=> c [c0 e]; rewrite ek (exprS _ (3 * k)) -[X in _ %| _ - X]mulr1 -mulrBr dvdp_mul2l ?polyX_eq0 //.
  have e3 : b4 = - (c ^+ 3) by apply/eqP; rewrite -addr_eq0 addrC !exprS expr0 mulr1 mulrA e.
  have -> : (1 : {poly F}) = ((c ^+ 3)%:P) ^+ k.
    rewrite -rmorphX -exprM -(mulKf c0 (c ^+ _)) -exprS -ek expf_card mulVf //.
  rewrite e3 rmorphN exprM subrXX; exact: dvdp_mulr.
Qed.
End PolyW.

Section W3.
Variable q : Z.
Hypothesis pq : Znumtheory.prime q.
Hypothesis q3 : (3 < q)%Z.
Hypothesis q1 : (q mod 3 = 1)%Z.
Let n := Z.to_nat q.
Notation F := 'F_n.
Notation rd := (@red q).
Variables a b : Z.
Local Open Scope ring_scope.
Let rD := red_add pq. Let rM := red_mul pq. Let r1 := red_1 pq.
Lemma w_three : w_matches q a b q 3 1 <-> exists c : Z, ~ (q | c)%Z /\ (q | c * c * c + 4 * b)%Z.
Proof.
have [_ [e1 [_ [[d [e3 f3]] _]]]] := c48_psi_base q b.
have [_ [e1' _]] := c48_psi_base a b.
have od := psi3_x q e3.
pose u := fsub (conv (xpow q) (fpow (fmono 1 0 0 0) 2)) (fmono 1 1 0 0).
have W : w_matches q a b q 3 1 <-> multiple q a b d u.
  split.
  - case=> d' [psw [phw [h1 [h2 [h3 h]]]]]; rewrite phi1 in h3.
    have q1' : d' = d by congruence. have q2 : psw = fmono 1 0 0 0 by congruence. have q4 : phw = fmono 1 1 0 0 by congruence. by subst.
  - by move=> h; exists d, (fmono 1 0 0 0), (fmono 1 1 0 0).
have ku : keys01 u.
  by move=> m c; rewrite /u /fsub /fneg /xpow /fmono /=; do 2 (case; [case=> <- _ /=; do !split => //; lia|]); case.
rewrite W -(xmul_multiple a b q d u od ku) (xmul_dvd pq od ku).
have -> : pj q 0 d = psiP 0 (rd b).
  rewrite (pj_feqm pq 0 (feq_feqm _ _ _ f3)) (pj_base3 pq) (_ : rd q = 0) //; apply/(red_eq0 pq); by exists 1%Z; lia.
have -> : pj q 1 u = 0 by rewrite /pj /u /fsub /fneg /xpow /fmono /= !big_cons big_nil.
have -> : pj q 0 u = 'X^#|F| - 'X.
  rewrite /u pj_cat (t_card pq) -[RHS]/(_ + _); congr (_ + _).
    have -> : conv (xpow q) (fpow (fmono 1 0 0 0) 2) = fmono 1 (Z.of_nat n) 0 0.
      by rewrite /xpow /fmono /= /mmul /=; congr [:: (mkMono _ _ _ _, _)]; rewrite /n; lia.
    by rewrite (pj_mono q) r1 scale1r.
  by rewrite (pj_mono q _ 1) (red_opp pq) r1 scaleN1r expr1.
have ek : #|F| = (3 * Z.to_nat (q / 3)).+1.
  by rewrite (t_card pq) /n; have := Z.div_mod q 3; lia.
have bd := w_dvd (rd b) (t_c3 pq q3) ek.
split.
- case=> /bd [c [c0 e]] _; exists (back c); split.
    by move/(red_eq0 pq); rewrite (red_back pq) => /eqP; rewrite (negbTE c0).
  apply/(red_eq0 pq); rewrite (_ : 4 = (1 + 1) * (1 + 1))%Z // !(rD, rM, r1) (red_back pq) -[RHS]e; congr (_ + _ * _); by rewrite r1.
- case=> c [c0 e]; split; last by rewrite dvdp0.
  apply/bd; exists (rd c); split; first by apply/eqP => /(red_eq0 pq).
  by move/(red_eq0 pq): e; rewrite (_ : 4 = (1 + 1) * (1 + 1))%Z // !(rD, rM, r1).
Qed.
End W3.
