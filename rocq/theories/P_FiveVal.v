(** The multiples of a point of order 5 and the values of the division polynomials. *)
From Coq Require Import ZArith Znumtheory List ZifyBool Ring Field_theory Field.
From mathcomp Require Import all_ssreflect all_algebra closed_field separable.
From mathcomp Require Import zify.
From Verif Require Import Prelude M_Term M_DivPoly Spec P_Variable P_FSum P_Poly P_Rem P_Subst P_Subst2 P_NormalProps P_DivProps P_SchoofId2 SpecSchoof P_HasseZ P_HasseGcd P_Group P_Tors3 P_EK P_Clos P_FPoly P_Three P_XMatch P_Five P_PsiVal.
Set Implicit Arguments. Unset Strict Implicit. Unset Printing Implicit Defensive.
Import GRing.Theory.

Section TabId.
Variable K : Type.
Variables (k0 k1 : K) (kadd kmul ksub : K -> K -> K) (kopp : K -> K) (kdiv : K -> K -> K) (kinv : K -> K).
Variable Kf : field_theory k0 k1 kadd kmul ksub kopp kdiv kinv (@eq K).
Add Field Kfield_tab : Kf.
Notation "0" := k0. Notation "1" := k1.
Infix "+" := kadd. Infix "*" := kmul. Infix "-" := ksub. Infix "/" := kdiv. Notation "- x" := (kopp x).
Notation "2" := (1 + 1).
Lemma mul_ne' (u v : K) : u <> 0 -> v <> 0 -> u * v <> 0.
Proof. intros h1 h2 e. apply h2. transitivity (u * v / u); [field; exact h1|]. rewrite e. field. exact h1. Qed.
Lemma cancel (u v w : K) : u <> 0 -> u * v = u * w -> v = w.
Proof. intros h e. transitivity (u * v / u); [field; exact h|]. rewrite e. field. exact h. Qed.
Ltac fld := field; repeat split; repeat apply mul_ne'; auto.
Variables X Y v3 om : K.
Hypothesis h2 : 2 <> 0.
Hypothesis hY : Y <> 0.
Hypothesis hv : v3 <> 0.
Hypothesis ho : om <> 0.
Hypothesis H : v3 * v3 * v3 = 2 * 2 * 2 * 2 * 2 * (Y * Y * (Y * Y) * om).
Notation x2 := (X - v3 / (2 * 2 * (Y * Y))). Notation y2 := (om / (2 * 2 * 2 * (Y * Y * Y))).
Notation v4 := (2 * 2 * Y * om).
Lemma t2x : X * (2 * Y * (2 * Y)) - v3 * 1 = x2 * (2 * Y * (2 * Y)).
Proof. fld. Qed.
Lemma t2y w : 2 * 2 * Y * w = v4 * (1 * 1) - 0 * (v3 * v3) -> w = y2 * (2 * Y * (2 * Y * (2 * Y))).
Proof. intros e. apply (@cancel (2 * 2 * Y)); [repeat apply mul_ne'; auto|]. rewrite e. fld. Qed.
Lemma t3x : X * (v3 * v3) - v4 * (2 * Y) = x2 * (v3 * v3).
Proof. transitivity (X * (v3 * v3) - v3 * v3 * v3 / (2 * 2 * (Y * Y))); [rewrite H; fld|fld]. Qed.
Lemma t3y w : 2 * 2 * Y * w = 0 * (2 * Y * (2 * Y)) - 1 * (v4 * v4) -> w = (- y2) * (v3 * (v3 * v3)).
Proof.
  intros e. apply (@cancel (2 * 2 * Y)); [repeat apply mul_ne'; auto|]. rewrite e.
  transitivity ((- y2) * (v3 * v3 * v3) * (2 * 2 * Y)); [rewrite H; fld|fld].
Qed.
Lemma t4x : X * (v4 * v4) - 0 * v3 = X * (v4 * v4). Proof. ring. Qed.
Lemma t4y v6 w : 2 * Y * v6 = v3 * (0 * (2 * Y * (2 * Y)) - 1 * (v4 * v4)) -> 2 * 2 * Y * w = v6 * (v3 * v3) - (2 * Y) * (0 * 0) -> w = (- Y) * (v4 * (v4 * v4)).
Proof.
  intros e6 e. apply (@cancel (2 * 2 * Y * (2 * Y))); [repeat apply mul_ne'; auto|].
  transitivity ((2 * 2 * Y * w) * (2 * Y)); [ring|]. rewrite e.
  transitivity ((2 * Y * v6) * (v3 * v3)); [ring|]. rewrite e6.
  transitivity (- (v3 * v3 * v3) * (v4 * v4)); [ring|]. rewrite H. ring.
Qed.
Lemma t5 o : 2 * 2 * Y * o * (2 * Y * (2 * Y * (2 * Y))) - 1 * (v3 * (v3 * v3)) = 2 * 2 * 2 * 2 * 2 * (Y * Y * (Y * Y) * o) - v3 * v3 * v3.
Proof. ring. Qed.
End TabId.

Section FiveVal.
Variable q : Z.
Hypothesis pq : Znumtheory.prime q.
Hypothesis q5 : (5 < q)%Z.
Let n := Z.to_nat q.
Notation F := 'F_n.
Notation rd := (@red q).
Variables a b : Z.
Hypothesis disc : ~ (q | 4 * (a * a * a) + 27 * (b * b))%Z.
Local Open Scope ring_scope.
Variables (K : closedFieldType) (i : {rmorphism F -> K}).
Lemma q3' : (3 < q)%Z. Proof. lia. Qed.
Let rD := red_add pq. Let rM := red_mul pq. Let r1 := red_1 pq.
Notation A := (i (rd a)). Notation B := (i (rd b)).
Notation on := (@onK q K i a b).
Notation c2 := (c2K i (t_c2 pq q3')).
Notation ns := (nsK (i := i) (t_dd pq disc)).
Notation V := (gpt c2 ns).
Notation pv := (@pv q a b K i). Notation fv := (@fv q a b K i). Notation ov := (@ov q a b K i).
Notation ft := (field_ft K).
Notation om := (@om2 K 1 +%R *%R (fun x y => x - y) A B).
Notation p3 := (psi3K A B).
Notation p5 := (psi5K A B).
Lemma pv5 X Y : on X Y -> pv 5 X Y = p5 X.
Proof.
move=> o; rewrite (psi5E o).
have e : pv 5 X Y = pv 4 X Y * (pv 2 X Y * (pv 2 X Y * pv 2 X Y)) - pv 1 X Y * (pv 3 X Y * (pv 3 X Y * pv 3 X Y)) := @pv_odd q pq q3' a b K i 2 X Y o ltac:(lia) ltac:(lia).
rewrite e (pv1 pq) (pv2 pq) (pv3 pq) (pv4 pq o); exact: (t5 ft).
Qed.
Definition tab (k : Z) X Y (P : V) := exists RX RY, [/\ ev (P *+ Z.to_nat k) = Some (RX, RY), pv k X Y != 0, fv k X Y = RX * (pv k X Y * pv k X Y) & ov k X Y = RY * (pv k X Y * (pv k X Y * pv k X Y))].
Lemma tabs k X Y P : ev P = Some (X, Y) -> on X Y -> p5 X = 0 -> (1 <= k <= 4)%Z -> tab k X Y P.
Proof.
move=> eP o h5 hk.
have yn := five_y ns o h5. have p3n := five_p3 c2 ns o h5. have on_ := five_om c2 ns o h5.
have H := p3_5 o h5.
have e2 : ev ((P : V) *+ 2) = Some (x2 A B X Y, y2 A B X Y) := ev_2 o h5 eP.
have P5 : pv 5 X Y = 0 by rewrite pv5.
have P1 := pv1 pq a b i X Y. have P2 := pv2 pq a b i X Y. have P3 := pv3 pq a b i X Y. have P4 := pv4 pq o. have P0 := @pv0 q a b K i X Y.
have n2 := P_Five.n2 c2. have yn' : Y != 0 by apply/eqP. have p3n' : p3 X != 0 by apply/eqP. have on' : om X != 0 by apply/eqP.
have [->|[->|[->|->]]] : k = 1%Z \/ k = 2%Z \/ k = 3%Z \/ k = 4%Z by lia.
- exists X, Y; rewrite mulr1n eP P1 !mulr1; split=> //; first exact: oner_neq0.
    by rewrite (fvE pq o) // P1 P2 P0 !mulr1 mulr0 subr0.
  by rewrite /P_PsiVal.ov /= kval_mono r1 rmorph1 expr0 expr1 !mul1r.
- exists (x2 A B X Y), (y2 A B X Y); rewrite (_ : Z.to_nat 2 = 2%N) // e2; split=> //.
  + by rewrite P2 mulf_neq0.
  + have -> : fv 2 X Y = X * (pv 2 X Y * pv 2 X Y) - pv 3 X Y * pv 1 X Y := @fvE q pq a b K i 2 X Y o ltac:(lia).
    rewrite P1 P2 P3; exact (t2x ft X (p3 X) c2 yn).
  + have e : (1 + 1) * (1 + 1) * Y * ov 2 X Y = pv 4 X Y * (pv 1 X Y * pv 1 X Y) - pv 0 X Y * (pv 3 X Y * pv 3 X Y) := @ovE q pq a b K i 2 X Y o ltac:(lia).
    rewrite P0 P1 P3 P4 in e; rewrite P2; exact (t2y ft c2 yn e).
- have e3 : (P : V) *+ 3 = - ((P : V) *+ 2) := five_3 o h5 eP.
  exists (x2 A B X Y), (- y2 A B X Y); rewrite (_ : Z.to_nat 3 = 3%N) // e3 evN e2 /=; split=> //.
  + by rewrite P3.
  + have -> : fv 3 X Y = X * (pv 3 X Y * pv 3 X Y) - pv 4 X Y * pv 2 X Y := @fvE q pq a b K i 3 X Y o ltac:(lia).
    rewrite P2 P3 P4; exact (t3x ft X c2 yn H).
  + have e : (1 + 1) * (1 + 1) * Y * ov 3 X Y = pv 5 X Y * (pv 2 X Y * pv 2 X Y) - pv 1 X Y * (pv 4 X Y * pv 4 X Y) := @ovE q pq a b K i 3 X Y o ltac:(lia).
    rewrite P5 P1 P2 P4 in e; rewrite P3; exact (t3y ft c2 yn H e).
- have e4 : (P : V) *+ 4 = - (P : V) := five_4 o h5 eP.
  exists X, (- Y); rewrite (_ : Z.to_nat 4 = 4%N) // e4 evN eP /=; split=> //.
  + by rewrite P4 !mulf_neq0.
  + have -> : fv 4 X Y = X * (pv 4 X Y * pv 4 X Y) - pv 5 X Y * pv 3 X Y := @fvE q pq a b K i 4 X Y o ltac:(lia).
    rewrite P5 P4 P3; exact (t4x ft X Y (p3 X) (om X)).
  + have e : (1 + 1) * (1 + 1) * Y * ov 4 X Y = pv 6 X Y * (pv 3 X Y * pv 3 X Y) - pv 2 X Y * (pv 5 X Y * pv 5 X Y) := @ovE q pq a b K i 4 X Y o ltac:(lia).
    have e6 : (1 + 1) * Y * pv 6 X Y = pv 3 X Y * (pv 5 X Y * (pv 2 X Y * pv 2 X Y) - pv 1 X Y * (pv 4 X Y * pv 4 X Y)) := @pv_even q pq q3' a b K i 3 X Y o ltac:(lia) ltac:(lia).
    rewrite P5 P3 P2 P1 P4 in e6; rewrite P5 P3 P2 in e; rewrite P4; exact (t4y ft c2 yn H e6 e).
Qed.
End FiveVal.
