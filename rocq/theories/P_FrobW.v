(** The group of points of the twisted curve over the rational function field, with its degree function. *)
From Coq Require Import ZArith Field_theory Ring Field.
From mathcomp Require Import all_ssreflect all_algebra zify.
From Verif Require Import P_Group P_HasseId P_HasseGcd P_HasseStep P_HasseDeg P_EK P_Smap.
Set Implicit Arguments. Unset Strict Implicit. Unset Printing Implicit Defensive.
Import GRing.Theory.
Local Open Scope ring_scope.

Section Poly0.
Variable F : fieldType.
Variables a b : F.
Hypothesis c2 : 1 + 1 != 0 :> F.
Hypothesis disc : (1 + 1) * (1 + 1) * (a * a * a) + (1 + 1 + 1) * (1 + 1 + 1) * (1 + 1 + 1) * (b * b) != 0.
Notation NN := (NN a b). Notation SS := (SS a b).
Lemma poly_step0 (X Z U V C D : {poly F}) : coprimep X Z -> (size Z < size X)%N -> MM X Z != 0 ->
  coprimep U V -> V != 0 -> coprimep C D -> D != 0 ->
  (U * D + V * C) * (MM X Z * MM X Z) = SS X Z * (V * D) -> U * C * (MM X Z * MM X Z) = NN X Z * (V * D) -> (size D < size C)%N.
Proof.
move=> cXZ sXZ M0 cUV V0 cCD D0 eS eN.
have e : V * D %= MM X Z * MM X Z.
  apply: (@prim3_eqp _ _ (U * C) (U * D + V * C) _ (NN X Z) (SS X Z)); [exact: prim3_frac|exact: prim_MNS|by rewrite mulrC -eN mulrC|by rewrite mulrC -eS mulrC].
have VD0 : V * D != 0 by rewrite mulf_neq0.
have eqs (p q : {poly F}) : p * (MM X Z * MM X Z) = q * (V * D) -> size p = size q.
  move=> h; apply: eqp_size; rewrite -(@eqp_mul2r _ (V * D)) // -h; exact: eqp_mull.
have sN := eqs _ _ eN.
have sS := eqs _ _ eS.
have UC0 : U * C != 0 by rewrite -size_poly_gt0 sN size_NN.
have [U0 C0] : U != 0 /\ C != 0 by apply/andP; rewrite -negb_or -mulf_eq0.
have sU : (0 < size U)%N by rewrite size_poly_gt0.
have sV : (0 < size V)%N by rewrite size_poly_gt0.
have sC : (0 < size C)%N by rewrite size_poly_gt0.
have sD : (0 < size D)%N by rewrite size_poly_gt0.
have sUC : (size U + size C = (size X + size X).+2)%N.
  move: sN; rewrite (size_mulF U0 C0) size_NN //; clear - sU sC; case: (size U) sU => // n _; by rewrite !addSn /= => ->.
have sM : (size (MM X Z) <= size X)%N.
  rewrite /MM; apply: leq_trans (size_add _ _) _; rewrite size_opp geq_max leqnn /=.
  by apply: leq_trans (size_XM_leq _) _.
have sVD : (size V + size D <= size X + size X)%N.
  move: (eqp_size e) sM sV sD; rewrite (size_mulF V0 D0) (size_mulF M0 M0); clear; lia.
rewrite ltnNge; apply/negP => sCD.
have h1 : (size (V * C)%R < size (U * D)%R)%N by rewrite (size_mulF U0 D0) (size_mulF V0 C0); move: sUC sVD sCD sU sV sC sD; clear; lia.
move: (size_SS a b sXZ); rewrite -sS (size_addl h1) (size_mulF U0 D0); move: sUC sVD sCD sU sV sC sD; clear; lia.
Qed.
End Poly0.

Section W.
Variable F : fieldType.
Variables a b : F.
Hypothesis c2 : 1 + 1 != 0 :> F.
Hypothesis disc : (1 + 1) * (1 + 1) * (a * a * a) + (1 + 1 + 1) * (1 + 1 + 1) * (1 + 1 + 1) * (b * b) != 0.
Variable K : fieldType.
Variable io : {rmorphism {poly F} -> K}.
Hypothesis io_inj : injective io.
Hypothesis io_frac : forall x : K, exists n d, d != 0 /\ x = io n / io d.
Notation kl := (kl a b io). Notation kt := (kt io). Notation ka := (ka a io). Notation kb := (kb b io).
Notation kA := (kA a b io). Notation kB := (kB a b io). Notation Q := (Q a b io).
Notation gad := (gad a b io). Notation dgr := (dgr a b io). Notation onc := (onc a b io).
Lemma dstep P d : onc P -> dgr P d -> exists d', dgr (gad P (ng Q)) d'.
Proof.
have kl0b := kl0b a b io_inj.
have kl0 : kl <> 0 := kl0 io_inj.
have Qon := Qon a b io.
case: P => [[x y]|]; last by move=> _ _; exists 1%N; apply: dgr_ng; exact: (dgr_Q _ _ io_inj).
rewrite (scale_x a b io_inj x); move: (x / kl) => {x} x ce.
have [xt|xt] := eqVneq x kt.
  subst x; have [e|e] := same_xQ K _ _ _ _ _ _ _ _ (Kf K) (@Kdec K) ka kb kl kt (klE a b io) y ce.
    subst y; move=> _; exists 0%N; change (Some (kl * kt, kl * kl)) with Q; by rewrite (gad_opp c2 io_inj Qon).
  subst y; move=> _; exists 4%N. have -> : Some (kl * kt, - (kl * kl)) = ng Q by [].
  rewrite -(ng_gad c2 io_inj Qon Qon); apply: dgr_ng; exact: (dgr_2Q c2 disc io_inj).
move/eqP: xt => xt.
have [y1 e1] := chord_sub K _ _ _ _ _ _ _ _ (Kf K) (@Kdec K) ka kb kl kt kl0 x y xt ce.
have [y2 e2] := chord_add K _ _ _ _ _ _ _ _ (Kf K) (@Kdec K) ka kb kl kt kl0 x y xt ce.
rewrite /P_HasseDeg.gad /ng /P_HasseDeg.Q e2 /=; rewrite !(mulrC kl) !mulfK //.
set v := ksub _ _.
move=> [X [Z [rx sx dx]]].
have [C [D rv]] := rep_ex io_inj io_frac v.
have [U [V ru]] := rep_ex io_inj io_frac ((y - kl * kl) * (y - kl * kl) / (kl * kl * kl * ((x - kt) * (x - kt))) - x - kt).
have [M0 eS eN] := rep_step io_inj xt ce (erefl _) (erefl v) rx ru rv.
have [Z0 cXZ _] := rx; have [D0 cCD _] := rv; have [V0 cUV _] := ru.
have sD := poly_step0 c2 disc cXZ sx M0 cUV V0 cCD D0 eS eN.
exists (size C).-1, C, D; split=> //; rewrite prednK //; exact: leq_ltn_trans sD.
Qed.

Lemma k2w : 1 + 1 <> 0 :> K. Proof. exact: (k2 c2 io_inj). Qed.
Lemma nsw (x y : K) : y * y = x * x * x + kA * x + kB -> y = 0 -> (1 + 1 + 1) * (x * x) + kA = 0 -> False.
Proof. exact: (k_nonsing disc io_inj). Qed.
Definition W := gpt k2w nsw.
Definition Wz := [zmodType of W].
Lemma g_onb : onb kA kB Q. Proof. apply/onP; exact: (Qon a b io). Qed.
Definition g : W := EP g_onb.
Definition dg (w : W) (d : nat) : Prop := dgr (ev w) d.
Lemma onW (w : W) : onc (ev w). Proof. exact: ev_on. Qed.
Lemma dg_uniq w d d' : dg w d -> dg w d' -> d = d'. Proof. exact: dgr_uniq. Qed.
Lemma dgN w d : dg w d -> dg (- w : W) d. Proof. exact: dgr_ng. Qed.
Lemma dg0 : dg (0 : W) 0. Proof. by []. Qed.
Lemma dg_zero w : dg w 0 -> w = 0.
Proof.
move=> h; apply: ev_inj; move: h; rewrite /dg; case: (ev w) => [[x y]|] //= [X [Z [[Z0 _ _] s e]]].
by move: s Z0; rewrite e ltnS leqn0 size_poly_eq0 => /eqP ->; rewrite eqxx.
Qed.
Lemma dg_g : dg g 1. Proof. exact: (dgr_Q _ _ io_inj). Qed.
Lemma dg_sub w d : dg w d -> exists d', dg (w - g) d'. Proof. exact: (dstep (onW w)). Qed.
Lemma dg_step w d d' : dg w d -> dg (w - g) d' -> exists2 d'', dg (w + g) d'' & (d' + d'' = 2 * d + 2)%N.
Proof. exact: (step c2 disc io_inj io_frac (onW w)). Qed.
Lemma up_seq w d0 dm : dg w d0 -> dg (w - g) dm -> forall n : nat, exists d d' : nat, [/\ dg (w + g *+ n) d, dg (w + g *+ n.+1) d',
  d%:Z = n%:Z * n%:Z + (d0%:Z + 1 - dm%:Z) * n%:Z + d0%:Z & d'%:Z = (n%:Z + 1) * (n%:Z + 1) + (d0%:Z + 1 - dm%:Z) * (n%:Z + 1) + d0%:Z].
Proof.
move=> h0 hm; elim=> [|n [d [d' [h h' e e']]]].
  have [d'' h e] := dg_step h0 hm; exists d0, d''; rewrite mulr0n addr0; split=> //; lia.
have h2 : dg (w + g *+ n.+1 - g) d by rewrite mulrSr addrA addrK.
have [d'' h3 e3] := dg_step h' h2; exists d', d''; split=> //; rewrite ?[g *+ n.+2]mulrSr ?addrA //; lia.
Qed.
Lemma quad w d0 : dg w d0 -> exists c : int, forall n : int, exists2 d : nat, dg (w + g *~ n) d & d%:Z = n * n + c * n + d0%:Z.
Proof.
move=> h0; have [dm hm] := dg_sub h0; have [dp hp e] := dg_step h0 hm.
exists (d0%:Z + 1 - dm%:Z) => -[n|n].
  by have [d [_ [h _ e1 _]]] := up_seq h0 hm n; exists d.
have h2 : dg (- w - g) dp by rewrite -opprD; exact: dgN.
have [d [_ [h _ e1 _]]] := up_seq (dgN h0) h2 n.+1; exists d.
  by rewrite NegzE mulrNz -pmulrn; have := dgN h; rewrite opprD opprK.
rewrite NegzE; nia.
Qed.
Lemma quad_mono w d0 : dg w d0 -> forall n : int, exists d : nat, dg (w + g *~ n) d.
Proof. by move=> /quad [c h] n; have [d] := h n; exists d. Qed.
End W.
