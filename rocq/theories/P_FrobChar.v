(** The characteristic equation of Frobenius at the generic point. *)
From Coq Require Import ZArith Field_theory Ring Field.
From mathcomp Require Import all_ssreflect all_algebra all_field zify.
From Verif Require Import P_Group P_HasseId P_HasseGcd P_HasseStep P_HasseDeg P_HasseFrob P_EK P_Smap P_FrobW P_FrobComp P_FrobTau.
Set Implicit Arguments. Unset Strict Implicit. Unset Printing Implicit Defensive.
Import GRing.Theory.
Local Open Scope ring_scope.

Section ChId.
Variable K : Type.
Variables (k0 k1 : K) (kadd kmul ksub : K -> K -> K) (kopp : K -> K) (kdiv : K -> K -> K) (kinv : K -> K).
Variable Kf : field_theory k0 k1 kadd kmul ksub kopp kdiv kinv (@eq K).
Add Field Kfield_ch : Kf.
Notation "0" := k0. Notation "1" := k1.
Infix "+" := kadd. Infix "*" := kmul. Infix "-" := ksub. Infix "/" := kdiv. Notation "- x" := (kopp x).
Lemma tg_x (l L t : K) : L <> 0 -> l * (L * L) * t / (L * L) = l * t. Proof. intros. field. auto. Qed.
Lemma tg_y (l L : K) : L <> 0 -> l * (L * L) * (l * (L * L)) / (L * L * L) = l * l * L. Proof. intros. field. auto. Qed.
End ChId.

Lemma comp_id (V : zmodType) (f T : {additive V -> V}) (g : V) (t m : int) :
  f g = T g - g *~ (t - m) -> f (T g) = T (T g - g *~ (t - m)) -> f (T g - g *~ m) = T (T g - g *~ t) + g *~ (m * (t - m)).
Proof.
move=> e1 e2; rewrite (raddfB f) (raddfMz f) e2 e1 !(raddfB T) !(raddfMz T).
rewrite mulrBr !mulrzBr.
rewrite (mulrzBl (T g)) (mulrzBl (g *~ t)) -!mulrzA [m * t]mulrC !opprB.
move: (T (T g)) (T g *~ t) (T g *~ m) (g *~ (t * m)) (g *~ (m * m)) => A B C D E.
have -> : D - E - C = - C + (D - E) by rewrite addrC.
by rewrite addrA; congr (_ + _); rewrite addrA addrAC addrK.
Qed.

Section Char.
Variable F : finFieldType.
Notation q := #|F|.
Variable h : nat.
Hypothesis qh : q = (2 * h).+1.
Hypothesis h0 : (0 < h)%N.
Hypothesis qc : q \in [char F].
Variables a b : F.
Hypothesis c2 : 1 + 1 != 0 :> F.
Hypothesis disc : (1 + 1) * (1 + 1) * (a * a * a) + (1 + 1 + 1) * (1 + 1 + 1) * (1 + 1 + 1) * (b * b) != 0.
Variable K : fieldType.
Variable io : {rmorphism {poly F} -> K}.
Hypothesis io_inj : injective io.
Hypothesis io_frac : forall x : K, exists n d, d != 0 /\ x = io n / io d.
Notation kl := (kl a b io). Notation kt := (kt io).
Notation W := (W c2 disc io_inj).
Notation dg := (@dg F a b c2 disc K io io_inj).
Notation g := (g c2 disc io_inj : W).
Notation ft := (field_ft K).
Lemma cpK : q \in [char K].
Proof. by apply: (rmorph_char (ioc io)). Qed.
Lemma Fq (x : F) : x ^+ q = x. Proof. exact: expf_card. Qed.
Notation tau := (tau c2 disc io_inj cpK qh Fq : {additive W -> W}).
Lemma q_gt0 : (0 < q)%N. Proof. by rewrite qh. Qed.
Lemma qnat : [char F].-nat q.
Proof. have pq : prime q by case/andP: (qc). by rewrite /pnat q_gt0 /=; apply/allP => r; rewrite primes_prime // inE => /eqP ->. Qed.
Lemma ev_tau_g : ev (tau g) = P0 h a b io.
Proof.
rewrite ev_tau; have -> : ev g = Some (kl * kt, kl * kl) by [].
rewrite /spt !rmorphM !kfrE [kl ^+ q](pow_p qh) /P0 /x0 /y0.
have l0 := @L0 F a b K io io_inj h.
rewrite (tg_x ft _ _ l0) (tg_y ft _ l0); congr (Some (_ , _)).
  by rewrite /P_HasseDeg.kt -rmorphX.
by rewrite /P_HasseDeg.kl -rmorphX.
Qed.
Definition ncard : nat := (n0 a b + 2 * np h a b).+1.
Definition tr : int := q%:Z + 1 - ncard%:Z.
Lemma dg_tau1 (m : int) : exists2 d : nat, dg (tau g - g *~ m) d & d%:Z = m * m - tr * m + q%:Z.
Proof.
have d1 : dg (tau g) q by have := dg_tau cpK qh Fq (dg_g c2 disc io_inj); rewrite muln1.
have d2 : dg (tau g - g) ncard by rewrite /P_FrobW.dg evD ev_tau_g; exact: (P1deg qh h0 qnat c2 disc io_inj).
have [c hc] := quad io_frac d1; have [d hd ed] := hc (- m).
have [d' hd' ed'] := hc (-1); rewrite mulrN1z in hd'; have ee := dg_uniq hd' d2.
exists d; first by move: hd; rewrite mulrNz.
have -> : tr = c by move: ed'; rewrite ee /tr; clear; lia.
by rewrite ed mulrNN mulrN.
Qed.
Lemma pick_m : exists m : int, [/\ m != 0, tr - m != 0 & m * (tr - m) != q%:Z].
Proof.
have := q_gt0; rewrite /tr /ncard; move: (n0 a b + _)%N q; clear => n r r0.
have [e|e] := eqVneq (r%:Z + 1 - n.+1%:Z) 1; [exists 2|exists 1]; rewrite ?e; split; lia.
Qed.
Theorem char_eq : tau (tau g) - tau g *~ tr + g *~ q%:Z = 0.
Proof.
have [m [m0 k0 kq]] := pick_m.
have [d hd ed] := dg_tau1 m; have [d' hd' ed'] := dg_tau1 (tr - m).
have dd : d' = d by move: ed ed'; move: tr; clear; nia.
set w := tau g - g *~ (tr - m) in hd'.
have w0 : w != 0.
  apply/eqP => w0; have e0 := dg_uniq hd' (eq_ind_r (fun w => dg w 0) (dg0 c2 disc io_inj) w0).
  by move/eqP: kq; apply; move: ed'; rewrite e0; clear; nia.
rewrite dd in hd'.
have [f [fg df [s [mm [mm0 smm evf]]]]] := compose io_frac hd' w0.
have com := tau_comm cpK qh Fq mm0 smm evf.
have h1 := df _ _ hd.
have e1 : f (tau g - g *~ m) = tau (tau g - g *~ tr) + g *~ (m * (tr - m)).
  apply: comp_id; [exact: fg|by rewrite com fg].
rewrite e1 in h1.
have [dt hdt edt] := dg_tau1 tr.
have h2 := dg_tau cpK qh Fq hdt.
have [c hc] := quad io_frac h2.
have [d3 hd3 ed3] := hc (m * (tr - m)).
have e3 := dg_uniq hd3 h1.
have cE : c = - 2 * q%:Z.
  have kn : m * (tr - m) != 0 by rewrite mulf_neq0.
  apply: (mulIf kn); move: ed3 edt ed; rewrite e3 !PoszM; move: tr (#|F|%:Z) (dt%:Z) (d%:Z); clear => t q x y e1 e2 e3.
  have {}e2 : x = q by rewrite e2; lia.
  have {}e3 : y = q - m * (t - m) by rewrite e3; lia.
  apply: (addIr (m * (t - m) * (m * (t - m)) + q * q)).
  rewrite addrCA addrA; move: e1; rewrite e2 e3; lia.
have [d4 hd4 ed4] := hc q%:Z.
have e4 : d4 = 0%N by move: ed4 edt; rewrite cE; clear; nia.
rewrite e4 in hd4; have := dg_zero hd4; by rewrite (raddfB tau) (raddfMz tau).
Qed.
End Char.
