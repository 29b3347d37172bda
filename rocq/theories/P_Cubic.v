(** Stickelberger's theorem for the cubic x^3 + a x + b: without a root modulo q its discriminant - (4 a^3 + 27 b^2) is a square. *)
From Coq Require Import ZArith Znumtheory List ZifyBool Ring.
From mathcomp Require Import all_ssreflect all_algebra closed_field.
From mathcomp Require Import zify.
From Verif Require Import Prelude P_HasseZ P_HasseFin P_HasseGcd P_Group P_Tors3 P_EK P_Clos P_Three P_TrClos.
Set Implicit Arguments. Unset Strict Implicit. Unset Printing Implicit Defensive.
Import GRing.Theory.

Section Ids.
Variables (R : Type) (rO rI : R) (radd rmul rsub : R -> R -> R) (ropp : R -> R).
Hypothesis Rt : ring_theory rO rI radd rmul rsub ropp (@eq R).
Add Ring RR : Rt.
Notation "x + y" := (radd x y). Notation "x * y" := (rmul x y). Notation "x - y" := (rsub x y). Notation "- x" := (ropp x).
Lemma cb_diff A B x y : (x * x * x + A * x + B) - (y * y * y + A * y + B) = (x - y) * (x * x + x * y + y * y + A).
Proof. ring. Qed.
Lemma cb_split x y z : let A := - (x * x + x * y + y * y) in let B := - (x * x * x + A * x) in z * z * z + A * z + B = (z - x) * (z - y) * (z + x + y).
Proof. intros A B; unfold B, A; ring. Qed.
Lemma cb_disc x y : let A := - (x * x + x * y + y * y) in let B := - (x * x * x + A * x) in let z := - (x + y) in
  (x - y) * (y - z) * (z - x) * ((x - y) * (y - z) * (z - x)) = - ((rI + rI) * (rI + rI) * (A * A * A) + (rI + rI + rI) * (rI + rI + rI) * (rI + rI + rI) * (B * B)).
Proof. intros A B z; unfold z, B, A; ring. Qed.
End Ids.

Section Cubic.
Variable q : Z.
Hypothesis pq : Znumtheory.prime q.
Let n := Z.to_nat q.
Notation F := 'F_n.
Notation rd := (@red q).
Variables a b : Z.
Local Open Scope ring_scope.
Let rD := red_add pq. Let rM := red_mul pq. Let r1 := red_1 pq.
Theorem cubic_square : (forall x, ~ (q | x * x * x + a * x + b)%Z) -> exists s, (q | s * s + (4 * (a * a * a) + 27 * (b * b)))%Z.
Proof.
move=> nr; have [K [i _]] : exists (K : closedFieldType) (i : {rmorphism F -> K}), True by have [K [i _]] := tr_closure [countFieldType of F]; exists K, i.
pose A := i (rd a); pose B := i (rd b); have Kr := ring_rt [comRingType of K].
pose f x := x * x * x + A * x + B.
have noF z : f (i z) <> 0.
  rewrite /f /A /B -!(rmorphM, rmorphD) => /eqP; rewrite fmorph_eq0 => /eqP e; apply: (nr (back z)).
  by apply/(red_eq0 pq); rewrite !rD !rM (red_back pq).
have [al hal] : exists x, f x = 0.
  have [|x] := @closed_rootP K ('X^3 + (A *: 'X + B%:P)) _.
    rewrite size_addl size_polyXn //; apply: leq_ltn_trans (size_add _ _) _; rewrite gtn_max; apply/andP; split.
      by apply: leq_ltn_trans (size_scale_leq _ _) _; rewrite size_polyX.
    by apply: leq_ltn_trans (size_polyC_leq1 _) _.
  by rewrite rootE !hornerE ?hornerXn => /eqP e; exists x.
pose fr := [rmorphism of Frobenius_aut (t_cp pq i)].
have frI z : fr (i z) = i z := frA i (t_cp pq i) (t_card pq) z.
have frF x : f (fr x) = fr (f x) by rewrite /f !(rmorphD, rmorphM) /= !frI.
have fx x : fr x = x -> exists z, x = i z by rewrite frE; exact: fixed (t_card pq) x.
have fri : injective fr by exact: fmorph_inj.
pose be := fr al; pose ga := fr be.
have hbe : f be = 0 by rewrite /be frF hal rmorph0.
have hga : f ga = 0 by rewrite /ga frF hbe rmorph0.
have nab : al - be != 0 by rewrite subr_eq0; apply/eqP => /esym /fx [z e]; apply: (noF z); rewrite -e.
have e1 : al * al + al * be + be * be + A = 0.
  have := cb_diff Kr A B al be; rewrite -/(f al) -/(f be) hal hbe subrr => /esym /eqP; rewrite mulf_eq0 (negbTE nab) => /eqP; exact.
have eA : A = - (al * al + al * be + be * be) by apply/eqP; rewrite -addr_eq0 addrC e1.
have eB : B = - (al * al * al + A * al) by apply/eqP; rewrite -addr_eq0 addrC; apply/eqP.
have nbg : be - ga != 0 by rewrite subr_eq0 /ga /be; apply: contraNneq nab => /fri e; rewrite -/be /be -e subrr.
have sp z : f z = (z - al) * (z - be) * (z + al + be) by rewrite /f eB eA; exact: (cb_split Kr).
have nag : ga - al != 0.
  rewrite subr_eq0; apply/eqP => e; have : f (- al - be) = 0 by rewrite sp -opprD -addrA addNr mulr0.
  have : fr (- al - be) = - al - be by rewrite rmorphB rmorphN -/be -/ga e addrC.
  by move=> /fx [z ->]; exact: noF.
have eg : ga = - (al + be).
  move: (sp ga); rewrite hga => /esym /eqP; rewrite !mulf_eq0 (negbTE nag) -opprB oppr_eq0 (negbTE nbg) /= -addrA addr_eq0 => /eqP; exact.
have ega : fr ga = al by rewrite eg rmorphN rmorphD -/be -/ga eg opprD opprK addrC addrK.
pose d := (al - be) * (be - ga) * (ga - al).
have frd : fr d = d by rewrite /d !(rmorphM, rmorphB) ega -/be -/ga mulrC mulrA.
have [s es] := fx d frd.
exists (back s); apply/(red_eq0 pq).
apply: (fmorph_inj i); rewrite rmorph0.
have := cb_disc Kr al be; rewrite -/d /= -eA -eB -eg -/d es => h.
rewrite (_ : (back s * back s + (4 * (a * a * a) + 27 * (b * b))) = (back s * back s + ((1 + 1) * (1 + 1) * (a * a * a) + (1 + 1 + 1) * (1 + 1 + 1) * (1 + 1 + 1) * (b * b))))%Z; last by lia.
by rewrite !(rD, rM) !r1 (red_back pq) !(rmorphD, rmorphM) !rmorph1 h addNr.
Qed.
End Cubic.
