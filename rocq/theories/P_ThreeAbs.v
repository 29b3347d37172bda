(** The comparison of y-coordinates at the points of order 3: identities, the abelian group, and the curve over a field with a Frobenius endomorphism. *)
From Coq Require Import ZArith Field Ring.
From mathcomp Require Import all_ssreflect all_algebra.
From Verif Require Import P_Group P_HasseGcd P_Tors3 P_EK P_Lin3.
Set Implicit Arguments. Unset Strict Implicit. Unset Printing Implicit Defensive.
Import GRing.Theory.

Section Ids.
Variable K : Type.
Variables (k0 k1 : K) (kadd kmul ksub : K -> K -> K) (kopp : K -> K) (kdiv : K -> K -> K) (kinv : K -> K).
Variable Kf : field_theory k0 k1 kadd kmul ksub kopp kdiv kinv (@eq K).
Variable Kdec : forall x y : K, {x = y} + {x <> y}.
Add Field KField3 : Kf.
Notation "0" := k0. Notation "1" := k1.
Infix "+" := kadd. Infix "*" := kmul. Infix "-" := ksub. Notation "- x" := (kopp x).
Let integ := k_integral K _ _ _ _ _ _ _ _ Kf Kdec.
Let sub0 := k_sub_0 K _ _ _ _ _ _ _ _ Kf.
Lemma k_canc u v w : u <> 0 -> u * v = u * w -> v = w.
Proof using Kf Kdec integ sub0.
  intros N H. apply sub0. assert (Q : u * (v - w) = 0) by (transitivity (u * v - u * w); [ring|rewrite H; ring]).
  destruct (integ Q); [contradiction|assumption].
Qed.
Lemma k_nsub u v : u <> v -> u - v <> 0.
Proof using sub0. intros N H. apply N, sub0, H. Qed.
(** Four distinct roots of psi_3 add up to 0. *)
Lemma vieta a b x y z w : 1 + 1 + 1 <> 0 -> x <> y -> x <> z -> x <> w -> y <> z -> y <> w -> z <> w ->
  psi3 K k1 kadd kmul ksub a b x = 0 -> psi3 K k1 kadd kmul ksub a b y = 0 -> psi3 K k1 kadd kmul ksub a b z = 0 -> psi3 K k1 kadd kmul ksub a b w = 0 -> x + y + z + w = 0.
Proof using Kf Kdec integ sub0.
  intros T Nxy Nxz Nxw Nyz Nyw Nzw Hx Hy Hz Hw. unfold psi3 in *.
  pose (g := fun u v => (1 + 1 + 1) * (u * u * u + u * u * v + u * v * v + v * v * v) + (1 + 1) * (1 + 1 + 1) * a * (u + v) + (1 + 1) * (1 + 1) * (1 + 1 + 1) * b).
  assert (G : forall u, x <> u -> (1 + 1 + 1) * u * u * u * u + (1 + 1) * (1 + 1 + 1) * a * u * u + (1 + 1) * (1 + 1) * (1 + 1 + 1) * b * u - a * a = 0 -> g x u = 0).
  { intros u N H. apply (k_canc (u := x - u)); [apply k_nsub, N|]. transitivity (((1 + 1 + 1) * x * x * x * x + (1 + 1) * (1 + 1 + 1) * a * x * x + (1 + 1) * (1 + 1) * (1 + 1 + 1) * b * x - a * a) - ((1 + 1 + 1) * u * u * u * u + (1 + 1) * (1 + 1 + 1) * a * u * u + (1 + 1) * (1 + 1) * (1 + 1 + 1) * b * u - a * a)); [unfold g; ring|rewrite H Hx; ring]. }
  pose (h := fun u v => (1 + 1 + 1) * (x * x + u * u + v * v + x * u + x * v + u * v) + (1 + 1) * (1 + 1 + 1) * a).
  assert (HH : forall u, y <> u -> g x u = 0 -> h y u = 0).
  { intros u N H. apply (k_canc (u := y - u)); [apply k_nsub, N|]. transitivity (g x y - g x u); [unfold g, h; ring|rewrite H (G y Nxy Hy); ring]. }
  pose proof (HH z Nyz (G z Nxz Hz)) as E1. pose proof (HH w Nyw (G w Nxw Hw)) as E2.
  apply (k_canc (u := (1 + 1 + 1) * (z - w))).
  - intros Z. destruct (integ Z) as [Z'|Z']; [exact (T Z')|exact (k_nsub Nzw Z')].
  - transitivity (h y z - h y w); [unfold h; ring|rewrite E1 E2; ring].
Qed.
Lemma cyc u0 u1 u2 u3 : u2 * u2 = u0 * u3 -> u3 * u3 = u1 * u0 -> u0 * u0 = u2 * u1 -> u0 + u1 + u2 + u3 = 0 -> u0 * (u3 * (u2 - u3)) = 0.
Proof using Kf.
  intros H2 H3 H0 Z.
  assert (E : u0 * u0 + u3 * u3 + u0 * u2 + u2 * u2 = 0) by (rewrite H2 H3; transitivity (u0 * (u0 + u1 + u2 + u3)); [ring|rewrite Z; ring]).
  assert (E1 : u2 * (u3 * u3) = u0 * (u0 * u0)) by (rewrite H3 H0; ring).
  assert (E2 : u2 * (u2 * u2) = u0 * u2 * u3) by (rewrite H2; ring).
  transitivity ((u2 - u0) * (u0 * u0 + u3 * u3 + u0 * u2 + u2 * u2) - (u2 * (u3 * u3) - u0 * (u0 * u0)) - (u2 * (u2 * u2) - u0 * u2 * u3)); [ring|].
  rewrite E E1 E2. ring.
Qed.
(** The test on y-coordinates at a point (x, y) with Q1 = (x, v), Q2 = (x2, y2) and the Frobenius image (x1, y1). *)
Definition ytest (x v x1 y1 x2 y2 : K) : Prop :=
  (v - y2) * ((x2 + x2 - x) * ((x - x2) * (x - x2)) - (v - y2) * (v - y2)) - y2 * ((x - x2) * (x - x2) * (x - x2)) = y1 * ((x - x2) * (x - x2) * (x - x2)).
Lemma ytest_same x v x1 y1 y2 : ytest x v x1 y1 x y2 <-> v = y2.
Proof using Kf Kdec integ sub0.
  unfold ytest. split.
  - intros H. assert (Q : (v - y2) * ((v - y2) * (v - y2)) = 0) by (transitivity (- ((v - y2) * ((x + x - x) * ((x - x) * (x - x)) - (v - y2) * (v - y2)) - y2 * ((x - x) * (x - x) * (x - x)))); [ring|rewrite H; ring]).
    apply sub0. destruct (integ Q) as [Z|Z]; [exact Z|]. destruct (integ Z) as [Z'|Z']; exact Z'.
  - intros ->. ring.
Qed.
Lemma ytest_ne x v x1 y1 x2 y2 l : x <> x2 -> v - y2 = l * (x - x2) -> x1 = l * l - x - x2 -> 
  (ytest x v x1 y1 x2 y2 <-> l * (x2 - x - x - x1) - y2 = y1).
Proof using Kf Kdec integ sub0.
  intros N D X. unfold ytest. rewrite D.
  assert (F0 : (x - x2) * (x - x2) * (x - x2) <> 0). { intros Z. pose proof (k_nsub N) as F0. destruct (integ Z) as [Z1|Z1]; [destruct (integ Z1) as [Z2|Z2]; exact (F0 Z2)|exact (F0 Z1)]. }
  assert (I : l * (x - x2) * ((x2 + x2 - x) * ((x - x2) * (x - x2)) - l * (x - x2) * (l * (x - x2))) - y2 * ((x - x2) * (x - x2) * (x - x2)) = (x - x2) * (x - x2) * (x - x2) * (l * (x2 - x - x - x1) - y2)) by (rewrite X; ring).
  rewrite I. split; intros H.
  - apply (k_canc F0). rewrite H. ring.
  - rewrite H. ring.
Qed.
Variable char2 : 1 + 1 <> 0.
Lemma half u : (1 + 1) * u = 0 -> u = 0.
Proof using Kf Kdec integ char2. intros H. destruct (integ H); [contradiction|assumption]. Qed.
Lemma ytest_plus x v x1 y1 x2 y2 l : x <> x2 -> v - y2 = l * (x - x2) -> x1 = l * l - x - x2 -> y1 = l * (x - x1) - v -> (ytest x v x1 y1 x2 y2 <-> l * x = 0).
Proof using Kf Kdec integ sub0 char2.
  intros N D X Y. rewrite (ytest_ne y1 N D X). assert (V : v = l * (x - x2) + y2) by (rewrite -D; ring). rewrite Y V. split.
  - intros H. apply half. transitivity (l * (x - x1) - (l * (x - x2) + y2) - (l * (x2 - x - x - x1) - y2)); [ring|rewrite H; ring].
  - intros H. transitivity (l * (x - x1) - (l * (x - x2) + y2) - (1 + 1) * (l * x)); [ring|rewrite H; ring].
Qed.
Lemma ytest_minus x v x1 y1 x2 y2 l : x <> x2 -> v - y2 = l * (x - x2) -> x1 = l * l - x - x2 -> - y1 = l * (x - x1) - v -> ytest x v x1 y1 x2 y2 -> v = - (l * x1) /\ y1 = - (l * x) /\ l * l = x + x1 + x2.
Proof using Kf Kdec integ sub0 char2.
  intros N D X Y. rewrite (ytest_ne y1 N D X). assert (V : y2 = v - l * (x - x2)) by (rewrite -D; ring). assert (Y' : y1 = v - l * (x - x1)) by (transitivity (- - y1); [ring|rewrite Y; ring]). rewrite V Y'. intros H.
  assert (E : v = - (l * x1)).
  { apply (k_canc char2). transitivity ((v - l * (x - x1)) - (l * (x2 - x - x - x1) - (v - l * (x - x2))) - (1 + 1) * (l * x1)); [ring|rewrite H; ring]. }
  split; [exact E|]. split; [rewrite E; ring|rewrite X; ring].
Qed.
Lemma sq_eq u v : u * u = v * v -> u = v \/ u = - v.
Proof using Kf Kdec integ sub0.
  intros H. assert (Q : (u - v) * (u + v) = 0) by (transitivity (u * u - v * v); [ring|rewrite H; ring]). destruct (integ Q) as [Z|Z]; [left; apply sub0, Z|right].
  transitivity (u + v - v); [ring|rewrite Z; ring].
Qed.
Lemma psi3_zero a b : psi3 K k1 kadd kmul ksub a b 0 = - (a * a).
Proof using Kf. unfold psi3. ring. Qed.
End Ids.

Local Open Scope ring_scope.
Section Grp.
Variables (V : zmodType) (phi : {additive V -> V}).
Hypothesis phi_inj : injective phi.
Notation T := (@T V).
Variable P : V.
Hypothesis tP : T P.
Hypothesis P0 : P <> 0.
Let tQ : T (phi P) := Tphi phi tP.
Lemma g_phi0 : phi P <> 0.
Proof. by rewrite -(raddf0 phi) => /phi_inj. Qed.
Lemma g_opp : P <> - P.
Proof. by move=> /(nopp tP). Qed.
Definition ne4 (A B C D : V) : Prop := [/\ A <> B, A <> - B, A <> C, A <> - C & [/\ A <> D, A <> - D, B <> C, B <> - C & [/\ B <> D, B <> - D, C <> D & C <> - D]]].
Lemma addE (u v w : V) : u + v = w -> v = w - u. Proof. by move=> <-; rewrite addrAC subrr add0r. Qed.
Let PP := TPP tP.
(** q = 2 (mod 3): no eigenvector. *)
Lemma g_minus_plus : - P + phi (phi P) = phi P -> ne4 P (phi P) (phi (phi P)) (phi (phi (phi P))).
Proof.
move=> e; have Q0 := g_phi0; have eR : phi (phi P) = phi P + P by have := addE e; rewrite opprK.
have eS : phi (phi (phi P)) = P - phi P by rewrite eR raddfD eR addrAC (TPP tQ) addrC.
have n1 : P <> phi P by move=> h; have e' : P = P + P by [move: eR; rewrite -!h]; apply: P0; apply: (addIr P); rewrite add0r; exact: esym.
have n2 : P <> - phi P.
  move=> h; have h' : phi P = - P by rewrite {2}h opprK.
  move: eR; rewrite h' raddfN h' opprK addNr; exact: P0.
have n3 : P <> phi (phi P) by rewrite eR => h; apply: Q0; apply: (addIr P); rewrite add0r -h.
have n4 : P <> - phi (phi P).
  move=> h; apply: n1; have : P + phi (phi P) = 0 by rewrite {1}h addNr.
  by rewrite eR addrCA PP => /eqP; rewrite subr_eq0 => /eqP.
have n5 : P <> phi (phi (phi P)) by rewrite eS => h; apply: Q0; apply/eqP; rewrite -oppr_eq0; apply/eqP; apply: (addrI P); rewrite addr0 -h.
have n6 : P <> - phi (phi (phi P)).
  rewrite eS opprB => h; apply: n2; have : P + P = phi P by rewrite {1}h subrK.
  by rewrite PP => <-; rewrite opprK.
split=> //; split=> //; try (by move=> /phi_inj); try (by rewrite -raddfN => /phi_inj).
split; first [by move=> /phi_inj | by rewrite -raddfN => /phi_inj | by move=> /phi_inj /phi_inj | by rewrite -raddfN => /phi_inj; rewrite -raddfN => /phi_inj].
Qed.
Lemma g_minus_minus : - P + phi (phi P) = - phi P -> ne4 P (phi P) (phi (phi P)) (phi (phi (phi P))) /\ phi (phi (phi (phi P))) = - P.
Proof.
move=> e; have Q0 := g_phi0; have eR : phi (phi P) = P - phi P by have := addE e; rewrite opprK addrC.
have eS : phi (phi (phi P)) = - phi P - P.
  by rewrite eR raddfB eR opprB addrA (TPP tQ).
have e4 : phi (phi (phi (phi P))) = - P by rewrite eS raddfB raddfN eR opprB addrAC subrr add0r.
split=> //; try first [by move=> /phi_inj /phi_inj | by rewrite -raddfN => /phi_inj; rewrite -raddfN => /phi_inj].
have n1 : P <> phi P by move=> h; move: eR; rewrite -!h subrr.
have n2 : P <> - phi P.
  move=> h; have h' : phi P = - P by rewrite {2}h opprK.
  by move: eR; rewrite h' raddfN h' !opprK PP; exact: g_opp.
have n3 : P <> phi (phi P) by rewrite eR => h; apply: Q0; apply/eqP; rewrite -oppr_eq0; apply/eqP; apply: (addrI P); rewrite addr0 -h.
have n4 : P <> - phi (phi P).
  rewrite eR opprB => h; apply: n2; have : P + P = phi P by rewrite {1}h subrK.
  by rewrite PP => <-; rewrite opprK.
have n5 : P <> phi (phi (phi P)).
  rewrite eS => h; apply: n1; have : P + P = - phi P by rewrite {1}h subrK.
  by rewrite PP => /oppr_inj.
have n6 : P <> - phi (phi (phi P)) by rewrite eS opprB opprK => h; apply: Q0; apply: (addrI P); rewrite addr0 -h.
split=> //; split=> //; try (by move=> /phi_inj); try (by rewrite -raddfN => /phi_inj).
split; first [by move=> /phi_inj | by rewrite -raddfN => /phi_inj | by move=> /phi_inj /phi_inj | by rewrite -raddfN => /phi_inj; rewrite -raddfN => /phi_inj].
Qed.
(** q = 1 (mod 3). *)
Lemma g_plus_plus : P + phi (phi P) = phi P -> phi P <> - P ->
  phi P <> P /\ exists R, [/\ T R, phi R = - R, R <> 0 & ne4 P (phi P) (phi (phi P)) R].
Proof.
move=> e ne; have Q0 := g_phi0; have eR : phi (phi P) = phi P - P := addE e.
have n1 : P <> phi P by move=> h; move: eR; rewrite -!h subrr.
have n2 : P <> - phi P by move=> h; apply: ne; rewrite {2}h opprK.
have n3 : P <> phi (phi P).
  rewrite eR => h; apply: n2; have : P + P = phi P by rewrite {1}h subrK.
  by rewrite PP => <-; rewrite opprK.
have n4 : P <> - phi (phi P) by rewrite eR opprB => h; apply: Q0; apply/eqP; rewrite -oppr_eq0; apply/eqP; apply: (addrI P); rewrite addr0 -h.
split; first by move=> h; apply: n1.
exists (phi P + P).
have eR' : phi (phi P + P) = - (phi P + P) by rewrite raddfD eR addrAC (TPP tQ) opprD.
have R0 : phi P + P <> 0 by move/eqP; rewrite addr_eq0 => /eqP.
have m1 : P <> phi P + P by move=> h; apply: Q0; apply: (addIr P); rewrite add0r -h.
have m2 : P <> - (phi P + P).
  move=> h; apply: n1; have : P + (phi P + P) = 0 by rewrite {1}h addNr.
  by rewrite addrCA PP => /eqP; rewrite subr_eq0 => /eqP.
have k1 u v : u <> - v -> phi u <> v -> phi (- u) <> - v by move=> ? h; rewrite raddfN => /oppr_inj.
have p1 : phi P <> phi P + P.
  move=> h; apply: m2; apply: phi_inj; rewrite raddfN eR' opprK; exact: h.
have p2 : phi P <> - (phi P + P) by move=> h; apply: m1; apply: phi_inj; rewrite eR'; exact: h.
split=> //; first by apply: TD.
split=> //; split=> //; try (by move=> /phi_inj); try (by rewrite -raddfN => /phi_inj).
split=> //; try first [by move=> /phi_inj /phi_inj | by rewrite -raddfN => /phi_inj; rewrite -raddfN => /phi_inj].
- by move=> h; apply: p2; apply: phi_inj; rewrite raddfN eR' opprK.
- by move=> h; apply: p1; apply: phi_inj; rewrite eR'.
Qed.
Lemma g_plus_minus : P + phi (phi P) = - phi P -> phi P <> P ->
  [/\ phi P <> - P, phi (phi (phi P)) = P & exists R, [/\ T R, phi R = R, R <> 0 & ne4 P (phi P) (phi (phi P)) R]].
Proof.
move=> e ne; have Q0 := g_phi0; have eR : phi (phi P) = - phi P - P := addE e.
have eS : phi (phi (phi P)) = P by rewrite eR raddfB raddfN eR opprB opprK addrK.
have n1 : P <> phi P by move=> h; apply: ne.
have n2 : P <> - phi P.
  move=> h; have h' : phi P = - P by rewrite {2}h opprK.
  by move: eR; rewrite h' raddfN h' opprK subrr.
have n3 : P <> phi (phi P).
  rewrite eR => h; apply: n1; have : P + P = - phi P by rewrite {1}h subrK.
  by rewrite PP => /oppr_inj.
have n4 : P <> - phi (phi P) by rewrite eR opprB opprK => h; apply: Q0; apply: (addrI P); rewrite addr0 -h.
split=> //; first by move=> h; apply: n2; rewrite h opprK.
exists (phi P - P).
have eR' : phi (phi P - P) = phi P - P by rewrite raddfB eR addrAC -opprD (TPP tQ) opprK.
have R0 : phi P - P <> 0 by move/eqP; rewrite subr_eq0 => /eqP.
have m1 : P <> phi P - P.
  move=> h; apply: n2; have : P + P = phi P by rewrite {1}h subrK.
  by rewrite PP => <-; rewrite opprK.
have m2 : P <> - (phi P - P) by rewrite opprB => h; apply: Q0; apply/eqP; rewrite -oppr_eq0; apply/eqP; apply: (addrI P); rewrite addr0 -h.
have p1 : phi P <> phi P - P by move=> h; apply: m1; apply: phi_inj; rewrite eR'.
have p2 : phi P <> - (phi P - P) by move=> h; apply: m2; apply: phi_inj; rewrite raddfN eR'.
split=> //; first by apply: TB.
split=> //; split=> //; try (by move=> /phi_inj); try (by rewrite -raddfN => /phi_inj).
split=> //; try first [by move=> /phi_inj /phi_inj | by rewrite -raddfN => /phi_inj; rewrite -raddfN => /phi_inj].
- by move=> h; apply: p1; apply: phi_inj; rewrite eR'.
- by move=> h; apply: p2; apply: phi_inj; rewrite raddfN eR'.
Qed.
End Grp.
