(** Field identities for the points of order 3 on y^2 = x^3 + a x + b (abstract field, as in P_Group). *)
From Coq Require Import Field Ring.
From Verif Require Import P_Group.

Section T3.
Variable K : Type.
Variables (k0 k1 : K) (kadd kmul ksub : K -> K -> K) (kopp : K -> K) (kdiv : K -> K -> K) (kinv : K -> K).
Variable Kf : field_theory k0 k1 kadd kmul ksub kopp kdiv kinv (@eq K).
Variable Kdec : forall x y : K, {x = y} + {x <> y}.
Add Field KField : Kf.
Notation "0" := k0. Notation "1" := k1.
Infix "+" := kadd. Infix "*" := kmul. Infix "-" := ksub. Notation "- x" := (kopp x). Infix "/" := kdiv.
Notation "2" := (1 + 1). Notation "3" := (1 + 1 + 1).
Variable char2 : 2 <> 0.
Variables a b : K.
Notation f x := (x * x * x + a * x + b).
Definition psi3 (x : K) : K := 3 * x * x * x * x + 2 * 3 * a * x * x + 2 * 2 * 3 * b * x - a * a.
Lemma psi3_f x : psi3 x = 2 * 2 * 3 * x * f x - (3 * (x * x) + a) * (3 * (x * x) + a).
Proof. unfold psi3. ring. Qed.
(** y <> 0 at a root of psi3, unless the curve is singular there. *)
Lemma psi3_sing x y : y * y = f x -> psi3 x = 0 -> y = 0 -> 3 * (x * x) + a = 0.
Proof using Kf Kdec.
  intros E P ->. rewrite psi3_f, <- E in P. assert (Q : (3 * (x * x) + a) * (3 * (x * x) + a) = 0) by (transitivity (- (2 * 2 * 3 * x * (0 * 0) - (3 * (x * x) + a) * (3 * (x * x) + a))); [ring|rewrite P; ring]).
  destruct (k_integral K _ _ _ _ _ _ _ _ Kf Kdec _ _ Q); assumption.
Qed.
Lemma double_psi3 x y : y * y = f x -> y <> 0 -> let l := (3 * (x * x) + a) / (2 * y) in l * l - x - x = x -> psi3 x = 0.
Proof using Kf char2.
  intros E Y l H. assert (el : 3 * (x * x) + a = l * (2 * y)) by (unfold l; field; split; assumption).
  assert (e3 : l * l = 3 * x) by (transitivity ((l * l - x - x) + x + x); [ring|rewrite H; ring]). clearbody l.
  rewrite psi3_f, <- E, el. transitivity (2 * 2 * y * y * (3 * x - l * l)); [ring|rewrite e3; ring].
Qed.
Lemma psi3_double x y : y * y = f x -> y <> 0 -> psi3 x = 0 -> let l := (3 * (x * x) + a) / (2 * y) in l * l - x - x = x /\ l * (x - (l * l - x - x)) - y = - y.
Proof using Kf Kdec char2.
  intros E Y P l. assert (el : 3 * (x * x) + a = l * (2 * y)) by (unfold l; field; split; assumption). clearbody l.
  assert (e3 : l * l = 3 * x).
  { rewrite psi3_f, <- E, el in P. assert (Q : (2 * y) * ((2 * y) * (3 * x - l * l)) = 0) by (transitivity (2 * 2 * 3 * x * (y * y) - l * (2 * y) * (l * (2 * y))); [ring|exact P]).
    assert (N : 2 * y <> 0) by (intros Z; destruct (k_integral K _ _ _ _ _ _ _ _ Kf Kdec _ _ Z); contradiction).
    destruct (k_integral K _ _ _ _ _ _ _ _ Kf Kdec _ _ Q) as [Z|Q']; [contradiction|]. destruct (k_integral K _ _ _ _ _ _ _ _ Kf Kdec _ _ Q') as [Z|Q'']; [contradiction|].
    symmetry. exact (k_sub_0 K _ _ _ _ _ _ _ _ Kf _ _ Q''). }
  rewrite e3. split; ring.
Qed.
(** At a root of psi3: omega_2 = - 8 y^4. *)
Definition om2 (x : K) : K := x * x * x * x * x * x + (2 * 2 + 1) * a * (x * x * x * x) + 2 * 2 * (2 * 2 + 1) * b * (x * x * x) - (2 * 2 + 1) * (a * a) * (x * x) - 2 * 2 * a * b * x - 2 * 2 * 2 * (b * b) - a * a * a.
Lemma om2_psi3 x : om2 x + 2 * 2 * 2 * (f x * f x) = psi3 x * (3 * (x * x) + a).
Proof. unfold om2, psi3. ring. Qed.
(** psi3' = 12 f. *)
Lemma psi3_deriv x : 2 * 2 * 3 * (x * x * x) + 2 * 2 * 3 * a * x + 2 * 2 * 3 * b = 2 * 2 * 3 * f x.
Proof. ring. Qed.
(** The chord: when the x-coordinate of (x1, y1) + (x2, y2) is x3, in terms of coordinates. *)
Lemma chord_x x1 y1 x2 y2 x3 : x1 <> x2 -> ((y2 - y1) / (x2 - x1) * ((y2 - y1) / (x2 - x1)) - x1 - x2 = x3 <-> (y1 - y2) * (y1 - y2) = (x1 + x2 + x3) * ((x1 - x2) * (x1 - x2))).
Proof using Kf Kdec.
  intros N. assert (N' : x2 - x1 <> 0) by (intros Z; apply N; symmetry; exact (k_sub_0 K _ _ _ _ _ _ _ _ Kf _ _ Z)). split.
  - intros <-. field. exact N'.
  - intros H. transitivity ((y1 - y2) * (y1 - y2) / ((x1 - x2) * (x1 - x2)) - x1 - x2); [field|rewrite H; field].
    + split; [|exact N']. intros Z. apply N. exact (k_sub_0 K _ _ _ _ _ _ _ _ Kf _ _ Z).
    + intros Z. apply N. exact (k_sub_0 K _ _ _ _ _ _ _ _ Kf _ _ Z).
Qed.
End T3.
Section Disc.
Variable K : Type.
Variables (k0 k1 : K) (kadd kmul ksub : K -> K -> K) (kopp : K -> K).
Variable Kr : ring_theory k0 k1 kadd kmul ksub kopp (@eq K).
Add Ring KRing : Kr.
Notation "0" := k0. Notation "1" := k1.
Infix "+" := kadd. Infix "*" := kmul. Infix "-" := ksub. Notation "- x" := (kopp x).
Notation "2" := (1 + 1). Notation "3" := (1 + 1 + 1).
Lemma sing_disc a b x : x * x * x + a * x + b = 0 -> 3 * (x * x) + a = 0 -> 2 * 2 * (a * a * a) + 3 * 3 * 3 * (b * b) = 0.
Proof.
  intros H1 H2. assert (Ea : a = - (3 * (x * x))) by (transitivity ((3 * (x * x) + a) - 3 * (x * x)); [ring|rewrite H2; ring]). subst a.
  assert (Eb : b = 2 * (x * x * x)) by (transitivity ((x * x * x + - (3 * (x * x)) * x + b) + 2 * (x * x * x)); [ring|rewrite H1; ring]). subst b. ring.
Qed.
Lemma psi3_horner a b x : 3 * (x * x * x * x) + 2 * 3 * a * (x * x) + 2 * 2 * 3 * b * x - a * a = psi3 K k1 kadd kmul ksub a b x.
Proof. unfold psi3. ring. Qed.
Lemma psi3_dhorner a b x : 3 * (x * x * x + x * x * x + x * x * x + x * x * x) + 2 * 3 * a * (x + x) + 2 * 2 * 3 * b - 0 = 2 * 2 * 3 * (x * x * x + a * x + b).
Proof. ring. Qed.
End Disc.
