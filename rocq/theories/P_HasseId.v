(** Algebraic identities used in the proof of Hasse's bound (any field of characteristic other than 2). *)
From Coq Require Import Field Ring.
From Verif Require Import P_Group.

Section Id.
Variable K : Type.
Variables (k0 k1 : K) (kadd kmul ksub : K -> K -> K) (kopp : K -> K) (kdiv : K -> K -> K) (kinv : K -> K).
Variable Kf : field_theory k0 k1 kadd kmul ksub kopp kdiv kinv (@eq K).
Variable Kdec : forall x y : K, {x = y} + {x <> y}.
Add Field KFieldId : Kf.
Notation "0" := k0. Notation "1" := k1.
Infix "+" := kadd. Infix "*" := kmul. Infix "-" := ksub. Notation "- x" := (kopp x). Infix "/" := kdiv.
Notation "2" := (1 + 1). Notation "3" := (1 + 1 + 1). Notation "4" := (2 * 2).
Variable char2 : 2 <> 0.
Variables a b l t : K.
Hypothesis l0 : l <> 0.
Hypothesis lt_ : l = t * t * t + a * t + b.

(** The twisted curve Y^2 = X^3 + a l^2 X + b l^3 and its point Q = (l t, l^2). *)
Notation A := (a * (l * l)). Notation B := (b * (l * l * l)).
Notation gad := (gadd K k1 kadd kmul ksub kopp kdiv Kdec A).
Notation ceq := (curve_eq K kadd kmul A B).
Notation ngt := (neg K kopp).

Lemma Q_on : ceq (l * t) (l * l).
Proof. unfold curve_eq. transitivity (l * l * l * l); [ring|]. rewrite lt_ at 4. ring. Qed.

Lemma chord_sub x y : x <> t -> ceq (l * x) y ->
  exists y1, gad (Some (l * x, y)) (Some (l * t, l * l)) = Some (l * ((y - l * l) * (y - l * l) / (l * l * l * ((x - t) * (x - t))) - x - t), y1).
Proof.
  intros N H. unfold gadd, third. destruct (Kdec (l * x) (l * t)) as [E|_].
  - exfalso. apply N. transitivity (l * x / l); [field; exact l0|rewrite E; field; exact l0].
  - eexists. f_equal. f_equal. assert (X : x - t <> 0) by (intros E; apply N; transitivity (x - t + t); [ring|rewrite E; ring]).
    assert (X' : t - x <> 0) by (intros E; apply X; transitivity (- (t - x)); [ring|rewrite E; ring]).
    field. repeat split; auto. intros E. apply X'. assert (E2 : t - x = (l * t - l * x) / l) by (field; exact l0). rewrite E2, E. field. exact l0.
Qed.
Lemma chord_add x y : x <> t -> ceq (l * x) y ->
  exists y1, gad (Some (l * x, y)) (ngt (Some (l * t, l * l))) = Some (l * ((y + l * l) * (y + l * l) / (l * l * l * ((x - t) * (x - t))) - x - t), y1).
Proof.
  intros N H. unfold neg, gadd, third. destruct (Kdec (l * x) (l * t)) as [E|_].
  - exfalso. apply N. transitivity (l * x / l); [field; exact l0|rewrite E; field; exact l0].
  - eexists. f_equal. f_equal. assert (X : x - t <> 0) by (intros E; apply N; transitivity (x - t + t); [ring|rewrite E; ring]).
    assert (X' : t - x <> 0) by (intros E; apply X; transitivity (- (t - x)); [ring|rewrite E; ring]).
    field. repeat split; auto. intros E. apply X'. assert (E2 : t - x = (l * t - l * x) / l) by (field; exact l0). rewrite E2, E. field. exact l0.
Qed.

(** Sum and product of the (scaled) X-coordinates of P + Q and P - Q. *)
Lemma sum_id x y u v : x <> t -> ceq (l * x) y ->
  u = (y - l * l) * (y - l * l) / (l * l * l * ((x - t) * (x - t))) - x - t ->
  v = (y + l * l) * (y + l * l) / (l * l * l * ((x - t) * (x - t))) - x - t ->
  (u + v) * ((x - t) * (x - t)) = 2 * ((x + t) * (t * x + a) + 2 * b) /\
  u * v * ((x - t) * (x - t)) = (t * x - a) * (t * x - a) - 4 * b * (x + t).
Proof.
  intros N H -> ->. assert (X : x - t <> 0) by (intros E; apply N; transitivity (x - t + t); [ring|rewrite E; ring]).
  unfold curve_eq in H.
  assert (Hy : y * y = l * l * l * (x * x * x + a * x + b)) by (rewrite H; ring).
  assert (X2 : (x - t) * (x - t) <> 0) by (intros E; destruct (k_integral K k0 k1 kadd kmul ksub kopp kdiv kinv Kf Kdec _ _ E); auto).
  split.
  - transitivity (2 * (y * y + l * l * l * l) / (l * l * l) - 2 * (x + t) * ((x - t) * (x - t))); [field; auto|].
    rewrite Hy. transitivity (2 * ((x * x * x + a * x + b) + l) - 2 * (x + t) * ((x - t) * (x - t))); [field; exact l0|]. rewrite lt_. ring.
  - transitivity ((((y * y - l * l * l * l) / (l * l * l)) * ((y * y - l * l * l * l) / (l * l * l)) - 2 * (y * y + l * l * l * l) / (l * l * l) * (x + t) * ((x - t) * (x - t)) + (x + t) * (x + t) * ((x - t) * (x - t)) * ((x - t) * (x - t))) / ((x - t) * (x - t))); [field; auto|].
    rewrite Hy. 
    transitivity ((((x * x * x + a * x + b - l)) * (x * x * x + a * x + b - l) - 2 * (x * x * x + a * x + b + l) * (x + t) * ((x - t) * (x - t)) + (x + t) * (x + t) * ((x - t) * (x - t)) * ((x - t) * (x - t))) / ((x - t) * (x - t))); [field; auto|].
    rewrite lt_. field. auto.
Qed.
(** Points with the X-coordinate of Q. *)
Lemma same_xQ y : ceq (l * t) y -> y = l * l \/ y = - (l * l).
Proof. intros H. apply (same_x K k0 k1 kadd kmul ksub kopp kdiv kinv Kf Kdec A B (l * t)); [exact H|exact Q_on]. Qed.
(** 2 Q. *)
Lemma double_Q : exists y1, gad (Some (l * t, l * l)) (Some (l * t, l * l)) = Some (l * (((t * t - a) * (t * t - a) - 4 * 2 * b * t) / (4 * l)), y1).
Proof.
  unfold gadd, third. destruct (Kdec (l * t) (l * t)) as [_|E]; [|destruct (E eq_refl)].
  destruct (Kdec (l * l) (- (l * l))) as [E|_].
  - exfalso. assert (E2 : l * l * 2 = 0) by (transitivity (l * l + l * l); [ring|rewrite E at 1; ring]).
    destruct (k_integral K k0 k1 kadd kmul ksub kopp kdiv kinv Kf Kdec _ _ E2) as [X|X]; [|auto].
    destruct (k_integral K k0 k1 kadd kmul ksub kopp kdiv kinv Kf Kdec _ _ X) as [Y|Y]; auto.
  - eexists. f_equal. f_equal.
    assert (c4 : 4 <> 0) by (intros E; destruct (k_integral K k0 k1 kadd kmul ksub kopp kdiv kinv Kf Kdec _ _ E); auto).
    transitivity (((3 * t * t + a) * (3 * t * t + a) - 4 * 2 * t * l) / 4); [field; auto|].
    transitivity (((t * t - a) * (t * t - a) - 4 * 2 * b * t) / 4); [rewrite lt_; field; auto|field; auto].
Qed.
Lemma frob_on x h : l * (h * h) = x * x * x + a * x + b -> ceq (l * x) (l * l * h).
Proof. intros H. unfold curve_eq. transitivity (l * l * l * (l * (h * h))); [ring|]. rewrite H. ring. Qed.
Lemma frob_x x t' h : x - t' <> 0 ->
  (l * l * h + l * l) * (l * l * h + l * l) / (l * l * l * ((x - t') * (x - t'))) - x - t' =
  (l * ((h + 1) * (h + 1)) - (x + t') * ((x - t') * (x - t'))) / ((x - t') * (x - t')).
Proof. intros N. field. auto. Qed.
Lemma clear_S U V C D X Z : V <> 0 -> D <> 0 -> Z <> 0 ->
  (U / V + C / D) * ((X / Z - t) * (X / Z - t)) = 2 * ((X / Z + t) * (t * (X / Z) + a) + 2 * b) ->
  (U * D + V * C) * ((X - t * Z) * (X - t * Z)) = 2 * ((X + t * Z) * (t * X + a * Z) + 2 * b * (Z * Z)) * (V * D).
Proof.
  intros v d z H. transitivity (((U / V + C / D) * ((X / Z - t) * (X / Z - t))) * (V * D * Z * Z)); [field; auto|]. rewrite H. field. auto.
Qed.
Lemma clear_N U V C D X Z : V <> 0 -> D <> 0 -> Z <> 0 ->
  U / V * (C / D) * ((X / Z - t) * (X / Z - t)) = (t * (X / Z) - a) * (t * (X / Z) - a) - 4 * b * (X / Z + t) ->
  (U * C) * ((X - t * Z) * (X - t * Z)) = ((t * X - a * Z) * (t * X - a * Z) - 4 * b * Z * (X + t * Z)) * (V * D).
Proof.
  intros v d z H. transitivity ((U / V * (C / D) * ((X / Z - t) * (X / Z - t))) * (V * D * Z * Z)); [field; auto|]. rewrite H. field. auto.
Qed.
Lemma disc_zero a' b' x : x * x * x + a' * x + b' = 0 -> 3 * (x * x) + a' = 0 -> 4 * (a' * a' * a') + 3 * 3 * 3 * (b' * b') = 0.
Proof.
  intros H1 H2. assert (E : a' = - (3 * (x * x))) by (transitivity (3 * (x * x) + a' - 3 * (x * x)); [ring|rewrite H2; ring]). subst a'.
  assert (E : b' = 2 * (x * x * x)) by (transitivity (x * x * x + - (3 * (x * x)) * x + b' + 2 * (x * x * x)); [ring|rewrite H1; ring]). subst b'. ring.
Qed.
Lemma disc_scale : 4 * (A * A * A) + 3 * 3 * 3 * (B * B) = (l * l * l * l * l * l) * (4 * (a * a * a) + 3 * 3 * 3 * (b * b)).
Proof. ring. Qed.
End Id.

(** Polynomial identities. *)
Section RId.
Variable R : Type.
Variables (k0 k1 : R) (kadd kmul ksub : R -> R -> R) (kopp : R -> R).
Variable Rt : ring_theory k0 k1 kadd kmul ksub kopp (@eq R).
Add Ring RRingId : Rt.
Notation "0" := k0. Notation "1" := k1.
Infix "+" := kadd. Infix "*" := kmul. Infix "-" := ksub. Notation "- x" := (kopp x).
Notation "2" := (1 + 1). Notation "3" := (1 + 1 + 1). Notation "4" := (2 * 2).
Lemma bezout_F a b t : let F := (t * t - a) * (t * t - a) - 4 * 2 * b * t in let l := t * t * t + a * t + b in
  (3 * (t * t) + 4 * a) * F - (3 * (t * t * t) - (4 + 1) * a * t - 3 * 3 * 3 * b) * l = 4 * (a * a * a) + 3 * 3 * 3 * (b * b).
Proof. intros. unfold F, l. ring. Qed.
Lemma N_mod a b t X Z : let M := X - t * Z in let F := (t * t - a) * (t * t - a) - 4 * 2 * b * t in
  (t * X - a * Z) * (t * X - a * Z) - 4 * b * Z * (X + t * Z) = Z * Z * F + M * (t * (t * X - a * Z) + (t * t * Z - a * Z) * t - 4 * b * Z).
Proof. intros. unfold F, M. ring. Qed.
Lemma S_mod a b t X Z : let M := X - t * Z in let l := t * t * t + a * t + b in
  2 * ((X + t * Z) * (t * X + a * Z) + 2 * b * (Z * Z)) = 4 * (Z * Z * l) + M * (2 * (t * X + a * Z + 2 * t * t * Z)).
Proof. intros. unfold M, l. ring. Qed.
End RId.
