(** Elliptic divisibility relation over the integers, without the assumption that no term vanishes: deform (a, x, y) along a line
    to (0, 1, 1), where the n-th term is n. *)
From Coq Require Import ZArith Lia List QArith Qcanon Field Ring.
From Verif Require Import P_Eds1.
Import ListNotations.
Open Scope Z_scope.

Definition evl (l : list Z) (s : Z) : Z := fold_right (fun c r => c + s * r) 0 l.
Definition ispoly (f : Z -> Z) : Prop := exists l, forall s, f s = evl l s.
Lemma ispoly_ext f g : (forall s, f s = g s) -> ispoly f -> ispoly g.
Proof. intros H (l & E). exists l. intros s. rewrite <- H. apply E. Qed.
Lemma ispoly_const c : ispoly (fun _ => c).
Proof. exists [c]. intros s. cbn. lia. Qed.
Lemma ispoly_id : ispoly (fun s => s).
Proof. exists [0; 1]. intros s. unfold evl; cbn [fold_right]; ring. Qed.
Lemma evl_scale c l s : evl (map (Z.mul c) l) s = c * evl l s.
Proof. induction l as [|e l IH]; cbn; [lia|]. fold (evl (map (Z.mul c) l) s). fold (evl l s). rewrite IH. ring. Qed.
Fixpoint ladd (l m : list Z) : list Z := match l, m with [], _ => m | _, [] => l | c :: l', e :: m' => c + e :: ladd l' m' end.
Lemma evl_add l : forall m s, evl (ladd l m) s = evl l s + evl m s.
Proof. induction l as [|c l IH]; intros [|e m] s; cbn; try lia. fold (evl (ladd l m) s) (evl l s) (evl m s). rewrite IH. ring. Qed.
Lemma ispoly_add f g : ispoly f -> ispoly g -> ispoly (fun s => f s + g s).
Proof. intros (l & E) (m & F). exists (ladd l m). intros s. rewrite evl_add, E, F. reflexivity. Qed.
Lemma evl_mul l : forall g, ispoly g -> ispoly (fun s => evl l s * g s).
Proof.
  induction l as [|c l IH]; intros g G.
  - apply (ispoly_ext (fun _ => 0)); [intros; cbn; lia|apply ispoly_const].
  - apply (ispoly_ext (fun s => c * g s + s * (evl l s * g s))); [intros; cbn; fold (evl l s); ring|]. apply ispoly_add.
    + destruct G as (m & G). exists (map (Z.mul c) m). intros s. rewrite evl_scale, G. reflexivity.
    + destruct (IH g G) as (m & H). exists (0 :: m). intros s. cbn. fold (evl m s). rewrite <- H. ring.
Qed.
Lemma ispoly_mul f g : ispoly f -> ispoly g -> ispoly (fun s => f s * g s).
Proof. intros (l & E) G. apply (ispoly_ext (fun s => evl l s * g s)); [intros; rewrite E; reflexivity|]. apply evl_mul, G. Qed.
Lemma ispoly_sub f g : ispoly f -> ispoly g -> ispoly (fun s => f s - g s).
Proof. intros F G. apply (ispoly_ext (fun s => f s + (-1) * g s)); [intros; ring|]. apply ispoly_add; [exact F|]. apply ispoly_mul; [apply ispoly_const|exact G]. Qed.
Lemma ispoly_pow f n : ispoly f -> ispoly (fun s => f s ^ Z.of_nat n).
Proof.
  intros F. induction n as [|n IH]; [apply (ispoly_ext (fun _ => 1)); [intros; reflexivity|apply ispoly_const]|].
  apply (ispoly_ext (fun s => f s * f s ^ Z.of_nat n)); [intros; rewrite Nat2Z.inj_succ, Z.pow_succ_r by lia; reflexivity|]. apply ispoly_mul; assumption.
Qed.
Lemma evl_large l : (forall s, evl l s = 0) \/ exists B, forall s, B < s -> evl l s <> 0.
Proof.
  induction l as [|c l [Z0|(B & H)]].
  - left. reflexivity.
  - destruct (Z.eq_dec c 0) as [->|N].
    + left. intros s. cbn. fold (evl l s). rewrite Z0. lia.
    + right. exists 0. intros s _. cbn. fold (evl l s). rewrite Z0. lia.
  - right. exists (Z.max B (Z.abs c)). intros s Hs. cbn. fold (evl l s). pose proof (H s ltac:(lia)) as N. intros E. assert (Z.abs (s * evl l s) = Z.abs c) by lia. rewrite Z.abs_mul in H0. nia.
Qed.
Lemma ispoly_large f s0 : ispoly f -> f s0 <> 0 -> exists B, forall s, B < s -> f s <> 0.
Proof.
  intros (l & E) N. destruct (evl_large l) as [Z0|(B & H)]; [rewrite E, Z0 in N; contradiction|]. exists B. intros s Hs. rewrite E. apply H, Hs.
Qed.

(** Z inside the field of rational numbers. *)
Definition iq (z : Z) : Qc := Q2Qc (inject_Z z).
Lemma q_this q : (this (Q2Qc q) == q)%Q.
Proof. apply Qred_correct. Qed.
Lemma iq_add a b : iq (a + b) = (iq a + iq b)%Qc.
Proof. unfold iq, Qcplus. apply Qc_is_canon. rewrite !q_this. rewrite inject_Z_plus; reflexivity. Qed.
Lemma iq_mul a b : iq (a * b) = (iq a * iq b)%Qc.
Proof. unfold iq, Qcmult. apply Qc_is_canon. rewrite !q_this. rewrite inject_Z_mult; reflexivity. Qed.
Lemma iq_opp a : iq (- a) = (- iq a)%Qc.
Proof. unfold iq, Qcopp. apply Qc_is_canon. rewrite !q_this. rewrite inject_Z_opp; reflexivity. Qed.
Lemma iq_sub a b : iq (a - b) = (iq a - iq b)%Qc.
Proof. unfold Z.sub, Qcminus. rewrite iq_add, iq_opp. reflexivity. Qed.
Lemma iq_inj a b : iq a = iq b -> a = b.
Proof. intros H. apply inject_Z_injective. rewrite <- (q_this (inject_Z a)), <- (q_this (inject_Z b)). fold (iq a) (iq b). rewrite H. reflexivity. Qed.
Lemma iq_0 : iq 0 = 0%Qc. Proof. reflexivity. Qed.
Lemma iq_1 : iq 1 = 1%Qc. Proof. reflexivity. Qed.

(** psi_3 and psi_4 at (x, y) with b = y^2 - x^3 - a x. *)
Definition bz (a x y : Z) : Z := y * y - x * x * x - a * x.
Definition psi3z (a x y : Z) : Z := 3 * (x * x * x * x) + 6 * a * (x * x) + 12 * bz a x y * x - a * a.
Definition psi4z (a x y : Z) : Z :=
  4 * y * (x * x * x * x * x * x + 5 * a * (x * x * x * x) + 20 * bz a x y * (x * x * x) - 5 * (a * a) * (x * x) - 4 * a * bz a x y * x - 8 * (bz a x y * bz a x y) - a * a * a).

Section Z.
Variable w : Z -> Z -> Z -> nat -> Z.
Variable N : nat.
Hypothesis w_0 : forall a x y, w a x y 0 = 0.
Hypothesis w_1 : forall a x y, w a x y 1 = 1.
Hypothesis w_2 : forall a x y, w a x y 2 = 2 * y.
Hypothesis w_3 : forall a x y, w a x y 3 = psi3z a x y.
Hypothesis w_4 : forall a x y, w a x y 4 = psi4z a x y.
Hypothesis w_odd : forall a x y m, (2 <= m)%nat -> (m + m + 1 <= N)%nat ->
  w a x y (m + m + 1)%nat = w a x y (m + 2)%nat * (w a x y m * w a x y m * w a x y m) - w a x y (m - 1)%nat * (w a x y (m + 1)%nat * w a x y (m + 1)%nat * w a x y (m + 1)%nat).
Hypothesis w_even : forall a x y m, (3 <= m)%nat -> (m + m <= N)%nat ->
  2 * y * w a x y (m + m)%nat = w a x y m * (w a x y (m + 2)%nat * (w a x y (m - 1)%nat * w a x y (m - 1)%nat) - w a x y (m - 2)%nat * (w a x y (m + 1)%nat * w a x y (m + 1)%nat)).

Lemma w_cusp n : (n <= N)%nat -> w 0 1 1 n = Z.of_nat n.
Proof using w_0 w_1 w_2 w_3 w_4 w_odd w_even.
  induction n as [n IH] using (well_founded_induction Wf_nat.lt_wf). intros L.
  destruct (le_lt_dec n 4) as [H|H].
  - destruct n as [|[|[|[|[|n]]]]]; [| | | | |lia]; rewrite ?w_0, ?w_1, ?w_2, ?w_3, ?w_4; reflexivity.
  - destruct (Nat.Even_or_Odd n) as [(j & J)|(j & J)].
    + assert (n = j + j)%nat by lia. clear J. subst n. pose proof (w_even 0 1 1 j ltac:(lia) L) as E. rewrite (IH j), (IH (j + 2)%nat), (IH (j - 1)%nat), (IH (j - 2)%nat), (IH (j + 1)%nat) in E by lia.
      replace (Z.of_nat (j + 2)) with (Z.of_nat j + 2) in E by lia. replace (Z.of_nat (j - 2)) with (Z.of_nat j - 2) in E by lia. replace (Z.of_nat (j + 1)) with (Z.of_nat j + 1) in E by lia. replace (Z.of_nat (j - 1)) with (Z.of_nat j - 1) in E by lia. rewrite Nat2Z.inj_add. lia.
    + assert (n = j + j + 1)%nat by lia. clear J. subst n. rewrite w_odd by lia. rewrite !IH by lia.
      replace (Z.of_nat (j + 2)) with (Z.of_nat j + 2) by lia. replace (Z.of_nat (j + 1)) with (Z.of_nat j + 1) by lia. replace (Z.of_nat (j - 1)) with (Z.of_nat j - 1) by lia. replace (Z.of_nat (j + j + 1)) with (Z.of_nat j + Z.of_nat j + 1) by lia. ring.
Qed.

Section Line.
Variables A0 X0 Y0 : Z.
Let A s := s * A0.
Let X s := 1 + s * (X0 - 1).
Let Y s := 1 + s * (Y0 - 1).
Definition qpoly (f : Z -> Z) : Prop := exists k, ispoly (fun s => (2 * Y s) ^ Z.of_nat k * f s).
Lemma pA : ispoly A. Proof. unfold A. apply ispoly_mul; [apply ispoly_id|apply ispoly_const]. Qed.
Lemma pX : ispoly X. Proof. unfold X. apply ispoly_add; [apply ispoly_const|]. apply ispoly_mul; [apply ispoly_id|apply ispoly_const]. Qed.
Lemma pY : ispoly Y. Proof. unfold Y. apply ispoly_add; [apply ispoly_const|]. apply ispoly_mul; [apply ispoly_id|apply ispoly_const]. Qed.
Lemma p2Y k : ispoly (fun s => (2 * Y s) ^ Z.of_nat k).
Proof. apply ispoly_pow. apply ispoly_mul; [apply ispoly_const|exact pY]. Qed.
Lemma qpoly_ext f g : (forall s, f s = g s) -> qpoly f -> qpoly g.
Proof. intros H (k & P). exists k. apply (ispoly_ext _ _ (fun s => f_equal (Z.mul _) (H s)) P). Qed.
Lemma qpoly_poly f : ispoly f -> qpoly f.
Proof. intros F. exists O. apply (ispoly_ext f); [intros; cbn [Z.of_nat]; rewrite Z.pow_0_r; ring|exact F]. Qed.
Lemma qpoly_mul f g : qpoly f -> qpoly g -> qpoly (fun s => f s * g s).
Proof.
  intros (k & F) (m & G). exists (k + m)%nat. apply (ispoly_ext (fun s => ((2 * Y s) ^ Z.of_nat k * f s) * ((2 * Y s) ^ Z.of_nat m * g s))); [|apply ispoly_mul; assumption].
  intros s. rewrite Nat2Z.inj_add, Z.pow_add_r by lia. ring.
Qed.
Lemma qpoly_sub f g : qpoly f -> qpoly g -> qpoly (fun s => f s - g s).
Proof.
  intros (k & F) (m & G). exists (k + m)%nat.
  apply (ispoly_ext (fun s => (2 * Y s) ^ Z.of_nat m * ((2 * Y s) ^ Z.of_nat k * f s) - (2 * Y s) ^ Z.of_nat k * ((2 * Y s) ^ Z.of_nat m * g s))).
  - intros s. rewrite Nat2Z.inj_add, Z.pow_add_r by lia. ring.
  - apply ispoly_sub; apply ispoly_mul; try assumption; apply p2Y.
Qed.
Lemma qpoly_div f g : (forall s, 2 * Y s * f s = g s) -> qpoly g -> qpoly f.
Proof.
  intros H (k & G). exists (S k). apply (ispoly_ext (fun s => (2 * Y s) ^ Z.of_nat k * g s)); [|exact G]. intros s. rewrite <- H, Nat2Z.inj_succ, Z.pow_succ_r by lia. ring.
Qed.
Lemma p3 : ispoly (fun s => psi3z (A s) (X s) (Y s)).
Proof.
  unfold psi3z, bz. repeat first [exact pA | exact pX | exact pY | apply ispoly_id | apply ispoly_const | apply ispoly_sub | apply ispoly_add | apply ispoly_mul].
Qed.
Lemma p4 : ispoly (fun s => psi4z (A s) (X s) (Y s)).
Proof.
  unfold psi4z, bz. repeat first [exact pA | exact pX | exact pY | apply ispoly_id | apply ispoly_const | apply ispoly_sub | apply ispoly_add | apply ispoly_mul].
Qed.
Let v n s := w (A s) (X s) (Y s) n.
Lemma qw n : (n <= N)%nat -> qpoly (v n).
Proof using w_0 w_1 w_2 w_3 w_4 w_odd w_even.
  induction n as [n IH] using (well_founded_induction Wf_nat.lt_wf). intros L.
  destruct (le_lt_dec n 4) as [H|H].
  - apply qpoly_poly. unfold v. destruct n as [|[|[|[|[|n]]]]]; [| | | | |lia].
    + apply (ispoly_ext (fun _ => 0)); [intros; rewrite w_0; reflexivity|apply ispoly_const].
    + apply (ispoly_ext (fun _ => 1)); [intros; rewrite w_1; reflexivity|apply ispoly_const].
    + apply (ispoly_ext (fun s => 2 * Y s)); [intros; rewrite w_2; reflexivity|]. apply ispoly_mul; [apply ispoly_const|exact pY].
    + apply (ispoly_ext (fun s => psi3z (A s) (X s) (Y s))); [intros; rewrite w_3; reflexivity|exact p3].
    + apply (ispoly_ext (fun s => psi4z (A s) (X s) (Y s))); [intros; rewrite w_4; reflexivity|exact p4].
  - destruct (Nat.Even_or_Odd n) as [(j & J)|(j & J)].
    + assert (n = j + j)%nat by lia. clear J. subst n.
      apply (qpoly_div _ (fun s => v j s * (v (j + 2)%nat s * (v (j - 1)%nat s * v (j - 1)%nat s) - v (j - 2)%nat s * (v (j + 1)%nat s * v (j + 1)%nat s)))).
      { intros s. unfold v. apply w_even; lia. }
      repeat first [apply qpoly_mul | apply qpoly_sub]; apply IH; lia.
    + assert (n = j + j + 1)%nat by lia. clear J. subst n.
      apply (qpoly_ext (fun s => v (j + 2)%nat s * (v j s * v j s * v j s) - v (j - 1)%nat s * (v (j + 1)%nat s * v (j + 1)%nat s * v (j + 1)%nat s))).
      { intros s. unfold v. rewrite w_odd by lia. reflexivity. }
      repeat first [apply qpoly_mul | apply qpoly_sub]; apply IH; lia.
Qed.
Lemma qpoly_large f : qpoly f -> f 0 <> 0 -> exists B, forall s, B < s -> f s <> 0.
Proof.
  intros (k & F) N0. destruct (ispoly_large _ 0 F) as (B & H).
  - unfold Y. rewrite Z.mul_0_l, Z.add_0_r. intros E. apply Z.mul_eq_0 in E. destruct E as [E|E]; [|contradiction]. revert E. apply Z.pow_nonzero; lia.
  - exists B. intros s Hs E. apply (H s Hs). rewrite E. ring.
Qed.
Lemma all_large n : (n <= N)%nat -> exists B, forall s, B < s -> Y s <> 0 /\ forall m, (1 <= m <= n)%nat -> v m s <> 0.
Proof using w_0 w_1 w_2 w_3 w_4 w_odd w_even.
  induction n as [|n IH].
  - intros _. destruct (ispoly_large Y 0 pY) as (B & H); [unfold Y; lia|]. exists B. intros s Hs. split; [apply H, Hs|lia].
  - intros L. destruct (IH ltac:(lia)) as (B & H). destruct (qpoly_large (v (S n)) (qw (S n) L)) as (B' & H').
    + unfold v. replace (A 0) with 0 by (unfold A; lia). replace (X 0) with 1 by (unfold X; lia). replace (Y 0) with 1 by (unfold Y; lia). rewrite w_cusp by exact L. lia.
    + exists (Z.max B B'). intros s Hs. destruct (H s ltac:(lia)) as (H1 & H2). split; [exact H1|]. intros m M. destruct (Nat.eq_dec m (S n)) as [->|Ne]; [apply H'; lia|apply H2; lia].
Qed.
Lemma Qc_two : (1 + 1 <> 0)%Qc.
Proof. intros E. apply (f_equal this) in E. discriminate E. Qed.
Lemma iq_nz z : z <> 0 -> iq z <> 0%Qc.
Proof. intros H E. apply H, iq_inj. rewrite E. reflexivity. Qed.
Ltac push := repeat (rewrite iq_add || rewrite iq_mul || rewrite iq_sub || rewrite iq_1 || rewrite iq_0).
Lemma generic s n k : Y s <> 0 -> (forall m, (1 <= m <= N)%nat -> v m s <> 0) -> (1 <= n)%nat -> (n + n + k <= N)%nat ->
  v (n + n + k)%nat s * v k s - (v (n + k + 1)%nat s * v (n + k - 1)%nat s * (v n s * v n s) - v (n + 1)%nat s * v (n - 1)%nat s * (v (n + k)%nat s * v (n + k)%nat s)) = 0.
Proof using w_0 w_1 w_2 w_3 w_4 w_odd w_even.
  intros Ys Nz Hn HN. apply Z.sub_move_0_r. apply iq_inj.
  pose proof (w_eds Qc 0%Qc 1%Qc Qcplus Qcmult Qcminus Qcopp Qcdiv Qcinv Qcft Qc_eq_dec Qc_two (iq (A s)) (iq (X s)) (iq (Y s)) (iq_nz _ Ys) (fun m => iq (v m s)) N) as H.
  rewrite iq_mul, iq_sub, !iq_mul. apply H; clear H; try assumption; unfold v.
  - rewrite w_0. reflexivity.
  - rewrite w_1. reflexivity.
  - rewrite w_2. change 2 with (1 + 1). push. reflexivity.
  - rewrite w_3. unfold psi3z, bz, psi3v, b. change 3 with (1 + 1 + 1). change 6 with ((1 + 1 + 1) * (1 + 1)). change 12 with ((1 + 1 + 1) * ((1 + 1) * (1 + 1))). push. ring.
  - rewrite w_4. unfold psi4z, bz, psi4v, b. change 4 with ((1 + 1) * (1 + 1)). change 5 with ((1 + 1) * (1 + 1) + 1). change 20 with ((1 + 1) * (1 + 1) * ((1 + 1) * (1 + 1) + 1)). change 8 with ((1 + 1) * (1 + 1) * (1 + 1)). push. ring.
  - intros m M L. rewrite w_odd by lia. push. reflexivity.
  - intros m M L. change (1 + 1)%Qc with (iq 2). rewrite <- !iq_mul, w_even by lia. push. reflexivity.
  - intros m M. apply iq_nz, Nz, M.
Qed.
Lemma line_eds n k : Y0 <> 0 -> (1 <= n)%nat -> (n + n + k <= N)%nat ->
  w A0 X0 Y0 (n + n + k)%nat * w A0 X0 Y0 k = w A0 X0 Y0 (n + k + 1)%nat * w A0 X0 Y0 (n + k - 1)%nat * (w A0 X0 Y0 n * w A0 X0 Y0 n) - w A0 X0 Y0 (n + 1)%nat * w A0 X0 Y0 (n - 1)%nat * (w A0 X0 Y0 (n + k)%nat * w A0 X0 Y0 (n + k)%nat).
Proof using w_0 w_1 w_2 w_3 w_4 w_odd w_even.
  intros HY Hn HN. destruct (all_large N ltac:(lia)) as (B & H).
  set (f := fun s => v (n + n + k)%nat s * v k s - (v (n + k + 1)%nat s * v (n + k - 1)%nat s * (v n s * v n s) - v (n + 1)%nat s * v (n - 1)%nat s * (v (n + k)%nat s * v (n + k)%nat s))).
  assert (F: qpoly f). { unfold f. repeat first [apply qpoly_mul | apply qpoly_sub]; apply qw; lia. }
  assert (E: forall s, B < s -> f s = 0). { intros s Hs. destruct (H s Hs) as (H1 & H2). apply generic; assumption. }
  destruct F as (j & F). destruct (Z.eq_dec (f 1) 0) as [E1|N1].
  - unfold f, v in E1. replace (A 1) with A0 in E1 by (unfold A; lia). replace (X 1) with X0 in E1 by (unfold X; lia). replace (Y 1) with Y0 in E1 by (unfold Y; lia). apply Z.sub_move_0_r. exact E1.
  - exfalso. destruct (ispoly_large _ 1 F) as (B' & H').
    + intros Q. apply Z.mul_eq_0 in Q. destruct Q as [Q|Q]; [|contradiction]. revert Q. apply Z.pow_nonzero; [|lia]. unfold Y. lia.
    + apply (H' (Z.max B B' + 1)); [lia|]. rewrite E by lia. ring.
Qed.
End Line.
Theorem eds_Z a x y n k : y <> 0 -> (1 <= n)%nat -> (n + n + k <= N)%nat ->
  w a x y (n + n + k)%nat * w a x y k = w a x y (n + k + 1)%nat * w a x y (n + k - 1)%nat * (w a x y n * w a x y n) - w a x y (n + 1)%nat * w a x y (n - 1)%nat * (w a x y (n + k)%nat * w a x y (n + k)%nat).
Proof using w_0 w_1 w_2 w_3 w_4 w_odd w_even. apply line_eds. Qed.
End Z.
