(** The multiplication formula: nP in terms of an elliptic divisibility sequence, over a field of characteristic other than 2. *)
From Coq Require Import Field Ring Setoid Lia Arith.
From Verif Require Import P_Group P_Eds1.

Section Mult.
Variable K : Type.
Variables (k0 k1 : K) (kadd kmul ksub : K -> K -> K) (kopp : K -> K) (kdiv : K -> K -> K) (kinv : K -> K).
Variable Kf : field_theory k0 k1 kadd kmul ksub kopp kdiv kinv (@eq K).
Variable Kdec : forall x y : K, {x = y} + {x <> y}.
Add Field KField : Kf.
Notation "0" := k0. Notation "1" := k1.
Infix "+" := kadd. Infix "*" := kmul. Infix "-" := ksub. Notation "- x" := (kopp x). Infix "/" := kdiv.
Notation "2" := (1 + 1). Notation "3" := (1 + 1 + 1). Notation "4" := ((1 + 1) * (1 + 1)). Notation "5" := ((1 + 1) * (1 + 1) + 1).
Notation "6" := ((1 + 1 + 1) * (1 + 1)). Notation "8" := ((1 + 1) * (1 + 1) * (1 + 1)).
Variable char2 : 2 <> 0.
Variables a b x y : K.
Notation gadd := (gadd K k1 kadd kmul ksub kopp kdiv Kdec a).
Notation nmul := (nmul K k1 kadd kmul ksub kopp kdiv Kdec a).
Notation on := (on K kadd kmul a b).
Notation curve_eq := (curve_eq K kadd kmul a b).
Notation neg := (neg K kopp).
Variable nonsing : forall x y, curve_eq x y -> y = 0 -> 3 * (x * x) + a = 0 -> False.
Hypothesis Pon : curve_eq x y.
Notation PP := (Some (x, y)).
Notation integral := (e_integral K k0 k1 kadd kmul ksub kopp kdiv kinv Kf Kdec).
Notation mul_nz := (e_mul K k0 k1 kadd kmul ksub kopp kdiv kinv Kf Kdec).
Notation cancel := (e_cancel K k0 k1 kadd kmul ksub kopp kdiv kinv Kf Kdec).
Notation sub_0 := (e_sub_0 K k0 k1 kadd kmul ksub kopp kdiv kinv Kf).

Definition psi3k : K := 3 * (x * x * x * x) + 6 * a * (x * x) + 3 * 4 * b * x - a * a.
Definition psi4k : K := 4 * y * (x * x * x * x * x * x + 5 * a * (x * x * x * x) + 4 * 5 * b * (x * x * x) - 5 * (a * a) * (x * x) - 4 * a * b * x - 8 * (b * b) - a * a * a).

Lemma on_P : on PP. Proof using Pon. exact Pon. Qed.
Lemma b_eq : b = y * y - x * x * x - a * x.
Proof using Kf Pon. unfold P_Group.curve_eq in Pon. rewrite Pon. ring. Qed.
Lemma prev n : nmul n PP = gadd (neg PP) (nmul (S n) PP).
Proof using Kf Kdec char2 nonsing Pon.
  symmetry. cbn [P_Group.nmul]. apply (gadd_cancel K k0 k1 kadd kmul ksub kopp kdiv kinv Kf Kdec char2 a b nonsing); [exact Pon|].
  apply (nmul_on K k0 k1 kadd kmul ksub kopp kdiv kinv Kf Kdec char2 a b n PP Pon).
Qed.
Lemma nmul_on' n : on (nmul n PP).
Proof using Kf char2 Pon. apply (nmul_on K k0 k1 kadd kmul ksub kopp kdiv kinv Kf Kdec char2 a b n PP Pon). Qed.

(** Sum of (x, y) and (u, v) with u <> x. *)
Lemma chord_sum u v : curve_eq u v -> u <> x -> exists l, gadd PP (Some (u, v)) = Some (l * l - x - u, l * (x - (l * l - x - u)) - y) /\
  l * (u - x) = v - y /\ a = l * l * (u - x) + 2 * l * y - (u * u + u * x + x * x).
Proof using Kf Pon.
  intros C N. assert (N': u - x <> 0) by (intros E; apply N, sub_0, E). exists ((v - y) / (u - x)). cbn [P_Group.gadd]. destruct (Kdec x u) as [E|_]; [congruence|]. unfold third.
  split; [reflexivity|]. set (l := (v - y) / (u - x)). assert (L: l * (u - x) = v - y) by (unfold l; field; exact N'). split; [exact L|].
  assert (V: v = l * (u - x) + y) by (rewrite L; ring).
  assert (G: (u - x) * (l * l * (u - x) + 2 * l * y - (u * u + u * x + x * x) - a) = 0).
  { transitivity ((l * (u - x) + y) * (l * (u - x) + y) - (u * u * u + a * u + (y * y - x * x * x - a * x))); [ring|]. rewrite <- V, <- b_eq. unfold P_Group.curve_eq in C. rewrite C. ring. }
  symmetry. apply sub_0. destruct (integral _ _ G) as [E|E]; [contradiction|exact E].
Qed.
Lemma chord_diff u v : curve_eq u v -> u <> x -> exists s t, gadd (neg PP) (Some (u, v)) = Some (s, t) /\ s = (v + y) * (v + y) / ((x - u) * (x - u)) - x - u.
Proof using Kf.
  intros C N. assert (N': x - u <> 0) by (intros E; apply N; symmetry; apply sub_0, E). cbn [P_Group.gadd P_Group.neg]. destruct (Kdec x u) as [E|_]; [congruence|]. unfold third.
  eexists. eexists. split; [reflexivity|]. field. split; [exact N'|]. intros E. apply N'. transitivity (- (u - x)); [ring|rewrite E; ring].
Qed.

Section W.
Variable w : nat -> K.
Variable N : nat.
Hypothesis y0 : y <> 0.
Hypothesis w_0 : w 0 = 0.
Hypothesis w_1 : w 1 = 1.
Hypothesis w_2 : w 2 = 2 * y.
Hypothesis w_3 : w 3 = psi3k.
Hypothesis w_4 : w 4 = psi4k.
Hypothesis eds : forall n k, (1 <= n)%nat -> (n + n + k <= N)%nat ->
  w (n + n + k) * w k = w (n + k + 1) * w (n + k - 1) * (w n * w n) - w (n + 1) * w (n - 1) * (w (n + k) * w (n + k)).

Definition spec (n : nat) : Prop :=
  match nmul n PP with
  | None => w n = 0
  | Some (u, v) => w n <> 0 /\ (x - u) * (w n * w n) = w (n + 1) * w (n - 1) /\
      ((2 <= n)%nat -> 4 * y * v * (w n * w n * w n) = w (n + 2) * (w (n - 1) * w (n - 1)) - w (n - 2) * (w (n + 1) * w (n + 1)))
  end.
Definition tg : K := (3 * (x * x) + a) / (2 * y).
Lemma one_nz : 1 <> 0.
Proof using Kf char2. intros E. apply char2. rewrite E. ring. Qed.
Lemma twoP : nmul 2 PP = Some (tg * tg - x - x, tg * (x - (tg * tg - x - x)) - y).
Proof using Kf Kdec char2 y0.
  cbn [P_Group.nmul P_Group.gadd]. destruct (Kdec x x) as [_|E]; [|congruence]. destruct (Kdec y (- y)) as [E|_].
  - exfalso. apply (mul_nz 2 y char2 y0). transitivity (y + y); [ring|]. rewrite E at 2. ring.
  - reflexivity.
Qed.
Lemma spec_1 : spec 1.
Proof using Kf char2 w_0 w_1. unfold spec. rewrite nmul_1. split; [rewrite w_1; apply one_nz|]. change (1 - 1)%nat with O. rewrite w_0. split; [ring|lia]. Qed.
Lemma dbl_x : (x - (tg * tg - x - x)) * (4 * (y * y)) = psi3k.
Proof using Kf Kdec char2 y0 Pon. unfold tg, psi3k. rewrite b_eq. field. auto. Qed.
Lemma dbl_y : 4 * y * (tg * (x - (tg * tg - x - x)) - y) * (8 * (y * y * y)) = psi4k.
Proof using Kf Kdec char2 y0 Pon. unfold tg, psi4k. rewrite b_eq. field. auto. Qed.
Lemma spec_2 : spec 2.
Proof using Kf Kdec char2 y0 Pon w_0 w_1 w_2 w_3 w_4.
  unfold spec. rewrite twoP. change (2 + 1)%nat with 3%nat. change (2 - 1)%nat with 1%nat. change (2 + 2)%nat with 4%nat. change (2 - 2)%nat with 0%nat. rewrite w_0, w_1, w_2, w_3, w_4. repeat split.
  - apply mul_nz; assumption.
  - transitivity psi3k; [|ring]. rewrite <- dbl_x. ring.
  - intros _. transitivity psi4k; [|ring]. rewrite <- dbl_y. ring.
Qed.
(** The relation for (m, 2) and (m, 3). *)
Lemma eds2 m : (2 <= m)%nat -> (m + 2 <= N)%nat -> w (m + 2) * w (m - 2) = w (m + 1) * w (m - 1) * (4 * (y * y)) - psi3k * (w m * w m).
Proof using Kf w_1 w_2 w_3 eds.
  intros M L. pose proof (eds 2 (m - 2) ltac:(lia) ltac:(lia)) as H. replace (2 + 2 + (m - 2))%nat with (m + 2)%nat in H by lia. replace (2 + (m - 2))%nat with m in H by lia.
  change (2 + 1)%nat with 3%nat in H. change (2 - 1)%nat with 1%nat in H. rewrite w_1, w_2, w_3 in H. rewrite H. ring.
Qed.
Lemma eds3 m : (3 <= m)%nat -> (m + 3 <= N)%nat -> w (m + 3) * w (m - 3) = w (m + 1) * w (m - 1) * (psi3k * psi3k) - psi4k * (2 * y) * (w m * w m).
Proof using Kf w_2 w_3 w_4 eds.
  intros M L. pose proof (eds 3 (m - 3) ltac:(lia) ltac:(lia)) as H. replace (3 + 3 + (m - 3))%nat with (m + 3)%nat in H by lia. replace (3 + (m - 3))%nat with m in H by lia.
  change (3 + 1)%nat with 4%nat in H. change (3 - 1)%nat with 2%nat in H. rewrite w_2, w_3, w_4 in H. exact H.
Qed.
Lemma four_y : 4 * (y * y) <> 0.
Proof using Kf Kdec char2 y0. repeat apply mul_nz; assumption. Qed.

Lemma step n : (2 <= n)%nat -> (n + 3 <= N)%nat -> spec (n - 1) -> spec n -> spec (n + 1).
Proof using Kf Kdec char2 y0 Pon nonsing w_0 w_1 w_2 w_3 w_4 eds.
  intros Hn HN Sp Sn. unfold spec in *.
  assert (Enext: nmul (n + 1) PP = gadd PP (nmul n PP)) by (rewrite Nat.add_1_r; reflexivity).
  assert (Eprev: nmul (n - 1) PP = gadd (neg PP) (nmul n PP)) by (replace n with (S (n - 1)) at 2 by lia; apply prev).
  pose proof (nmul_on' n) as Con.
  replace (n - 1 + 1)%nat with n in Sp by lia. replace (n - 1 - 1)%nat with (n - 2)%nat in Sp by lia. replace (n - 1 + 2)%nat with (n + 1)%nat in Sp by lia. replace (n - 1 - 2)%nat with (n - 3)%nat in Sp by lia.
  replace (n + 1 + 1)%nat with (n + 2)%nat by lia. replace (n + 1 - 1)%nat with n by lia. replace (n + 1 + 2)%nat with (n + 3)%nat by lia. replace (n + 1 - 2)%nat with (n - 1)%nat by lia.
  destruct (nmul n PP) as [[u v]|] eqn:En.
  - destruct Sn as (Wn & Sx & Sy). specialize (Sy Hn). cbn [P_Group.on] in Con. destruct (Kdec u x) as [Eu|Nu].
    + (* nP = P or -P *) subst u. destruct (same_x K k0 k1 kadd kmul ksub kopp kdiv kinv Kf Kdec a b x v y Con Pon) as [Ev|Ev]; subst v.
      * (* nP = P *)
        assert (E0: nmul (n - 1) PP = None). { rewrite Eprev. rewrite (gadd_comm K k0 k1 kadd kmul ksub kopp kdiv kinv Kf Kdec char2 a b); [|apply (neg_on K k0 k1 kadd kmul ksub kopp kdiv kinv Kf a b PP Pon)|exact Pon]. apply (gadd_opp K k0 k1 kadd kmul ksub kopp kdiv kinv Kf Kdec char2 a b PP Pon). }
        rewrite E0 in Sp. rewrite Enext. change (gadd PP PP) with (nmul 2 PP). rewrite twoP. 
        assert (H4: (4 <= n)%nat). { destruct n as [|[|[|[|n]]]]; [lia|lia| | |lia]. - simpl Nat.sub in E0. rewrite nmul_1 in E0. discriminate. - simpl Nat.sub in E0. rewrite twoP in E0. discriminate. }
        rewrite Sp in Sy. assert (Sy': 4 * (y * y) * (w n * w n * w n) = - (w (n - 2) * (w (n + 1) * w (n + 1)))) by (transitivity (4 * y * y * (w n * w n * w n)); [ring|rewrite Sy; ring]). clear Sy.
        pose proof four_y as Y4.
        assert (Wp: w (n + 1) <> 0). { intros E. apply (mul_nz _ _ Y4 (mul_nz _ _ (mul_nz _ _ Wn Wn) Wn)). rewrite Sy', E. ring. }
        assert (Wm: w (n - 2) <> 0). { intros E. apply (mul_nz _ _ Y4 (mul_nz _ _ (mul_nz _ _ Wn Wn) Wn)). rewrite Sy', E. ring. }
        pose proof (eds2 n ltac:(lia) ltac:(lia)) as A2. rewrite Sp in A2.
        pose proof (eds3 n ltac:(lia) ltac:(lia)) as A3. rewrite Sp in A3.
        pose proof (eds2 (n - 1) ltac:(lia) ltac:(lia)) as B2. replace (n - 1 + 2)%nat with (n + 1)%nat in B2 by lia. replace (n - 1 - 2)%nat with (n - 3)%nat in B2 by lia. replace (n - 1 + 1)%nat with n in B2 by lia. replace (n - 1 - 1)%nat with (n - 2)%nat in B2 by lia. rewrite Sp in B2.
        assert (Wq: w (n - 3) <> 0). { intros E. rewrite E in B2. apply (mul_nz _ _ (mul_nz _ _ Wn Wm) Y4). transitivity (w n * w (n - 2) * (4 * (y * y)) - psi3k * (0 * 0)); [ring|]. rewrite <- B2. ring. }
        split; [exact Wp|]. split; [|intros _].
        -- apply (cancel (4 * (y * y) * w (n - 2))); [apply mul_nz; assumption|].
           transitivity ((x - (tg * tg - x - x)) * (4 * (y * y)) * (w (n - 2) * (w (n + 1) * w (n + 1)))); [ring|]. rewrite dbl_x.
           transitivity (4 * (y * y) * w n * (w (n + 2) * w (n - 2))); [|ring]. rewrite A2.
           transitivity (- (psi3k * (4 * (y * y) * (w n * w n * w n)))); [rewrite Sy'; ring|ring].
        -- rewrite Sp. apply (cancel (8 * (y * y * y) * w (n - 3))); [repeat apply mul_nz; assumption|].
           transitivity (4 * y * (tg * (x - (tg * tg - x - x)) - y) * (8 * (y * y * y)) * (w (n + 1) * w (n + 1)) * (w (n + 1) * w (n - 3))); [ring|]. rewrite dbl_y, B2.
           transitivity (8 * (y * y * y) * (w n * w n) * (w (n + 3) * w (n - 3))); [|ring]. rewrite A3.
           transitivity (psi4k * (4 * (y * y)) * w n * (w (n - 2) * (w (n + 1) * w (n + 1)))); [ring|].
           transitivity (psi4k * (4 * (y * y)) * w n * (- (4 * (y * y) * (w n * w n * w n)))); [rewrite Sy'; ring|ring].
      * (* nP = -P *)
        assert (E0: gadd PP (Some (x, - y)) = None) by (apply (gadd_opp K k0 k1 kadd kmul ksub kopp kdiv kinv Kf Kdec char2 a b PP Pon)).
        rewrite Enext, E0.
        assert (E2: nmul (n - 1) PP = neg (nmul 2 PP)). { rewrite Eprev. change (Some (x, - y)) with (neg PP). cbn [P_Group.nmul]. rewrite gadd_0_r. rewrite <- (neg_gadd K k0 k1 kadd kmul ksub kopp kdiv kinv Kf Kdec char2 a b); [reflexivity|exact Pon|exact Pon]. }
        rewrite twoP in E2. cbn [P_Group.neg] in E2. rewrite E2 in Sp. destruct Sp as (Wp & _).
        assert (E3: w (n + 1) * w (n - 1) = 0) by (rewrite <- Sx; ring). destruct (integral _ _ E3) as [E|E]; [exact E|contradiction].
    + (* chord *)
      destruct (chord_sum u v Con Nu) as (l & Es & L & A). destruct (chord_diff u v Con Nu) as (s & t & Ed & Es'). rewrite Ed in Eprev. rewrite Eprev in Sp. rewrite Enext, Es.
      destruct Sp as (Wm & Px & _).
      assert (Nd: x - u <> 0) by (intros E; apply Nu; symmetry; apply sub_0, E).
      assert (Wp: w (n + 1) <> 0). { intros E. apply (mul_nz _ _ Nd (mul_nz _ _ Wn Wn)). rewrite Sx, E. ring. }
      set (u' := l * l - x - u). set (v' := l * (x - u') - y).
      assert (D: x - u' = x - s + 4 * y * v / ((x - u) * (x - u))).
      { unfold u'. rewrite Es'. assert (L': l = (v - y) / (u - x)). { transitivity (l * (u - x) / (u - x)); [field; intros E; apply Nu, sub_0, E|]. rewrite L. reflexivity. }
        rewrite L'. field. split; [exact Nd|]. intros E; apply Nu, sub_0, E. }
      assert (Sx1: (x - u') * (w (n + 1) * w (n + 1)) = w (n + 2) * w n).
      { apply (cancel (w (n - 1) * w (n - 1))); [apply mul_nz; assumption|]. rewrite D.
        assert (Q: (w (n + 1) * w (n - 1)) * (w (n + 1) * w (n - 1)) * (4 * y * v / ((x - u) * (x - u))) = 4 * y * v * (w n * w n * w n) * w n). { rewrite <- Sx. field. exact Nd. }
        transitivity ((x - s) * (w (n - 1) * w (n - 1)) * (w (n + 1) * w (n + 1)) + (w (n + 1) * w (n - 1)) * (w (n + 1) * w (n - 1)) * (4 * y * v / ((x - u) * (x - u)))); [ring|].
        rewrite Px, Q, Sy. ring. }
      split; [exact Wp|]. split; [exact Sx1|]. intros _.
      assert (Id: 4 * y * v' * (x - u) = 4 * (y * y) * (x - u') - psi3k - (x - u) * (x - u) * ((x - u') * (x - u'))).
      { unfold psi3k, v', u'. rewrite b_eq, A. ring. }
      pose proof (eds2 (n + 1) ltac:(lia) ltac:(lia)) as B2. replace (n + 1 + 2)%nat with (n + 3)%nat in B2 by lia. replace (n + 1 - 2)%nat with (n - 1)%nat in B2 by lia. replace (n + 1 + 1)%nat with (n + 2)%nat in B2 by lia. replace (n + 1 - 1)%nat with n in B2 by lia.
      apply (cancel (w (n - 1))); [assumption|].
      transitivity (4 * y * v' * (w (n + 1) * w (n + 1)) * (w (n + 1) * w (n - 1))); [ring|]. rewrite <- Sx.
      transitivity (w (n + 3) * w (n - 1) * (w n * w n) - (w (n - 1) * w (n + 2)) * (w (n - 1) * w (n + 2))); [|ring]. rewrite B2, <- Sx1.
      assert (Q: w (n - 1) * w (n + 2) = (x - u) * (x - u') * (w n * w (n + 1))).
      { apply (cancel (w (n + 1) * w n)); [apply mul_nz; assumption|]. transitivity ((w (n + 1) * w (n - 1)) * (w (n + 2) * w n)); [ring|]. rewrite <- Sx, <- Sx1. ring. }
      rewrite Q. transitivity (4 * y * v' * (x - u) * ((w (n + 1) * w (n + 1)) * (w n * w n))); [ring|]. rewrite Id. ring.
  - (* nP = O *)
    rewrite Enext. cbn [P_Group.gadd]. cbn [P_Group.neg] in Eprev. change (gadd (Some (x, - y)) None) with (Some (x, - y)) in Eprev. rewrite Eprev in Sp. destruct Sp as (Wm & Px & Py).
    assert (H3: (3 <= n)%nat). { destruct n as [|[|[|n]]]; [lia|lia| |lia]. rewrite twoP in En. discriminate. }
    specialize (Py ltac:(lia)). rewrite Sn in Py. pose proof four_y as Y4.
    assert (Py': 4 * (y * y) * (w (n - 1) * w (n - 1) * w (n - 1)) = - (w (n + 1) * (w (n - 2) * w (n - 2)))).
    { transitivity (- (4 * y * - y * (w (n - 1) * w (n - 1) * w (n - 1)))); [ring|]. rewrite Py. ring. } clear Py.
    assert (Wp: w (n + 1) <> 0). { intros E. apply (mul_nz _ _ Y4 (mul_nz _ _ (mul_nz _ _ Wm Wm) Wm)). rewrite Py', E. ring. }
    pose proof (eds2 n ltac:(lia) ltac:(lia)) as A2. rewrite Sn in A2.
    split; [exact Wp|]. split; [rewrite Sn; ring|]. intros _. rewrite Sn.
    assert (W3: w (n - 1) * w (n - 1) * w (n - 1) <> 0) by (repeat apply mul_nz; assumption).
    apply (cancel (4 * (y * y) * (w (n - 1) * w (n - 1) * w (n - 1)))); [apply mul_nz; assumption|].
    transitivity (w (n - 1) * w (n + 1) * ((w (n + 1) * w (n - 1) * (4 * (y * y))) * (w (n + 1) * w (n - 1) * (4 * (y * y))))); [ring|].
    assert (A2': w (n + 1) * w (n - 1) * (4 * (y * y)) = w (n + 2) * w (n - 2)) by (rewrite A2; ring). rewrite A2'.
    rewrite Py'. ring.
Qed.
Theorem spec_all n : (1 <= n)%nat -> (n + 2 <= N)%nat -> spec n.
Proof using Kf Kdec char2 y0 Pon nonsing w_0 w_1 w_2 w_3 w_4 eds.
  intros H1 H2. assert (W: (n = 1%nat \/ spec (n - 1)) /\ spec n); [|apply W].
  induction n as [|n IH]; [lia|]. destruct n as [|n].
  - split; [left; reflexivity|exact spec_1].
  - destruct (IH ltac:(lia) ltac:(lia)) as (P & Q). split; [right; simpl Nat.sub; exact Q|]. destruct n as [|n]; [exact spec_2|].
    destruct P as [P|P]; [lia|]. replace (S (S (S n))) with (S (S n) + 1)%nat by lia. apply step; try assumption; lia.
Qed.
End W.
End Mult.
