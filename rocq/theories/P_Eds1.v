(** Elliptic divisibility relation, generic case: a sequence with the initial values and the duplication recurrences of the
    division polynomials and no zero among its first N members satisfies
    w(m+n) w(m-n) = w(m+1) w(m-1) w(n)^2 - w(n+1) w(n-1) w(m)^2  for m + n <= N.
    The proof follows the multiples of the point (x, y) on y^2 = x^3 + a x + b. *)
From Coq Require Import Field Ring Setoid Lia Arith.

Section Eds.
Variable K : Type.
Variables (k0 k1 : K) (kadd kmul ksub : K -> K -> K) (kopp : K -> K) (kdiv : K -> K -> K) (kinv : K -> K).
Variable Kf : field_theory k0 k1 kadd kmul ksub kopp kdiv kinv (@eq K).
Variable Kdec : forall x y : K, {x = y} + {x <> y}.
Add Field KField : Kf.
Notation "0" := k0. Notation "1" := k1.
Infix "+" := kadd. Infix "*" := kmul. Infix "-" := ksub. Notation "- x" := (kopp x). Infix "/" := kdiv.
Notation "2" := (1 + 1). Notation "3" := (1 + 1 + 1). Notation "4" := ((1 + 1) * (1 + 1)). Notation "5" := ((1 + 1) * (1 + 1) + 1).
Notation "6" := ((1 + 1 + 1) * (1 + 1)). Notation "8" := ((1 + 1) * (1 + 1) * (1 + 1)).
Variable char2 : 2 <> 0.
Variables a x y : K.
Hypothesis y0 : y <> 0.

Lemma e_integral u v : u * v = 0 -> u = 0 \/ v = 0.
Proof using Kf Kdec.
  intros H. destruct (Kdec u 0) as [E|N]; [left; exact E|right]. assert (v = (u * v) / u) by (field; exact N). rewrite H in H0. rewrite H0. field. exact N.
Qed.
Lemma e_mul u v : u <> 0 -> v <> 0 -> u * v <> 0.
Proof using Kf Kdec. intros A B E. destruct (e_integral _ _ E); auto. Qed.
Lemma e_sub_0 u v : u - v = 0 -> u = v.
Proof using Kf. intros H. transitivity (u - v + v); [ring|rewrite H; ring]. Qed.
Lemma e_cancel z u v : z <> 0 -> z * u = z * v -> u = v.
Proof using Kf Kdec. intros N H. apply e_sub_0. assert (E: z * (u - v) = 0) by (transitivity (z * u - z * v); [ring|rewrite H; ring]). destruct (e_integral _ _ E) as [F|F]; [contradiction|exact F]. Qed.

Lemma four_nz : 4 <> 0.
Proof using Kf Kdec char2. apply e_mul; exact char2. Qed.
Lemma opp_nz u : u <> 0 -> - u <> 0.
Proof using Kf. intros H E. apply H. transitivity (- - u); [ring|rewrite E; ring]. Qed.
Hint Resolve four_nz e_mul opp_nz : core.

Definition b : K := y * y - x * x * x - a * x.
Definition psi3v : K := 3 * (x * x * x * x) + 6 * a * (x * x) + 3 * 4 * b * x - a * a.
Definition psi4v : K := 4 * y * (x * x * x * x * x * x + 5 * a * (x * x * x * x) + 4 * 5 * b * (x * x * x) - 5 * (a * a) * (x * x) - 4 * a * b * x - 8 * (b * b) - a * a * a).

Definition tang : K := (3 * (x * x) + a) / (2 * y).
(** (X m, Y m) is m times (x, y), as long as no X m equals x (m >= 2). *)
Fixpoint pts (m : nat) : K * K :=
  match m with
  | O => (x, y)
  | S m' =>
      match m' with
      | O => (x, y)
      | S m'' =>
          match m'' with
          | O => let X := tang * tang - x - x in (X, tang * (x - X) - y)
          | S _ => let (u, v) := pts m' in let l := (v - y) / (u - x) in let X := l * l - x - u in (X, l * (x - X) - y)
          end
      end
  end.
Definition X (m : nat) := fst (pts m).
Definition Y (m : nat) := snd (pts m).
Definition d (m : nat) := x - X m.
Fixpoint hh (m : nat) : K * K :=
  match m with
  | O => (0, 1)
  | S m' =>
      match m' with
      | O => (1, 2 * y)
      | S _ => let (u, v) := hh m' in (v, d m * (v * v) / u)
      end
  end.
Definition h (m : nat) := fst (hh m).

Lemma X_1 : X 1 = x. Proof using. reflexivity. Qed.
Lemma Y_1 : Y 1 = y. Proof using. reflexivity. Qed.
Lemma X_2 : X 2 = tang * tang - x - x. Proof using. reflexivity. Qed.
Lemma Y_2 : Y 2 = tang * (x - X 2) - y. Proof using. reflexivity. Qed.
Lemma X_S m : (2 <= m)%nat -> X (S m) = (Y m - y) / (X m - x) * ((Y m - y) / (X m - x)) - x - X m.
Proof using. destruct m as [|[|m]]; [lia|lia|]. intros _. unfold X at 1. change (pts (S (S (S m)))) with (let (u, v) := pts (S (S m)) in let l := (v - y) / (u - x) in let X := l * l - x - u in (X, l * (x - X) - y)). unfold X, Y. destruct (pts (S (S m))) as [u v]. reflexivity. Qed.
Lemma Y_S m : (2 <= m)%nat -> Y (S m) = (Y m - y) / (X m - x) * (x - X (S m)) - y.
Proof using. destruct m as [|[|m]]; [lia|lia|]. intros _. unfold X, Y. change (pts (S (S (S m)))) with (let (u, v) := pts (S (S m)) in let l := (v - y) / (u - x) in let X := l * l - x - u in (X, l * (x - X) - y)). destruct (pts (S (S m))) as [u v]. reflexivity. Qed.
Lemma hh_snd m : snd (hh m) = h (S m).
Proof using. unfold h. destruct m as [|m]; [reflexivity|]. change (hh (S (S m))) with (let (u, v) := hh (S m) in (v, d (S (S m)) * (v * v) / u)). destruct (hh (S m)); reflexivity. Qed.
Lemma h_0 : h 0 = 0. Proof using. reflexivity. Qed.
Lemma h_1 : h 1 = 1. Proof using. reflexivity. Qed.
Lemma h_2 : h 2 = 2 * y. Proof using. reflexivity. Qed.
Lemma h_SS m : (1 <= m)%nat -> h (S (S m)) = d (S m) * (h (S m) * h (S m)) / h m.
Proof using.
  intros M. destruct m as [|m]; [lia|]. rewrite <- hh_snd. change (hh (S (S m))) with (let (u, v) := hh (S m) in (v, d (S (S m)) * (v * v) / u)).
  rewrite <- hh_snd. unfold h. destruct (hh (S m)); reflexivity.
Qed.

Definition cv (u v : K) : Prop := v * v = u * u * u + a * u + b.
Lemma cv_1 : cv x y. Proof using Kf. unfold cv, b. ring. Qed.
Lemma chord_ok u v : u - x <> 0 -> cv u v ->
  let l := (v - y) / (u - x) in let X' := l * l - x - u in let Y' := l * (x - X') - y in
  cv X' Y' /\ (X' - x <> 0 -> u = (Y' + y) / (X' - x) * ((Y' + y) / (X' - x)) - x - X').
Proof using Kf.
  intros N C l X' Y'. unfold cv, b in C. assert (L: l * (u - x) = v - y) by (unfold l; field; exact N).
  assert (V: v = l * (u - x) + y) by (rewrite L; ring). assert (Ea: l * l * (u - x) + 2 * l * y = u * u + u * x + x * x + a).
  { assert (G: (u - x) * (l * l * (u - x) + 2 * l * y - (u * u + u * x + x * x + a)) = 0).
    { transitivity ((l * (u - x) + y) * (l * (u - x) + y) - (u * u * u + a * u + (y * y - x * x * x - a * x))); [ring|]. rewrite <- V, <- C. ring. }
    apply e_sub_0. transitivity ((u - x) * (l * l * (u - x) + 2 * l * y - (u * u + u * x + x * x + a)) / (u - x)); [field; exact N|]. rewrite G. field. exact N. }
  assert (A: a = l * l * (u - x) + 2 * l * y - (u * u + u * x + x * x)) by (rewrite Ea; ring).
  split.
  - unfold cv, b, Y', X'. rewrite A. ring.
  - intros N'. assert (Q: (Y' + y) / (X' - x) = - l) by (unfold Y'; field; exact N'). rewrite Q. unfold X'. ring.
Qed.
Lemma cv_2 : cv (X 2) (Y 2).
Proof using Kf Kdec y0 char2.
  rewrite Y_2, X_2. unfold cv, b, tang. field; repeat split; auto using four_nz.
Qed.
Lemma prev_2 : X 2 - x <> 0 -> X 1 = (Y 2 + y) / (X 2 - x) * ((Y 2 + y) / (X 2 - x)) - x - X 2.
Proof using Kf. intros N. assert (Q: (Y 2 + y) / (X 2 - x) = - tang) by (rewrite Y_2; field; exact N). rewrite Q, X_1, X_2. ring. Qed.

Definition good (B : nat) : Prop := forall m, (2 <= m <= B)%nat -> d m <> 0.
Lemma good_sub B m : good B -> (2 <= m <= B)%nat -> X m - x <> 0.
Proof using Kf. intros G M E. apply (G m M). unfold d. transitivity (- (X m - x)); [ring|rewrite E; ring]. Qed.
Lemma pts_ok B : good B -> forall m, (2 <= m <= S B)%nat -> cv (X m) (Y m) /\ (X m - x <> 0 -> X (pred m) = (Y m + y) / (X m - x) * ((Y m + y) / (X m - x)) - x - X m).
Proof using Kf Kdec y0 char2.
  intros G. induction m as [|m IH]; [lia|]. intros M. destruct (Nat.eq_dec m 1) as [->|N1]; [split; [exact cv_2|exact prev_2]|].
  assert (IH': (2 <= m <= S B)%nat) by lia. destruct (IH IH') as (C & _). pose proof (good_sub B m G ltac:(lia)) as N.
  destruct (chord_ok (X m) (Y m) N C) as (C' & P'). simpl pred. rewrite Y_S by lia. rewrite X_S by lia. split; assumption.
Qed.
Lemma next_prev B m : good B -> (2 <= m <= B)%nat -> cv (X m) (Y m) /\ d m <> 0 /\
  X (S m) = (Y m - y) * (Y m - y) / (d m * d m) - x - X m /\ X (pred m) = (Y m + y) * (Y m + y) / (d m * d m) - x - X m.
Proof using Kf Kdec y0 char2.
  intros G M. destruct (pts_ok B G m ltac:(lia)) as (C & P). pose proof (good_sub B m G M) as N. pose proof (G m M) as N'. unfold d in N'. repeat split; [exact C|exact N'| |].
  - rewrite X_S by lia. unfold d. field. split; assumption.
  - rewrite (P N). unfold d. field. split; assumption.
Qed.
(** x-coordinates of the neighbours, seen from two points. *)
Lemma sym_id u v u' v' D D' : D = x - u -> D' = x - u' -> D <> 0 -> D' <> 0 -> cv u v -> cv u' v' ->
  ((v - y) * (v - y) / (D * D) - x - u - u') * ((v + y) * (v + y) / (D * D) - x - u - u') * (D * D) =
  (u - ((v' - y) * (v' - y) / (D' * D') - x - u')) * (u - ((v' + y) * (v' + y) / (D' * D') - x - u')) * (D' * D').
Proof using Kf.
  intros HD HD' N N' C C'.
  assert (E1: ((v - y) * (v - y) / (D * D) - x - u - u') * ((v + y) * (v + y) / (D * D) - x - u - u') * (D * D) =
    ((v * v - y * y) * (v * v - y * y) - 2 * (v * v + y * y) * (x + u + u') * (D * D) + (x + u + u') * (x + u + u') * (D * D) * (D * D)) / (D * D)) by (field; exact N).
  assert (E2: (u - ((v' - y) * (v' - y) / (D' * D') - x - u')) * (u - ((v' + y) * (v' + y) / (D' * D') - x - u')) * (D' * D') =
    ((v' * v' - y * y) * (v' * v' - y * y) - 2 * (v' * v' + y * y) * (x + u + u') * (D' * D') + (x + u + u') * (x + u + u') * (D' * D') * (D' * D')) / (D' * D')) by (field; exact N').
  rewrite E1, E2, C, C', HD, HD'. unfold b. field. rewrite HD in N. rewrite HD' in N'. split; assumption.
Qed.
Lemma second_id u v D : D = x - u -> D <> 0 -> cv u v ->
  (x - ((v - y) * (v - y) / (D * D) - x - u)) * (x - ((v + y) * (v + y) / (D * D) - x - u)) * (D * D) = 4 * (y * y) * D - psi3v.
Proof using Kf.
  intros HD N C.
  assert (E1: (x - ((v - y) * (v - y) / (D * D) - x - u)) * (x - ((v + y) * (v + y) / (D * D) - x - u)) * (D * D) =
    ((v * v - y * y) * (v * v - y * y) - 2 * (v * v + y * y) * (x + u + x) * (D * D) + (x + u + x) * (x + u + x) * (D * D) * (D * D)) / (D * D)) by (field; exact N).
  rewrite E1, C, HD. unfold psi3v, b. field. rewrite HD in N. exact N.
Qed.

Lemma h_nz B : good B -> forall m, (1 <= m <= S B)%nat -> h m <> 0.
Proof using Kf Kdec y0 char2.
  intros G. assert (one : 1 <> 0). { intros E. apply char2. rewrite E. ring. }
  assert (W: forall m, (1 <= m)%nat -> (m <= S B)%nat -> h m <> 0 /\ ((S m <= S B)%nat -> h (S m) <> 0)).
  { induction m as [|m IH]; [lia|]. intros _ M. destruct m as [|m].
    - split; [rewrite h_1; exact one|]. intros _. rewrite h_2. apply e_mul; assumption.
    - destruct (IH ltac:(lia) ltac:(lia)) as (A & C). specialize (C M). split; [exact C|]. intros M'. rewrite h_SS by lia. intros E.
      assert (F: d (S (S m)) * (h (S (S m)) * h (S (S m))) = 0). { transitivity (d (S (S m)) * (h (S (S m)) * h (S (S m))) / h (S m) * h (S m)); [field; exact A|]. rewrite E. ring. }
      revert F. repeat apply e_mul; try assumption. apply G. lia. }
  intros m M. apply (W m); lia.
Qed.
Lemma h_mid B m : good B -> (1 <= m <= S B)%nat -> h (S m) * h (pred m) = d m * (h m * h m).
Proof using Kf Kdec y0 char2.
  intros G M. destruct m as [|[|m]]; [lia| |].
  - unfold d. rewrite X_1. simpl pred. rewrite h_0. ring.
  - simpl pred. rewrite h_SS by lia. field. apply (h_nz B G). lia.
Qed.
Lemma d_2 : d 2 = psi3v / (4 * (y * y)).
Proof using Kf Kdec y0 char2. unfold d. rewrite X_2. unfold tang, psi3v, b. field; repeat split; auto using four_nz. Qed.

Lemma rel B : good B -> forall n, (1 <= n)%nat ->
  (forall k, (n + n + k <= S (S B))%nat -> h (n + n + k) * h k = (X n - X (n + k)) * (h (n + k) * h (n + k)) * (h n * h n)) /\
  (forall k, (S n + S n + k <= S (S B))%nat -> h (S n + S n + k) * h k = (X (S n) - X (S n + k)) * (h (S n + k) * h (S n + k)) * (h (S n) * h (S n))).
Proof using Kf Kdec y0 char2.
  intros G. induction n as [|n IH]; [lia|]. intros _. destruct n as [|n].
  - clear IH. split; intros k Hk.
    + rewrite X_1, h_1. change (1 + 1 + k)%nat with (S (S k)). change (1 + k)%nat with (S k). pose proof (h_mid B (S k) G ltac:(lia)) as E. simpl pred in E. rewrite E. unfold d. ring.
    + change (2 + 2 + k)%nat with (S (S (S (S k)))). change (2 + k)%nat with (S (S k)). destruct k as [|k]; [rewrite h_0; ring|].
      pose proof (h_mid B (S (S k)) G ltac:(lia)) as E0. simpl pred in E0.
      pose proof (h_mid B (S (S (S k))) G ltac:(lia)) as E1. simpl pred in E1.
      pose proof (h_mid B (S (S (S (S k)))) G ltac:(lia)) as E2. simpl pred in E2.
      pose proof (h_nz B G (S (S (S k))) ltac:(lia)) as N.
      destruct (next_prev B (S (S (S k))) G ltac:(lia)) as (C & Nd & Xn & Xp). simpl pred in Xp.
      pose proof (second_id _ _ _ (eq_refl : d (S (S (S k))) = x - X (S (S (S k)))) Nd C) as Q. rewrite <- Xn, <- Xp in Q.
      change (x - X (S (S (S (S k))))) with (d (S (S (S (S k))))) in Q. change (x - X (S (S k))) with (d (S (S k))) in Q.
      apply (e_cancel (h (S (S (S k))) * h (S (S (S k))))); [apply e_mul; exact N|].
      transitivity ((h (S (S (S (S (S k))))) * h (S (S (S k)))) * (h (S (S (S k))) * h (S k))); [ring|]. rewrite E2, E0.
      transitivity (d (S (S (S (S k)))) * d (S (S k)) * ((h (S (S (S (S k)))) * h (S (S k))) * (h (S (S (S (S k)))) * h (S (S k))))); [ring|]. rewrite E1.
      transitivity ((d (S (S (S (S k)))) * d (S (S k)) * (d (S (S (S k))) * d (S (S (S k))))) * (h (S (S (S k))) * h (S (S (S k)))) * (h (S (S (S k))) * h (S (S (S k))))); [ring|]. rewrite Q.
      assert (D2: 4 * (y * y) * d 2 = psi3v) by (rewrite d_2; field; repeat split; auto using four_nz). rewrite h_2.
      assert (XX: X 2 - X (S (S (S k))) = d (S (S (S k))) - d 2) by (unfold d; ring). rewrite XX. rewrite <- D2. ring.
  - destruct (IH ltac:(lia)) as (I0 & I1). split; [exact I1|]. clear IH. intros k Hk. destruct k as [|k].
    { rewrite h_0, !Nat.add_0_r. ring. }
    (* n+1 = S(S n) "middle", m = S (S (S n)) + S k *)
    set (N := S (S n)) in *. set (M := (S N + S k)%nat). 
    pose proof (I0 (S (S (S k))) ltac:(unfold N in *; lia)) as R0. pose proof (I1 (S k) ltac:(unfold N in *; lia)) as R1. pose proof (I1 (S (S (S k))) ltac:(unfold N in *; lia)) as R2.
    replace (S n + S n + S (S (S k)))%nat with (N + N + S k)%nat in R0 by (unfold N; lia). replace (S n + S (S (S k)))%nat with M in R0 by (unfold M, N; lia).
    replace (N + S k)%nat with (pred M) in R1 by (unfold M; lia).
    replace (N + N + S (S (S k)))%nat with (S N + S N + S k)%nat in R2 by lia. replace (N + S (S (S k)))%nat with (S M) in R2 by (unfold M; lia).
    pose proof (h_mid B M G ltac:(unfold M, N in *; lia)) as EM. pose proof (h_mid B N G ltac:(unfold M, N in *; lia)) as EN.
    change (pred N) with (S n) in EN.
    destruct (next_prev B M G ltac:(unfold M, N in *; lia)) as (CM & NM & XMn & XMp).
    destruct (next_prev B N G ltac:(unfold M, N in *; lia)) as (CN & NN & XNn & XNp). change (pred N) with (S n) in XNp.
    pose proof (sym_id _ _ _ _ _ _ (eq_refl : d N = x - X N) (eq_refl : d M = x - X M) NN NM CN CM) as Q. rewrite <- XNn, <- XNp, <- XMn, <- XMp in Q.
    pose proof (h_nz B G (N + N + S k) ltac:(unfold N in *; lia)) as Z1. pose proof (h_nz B G (S (S (S k))) ltac:(unfold N in *; lia)) as Z2.
    apply (e_cancel (h (N + N + S k) * h (S (S (S k))))); [apply e_mul; assumption|].
    transitivity ((h (S N + S N + S k) * h (S (S (S k)))) * (h (N + N + S k) * h (S k))); [ring|]. rewrite R2, R1, R0.
    transitivity ((X N - X (S M)) * (X N - X (pred M)) * ((h (S M) * h (pred M)) * (h (S M) * h (pred M))) * (h N * h N) * (h N * h N)); [ring|]. rewrite EM.
    transitivity ((X N - X (S M)) * (X N - X (pred M)) * (d M * d M) * (h M * h M) * (h M * h M) * (h N * h N) * (h N * h N)); [ring|]. rewrite <- Q.
    transitivity ((X (S N) - X M) * (X (S n) - X M) * (h M * h M) * (h M * h M) * ((d N * (h N * h N)) * (d N * (h N * h N)))); [ring|]. rewrite <- EN.
    ring.
Qed.
Lemma h_eds B n k : good B -> (1 <= n)%nat -> (n + n + k <= S (S B))%nat ->
  h (n + n + k) * h k = h (S (n + k)) * h (pred (n + k)) * (h n * h n) - h (S n) * h (pred n) * (h (n + k) * h (n + k)).
Proof using Kf Kdec y0 char2.
  intros G N M. destruct (rel B G n N) as (R & _). rewrite (R k M). rewrite (h_mid B (n + k) G), (h_mid B n G) by lia. unfold d. ring.
Qed.
Lemma h_3 : h 3 = psi3v.
Proof using Kf Kdec y0 char2. rewrite h_SS by lia. rewrite h_1, h_2, d_2. field. repeat split; auto using four_nz. intros E. apply char2. rewrite E. ring. Qed.
Lemma h_4 : d 2 <> 0 -> h 4 = psi4v.
Proof using Kf Kdec y0 char2.
  intros N. assert (N': psi3v <> 0). { intros E. apply N. rewrite d_2, E. field; repeat split; auto using four_nz. }
  rewrite h_SS by lia. rewrite h_2, h_3. unfold d. rewrite X_S by lia.
  assert (D: X 2 - x = - psi3v / (4 * (y * y))). { transitivity (- d 2); [unfold d; ring|]. rewrite d_2. field; repeat split; auto using four_nz. }
  assert (V: Y 2 = tang * (psi3v / (4 * (y * y))) - y) by (rewrite Y_2; fold (d 2); rewrite d_2; reflexivity).
  rewrite V, D.
  assert (U: X 2 = x - psi3v / (4 * (y * y))) by (transitivity (x - d 2); [unfold d; ring|rewrite d_2; reflexivity]). rewrite U.
  assert (F: forall p3, p3 <> 0 ->
    (x - ((tang * (p3 / (4 * (y * y))) - y - y) / (- p3 / (4 * (y * y))) * ((tang * (p3 / (4 * (y * y))) - y - y) / (- p3 / (4 * (y * y)))) - x - (x - p3 / (4 * (y * y))))) * (p3 * p3) / (2 * y) =
    ((3 * x - p3 / (4 * (y * y))) * (p3 * p3) - (tang * p3 - 8 * (y * y * y)) * (tang * p3 - 8 * (y * y * y))) / (2 * y)).
  { intros p3 Np. field. repeat split; auto using four_nz. }
  rewrite (F _ N'). unfold tang, psi4v, psi3v, b. field; repeat split; auto using four_nz.
Qed.

Section W.
Variable w : nat -> K.
Variable N : nat.
Hypothesis w_0 : w 0 = 0.
Hypothesis w_1 : w 1 = 1.
Hypothesis w_2 : w 2 = 2 * y.
Hypothesis w_3 : w 3 = psi3v.
Hypothesis w_4 : w 4 = psi4v.
Hypothesis w_odd : forall m, (2 <= m)%nat -> (m + m + 1 <= N)%nat -> w (m + m + 1) = w (m + 2) * (w m * w m * w m) - w (m - 1) * (w (m + 1) * w (m + 1) * w (m + 1)).
Hypothesis w_even : forall m, (3 <= m)%nat -> (m + m <= N)%nat -> 2 * y * w (m + m)%nat = w m * (w (m + 2) * (w (m - 1) * w (m - 1)) - w (m - 2) * (w (m + 1) * w (m + 1))).
Hypothesis w_nz : forall m, (1 <= m <= N)%nat -> w m <> 0.

Lemma h_w : forall k, (k <= N)%nat -> good (k - 1) /\ forall j, (j <= k)%nat -> h j = w j.
Proof using Kf Kdec y0 char2 w_0 w_1 w_2 w_3 w_4 w_odd w_even w_nz.
  induction k as [|k IH].
  { intros _. split; [intros m M; lia|]. intros j J. replace j with 0%nat by lia. rewrite h_0, w_0. reflexivity. }
  intros KN. destruct (IH ltac:(lia)) as (G & E).
  assert (V: h (S k) = w (S k)).
  { destruct (le_lt_dec (S k) 4) as [L|L].
    - destruct k as [|[|[|[|k]]]]; [| | | |lia].
      + rewrite h_1, w_1. reflexivity.
      + rewrite h_2, w_2. reflexivity.
      + rewrite h_3, w_3. reflexivity.
      + rewrite w_4. apply h_4. intros D. apply (w_nz 3 ltac:(lia)). rewrite <- (E 3%nat) by lia. rewrite h_SS, D by lia. rewrite h_1. field. intros Z1. apply char2. rewrite Z1. ring.
    - destruct (Nat.Even_or_Odd (S k)) as [(j & J)|(j & J)].
      + assert (Hj: (3 <= j)%nat) by lia. apply (e_cancel (2 * y)); [apply e_mul; assumption|]. replace (S k) with (j + j)%nat by lia.
        rewrite w_even by lia. pose proof (h_eds (k - 1) (j - 1) 2 G ltac:(lia) ltac:(lia)) as H. rewrite h_2 in H.
        replace (j - 1 + (j - 1) + 2)%nat with (j + j)%nat in H by lia. replace (j - 1 + 2)%nat with (j + 1)%nat in H by lia.
        replace (S (j + 1)) with (j + 2)%nat in H by lia. replace (pred (j + 1)) with j in H by lia. replace (S (j - 1)) with j in H by lia. replace (pred (j - 1)) with (j - 2)%nat in H by lia.
        rewrite <- !E by lia. transitivity (h (j + j) * (2 * y)); [ring|]. rewrite H. ring.
      + assert (Hj: (2 <= j)%nat) by lia. replace (S k) with (j + j + 1)%nat by lia.
        rewrite w_odd by lia. pose proof (h_eds (k - 1) j 1 G ltac:(lia) ltac:(lia)) as H. rewrite h_1 in H.
        replace (S (j + 1)) with (j + 2)%nat in H by lia. replace (pred (j + 1)) with j in H by lia. replace (pred j) with (j - 1)%nat in H by lia. replace (S j) with (j + 1)%nat in H by lia.
        rewrite <- !E by lia. transitivity (h (j + j + 1) * 1); [ring|]. rewrite H. ring. }
  split.
  - intros m M. destruct (Nat.eq_dec m k) as [->|Nm]; [|apply G; lia]. intros D. apply (w_nz (S k) ltac:(lia)). rewrite <- V. destruct k as [|k]; [lia|]. rewrite h_SS, D by lia. field.
    rewrite E by lia. apply w_nz. lia.
  - intros j J. destruct (Nat.eq_dec j (S k)) as [->|Nj]; [exact V|apply E; lia].
Qed.
Theorem w_eds n k : (1 <= n)%nat -> (n + n + k <= N)%nat ->
  w (n + n + k) * w k = w (n + k + 1) * w (n + k - 1) * (w n * w n) - w (n + 1) * w (n - 1) * (w (n + k) * w (n + k)).
Proof using Kf Kdec y0 char2 w_0 w_1 w_2 w_3 w_4 w_odd w_even w_nz.
  intros Hn HN. destruct (h_w N ltac:(lia)) as (G & E). rewrite <- !E by lia. pose proof (h_eds (N - 1) n k G Hn ltac:(lia)) as H.
  replace (S (n + k)) with (n + k + 1)%nat in H by lia. replace (pred (n + k)) with (n + k - 1)%nat in H by lia. replace (S n) with (n + 1)%nat in H by lia. replace (pred n) with (n - 1)%nat in H by lia. exact H.
Qed.
End W.
End Eds.
