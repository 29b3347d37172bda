(** The group law of y^2 = x^3 + a x + b over a field of characteristic other than 2. *)
From Coq Require Import Field Ring Setoid List Lia Arith.
Import ListNotations.

Section Group.
Variable K : Type.
Variables (k0 k1 : K) (kadd kmul ksub : K -> K -> K) (kopp : K -> K) (kdiv : K -> K -> K) (kinv : K -> K).
Variable Kf : field_theory k0 k1 kadd kmul ksub kopp kdiv kinv (@eq K).
Variable Kdec : forall x y : K, {x = y} + {x <> y}.
Add Field KField : Kf.
Notation "0" := k0. Notation "1" := k1.
Infix "+" := kadd. Infix "*" := kmul. Infix "-" := ksub. Notation "- x" := (kopp x). Infix "/" := kdiv.
Notation "2" := (1 + 1). Notation "3" := (1 + 1 + 1).
Variable char2 : 2 <> 0.
Variables a b : K.

Lemma k_integral x y : x * y = 0 -> x = 0 \/ y = 0.
Proof.
  intros H. destruct (Kdec x 0) as [E|N]; [left; exact E|right]. assert (y = (x * y) / x) by (field; exact N). rewrite H in H0. rewrite H0. field. exact N.
Qed.
Lemma k_cancel x y z : x <> 0 -> x * y = x * z -> y = z.
Proof. intros N H. assert (x * (y - z) = 0) by (transitivity (x * y - x * z); [ring|rewrite H; ring]). destruct (k_integral _ _ H0) as [E|E]; [contradiction|]. transitivity (y - z + z); [ring|rewrite E; ring]. Qed.
Lemma k_sub_0 x y : x - y = 0 -> x = y.
Proof. intros H. transitivity (x - y + y); [ring|rewrite H; ring]. Qed.
Lemma k_neq x y : x <> y -> x - y <> 0.
Proof. intros H E. apply H, k_sub_0, E. Qed.
Lemma k_opp_0 y : y = - y -> y = 0.
Proof. intros H. assert (E: 2 * y = 0) by (transitivity (y + y); [ring|]; rewrite H at 2; ring). destruct (k_integral _ _ E) as [X|X]; [contradiction|exact X]. Qed.

Definition pt := option (K * K).
Definition curve_eq (x y : K) : Prop := y * y = x * x * x + a * x + b.
Definition on (P : pt) : Prop := match P with None => True | Some (x, y) => curve_eq x y end.
Definition pdec (P Q : pt) : {P = Q} + {P <> Q}.
Proof.
  destruct P as [[x y]|], Q as [[x' y']|]; [|right; discriminate|right; discriminate|left; reflexivity].
  destruct (Kdec x x'), (Kdec y y'); [left; congruence|right; congruence..].
Defined.
Definition neg (P : pt) : pt := match P with None => None | Some (x, y) => Some (x, - y) end.
Definition third (x1 y1 x2 l : K) : K * K := let x3 := l * l - x1 - x2 in (x3, l * (x1 - x3) - y1).
Definition gadd (P Q : pt) : pt :=
  match P, Q with
  | None, _ => Q
  | _, None => P
  | Some (x1, y1), Some (x2, y2) =>
      if Kdec x1 x2 then if Kdec y1 (- y2) then None else Some (third x1 y1 x2 ((3 * (x1 * x1) + a) / (2 * y1)))
      else Some (third x1 y1 x2 ((y2 - y1) / (x2 - x1)))
  end.
(** l is the slope of the line through (or tangent at) the two points. *)
Definition slope (x1 y1 x2 y2 l : K) : Prop := y1 - y2 = l * (x1 - x2) /\ l * (y1 + y2) = x1 * x1 + x1 * x2 + x2 * x2 + a.
Definition opp (x1 y1 x2 y2 : K) : Prop := x1 = x2 /\ y1 = - y2.

Lemma opp_dec x1 y1 x2 y2 : {opp x1 y1 x2 y2} + {~ opp x1 y1 x2 y2}.
Proof. unfold opp. destruct (Kdec x1 x2), (Kdec y1 (- y2)); [left; auto|right; tauto..]. Qed.
Lemma same_x x y1 y2 : curve_eq x y1 -> curve_eq x y2 -> y1 = y2 \/ y1 = - y2.
Proof.
  unfold curve_eq. intros H1 H2. assert (E: (y1 - y2) * (y1 + y2) = 0) by (transitivity (y1 * y1 - y2 * y2); [ring|rewrite H1, H2; ring]).
  destruct (k_integral _ _ E) as [X|X]; [left; apply k_sub_0, X|right]. transitivity (y1 + y2 - y2); [ring|rewrite X; ring].
Qed.
Lemma chord_second x1 y1 x2 y2 l : curve_eq x1 y1 -> curve_eq x2 y2 -> x1 <> x2 -> y1 - y2 = l * (x1 - x2) -> l * (y1 + y2) = x1 * x1 + x1 * x2 + x2 * x2 + a.
Proof.
  unfold curve_eq. intros H1 H2 N H. apply (k_cancel (x1 - x2)); [apply k_neq, N|].
  transitivity ((l * (x1 - x2)) * (y1 + y2)); [ring|]. rewrite <- H. transitivity (y1 * y1 - y2 * y2); [ring|]. rewrite H1, H2. ring.
Qed.
Lemma gadd_cases x1 y1 x2 y2 : curve_eq x1 y1 -> curve_eq x2 y2 ->
  (opp x1 y1 x2 y2 /\ gadd (Some (x1, y1)) (Some (x2, y2)) = None) \/
  (~ opp x1 y1 x2 y2 /\ exists l, slope x1 y1 x2 y2 l /\ gadd (Some (x1, y1)) (Some (x2, y2)) = Some (third x1 y1 x2 l)).
Proof.
  intros H1 H2. unfold gadd, opp, slope. destruct (Kdec x1 x2) as [E|N].
  - subst x2. destruct (Kdec y1 (- y2)) as [E|N]; [left; auto|right]. split; [tauto|]. destruct (same_x x1 y1 y2 H1 H2) as [E|E]; [|contradiction]. subst y2.
    assert (Y: y1 <> 0) by (intros E; apply N; rewrite E; ring).
    eexists. split; [|reflexivity]. split; [ring|]. field. split; [exact Y|exact char2].
  - right. split; [tauto|]. eexists. split; [|reflexivity]. assert (E: y1 - y2 = (y2 - y1) / (x2 - x1) * (x1 - x2)) by (field; apply k_neq; auto). split; [exact E|]. apply chord_second; assumption.
Qed.
Lemma slope_unique x1 y1 x2 y2 l l' : ~ opp x1 y1 x2 y2 -> slope x1 y1 x2 y2 l -> slope x1 y1 x2 y2 l' -> l = l'.
Proof.
  intros N (A & B) (A' & B'). destruct (Kdec x1 x2) as [E|Ne].
  - apply (k_cancel (y1 + y2)); [|transitivity (l * (y1 + y2)); [ring|rewrite B, <- B'; ring]]. intros E'. apply N. split; [exact E|]. transitivity (y1 + y2 - y2); [ring|rewrite E'; ring].
  - apply (k_cancel (x1 - x2)); [apply k_neq, Ne|]. transitivity (l * (x1 - x2)); [ring|rewrite <- A, A'; ring].
Qed.
Lemma gadd_slope x1 y1 x2 y2 l : curve_eq x1 y1 -> curve_eq x2 y2 -> ~ opp x1 y1 x2 y2 -> slope x1 y1 x2 y2 l -> gadd (Some (x1, y1)) (Some (x2, y2)) = Some (third x1 y1 x2 l).
Proof.
  intros H1 H2 N Hl. destruct (gadd_cases x1 y1 x2 y2 H1 H2) as [(O & _)|(_ & l' & Hl' & E)]; [contradiction|]. rewrite (slope_unique x1 y1 x2 y2 l l'); assumption.
Qed.
(** The third point lies on the curve. *)
Lemma third_on x1 y1 x2 y2 l : curve_eq x1 y1 -> curve_eq x2 y2 -> slope x1 y1 x2 y2 l -> curve_eq (fst (third x1 y1 x2 l)) (snd (third x1 y1 x2 l)).
Proof.
  unfold curve_eq, third. cbn [fst snd]. intros H1 H2 (A & B).
  assert (Ey: y2 = y1 - l * (x1 - x2)) by (transitivity (y1 - (y1 - y2)); [ring|rewrite A; ring]). subst y2.
  assert (Ea: a = l * (y1 + (y1 - l * (x1 - x2))) - (x1 * x1 + x1 * x2 + x2 * x2)) by (rewrite B; ring).
  assert (Eb: b = y1 * y1 - x1 * x1 * x1 - a * x1) by (rewrite H1; ring). rewrite Eb, Ea. ring.
Qed.
Lemma gadd_on P Q : on P -> on Q -> on (gadd P Q).
Proof.
  destruct P as [[x1 y1]|], Q as [[x2 y2]|]; try (cbn; tauto). intros H1 H2. destruct (gadd_cases x1 y1 x2 y2 H1 H2) as [(_ & ->)|(N & l & Hl & ->)]; [exact I|]. apply (third_on x1 y1 x2 y2 l); assumption.
Qed.
Lemma neg_on P : on P -> on (neg P).
Proof. destruct P as [[x y]|]; [|tauto]. cbn. unfold curve_eq. intros H. rewrite <- H. ring. Qed.
Lemma neg_neg P : neg (neg P) = P.
Proof. destruct P as [[x y]|]; [|reflexivity]. cbn. do 2 f_equal. ring. Qed.
Lemma slope_sym x1 y1 x2 y2 l : slope x1 y1 x2 y2 l -> slope x2 y2 x1 y1 l.
Proof. intros (A & B). split; [transitivity (- (y1 - y2)); [ring|rewrite A; ring]|]. transitivity (l * (y1 + y2)); [ring|rewrite B; ring]. Qed.
Lemma opp_sym x1 y1 x2 y2 : opp x1 y1 x2 y2 -> opp x2 y2 x1 y1.
Proof. intros (A & B). split; [auto|]. rewrite B. ring. Qed.
Lemma gadd_comm P Q : on P -> on Q -> gadd P Q = gadd Q P.
Proof.
  destruct P as [[x1 y1]|], Q as [[x2 y2]|]; try reflexivity. intros H1 H2.
  destruct (gadd_cases x1 y1 x2 y2 H1 H2) as [(O & E)|(N & l & Hl & E)].
  - destruct (gadd_cases x2 y2 x1 y1 H2 H1) as [(_ & E')|(N & _)]; [congruence|]. exfalso. apply N, opp_sym, O.
  - rewrite E. rewrite (gadd_slope x2 y2 x1 y1 l H2 H1); [|intros O; apply N, opp_sym, O|apply slope_sym, Hl]. destruct Hl as (A & _). f_equal. unfold third. f_equal; [ring|].
    assert (Ey: y1 = y2 + l * (x1 - x2)) by (rewrite <- A; ring). rewrite Ey. ring.
Qed.
Lemma gadd_0_r P : gadd P None = P.
Proof. destruct P as [[x y]|]; reflexivity. Qed.
Lemma gadd_opp P : on P -> gadd P (neg P) = None.
Proof.
  destruct P as [[x y]|]; [|reflexivity]. intros H. destruct (gadd_cases x y x (- y) H (neg_on (Some (x, y)) H)) as [(_ & E)|(N & _)]; [exact E|]. exfalso. apply N. split; [reflexivity|ring].
Qed.
Lemma gadd_none P Q : on P -> on Q -> gadd P Q = None -> Q = neg P.
Proof.
  destruct P as [[x1 y1]|], Q as [[x2 y2]|]; cbn [on]; intros H1 H2 H; try discriminate; try reflexivity.
  destruct (gadd_cases x1 y1 x2 y2 H1 H2) as [((E & E') & _)|(_ & l & _ & E)]; [|congruence]. cbn. subst. do 2 f_equal. ring.
Qed.
Lemma neg_gadd P Q : on P -> on Q -> neg (gadd P Q) = gadd (neg P) (neg Q).
Proof.
  destruct P as [[x1 y1]|], Q as [[x2 y2]|]; try reflexivity. intros H1 H2. pose proof (neg_on _ H1) as H1'. pose proof (neg_on _ H2) as H2'.
  destruct (gadd_cases x1 y1 x2 y2 H1 H2) as [((-> & ->) & ->)|(N & l & Hl & ->)].
  - cbn [neg]. destruct (gadd_cases x2 (- - y2) x2 (- y2) H1' H2') as [(_ & ->)|(N & _)]; [reflexivity|]. exfalso. apply N. split; ring.
  - cbn [neg]. rewrite (gadd_slope x1 (- y1) x2 (- y2) (- l)); [|exact H1'|exact H2'| |].
    + unfold third. do 2 f_equal; ring.
    + intros (A & B). apply N. split; [exact A|]. transitivity (- - y1); [ring|rewrite B; ring].
    + destruct Hl as (A & B). split; [transitivity (- (y1 - y2)); [ring|rewrite A; ring]|]. rewrite <- B. ring.
Qed.

(** From here on: no point with a vanishing tangent (the curve is non-singular). *)
Variable nonsing : forall x y, curve_eq x y -> y = 0 -> 3 * (x * x) + a = 0 -> False.

Lemma slope_third x1 y1 x2 y2 l : curve_eq x1 y1 -> curve_eq x2 y2 -> slope x1 y1 x2 y2 l ->
  slope x1 (- y1) (fst (third x1 y1 x2 l)) (snd (third x1 y1 x2 l)) (- l).
Proof.
  intros H1 H2 (A & B). unfold third. cbn [fst snd]. split; [ring|].
  assert (Ey: y2 = y1 - l * (x1 - x2)) by (transitivity (y1 - (y1 - y2)); [ring|rewrite A; ring]). subst y2.
  assert (Ea: a = l * (y1 + (y1 - l * (x1 - x2))) - (x1 * x1 + x1 * x2 + x2 * x2)) by (rewrite B; ring). rewrite Ea. ring.
Qed.
Lemma gadd_cancel P Q : on P -> on Q -> gadd (neg P) (gadd P Q) = Q.
Proof.
  destruct P as [[x1 y1]|]; [|reflexivity]. destruct Q as [[x2 y2]|].
  2:{ intros H _. cbn [gadd]. rewrite gadd_comm by (try apply neg_on; exact H). apply gadd_opp, H. }
  intros H1 H2. destruct (gadd_cases x1 y1 x2 y2 H1 H2) as [((E1 & E2) & ->)|(N & l & Hl & ->)].
  { cbn. subst. do 2 f_equal. ring. }
  pose proof (third_on x1 y1 x2 y2 l H1 H2 Hl) as H3. pose proof (slope_third x1 y1 x2 y2 l H1 H2 Hl) as S3. pose proof (neg_on _ H1) as H1'. cbn [neg on] in *.
  rewrite (surjective_pairing (third x1 y1 x2 l)). rewrite (gadd_slope _ _ _ _ (- l) H1' H3); [| |exact S3].
  - destruct Hl as (A & _). f_equal. unfold third. cbn [fst snd]. assert (Ey: y1 = y2 + l * (x1 - x2)) by (rewrite <- A; ring). rewrite Ey. f_equal; ring.
  - intros (E1 & E2). unfold third in E1, E2. cbn [fst snd] in E1, E2. destruct Hl as (A & B).
    assert (Ey: y2 = y1 - l * (x1 - x2)) by (transitivity (y1 - (y1 - y2)); [ring|rewrite A; ring]).
    assert (Y: y1 = 0). { apply k_opp_0. transitivity (- - y1); [ring|]. rewrite E2 at 1. rewrite <- E1. ring. }
    apply (nonsing x1 y1 H1 Y). subst y2. rewrite Y in B.
    assert (L: l * l = x1 + x1 + x2) by (transitivity ((l * l - x1 - x2) + x1 + x2); [ring|rewrite <- E1; ring]).
    assert (B': l * l * (x2 - x1) = x1 * x1 + x1 * x2 + x2 * x2 + a) by (rewrite <- B; ring). rewrite L in B'.
    transitivity (- ((x1 + x1 + x2) * (x2 - x1)) + (x1 * x1 + x1 * x2 + x2 * x2 + a)); [ring|]. rewrite <- B'. ring.
Qed.
Lemma gadd_cancel_r P Q : on P -> on Q -> gadd (gadd P Q) (neg Q) = P.
Proof.
  intros HP HQ. rewrite gadd_comm by (try apply gadd_on; try apply neg_on; assumption). rewrite (gadd_comm P Q HP HQ). apply gadd_cancel; assumption.
Qed.

Lemma assoc_main x1 y1 x2 y2 x3 y3 l m : curve_eq x1 y1 -> curve_eq x2 y2 -> curve_eq x3 y3 -> slope x1 y1 x2 y2 l -> slope x2 y2 x3 y3 m -> l <> m ->
  let P12 := third x1 y1 x2 l in let P23 := third x2 y2 x3 m in let k := (x1 - x3) / (l - m) in
  slope (fst P12) (snd P12) x3 y3 (k - l) /\ slope x1 y1 (fst P23) (snd P23) (k - m) /\
  third (fst P12) (snd P12) x3 (k - l) = third x1 y1 (fst P23) (k - m).
Proof.
  intros H1 H2 H3 (A & B) (A' & B') N P12 P23 k. 
  assert (Ey1: y1 = y2 + l * (x1 - x2)) by (rewrite <- A; ring). assert (Ey3: y3 = y2 - m * (x2 - x3)) by (transitivity (y2 - (y2 - y3)); [ring|rewrite A'; ring]).
  assert (Nd: l - m <> 0) by (apply k_neq, N).
  assert (Ex: x1 = x3 + k * (l - m)) by (unfold k; field; exact Nd).
  subst P12 P23. unfold third. cbn [fst snd]. clearbody k. 
  assert (Ea: a = m * (y2 + y3) - (x2 * x2 + x2 * x3 + x3 * x3)) by (rewrite B'; ring).
  rewrite Ea in B. subst y1 y3 x1.
  (* the remaining relation, divided by (l - m) *)
  assert (R: 2 * y2 = - (l + m) * (x3 - x2) - k * (l * l - (x3 + k * (l - m)) - x2 - x3)).
  { apply (k_cancel (l - m)); [exact Nd|]. 
    assert (B2: l * (y2 + l * (x3 + k * (l - m) - x2) + y2) - m * (y2 + (y2 - m * (x2 - x3))) = (x3 + k * (l - m)) * (x3 + k * (l - m)) + (x3 + k * (l - m)) * x2 - x2 * x3 - x3 * x3) by (rewrite B; ring).
    transitivity ((l * (y2 + l * (x3 + k * (l - m) - x2) + y2) - m * (y2 + (y2 - m * (x2 - x3)))) - l * l * (x3 + k * (l - m) - x2) + m * m * (x3 - x2)); [ring|]. rewrite B2. ring. }
  assert (Q: y2 + y2 = - (l + m) * (x3 - x2) - k * (l * l - (x3 + k * (l - m)) - x2 - x3)) by (rewrite <- R; ring).
  assert (Y2: y2 = - (l + m) * (x3 - x2) - k * (l * l - (x3 + k * (l - m)) - x2 - x3) - y2) by (rewrite <- Q; ring).
  split; [|split].
  - split.
    + transitivity (- (y2 + y2) - l * (l * l - (x3 + k * (l - m)) - x2 - x2) - m * (x3 - x2)); [ring|]. rewrite Q. ring.
    + rewrite Ea. set (D := y2 + y2) in *.
      transitivity ((k - l) * (- (l * (l * l - (x3 + k * (l - m)) - x2 - x2)) - m * (x2 - x3))); [ring|].
      transitivity (m * (D - m * (x2 - x3)) - (x2 * x2 + x2 * x3 + x3 * x3) + (l * l - (x3 + k * (l - m)) - x2) * (l * l - (x3 + k * (l - m)) - x2) + (l * l - (x3 + k * (l - m)) - x2) * x3 + x3 * x3); [|unfold D; ring].
      rewrite Q. ring.
  - split.
    + transitivity ((y2 + y2) + l * (x3 + k * (l - m) - x2) + m * (m * m - x2 - x3 - x2)); [ring|]. rewrite Q. ring.
    + rewrite Ea. set (D := y2 + y2) in *.
      transitivity ((k - m) * (l * (x3 + k * (l - m) - x2) - m * (m * m - x2 - x3 - x2))); [ring|].
      transitivity (m * (D - m * (x2 - x3)) - (x2 * x2 + x2 * x3 + x3 * x3) + (x3 + k * (l - m)) * (x3 + k * (l - m)) + (x3 + k * (l - m)) * (m * m - x2 - x3) + (m * m - x2 - x3) * (m * m - x2 - x3)); [|unfold D; ring].
      rewrite Q. ring.
  - f_equal; [ring|].
    transitivity ((k - l) * (x3 - ((k - l) * (k - l) - (l * l - (x3 + k * (l - m)) - x2) - x3)) - (y2 - m * (x2 - x3))); [|ring].
    transitivity (- (y2 - m * (x2 - x3)) + (k - l) * (l * l - (x3 + k * (l - m)) - x2 - ((k - l) * (k - l) - (l * l - (x3 + k * (l - m)) - x2) - x3)) - (l * ((x3 + k * (l - m)) - (l * l - (x3 + k * (l - m)) - x2)) - (y2 + l * (x3 + k * (l - m) - x2))) + (y2 - m * (x2 - x3))); [ring|].
    transitivity ((y2 + y2) - m * (x2 - x3) + (k - l) * (l * l - (x3 + k * (l - m)) - x2 - ((k - l) * (k - l) - (l * l - (x3 + k * (l - m)) - x2) - x3)) - (l * ((x3 + k * (l - m)) - (l * l - (x3 + k * (l - m)) - x2)) - (l * (x3 + k * (l - m) - x2))) - (y2 - m * (x2 - x3))); [ring|].
    rewrite Q. ring.
Qed.

Lemma gadd_neg_l P Q R : on P -> on Q -> on R -> gadd P Q = neg R -> gadd P (gadd Q R) = None.
Proof.
  intros HP HQ HR H. assert (EQ: Q = gadd (neg P) (neg R)) by (rewrite <- H; symmetry; apply gadd_cancel; assumption).
  assert (E: gadd Q R = neg P). { rewrite EQ. rewrite <- (neg_neg R) at 2. apply gadd_cancel_r; apply neg_on; assumption. }
  rewrite E. apply gadd_opp, HP.
Qed.
Lemma gadd_assoc P Q R : on P -> on Q -> on R -> gadd (gadd P Q) R = gadd P (gadd Q R).
Proof.
  intros HP HQ HR. destruct P as [[x1 y1]|]; [|reflexivity]. destruct R as [[x3 y3]|]; [|rewrite !gadd_0_r; reflexivity]. destruct Q as [[x2 y2]|]; [|reflexivity].
  destruct (gadd_cases x1 y1 x2 y2 HP HQ) as [((-> & ->) & ->)|(N12 & l & Hl & E12)].
  { cbn [gadd]. symmetry. apply (gadd_cancel (Some (x2, y2)) (Some (x3, y3))); assumption. }
  destruct (gadd_cases x2 y2 x3 y3 HQ HR) as [((-> & ->) & E23)|(N23 & m & Hm & E23)].
  { rewrite E23, gadd_0_r. rewrite (gadd_comm (Some (x1, y1))) by assumption. rewrite gadd_comm by (try apply gadd_on; assumption).
    change (Some (x3, - y3)) with (neg (Some (x3, y3))). rewrite <- (neg_neg (Some (x3, y3))) at 1. apply gadd_cancel; [apply (neg_on (Some (x3, y3))), HR|exact HP]. }
  pose proof (third_on _ _ _ _ _ HP HQ Hl) as O12. pose proof (third_on _ _ _ _ _ HQ HR Hm) as O23.
  destruct (pdec (gadd (Some (x1, y1)) (Some (x2, y2))) (neg (Some (x3, y3)))) as [E|N1].
  { rewrite (gadd_neg_l _ _ _ HP HQ HR E), E. rewrite <- (neg_neg (Some (x3, y3))) at 2. apply gadd_opp, neg_on, HR. }
  destruct (pdec (gadd (Some (x2, y2)) (Some (x3, y3))) (neg (Some (x1, y1)))) as [E|N2].
  { assert (Z: gadd (Some (x1, y1)) (gadd (Some (x2, y2)) (Some (x3, y3))) = None) by (rewrite E; apply gadd_opp, HP). rewrite Z.
    rewrite gadd_comm by (try apply gadd_on; assumption). rewrite (gadd_comm (Some (x1, y1))) by assumption. apply gadd_neg_l; try assumption. rewrite gadd_comm by assumption. exact E. }
  destruct (Kdec l m) as [<-|Nlm].
  - (* collinear with the same slope through Q *)
    destruct Hl as (A & B), Hm as (A' & B').
    assert (Ey1: y1 = y2 + l * (x1 - x2)) by (rewrite <- A; ring). assert (Ey3: y3 = y2 - l * (x2 - x3)) by (transitivity (y2 - (y2 - y3)); [ring|rewrite A'; ring]).
    assert (E: (x1 - x3) * (l * l - (x1 + x2 + x3)) = 0).
    { transitivity ((l * (y1 + y2) - (x1 * x1 + x1 * x2 + x2 * x2 + a)) - (l * (y2 + y3) - (x2 * x2 + x2 * x3 + x3 * x3 + a))); [rewrite Ey1, Ey3; ring|]. rewrite B, B'. ring. }
    apply k_integral in E. destruct E as [E|E].
    + apply k_sub_0 in E. subst x3. assert (E3: y3 = y1) by (rewrite Ey3, Ey1; ring). clear Ey3. subst y3. rewrite gadd_comm by (try apply gadd_on; assumption). f_equal. apply gadd_comm; assumption.
    + exfalso. apply N1. rewrite E12. cbn [neg]. unfold third. assert (X: l * l - x1 - x2 = x3) by (apply k_sub_0; rewrite <- E; ring). rewrite X. do 2 f_equal. rewrite Ey3, Ey1. ring.
  - destruct (assoc_main x1 y1 x2 y2 x3 y3 l m HP HQ HR Hl Hm Nlm) as (S1 & S2 & E). rewrite E12, E23 in *.
    destruct (third x1 y1 x2 l) as [u1 v1], (third x2 y2 x3 m) as [u2 v2]. cbn [fst snd] in *.
    rewrite (gadd_slope _ _ _ _ _ O12 HR) with (2 := S1); [|intros (X & Y); apply N1; cbn [neg]; rewrite X, Y; reflexivity].
    rewrite (gadd_slope _ _ _ _ _ HP O23) with (2 := S2); [|intros (X & Y); apply N2; cbn [neg]; rewrite X, Y; do 2 f_equal; ring].
    f_equal. exact E.
Qed.

(** ** Multiples *)
Fixpoint nmul (n : nat) (P : pt) : pt := match n with O => None | S k => gadd P (nmul k P) end.
Lemma nmul_on n P : on P -> on (nmul n P).
Proof. intros H. induction n as [|n IH]; [exact I|]. apply gadd_on; assumption. Qed.
Lemma nmul_add m n P : on P -> nmul (m + n)%nat P = gadd (nmul m P) (nmul n P).
Proof.
  intros H. induction m as [|m IH]; [reflexivity|]. cbn [nmul Nat.add]. rewrite IH. symmetry. apply gadd_assoc; try apply nmul_on; assumption.
Qed.
Lemma nmul_none n : nmul n None = None.
Proof. induction n as [|n IH]; [reflexivity|]. exact IH. Qed.
Lemma nmul_mul m n P : on P -> nmul (m * n)%nat P = nmul m (nmul n P).
Proof. intros H. induction m as [|m IH]; [reflexivity|]. cbn [Nat.mul nmul]. rewrite nmul_add by exact H. rewrite IH. reflexivity. Qed.
Lemma gadd_inj P Q R : on P -> on Q -> on R -> gadd P Q = gadd P R -> Q = R.
Proof. intros HP HQ HR H. rewrite <- (gadd_cancel P Q HP HQ), H. apply gadd_cancel; assumption. Qed.
Lemma nmul_diff i j P : on P -> (i <= j)%nat -> nmul i P = nmul j P -> nmul (j - i) P = None.
Proof.
  intros HP Hij H. replace j with (i + (j - i))%nat in H at 1 by lia. rewrite nmul_add in H by exact HP. apply (gadd_inj (nmul i P)); [apply nmul_on, HP|apply nmul_on, HP|exact I|]. rewrite gadd_0_r. symmetry. exact H.
Qed.
Lemma nmul_1 P : nmul 1 P = P.
Proof. apply gadd_0_r. Qed.
Lemma neg_nmul n P : on P -> neg (nmul n P) = nmul n (neg P).
Proof. intros H. induction n as [|n IH]; [reflexivity|]. cbn [nmul]. rewrite neg_gadd by (try apply nmul_on; exact H). rewrite IH. reflexivity. Qed.
Lemma nmul_gadd n P Q : on P -> on Q -> nmul n (gadd P Q) = gadd (nmul n P) (nmul n Q).
Proof.
  intros HP HQ. induction n as [|n IH]; [reflexivity|]. cbn [nmul]. rewrite IH. rewrite !gadd_assoc by (repeat first [apply gadd_on|apply nmul_on|assumption]). f_equal.
  rewrite <- !gadd_assoc by (repeat first [apply gadd_on|apply nmul_on|assumption]). f_equal. apply gadd_comm; [exact HQ|apply nmul_on, HP].
Qed.
Definition is_order (P : pt) (n : nat) : Prop := (1 <= n)%nat /\ nmul n P = None /\ forall k, (1 <= k < n)%nat -> nmul k P <> None.
Lemma order_divide P n k : on P -> is_order P n -> nmul k P = None -> Nat.divide n k.
Proof.
  intros HP (N1 & N2 & N3) Hk. apply Nat.mod_divide; [lia|]. pose proof (Nat.div_mod k n ltac:(lia)) as D. pose proof (Nat.mod_upper_bound k n ltac:(lia)) as U.
  destruct (Nat.eq_dec (k mod n) 0) as [E|Ne]; [exact E|]. exfalso. apply (N3 (k mod n)%nat); [lia|]. 
  rewrite D in Hk. rewrite nmul_add in Hk by exact HP. rewrite Nat.mul_comm, nmul_mul, N2, nmul_none in Hk by exact HP. exact Hk.
Qed.
Section Finite.
Variable G : list pt.
Hypothesis Gall : forall P, on P -> In P G.
Lemma order_exists P : on P -> exists n, is_order P n /\ (n <= length G)%nat.
Proof.
  intros HP. assert (S: forall m, (exists n, is_order P n /\ (n <= m)%nat) \/ forall k, (1 <= k <= m)%nat -> nmul k P <> None).
  { induction m as [|m IH]; [right; intros; lia|]. destruct IH as [(n & A & B)|IH]; [left; exists n; split; [exact A|lia]|].
    destruct (pdec (nmul (S m) P) None) as [E|N].
    - left. exists (S m). split; [|lia]. split; [lia|]. split; [exact E|]. intros k Hk. apply IH. lia.
    - right. intros k Hk. destruct (Nat.eq_dec k (S m)) as [->|]; [exact N|apply IH; lia]. }
  destruct (S (length G)) as [H|H]; [exact H|]. exfalso.
  assert (Nd: NoDup (map (fun k => nmul k P) (seq 0 (Datatypes.S (length G))))).
  { assert (forall l, NoDup l -> (forall i, In i l -> (i <= length G)%nat) -> NoDup (map (fun k => nmul k P) l)) as X.
    { induction l as [|i l IH]; intros Nd B; [constructor|]. inversion Nd; subst. cbn [map]. constructor; [|apply IH; [assumption|intros; apply B; right; assumption]].
      intros Hi. apply in_map_iff in Hi. destruct Hi as (j & E & Hj). assert (i <= length G)%nat by (apply B; left; reflexivity). assert (j <= length G)%nat by (apply B; right; exact Hj).
      assert (i <> j) by (intros ->; contradiction). destruct (Nat.le_gt_cases i j).
      - apply (H (j - i)%nat); [lia|]. apply nmul_diff; [exact HP|lia|congruence].
      - apply (H (i - j)%nat); [lia|]. apply nmul_diff; [exact HP|lia|congruence]. }
    apply X; [apply seq_NoDup|]. intros i Hi. apply in_seq in Hi. lia. }
  assert (I: incl (map (fun k => nmul k P) (seq 0 (Datatypes.S (length G)))) G).
  { intros Q HQ. apply in_map_iff in HQ. destruct HQ as (k & <- & _). apply Gall, nmul_on, HP. }
  pose proof (NoDup_incl_length Nd I) as L. rewrite map_length, seq_length in L. lia.
Qed.
End Finite.
(** Lagrange: a list of distinct points closed under adding P splits into orbits. *)
Lemma lagrange_aux P n : on P -> is_order P n -> forall m (L : list pt), (length L <= m)%nat -> NoDup L -> (forall Q, In Q L -> on Q) -> (forall Q, In Q L -> In (gadd P Q) L) -> Nat.divide n (length L).
Proof.
  intros HP HO. pose proof HO as (N1 & N2 & N3). induction m as [|m IH]; intros L Hm Nd Hon Hcl.
  { destruct L; [exists 0%nat; reflexivity|cbn in Hm; lia]. }
  destruct L as [|Q L]; [exists 0%nat; reflexivity|].
  set (L0 := Q :: L) in *. set (orb := map (fun k => gadd (nmul k P) Q) (seq 0 n)).
  assert (HQ: on Q) by (apply Hon; left; reflexivity).
  assert (Os: forall k, In (gadd (nmul k P) Q) L0).
  { induction k as [|k IHk]; [left; reflexivity|]. cbn [nmul]. rewrite gadd_assoc by (try apply nmul_on; assumption). apply Hcl, IHk. }
  assert (Nf: forall k k', (k < n)%nat -> (k' < n)%nat -> gadd (nmul k P) Q = gadd (nmul k' P) Q -> k = k').
  { assert (W: forall k k', (k <= k')%nat -> (k' < n)%nat -> gadd (nmul k P) Q = gadd (nmul k' P) Q -> k = k').
    { intros k k' Hk Hk' E. rewrite !(gadd_comm _ Q) in E by (try apply nmul_on; assumption). apply gadd_inj in E; [|assumption|apply nmul_on; assumption|apply nmul_on; assumption].
      destruct (Nat.eq_dec k k') as [|Ne]; [assumption|]. exfalso. apply (N3 (k' - k)%nat); [lia|]. apply nmul_diff; [exact HP|lia|exact E]. }
    intros k k' Hk Hk' E. destruct (Nat.le_gt_cases k k'); [apply W; assumption|]. symmetry. apply W; [lia|assumption|congruence]. }
  assert (Nor: NoDup orb).
  { unfold orb. assert (X: forall l, NoDup l -> (forall i, In i l -> (i < n)%nat) -> NoDup (map (fun k => gadd (nmul k P) Q) l)).
    { induction l as [|i l IHl]; intros Ndl B; [constructor|]. inversion Ndl; subst. cbn [map]. constructor; [|apply IHl; [assumption|intros; apply B; right; assumption]].
      intros Hi. apply in_map_iff in Hi. destruct Hi as (j & E & Hj). assert (j = i) by (apply Nf; [apply B; right; exact Hj|apply B; left; reflexivity|exact E]). subst. contradiction. }
    apply X; [apply seq_NoDup|]. intros i Hi. apply in_seq in Hi. lia. }
  set (inb := fun R : pt => if in_dec pdec R orb then true else false).
  set (rest := filter (fun R => negb (inb R)) L0).
  assert (Len: length L0 = (n + length rest)%nat).
  { assert (F: forall l : list pt, length l = (length (filter inb l) + length (filter (fun R => negb (inb R)) l))%nat).
    { induction l as [|r l IHl]; [reflexivity|]. cbn [filter]. destruct (inb r); cbn [negb length]; lia. }
    rewrite (F L0). f_equal. assert (A: length (filter inb L0) = length orb).
    { apply Nat.le_antisymm; apply NoDup_incl_length; try assumption.
      - apply NoDup_filter, Nd.
      - intros R HR. apply filter_In in HR. destruct HR as (_ & HR). unfold inb in HR. destruct (in_dec pdec R orb); [assumption|discriminate].
      - intros R HR. apply filter_In. split; [|unfold inb; destruct (in_dec pdec R orb); [reflexivity|contradiction]]. apply in_map_iff in HR. destruct HR as (k & <- & _). apply Os. }
    rewrite A. unfold orb. rewrite map_length, seq_length. reflexivity. }
  rewrite Len. apply Nat.divide_add_r; [apply Nat.divide_refl|]. apply IH.
  - lia.
  - apply NoDup_filter, Nd.
  - intros R HR. apply filter_In in HR. apply Hon, HR.
  - intros R HR. apply filter_In in HR. destruct HR as (HR & HR'). apply filter_In. split; [apply Hcl, HR|].
    unfold inb in *. destruct (in_dec pdec R orb) as [|NR]; [discriminate|]. destruct (in_dec pdec (gadd P R) orb) as [Hin|]; [|reflexivity]. exfalso. apply NR.
    apply in_map_iff in Hin. destruct Hin as (k & E & Hk). apply in_seq in Hk. apply in_map_iff. destruct k as [|k].
    + exists (n - 1)%nat. split; [|apply in_seq; lia]. apply (gadd_inj P); [exact HP|apply gadd_on; [apply nmul_on, HP|exact HQ]|apply Hon, HR|]. rewrite <- E. rewrite <- gadd_assoc by (try apply nmul_on; assumption).
      change (gadd P (nmul (n - 1) P)) with (nmul (Datatypes.S (n - 1)) P). replace (Datatypes.S (n - 1)) with n by lia. rewrite N2. reflexivity.
    + exists k. split; [|apply in_seq; lia]. apply (gadd_inj P); [exact HP|apply gadd_on; [apply nmul_on, HP|exact HQ]|apply Hon, HR|]. rewrite <- E. cbn [nmul]. symmetry. apply gadd_assoc; try apply nmul_on; assumption.
Qed.
Lemma lagrange P n (L : list pt) : on P -> is_order P n -> NoDup L -> (forall Q, In Q L <-> on Q) -> Nat.divide n (length L).
Proof.
  intros HP HO Nd HL. apply (lagrange_aux P n HP HO (length L) L); [lia|exact Nd|intros Q HQ; apply HL, HQ|]. intros Q HQ. apply HL. apply gadd_on; [exact HP|apply HL, HQ].
Qed.
End Group.
