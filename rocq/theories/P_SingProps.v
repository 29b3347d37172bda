(** Lemmas behind the property theorem C110 (singular curves are accepted by the constructor; how many points they get). *)
From Coq Require Import Znumtheory ZifyBool Permutation.
From Verif Require Import Prelude M_Bigint M_Variable M_Term M_Poly M_Curve Spec SpecCurve SpecTwist P_Bigint P_Variable P_Curve P_Curve2 P_Curve3 P_CurveProps P_Euler P_TwistProps.
Open Scope Z_scope.

Lemma cancel_l p c x : prime p -> ~ (p | c) -> (p | c * x) -> (p | x).
Proof. intros Pp N D. apply prime_mult in D; [|exact Pp]. tauto. Qed.
Lemma sum_delta c e l : NoDup l -> In e l -> sumZ (fun x => if x =? e then c else 0) l = c.
Proof.
  induction 1 as [|x l N ND IH]; intros I; [contradiction|]. cbn [sumZ fold_right]. fold (sumZ (fun x => if x =? e then c else 0) l).
  destruct (x =? e) eqn:X.
  - apply Z.eqb_eq in X. subst x. rewrite (sumZ_ext _ (fun _ => 0)); [rewrite sumZ_const; ring|]. intros y Hy. destruct (y =? e) eqn:Y; [|reflexivity]. apply Z.eqb_eq in Y. subst y. contradiction.
  - destruct I as [->|I]; [rewrite Z.eqb_refl in X; discriminate|]. rewrite IH by exact I. ring.
Qed.
Lemma sum_shift p (Pp : prime p) (P2 : p <> 2) c : sumZ (fun x => nsq p (x + c)) (zrange 0 p) = p.
Proof.
  pose proof (prime_ge_2 p Pp). rewrite (residues_sum p (fun x => x + c) (nsq p)).
  - apply (nsq_total p Pp P2).
  - lia.
  - intros x y Bx By D. replace (x + c - (y + c)) with (x - y) in D by ring. apply near_zero in D; lia.
  - intros x y D. apply nsq_mod; [lia|exact D].
Qed.
(** C110: the constructor accepts singular curves; with p | a (a cusp) it lists p + 1 points. *)
Lemma c110_cusp : forall a b p E, p <> 2 -> (p | a) -> (p | 4 * a ^ 3 + 27 * b ^ 2) -> ec_new a b p = Ok E -> cardinality E = p + 1.
Proof.
  intros a b p E P2 (k & Ha) D HE. destruct (proj2 (proj1 (c61_new_returns a b p)) (ex_intro _ E HE)) as (Pp & _). pose proof (prime_ge_2 p Pp).
  destruct (Z.eq_dec p 3) as [P3|P3].
  - rewrite (card_sum a b p E HE). rewrite (sumZ_ext _ (fun x => nsq p (x + b))).
    + rewrite (sum_shift p Pp P2). ring.
    + intros x _. apply nsq_mod; [lia|]. rewrite Ha. replace (x * x * x + k * p * x + b - (x + b)) with (x * x * x - x + (k * x) * p) by ring. apply Z.divide_add_r; [|apply Z.divide_factor_r].
      rewrite P3. pose proof (Z.div_mod x 3 ltac:(lia)) as DM. pose proof (Z.mod_pos_bound x 3 ltac:(lia)) as B. set (q := x / 3) in *. assert (C: x mod 3 = 0 \/ x mod 3 = 1 \/ x mod 3 = 2) by lia.
      destruct C as [C|[C|C]]; rewrite C in DM; rewrite DM.
      * exists (q * (3 * q - 1) * (3 * q + 1)). ring.
      * exists (q * (3 * q + 1) * (3 * q + 2)). ring.
      * exists ((3 * q + 1) * (3 * q + 2) * (q + 1)). ring.
  - assert (Db: (p | b)).
    { assert (X: (p | 27 * b ^ 2)) by (replace (27 * b ^ 2) with (4 * a ^ 3 + 27 * b ^ 2 - 4 * a ^ 3) by ring; apply Z.divide_sub_r; [exact D|]; exists (4 * a ^ 2 * k); rewrite Ha; ring).
      apply prime_mult in X; [|exact Pp]. destruct X as [X|X]; [exfalso|apply (div_pow_n p b 2 Pp); [lia|exact X]].
      change 27 with (3 ^ 3) in X. apply (div_pow_n p 3 3 Pp) in X; [|lia]. apply Z.divide_pos_le in X; [|lia]. assert (p = 2 \/ p = 3) by lia. tauto. }
    destruct Db as (k' & Hb). rewrite (card_sum a b p E HE). rewrite (sumZ_ext _ (fun x => nsq p (x + 0))); [rewrite (sum_shift p Pp P2); ring|].
    intros x Hx. apply in_zrange in Hx. transitivity (nsq p (x * x * x)); [apply nsq_mod; [lia|]; exists (k * x + k'); rewrite Ha, Hb; ring|]. rewrite Z.add_0_r.
    destruct (Z.eq_dec x 0) as [->|Nx]; [reflexivity|]. apply (nsq_square_mult p Pp P2 (x * x) x x); [|exists 0; ring]. intros Dx. apply Z.divide_pos_le in Dx; lia.
Qed.
(** C110: otherwise (a node, p > 3) it lists p points if -2 a b is a square modulo p, and p + 2 if not. *)
Lemma c110_node : forall a b p E, 3 < p -> ~ (p | a) -> (p | 4 * a ^ 3 + 27 * b ^ 2) -> ec_new a b p = Ok E ->
  ((exists s, (p | s * s + 2 * a * b)) -> cardinality E = p) /\
  ((~ exists s, (p | s * s + 2 * a * b)) -> cardinality E = p + 2).
Proof.
  intros a b p E P3 Na (w & D) HE. destruct (proj2 (proj1 (c61_new_returns a b p)) (ex_intro _ E HE)) as (Pp & _). assert (P2: p <> 2) by lia.
  assert (N2: ~ (p | 2)) by (intros X; apply Z.divide_pos_le in X; lia). assert (N3: ~ (p | 3)) by (intros X; apply Z.divide_pos_le in X; lia).
  assert (N2a: ~ (p | 2 * a)) by (intros X; apply prime_mult in X; tauto).
  destruct (inverse_spec (2 * a) p Pp N2a) as (r & _ & _ & Hr). set (e := (- (3 * b) * r) mod p).
  assert (He: (p | 2 * a * e + 3 * b)).
  { unfold e. destruct (mod_k (- (3 * b) * r) p ltac:(lia)) as (k & ->). destruct Hr as (k' & Hr).
    exists (- (3 * b) * k' - 2 * a * k). replace (2 * a * (- (3 * b) * r - k * p) + 3 * b) with (- (3 * b) * (2 * a * r - 1) - 2 * a * k * p) by ring. rewrite Hr. ring. }
  destruct He as (v & He). pose proof (Z.mod_pos_bound (- (3 * b) * r) p ltac:(lia)) as Be. fold e in Be. clearbody e. clear r Hr.
  assert (Ha: (p | a + 3 * e * e)).
  { apply (cancel_l p (4 * a ^ 2)); [exact Pp|..].
    - intros X. apply prime_mult in X; [|exact Pp]. destruct X as [X|X]; [change 4 with (2 ^ 2) in X; apply div_pow_n in X; [tauto|exact Pp|lia]|apply div_pow_n in X; [tauto|exact Pp|lia]].
    - exists (w + 3 * (2 * a * e - 3 * b) * v). replace (4 * a ^ 2 * (a + 3 * e * e)) with (4 * a ^ 3 + 27 * b ^ 2 + 3 * (2 * a * e - 3 * b) * (2 * a * e + 3 * b)) by ring. rewrite D, He. ring. }
  assert (Hb: (p | b - 2 * e * e * e)).
  { apply (cancel_l p (8 * a ^ 3)); [exact Pp|..].
    - intros X. apply prime_mult in X; [|exact Pp]. destruct X as [X|X]; [change 8 with (2 ^ 3) in X; apply div_pow_n in X; [tauto|exact Pp|lia]|apply div_pow_n in X; [tauto|exact Pp|lia]].
    - exists (2 * b * w - 2 * v * ((2 * a * e) ^ 2 - 2 * a * e * (3 * b) + (3 * b) ^ 2)). replace (8 * a ^ 3 * (b - 2 * e * e * e)) with (2 * b * (4 * a ^ 3 + 27 * b ^ 2) - 2 * (2 * a * e + 3 * b) * ((2 * a * e) ^ 2 - 2 * a * e * (3 * b) + (3 * b) ^ 2)) by ring. rewrite D, He. ring. }
  assert (Ne: ~ (p | e)).
  { intros (k & X). apply Na. destruct Ha as (k' & Ha). exists (k' - 3 * e * k). replace a with (a + 3 * e * e - 3 * e * e) by ring. rewrite Ha at 1. rewrite X at 2. ring. }
  destruct Ha as (k1 & Ha). destruct Hb as (k2 & Hb).
  assert (C: cardinality E = p + 2 - nsq p (3 * e)).
  { rewrite (card_sum a b p E HE). rewrite (sumZ_ext _ (fun x => nsq p (x + 2 * e) + (if x =? e then 1 - nsq p (3 * e) else 0))).
    - rewrite sumZ_add, (sum_shift p Pp P2), sum_delta; [lia|apply NoDup_zrange|apply in_zrange; lia].
    - intros x Hx. apply in_zrange in Hx. transitivity (nsq p ((x - e) * (x - e) * (x + 2 * e))).
      { apply nsq_mod; [lia|]. exists (k1 * x + k2). replace (x * x * x + a * x + b - (x - e) * (x - e) * (x + 2 * e)) with ((a + 3 * e * e) * x + (b - 2 * e * e * e)) by ring. rewrite Ha, Hb. ring. }
      destruct (x =? e) eqn:X.
      + apply Z.eqb_eq in X. subst x. replace (e + 2 * e) with (3 * e) by ring. rewrite (nsq_0 p Pp P2) by (exists 0; ring). ring.
      + rewrite (nsq_square_mult p Pp P2 ((x - e) * (x - e)) (x + 2 * e) (x - e)); [ring| |exists 0; ring]. intros Dx. apply near_zero in Dx; lia. }
  assert (SQ: nsq p (3 * e) = nsq p (- (2 * a * b))).
  { transitivity (nsq p ((2 * e * e) * (2 * e * e) * (3 * e))).
    - symmetry. apply (nsq_square_mult p Pp P2 _ _ (2 * e * e)); [|exists 0; ring]. intros X. apply prime_mult in X; [|exact Pp]. destruct X as [X|X]; [|tauto]. apply prime_mult in X; tauto.
    - apply nsq_mod; [lia|]. exists (2 * b * k1 - 6 * e * e * k2).
      replace (2 * e * e * (2 * e * e) * (3 * e) - - (2 * a * b)) with (2 * b * (a + 3 * e * e) - 6 * e * e * (b - 2 * e * e * e)) by ring. rewrite Ha, Hb. ring. }
  assert (N0: ~ (p | 3 * e)) by (intros X; apply prime_mult in X; tauto).
  assert (Q: (exists s, (p | s * s + 2 * a * b)) <-> exists y, (p | y * y - - (2 * a * b))).
  { split; intros (s & X); exists s; [replace (s * s - - (2 * a * b)) with (s * s + 2 * a * b) by ring|replace (s * s + 2 * a * b) with (s * s - - (2 * a * b)) by ring]; exact X. }
  split; intros X; rewrite Q in X.
  - destruct (euler p Pp P2 (3 * e) N0) as [(Y & _)|(Y & _)]; [lia|]. exfalso. rewrite SQ in Y. apply (nsq_square p Pp P2) in Y. tauto.
  - apply (nsq_square p Pp P2) in X. lia.
Qed.
(** C110: over GF(2) every curve gets 3 points. *)
Lemma c110_two : forall a b E, ec_new a b 2 = Ok E -> cardinality E = 3.
Proof.
  intros a b E HE. rewrite (card_sum a b 2 E HE). change (zrange 0 2) with [0; 1]. cbn [sumZ fold_right].
  assert (X: forall c, nsq 2 c = 1).
  { intros c. rewrite (nsq_mod 2 c (c mod 2)); [|lia|].
    - pose proof (Z.mod_pos_bound c 2 ltac:(lia)). assert (Y: c mod 2 = 0 \/ c mod 2 = 1) by lia. destruct Y as [-> | ->]; reflexivity.
    - exists (c / 2). pose proof (Z.div_mod c 2). lia. }
  rewrite !X. reflexivity.
Qed.
Lemma sum_swap (f : Z -> Z -> Z) l l' : sumZ (fun b => sumZ (fun x => f x b) l) l' = sumZ (fun x => sumZ (fun b => f x b) l') l.
Proof.
  induction l as [|x l IH].
  - cbn [sumZ fold_right]. rewrite sumZ_const. ring.
  - cbn [sumZ fold_right]. fold (sumZ (fun x => sumZ (fun b => f x b) l') l). rewrite <- IH. rewrite <- sumZ_add. reflexivity.
Qed.
Lemma nsq_total_any p (Pp : prime p) : forall c, sumZ (fun b => nsq p (c + b)) (zrange 0 p) = p.
Proof.
  intros c. destruct (Z.eq_dec p 2) as [->|P2].
  - change (zrange 0 2) with [0; 1]. cbn [sumZ fold_right]. rewrite (nsq_mod 2 (c + 0) (c mod 2)), (nsq_mod 2 (c + 1) (c mod 2 + 1)); try lia.
    + pose proof (Z.mod_pos_bound c 2 ltac:(lia)). assert (Y: c mod 2 = 0 \/ c mod 2 = 1) by lia. destruct Y as [-> | ->]; reflexivity.
    + exists (c / 2). pose proof (Z.div_mod c 2). lia.
    + exists (c / 2). pose proof (Z.div_mod c 2). lia.
  - transitivity (sumZ (fun x => nsq p (x + c)) (zrange 0 p)); [|apply (sum_shift p Pp P2 c)]. apply sumZ_ext. intros x _. f_equal. ring.
Qed.
(** C110: for every a, the cardinalities of the p curves y^2 = x^3 + a x + b, b = 0, ..., p - 1, add up to p (p + 1). *)
Lemma c110_average : forall a p curves, prime p ->
  Forall2 (fun b E => ec_new a (Z.of_nat b) p = Ok E) (seq 0 (Z.to_nat p)) curves ->
  fold_right Z.add 0 (map cardinality curves) = p * (p + 1).
Proof.
  intros a p curves Pp H. pose proof (prime_ge_2 p Pp).
  assert (X: fold_right Z.add 0 (map cardinality curves) = sumZ (fun b => 1 + sumZ (fun x => nsq p (x * x * x + a * x + b)) (zrange 0 p)) (map Z.of_nat (seq 0 (Z.to_nat p)))).
  { revert H. generalize (seq 0 (Z.to_nat p)). intros l. revert curves. induction l as [|b l IH]; intros curves H; inversion H; subst; [reflexivity|].
    cbn [map fold_right sumZ]. rewrite (card_sum _ _ _ _ H3). f_equal. apply IH. assumption. }
  rewrite X. clear X H. assert (Y: map Z.of_nat (seq 0 (Z.to_nat p)) = zrange 0 p).
  { unfold zrange. rewrite Z.sub_0_r. apply map_ext. intros; lia. }
  rewrite Y, sumZ_add, sumZ_const, length_zrange, (sum_swap (fun x b => nsq p (x * x * x + a * x + b))).
  rewrite (sumZ_ext _ (fun _ => p)) by (intros x _; apply (nsq_total_any p Pp)). rewrite sumZ_const, length_zrange. rewrite Z.sub_0_r, Z2Nat.id by lia. ring.
Qed.
Example c110_case : exists E E1 E2 E3, ec_new 0 0 5 = Ok E /\ cardinality E = 6 /\
  (5 | 4 * 2 ^ 3 + 27 * 2 ^ 2) /\ ec_new 2 2 5 = Ok E1 /\ cardinality E1 = 7 /\
  (7 | 4 * 1 ^ 3 + 27 * 5 ^ 2) /\ (7 | 2 * 2 + 2 * 1 * 5) /\ ec_new 1 5 7 = Ok E2 /\ cardinality E2 = 7 /\ ec_new 1 0 2 = Ok E3 /\ cardinality E3 = 3.
Proof.
  eexists _, _, _, _. split; [reflexivity|]. split; [reflexivity|]. split; [exists 28; reflexivity|]. split; [reflexivity|]. split; [reflexivity|]. split; [exists 97; reflexivity|]. split; [exists 2; reflexivity|]. repeat split.
Qed.

(** The cusp y^2 = x^3: the parameter x / y is additive. *)
Lemma cusp_param p x y : prime p -> ~ (p | x) -> (p | y * y - x * x * x) -> exists u, ~ (p | u) /\ (p | x - u * u) /\ (p | y - u * u * u).
Proof.
  intros Pp Nx D. pose proof (prime_ge_2 p Pp). destruct (inverse_spec x p Pp Nx) as (r & _ & _ & (k & Hr)). destruct D as (w & D). exists (y * r).
  assert (R: x * r = 1 + k * p) by lia.
  assert (X: (p | x - y * r * (y * r))).
  { exists (- (w * r * r) - x * (2 * k + k * k * p)). replace (x - y * r * (y * r)) with (x - (y * y - x * x * x) * r * r - x * (x * r) * (x * r)) by ring. rewrite D, R. ring. }
  destruct X as (k1 & X). split; [|split; [exists k1; exact X|]].
  - intros (k2 & Y). apply Nx. exists (k1 + k2 * (y * r)). replace x with (x - y * r * (y * r) + y * r * (y * r)) by ring. rewrite X. rewrite Y at 1. ring.
  - exists (k1 * (y * r) - y * k). replace (y - y * r * (y * r) * (y * r)) with ((x - y * r * (y * r)) * (y * r) + y * (1 - x * r)) by ring. rewrite X, R. ring.
Qed.
Section Cusp.
Variables a p : Z.
Hypothesis Pp : prime p.
Hypothesis P2 : p <> 2.
Hypothesis Da : (p | a).
(** x and y are u^2 and u^3 *)
Definition cusp_at (u x y : Z) : Prop := ~ (p | u) /\ (p | x - u * u) /\ (p | y - u * u * u).
Lemma cp_cong x y : (p | x - y) -> exists k, x = y + k * p.
Proof. intros (k & H). exists k. lia. Qed.
Lemma cusp_third u v m s x3 y3 x1 y1 x2 :
  (p | x1 - u * u) -> (p | y1 - u * u * u) -> (p | x2 - v * v) -> ~ (p | s) -> s = u + v -> ~ (p | u * v) ->
  (p | m * s - (u * u + u * v + v * v)) -> (p | x3 - (m * m - x1 - x2)) -> (p | y3 - (m * (x1 - x3) - y1)) ->
  exists w, (p | w * s - u * v) /\ cusp_at w x3 y3.
Proof.
  intros (k1 & X1) (k2 & Y1) (k3 & X2) Ns Es Nuv (k4 & M) (k5 & X3) (k6 & Y3).
  destruct (inverse_spec s p Pp Ns) as (r & _ & _ & (k & Hr)). exists (u * v * r).
  assert (W: (p | u * v * r * s - u * v)) by (exists (u * v * k); replace (u * v * r * s - u * v) with (u * v * (s * r - 1)) by ring; rewrite Hr; ring).
  split; [exact W|]. destruct W as (k7 & W). set (w := u * v * r) in *. clearbody w.
  assert (Nw: ~ (p | w)) by (intros (k8 & Y); apply Nuv; exists (k8 * s - k7); replace (u * v) with (w * s - (w * s - u * v)) by ring; rewrite W, Y; ring).
  assert (Nss: ~ (p | s * s)) by (intros Y; apply prime_mult in Y; tauto). assert (Nsss: ~ (p | s * s * s)) by (intros Y; apply prime_mult in Y; tauto).
  assert (C3: (p | x3 - w * w)).
  { apply (cancel_l p (s * s)); [exact Pp|exact Nss|].
    exists (k5 * s * s + k4 * (m * s + (u * u + u * v + v * v)) - (k1 + k3) * s * s - k7 * (w * s + u * v)).
    replace (s * s * (x3 - w * w)) with ((x3 - (m * m - x1 - x2)) * s * s + (m * s - (u * u + u * v + v * v)) * (m * s + (u * u + u * v + v * v)) - (x1 - u * u + (x2 - v * v)) * s * s - (w * s - u * v) * (w * s + u * v)
      + ((u * u + u * v + v * v) * (u * u + u * v + v * v) - (u * u + v * v) * s * s - u * v * (u * v))) by ring.
    rewrite X3, M, X1, X2, W, Es. ring. }
  split; [exact Nw|]. split; [exact C3|]. destruct C3 as (k8 & C3).
  apply (cancel_l p (s * s * s)); [exact Pp|exact Nsss|].
  exists (k6 * s * s * s - k2 * s * s * s + k1 * m * s * s * s - k8 * m * s * s * s + k4 * (u * u - w * w) * s * s - k7 * (w * s + u * v) * (u * u + u * v + v * v) - k7 * ((w * s) * (w * s) + w * s * (u * v) + u * v * (u * v))).
  replace (s * s * s * (y3 - w * w * w)) with ((y3 - (m * (x1 - x3) - y1)) * s * s * s - (y1 - u * u * u) * s * s * s + (x1 - u * u) * m * s * s * s - (x3 - w * w) * m * s * s * s
    + (m * s - (u * u + u * v + v * v)) * (u * u - w * w) * s * s - (w * s - u * v) * (w * s + u * v) * (u * u + u * v + v * v) - (w * s - u * v) * ((w * s) * (w * s) + w * s * (u * v) + u * v * (u * v))
    + (u * u + u * v + v * v) * (u * u * s * s - u * v * (u * v)) - u * u * u * s * s * s - u * v * (u * v) * (u * v)) by ring.
  rewrite Y3, Y1, X1, C3, M, W, Es. ring.
Qed.
Lemma cusp_sum u v x1 y1 x2 y2 R : cusp_at u x1 y1 -> cusp_at v x2 y2 -> ec_sum a p (Some (x1, y1)) (Some (x2, y2)) R ->
  match R with
  | None => (p | u + v)
  | Some (x3, y3) => ~ (p | u + v) /\ exists w, (p | w * (u + v) - u * v) /\ cusp_at w x3 y3
  end.
Proof using Pp P2 Da.
  pose proof (prime_ge_2 p Pp) as G. intros (Nu & X1 & Y1) (Nv & X2 & Y2) H. assert (Nuv: ~ (p | u * v)) by (intros Y; apply prime_mult in Y; tauto).
  inversion H as [|?|x y1' y2' D|x1' y1' x2' y2' m N D|x y m N D]; subst; clear H.
  - apply (cancel_l p (u * u)); [exact Pp|intros Y; apply prime_mult in Y; tauto|]. destruct X1 as (k1 & X1), Y1 as (k2 & Y1), X2 as (k3 & X2), Y2 as (k4 & Y2), D as (k & D).
    exists (k - k2 - k4 + v * (k3 - k1)). replace (u * u * (u + v)) with (y1 + y2 - (y1 - u * u * u) - (y2 - v * v * v) + v * (x2 - v * v - (x2 - u * u))) by ring. rewrite D, Y1, Y2, X2, X1. ring.
  - destruct X1 as (k1 & X1), Y1 as (k2 & Y1), X2 as (k3 & X2), Y2 as (k4 & Y2), D as (k & D).
    assert (X: (p | (v - u) * (m * (u + v) - (u * u + u * v + v * v)))).
    { exists (k - m * k3 + m * k1 + k4 - k2). replace ((v - u) * (m * (u + v) - (u * u + u * v + v * v))) with (m * (x2 - x1) - (y2 - y1) - m * (x2 - v * v) + m * (x1 - u * u) + (y2 - v * v * v) - (y1 - u * u * u)) by ring. rewrite D, X2, X1, Y2, Y1. ring. }
    assert (Y: forall c, (p | c) -> c = u + v \/ c = v - u -> False).
    { intros c Dc Hc. apply N. assert (Z0: (p | (v - u) * (u + v))) by (destruct Hc; subst c; [apply Z.divide_mul_r|apply Z.divide_mul_l]; exact Dc). destruct Z0 as (k5 & Z0).
      exists (k5 + k3 - k1). replace (x2 - x1) with ((v - u) * (u + v) + (x2 - v * v) - (x1 - u * u)) by ring. rewrite Z0, X2, X1. ring. }
    assert (Ns: ~ (p | u + v)) by (intros Z0; apply (Y _ Z0); left; reflexivity). unfold line_third. split; [exact Ns|].
    apply (cusp_third u v m (u + v) _ _ x1 y1 x2); try assumption; try reflexivity.
    + exists k1; exact X1.
    + exists k2; exact Y1.
    + exists k3; exact X2.
    + apply (cancel_l p (v - u)); [exact Pp|intros Z0; apply (Y _ Z0); right; reflexivity|exact X].
    + apply mod_eq_divide; [lia|]. apply Z.mod_mod. lia.
    + apply mod_eq_divide; [lia|]. apply Z.mod_mod. lia.
  - (* tangent *)
    assert (Ev: (p | v - u)).
    { apply (cancel_l p (u * u)); [exact Pp|intros Y; apply prime_mult in Y; tauto|]. destruct X1 as (k1 & X1), Y1 as (k2 & Y1), X2 as (k3 & X2), Y2 as (k4 & Y2).
      exists (k2 - k4 + v * (k3 - k1)). replace (u * u * (v - u)) with (y2 - u * u * u - (y2 - v * v * v) + v * (x2 - v * v - (x2 - u * u))) by ring. rewrite Y1, Y2, X2, X1. ring. }
    destruct Ev as (kv & Ev). destruct Da as (ka & Ea).
    assert (Ns: ~ (p | u + v)).
    { intros (k & Y). assert (Z0: (p | 2 * u)) by (exists (k - kv); replace (2 * u) with (u + v - (v - u)) by ring; rewrite Y, Ev; ring). apply prime_mult in Z0; [|exact Pp]. destruct Z0 as [Z0|Z0]; [|tauto]. apply Z.divide_pos_le in Z0; lia. }
    unfold line_third. split; [exact Ns|]. apply (cusp_third u v m (u + v) _ _ x2 y2 x2); try assumption; try reflexivity.
    + apply (cancel_l p (u * u)); [exact Pp|intros Y; apply prime_mult in Y; tauto|]. destruct X1 as (k1 & X1), Y1 as (k2 & Y1), D as (k & D).
      exists (k - 2 * m * k2 + 3 * k1 * (x2 + u * u) + ka + u * u * (m * kv - kv * (2 * u + v))).
      replace (u * u * (m * (u + v) - (u * u + u * v + v * v))) with (m * (2 * y2) - (3 * (x2 * x2) + a) - 2 * m * (y2 - u * u * u) + 3 * (x2 - u * u) * (x2 + u * u) + a + u * u * (m * (v - u) - (v - u) * (2 * u + v))) by ring. rewrite D, Y1, X1, Ev, Ea. ring.
    + apply mod_eq_divide; [lia|]. apply Z.mod_mod. lia.
    + apply mod_eq_divide; [lia|]. apply Z.mod_mod. lia.
Qed.
End Cusp.
Lemma cong_mul p x X y Y : (p | x - X) -> (p | y - Y) -> (p | x * y - X * Y).
Proof. intros (k & H) (l & L). exists (k * y + l * X). replace (x * y - X * Y) with ((x - X) * y + (y - Y) * X) by ring. rewrite H, L. ring. Qed.
Lemma cong_add p x X y Y : (p | x - X) -> (p | y - Y) -> (p | x + y - (X + Y)).
Proof. intros (k & H) (l & L). exists (k + l). lia. Qed.
Lemma cong_sub p x X y Y : (p | x - X) -> (p | y - Y) -> (p | x - y - (X - Y)).
Proof. intros (k & H) (l & L). exists (k - l). lia. Qed.
Lemma cong_0 p x X : (p | x - X) -> (p | X) -> (p | x).
Proof. intros (k & H) (l & L). exists (k + l). lia. Qed.
Lemma cusp_at_mod p u x y : 0 < p -> cusp_at p u x y <-> cusp_at p u (x mod p) (y mod p).
Proof.
  intros Hp. unfold cusp_at. destruct (mod_k x p ltac:(lia)) as (k & ->), (mod_k y p ltac:(lia)) as (k' & ->).
  assert (X: forall z c q, (p | z - c) <-> (p | z - q * p - c)).
  { intros z c q. split; intros (w & H); [exists (w - q)|exists (w + q)]; lia. }
  rewrite (X x (u * u) k), (X y (u * u * u) k'). tauto.
Qed.
Lemma cusp_curve a b p P : (p | a) -> (p | b) -> curve_eqn a b p (px P) (py P) -> (p | py P * py P - px P * px P * px P).
Proof.
  intros (ka & Ha) (kb & Hb) (k & D). exists (k + ka * px P + kb). replace (py P * py P - px P * px P * px P) with (py P * py P - (px P * px P * px P + a * px P + b) + a * px P + b) by ring. rewrite D, Ha, Hb. ring.
Qed.
Lemma cusp_plus a b p E P Q u v : prime p -> p <> 2 -> (p | a) -> (p | b) -> curve_of a b p E -> pz P <> 0 -> pz Q <> 0 ->
  cusp_at p u (px P) (py P) -> cusp_at p v (px Q) (py Q) -> is_on_curve E P = Ok true -> is_on_curve E Q = Ok true ->
  exists R, plus E P Q = Ok R /\ is_on_curve E R = Ok true /\
    if pz R =? 0 then (p | u + v) else ~ (p | u + v) /\ exists w, (p | w * (u + v) - u * v) /\ cusp_at p w (px R) (py R).
Proof.
  intros Pp P2 Da Db HE ZP ZQ CP CQ OP OQ. pose proof (prime_ge_2 p Pp) as G.
  destruct (c52_chord_tangent a b p E P Q Pp P2 HE ZP ZQ OP OQ) as (R & HR & HS & _). exists R. split; [exact HR|].
  destruct (c52_closed a b p E P Q Pp P2 HE OP OQ) as (R' & HR' & OR). assert (R' = R) by congruence. subst R'. split; [exact OR|].
  unfold affine in HS. destruct (pz P =? 0) eqn:EP; [lia|]. destruct (pz Q =? 0) eqn:EQ; [lia|].
  apply (cusp_sum a p Pp P2 Da u v) in HS; [|apply (proj1 (cusp_at_mod p _ _ _ ltac:(lia))); assumption..].
  destruct (pz R =? 0); [exact HS|]. destruct HS as (N & w & D & C). split; [exact N|]. exists w. split; [exact D|]. apply (proj2 (cusp_at_mod p _ _ _ ltac:(lia))). exact C.
Qed.
(** C110: on a cusp, plus adds the parameters x / y: the sum of two points with x <> 0 is infinity or again such a point. *)
Lemma c110_cusp_plus : forall a b p E P Q, prime p -> p <> 2 -> (p | a) -> (p | b) -> curve_of a b p E ->
  is_on_curve E P = Ok true -> is_on_curve E Q = Ok true -> is_infinity P = false -> is_infinity Q = false -> ~ (p | px P) -> ~ (p | px Q) ->
  exists R, plus E P Q = Ok R /\
    (is_infinity R = true -> (p | px P * py Q + px Q * py P)) /\
    (is_infinity R = false -> ~ (p | px R) /\ (p | px R * (py P * py Q) - py R * (px P * py Q + px Q * py P))).
Proof.
  intros a b p E P Q Pp P2 Da Db HE OP OQ IP IQ NP NQ. pose proof (prime_ge_2 p Pp) as G. unfold is_infinity in *.
  assert (CU: forall P, is_on_curve E P = Ok true -> (pz P =? 0) = false -> ~ (p | px P) -> exists u, cusp_at p u (px P) (py P)).
  { intros T OT IT NT. pose proof (is_on_inv a b p E T (curve_of_fields _ _ _ _ HE) ltac:(lia) OT) as X. apply affine_on in X; [|lia]. destruct X as [X|X]; [lia|].
    destruct (cusp_param p _ _ Pp NT (cusp_curve a b p T Da Db X)) as (u & Hu). exists u. exact Hu. }
  destruct (CU P OP IP NP) as (u & CP). destruct (CU Q OQ IQ NQ) as (v & CQ). clear CU.
  destruct (cusp_plus a b p E P Q u v Pp P2 Da Db HE ltac:(lia) ltac:(lia) CP CQ OP OQ) as (R & HR & _ & X). exists R. split; [exact HR|].
  destruct CP as (Nu & (k1 & X1) & (k2 & Y1)), CQ as (Nv & (k3 & X2) & (k4 & Y2)).
  split; intros IR; rewrite IR in X.
  - destruct X as (k & X). exists (k * u * u * v * v + k1 * py Q + k4 * u * u + k3 * py P + k2 * v * v).
    replace (px P * py Q + px Q * py P) with ((u + v) * (u * u * v * v) + (px P - u * u) * py Q + (py Q - v * v * v) * u * u + (px Q - v * v) * py P + (py P - u * u * u) * v * v) by ring. rewrite X, X1, X2, Y1, Y2. ring.
  - destruct X as (Ns & w & (k5 & W) & Nw & (k6 & X3) & (k7 & Y3)). split.
    + intros (k & D). assert (Z0: (p | w * w)) by (exists (k - k6); replace (w * w) with (px R - (px R - w * w)) by ring; rewrite X3, D; ring). apply prime_mult in Z0; [|exact Pp]. tauto.
    + apply (cong_0 p _ (w * w * (u * u * u * (v * v * v)) - w * w * w * (u * u * (v * v * v) + v * v * (u * u * u)))).
      * apply cong_sub; [apply cong_mul; [exists k6; exact X3|apply cong_mul; [exists k2; exact Y1|exists k4; exact Y2]]|].
        apply cong_mul; [exists k7; exact Y3|]. apply cong_add; apply cong_mul; [exists k1; exact X1|exists k4; exact Y2|exists k3; exact X2|exists k2; exact Y1].
      * exists (- (k5 * w * w * u * u * v * v)). replace (w * w * (u * u * u * (v * v * v)) - w * w * w * (u * u * (v * v * v) + v * v * (u * u * u))) with (- ((w * (u + v) - u * v) * w * w * u * u * v * v)) by ring. rewrite W. ring.
Qed.
Lemma cusp_order_loop a b p E P u : prime p -> p <> 2 -> (p | a) -> (p | b) -> curve_of a b p E -> is_on_curve E P = Ok true -> pz P <> 0 -> cusp_at p u (px P) (py P) ->
  forall fuel x r w, 2 <= x <= p -> p - x + 1 <= Z.of_nat fuel -> is_on_curve E r = Ok true -> pz r <> 0 -> cusp_at p w (px r) (py r) -> (p | (x - 1) * w - u) ->
  point_order_loop fuel E P x r = Ok p.
Proof.
  intros Pp P2 Da Db HE OP ZP CP. induction fuel as [|fuel IH]; intros x r w Bx Hf Or Zr Cr D; [lia|].
  cbn [point_order_loop]. destruct (cusp_plus a b p E P r u w Pp P2 Da Db HE ZP Zr CP Cr OP Or) as (R & -> & OR & X). cbn [bind]. unfold is_infinity.
  destruct D as (k & D). destruct Cr as (Nw & _).
  assert (Y: (p | u + w) <-> (p | x)).
  { split.
    - intros (k' & Y). apply (cancel_l p w); [exact Pp|exact Nw|]. exists (k' + k). replace (w * x) with ((x - 1) * w - u + (u + w)) by ring. rewrite D, Y. ring.
    - intros (k' & Y). exists (k' * w - k). replace (u + w) with (x * w - ((x - 1) * w - u)) by ring. rewrite D, Y. ring. }
  destruct (pz R =? 0) eqn:ER.
  - apply Y in X. apply Z.divide_pos_le in X; [|lia]. f_equal. lia.
  - destruct X as (N & w' & (k' & W') & C'). assert (Nx: x <> p) by (intros ->; apply N, Y; exists 1; ring).
    apply (IH (x + 1) R w'); [lia|lia|exact OR|lia|exact C'|]. replace (x + 1 - 1) with x by ring.
    apply (cancel_l p w); [exact Pp|exact Nw|]. exists (k' + k * w'). replace (w * (x * w' - u)) with (w' * (u + w) - u * w + w' * ((x - 1) * w - u)) by ring. rewrite W', D. ring.
Qed.
(** C110: so every point with x <> 0 on a cusp has order p. *)
Lemma c110_cusp_order : forall a b p E P, prime p -> p <> 2 -> (p | a) -> (p | b) -> curve_of a b p E ->
  is_on_curve E P = Ok true -> is_infinity P = false -> ~ (p | px P) -> exists fuel, point_order fuel E P = Ok p.
Proof.
  intros a b p E P Pp P2 Da Db HE OP IP NP. pose proof (prime_ge_2 p Pp) as G. exists (Z.to_nat p). unfold point_order. rewrite IP. unfold is_infinity in IP.
  pose proof (is_on_inv a b p E P (curve_of_fields _ _ _ _ HE) ltac:(lia) OP) as X. apply affine_on in X; [|lia]. destruct X as [X|X]; [lia|].
  destruct (cusp_param p _ _ Pp NP (cusp_curve a b p P Da Db X)) as (u & Hu).
  apply (cusp_order_loop a b p E P u Pp P2 Da Db HE OP ltac:(lia) Hu _ 2 P u); [lia|lia|exact OP|lia|exact Hu|]. exists 0. ring.
Qed.
Example c110_cusp_case : is_on_curve (new_raw 0 0 7) (mkPt 2 1 1) = Ok true /\ plus (new_raw 0 0 7) (mkPt 2 1 1) (mkPt 1 1 1) = Ok (mkPt 4 6 1) /\ point_order 7 (new_raw 0 0 7) (mkPt 2 1 1) = Ok 7.
Proof. repeat split. Qed.
