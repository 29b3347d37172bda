(** Lemmas behind C127 (orders of multiples, sums and negatives). *)
From Coq Require Import Znumtheory ZifyBool.
From Verif Require Import Prelude M_Bigint M_Curve Spec SpecCurve P_Bigint P_Variable P_Group P_Fp P_Curve P_Curve2 P_Curve3 P_Curve4 P_CurveProps P_AbGroup P_TorsionProps.
Open Scope Z_scope.

Section Ord.
Variables (a b p : Z).
Hypothesis HEl : elliptic a b p.
Let Pp : prime p := proj1 HEl.
Let P2 : p <> 2 := proj1 (proj2 HEl).
Notation op := (esum a p (proj1 HEl)).
Notation on := (on_curve a b p).
Notation MUL := (mul apoint op None).
Notation ORD := (ord apoint op None).
Definition o_add := mul_add apoint op None on I (i_op a b p HEl) (i_assoc a b p HEl) (i_el a b p HEl).
Definition o_mul := mul_mul apoint op None on I (i_op a b p HEl) (i_assoc a b p HEl) (i_el a b p HEl).
Definition o_e := mul_e apoint op None on I (i_el a b p HEl).
Definition o_on := mul_on apoint op None on I (i_op a b p HEl).
Definition o_cancel := mul_cancel apoint op None on I (i_op a b p HEl) (i_assoc a b p HEl) (i_el a b p HEl).
(** ec_order is the order in the group, without a bound on the number of points. *)
Lemma ec_ord x n : on x -> (ec_order a p x n <-> 1 <= n /\ ORD x (Z.to_nat n)).
Proof.
  intros H. split.
  - intros (N & M & L). split; [exact N|]. split; [lia|]. split; [apply (i_mult a b p HEl); assumption|]. intros k Mk.
    apply (i_mult a b p HEl) in M; [|exact H]. set (m := Z.to_nat n) in *. assert (m0 : (m <> 0)%nat) by (unfold m; lia).
    pose proof (Nat.div_mod k m m0) as DM. pose proof (Nat.mod_upper_bound k m m0) as B. exists (k / m)%nat.
    assert (E0 : (k mod m = 0)%nat).
    { destruct (Nat.eq_dec (k mod m) 0) as [E|E]; [exact E|exfalso]. apply (L (Z.of_nat (k mod m))); [unfold m in *; lia|]. rewrite Nat2Z.id. apply (i_mult a b p HEl); [exact H|].
      apply (o_cancel (m * (k / m)) (k mod m) x H); [rewrite <- DM; exact Mk|]. rewrite Nat.mul_comm, o_mul by exact H. rewrite M. apply o_e. }
    rewrite E0, Nat.add_0_r in DM. rewrite Nat.mul_comm. exact DM.
  - intros (N & _ & M & L). split; [exact N|]. split; [apply (i_mult a b p HEl); assumption|]. intros k Hk Mk. apply (i_mult a b p HEl) in Mk; [|exact H]. apply L, Nat.divide_pos_le in Mk; lia.
Qed.
Lemma ord_mult x n k : on x -> ec_order a p x n -> 0 <= k -> (ec_mult a p x (Z.to_nat k) None <-> (n | k)).
Proof.
  intros H O Hk. apply (ec_ord x n H) in O. destruct O as (N & _ & M & L). rewrite (i_mult a b p HEl) by exact H. split.
  - intros E. apply L in E. apply divide_Z in E. rewrite !Z2Nat.id in E by lia. exact E.
  - intros (c & ->). assert (0 <= c) by nia. rewrite Z2Nat.inj_mul by lia. rewrite o_mul by exact H. rewrite M. apply o_e.
Qed.
Lemma ord_unique_ec x m n : ec_order a p x m -> ec_order a p x n -> m = n.
Proof. intros (A & B & C) (A' & B' & C'). destruct (Z.lt_total m n) as [L|[L|L]]; [exfalso; apply (C' m); [lia|exact B]|exact L|exfalso; apply (C n); [lia|exact B']]. Qed.
Lemma ord_none n : ec_order a p None n -> n = 1.
Proof. intros (N & _ & C). destruct (Z.eq_dec n 1) as [E|E]; [exact E|exfalso]. apply (C 1); [lia|]. econstructor; [constructor|constructor]. Qed.
(** The order of the k-th multiple. *)
Lemma ord_multiple x y n k : on x -> ec_order a p x n -> 0 <= k -> ec_mult a p x (Z.to_nat k) y -> ec_order a p y (n / Z.gcd n k).
Proof.
  intros H O Hk M. pose proof O as (N & _). apply (ec_mult_iff a b p (proj1 HEl) P2) in M; [|exact H]. rewrite <- (i_mul a b p HEl) in M.
  assert (Hy : on y) by (rewrite M; apply o_on, H). 
  assert (Hg : 0 < Z.gcd n k) by (pose proof (Z.gcd_nonneg n k); assert (Z.gcd n k <> 0) by (intros Z0; apply Z.gcd_eq_0 in Z0; lia); lia).
  destruct (Z.gcd_divide_l n k) as (n' & En). destruct (Z.gcd_divide_r n k) as (k' & Ek). remember (Z.gcd n k) as g eqn:Eg.
  assert (En' : n / g = n') by (rewrite En; apply Z.div_mul; lia). rewrite En'.
  assert (RP : rel_prime n' k').
  { assert (G1 : Z.gcd n' k' = 1). { assert (X : g = Z.gcd n' k' * g) by (rewrite Eg at 1; rewrite En, Ek; rewrite Z.gcd_mul_mono_r, (Z.abs_eq g) by lia; reflexivity). nia. }
    apply Zgcd_1_rel_prime, G1. }
  assert (n0 : 1 <= n') by nia. assert (k0 : 0 <= k') by nia.
  assert (IFF : forall j, 0 <= j -> (ec_mult a p y (Z.to_nat j) None <-> (n' | j))).
  { intros j Hj. rewrite (i_mult a b p HEl) by exact Hy. rewrite M, <- o_mul by exact H. rewrite <- Z2Nat.inj_mul by lia.
    rewrite <- (i_mult a b p HEl) by exact H. rewrite (ord_mult x n _ H O) by nia. split.
    - intros (c & Hc). apply (Gauss n' k' j); [|exact RP]. exists c. apply (Z.mul_reg_r _ _ g); [lia|]. transitivity (j * k); [rewrite Ek; ring|]. rewrite Hc. rewrite En at 1. ring.
    - intros (c & ->). exists (c * k'). rewrite Ek. rewrite En at 1. ring. }
  split; [exact n0|]. split; [apply IFF; [lia|apply Z.divide_refl]|]. intros j Hj Mj. apply IFF in Mj; [|lia]. apply Z.divide_pos_le in Mj; lia.
Qed.
Lemma ord_sum x y m n : on x -> on y -> ec_order a p x m -> ec_order a p y n -> rel_prime m n -> ec_order a p (op x y) (m * n).
Proof.
  intros Hx Hy Ox Oy R. apply (ec_ord x m Hx) in Ox. apply (ec_ord y n Hy) in Oy. destruct Ox as (M & Ox), Oy as (N & Oy).
  apply ec_ord; [apply (i_op a b p HEl); assumption|]. split; [nia|]. rewrite Z2Nat.inj_mul by lia.
  apply (ord_coprime apoint op None on I (i_op a b p HEl) (i_comm a b p HEl) (i_assoc a b p HEl) (i_el a b p HEl)); try assumption.
  pose proof (Nat.gcd_divide_l (Z.to_nat m) (Z.to_nat n)) as G1. pose proof (Nat.gcd_divide_r (Z.to_nat m) (Z.to_nat n)) as G2.
  apply divide_Z in G1. apply divide_Z in G2. rewrite Z2Nat.id in G1, G2 by lia. destruct R as [_ _ R]. specialize (R _ G1 G2). apply Z.divide_1_r_nonneg in R; lia.
Qed.
Lemma mul_neg k x : on x -> MUL k x = None -> MUL k (ec_neg p x) = None.
Proof.
  intros H E. assert (Hn : on (ec_neg p x)) by (apply (i_inv a b p HEl), H).
  assert (S0 : op (MUL k (ec_neg p x)) (MUL k x) = None).
  { rewrite <- (mul_op apoint op None on I (i_op a b p HEl) (i_comm a b p HEl) (i_assoc a b p HEl) (i_el a b p HEl)) by assumption. rewrite (i_inv_l a b p HEl) by exact H. apply o_e. }
  rewrite E in S0. rewrite (i_comm a b p HEl) in S0 by (try exact I; apply o_on, Hn). rewrite (i_el a b p HEl) in S0 by (apply o_on, Hn). exact S0.
Qed.
Lemma ord_neg x n : on x -> ec_order a p x n -> ec_order a p (ec_neg p x) n.
Proof.
  intros H (N & M & C). assert (Hn : on (ec_neg p x)) by (apply (i_inv a b p HEl), H).
  assert (NN : ec_neg p (ec_neg p x) = x).
  { apply (cancel apoint op None (ec_neg p) on (i_inv a b p HEl) (i_assoc a b p HEl) (i_el a b p HEl) (i_inv_l a b p HEl) (ec_neg p x)); [exact Hn|apply (i_inv a b p HEl), Hn|exact H|].
    rewrite (i_inv_l a b p HEl x H). rewrite (i_comm a b p HEl) by (try exact Hn; apply (i_inv a b p HEl), Hn). apply (i_inv_l a b p HEl), Hn. }
  split; [exact N|]. split.
  - apply (i_mult a b p HEl); [exact Hn|]. apply mul_neg; [exact H|]. apply (i_mult a b p HEl); assumption.
  - intros k Hk Mk. apply (C k Hk). apply (i_mult a b p HEl); [exact H|]. apply (i_mult a b p HEl) in Mk; [|exact Hn]. rewrite <- NN. apply mul_neg; assumption.
Qed.
End Ord.

Lemma api_on a b p E P : elliptic a b p -> curve_of a b p E -> is_on_curve E P = Ok true -> on_curve a b p (affine p P).
Proof. intros (Pp & _) HE HP. pose proof (prime_ge_2 p Pp). apply curve_of_fields in HE. apply (is_on_inv a b p E); [exact HE|lia|exact HP]. Qed.
Lemma api_order a b p E P n f : elliptic a b p -> curve_of a b p E -> is_on_curve E P = Ok true -> point_order f E P = Ok n -> ec_order a p (affine p P) n.
Proof. intros HEl HE HP HO. destruct (c62_point_order a b p E P HEl HE HP) as (m & O & _ & U). rewrite (U f n HO). exact O. Qed.
Lemma order_api a b p E P n : elliptic a b p -> curve_of a b p E -> is_on_curve E P = Ok true -> ec_order a p (affine p P) n ->
  (exists f, point_order f E P = Ok n) /\ forall f m, point_order f E P = Ok m -> m = n.
Proof.
  intros HEl HE HP O. destruct (c62_point_order a b p E P HEl HE HP) as (m & O' & (f & Hf) & U). rewrite (ord_unique_ec a p _ n m O O'). split; [exists f; exact Hf|exact U].
Qed.
Lemma aff_inf p P : is_infinity P = true <-> affine p P = None.
Proof. unfold is_infinity, affine. destruct (pz P =? 0); split; congruence. Qed.
(** C127: for k >= 1, multiply_scalar(P, k) is infinite exactly when the order n of P divides k or 2^(log2 k) (the latter is the case in which it is wrong, C59). *)
Lemma c127_infinite : forall a b p E P f n k R, elliptic a b p -> curve_of a b p E -> is_on_curve E P = Ok true -> point_order f E P = Ok n ->
  1 <= k -> multiply_scalar E P k = Ok R -> (is_infinity R = true <-> (n | k) \/ (n | 2 ^ Z.log2 k)).
Proof.
  intros a b p E P f n k R HEl HE HP HO Hk HR. pose proof (api_on a b p E P HEl HE HP) as ON. pose proof (api_order a b p E P n f HEl HE HP HO) as O.
  destruct (c59_all_points_partial a b p E P k HEl HE HP Hk) as (R' & ER & _ & G & B). assert (R' = R) as -> by congruence.
  assert (L0 : 0 <= 2 ^ Z.log2 k) by (apply Z.pow_nonneg; lia).
  pose proof (ord_mult a b p HEl (affine p P) n (2 ^ Z.log2 k) ON O L0) as I2. pose proof (ord_mult a b p HEl (affine p P) n k ON O ltac:(lia)) as Ik.
  destruct (Zdivide_dec n (2 ^ Z.log2 k)) as [D|D].
  - pose proof (B (proj2 I2 D)). tauto.
  - assert (M : ec_mult a p (affine p P) (Z.to_nat k) (affine p R)) by (apply G; tauto). rewrite (aff_inf p R). split.
    + intros Y. rewrite Y in M. left. apply Ik, M.
    + intros [Y|Y]; [|tauto]. apply Ik in Y. apply (ec_mult_iff a b p (proj1 HEl) (proj1 (proj2 HEl))) in M; [|exact ON]. apply (ec_mult_iff a b p (proj1 HEl) (proj1 (proj2 HEl))) in Y; [|exact ON]. congruence.
Qed.
(** C127: the order of multiply_scalar(P, k), k >= 1, is n / gcd(n, k) for the order n of P, and 1 in the exceptional case. *)
Lemma c127_multiple : forall a b p E P f n k Q, elliptic a b p -> curve_of a b p E -> is_on_curve E P = Ok true -> point_order f E P = Ok n ->
  1 <= k -> multiply_scalar E P k = Ok Q ->
  exists m, (exists f', point_order f' E Q = Ok m) /\ (forall f' m', point_order f' E Q = Ok m' -> m' = m) /\
    ((n | 2 ^ Z.log2 k) -> m = 1) /\ (~ (n | 2 ^ Z.log2 k) -> m = n / Z.gcd n k).
Proof.
  intros a b p E P f n k Q HEl HE HP HO Hk HQ. pose proof (api_on a b p E P HEl HE HP) as ON. pose proof (api_order a b p E P n f HEl HE HP HO) as O.
  destruct (c59_all_points_partial a b p E P k HEl HE HP Hk) as (R' & ER & OQ & G & B). assert (R' = Q) as -> by congruence.
  assert (L0 : 0 <= 2 ^ Z.log2 k) by (apply Z.pow_nonneg; lia). pose proof (ord_mult a b p HEl (affine p P) n (2 ^ Z.log2 k) ON O L0) as I2.
  destruct (c62_point_order a b p E Q HEl HE OQ) as (m & Om & Fm & U). exists m. split; [exact Fm|]. split; [exact U|]. split.
  - intros D. pose proof (B (proj2 I2 D)) as Y. apply (aff_inf p) in Y. rewrite Y in Om. exact (ord_none a p m Om).
  - intros D. assert (M : ec_mult a p (affine p P) (Z.to_nat k) (affine p Q)) by (apply G; tauto).
    exact (ord_unique_ec a p _ m _ Om (ord_multiple a b p HEl (affine p P) (affine p Q) n k ON O ltac:(lia) M)).
Qed.
(** C127: two multiples of a point of odd order n are the same point exactly when the scalars agree modulo n. *)
Lemma c127_equal : forall a b p E P f n k l R S, elliptic a b p -> curve_of a b p E -> is_on_curve E P = Ok true -> point_order f E P = Ok n -> Z.odd n = true ->
  0 <= k -> 0 <= l -> multiply_scalar E P k = Ok R -> multiply_scalar E P l = Ok S -> (affine p R = affine p S <-> (n | k - l)).
Proof.
  intros a b p E P f n k l R S HEl HE HP HO OD Hk Hl HR HS. pose proof (api_on a b p E P HEl HE HP) as ON. pose proof (api_order a b p E P n f HEl HE HP HO) as O.
  assert (W : forall k l R S, 0 <= l -> l <= k -> multiply_scalar E P k = Ok R -> multiply_scalar E P l = Ok S -> (affine p R = affine p S <-> (n | k - l))).
  { clear k l R S Hk Hl HR HS. intros k l R S Hl Hk HR HS.
    destruct (c58_odd_order a b p E P n k HEl HE HP ltac:(lia) O OD) as (R' & ER & MR). assert (R' = R) as -> by congruence.
    destruct (c58_odd_order a b p E P n l HEl HE HP Hl O OD) as (S' & ES & MS). assert (S' = S) as -> by congruence.
    apply (ec_mult_iff a b p (proj1 HEl) (proj1 (proj2 HEl))) in MR; [|exact ON]. apply (ec_mult_iff a b p (proj1 HEl) (proj1 (proj2 HEl))) in MS; [|exact ON].
    rewrite <- (i_mul a b p HEl) in MR, MS. rewrite <- (ord_mult a b p HEl (affine p P) n (k - l) ON O) by lia. rewrite (i_mult a b p HEl) by exact ON.
    assert (Ek : Z.to_nat k = (Z.to_nat l + Z.to_nat (k - l))%nat) by lia. rewrite Ek, (o_add a b p HEl) in MR by exact ON. rewrite MR, MS.
    set (u := mul apoint _ None (Z.to_nat l) (affine p P)). set (v := mul apoint _ None (Z.to_nat (k - l)) (affine p P)).
    assert (Hu : on_curve a b p u) by (apply (o_on a b p HEl), ON). assert (Hv : on_curve a b p v) by (apply (o_on a b p HEl), ON).
    assert (U0 : esum a p (proj1 HEl) u None = u) by (rewrite (i_comm a b p HEl) by (assumption || exact I); apply (i_el a b p HEl), Hu).
    split.
    - intros Y. apply (cancel apoint (esum a p (proj1 HEl)) None (ec_neg p) (on_curve a b p) (i_inv a b p HEl) (i_assoc a b p HEl) (i_el a b p HEl) (i_inv_l a b p HEl) u); [exact Hu|exact Hv|exact I|]. rewrite U0. exact Y.
    - intros ->. exact U0. }
  destruct (Z.le_ge_cases l k) as [L|L]; [apply W; assumption|]. rewrite <- (Z.opp_involutive (k - l)), Z.divide_opp_r. replace (- (k - l)) with (l - k) by ring.
  rewrite <- (W l k S R Hk L HS HR). split; congruence.
Qed.
(** C127: the sum of points of coprime orders m and n has order m n (unless the second argument is the point at infinity, C56). *)
Lemma c127_sum : forall a b p E P Q R f g m n, elliptic a b p -> curve_of a b p E -> is_on_curve E P = Ok true -> is_on_curve E Q = Ok true ->
  is_infinity P = true \/ is_infinity Q = false -> point_order f E P = Ok m -> point_order g E Q = Ok n -> rel_prime m n -> plus E P Q = Ok R ->
  (exists h, point_order h E R = Ok (m * n)) /\ forall h k, point_order h E R = Ok k -> k = m * n.
Proof.
  intros a b p E P Q R f g m n HEl HE HP HQ HI HOP HOQ RP HR. pose proof HEl as (Pp & P2 & NS). pose proof (prime_ge_2 p Pp).
  pose proof (api_on a b p E P HEl HE HP) as OP. pose proof (api_on a b p E Q HEl HE HQ) as OQ.
  destruct (c52_closed a b p E P Q Pp P2 HE HP HQ) as (R' & ER & HRon). assert (R' = R) as -> by congruence.
  pose proof (curve_of_fields a b p E HE) as HF. destruct (plus_ok a b p E HF (proj1 HEl) P2 P Q OP OQ) as (R' & ER' & AR & _); [unfold is_infinity in HI; lia|]. assert (R' = R) as -> by congruence.
  apply (order_api a b p E R (m * n) HEl HE HRon). rewrite AR.
  apply (ord_sum a b p HEl); [exact OP|exact OQ|exact (api_order a b p E P m f HEl HE HP HOP)|exact (api_order a b p E Q n g HEl HE HQ HOQ)|exact RP].
Qed.
(** C127: a point and its negative have the same order. *)
Lemma c127_negate : forall a b p E P N f n, elliptic a b p -> curve_of a b p E -> is_on_curve E P = Ok true -> point_order f E P = Ok n -> negate E P = Ok N ->
  (exists h, point_order h E N = Ok n) /\ forall h k, point_order h E N = Ok k -> k = n.
Proof.
  intros a b p E P N f n HEl HE HP HO HN. pose proof (prime_ge_2 p (proj1 HEl)). destruct (c54_negate a b p E P ltac:(lia) HE HP) as (N' & EN & ON & AN & _). assert (N' = N) as -> by congruence.
  apply (order_api a b p E N n HEl HE ON). rewrite AN. apply (ord_neg a b p HEl); [exact (api_on a b p E P HEl HE HP)|exact (api_order a b p E P n f HEl HE HP HO)].
Qed.
Example c127_case : let E := new_raw 1 1 5 in let P := mkPt 0 1 1 in let E2 := new_raw 0 1 5 in
  elliptic 1 1 5 /\ elliptic 0 1 5 /\ is_on_curve E P = Ok true /\ point_order 20 E P = Ok 9 /\ multiply_scalar E P 6 = Ok (mkPt 2 4 1) /\ point_order 20 E (mkPt 2 4 1) = Ok 3 /\
  multiply_scalar E2 (mkPt 2 3 1) 3 = Ok (mkPt 4 0 1) /\ point_order 20 E2 (mkPt 2 3 1) = Ok 6 /\
  plus E2 (mkPt 4 0 1) (mkPt 0 1 1) = Ok (mkPt 2 2 1) /\ point_order 20 E2 (mkPt 4 0 1) = Ok 2 /\ point_order 20 E2 (mkPt 0 1 1) = Ok 3 /\ point_order 20 E2 (mkPt 2 2 1) = Ok 6.
Proof.
  assert (P5 : prime 5) by (apply is_prime_spec; reflexivity). assert (Q : 5 <> 2) by discriminate. assert (N1 : nonsingular 1 1 5) by (intros (k & K); lia). assert (N2 : nonsingular 0 1 5) by (intros (k & K); lia).
  intros E P E2. split; [exact (conj P5 (conj Q N1))|]. split; [exact (conj P5 (conj Q N2))|].
  repeat apply conj; vm_compute; reflexivity.
Qed.
