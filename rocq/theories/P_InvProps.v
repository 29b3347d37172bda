(** Lemmas behind the property theorem C93: the number of points modulo p is read off the (p-1)/2-th power of the cubic. *)
From Coq Require Import Znumtheory ZifyBool Permutation.
From Verif Require Import Prelude M_Bigint M_Variable M_Term M_Poly M_Curve Spec SpecCurve P_Bigint P_Variable P_FSum P_Poly P_Rem P_PolyProps P_Subst2 P_Roots P_Curve2 P_CurveProps P_Euler P_HasseProps.
Open Scope Z_scope.

(** Power sums over the residues. *)
Definition psum (p k : Z) : Z := sumZ (fun x => x ^ k) (zrange 0 p).
Lemma fermat_mod p g k : prime p -> ~ (p | g) -> 0 <= k -> (p | g ^ k - g ^ (k mod (p - 1))).
Proof.
  intros Pp Ng Hk. pose proof (prime_ge_2 p Pp). destruct (Z.eq_dec p 2) as [->|P2].
  { change (2 - 1) with 1. rewrite Z.mod_1_r. pose proof (fermat_little 2 g Pp Ng) as F. change (2 - 1) with 1 in F. rewrite Z.pow_1_r in F. pose proof (div_pow 2 g 1 k F Hk) as D. rewrite Z.pow_1_l in D by exact Hk. exact D. }
  pose proof (Z.div_mod k (p - 1) ltac:(lia)) as D. pose proof (Z.mod_pos_bound k (p - 1) ltac:(lia)). pose proof (Z.div_pos k (p - 1) Hk ltac:(lia)). set (q := k / (p - 1)) in *. set (r := k mod (p - 1)) in *.
  rewrite D, Z.pow_add_r, Z.pow_mul_r by nia. replace ((g ^ (p - 1)) ^ q * g ^ r - g ^ r) with (((g ^ (p - 1)) ^ q - 1) * g ^ r) by ring. apply Z.divide_mul_l.
  pose proof (div_pow p (g ^ (p - 1)) 1 q (fermat_little p g Pp Ng) ltac:(lia)) as F. rewrite Z.pow_1_l in F by lia. exact F.
Qed.
Lemma psum_0 p : 0 < p -> psum p 0 = p.
Proof. intros Hp. unfold psum. rewrite (sumZ_ext _ (fun _ => 1)) by (intros; apply Z.pow_0_r). rewrite sumZ_const, length_zrange. lia. Qed.
Lemma psum_none p k : prime p -> 0 < k -> k mod (p - 1) <> 0 -> (p | psum p k).
Proof.
  intros Pp Hk Nk. pose proof (prime_ge_2 p Pp) as G. assert (G3: p <> 2) by (intros ->; change (2 - 1) with 1 in Nk; rewrite Z.mod_1_r in Nk; lia).
  set (r := k mod (p - 1)) in *. pose proof (Z.mod_pos_bound k (p - 1) ltac:(lia)) as Br. fold r in Br.
  destruct (Exists_dec (fun g => ~ (p | g ^ r - 1)) (zrange 1 p)) as [X|X].
  { intros g. destruct (Zdivide_dec p (g ^ r - 1)); [right|left]; tauto. }
  - apply Exists_exists in X. destruct X as (g & I & Ng). apply in_zrange in I. assert (Dg: ~ (p | g)) by (intros D; apply Z.divide_pos_le in D; lia).
    pose proof (residues_sum p (fun x => g * x) (fun x => x ^ k mod p) ltac:(lia) (scale_inj p g Pp Dg)) as E. cbv beta in E.
    assert (E': sumZ (fun x => (g * x) ^ k mod p) (zrange 0 p) = sumZ (fun x => x ^ k mod p) (zrange 0 p)) by (apply E; intros x y D; apply mod_eq_divide; [lia|]; apply div_pow; [exact D|lia]).
    assert (M: forall f, (p | sumZ (fun x => f x mod p) (zrange 0 p) - sumZ f (zrange 0 p))) by (intros f; apply sumZ_divide; intros x _; apply mod_eq_divide; [lia|]; apply Z.mod_mod; lia).
    pose proof (M (fun x => (g * x) ^ k)) as M1. pose proof (M (fun x => x ^ k)) as M2. cbv beta in M1, M2. rewrite E' in M1.
    rewrite (sumZ_ext (fun x => (g * x) ^ k) (fun x => g ^ k * x ^ k)) in M1 by (intros; apply Z.pow_mul_l). rewrite sumZ_scale in M1. fold (psum p k) in M1, M2.
    assert (D: (p | (g ^ k - 1) * psum p k)).
    { replace ((g ^ k - 1) * psum p k) with (sumZ (fun x => x ^ k mod p) (zrange 0 p) - psum p k - (sumZ (fun x => x ^ k mod p) (zrange 0 p) - g ^ k * psum p k)) by ring. apply Z.divide_sub_r; assumption. }
    apply prime_mult in D; [|exact Pp]. destruct D as [D|D]; [exfalso|exact D]. apply Ng.
    replace (g ^ r - 1) with (g ^ k - 1 - (g ^ k - g ^ r)) by ring. apply Z.divide_sub_r; [exact D|]. apply fermat_mod; [exact Pp|exact Dg|lia].
  - exfalso. assert (B: forall x, In x (zrange 1 p) -> 0 <= x < p /\ (p | x ^ r - 1)).
    { intros x I. pose proof I as I'. apply in_zrange in I'. split; [lia|]. destruct (Zdivide_dec p (x ^ r - 1)) as [D|D]; [exact D|]. exfalso. apply X, Exists_exists. exists x. split; assumption. }
    pose proof (unity_roots p r (zrange 1 p) Pp ltac:(lia) (NoDup_zrange 1 p) B) as L. rewrite length_zrange in L. lia.
Qed.
Lemma zrange_cons p : 0 < p -> zrange 0 p = 0 :: zrange 1 p.
Proof.
  intros Hp. unfold zrange. replace (Z.to_nat (p - 0)) with (S (Z.to_nat (p - 1))) by lia. cbn [seq map]. f_equal. rewrite <- seq_shift, map_map. apply map_ext. intros k. lia.
Qed.
Lemma psum_full p : prime p -> (p | psum p (p - 1) + 1).
Proof.
  intros Pp. pose proof (prime_ge_2 p Pp). unfold psum. rewrite zrange_cons by lia. cbn [sumZ fold_right]. fold (sumZ (fun x => x ^ (p - 1)) (zrange 1 p)). rewrite Z.pow_0_l by lia.
  assert (D: (p | sumZ (fun x => x ^ (p - 1)) (zrange 1 p) - sumZ (fun _ => 1) (zrange 1 p))).
  { apply sumZ_divide. intros x I. apply in_zrange in I. apply fermat_little; [exact Pp|]. intros D. apply Z.divide_pos_le in D; lia. }
  rewrite sumZ_const, length_zrange in D. replace (0 + sumZ (fun x => x ^ (p - 1)) (zrange 1 p) + 1) with (sumZ (fun x => x ^ (p - 1)) (zrange 1 p) - 1 * Z.of_nat (Z.to_nat (p - 1)) + p) by lia.
  apply Z.divide_add_r; [exact D|apply Z.divide_refl].
Qed.
(** The sum of the values of a polynomial of degree below 2(p-1) is minus its coefficient of x^(p-1). *)
Lemma value_sum p (c : fsum) : prime p -> (forall m k, In (m, k) c -> 0 <= mx m < 2 * (p - 1) /\ my m = 0 /\ mq m = 0 /\ mv m = None) ->
  (p | sumZ (fun x => fval x 0 c) (zrange 0 p) + coef c (mkMono (p - 1) 0 0 None)).
Proof.
  intros Pp. pose proof (prime_ge_2 p Pp) as G. induction c as [|[m k] c IH]; intros H.
  - cbn [fval coef]. rewrite sumZ_const. exists 0. ring.
  - cbn [fval coef]. rewrite sumZ_add. destruct (H m k (or_introl eq_refl)) as (Bm & Ey & Eq & Ev). assert (IH' := IH (fun m' k' I => H m' k' (or_intror I))). clear IH.
    rewrite (sumZ_ext (fun x => k * mval x 0 m) (fun x => k * x ^ mx m)) by (intros x _; unfold mval; rewrite Ey, Z.pow_0_r; ring). rewrite sumZ_scale. fold (psum p (mx m)).
    set (T := if mono_eqb m (mkMono (p - 1) 0 0 None) then k else 0).
    replace (k * psum p (mx m) + sumZ (fun x => fval x 0 c) (zrange 0 p) + (T + coef c (mkMono (p - 1) 0 0 None))) with (k * psum p (mx m) + T + (sumZ (fun x => fval x 0 c) (zrange 0 p) + coef c (mkMono (p - 1) 0 0 None))) by ring.
    apply Z.divide_add_r; [|exact IH']. unfold T. destruct (mono_eqb m (mkMono (p - 1) 0 0 None)) eqn:E.
    + apply mono_eqb_eq in E. subst m. cbn [mx]. replace (k * psum p (p - 1) + k) with (k * (psum p (p - 1) + 1)) by ring. apply Z.divide_mul_r, psum_full, Pp.
    + rewrite Z.add_0_r. apply Z.divide_mul_r. destruct (Z.eq_dec (mx m) 0) as [->|N0]; [rewrite psum_0 by lia; apply Z.divide_refl|]. apply psum_none; [exact Pp|lia|].
      intros Z0. assert (N1: mx m <> p - 1). { intros E1. destruct m as [mx0 my0 mq0 mv0]. cbn in *. subst. rewrite mono_eqb_refl in E. discriminate. }
      apply Z.mod_divide in Z0; [|lia]. destruct Z0 as (w & Hw). assert (0 < w < 2) by nia. assert (w = 1) by lia. subst w. lia.
Qed.
Lemma fpow_support a B n : (forall m c, In (m, c) a -> 0 <= mx m <= B /\ my m = 0 /\ mq m = 0 /\ mv m = None) ->
  forall m c, In (m, c) (fpow a n) -> 0 <= mx m <= B * Z.of_nat n /\ my m = 0 /\ mq m = 0 /\ mv m = None.
Proof.
  intros Ha. induction n as [|n IH]; intros m c I; cbn [fpow] in I.
  - destruct I as [E|[]]. injection E; intros; subst. cbn. repeat split; lia.
  - apply in_conv in I. destruct I as (m1 & c1 & m2 & c2 & I1 & I2 & -> & _). apply Ha in I1. apply IH in I2. destruct I1 as (A1 & A2 & A3 & A4), I2 as (B1 & B2 & B3 & B4).
    unfold mmul. cbn [mx my mq mv]. rewrite A2, A3, A4, B2, B3, B4. repeat split; try lia; try reflexivity. 
Qed.
Lemma weier_support a b : forall m c, In (m, c) (weierstrass a b) -> 0 <= mx m <= 3 /\ my m = 0 /\ mq m = 0 /\ mv m = None.
Proof.
  intros m c I. destruct (weierstrass_only_x a b m c I) as (A & B & C & D). repeat split; try assumption.
  revert I. apply (weierstrass_keys (fun m => mx m <= 3) a b); cbn; lia.
Qed.
Lemma weier_fval a b x : fval x 0 (weierstrass a b) = x * x * x + a * x + b.
Proof.
  rewrite (fval_feq x 0 _ _ (weierstrass_feq a b)). unfold fweier. cbn [fval]. unfold mval. cbn [mx my]. rewrite ?Z.pow_0_r, ?Z.pow_1_r. ring.
Qed.
(** C93: cardinality() is congruent modulo p to 1 minus the coefficient of x^(p-1) in (x^3 + a x + b)^((p-1)/2) computed by power_modulo. *)
Lemma c93_congruence : forall a b p E c, p <> 2 -> ec_new a b p = Ok E -> p_power_modulo (weierstrass a b) ((p - 1) / 2) p = Ok c ->
  (p | cardinality E - (1 - coef c (mkMono (p - 1) 0 0 None))).
Proof.
  intros a b p E c P2 HE HC. destruct (proj2 (proj1 (c61_new_returns a b p)) (ex_intro _ E HE)) as (Pp & _). pose proof (prime_ge_2 p Pp) as G.
  pose proof (p_odd p Pp P2) as PO. pose proof (h_pos p Pp P2) as H1. set (h := (p - 1) / 2) in *.
  destruct (p_power_modulo_spec _ h p c ltac:(lia) H1 (weierstrass_sorted a b) HC) as (Sc & Rc & Fc).
  assert (Supp: forall m k, In (m, k) c -> 0 <= mx m < 2 * (p - 1) /\ my m = 0 /\ mq m = 0 /\ mv m = None).
  { intros m k I. destruct (coef_in (fpow (weierstrass a b) (Z.to_nat h)) m) as (k' & I').
    - intros Z0. pose proof (Fc m) as D. rewrite Z0, (sorted_coef c m k Sc I), Z.sub_0_r in D. pose proof (Rc m k I) as B. apply Z.divide_pos_le in D; lia.
    - apply (fpow_support _ 3 _ (weier_support a b)) in I'. destruct I' as (B & C). split; [lia|exact C]. }
  pose proof (value_sum p c Pp Supp) as VS. rewrite (card_sum a b p E HE).
  assert (D1: (p | sumZ (fun x => nsq p (x * x * x + a * x + b)) (zrange 0 p) - sumZ (fun x => 1 + fval x 0 c) (zrange 0 p))).
  { apply sumZ_divide. intros x _. pose proof (nsq_pow p Pp P2 (x * x * x + a * x + b)) as N. fold h in N. pose proof (fval_feqm p x 0 _ _ Fc) as F.
    rewrite fval_fpow, weier_fval, Z2Nat.id in F by (try lia; apply only_x_nonneg, weierstrass_only_x).
    replace (nsq p (x * x * x + a * x + b) - (1 + fval x 0 c)) with (nsq p (x * x * x + a * x + b) - 1 - (x * x * x + a * x + b) ^ h - (fval x 0 c - (x * x * x + a * x + b) ^ h)) by ring. apply Z.divide_sub_r; assumption. }
  rewrite sumZ_add, sumZ_const, length_zrange in D1. set (S1 := sumZ (fun x => nsq p (x * x * x + a * x + b)) (zrange 0 p)) in *. set (S2 := sumZ (fun x => fval x 0 c) (zrange 0 p)) in *. set (A := coef c (mkMono (p - 1) 0 0 None)) in *.
  replace (1 + S1 - (1 - A)) with (S1 - (1 * Z.of_nat (Z.to_nat (p - 0)) + S2) + (S2 + A) + p) by lia. apply Z.divide_add_r; [|apply Z.divide_refl]. apply Z.divide_add_r; assumption.
Qed.
(** C93: power_modulo returns there whenever the exponents fit, i.e. for 3 (p-1)/2 < 2^31. *)
Lemma c93_returns : forall a b p, 3 <= p -> 3 * ((p - 1) / 2) <= i32_max -> exists c, p_power_modulo (weierstrass a b) ((p - 1) / 2) p = Ok c.
Proof.
  intros a b p G H. assert (1 <= (p - 1) / 2) by (apply Z.div_le_lower_bound; lia).
  destruct (c19_power_returns (weierstrass a b) ((p - 1) / 2) 3) as (c & Hc); [lia|lia|lia| |].
  - intros m k I. apply weier_support in I. destruct I as (A & B & C & D). rewrite B, C. repeat split; try lia; exact D.
  - rewrite (c21_power_modulo (weierstrass a b) ((p - 1) / 2) p c ltac:(lia) ltac:(lia) (weierstrass_sorted a b) Hc). rewrite p_rem_eq; [eexists; reflexivity|lia|].
    apply (c19_power (weierstrass a b) ((p - 1) / 2) c (weierstrass_sorted a b)). left. exact Hc.
Qed.
(** C93: for p >= 17 this coefficient determines cardinality(): p + 1 - cardinality() is the residue of it of absolute value at most 2 sqrt p. *)
Lemma c93_determines : forall a b p E c t, elliptic a b p -> 17 <= p -> ec_new a b p = Ok E -> p_power_modulo (weierstrass a b) ((p - 1) / 2) p = Ok c ->
  (cardinality E = p + 1 - t <-> t ^ 2 <= 4 * p /\ (p | t - coef c (mkMono (p - 1) 0 0 None))).
Proof.
  intros a b p E c t El Hp HE HC. pose proof (c86_hasse a b p E El HE) as H. pose proof (c93_congruence a b p E c ltac:(lia) HE HC) as (w & D). set (A := coef c (mkMono (p - 1) 0 0 None)) in *. split.
  - intros Et. split; [replace t with (p + 1 - cardinality E) by lia; exact H|]. exists (1 - w). lia.
  - intros (Ht & (v & Dt)). assert (X: p + 1 - cardinality E = t); [|lia]. apply (trace_unique p _ _ p H Ht ltac:(nia)). exists (1 - w - v). lia.
Qed.
(** C93: the coefficient vanishes exactly when p divides the trace; for p >= 5 exactly when cardinality() is p + 1. *)
Lemma c93_supersingular : forall a b p E c, elliptic a b p -> 5 <= p -> ec_new a b p = Ok E -> p_power_modulo (weierstrass a b) ((p - 1) / 2) p = Ok c ->
  (coef c (mkMono (p - 1) 0 0 None) = 0 <-> cardinality E = p + 1).
Proof.
  intros a b p E c El Hp HE HC. pose proof (c86_hasse a b p E El HE) as H. pose proof (c93_congruence a b p E c ltac:(lia) HE HC) as (w & D). set (A := coef c (mkMono (p - 1) 0 0 None)) in *. split.
  - intros A0. rewrite A0 in D. assert (X: p + 1 - cardinality E = (1 - w) * p) by lia. rewrite X in H. destruct (Z.eq_dec w 1) as [->|N]; [lia|exfalso].
    assert (H2: (1 - w) ^ 2 * (p * p) <= 4 * p) by (replace ((1 - w) ^ 2 * (p * p)) with (((1 - w) * p) ^ 2) by ring; exact H). pose proof (Z.square_nonneg (1 - w)) as Q0. rewrite Z.pow_2_r in H2. assert (Q1: (1 - w) * (1 - w) <> 0) by (intros Q1; apply Z.mul_eq_0 in Q1; lia). set (v := (1 - w) * (1 - w)) in *. assert (1 <= v) by lia. clearbody v. clear - Hp H2 H0. nia.
  - intros C. assert (X: A = (w - 1) * p) by lia.
    destruct (p_power_modulo_spec _ ((p - 1) / 2) p c ltac:(lia) ltac:(apply Z.div_le_lower_bound; lia) (weierstrass_sorted a b) HC) as (Sc & Rc & _).
    destruct (Z.eq_dec A 0) as [|N]; [assumption|]. destruct (coef_in c _ N) as (k & I). pose proof (sorted_coef c _ k Sc I) as Ek. fold A in Ek. pose proof (Rc _ _ I). apply (near_zero p); [lia|lia|]. exists (w - 1). exact X.
Qed.
Example c93_case : elliptic 1 1 5 /\ exists E c, ec_new 1 1 5 = Ok E /\ p_power_modulo (weierstrass 1 1) 2 5 = Ok c /\ coef c (mkMono 4 0 0 None) = 2 /\ cardinality E = 9.
Proof.
  split; [exact (proj1 c86_case)|]. eexists _, _. split; [reflexivity|]. split; [vm_compute; reflexivity|]. split; reflexivity.
Qed.
