(** Counting torsion points over GF(p) by the roots of the division polynomials. *)
From Coq Require Import Znumtheory ZifyBool Permutation.
From Verif Require Import Prelude M_Bigint M_Variable M_Term M_Poly M_DivPoly M_Curve Spec SpecCurve SpecTwist P_Bigint P_FSum P_Poly P_DivPoly P_DivPoly3 P_DivPoly4 P_DivProps P_Group P_Fp P_Curve P_Curve2 P_Curve3 P_Curve4 P_CurveProps P_Euler P_TwistProps P_Eds2 P_DivVal P_Mul P_MulProps P_Rem P_PolyProps P_Subst P_Subst2 P_Subst3 P_SubstProps P_DivUni P_DivUni2 P_DivUni3 P_DivUniProps P_AbGroup P_Torsion P_TorsionProps.
Open Scope Z_scope.

(** The univariate parts of the division polynomials of a curve and of its twist by d. *)
Lemma uv_poly_d a b x n : 0 <= n -> n <= 65536 -> ispoly (fun d => uv (d ^ 2 * a) (d ^ 3 * b) (d * x) n).
Proof.
  revert n. apply (Zlt_0_ind (fun n => n <= 65536 -> ispoly (fun d => uv (d ^ 2 * a) (d ^ 3 * b) (d * x) n))). intros n IH H0 H1.
  destruct (Z_lt_le_dec n 5) as [Hlt|Hge].
  - assert (Hc: n = 0 \/ n = 1 \/ n = 2 \/ n = 3 \/ n = 4) by lia. destruct Hc as [-> | [-> | [-> | [-> | ->]]]].
    + apply (ispoly_ext (fun _ => 0)); [intros; reflexivity|poly].
    + apply (ispoly_ext (fun _ => 1)); [intros; rewrite uv_1; reflexivity|poly].
    + apply (ispoly_ext (fun _ => 1)); [intros; rewrite uv_2; reflexivity|poly].
    + eapply ispoly_ext; [intros s; symmetry; exact (uv_3 (s ^ 2 * a) (s ^ 3 * b) (s * x))|poly].
    + eapply ispoly_ext; [intros s; symmetry; exact (uv_4 (s ^ 2 * a) (s ^ 3 * b) (s * x))|poly].
  - destruct (Z.Even_or_Odd n) as [(m & ->)|(m & ->)].
    + eapply ispoly_ext; [intros s; symmetry; exact (uv_even (s ^ 2 * a) (s ^ 3 * b) (s * x) m ltac:(lia) H1)|]. pose proof (IH (m + 2) ltac:(lia) ltac:(lia)). pose proof (IH (m - 1) ltac:(lia) ltac:(lia)). pose proof (IH (m - 2) ltac:(lia) ltac:(lia)). pose proof (IH (m + 1) ltac:(lia) ltac:(lia)). pose proof (IH m ltac:(lia) ltac:(lia)). poly.
    + eapply ispoly_ext; [intros s; symmetry; exact (uv_odd (s ^ 2 * a) (s ^ 3 * b) (s * x) m ltac:(lia) H1)|]. pose proof (IH (m + 2) ltac:(lia) ltac:(lia)). pose proof (IH (m - 1) ltac:(lia) ltac:(lia)). pose proof (IH (m + 1) ltac:(lia) ltac:(lia)). pose proof (IH m ltac:(lia) ltac:(lia)). unfold dv. destruct (Z.odd m); poly.
Qed.
Definition tw (n : Z) : Z := if Z.odd n then (n ^ 2 - 1) / 2 else (n ^ 2 - 4) / 2.
Lemma tw_wt n : 1 <= n -> 0 <= tw n /\ n ^ 2 + (if Z.odd n then 3 else 0) = 2 * tw n + 4.
Proof.
  intros H. unfold tw. destruct (Z.odd n) eqn:O.
  - apply Z.odd_spec in O. destruct O as (k & ->). replace ((2 * k + 1) ^ 2 - 1) with ((2 * k * (k + 1)) * 2) by ring. rewrite Z.div_mul by lia. split; [nia|ring].
  - assert (Ev : Z.even n = true) by (rewrite <- Z.negb_odd, O; reflexivity). apply Z.even_spec in Ev. destruct Ev as (k & ->). replace ((2 * k) ^ 2 - 4) with ((2 * (k * k - 1)) * 2) by ring. rewrite Z.div_mul by lia. split; [nia|ring].
Qed.
Lemma uv_twist a b x n d : 1 <= n <= 65536 -> uv (d ^ 2 * a) (d ^ 3 * b) (d * x) n = d ^ tw n * uv a b x n.
Proof.
  intros Hn. destruct (tw_wt n ltac:(lia)) as (T0 & T1).
  enough (forall s, (fun d => uv (d ^ 2 * a) (d ^ 3 * b) (d * x) n - d ^ tw n * uv a b x n) s = 0) as G by (specialize (G d); cbv beta in G; lia).
  apply ispoly_zero.
  - apply ispoly_sub; [apply uv_poly_d; lia|]. apply (ispoly_mul (fun s => s ^ tw n)); [apply ispoly_pow'; [exact T0|apply ispoly_id]|apply ispoly_const].
  - intros B. set (t := Z.max B 1 + 1). exists (t ^ 2). assert (1 <= t) by lia. split; [nia|].
    pose proof (uv_weight a b x t n ltac:(lia) ltac:(lia)) as W. rewrite T1 in W.
    replace ((t ^ 2) ^ 2 * a) with (t ^ 4 * a) by ring. replace ((t ^ 2) ^ 3 * b) with (t ^ 6 * b) by ring. rewrite <- (Z.pow_mul_r t 2) by lia.
    rewrite Z.pow_add_r in W by lia. apply Z.sub_move_0_r. apply (Z.mul_reg_l _ _ (t ^ 4)); [apply Z.pow_nonzero; lia|]. rewrite W. ring.
Qed.

(** A polynomial condition on x that says that a point (x, y) is n-torsion. *)
Definition tc_n (a b n x : Z) : Z := uv a b x n * (if Z.odd n then 1 else x * x * x + a * x + b).
Lemma tc_twist a b x n d : 1 <= n <= 65536 -> tc_n (d ^ 2 * a) (d ^ 3 * b) n (d * x) = d ^ (tw n + if Z.odd n then 0 else 3) * tc_n a b n x.
Proof.
  intros Hn. destruct (tw_wt n ltac:(lia)) as (T0 & _). unfold tc_n. rewrite uv_twist by exact Hn. destruct (Z.odd n).
  - rewrite Z.add_0_r. ring.
  - rewrite Z.pow_add_r by lia. ring.
Qed.
Lemma tc_torsion a b p n x y : elliptic a b p -> on_curve a b p (Some (x, y)) -> 1 <= n <= 65534 -> (ec_mult a p (Some (x, y)) (Z.to_nat n) None <-> (p | tc_n a b n x)).
Proof.
  intros HEl ON Hn. pose proof HEl as (Pp & P2 & NS). destruct ON as (Hx & Hy & C).
  rewrite (ec_mult_iff a b p Pp P2) by (repeat split; assumption || lia).
  pose proof (torsion_iff a b p x y Pp P2 NS Hx Hy C (Z.to_nat n) ltac:(lia) ltac:(lia)) as T.
  assert (PV : pv a b x y (Z.to_nat n) = (if Z.odd n then 1 else 2 * y) * uv a b x n).
  { unfold pv. rewrite Z2Nat.id by lia. destruct (psi_Ok a b n ltac:(lia)) as (r & Er & _). rewrite Er. apply uv_psi; [exact Er|lia]. }
  rewrite PV in T. unfold tc_n. split.
  - intros M. symmetry in M. apply T in M. destruct (Z.odd n).
    + rewrite Z.mul_1_r. rewrite Z.mul_1_l in M. exact M.
    + assert (D : (p | y * uv a b x n)).
      { replace (2 * y * uv a b x n) with (2 * (y * uv a b x n)) in M by ring. apply prime_mult in M; [|exact Pp]. destruct M as [M|M]; [|exact M]. exfalso. apply P2. apply prime_div_prime in M; [exact M|exact Pp|exact prime_2]. }
      replace (uv a b x n * (x * x * x + a * x + b)) with (y * (y * uv a b x n) - (y * y - (x * x * x + a * x + b)) * uv a b x n) by ring.
      apply Z.divide_sub_r; [apply Z.divide_mul_r, D|apply Z.divide_mul_l, C].
  - intros D. symmetry. apply T. destruct (Z.odd n); [rewrite Z.mul_1_l; rewrite Z.mul_1_r in D; exact D|].
    assert (D1 : (p | (y * uv a b x n) * (y * uv a b x n))).
    { replace ((y * uv a b x n) * (y * uv a b x n)) with (uv a b x n * (uv a b x n * (x * x * x + a * x + b)) + (y * y - (x * x * x + a * x + b)) * (uv a b x n * uv a b x n)) by ring.
      apply Z.divide_add_r; [apply Z.divide_mul_r, D|apply Z.divide_mul_l, C]. }
    replace (2 * y * uv a b x n) with (2 * (y * uv a b x n)) by ring. apply Z.divide_mul_r. apply prime_mult in D1; [tauto|exact Pp].
Qed.

(** The number of n-torsion points as a sum over x. *)
Definition tsum (a b p n : Z) (x : Z) : Z := if tc_n a b n x mod p =? 0 then nsq p (x * x * x + a * x + b) else 0.
Lemma tors_len a b p E n L : elliptic a b p -> ec_new a b p = Ok E -> 1 <= n <= 65534 -> NoDup L ->
  (forall P, In P L <-> In P (ec_points E) /\ ec_mult a p (affine p P) (Z.to_nat n) None) -> Z.of_nat (length L) = 1 + sumZ (tsum a b p n) (zrange 0 p).
Proof.
  intros HEl HE Hn ND HL. pose proof HEl as (Pp & P2 & NS). pose proof (prime_ge_2 p Pp) as G. destruct (c61_points a b p E HE) as (_ & HI).
  set (f := fun x => if tc_n a b n x mod p =? 0 then filter (sqb p (x * x * x + a * x + b)) (zrange 0 p) else []).
  set (M0 := flat_map (fun x => map (pair x) (f x)) (zrange 0 p)). set (M := infinity :: map (fun s => mkPt (fst s) (snd s) 1) M0).
  assert (I0 : forall x y, In (x, y) M0 <-> 0 <= x < p /\ 0 <= y < p /\ curve_eqn a b p x y /\ (p | tc_n a b n x)).
  { intros x y. unfold M0. rewrite in_flat_map. split.
    - intros (x' & Hx & I). apply in_map_iff in I. destruct I as (y' & Y & I). injection Y as -> ->. rewrite in_zrange in Hx. unfold f in I. destruct (tc_n a b n x mod p =? 0) eqn:T; [|destruct I].
      apply filter_In in I. destruct I as (Iy & S1). rewrite in_zrange in Iy. apply sqb_true in S1; [|lia]. apply Z.eqb_eq, Z.mod_divide in T; [|lia]. unfold curve_eqn. tauto.
    - intros (Hx & Hy & C & D). exists x. split; [apply in_zrange, Hx|]. apply in_map. unfold f. apply Z.mod_divide in D; [|lia]. rewrite D. cbn [Z.eqb]. apply filter_In. split; [apply in_zrange, Hy|]. apply sqb_true; [lia|exact C]. }
  assert (N0 : NoDup M0).
  { apply flat_map_NoDup; [apply NoDup_zrange| |].
    - intros x. apply FinFun.Injective_map_NoDup; [intros u v Y; congruence|]. unfold f. destruct (tc_n a b n x mod p =? 0); [apply NoDup_filter, NoDup_zrange|constructor].
    - intros x e I. apply in_map_iff in I. destruct I as (y & <- & _). reflexivity. }
  assert (AF : forall x y, 0 <= x < p -> 0 <= y < p -> affine p (mkPt x y 1) = Some (x, y)) by (intros x y Bx By; unfold affine; cbn [pz px py]; change (1 =? 0) with false; cbv iota; rewrite !Z.mod_small by lia; reflexivity).
  assert (IM : forall P, In P M <-> In P L).
  { intros P. rewrite HL, HI. unfold M. cbn [In]. rewrite in_map_iff. split.
    - intros [<- |([x y] & <- & HS)].
      + split; [left; reflexivity|]. change (affine p infinity) with (@None (Z * Z)). apply (ec_mult_iff a b p Pp P2); [exact I|]. symmetry. apply emul_none.
      + apply I0 in HS. destruct HS as (Hx & Hy & C & D). cbn [fst snd pz px py]. split; [right; tauto|]. rewrite AF by assumption. apply (tc_torsion a b p n x y HEl); [repeat split; lia || exact C|exact Hn|exact D].
    - intros ([-> |(Z1 & Hx & Hy & C)] & MU); [left; reflexivity|right]. destruct P as [x y z]. cbn [px py pz] in *. subst z. exists (x, y). split; [reflexivity|]. rewrite AF in MU by assumption.
      apply I0. repeat (split; [assumption|]). apply (tc_torsion a b p n x y HEl) in MU; [exact MU|repeat split; lia || exact C|exact Hn]. }
  assert (NM : NoDup M).
  { constructor; [rewrite in_map_iff; intros (s & Y & _); discriminate|]. apply NoDup_map_inj_in; [|exact N0]. intros [x y] [x' y'] _ _ Y. cbn in Y. congruence. }
  rewrite <- (Permutation_length (NoDup_Permutation NM ND IM)). unfold M. cbn [length]. rewrite map_length, Nat2Z.inj_succ. unfold M0. rewrite (flat_map_length f pair).
  rewrite <- Z.add_1_l. f_equal. apply sumZ_ext. intros x _. unfold f, tsum. destruct (tc_n a b n x mod p =? 0); reflexivity.
Qed.

(** The number of residues x with the condition. *)
Definition rsum (a b p n : Z) : Z := sumZ (fun x => if tc_n a b n x mod p =? 0 then 1 else 0) (zrange 0 p).
Lemma uv_cong p a b a' b' x x' n : 0 < p -> 0 <= n <= 65536 -> (p | a - a') -> (p | b - b') -> (p | x - x') -> (p | uv a b x n - uv a' b' x' n).
Proof.
  intros Hp Hn Ha Hb Hx. destruct (isU_ex a b n Hn) as (f & U), (isU_ex a' b' n Hn) as (f' & U').
  pose proof (isU_mod p a b a' b' Ha Hb n ltac:(lia) ltac:(lia) f f' U U') as F. rewrite (uv_isU a b x n f U), (uv_isU a' b' x' n f' U').
  apply (cong_tr p _ (fval x 0 f')); [apply fval_feqm, F|]. apply fval_cong; [apply only_nonneg, U'|exact Hx|exists 0; reflexivity].
Qed.
Lemma tc_cong p a b a' b' x x' n : 0 < p -> 0 <= n <= 65536 -> (p | a - a') -> (p | b - b') -> (p | x - x') -> (p | tc_n a b n x - tc_n a' b' n x').
Proof.
  intros Hp Hn Ha Hb Hx. unfold tc_n. apply cong_mul; [apply uv_cong; assumption|]. destruct (Z.odd n); [exists 0; reflexivity|].
  destruct Ha as (k1 & H1), Hb as (k2 & H2), Hx as (k3 & H3). exists (k3 * (x * x + x * x' + x' * x') + k1 * x + a' * k3 + k2).
  replace a with (k1 * p + a') by lia. replace b with (k2 * p + b') by lia. replace (x * x * x + (k1 * p + a') * x + (k2 * p + b') - (x' * x' * x' + a' * x' + b')) with ((x - x') * (x * x + x * x' + x' * x') + k1 * p * x + a' * (x - x') + k2 * p) by ring. rewrite H3. ring.
Qed.
Lemma cong_zero p u v : 0 < p -> (p | u - v) -> (u mod p =? 0) = (v mod p =? 0).
Proof.
  intros Hp D. apply Bool.eq_iff_eq_true. rewrite !Z.eqb_eq, !Z.mod_divide by lia. split; intros H.
  - replace v with (u - (u - v)) by ring. apply Z.divide_sub_r; assumption.
  - replace u with (v + (u - v)) by ring. apply Z.divide_add_r; assumption.
Qed.
Lemma tors_sum p d a b a' b' n (Pp : prime p) (P2 : p <> 2) : twisted p d a b a' b' -> 1 <= n <= 65536 ->
  sumZ (tsum a b p n) (zrange 0 p) + sumZ (tsum a' b' p n) (zrange 0 p) = 2 * rsum a b p n.
Proof.
  intros (ND & (k1 & H1) & (k2 & H2)) Hn. pose proof (prime_ge_2 p Pp).
  assert (Nd: ~ (p | d)). { intros D. apply ND. exists 0. replace (0 * 0 - d) with (- d) by ring. apply Z.divide_opp_r, D. }
  pose proof (proj2 (nsq_square p Pp P2 d) ND) as Z0.
  rewrite <- (residues_sum p (fun x => d * x) (tsum a' b' p n)); [| lia | apply (scale_inj p _ Pp Nd) | ].
  - rewrite <- sumZ_add. unfold rsum. rewrite <- sumZ_scale. apply sumZ_ext. intros x _. cbv beta. unfold tsum.
    assert (TC : (tc_n a' b' n (d * x) mod p =? 0) = (tc_n a b n x mod p =? 0)).
    { rewrite (cong_zero p _ (tc_n (d ^ 2 * a) (d ^ 3 * b) n (d * x))).
      - rewrite tc_twist by exact Hn. apply Bool.eq_iff_eq_true. rewrite !Z.eqb_eq, !Z.mod_divide by lia. split; intros D.
        + apply prime_mult in D; [|exact Pp]. destruct D as [D|D]; [|exact D]. exfalso. apply Nd. revert D. apply div_pow_n; [exact Pp|]. destruct (tw_wt n ltac:(lia)). destruct (Z.odd n); lia.
        + apply Z.divide_mul_r, D.
      - lia.
      - apply tc_cong; [lia|lia|exists k1; exact H1|exists k2; exact H2|exists 0; ring]. }
    rewrite TC. destruct (tc_n a b n x mod p =? 0); [|reflexivity].
    rewrite (nsq_mod p (d * x * (d * x) * (d * x) + a' * (d * x) + b') (d * (d ^ 2 * (x * x * x + a * x + b)))) by (try lia; exists (k1 * (d * x) + k2); replace a' with (k1 * p + d ^ 2 * a) by lia; replace b' with (k2 * p + d ^ 3 * b) by lia; ring).
    pose proof (nsq_twist p Pp P2 d (d ^ 2 * (x * x * x + a * x + b)) Nd Z0) as T. rewrite (nsq_square_mult p Pp P2 (d ^ 2) (x * x * x + a * x + b) d Nd) in T by (exists 0; ring). lia.
  - intros x y HD. unfold tsum. rewrite (cong_zero p _ (tc_n a' b' n y)) by (first [lia|apply tc_cong; [lia|lia|exists 0; ring|exists 0; ring|exact HD]]). destruct HD as (k & Hk).
    rewrite (nsq_mod p (x * x * x + a' * x + b') (y * y * y + a' * y + b')); [reflexivity|lia|]. exists (k * (x * x + x * y + y * y + a')).
    replace (x * x * x + a' * x + b' - (y * y * y + a' * y + b')) with ((x - y) * (x * x + x * y + y * y + a')) by ring. rewrite Hk. ring.
Qed.
Lemma rsum_list a b p n R : 0 < p -> NoDup R -> (forall x, In x R <-> 0 <= x < p /\ (p | tc_n a b n x)) -> rsum a b p n = Z.of_nat (length R).
Proof.
  intros Hp ND HR. assert (X : forall (f : Z -> bool) l, sumZ (fun x => if f x then 1 else 0) l = Z.of_nat (length (filter f l))).
  { intros f l. unfold sumZ. induction l as [|x l IH]; [reflexivity|]. cbn [fold_right filter]. rewrite IH. destruct (f x); cbn [length]; lia. }
  unfold rsum. rewrite X. f_equal. apply Permutation_length, NoDup_Permutation; [apply NoDup_filter, NoDup_zrange|exact ND|].
  intros x. rewrite filter_In, in_zrange, HR, Z.eqb_eq, Z.mod_divide by lia. reflexivity.
Qed.
Lemma tors_count p d a b a' b' E E' n L L' R : elliptic a b p -> twisted p d a b a' b' -> ec_new a b p = Ok E -> ec_new a' b' p = Ok E' -> 1 <= n <= 65534 ->
  NoDup L -> (forall P, In P L <-> In P (ec_points E) /\ ec_mult a p (affine p P) (Z.to_nat n) None) ->
  NoDup L' -> (forall P, In P L' <-> In P (ec_points E') /\ ec_mult a' p (affine p P) (Z.to_nat n) None) ->
  NoDup R -> (forall x, In x R <-> 0 <= x < p /\ (p | tc_n a b n x)) ->
  2 * Z.of_nat (length R) = (Z.of_nat (length L) - 1) + (Z.of_nat (length L') - 1).
Proof.
  intros HEl HT HE HE' Hn NL HL NL' HL' NR HR. pose proof HEl as (Pp & P2 & NS). pose proof (prime_ge_2 p Pp).
  assert (HEl' : elliptic a' b' p).
  { split; [exact Pp|split; [exact P2|]]. destruct HT as (ND & H1 & H2). intros D. apply NS.
    assert (Nd: ~ (p | d)). { intros D0. apply ND. exists 0. replace (0 * 0 - d) with (- d) by ring. apply Z.divide_opp_r, D0. }
    destruct H1 as (k1 & H1), H2 as (k2 & H2).
    assert (D2 : (p | d ^ 6 * (4 * (a * a * a) + 27 * (b * b)))).
    { replace (d ^ 6 * (4 * (a * a * a) + 27 * (b * b))) with ((4 * (a' * a' * a') + 27 * (b' * b')) - (4 * ((a' - d ^ 2 * a) * (a' * a' + a' * (d ^ 2 * a) + (d ^ 2 * a) * (d ^ 2 * a))) + 27 * ((b' - d ^ 3 * b) * (b' + d ^ 3 * b)))) by ring.
      apply Z.divide_sub_r; [exact D|]. rewrite H1, H2. exists (4 * (k1 * (a' * a' + a' * (d ^ 2 * a) + (d ^ 2 * a) * (d ^ 2 * a))) + 27 * (k2 * (b' + d ^ 3 * b))). ring. }
    apply prime_mult in D2; [|exact Pp]. destruct D2 as [D2|D2]; [|exact D2]. exfalso. apply Nd. revert D2. apply div_pow_n; [exact Pp|lia]. }
  rewrite (tors_len a b p E n L HEl HE Hn NL HL), (tors_len a' b' p E' n L' HEl' HE' Hn NL' HL'), <- (rsum_list a b p n R ltac:(lia) NR HR).
  pose proof (tors_sum p d a b a' b' n Pp P2 HT ltac:(lia)). lia.
Qed.
