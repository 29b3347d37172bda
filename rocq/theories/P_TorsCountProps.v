(** Lemmas behind C124 (roots of the division polynomials over GF(p)). *)
From Coq Require Import Znumtheory ZifyBool Permutation.
From Verif Require Import Prelude M_Bigint M_Variable M_Term M_Poly M_DivPoly M_Curve Spec SpecCurve SpecTwist P_Bigint P_Variable P_FSum P_Poly P_Rem P_PolyProps P_Subst P_Subst2 P_Subst3 P_SubstProps P_DivPoly P_DivPoly3 P_DivPoly4 P_DivProps P_Group P_Fp P_Curve P_Curve2 P_Curve3 P_Curve4 P_CurveProps P_Euler P_TwistProps P_Eds2 P_DivVal P_Mul P_MulProps P_RootProps P_DivUni P_DivUni2 P_DivUni3 P_DivUniProps P_AbGroup P_Torsion P_TorsionProps P_SchoofProps P_TorsCount.
Open Scope Z_scope.

Lemma tc_odd a b p n x r : psi a b n = Ok r -> 0 <= n <= 65536 -> Z.odd n = true -> ((exists v, eval_xy r x 0 = Ok v /\ (p | v)) <-> (p | tc_n a b n x)).
Proof.
  intros E Hn O. destruct (psi_Ok a b n Hn) as (r' & E' & N). assert (r' = r) as -> by congruence. unfold tc_n. rewrite O, Z.mul_1_r, eval_xy_spec by assumption.
  rewrite (uv_psi a b x 0 n r E Hn), O, Z.mul_1_l. split; [intros (v & V & D); assert (v = uv a b x n) as -> by congruence; exact D|intros D; eexists; split; [reflexivity|exact D]].
Qed.
Lemma tc_even a b p n x r : prime p -> p <> 2 -> psi a b n = Ok r -> 0 <= n <= 65536 -> Z.odd n = false ->
  ((exists v, eval_xy r x 1 = Ok v /\ (p | v * (x ^ 3 + a * x + b))) <-> (p | tc_n a b n x)).
Proof.
  intros Pp P2 E Hn O. destruct (psi_Ok a b n Hn) as (r' & E' & N). assert (r' = r) as -> by congruence. unfold tc_n. rewrite O, eval_xy_spec by assumption.
  rewrite (uv_psi a b x 1 n r E Hn), O. replace (x ^ 3) with (x * x * x) by ring. split.
  - intros (v & V & D). assert (v = 2 * 1 * uv a b x n) as -> by congruence. replace (2 * 1 * uv a b x n * (x * x * x + a * x + b)) with (2 * (uv a b x n * (x * x * x + a * x + b))) in D by ring.
    apply prime_mult in D; [|exact Pp]. destruct D as [D|D]; [|exact D]. exfalso. apply P2. apply prime_div_prime in D; [exact D|exact Pp|exact prime_2].
  - intros D. eexists. split; [reflexivity|]. replace (2 * 1 * uv a b x n * (x * x * x + a * x + b)) with (2 * (uv a b x n * (x * x * x + a * x + b))) by ring. apply Z.divide_mul_r, D.
Qed.

(** C124: for odd n, the roots of psi(n) modulo p count the n-torsion points of the curve and of its quadratic twist:
    twice their number is the number of finite n-torsion points on the two curves together. *)
Lemma c124_count_odd : forall p d a b a' b' E E' n r L L' R, elliptic a b p -> twisted p d a b a' b' -> ec_new a b p = Ok E -> ec_new a' b' p = Ok E' ->
  1 <= n <= 65534 -> Z.odd n = true -> psi a b n = Ok r ->
  NoDup L -> (forall P, In P L <-> In P (ec_points E) /\ ec_mult a p (affine p P) (Z.to_nat n) None) ->
  NoDup L' -> (forall P, In P L' <-> In P (ec_points E') /\ ec_mult a' p (affine p P) (Z.to_nat n) None) ->
  NoDup R -> (forall x, In x R <-> 0 <= x < p /\ exists v, eval_xy r x 0 = Ok v /\ (p | v)) ->
  2 * Z.of_nat (length R) = (Z.of_nat (length L) - 1) + (Z.of_nat (length L') - 1).
Proof.
  intros p d a b a' b' E E' n r L L' R HEl HT HE HE' Hn O Er NL HL NL' HL' NR HR. apply (tors_count p d a b a' b' E E' n L L' R); try assumption.
  intros x. rewrite HR, (tc_odd a b p n x r Er ltac:(lia) O). reflexivity.
Qed.
(** C124: for even n the same, counting the x at which psi(n)(x, y) vanishes for a y with y^2 = x^3 + a x + b: the common roots of psi(n)(x, 1) and of the cubic together. *)
Lemma c124_count_even : forall p d a b a' b' E E' n r L L' R, elliptic a b p -> twisted p d a b a' b' -> ec_new a b p = Ok E -> ec_new a' b' p = Ok E' ->
  1 <= n <= 65534 -> Z.odd n = false -> psi a b n = Ok r ->
  NoDup L -> (forall P, In P L <-> In P (ec_points E) /\ ec_mult a p (affine p P) (Z.to_nat n) None) ->
  NoDup L' -> (forall P, In P L' <-> In P (ec_points E') /\ ec_mult a' p (affine p P) (Z.to_nat n) None) ->
  NoDup R -> (forall x, In x R <-> 0 <= x < p /\ exists v, eval_xy r x 1 = Ok v /\ (p | v * (x ^ 3 + a * x + b))) ->
  2 * Z.of_nat (length R) = (Z.of_nat (length L) - 1) + (Z.of_nat (length L') - 1).
Proof.
  intros p d a b a' b' E E' n r L L' R HEl HT HE HE' Hn O Er NL HL NL' HL' NR HR. pose proof HEl as (Pp & P2 & _). apply (tors_count p d a b a' b' E E' n L L' R); try assumption.
  intros x. rewrite HR, (tc_even a b p n x r Pp P2 Er ltac:(lia) O). reflexivity.
Qed.

(** l divides cardinality() iff the condition has a root over a point of the curve. *)
Lemma card_tors a b p E l : elliptic a b p -> ec_new a b p = Ok E -> prime l -> l <= 65534 ->
  ((l | cardinality E) <-> exists x y, 0 <= x < p /\ 0 <= y < p /\ curve_eqn a b p x y /\ (p | tc_n a b l x)).
Proof.
  intros HEl HE Pl Bl. pose proof HEl as (Pp & P2 & NS). pose proof (prime_ge_2 p Pp). pose proof (prime_ge_2 l Pl). split.
  - intros D. destruct (order_point a b p E l HEl HE Pl D) as (x & y & (Hx & Hy & C) & M). exists x, y. repeat (split; [assumption|]).
    apply (tc_torsion a b p l x y HEl); [repeat split; assumption || lia|lia|]. apply (ec_mult_iff a b p (proj1 HEl) P2); [repeat split; assumption || lia|]. symmetry. exact M.
  - intros (x & y & Hx & Hy & C & D). assert (ON : on_curve a b p (Some (x, y))) by (repeat split; assumption || lia).
    apply (tc_torsion a b p l x y HEl) in D; [|exact ON|lia].
    destruct (ord_exists apoint (esum a p (proj1 HEl)) None (ec_neg p) (on_curve a b p) apdec (map (affine p) (ec_points E)) I (i_op a b p HEl) (i_inv a b p HEl) (i_comm a b p HEl) (i_assoc a b p HEl) (i_el a b p HEl) (i_inv_l a b p HEl) (i_in a b p E HE) (Some (x, y)) ON) as (n & On & _).
    pose proof On as (N1 & MN & Mn). apply (i_mult a b p HEl (Z.to_nat l) (Some (x, y)) ON) in D. apply Mn in D.
    pose proof (ord_divides apoint (esum a p (proj1 HEl)) None (ec_neg p) (on_curve a b p) apdec (map (affine p) (ec_points E)) I (i_op a b p HEl) (i_inv a b p HEl) (i_comm a b p HEl) (i_assoc a b p HEl) (i_el a b p HEl) (i_inv_l a b p HEl) (i_nodup a b p E HE) (i_in a b p E HE) (Some (x, y)) n ON On) as DC.
    assert (NL : n = Z.to_nat l).
    { apply divide_Z in D. rewrite Z2Nat.id in D by lia. destruct (prime_divisors l Pl (Z.of_nat n) D) as [K|[K|[K|K]]]; try lia.
      exfalso. assert (n = 1%nat) as -> by lia. rewrite (i_mul a b p HEl) in MN. rewrite (emul_1 a p (proj1 HEl)) in MN by (apply (on_canon a b), ON). discriminate. }
    subst n. apply divide_Z in DC. rewrite Z2Nat.id in DC by lia. rewrite (i_card p E). exact DC.
Qed.

(** C124: for a prime l > 2 the polynomial psi(l) has a root modulo p exactly if l divides the cardinality of the curve or of its twist,
    that is, one of p + 1 - t and p + 1 + t. *)
Lemma c124_root : forall a b p E l r, elliptic a b p -> ec_new a b p = Ok E -> prime l -> l <> 2 -> l <= 65534 -> psi a b l = Ok r ->
  ((exists x v, 0 <= x < p /\ eval_xy r x 0 = Ok v /\ (p | v)) <-> (l | cardinality E) \/ (l | 2 * p + 2 - cardinality E)).
Proof.
  intros a b p E l r HEl HE Pl L2 Bl Er. pose proof HEl as (Pp & P2 & NS). pose proof (prime_ge_2 p Pp). pose proof (prime_ge_2 l Pl).
  assert (O : Z.odd l = true). { destruct (Z.odd l) eqn:O; [reflexivity|]. assert (Ev : Z.even l = true) by (rewrite <- Z.negb_odd, O; reflexivity). apply Z.even_spec in Ev. destruct Ev as (k & Hk). exfalso. apply L2. symmetry. apply prime_div_prime; [exact prime_2|exact Pl|exists k; lia]. }
  destruct (c91_exists p a b E HEl HE) as (d & a' & b' & E' & HT & HEl' & HE' & SUM & _). replace (2 * p + 2 - cardinality E) with (cardinality E') by lia.
  rewrite (card_tors a b p E l HEl HE Pl Bl), (card_tors a' b' p E' l HEl' HE' Pl Bl). destruct HT as (NR & (k1 & H1) & (k2 & H2)).
  assert (Nd: ~ (p | d)). { intros D. apply NR. exists 0. replace (0 * 0 - d) with (- d) by ring. apply Z.divide_opp_r, D. }
  pose proof (proj2 (nsq_square p Pp P2 d) NR) as Z0.
  assert (TC : forall x, (p | tc_n a' b' l (d * x)) <-> (p | tc_n a b l x)).
  { intros x. assert (D0 : (p | tc_n a' b' l (d * x) - d ^ (tw l + if Z.odd l then 0 else 3) * tc_n a b l x)).
    { rewrite <- tc_twist by lia. apply tc_cong; [lia|lia|exists k1; exact H1|exists k2; exact H2|exists 0; ring]. }
    split; intros D.
    - assert (D1 : (p | d ^ (tw l + if Z.odd l then 0 else 3) * tc_n a b l x)).
      { replace (d ^ (tw l + if Z.odd l then 0 else 3) * tc_n a b l x) with (tc_n a' b' l (d * x) - (tc_n a' b' l (d * x) - d ^ (tw l + if Z.odd l then 0 else 3) * tc_n a b l x)) by ring. apply Z.divide_sub_r; assumption. }
      apply prime_mult in D1; [|exact Pp]. destruct D1 as [D1|D1]; [|exact D1]. exfalso. apply Nd. revert D1. apply div_pow_n; [exact Pp|]. destruct (tw_wt l ltac:(lia)). destruct (Z.odd l); lia.
    - replace (tc_n a' b' l (d * x)) with ((tc_n a' b' l (d * x) - d ^ (tw l + if Z.odd l then 0 else 3) * tc_n a b l x) + d ^ (tw l + if Z.odd l then 0 else 3) * tc_n a b l x) by ring. apply Z.divide_add_r; [exact D0|apply Z.divide_mul_r, D]. }
  assert (TR : forall x x', (p | x - x') -> (p | tc_n a' b' l x) -> (p | tc_n a' b' l x')).
  { intros x x' X D. assert (D0 : (p | tc_n a' b' l x - tc_n a' b' l x')) by (apply tc_cong; [lia|lia|exists 0; ring|exists 0; ring|exact X]). replace (tc_n a' b' l x') with (tc_n a' b' l x - (tc_n a' b' l x - tc_n a' b' l x')) by ring. apply Z.divide_sub_r; assumption. }
  assert (TR0 : forall x x', (p | x - x') -> (p | tc_n a b l x) -> (p | tc_n a b l x')).
  { intros x x' X D. assert (D0 : (p | tc_n a b l x - tc_n a b l x')) by (apply tc_cong; [lia|lia|exists 0; ring|exists 0; ring|exact X]). replace (tc_n a b l x') with (tc_n a b l x - (tc_n a b l x - tc_n a b l x')) by ring. apply Z.divide_sub_r; assumption. }
  assert (MM : forall u, (p | u - u mod p)) by (intros u; exists (u / p); pose proof (Z.div_mod u p); lia).
  split.
  - intros (x & v & Bx & Ev & D). assert (T : (p | tc_n a b l x)) by (apply (tc_odd a b p l x r Er ltac:(lia) O); exists v; tauto).
    pose proof (nsq_twist p Pp P2 d (x * x * x + a * x + b) Nd Z0) as N2. destruct (Z.eq_dec (nsq p (x * x * x + a * x + b)) 0) as [N0|N0].
    + right. rewrite N0 in N2. assert (N3 : nsq p ((d * x) * (d * x) * (d * x) + a' * (d * x) + b') <> 0).
      { rewrite (nsq_mod p _ (d * (d ^ 2 * (x * x * x + a * x + b)))) by (try lia; exists (k1 * (d * x) + k2); replace a' with (k1 * p + d ^ 2 * a) by lia; replace b' with (k2 * p + d ^ 3 * b) by lia; ring).
        replace (d * (d ^ 2 * (x * x * x + a * x + b))) with (d ^ 2 * (d * (x * x * x + a * x + b))) by ring. rewrite (nsq_square_mult p Pp P2 (d ^ 2) _ d Nd) by (exists 0; ring). lia. }
      assert (EX : exists y, (p | y * y - (d * x * (d * x) * (d * x) + a' * (d * x) + b'))).
      { destruct (residue_or p (d * x * (d * x) * (d * x) + a' * (d * x) + b') Pp P2) as [EX|NX]; [exact EX|]. exfalso. apply N3. apply (nsq_square p Pp P2), NX. }
      destruct EX as (y & C). exists ((d * x) mod p), (y mod p). repeat (split; [apply Z.mod_pos_bound; lia|]). split; [apply (curve_eqn_mod a' b' p _ _ ltac:(lia)); exact C|].
      apply (TR (d * x) ((d * x) mod p) (MM _)). exact (proj2 (TC x) T).
    + left. assert (EX : exists y, (p | y * y - (x * x * x + a * x + b))).
      { destruct (residue_or p (x * x * x + a * x + b) Pp P2) as [EX|NX]; [exact EX|]. exfalso. apply N0. apply (nsq_square p Pp P2), NX. }
      destruct EX as (y & C). exists x, (y mod p). split; [exact Bx|]. split; [apply Z.mod_pos_bound; lia|]. split; [|exact T]. rewrite <- (Z.mod_small x p Bx). apply (curve_eqn_mod a b p _ _ ltac:(lia)). exact C.
  - intros [(x & y & Bx & _ & _ & T)|(x' & y' & _ & _ & _ & T)].
    + apply (tc_odd a b p l x r Er ltac:(lia) O) in T. destruct T as (v & Ev & D). exists x, v. tauto.
    + destruct (rel_prime_bezout d p) as [e k Ek]; [apply rel_prime_sym, prime_rel_prime; assumption|].
      assert (T1 : (p | tc_n a b l (e * x'))) by (apply (proj1 (TC (e * x'))); apply (TR x' (d * (e * x'))); [exists (k * x'); transitivity ((1 - (e * d)) * x'); [ring|]; rewrite <- Ek; ring|exact T]).
      apply (TR0 _ ((e * x') mod p)) in T1; [|apply MM]. apply (tc_odd a b p l _ r Er ltac:(lia) O) in T1. destruct T1 as (v & Ev & D). exists ((e * x') mod p), v. split; [apply Z.mod_pos_bound; lia|tauto].
Qed.
(** C124: the greatest common divisor of psi(l) and x^p - x: gcd returns (in either order of the arguments) exactly in this case, ... *)
Lemma c124_gcd : forall a b p E l r u v, elliptic a b p -> ec_new a b p = Ok E -> p <= i32_max -> prime l -> l <> 2 -> l <> p -> l <= 65534 -> psi a b l = Ok r ->
  let d := [(mkMono 1 0 0 None, -1); (mkMono p 0 0 None, 1)] in (u, v) = (r, d) \/ (u, v) = (d, r) ->
  ((exists fuel g, p_gcd fuel u v p = Ok g) <-> (l | cardinality E) \/ (l | 2 * p + 2 - cardinality E)).
Proof.
  intros a b p E l r u v HEl HE Bp Pl L2 Lp Bl Er d HD. pose proof HEl as (Pp & P2 & NS). pose proof (prime_ge_2 p Pp). pose proof (prime_ge_2 l Pl).
  assert (O : Z.odd l = true). { destruct (Z.odd l) eqn:O; [reflexivity|]. assert (Ev : Z.even l = true) by (rewrite <- Z.negb_odd, O; reflexivity). apply Z.even_spec in Ev. destruct Ev as (k & Hk). exfalso. apply L2. symmetry. apply prime_div_prime; [exact prime_2|exact Pl|exists k; lia]. }
  destruct (c48_psi_odd a b l ltac:(lia) O) as (r' & E' & Sr & Or). assert (r' = r) as -> by congruence. clear E'.
  destruct (c49_odd a b l r ltac:(lia) O Er) as (T & _). destruct (psi_Ok a b l ltac:(lia)) as (r' & E' & Nr). assert (r' = r) as -> by congruence. clear E'.
  assert (NE : r <> []). { intros ->. assert (K : tc (highest_term_x []) = l) by (rewrite T; reflexivity). cbn in K. lia. }
  assert (I32 : i32_poly r) by (intros k c I; pose proof (psi_monos a b l r k c ltac:(lia) Er I) as KK; clear - KK; unfold i32_mono, i32_range, i32_min, i32_max; destruct KK as (? & ? & -> & _); lia).
  rewrite <- (c124_root a b p E l r HEl HE Pl L2 Bl Er).
  rewrite <- (proj1 (c99_returns p r u v Pp Bp Sr Or I32 NE ltac:(rewrite T; cbn [tc]; intros D; apply Lp; symmetry; apply prime_div_prime; assumption) HD)).
  split; intros (x & K).
  - destruct K as (Bx & D). exists x, (fval x 0 r). rewrite eval_xy_spec by assumption. tauto.
  - destruct K as (w & Bx & V & D). rewrite eval_xy_spec in V by assumption. exists x. split; [exact Bx|]. assert (fval x 0 r = w) as -> by congruence. exact D.
Qed.
(** C124: ... it is then monic of degree half the number of finite l-torsion points on the curve and its twist, ... *)
Lemma c124_degree : forall a b p E E' d a' b' l r u v fuel g L L', elliptic a b p -> ec_new a b p = Ok E -> twisted p d a b a' b' -> ec_new a' b' p = Ok E' ->
  p <= i32_max -> Z.odd l = true -> 3 <= l <= 65534 -> ~ (p | l) -> psi a b l = Ok r ->
  NoDup L -> (forall P, In P L <-> In P (ec_points E) /\ ec_mult a p (affine p P) (Z.to_nat l) None) ->
  NoDup L' -> (forall P, In P L' <-> In P (ec_points E') /\ ec_mult a' p (affine p P) (Z.to_nat l) None) ->
  let x := [(mkMono 1 0 0 None, -1); (mkMono p 0 0 None, 1)] in (u, v) = (r, x) \/ (u, v) = (x, r) -> p_gcd fuel u v p = Ok g ->
  tc (highest_term_x g) = 1 /\ 2 * mx (tm (highest_term_x g)) = (Z.of_nat (length L) - 1) + (Z.of_nat (length L') - 1).
Proof.
  intros a b p E E' d a' b' l r u v fuel g L L' HEl HE HT HE' Bp O Bl Np Er NL HL NL' HL' X HD HG. pose proof HEl as (Pp & P2 & NS). pose proof (prime_ge_2 p Pp).
  destruct (c48_psi_odd a b l ltac:(lia) O) as (r' & Er' & Sr & Or). assert (r' = r) as -> by congruence. clear Er'.
  destruct (c49_odd a b l r ltac:(lia) O Er) as (T & _). destruct (psi_Ok a b l ltac:(lia)) as (r' & Er' & Nr). assert (r' = r) as -> by congruence. clear Er'.
  assert (NE : r <> []). { intros ->. assert (K : tc (highest_term_x []) = l) by (rewrite T; reflexivity). cbn in K. lia. }
  assert (I32 : i32_poly r) by (intros k c I; pose proof (psi_monos a b l r k c ltac:(lia) Er I) as KK; clear - KK; unfold i32_mono, i32_range, i32_min, i32_max; destruct KK as (? & ? & -> & _); lia).
  destruct (c99_count fuel p r g u v Pp Bp Sr Or I32 NE ltac:(rewrite T; exact Np) HD HG) as (M & D & _). split; [exact M|]. rewrite D.
  apply (c124_count_odd p d a b a' b' E E' l r L L'); try assumption; [lia|apply NoDup_filter, NoDup_zrange|].
  intros z. rewrite filter_In, in_zrange, Z.eqb_eq, Z.mod_divide, eval_xy_spec by (assumption || lia). split; intros (B & D'); (split; [exact B|]).
  - eexists; split; [reflexivity|exact D'].
  - destruct D' as (w & W & D'). assert (fval z 0 r = w) as -> by congruence. exact D'.
Qed.
(** C124: ... and is_gcd_one answers true in this case (it never answers false, C27). *)
Lemma c124_is_gcd_one : forall a b p E l r u v, elliptic a b p -> ec_new a b p = Ok E -> p <= i32_max -> prime l -> l <> 2 -> l <> p -> l <= 65534 -> psi a b l = Ok r ->
  let d := [(mkMono 1 0 0 None, -1); (mkMono p 0 0 None, 1)] in (u, v) = (r, d) \/ (u, v) = (d, r) ->
  ((exists fuel, is_gcd_one fuel u v p = Ok true) <-> (l | cardinality E) \/ (l | 2 * p + 2 - cardinality E)).
Proof.
  intros a b p E l r u v HEl HE Bp Pl L2 Lp Bl Er d HD. rewrite <- (c124_gcd a b p E l r u v HEl HE Bp Pl L2 Lp Bl Er HD). pose proof HEl as (Pp & P2 & NS). pose proof (prime_ge_2 p Pp). pose proof (prime_ge_2 l Pl).
  unfold is_gcd_one. split.
  - intros (fuel & H1). exists fuel. destruct (p_gcd fuel u v p) as [g| |]; cbn [bind] in H1; try discriminate. exists g. reflexivity.
  - intros (fuel & g & HG). exists fuel. rewrite HG. cbn [bind]. f_equal. destruct (is_zero g) eqn:Z; [exfalso|reflexivity].
    assert (O : Z.odd l = true). { destruct (Z.odd l) eqn:O; [reflexivity|]. assert (Ev : Z.even l = true) by (rewrite <- Z.negb_odd, O; reflexivity). apply Z.even_spec in Ev. destruct Ev as (k & Hk). exfalso. apply L2. symmetry. apply prime_div_prime; [exact prime_2|exact Pl|exists k; lia]. }
    destruct (c48_psi_odd a b l ltac:(lia) O) as (r' & Er' & Sr & Or). assert (r' = r) as -> by congruence. clear Er'.
    destruct (c49_odd a b l r ltac:(lia) O Er) as (T & _).
    assert (NE : r <> []). { intros ->. assert (K : tc (highest_term_x []) = l) by (rewrite T; reflexivity). cbn in K. lia. }
    assert (I32 : i32_poly r) by (intros k c I; pose proof (psi_monos a b l r k c ltac:(lia) Er I) as KK; clear - KK; unfold i32_mono, i32_range, i32_min, i32_max; destruct KK as (? & ? & -> & _); lia).
    destruct (c99_count fuel p r g u v Pp Bp Sr Or I32 NE ltac:(rewrite T; cbn [tc]; intros D; apply Lp; symmetry; apply prime_div_prime; assumption) HD HG) as (M & _).
    destruct g; [cbn in M; lia|discriminate].
Qed.
(** y^2 = x^3 + x + 1 over GF(5) has 9 points and its twist by 2, y^2 = x^3 + 4 x + 3, has 3: two finite points of order 3 on each, and psi(3) has 2 roots. *)
Example c124_case : exists E E' r, elliptic 1 1 5 /\ ec_new 1 1 5 = Ok E /\ twisted 5 2 1 1 4 3 /\ ec_new 4 3 5 = Ok E' /\ cardinality E = 9 /\ cardinality E' = 3 /\
  division_points E 3 = Ok [mkPt 2 1 1; mkPt 2 4 1; infinity] /\ division_points E' 3 = Ok [mkPt 2 2 1; mkPt 2 3 1; infinity] /\ psi 1 1 3 = Ok r /\
  filter (fun x => fval x 0 r mod 5 =? 0) (zrange 0 5) = [1; 2].
Proof.
  destruct c91_case as (TW & E & E' & HE & HE' & C1 & C2 & _). exists E, E'. destruct (psi 1 1 3) as [r| |] eqn:Er; [|discriminate (f_equal (fun w => match w with Ok _ => 1 | _ => 0 end) Er)..].
  exists r. split; [split; [apply is_prime_spec; reflexivity|split; [discriminate|intros (k & Hk); lia]]|]. repeat (split; [assumption|]).
  split; [vm_compute in HE; injection HE as <-; vm_compute; reflexivity|]. split; [vm_compute in HE'; injection HE' as <-; vm_compute; reflexivity|]. split; [reflexivity|].
  vm_compute in Er. injection Er as <-. vm_compute. reflexivity.
Qed.
