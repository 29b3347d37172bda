(** Lemmas behind the property theorem C121: what schoof reports for l = 3. *)
From Coq Require Import Znumtheory ZifyBool Setoid Morphisms.
From Verif Require Import Prelude M_Bigint M_Variable M_Term M_Poly M_DivPoly M_Curve M_Schoof Spec SpecCurve SpecTwist SpecSchoof P_Bigint P_Variable P_DivVal P_Curve P_Curve2 P_Curve3 P_Curve4 P_CurveProps P_Mul P_MulProps P_Euler P_TwistProps P_SeaProps P_SchoofProps P_SchoofDecProps P_Three2 P_Three3.
Open Scope Z_scope.

Lemma psi3z_cong a b a' b' q x x' : (q | a' - a) -> (q | b' - b) -> (q | x' - x) -> (q | psi3z a b x) -> (q | psi3z a' b' x').
Proof.
  intros (i & A) (j & B) (k & X) D. assert (a' = a + i * q) as -> by lia. assert (b' = b + j * q) as -> by lia. assert (x' = x + k * q) as -> by lia. clear A B X. unfold psi3z in *.
  match goal with |- (q | ?u) => match type of D with (q | ?v) => replace u with (v + (3 * k * (4 * x * x * x + 6 * k * q * x * x + 4 * k * k * q * q * x + k * k * k * q * q * q) + 6 * i * (x + k * q) * (x + k * q) + 6 * a * k * (2 * x + k * q) + 12 * j * (x + k * q) + 12 * b * k - i * (2 * a + i * q)) * q) by ring end end.
  apply Z.divide_add_r; [exact D|]. eexists. reflexivity.
Qed.
(** A prime field point of order 3 exists exactly if 3 divides the number of points. *)
Lemma three_points a b q E : elliptic a b q -> ec_new a b q = Ok E -> ((3 | cardinality E) <-> z1 a b q).
Proof.
  intros HEl HE. pose proof HEl as (Pq & P2 & NS). pose proof (prime_ge_2 q Pq).
  assert (V : forall x y, pv a b x y 3 = psi3z a b x).
  { intros x y. rewrite pv_3. unfold psi3z. ring. }
  split.
  - intros D. destruct (order_point a b q E 3 HEl HE ltac:(apply is_prime_spec; reflexivity) D) as (x & y & (Hx & Hy & C) & M).
    exists x, y. split; [exact C|].
    apply (torsion_iff a b q x y (proj1 HEl) P2 NS Hx Hy C 3) in M; [|lia|lia]. rewrite V in M. exact M.
  - intros (x & y & C & D). pose proof (proj2 (curve_eqn_mod a b q x y ltac:(lia)) C) as C'.
    pose proof (Z.mod_pos_bound x q ltac:(lia)) as Hx. pose proof (Z.mod_pos_bound y q ltac:(lia)) as Hy.
    assert (D' : (q | psi3z a b (x mod q))).
    { apply (psi3z_cong a b a b q x); [exists 0; ring|exists 0; ring| |exact D]. exists (- (x / q)). pose proof (Z.div_mod x q). lia. }
    rewrite <- (V _ (y mod q)) in D'. apply (torsion_iff a b q _ _ (proj1 HEl) P2 NS Hx Hy C' 3) in D'; [|lia|lia].
    set (P := mkPt x y 1). assert (AP : affine q P = Some (x mod q, y mod q)) by reflexivity. assert (ON : on_curve a b q (affine q P)) by (rewrite AP; repeat split; assumption || lia).
    assert (OP : is_on_curve E P = Ok true).
    { destruct (is_on_curve_spec a b q E P (ec_new_fields a b q E HE) ltac:(lia)) as (c & -> & Hc). f_equal. apply Hc. right. exact C. }
    destruct (c62_point_order a b q E P HEl (or_intror HE) OP) as (n & (N1 & MN & Min) & (fuel & Hf) & _).
    assert (n = 3) as ->; [|exact (proj1 (proj2 (c63_lagrange a b q E P HEl HE OP)) 3 fuel Hf)].
    rewrite <- AP in D'. pose proof (on_canon a b q _ ON) as CN.
    assert (L : n <= 3). { destruct (Z_le_gt_dec n 3) as [|G]; [assumption|]. exfalso. apply (Min 3 ltac:(lia)). apply (ec_mult_iff a b q (proj1 HEl) P2); [exact ON|]. symmetry. exact D'. }
    apply (ec_mult_iff a b q (proj1 HEl) P2) in MN; [|exact ON].
    assert (n <> 1) by (intros ->; change (Z.to_nat 1) with 1%nat in MN; rewrite (emul_1 a q (proj1 HEl)) in MN by exact CN; rewrite AP in MN; discriminate).
    assert (n <> 2); [|lia]. intros ->. change (Z.to_nat 2) with 2%nat in MN. rewrite (emul_S a q (proj1 HEl) 2), <- MN, (esum_0_r a q (proj1 HEl)) in D' by exact CN. rewrite AP in D'. discriminate.
Qed.

(** The same on the quadratic twist. *)
Lemma psi3_sing_z a b q x : prime q -> q <> 2 -> nonsingular a b q -> (q | psi3z a b x) -> ~ (q | x * x * x + a * x + b).
Proof.
  intros Pq P2 NS D F. apply NS. unfold psi3z in D.
  assert (S : (q | (3 * (x * x) + a) * (3 * (x * x) + a))).
  { replace ((3 * (x * x) + a) * (3 * (x * x) + a)) with (12 * x * (x * x * x + a * x + b) - (3 * (x * x * x * x) + 6 * a * (x * x) + 12 * b * x - a * a)) by ring. apply Z.divide_sub_r; [apply Z.divide_mul_r, F|exact D]. }
  assert (S' : (q | 3 * (x * x) + a)) by (apply prime_mult in S; [tauto|exact Pq]).
  replace (4 * (a * a * a) + 27 * (b * b)) with (27 * (b - x * x * x - a * x) * (x * x * x + a * x + b) + (3 * (x * x) + a) * (3 * (x * x) + 4 * a) * (3 * (x * x) + a)) by ring.
  apply Z.divide_add_r; apply Z.divide_mul_r; assumption.
Qed.
Lemma three_twist a b q E : elliptic a b q -> ec_new a b q = Ok E -> ((3 | 2 * q + 2 - cardinality E) <-> zN a b q).
Proof.
  intros HEl HE. pose proof HEl as (Pq & P2 & NS). pose proof (prime_ge_2 q Pq) as G.
  destruct (nonres q Pq P2) as (d & Z0 & _). assert (Nd: ~ (q | d)) by (intros D; rewrite (nsq_0 q Pq P2 d D) in Z0; discriminate).
  destruct (proj2 (proj1 (c61_new_returns a b q)) (ex_intro _ E HE)) as (_ & Bp). destruct (proj1 (proj1 (c61_new_returns (d ^ 2 * a) (d ^ 3 * b) q)) (conj Pq Bp)) as (E' & HE').
  assert (NS': nonsingular (d ^ 2 * a) (d ^ 3 * b) q).
  { intros D. apply NS. replace (4 * (d ^ 2 * a * (d ^ 2 * a) * (d ^ 2 * a)) + 27 * (d ^ 3 * b * (d ^ 3 * b))) with (d ^ 6 * (4 * (a * a * a) + 27 * (b * b))) in D by ring.
    apply prime_mult in D; [|exact Pq]. destruct D as [D|D]; [|exact D]. exfalso. apply Nd. revert D. apply div_pow_n; [exact Pq|lia]. }
  assert (HT: twisted q d a b (d ^ 2 * a) (d ^ 3 * b)) by (split; [apply (nsq_square q Pq P2), Z0|split; exists 0; ring]).
  pose proof (c91_twist q d a b _ _ E E' P2 HT HE HE') as S. replace (2 * q + 2 - cardinality E) with (cardinality E') by lia.
  rewrite (three_points _ _ q E' (conj Pq (conj P2 NS')) HE').
  assert (PS : forall x, psi3z (d ^ 2 * a) (d ^ 3 * b) (d * x) = d ^ 4 * psi3z a b x) by (intros x; unfold psi3z; ring).
  assert (FS : forall x, nsq q (d * x * (d * x) * (d * x) + d ^ 2 * a * (d * x) + d ^ 3 * b) = nsq q (d * (x * x * x + a * x + b))).
  { intros x. replace (d * x * (d * x) * (d * x) + d ^ 2 * a * (d * x) + d ^ 3 * b) with ((d * d) * (d * (x * x * x + a * x + b))) by ring. apply (nsq_square_mult q Pq P2 _ _ d Nd). exists 0. ring. }
  assert (TW : forall x, nsq q (x * x * x + a * x + b) + nsq q (d * (x * x * x + a * x + b)) = 2) by (intros x; apply (nsq_twist q Pq P2 d _ Nd Z0)).
  split.
  - intros (x' & y' & C & D). destruct (rel_prime_bezout d q) as [e k Ek]; [apply rel_prime_sym, prime_rel_prime; assumption|].
    set (x := e * x'). assert (X : (q | d * x - x')) by (exists (- k * x'); unfold x; replace (d * (e * x') - x') with ((e * d + k * q - 1 - k * q) * x') by ring; rewrite Ek; ring).
    assert (D1 : (q | psi3z (d ^ 2 * a) (d ^ 3 * b) (d * x))) by (apply (psi3z_cong (d ^ 2 * a) (d ^ 3 * b) _ _ q x'); [exists 0; ring|exists 0; ring|exact X|exact D]).
    rewrite PS in D1. apply prime_mult in D1; [|exact Pq]. destruct D1 as [D1|D1]; [exfalso; apply Nd; revert D1; apply div_pow_n; [exact Pq|lia]|].
    exists x. split; [exact D1|]. apply (nsq_square q Pq P2). pose proof (psi3_sing_z a b q x Pq P2 NS D1) as N0.
    assert (N1 : ~ (q | d * (x * x * x + a * x + b))) by (intros Y; apply prime_mult in Y; [tauto|exact Pq]).
    destruct (euler q Pq P2 _ N1) as [(E2 & _)|(E2 & _)]; [specialize (TW x); lia|]. exfalso. rewrite <- FS in E2. apply (nsq_square q Pq P2) in E2. apply E2. exists y'.
    destruct C as (c & C). destruct X as (z & X). assert (Ex : x' = d * x - z * q) by lia. 
    exists (c + (d ^ 2 * a) * - z + - z * (x' * x' + x' * (d * x) + d * x * (d * x))). clear - C X. replace (y' * y') with (c * q + (x' * x' * x' + d ^ 2 * a * x' + d ^ 3 * b)) by lia.
    transitivity (c * q - (d ^ 2 * a) * (d * x - x') - (d * x - x') * (x' * x' + x' * (d * x) + d * x * (d * x))); [ring|]. rewrite X. ring.
  - intros (x & D & N). apply (nsq_square q Pq P2) in N. exists (d * x). assert (T : nsq q (d * x * (d * x) * (d * x) + d ^ 2 * a * (d * x) + d ^ 3 * b) <> 0) by (rewrite FS; specialize (TW x); lia).
    destruct (residue_or q (d * x * (d * x) * (d * x) + d ^ 2 * a * (d * x) + d ^ 3 * b) Pq P2) as [(y & Y)|Y]; [|exfalso; apply T, (nsq_square q Pq P2), Y].
    exists y. split; [exact Y|]. rewrite PS. apply Z.divide_mul_r, D.
Qed.
(** C121: for l = 3 schoof's comparison of x-coordinates succeeds exactly when 3 does not divide the trace of Frobenius. *)
Lemma c121_match : forall a b q E, elliptic a b q -> ec_new a b q = Ok E -> 3 < q -> (x_matches a b q 3 1 <-> ~ (3 | q + 1 - cardinality E)).
Proof.
  intros a b q E HEl HE Hq. pose proof HEl as (Pq & P2 & NS).
  pose proof (three_points a b q E HEl HE) as H1. pose proof (three_twist a b q E HEl HE) as H2. set (N := cardinality E) in *.
  assert (M : q mod 3 = 1 \/ q mod 3 = 2).
  { pose proof (Z.mod_pos_bound q 3 ltac:(lia)). enough (q mod 3 <> 0) by lia. intros Z0. apply Z.mod_divide in Z0; [|lia]. destruct (prime_divisors q Pq 3 Z0) as [|[|[|]]]; lia. }
  assert (QD : exists k, q = 3 * k + q mod 3) by (exists (q / 3); apply Z.div_mod; lia). destruct QD as (k & Qk).
  assert (ND : exists n r, N = 3 * n + r /\ 0 <= r < 3) by (exists (N / 3), (N mod 3); pose proof (Z.div_mod N 3); pose proof (Z.mod_pos_bound N 3); lia). destruct ND as (n & r & Nr & Hr).
  assert (DV : forall u v, (3 | u) <-> (3 | u + 3 * v)) by (intros u v; split; intros (z & D); [exists (z + v)|exists (z - v)]; lia).
  assert (D1 : (3 | N) <-> r = 0) by (rewrite Nr; split; [intros (z & D); lia|intros ->; exists n; lia]).
  destruct M as [M|M]; rewrite M in Qk.
  - assert (D2 : (3 | 2 * q + 2 - N) <-> r = 1) by (rewrite Nr, Qk; split; [intros (z & D); lia|intros ->; exists (2 * k + 1 - n); lia]).
    assert (D3 : (3 | q + 1 - N) <-> r = 2) by (rewrite Nr, Qk; split; [intros (z & D); lia|intros ->; exists (k - n); lia]).
    rewrite D3. split.
    + intros X R. apply (three_one_no Pq Hq NS M); [rewrite <- H1, D1; lia|rewrite <- H2, D2; lia|exact X].
    + intros R. apply (three_one_yes Pq Hq NS M); rewrite <- H1, <- H2, D1, D2; lia.
  - assert (D2 : (3 | 2 * q + 2 - N) <-> r = 0) by (rewrite Nr, Qk; split; [intros (z & D); lia|intros ->; exists (2 * k + 2 - n); lia]).
    assert (D3 : (3 | q + 1 - N) <-> r = 0) by (rewrite Nr, Qk; split; [intros (z & D); lia|intros ->; exists (k + 1 - n); lia]).
    rewrite D3. split.
    + intros X R. apply (three_two_no Pq Hq NS M); [apply H1, D1, R|exact X].
    + intros R. apply (three_two_yes Pq Hq NS M); [rewrite <- H1, D1; exact R|rewrite <- H2, D2; exact R].
Qed.
Lemma three_cases q : prime q -> 3 < q -> q mod 3 = 1 \/ q mod 3 = 2.
Proof.
  intros Pq Hq. pose proof (Z.mod_pos_bound q 3 ltac:(lia)). enough (q mod 3 <> 0) by lia. intros Z0. apply Z.mod_divide in Z0; [|lia]. destruct (prime_divisors q Pq 3 Z0) as [|[|[|]]]; lia.
Qed.
Lemma div3_dec u : (3 | u) \/ ~ (3 | u).
Proof. destruct (Zdivide_dec 3 u); tauto. Qed.
(** C121: the residue for l = 3 is 1 or 2 when 3 does not divide the trace t; otherwise it is 0 if q = 2 (mod 3), and if q = 1 (mod 3) it is 0
    exactly when -4 b is not the cube of an invertible residue. *)
Lemma c121_residue : forall fuel a b q E L r, elliptic a b q -> ec_new a b q = Ok E -> schoof fuel a b q = Ok L -> In (mkMod 3 r) L ->
  let t := q + 1 - cardinality E in
  0 <= r < 3 /\ (~ (3 | t) -> r <> 0) /\ ((3 | t) -> q mod 3 = 2 -> r = 0) /\
  ((3 | t) -> q mod 3 = 1 -> (r = 0 <-> ~ exists c, ~ (q | c) /\ (q | c * c * c + 4 * b))).
Proof.
  intros fuel a b q E L r HEl HE H I t. pose proof HEl as (Pq & P2 & NS). destruct (entry a b q Pq fuel L 3 r H I ltac:(lia)) as (_ & Hq & Hs).
  pose proof (c121_match a b q E HEl HE Hq) as X. fold t in X. pose proof (c116_zero fuel a b q L 3 r Pq H I ltac:(lia)) as Z0. change ((3 - 1) / 2) with 1 in Z0.
  assert (N : (forall j, 1 <= j <= 1 -> ~ x_matches a b q 3 j) <-> (3 | t)).
  { split; [intros N; destruct (div3_dec t) as [|D]; [assumption|exfalso; apply (N 1 ltac:(lia)), X, D]|]. intros D j Hj. assert (j = 1) as -> by lia. rewrite X. tauto. }
  rewrite N in Z0. split; [|split; [|split]].
  - destruct (core a b q Pq fuel 3 _ (or_introl eq_refl) Hq Hs) as (_ & [(j & Hj & _ & _ & F)|(_ & [(F & _)|(w & Hw & W & Lw & F)])]); cbn [mr_r] in F.
    + change ((3 - 1) / 2) with 1 in Hj. lia.
    + lia.
    + assert (w = 1); [|lia]. destruct (Z.eq_dec w 1) as [|N1]; [assumption|exfalso]. assert (w = 2) as -> by lia. apply (Lw 1); [lia|]. rewrite <- W. reflexivity.
  - intros D R. apply Z0 in R. tauto.
  - intros D M. apply Z0. split; [exact D|]. intros w Hw (k & K) _ _. assert (w = 1 \/ w = 2) as [-> | ->] by lia; pose proof (Z.div_mod q 3); lia.
  - intros D M. pose proof (w_three Pq Hq M a b) as W. rewrite <- W, Z0. split.
    + intros (_ & F). apply (F 1); [lia| |intros v Hv; lia]. exists (- (q / 3)). pose proof (Z.div_mod q 3). lia.
    + intros F. split; [exact D|]. intros w Hw K Lw. assert (w = 1 \/ w = 2) as [-> | ->] by lia; [exact F|]. exfalso. apply (Lw 1); [lia|]. destruct K as (k & K). exists (k - 1). lia.
Qed.
(** C121: the residue for l = 3 is the trace up to sign, except exactly when q = 1 (mod 3), 3 divides the trace and -4 b is the cube of an invertible residue. *)
Lemma c121_up_to_sign : forall fuel a b q E L r, elliptic a b q -> ec_new a b q = Ok E -> schoof fuel a b q = Ok L -> In (mkMod 3 r) L ->
  let t := q + 1 - cardinality E in
  ((3 | r - t) \/ (3 | r + t)) <-> ~ (q mod 3 = 1 /\ (3 | t) /\ exists c, ~ (q | c) /\ (q | c * c * c + 4 * b)).
Proof.
  intros fuel a b q E L r HEl HE H I t. destruct (c121_residue fuel a b q E L r HEl HE H I) as (B & R1 & R2 & R3). fold t in R1, R2, R3. pose proof HEl as (Pq & _).
  destruct (entry a b q Pq fuel L 3 r H I ltac:(lia)) as (_ & Hq & _). pose proof (three_cases q Pq Hq) as M.
  destruct (div3_dec t) as [D|D].
  - assert (RZ : ((3 | r - t) \/ (3 | r + t)) <-> r = 0).
    { destruct D as (k & K). split; [intros [(z & Z0)|(z & Z0)]; lia|intros ->; left; exists (- k); lia]. }
    rewrite RZ. destruct M as [M|M]; [rewrite (R3 D M); tauto|]. rewrite (R2 D M). split; [intros _ (M' & _); lia|reflexivity].
  - specialize (R1 D). split; [intros _ (_ & D' & _); tauto|intros _]. assert (T : exists k s, t = 3 * k + s /\ 0 <= s < 3) by (exists (t / 3), (t mod 3); pose proof (Z.div_mod t 3); pose proof (Z.mod_pos_bound t 3); lia).
    destruct T as (k & s & -> & Hs). assert (s <> 0) by (intros ->; apply D; exists k; lia).
    destruct (Z.eq_dec r s) as [-> | Nr]; [left; exists (- k); lia|right; exists (k + 1); lia].
Qed.
(** C121: in particular, for q = 2 (mod 3) the residue for 3 is the trace up to sign. *)
Lemma c121_two_mod_three : forall fuel a b q E L r, elliptic a b q -> ec_new a b q = Ok E -> q mod 3 = 2 -> schoof fuel a b q = Ok L -> In (mkMod 3 r) L ->
  (3 | r - (q + 1 - cardinality E)) \/ (3 | r + (q + 1 - cardinality E)).
Proof. intros fuel a b q E L r HEl HE M H I. apply (c121_up_to_sign fuel a b q E L r HEl HE H I). intros (M' & _). lia. Qed.
Example c121_case : exists E, elliptic 1 0 5 /\ ec_new 1 0 5 = Ok E /\ 5 mod 3 = 2 /\ schoof 40 1 0 5 = Ok [mkMod 2 1; mkMod 3 2] /\ ~ (3 | 5 + 1 - cardinality E).
Proof.
  assert (P5 : prime 5) by (apply is_prime_spec; reflexivity). destruct (ec_new 1 0 5) as [E| |] eqn:HE; [|discriminate|discriminate]. exists E.
  split; [split; [exact P5|split; [lia|intros (z & D); lia]]|]. split; [reflexivity|]. split; [reflexivity|]. split; [exact c68_case|].
  revert HE. vm_compute (ec_new 1 0 5). intros HE. match type of HE with Ok ?e = _ => assert (E = e) as -> by congruence end. intros (z & D). match type of D with ?l = _ => replace l with 2 in D by (vm_compute; reflexivity) end. lia.
Qed.
(** An exceptional curve: y^2 = x^3 + 2 x + 3 over GF(19) has trace 0, and -12 = 4^3 modulo 19. *)
Example c121_case_exceptional : exists E, elliptic 2 3 19 /\ ec_new 2 3 19 = Ok E /\ 19 mod 3 = 1 /\ 19 + 1 - cardinality E = 0 /\ ~ (19 | 4) /\ (19 | 4 * 4 * 4 + 4 * 3).
Proof.
  assert (P : prime 19) by (apply is_prime_spec; reflexivity). destruct (ec_new 2 3 19) as [E| |] eqn:HE; [|discriminate|discriminate]. exists E.
  split; [split; [exact P|split; [lia|intros (z & D); lia]]|]. split; [reflexivity|]. split; [reflexivity|]. split; [|split; [intros (z & D); lia|exists 4; reflexivity]].
  revert HE. vm_compute (ec_new 2 3 19). intros HE. match type of HE with Ok ?e = _ => assert (E = e) as -> by congruence end. reflexivity.
Qed.
(** C78, the part that holds for l = 3 in general: the residue is the trace modulo 3 up to sign, unless q = 1 (mod 3), 3 divides the trace and -4 b is a
    nonzero cube; then it is not. *)
Lemma c78_three_partial : forall fuel a b q E L r, elliptic a b q -> ec_new a b q = Ok E -> schoof fuel a b q = Ok L -> In (mkMod 3 r) L ->
  ((3 | r - (q + 1 - cardinality E)) \/ (3 | r + (q + 1 - cardinality E))) <->
  ~ (q mod 3 = 1 /\ (3 | q + 1 - cardinality E) /\ exists c, ~ (q | c) /\ (q | c * c * c + 4 * b)).
Proof. exact c121_up_to_sign. Qed.
