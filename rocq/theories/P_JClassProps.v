(** Lemmas behind C126 (which j-invariants occur, and what they say about the curve). *)
From Coq Require Import Znumtheory ZifyBool.
From Verif Require Import Prelude M_Bigint M_Curve Spec SpecCurve SpecTwist P_Bigint P_Variable P_Curve P_Curve2 P_Curve3 P_Curve4 P_CurveProps P_Euler P_TwistProps.
Open Scope Z_scope.

(** The value of j_invariant() is the residue j with j (4 a^3 + 27 b^2) = 1728 * 4 a^3. *)
Lemma j_iff a b p E j : prime p -> nonsingular a b p -> curve_of a b p E -> 0 <= j < p ->
  (ec_j_invariant E = Ok j <-> (p | j * (4 * a ^ 3 + 27 * b ^ 2) - 1728 * (4 * a ^ 3))).
Proof.
  intros Pp NS HC Bj. destruct (c66_j_value a b p E Pp NS HC) as (k & Ek & Bk & Dk). split.
  - intros Ej. assert (k = j) as <- by congruence. exact Dk.
  - intros D. rewrite Ek. f_equal. assert (K : (p | (k - j) * (4 * (a * a * a) + 27 * (b * b)))).
    { replace ((k - j) * (4 * (a * a * a) + 27 * (b * b))) with ((k * (4 * a ^ 3 + 27 * b ^ 2) - 1728 * (4 * a ^ 3)) - (j * (4 * a ^ 3 + 27 * b ^ 2) - 1728 * (4 * a ^ 3))) by ring. apply Z.divide_sub_r; assumption. }
    apply prime_mult in K; [|exact Pp]. destruct K as [K|K]; [|exfalso; apply NS, K]. apply near_zero in K; lia.
Qed.
Lemma small_div p n : prime p -> 3 < p -> 0 < n -> (exists i j, 0 <= i /\ 0 <= j /\ n = 2 ^ i * 3 ^ j) -> ~ (p | n).
Proof.
  intros Pp P3 Hn (i & j & Hi & Hj & ->) D. apply prime_mult in D; [|exact Pp]. destruct D as [D|D]; apply div_pow_n in D; try assumption; apply Z.divide_pos_le in D; lia.
Qed.
(** C126: for every prime p > 3 every residue is the j_invariant() of a curve over GF(p). *)
Lemma c126_surjective : forall p j, prime p -> 3 < p -> 0 <= j < p -> exists a b, elliptic a b p /\ forall E, curve_of a b p E -> ec_j_invariant E = Ok j.
Proof.
  intros p j Pp P3 Bj. assert (N2 : p <> 2) by lia.
  assert (S : forall n, 0 < n -> (exists i j, 0 <= i /\ 0 <= j /\ n = 2 ^ i * 3 ^ j) -> ~ (p | n)) by (intros n; apply small_div; assumption).
  assert (F : forall a b, nonsingular a b p -> (p | j * (4 * a ^ 3 + 27 * b ^ 2) - 1728 * (4 * a ^ 3)) -> exists a b, elliptic a b p /\ forall E, curve_of a b p E -> ec_j_invariant E = Ok j).
  { intros a b NS D. exists a, b. split; [split; [exact Pp|split; [exact N2|exact NS]]|]. intros E HC. apply (j_iff a b p E j Pp NS HC Bj), D. }
  destruct (Z.eq_dec j 0) as [->|J0].
  - apply (F 0 1); [|exists 0; ring]. intros D. apply (S 27); [lia|exists 0, 3; repeat split; lia|exact D].
  - destruct (Zdivide_dec p (1728 - j)) as [D|N].
    + apply (F 1 0); [|destruct D as (k & D); exists (-4 * k); lia]. intros D0. apply (S 4); [lia|exists 2, 0; repeat split; lia|exact D0].
    + apply (F (3 * j * (1728 - j)) (2 * j * ((1728 - j) * (1728 - j)))); [|exists 0; ring].
      intros D. replace (4 * (3 * j * (1728 - j) * (3 * j * (1728 - j)) * (3 * j * (1728 - j))) + 27 * (2 * j * ((1728 - j) * (1728 - j)) * (2 * j * ((1728 - j) * (1728 - j))))) with (186624 * ((j * j) * ((1728 - j) * ((1728 - j) * (1728 - j))))) in D by ring.
      assert (Nj : ~ (p | j)) by (intros Q; apply Z.divide_pos_le in Q; lia).
      repeat (apply prime_mult in D; [destruct D as [D|D]|exact Pp]); try tauto. apply (S 186624); [lia|exists 8, 6; repeat split; lia|exact D].
Qed.
(** C126: j_invariant() is 0 exactly when a = 0 modulo p, ... *)
Lemma c126_zero : forall a b p E, elliptic a b p -> 3 < p -> curve_of a b p E -> (ec_j_invariant E = Ok 0 <-> (p | a)).
Proof.
  intros a b p E (Pp & P2 & NS) P3 HC. rewrite (j_iff a b p E 0 Pp NS HC ltac:(lia)). split.
  - intros D. assert (D1 : (p | 6912 * a ^ 3)) by (replace (6912 * a ^ 3) with (- (0 * (4 * a ^ 3 + 27 * b ^ 2) - 1728 * (4 * a ^ 3))) by ring; apply Z.divide_opp_r, D).
    apply prime_mult in D1; [|exact Pp]. destruct D1 as [D1|D1]; [exfalso|revert D1; apply div_pow_n; [exact Pp|lia]].
    apply (small_div p 6912 Pp P3); [lia|exists 8, 3; repeat split; lia|exact D1].
  - intros (k & ->). exists (- (6912 * k * (k * p) ^ 2)). ring.
Qed.
(** C126: ... and 1728 modulo p exactly when b = 0 modulo p. *)
Lemma c126_1728 : forall a b p E, elliptic a b p -> 3 < p -> curve_of a b p E -> (ec_j_invariant E = Ok (1728 mod p) <-> (p | b)).
Proof.
  intros a b p E (Pp & P2 & NS) P3 HC. rewrite (j_iff a b p E (1728 mod p) Pp NS HC ltac:(apply Z.mod_pos_bound; lia)).
  assert (M : 1728 mod p = 1728 - p * (1728 / p)) by (pose proof (Z.div_mod 1728 p ltac:(lia)); lia). rewrite M. split.
  - intros D. assert (D1 : (p | 46656 * b ^ 2)).
    { replace (46656 * b ^ 2) with (((1728 - p * (1728 / p)) * (4 * a ^ 3 + 27 * b ^ 2) - 1728 * (4 * a ^ 3)) + p * ((1728 / p) * (4 * a ^ 3 + 27 * b ^ 2))) by ring. apply Z.divide_add_r; [exact D|apply Z.divide_factor_l]. }
    apply prime_mult in D1; [|exact Pp]. destruct D1 as [D1|D1]; [exfalso|revert D1; apply div_pow_n; [exact Pp|lia]].
    apply (small_div p 46656 Pp P3); [lia|exists 6, 6; repeat split; lia|exact D1].
  - intros (k & ->). exists (46656 * k * (k * p) - (1728 / p) * (4 * a ^ 3 + 27 * (k * p) ^ 2)). ring.
Qed.
(** C126: over GF(3) every curve has j_invariant() 0. *)
Lemma c126_three : forall a b E, elliptic a b 3 -> curve_of a b 3 E -> ec_j_invariant E = Ok 0.
Proof.
  intros a b E (Pp & _ & NS) HC. apply (j_iff a b 3 E 0 Pp NS HC ltac:(lia)). exists (- (2304 * a ^ 3)). ring.
Qed.
(** Curves with a' = d^2 a and b' = d^3 b have the same j-invariant; conversely, away from 0 and 1728, such a d exists. *)
Lemma twist_same_j d a b a' b' p E E' : prime p -> nonsingular a b p -> nonsingular a' b' p -> curve_of a b p E -> curve_of a' b' p E' ->
  (p | a' - d ^ 2 * a) -> (p | b' - d ^ 3 * b) -> ec_j_invariant E' = ec_j_invariant E.
Proof.
  intros Pp NS NS' HC HC' (k1 & H1) (k2 & H2). destruct (c66_j_value a b p E Pp NS HC) as (j & Ej & Bj & Dj). rewrite Ej.
  apply (j_iff a' b' p E' j Pp NS' HC' Bj). replace a' with (d ^ 2 * a + k1 * p) by lia. replace b' with (d ^ 3 * b + k2 * p) by lia. destruct Dj as (m & Dj).
  exists (d ^ 6 * m + (4 * j - 6912) * k1 * (3 * (d ^ 2 * a) ^ 2 + 3 * (d ^ 2 * a) * (k1 * p) + (k1 * p) ^ 2) + 27 * j * k2 * (2 * (d ^ 3 * b) + k2 * p)).
  transitivity (d ^ 6 * (j * (4 * a ^ 3 + 27 * b ^ 2) - 1728 * (4 * a ^ 3)) + (4 * j - 6912) * (k1 * p) * (3 * (d ^ 2 * a) ^ 2 + 3 * (d ^ 2 * a) * (k1 * p) + (k1 * p) ^ 2) + 27 * j * (k2 * p) * (2 * (d ^ 3 * b) + k2 * p)); [ring|]. rewrite Dj. ring.
Qed.
Lemma same_j_twist p a b a' b' j : prime p -> 3 < p -> nonsingular a b p -> nonsingular a' b' p -> (p | j * (4 * a ^ 3 + 27 * b ^ 2) - 1728 * (4 * a ^ 3)) -> (p | j * (4 * a' ^ 3 + 27 * b' ^ 2) - 1728 * (4 * a' ^ 3)) ->
  ~ (p | a) -> ~ (p | b) -> ~ (p | a') -> ~ (p | b') -> exists d, ~ (p | d) /\ (p | a' - d ^ 2 * a) /\ (p | b' - d ^ 3 * b).
Proof.
  intros Pp P3 NS NS' D1 D2 Na Nb Na' Nb'.
  assert (Q: (p | a ^ 3 * b' ^ 2 - a' ^ 3 * b ^ 2)).
  { assert (Y: (p | 186624 * (a ^ 3 * b' ^ 2 - a' ^ 3 * b ^ 2) )).
    { destruct D1 as (w1 & W1), D2 as (w2 & W2). exists (w2 * (4 * a ^ 3 + 27 * b ^ 2) - w1 * (4 * a' ^ 3 + 27 * b' ^ 2)).
      rewrite Z.mul_sub_distr_r.
      replace (w2 * (4 * a ^ 3 + 27 * b ^ 2) * p) with (w2 * p * (4 * a ^ 3 + 27 * b ^ 2)) by ring. replace (w1 * (4 * a' ^ 3 + 27 * b' ^ 2) * p) with (w1 * p * (4 * a' ^ 3 + 27 * b' ^ 2)) by ring.
      rewrite <- W1, <- W2. ring. }
    apply prime_mult in Y; [|exact Pp]. destruct Y as [Y|Y]; [exfalso|exact Y]. apply (small_div p 186624 Pp P3); [lia|exists 8, 6; repeat split; lia|exact Y]. }
  destruct (inverse_spec (b * a') p Pp) as (i & _ & _ & Hi); [intros D; apply prime_mult in D; tauto|]. destruct Hi as (wi & Hi). destruct Q as (wq & Q).
  exists (b' * a * i). split; [|split].
  - intros D. apply prime_mult in D; [|exact Pp]. destruct D as [D|(k & ->)]; [apply prime_mult in D; tauto|].
    assert (X : (p | 1)) by (exists (b * a' * k - wi); replace ((b * a' * k - wi) * p) with (b * a' * (k * p) - wi * p) by ring; rewrite <- Hi; ring). apply Z.divide_pos_le in X; lia.
  - exists (- wq * i ^ 2 - a' * (b * a' * i + 1) * wi).
    replace (a' - (b' * a * i) ^ 2 * a) with (- ((a ^ 3 * b' ^ 2 - a' ^ 3 * b ^ 2) * i ^ 2) - a' * (b * a' * i + 1) * (b * a' * i - 1)) by ring. rewrite Q, Hi. ring.
  - exists (- wq * b' * i ^ 3 * b - b' * ((b * a' * i) ^ 2 + b * a' * i + 1) * wi).
    replace (b' - (b' * a * i) ^ 3 * b) with (- ((a ^ 3 * b' ^ 2 - a' ^ 3 * b ^ 2) * b' * i ^ 3 * b) - b' * ((b * a' * i) ^ 2 + b * a' * i + 1) * (b * a' * i - 1)) by ring. rewrite Q, Hi. ring.
Qed.
(** C126: for p > 3, two curves with a, b, a', b' not divisible by p (that is, j_invariant() other than 0 and 1728) have the same j_invariant()
    exactly when one is the image of the other under a change of variables (x, y) -> (u^2 x, u^3 y) or a quadratic twist of it. *)
Lemma c126_classification : forall a b a' b' p E E', elliptic a b p -> elliptic a' b' p -> 3 < p -> curve_of a b p E -> curve_of a' b' p E' ->
  ~ (p | a) -> ~ (p | b) -> ~ (p | a') -> ~ (p | b') ->
  (ec_j_invariant E' = ec_j_invariant E <-> (exists u, iso_curves p u a b a' b') \/ (exists d, twisted p d a b a' b')).
Proof.
  intros a b a' b' p E E' (Pp & P2 & NS) (_ & _ & NS') P3 HC HC' Na Nb Na' Nb'. split.
  - intros HJ. destruct (c66_j_value a b p E Pp NS HC) as (j & Ej & Bj & Dj). rewrite Ej in HJ. apply (j_iff a' b' p E' j Pp NS' HC' Bj) in HJ.
    destruct (same_j_twist p a b a' b' j Pp P3 NS NS' Dj HJ Na Nb Na' Nb') as (d & Nd & (ka & Ha) & (kb & Hb)).
    destruct (residue_or p d Pp P2) as [(u & k & Hu)|NR].
    + left. exists u. assert (Eu : d = u * u - k * p) by lia. split; [|split].
      * intros (m & ->). apply Nd. exists (m * (m * p) - k). rewrite Eu. ring.
      * exists (ka - k * (d + u ^ 2) * a). replace (a' - u ^ 4 * a) with ((a' - d ^ 2 * a) - (u * u - d) * (d + u ^ 2) * a) by ring. rewrite Ha, Hu. ring.
      * exists (kb - k * (d ^ 2 + d * u ^ 2 + u ^ 4) * b). replace (b' - u ^ 6 * b) with ((b' - d ^ 3 * b) - (u * u - d) * (d ^ 2 + d * u ^ 2 + u ^ 4) * b) by ring. rewrite Hb, Hu. ring.
    + right. exists d. split; [exact NR|]. split; [exists ka; exact Ha|exists kb; exact Hb].
  - intros [(u & _ & Ha & Hb)|(d & _ & Ha & Hb)].
    + apply (twist_same_j (u ^ 2) a b a' b' p E E' Pp NS NS' HC HC'); [replace ((u ^ 2) ^ 2) with (u ^ 4) by ring; exact Ha|replace ((u ^ 2) ^ 3) with (u ^ 6) by ring; exact Hb].
    + exact (twist_same_j d a b a' b' p E E' Pp NS NS' HC HC' Ha Hb).
Qed.
Example c126_case : elliptic 3 1 7 /\ ec_j_invariant (new_raw 3 1 7) = Ok 2 /\ twisted 7 3 3 1 6 6 /\ ec_j_invariant (new_raw 6 6 7) = Ok 2 /\ iso_curves 7 2 3 1 6 1 /\ ec_j_invariant (new_raw 6 1 7) = Ok 2 /\
  ec_j_invariant (new_raw 0 1 7) = Ok 0 /\ ec_j_invariant (new_raw 1 0 7) = Ok (1728 mod 7).
Proof.
  assert (P7 : prime 7) by (apply is_prime_spec; reflexivity). assert (N7 : nonsingular 3 1 7) by (intros (k & K); lia). assert (Q : 7 <> 2) by discriminate.
  split; [exact (conj P7 (conj Q N7))|]. split; [vm_compute; reflexivity|]. split.
  - split; [|split; [exists (-3); reflexivity|exists (-3); reflexivity]]. intros (y & D). apply Z.mod_divide in D; [|lia]. pose proof (Z.mod_pos_bound y 7 ltac:(lia)) as B.
    rewrite Zminus_mod, Z.mul_mod in D by lia. revert D. generalize dependent (y mod 7). intros m Hm. assert (C : m = 0 \/ m = 1 \/ m = 2 \/ m = 3 \/ m = 4 \/ m = 5 \/ m = 6) by lia.
    repeat (destruct C as [->|C]; [vm_compute; discriminate|]). rewrite C. vm_compute. discriminate.
  - split; [vm_compute; reflexivity|]. split; [split; [intros (k & K); lia|split; [exists (-6); reflexivity|exists (-9); reflexivity]]|]. repeat split; vm_compute; reflexivity.
Qed.
