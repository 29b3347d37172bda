(** Lemmas behind the property theorem C122: what schoof reports for l = 5. *)
From Coq Require Import Znumtheory ZifyBool.
From Verif Require Import Prelude M_Bigint M_Variable M_Term M_Poly M_DivPoly M_Curve M_Schoof Spec SpecCurve SpecTwist SpecSchoof P_Bigint P_Variable P_DivVal P_Curve P_Curve2 P_Curve3 P_Curve4 P_CurveProps P_SeaProps P_HasseZ P_HasseProps P_SchoofDecProps P_ThreeProps P_FiveZ.
Open Scope Z_scope.

Lemma five_T a b q E : elliptic a b q -> ec_new a b q = Ok E -> TZ q a b = q + 1 - cardinality E.
Proof. intros (Pq & _) HE. rewrite (card_zsols a b q E Pq HE). unfold TZ. lia. Qed.
(** C122: for l = 5 and j = 1, 2 schoof's comparison of x-coordinates succeeds exactly when j is the trace t of Frobenius modulo 5 up to sign, or when
    Frobenius acts on the points of order 5 as multiplication by a square root w of q modulo 5, up to sign. *)
Lemma c122_match : forall a b q E j, elliptic a b q -> ec_new a b q = Ok E -> 5 < q -> 1 <= j <= 2 ->
  let t := q + 1 - cardinality E in
  x_matches a b q 5 j <-> ((5 | t - j) \/ (5 | t + j)) \/ exists w, 1 <= w <= 2 /\ (5 | w ^ 2 - q) /\ w_matches a a b q 5 w.
Proof.
  intros a b q E j HEl HE Hq Hj t. pose proof HEl as (Pq & P2 & NS). pose proof (proj1 (five_Z Pq Hq NS) j Hj) as H. rewrite (five_T a b q E HEl HE) in H. fold t in H. rewrite H.
  assert (X : scalZ q a b <-> exists w, 1 <= w <= 2 /\ (5 | w ^ 2 - q) /\ w_matches a a b q 5 w); [|rewrite X; reflexivity].
  unfold scalZ. split; intros (w & W); exists w; replace (w ^ 2) with (w * w) in * by ring; exact W.
Qed.
(** C122: in the second case q is 1 and the trace is 2 modulo 5, or q is 4 and the trace is 1 modulo 5, the trace up to sign. *)
Lemma c122_scalar : forall a b q E w, elliptic a b q -> ec_new a b q = Ok E -> 5 < q -> 1 <= w <= 2 -> (5 | w ^ 2 - q) -> w_matches a a b q 5 w ->
  let t := q + 1 - cardinality E in
  (q mod 5 = 1 /\ w = 1 /\ ((5 | t - 2) \/ (5 | t + 2))) \/ (q mod 5 = 4 /\ w = 2 /\ ((5 | t - 1) \/ (5 | t + 1))).
Proof.
  intros a b q E w HEl HE Hq Hw D W t. pose proof HEl as (Pq & P2 & NS). pose proof (proj2 (five_Z Pq Hq NS)) as H. rewrite (five_T a b q E HEl HE) in H. fold t in H.
  replace (w ^ 2) with (w * w) in D by ring. specialize (H (ex_intro _ w (conj Hw (conj D W)))). pose proof (Z.div_mod q 5 ltac:(lia)) as Q. destruct D as (k & D).
  assert (w = 1 \/ w = 2) as [-> | ->] by lia; destruct H as [(M & H)|(M & H)]; rewrite M in Q; try lia; [left|right]; auto.
Qed.
Lemma five_q q : prime q -> 5 < q -> 1 <= q mod 5 <= 4.
Proof.
  intros Pq Hq. pose proof (Z.mod_pos_bound q 5 ltac:(lia)). enough (q mod 5 <> 0) by lia. intros Z0. apply Z.mod_divide in Z0; [|lia]. destruct (prime_divisors q Pq 5 Z0) as [|[|[|]]]; lia.
Qed.
Lemma five_t t : exists k s, t = 5 * k + s /\ 0 <= s < 5.
Proof. exists (t / 5), (t mod 5). pose proof (Z.div_mod t 5). pose proof (Z.mod_pos_bound t 5). lia. Qed.
Lemma div5 k s : (5 | 5 * k + s) <-> (5 | s).
Proof. split; intros (z & D); [exists (z - k)|exists (z + k)]; lia. Qed.
(** The exceptions. *)
Definition five_wrong (a b q t : Z) : Prop :=
  (q mod 5 = 1 /\ w_matches a a b q 5 1) \/ ((5 | t) /\ exists w, 1 <= w <= 2 /\ (5 | w ^ 2 - q) /\ w_matches q a b q 5 w).
Lemma five_sign : forall fuel a b q E L r, elliptic a b q -> ec_new a b q = Ok E -> schoof fuel a b q = Ok L -> In (mkMod 5 r) L ->
  let t := q + 1 - cardinality E in
  ((5 | r - t) \/ (5 | r + t)) <-> ~ five_wrong a b q t.
Proof.
  intros fuel a b q E L r HEl HE H I t. pose proof HEl as (Pq & P2 & NS). destruct (entry a b q Pq fuel L 5 r H I ltac:(lia)) as (_ & Hq & Hs).
  pose proof (fun j Hj => c122_match a b q E j HEl HE Hq Hj) as X. pose proof (fun w Hw D W => c122_scalar a b q E w HEl HE Hq Hw D W) as SC. cbv zeta in X, SC. fold t in X, SC.
  pose proof (five_q q Pq Hq) as Mq. pose proof (Z.div_mod q 5 ltac:(lia)) as Qd. destruct (five_t t) as (k & s & Et & Hs').
  assert (SQ : forall v, (v * v) mod 5 = q mod 5 <-> (5 | v ^ 2 - q)). { intros v. replace (v ^ 2) with (v * v) by ring. split; intros D; [apply mod_eq_divide in D; [exact D|lia]|apply mod_eq_divide; [lia|exact D]]. }
  assert (T0 : (5 | t) <-> s = 0) by (rewrite Et; split; [intros (z & D); lia|intros ->; exists k; lia]).
  assert (DM : forall u, (5 | t - u) <-> (5 | s - u)) by (intros u; rewrite Et; replace (5 * k + s - u) with (5 * k + (s - u)) by ring; apply div5).
  assert (DP : forall u, (5 | t + u) <-> (5 | s + u)) by (intros u; rewrite Et; replace (5 * k + s + u) with (5 * k + (s + u)) by ring; apply div5).
  assert (RM : (5 | r - t) <-> (5 | r - s)) by (rewrite Et; replace (r - (5 * k + s)) with (5 * (- k) + (r - s)) by ring; apply div5).
  assert (RP : (5 | r + t) <-> (5 | r + s)) by (rewrite Et; replace (r + (5 * k + s)) with (5 * k + (r + s)) by ring; apply div5).
  rewrite RM, RP. assert (X1 := X 1 ltac:(lia)). assert (X2 := X 2 ltac:(lia)). rewrite (DM 1), (DP 1) in X1. rewrite (DM 2), (DP 2) in X2.
  set (SC5 := exists w, 1 <= w <= 2 /\ (5 | w ^ 2 - q) /\ w_matches a a b q 5 w) in X1, X2.
  assert (SC' : SC5 -> (q mod 5 = 1 /\ w_matches a a b q 5 1 /\ (s = 2 \/ s = 3)) \/ (q mod 5 = 4 /\ (s = 1 \/ s = 4))).
  { intros (w & Hw & D & W). destruct (SC w Hw D W) as [(M & -> & C)|(M & -> & C)]; [left|right].
    - rewrite (DM 2), (DP 2) in C. split; [exact M|]. split; [exact W|]. destruct C as [(z & C)|(z & C)]; lia.
    - rewrite (DM 1), (DP 1) in C. split; [exact M|]. destruct C as [(z & C)|(z & C)]; lia. }
  assert (W1 : q mod 5 = 1 -> w_matches a a b q 5 1 -> SC5).
  { intros M W. exists 1. split; [lia|]. split; [|exact W]. exists (- (q / 5)). lia. }
  destruct (core a b q Pq fuel 5 _ (or_intror eq_refl) Hq Hs) as (_ & [(j & Hj & XM & XL & F)|(N & F)]); cbn [mr_r] in F; change ((5 - 1) / 2) with 2 in *.
  - assert (Rj : r = j \/ r = 5 - j) by tauto. clear F.
    assert (R1 : ((5 | r - s) \/ (5 | r + s)) <-> s = j \/ s = 5 - j).
    { destruct Rj as [-> | ->]; (split; [intros [(z & D)|(z & D)]; lia|]); intros [-> | ->]; solve [left; exists 0; lia|right; exists 1; lia|left; exists 1; lia|left; exists (-1); lia]. }
    rewrite R1. unfold five_wrong. rewrite T0. assert (j = 1 \/ j = 2) as [-> | ->] by lia.
    + split.
      * intros S1 [(M & W)|(S0 & _)]; [|lia]. destruct (SC' (W1 M W)) as [(_ & _ & B)|(M' & _)]; lia.
      * intros NW. apply X1 in XM. destruct XM as [[(z & D)|(z & D)]|B]; [lia|lia|]. destruct (SC' B) as [(M & W & _)|(_ & B')]; [exfalso; apply NW; left; split; assumption|lia].
    + assert (N1 : ~ x_matches a b q 5 1) by (apply XL; lia). rewrite X1 in N1. apply X2 in XM. split.
      * intros S2 [(M & W)|(S0 & _)]; [|lia]. apply N1. right. apply (W1 M W).
      * intros _. destruct XM as [[(z & D)|(z & D)]|B]; [lia|lia|exfalso; apply N1; right; exact B].
  - assert (N1 := N 1 ltac:(lia)). assert (N2 := N 2 ltac:(lia)). rewrite X1 in N1. rewrite X2 in N2.
    assert (S0 : s = 0).
    { assert (s = 0 \/ s = 1 \/ s = 2 \/ s = 3 \/ s = 4) as [S0|[-> |[-> |[-> | ->]]]] by lia; [exact S0|exfalso..].
      - apply N1. left. left. exists 0. lia.
      - apply N2. left. left. exists 0. lia.
      - apply N2. left. right. exists 1. lia.
      - apply N1. left. right. exists 1. lia. }
    assert (R1 : ((5 | r - s) \/ (5 | r + s)) <-> (5 | r)) by (rewrite S0, Z.sub_0_r, Z.add_0_r; tauto). rewrite R1.
    assert (NS5 : ~ SC5) by tauto.
    assert (U : forall w, 1 <= w <= 2 -> (5 | w ^ 2 - q) -> forall v, 1 <= v < w -> ~ (5 | v ^ 2 - q)).
    { intros w Hw (z & D) v Hv (z' & D'). assert (w = 2) as -> by lia. assert (v = 1) as -> by lia. lia. }
    unfold five_wrong. destruct F as [(R0 & NW)|(w & Hw & W & Lw & F)].
    + split; [|intros _; exists 0; lia]. intros _ [(M & W)|(_ & w & Hw & D & _)]; [exact (NS5 (W1 M W))|]. apply (NW w); [lia|]. apply SQ, D.
    + assert (Hw2 : 1 <= w <= 2).
      { destruct (Z_le_gt_dec w 2) as [|G]; [lia|exfalso]. assert (D : (5 | (5 - w) ^ 2 - q)). { apply SQ in W. destruct W as (z & D). exists (z + 5 - 2 * w). lia. } apply (Lw (5 - w)); [lia|]. apply SQ, D. }
      destruct F as [(R0 & NW)|(RW & MW)].
      * split; [|intros _; exists 0; lia]. intros _ [(M & W')|(_ & w' & Hw' & D & W')]; [exact (NS5 (W1 M W'))|].
        destruct (Z.eq_dec w' w) as [-> | Nw]; [tauto|]. apply SQ in W. destruct (Z_lt_le_dec w' w); [exact (U w Hw2 W w' ltac:(lia) D)|exact (U w' Hw' D w ltac:(lia) W)].
      * split; [intros (z & D); lia|]. intros NW. exfalso. apply NW. right. split; [apply T0, S0|]. exists w. split; [exact Hw2|]. split; [apply SQ, W|exact MW].
Qed.
(** C122: the residue for l = 5 is the trace t up to sign, except exactly when (q = 1 (mod 5) and Frobenius fixes the x-coordinates of the points of order 5)
    or (5 divides t, q = w^2 (mod 5) and the comparison with [w](x, y) that schoof makes modulo the division polynomial of y^2 = x^3 + q x + b succeeds). *)
Lemma c122_up_to_sign : forall fuel a b q E L r, elliptic a b q -> ec_new a b q = Ok E -> schoof fuel a b q = Ok L -> In (mkMod 5 r) L ->
  let t := q + 1 - cardinality E in
  ((5 | r - t) \/ (5 | r + t)) <->
  ~ ((q mod 5 = 1 /\ w_matches a a b q 5 1) \/ ((5 | t) /\ exists w, 1 <= w <= 2 /\ (5 | w ^ 2 - q) /\ w_matches q a b q 5 w)).
Proof. exact five_sign. Qed.
(** C122: in particular, for q = 2 or 3 (mod 5) the residue for 5 is the trace up to sign. *)
Lemma c122_nonresidue : forall fuel a b q E L r, elliptic a b q -> ec_new a b q = Ok E -> q mod 5 = 2 \/ q mod 5 = 3 -> schoof fuel a b q = Ok L -> In (mkMod 5 r) L ->
  (5 | r - (q + 1 - cardinality E)) \/ (5 | r + (q + 1 - cardinality E)).
Proof.
  intros fuel a b q E L r HEl HE M H I. apply (c122_up_to_sign fuel a b q E L r HEl HE H I). intros [(M' & _)|(_ & w & Hw & (z & D) & _)]; [lia|].
  pose proof (Z.div_mod q 5 ltac:(lia)) as Q. assert (w = 1 \/ w = 2) as [-> | ->] by lia; lia.
Qed.
(** C122: the same for q = 4 (mod 5) when 5 does not divide the trace. *)
Lemma c122_four : forall fuel a b q E L r, elliptic a b q -> ec_new a b q = Ok E -> q mod 5 = 4 -> ~ (5 | q + 1 - cardinality E) -> schoof fuel a b q = Ok L -> In (mkMod 5 r) L ->
  (5 | r - (q + 1 - cardinality E)) \/ (5 | r + (q + 1 - cardinality E)).
Proof.
  intros fuel a b q E L r HEl HE M D H I. apply (c122_up_to_sign fuel a b q E L r HEl HE H I). intros [(M' & _)|(D' & _)]; [lia|tauto].
Qed.
(** C122: if the residue for 5 is 0 the trace is a multiple of 5. *)
Lemma c122_zero : forall fuel a b q E L, elliptic a b q -> ec_new a b q = Ok E -> schoof fuel a b q = Ok L -> In (mkMod 5 0) L -> (5 | q + 1 - cardinality E).
Proof.
  intros fuel a b q E L HEl HE H I. pose proof HEl as (Pq & P2 & NS). destruct (entry a b q Pq fuel L 5 0 H I ltac:(lia)) as (_ & Hq & _).
  destruct (proj1 (c116_zero fuel a b q L 5 0 Pq H I ltac:(lia)) eq_refl) as (N & _). change ((5 - 1) / 2) with 2 in N. destruct (five_t (q + 1 - cardinality E)) as (k & s & Et & Hs).
  assert (s = 0 \/ s = 1 \/ s = 2 \/ s = 3 \/ s = 4) as [-> |[-> |[-> |[-> | ->]]]] by lia; [exists k; lia|exfalso..];
    solve [apply (N 1 ltac:(lia)), (c122_match a b q E 1 HEl HE Hq ltac:(lia)); left; solve [left; exists k; lia|right; exists (k + 1); lia]|apply (N 2 ltac:(lia)), (c122_match a b q E 2 HEl HE Hq ltac:(lia)); left; solve [left; exists k; lia|right; exists (k + 1); lia]].
Qed.
(** C122: for q = 2 (mod 3) and q = 2, 3 (mod 5) both odd residues are the trace up to sign. *)
Lemma c122_both : forall fuel a b q E L l r, elliptic a b q -> ec_new a b q = Ok E -> q mod 3 = 2 -> q mod 5 = 2 \/ q mod 5 = 3 -> schoof fuel a b q = Ok L ->
  In (mkMod l r) L -> l <> 2 -> (l | r - (q + 1 - cardinality E)) \/ (l | r + (q + 1 - cardinality E)).
Proof.
  intros fuel a b q E L l r HEl HE M3 M5 H I Nl. pose proof (proj1 (c68_residues fuel a b q L H)) as ML. pose proof (in_map mr_l _ _ I) as IL. rewrite ML in IL. cbn [mr_l] in IL.
  assert (l = 3 \/ l = 5) as [-> | ->] by (destruct (q <=? 3), (q <=? 5); cbn in IL; lia).
  - exact (c121_two_mod_three fuel a b q E L r HEl HE M3 H I).
  - exact (c122_nonresidue fuel a b q E L r HEl HE M5 H I).
Qed.
(** y^2 = x^3 + x + 4 over GF(7) has 10 points: the trace is -2 and the comparison succeeds for j = 2 only. *)
Example c122_case : exists E, elliptic 1 4 7 /\ ec_new 1 4 7 = Ok E /\ 7 mod 5 = 2 /\ 7 + 1 - cardinality E = -2 /\ x_matches 1 4 7 5 2 /\ ~ x_matches 1 4 7 5 1.
Proof.
  assert (P7 : prime 7) by (apply is_prime_spec; reflexivity). destruct (ec_new 1 4 7) as [E| |] eqn:HE; [|discriminate|discriminate]. exists E.
  assert (HEl : elliptic 1 4 7) by (split; [exact P7|split; [lia|intros (z & D); lia]]).
  assert (T : 7 + 1 - cardinality E = -2). { pose proof HE as HE'. revert HE'. vm_compute (ec_new 1 4 7). intros HE'. match type of HE' with Ok ?e = _ => assert (E = e) as -> by congruence end. reflexivity. }
  split; [exact HEl|]. split; [reflexivity|]. split; [reflexivity|]. split; [exact T|]. split.
  - apply (c122_match 1 4 7 E 2 HEl HE ltac:(lia) ltac:(lia)). rewrite T. left. right. exists 0. reflexivity.
  - intros X. apply (c122_match 1 4 7 E 1 HEl HE ltac:(lia) ltac:(lia)) in X. rewrite T in X. destruct X as [[(z & D)|(z & D)]|(w & Hw & (z & D) & _)]; [lia|lia|]. assert (w = 1 \/ w = 2) as [-> | ->] by lia; lia.
Qed.
(** C78, the part that holds for l = 5 in general: the residue is the trace modulo 5 up to sign, with the exceptions of C122. *)
Lemma c78_five_partial : forall fuel a b q E L r, elliptic a b q -> ec_new a b q = Ok E -> schoof fuel a b q = Ok L -> In (mkMod 5 r) L ->
  ((5 | r - (q + 1 - cardinality E)) \/ (5 | r + (q + 1 - cardinality E))) <->
  ~ ((q mod 5 = 1 /\ w_matches a a b q 5 1) \/ ((5 | q + 1 - cardinality E) /\ exists w, 1 <= w <= 2 /\ (5 | w ^ 2 - q) /\ w_matches q a b q 5 w)).
Proof. exact c122_up_to_sign. Qed.
