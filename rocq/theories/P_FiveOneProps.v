(** Lemmas behind further property theorems of C122: the exceptions for q = 1 (mod 5) in terms of the roots of the fifth division polynomial. *)
From Coq Require Import Znumtheory ZifyBool.
From Verif Require Import Prelude M_Bigint M_Variable M_Term M_Poly M_DivPoly M_Curve M_Schoof Spec SpecCurve SpecTwist SpecSchoof SpecFive P_Bigint P_Variable P_DivVal P_Curve P_Curve2 P_Curve3 P_Curve4 P_CurveProps P_SeaProps P_SchoofProps P_SchoofDecProps P_FiveW P_FiveProps.
Open Scope Z_scope.

Lemma psi5z_at a b x : psi5z a b x = psi5_at a b x.
Proof. unfold psi5z, psi5_at. ring. Qed.
Lemma splits_z q a b : (exists l, length l = 12%nat /\ NoDup l /\ forall x, In x l -> 0 <= x < q /\ (q | psi5z a b x)) <-> psi5_splits a b q.
Proof. split; intros (l & H1 & H2 & H3); exists l; (split; [exact H1|split; [exact H2|]]); intros x Hx; [rewrite <- psi5z_at|rewrite psi5z_at]; apply H3, Hx. Qed.
(** C122: for w = 1 the last comparison modulo the fifth division polynomial of y^2 = x^3 + c x + b (c = a or the c = q of the code) says that this polynomial
    splits into distinct linear factors modulo q. *)
Lemma c122_split : forall a b c q, prime q -> 5 < q -> (w_matches c a b q 5 1 <-> psi5_splits c b q).
Proof. intros a b c q Pq Hq. rewrite (w_five Pq Hq a b c). apply splits_z. Qed.
Lemma splits_q b q : psi5_splits q b q <-> psi5_splits 0 b q.
Proof.
  assert (E : forall x, exists k, psi5_at q b x = psi5_at 0 b x + k * q).
  { intros x. exists (62 * x ^ 10 - 105 * q * x ^ 8 + 240 * b * x ^ 7 - 300 * q ^ 2 * x ^ 6 - 696 * q * b * x ^ 5 - (125 * q ^ 3 + 1920 * b ^ 2) * x ^ 4 - 80 * q ^ 2 * b * x ^ 3
      - (50 * q ^ 4 + 240 * q * b ^ 2) * x ^ 2 - (100 * q ^ 3 * b + 640 * b ^ 3) * x + q ^ 5 - 32 * q ^ 2 * b ^ 2). unfold psi5_at. ring. }
  split; intros (l & H1 & H2 & H3); exists l; (split; [exact H1|split; [exact H2|]]); intros x Hx; (split; [apply H3, Hx|]); destruct (proj2 (H3 x Hx)) as (z & D); destruct (E x) as (k & K); [exists (z - k)|exists (z + k)]; lia.
Qed.
(** C122: for q = 1 (mod 5) the residue for 5 is the trace t up to sign, except exactly when the fifth division polynomial of the curve splits modulo q, or
    5 divides t and the fifth division polynomial of the curve y^2 = x^3 + b splits modulo q. *)
Lemma c122_one_mod_five : forall fuel a b q E L r, elliptic a b q -> ec_new a b q = Ok E -> q mod 5 = 1 -> schoof fuel a b q = Ok L -> In (mkMod 5 r) L ->
  let t := q + 1 - cardinality E in
  ((5 | r - t) \/ (5 | r + t)) <-> ~ (psi5_splits a b q \/ ((5 | t) /\ psi5_splits 0 b q)).
Proof.
  intros fuel a b q E L r HEl HE M H I t. pose proof HEl as (Pq & _ & _). destruct (entry a b q Pq fuel L 5 r H I ltac:(lia)) as (_ & Hq & _).
  pose proof (c122_up_to_sign fuel a b q E L r HEl HE H I) as U. cbv zeta in U. fold t in U. rewrite U, <- (splits_q b q), <- (c122_split a b a q Pq Hq), <- (c122_split a b q q Pq Hq).
  pose proof (Z.div_mod q 5 ltac:(lia)) as Q. split; intros N B; apply N; destruct B as [B|(D & B)].
  - left. tauto.
  - right. split; [exact D|]. exists 1. split; [lia|]. split; [exists (- (q / 5)); lia|exact B].
  - left. tauto.
  - right. split; [exact D|]. destruct B as (w & Hw & (z & D') & B). assert (w = 1 \/ w = 2) as [-> | ->] by lia; [exact B|lia].
Qed.
(** C122: what happens in the first of these cases: the trace is 2 or -2 modulo 5 and the residue is 1 or -1. *)
Lemma c122_split_residue : forall fuel a b q E L r, elliptic a b q -> ec_new a b q = Ok E -> q mod 5 = 1 -> psi5_splits a b q -> schoof fuel a b q = Ok L -> In (mkMod 5 r) L ->
  let t := q + 1 - cardinality E in
  ((5 | t - 2) \/ (5 | t + 2)) /\ (r = 1 \/ r = 4).
Proof.
  intros fuel a b q E L r HEl HE M HS H I t. pose proof HEl as (Pq & _ & _). destruct (entry a b q Pq fuel L 5 r H I ltac:(lia)) as (_ & Hq & Hs).
  apply (c122_split a b a q Pq Hq) in HS. pose proof (Z.div_mod q 5 ltac:(lia)) as Q. assert (D1 : (5 | 1 ^ 2 - q)) by (exists (- (q / 5)); lia). split.
  - destruct (c122_scalar a b q E 1 HEl HE Hq ltac:(lia) D1 HS) as [(_ & _ & X)|(X & _)]; [exact X|lia].
  - assert (X1 : x_matches a b q 5 1). { apply (c122_match a b q E 1 HEl HE Hq ltac:(lia)). right. exists 1. split; [lia|]. split; [exact D1|exact HS]. }
    destruct (core a b q Pq fuel 5 _ (or_intror eq_refl) Hq Hs) as (_ & [(j & Hj & XM & XL & F)|(N & _)]); cbn [mr_r] in *; change ((5 - 1) / 2) with 2 in *; [|destruct (N 1 ltac:(lia) X1)].
    destruct (Z.eq_dec j 1) as [-> | Nj]; [lia|]. destruct (XL 1 ltac:(lia) X1).
Qed.
(** y^2 = x^3 + 5 over GF(31) has 39 points, trace -7, and its fifth division polynomial splits. *)
Example c122_case_split : exists E, elliptic 0 5 31 /\ ec_new 0 5 31 = Ok E /\ 31 mod 5 = 1 /\ 31 + 1 - cardinality E = -7 /\ psi5_splits 0 5 31.
Proof.
  assert (P : prime 31) by (apply is_prime_spec; reflexivity). assert (X : exists E, ec_new 0 5 31 = Ok E) by (vm_compute; eexists; reflexivity). destruct X as (E & HE). exists E.
  split; [split; [exact P|split; [lia|intros (z & D); lia]]|]. split; [exact HE|]. split; [reflexivity|]. split.
  - revert HE. vm_compute (ec_new 0 5 31). intros HE. match type of HE with Ok ?e = _ => assert (E = e) as -> by congruence end. vm_compute. reflexivity.
  - exists [1; 2; 5; 8; 9; 10; 11; 14; 19; 24; 25; 27]. split; [reflexivity|]. split.
    + repeat constructor; cbn [In]; lia.
    + intros x Hx. cbn [In] in Hx. repeat (destruct Hx as [<-|Hx]; [split; [lia|apply Z.mod_divide; [lia|reflexivity]]|]). destruct Hx.
Qed.
(** The second exception: y^2 = x^3 + 12 x + 5 over GF(31) has 27 points, trace 5. *)
Example c122_case_wrong_curve : exists E, elliptic 12 5 31 /\ ec_new 12 5 31 = Ok E /\ 31 mod 5 = 1 /\ (5 | 31 + 1 - cardinality E) /\ psi5_splits 0 5 31.
Proof.
  assert (P : prime 31) by (apply is_prime_spec; reflexivity). assert (X : exists E, ec_new 12 5 31 = Ok E) by (vm_compute; eexists; reflexivity). destruct X as (E & HE). exists E.
  split; [split; [exact P|split; [lia|intros (z & D); lia]]|]. split; [exact HE|]. split; [reflexivity|]. split.
  - revert HE. vm_compute (ec_new 12 5 31). intros HE. match type of HE with Ok ?e = _ => assert (E = e) as -> by congruence end. exists 1. vm_compute. reflexivity.
  - destruct c122_case_split as (_ & _ & _ & _ & _ & X). exact X.
Qed.
