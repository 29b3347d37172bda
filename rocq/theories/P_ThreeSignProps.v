(** Lemmas behind the property theorem C123: the residue schoof reports for l = 3, including its sign. *)
From Coq Require Import Znumtheory ZifyBool.
From Verif Require Import Prelude M_Bigint M_Variable M_Term M_Poly M_DivPoly M_Curve M_Schoof Spec SpecCurve SpecTwist SpecSchoof SpecThree P_Bigint P_Variable P_DivVal P_Curve P_Curve2 P_Curve3 P_Curve4 P_CurveProps P_SeaProps P_HasseZ P_HasseProps P_SchoofDecProps P_ThreeProps P_ThreeSign2.
Open Scope Z_scope.

Lemma three_T a b q E : elliptic a b q -> ec_new a b q = Ok E -> T3 q a b = q + 1 - cardinality E.
Proof. intros (Pq & _) HE. rewrite (card_zsols a b q E Pq HE). unfold T3. lia. Qed.
(** C123: the comparison of y-coordinates that schoof.rs performs for l = 3 and j = 1, when 3 does not divide the trace t: never successful for q = 2 (mod 3);
    for q = 1 (mod 3) successful exactly if the third division polynomial splits into distinct linear factors modulo q or t = 1 (mod 3) and q | a. *)
Lemma c123_match : forall a b q E, elliptic a b q -> ec_new a b q = Ok E -> 3 < q ->
  let t := q + 1 - cardinality E in
  ~ (3 | t) -> (y_matches (-1) a b q 3 1 <-> q mod 3 = 1 /\ (psi3_splits a b q \/ ((3 | t - 1) /\ (q | a)))).
Proof.
  intros a b q E HEl HE Hq t Ht. pose proof HEl as (Pq & P2 & NS). destruct (sign_three Pq Hq NS) as (S2 & S1m & S1p). rewrite (three_T a b q E HEl HE) in S2, S1m, S1p. fold t in S2, S1m, S1p.
  destruct (three_cases q Pq Hq) as [M|M].
  - assert (D : (3 | t + 1) \/ (3 | t - 1)).
    { pose proof (Z.div_mod t 3 ltac:(lia)). pose proof (Z.mod_pos_bound t 3 ltac:(lia)). destruct (Z.eq_dec (t mod 3) 0) as [Z0|N0]; [exfalso; apply Ht; exists (t / 3); lia|]. destruct (Z.eq_dec (t mod 3) 1) as [Z1|N1]; [right; exists (t / 3); lia|left; exists (t / 3 + 1); lia]. }
    destruct D as [D|D].
    + rewrite (S1m M D). split; [intros X; split; [exact M|left; exact X]|]. intros (_ & [X|((z & X) & _)]); [exact X|]. destruct D as (z' & D). lia.
    + rewrite (S1p M D). split; [intros X; split; [exact M|destruct X as [X|X]; [left; exact X|right; split; [exact D|exact X]]]|]. intros (_ & [X|(_ & X)]); [left|right]; exact X.
  - split; [intros X; destruct (S2 M Ht X)|intros (M' & _); lia].
Qed.
(** C123: the residue for 3 when 3 does not divide the trace t: it is 1 exactly if q = 1 (mod 3) and either the third division polynomial splits into distinct
    linear factors modulo q or t = 1 (mod 3) and q | a; otherwise it is 2. *)
Lemma c123_residue : forall fuel a b q E L r, elliptic a b q -> ec_new a b q = Ok E -> schoof fuel a b q = Ok L -> In (mkMod 3 r) L ->
  let t := q + 1 - cardinality E in
  ~ (3 | t) ->
  (r = 1 <-> q mod 3 = 1 /\ (psi3_splits a b q \/ ((3 | t - 1) /\ (q | a)))) /\
  (r = 2 <-> ~ (q mod 3 = 1 /\ (psi3_splits a b q \/ ((3 | t - 1) /\ (q | a))))).
Proof.
  intros fuel a b q E L r HEl HE H I t Ht. pose proof HEl as (Pq & _ & _). destruct (entry a b q Pq fuel L 3 r H I ltac:(lia)) as (_ & Hq & _).
  pose proof (c123_match a b q E HEl HE Hq Ht) as Y. pose proof (proj2 (c121_match a b q E HEl HE Hq) Ht) as X.
  destruct (c117_sign_partial fuel a b q L 3 r 1 Pq H I ltac:(lia) ltac:(change ((3 - 1) / 2) with 1; lia) X ltac:(lia)) as (R1 & R2).
  change (3 - 1) with 2 in R2. fold t in Y. rewrite R1, R2, Y. tauto.
Qed.
(** C123: exactly when the residue for 3 is the trace modulo 3. *)
Lemma c123_exact : forall fuel a b q E L r, elliptic a b q -> ec_new a b q = Ok E -> schoof fuel a b q = Ok L -> In (mkMod 3 r) L ->
  let t := q + 1 - cardinality E in
  (3 | r - t) <->
  ((3 | t) /\ ~ (q mod 3 = 1 /\ exists c, ~ (q | c) /\ (q | c * c * c + 4 * b))) \/
  ((3 | t - 1) /\ q mod 3 = 1 /\ (psi3_splits a b q \/ (q | a))) \/
  ((3 | t - 2) /\ ~ (q mod 3 = 1 /\ psi3_splits a b q)).
Proof.
  intros fuel a b q E L r HEl HE H I t. destruct (c121_residue fuel a b q E L r HEl HE H I) as (B & R1 & R2 & R3). fold t in R1, R2, R3. pose proof HEl as (Pq & _).
  destruct (entry a b q Pq fuel L 3 r H I ltac:(lia)) as (_ & Hq & _). pose proof (three_cases q Pq Hq) as M.
  assert (T : exists k s, t = 3 * k + s /\ 0 <= s < 3) by (exists (t / 3), (t mod 3); pose proof (Z.div_mod t 3); pose proof (Z.mod_pos_bound t 3); lia).
  destruct T as (k & s & Et & Hs).
  assert (D0 : (3 | t) <-> s = 0) by (rewrite Et; split; [intros (z & D); lia|intros ->; exists k; lia]).
  assert (D1 : (3 | t - 1) <-> s = 1) by (rewrite Et; split; [intros (z & D); lia|intros ->; exists k; lia]).
  assert (D2 : (3 | t - 2) <-> s = 2) by (rewrite Et; split; [intros (z & D); lia|intros ->; exists k; lia]).
  assert (DR : (3 | r - t) <-> r = s) by (rewrite Et; split; [intros (z & D); lia|intros ->; exists (- k); lia]).
  rewrite D0, D1, D2, DR. destruct (Z.eq_dec s 0) as [S0|S0].
  - apply D0 in S0. destruct M as [M|M].
    + specialize (R3 S0 M). apply D0 in S0. split; [intros ->; left; split; [exact S0|intros (_ & X)]; apply (proj1 R3 S0 X)|]. intros [(_ & X)|[(X & _)|(X & _)]]; try lia. rewrite S0. apply R3. intros Y. apply X. split; [exact M|exact Y].
    + specialize (R2 S0 M). apply D0 in S0. split; [intros _; left; split; [exact S0|lia]|lia].
  - assert (Nt : ~ (3 | t)) by (rewrite D0; exact S0). destruct (c123_residue fuel a b q E L r HEl HE H I Nt) as (Q1 & Q2). fold t in Q1, Q2. rewrite D1 in Q1, Q2.
    assert (s = 1 \/ s = 2) as [-> | ->] by lia.
    + rewrite Q1. split; [intros (X & Y); right; left; split; [reflexivity|split; [exact X|tauto]]|]. intros [(X & _)|[(_ & X & Y)|(X & _)]]; [lia| |lia]. split; [exact X|tauto].
    + rewrite Q2. split; [intros X; right; right; split; [reflexivity|intros (Y & Y'); apply X; split; [exact Y|left; exact Y']]|]. intros [(X & _)|[(X & _)|(_ & X)]]; [lia|lia|]. intros (Y & [Y'|(Y' & _)]); [apply X; split; assumption|lia].
Qed.
(** C123: in particular, for q = 2 (mod 3) the residue for 3 is the trace modulo 3 unless the trace is 1 modulo 3; then it is 2. *)
Lemma c123_two_mod_three : forall fuel a b q E L r, elliptic a b q -> ec_new a b q = Ok E -> q mod 3 = 2 -> schoof fuel a b q = Ok L -> In (mkMod 3 r) L ->
  let t := q + 1 - cardinality E in
  ((3 | r - t) <-> ~ (3 | t - 1)) /\ ((3 | t - 1) -> r = 2).
Proof.
  intros fuel a b q E L r HEl HE M H I t. pose proof (c123_exact fuel a b q E L r HEl HE H I) as X. cbv zeta in X. fold t in X. split.
  - rewrite X. split; [intros [((z & D) & _)|[(_ & D & _)|((z & D) & _)]] (z' & D'); lia|]. intros N.
    assert (T : exists k s, t = 3 * k + s /\ 0 <= s < 3) by (exists (t / 3), (t mod 3); pose proof (Z.div_mod t 3); pose proof (Z.mod_pos_bound t 3); lia). destruct T as (k & s & Et & Hs).
    assert (s = 0 \/ s = 1 \/ s = 2) as [S0|[S0|S0]] by lia; subst s.
    + left. split; [exists k; lia|lia].
    + exfalso. apply N. exists k. lia.
    + right; right. split; [exists k; lia|lia].
  - intros (z & D). assert (Nt : ~ (3 | t)) by (intros (z' & D'); lia). apply (proj2 (c123_residue fuel a b q E L r HEl HE H I Nt)). lia.
Qed.
(** q = 2 (mod 3): over GF(5), y^2 = x^3 + x has trace 2 and the residue 2 is right; y^2 = x^3 + 2 x has trace 4 = 1 (mod 3) and the residue 2 is wrong. *)
Example c123_case : exists E E', elliptic 1 0 5 /\ ec_new 1 0 5 = Ok E /\ 5 + 1 - cardinality E = 2 /\ schoof 40 1 0 5 = Ok [mkMod 2 1; mkMod 3 2] /\
  elliptic 2 0 5 /\ ec_new 2 0 5 = Ok E' /\ 5 + 1 - cardinality E' = 4 /\ exists L, schoof 80 2 0 5 = Ok L /\ In (mkMod 3 2) L.
Proof.
  assert (P : prime 5) by (apply is_prime_spec; reflexivity).
  assert (X : exists E, ec_new 1 0 5 = Ok E) by (vm_compute; eexists; reflexivity). destruct X as (E & HE).
  assert (X : exists E, ec_new 2 0 5 = Ok E) by (vm_compute; eexists; reflexivity). destruct X as (E' & HE'). exists E, E'.
  split; [split; [exact P|split; [lia|intros (z & D); lia]]|]. split; [exact HE|]. split; [|split; [exact c68_case|split; [split; [exact P|split; [lia|intros (z & D); lia]]|split; [exact HE'|split]]]].
  - revert HE. vm_compute (ec_new 1 0 5). intros HE. match type of HE with Ok ?e = _ => assert (E = e) as -> by congruence end. vm_compute. reflexivity.
  - clear HE. revert HE'. vm_compute (ec_new 2 0 5). intros HE. match type of HE with Ok ?e = _ => assert (E' = e) as -> by congruence end. vm_compute. reflexivity.
  - destruct c116_case as (L & H & I & _). exists L. split; assumption.
Qed.
(** q = 1 (mod 3): y^2 = x^3 + 2 over GF(7) has 9 points, trace -1, and its third division polynomial splits: the residue 1 is wrong. *)
Example c123_case_split : exists E, elliptic 0 2 7 /\ ec_new 0 2 7 = Ok E /\ 7 mod 3 = 1 /\ 7 + 1 - cardinality E = -1 /\ psi3_splits 0 2 7.
Proof.
  assert (P : prime 7) by (apply is_prime_spec; reflexivity). assert (X : exists E, ec_new 0 2 7 = Ok E) by (vm_compute; eexists; reflexivity). destruct X as (E & HE). exists E.
  split; [split; [exact P|split; [lia|intros (z & D); lia]]|]. split; [exact HE|]. split; [reflexivity|]. split.
  - revert HE. vm_compute (ec_new 0 2 7). intros HE. match type of HE with Ok ?e = _ => assert (E = e) as -> by congruence end. vm_compute. reflexivity.
  - exists [0; 3; 5; 6]. split; [reflexivity|]. split.
    + repeat constructor; cbn [In]; lia.
    + intros x Hx. cbn [In] in Hx. repeat (destruct Hx as [<-|Hx]; [split; [lia|apply Z.mod_divide; [lia|reflexivity]]|]). destruct Hx.
Qed.
(** y^2 = x^3 + 3 over GF(7) has 13 points, trace -5 = 1 (mod 3), and q | a: the residue 1 is right. *)
Example c123_case_zero : exists E, elliptic 0 3 7 /\ ec_new 0 3 7 = Ok E /\ 7 mod 3 = 1 /\ 7 + 1 - cardinality E = -5 /\ (3 | -5 - 1) /\ (7 | 0).
Proof.
  assert (P : prime 7) by (apply is_prime_spec; reflexivity). assert (X : exists E, ec_new 0 3 7 = Ok E) by (vm_compute; eexists; reflexivity). destruct X as (E & HE). exists E.
  split; [split; [exact P|split; [lia|intros (z & D); lia]]|]. split; [exact HE|]. split; [reflexivity|]. split; [|split; [exists (-2); lia|exists 0; lia]].
  revert HE. vm_compute (ec_new 0 3 7). intros HE. match type of HE with Ok ?e = _ => assert (E = e) as -> by congruence end. vm_compute. reflexivity.
Qed.
(** C78 for l = 3, the sign included: exactly when the residue is the trace modulo 3. *)
Lemma c78_three_exact_partial : forall fuel a b q E L r, elliptic a b q -> ec_new a b q = Ok E -> schoof fuel a b q = Ok L -> In (mkMod 3 r) L ->
  let t := q + 1 - cardinality E in
  (3 | r - t) <->
  ((3 | t) /\ ~ (q mod 3 = 1 /\ exists c, ~ (q | c) /\ (q | c * c * c + 4 * b))) \/
  ((3 | t - 1) /\ q mod 3 = 1 /\ (psi3_splits a b q \/ (q | a))) \/
  ((3 | t - 2) /\ ~ (q mod 3 = 1 /\ psi3_splits a b q)).
Proof. exact c123_exact. Qed.
