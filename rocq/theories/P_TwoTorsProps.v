(** Lemmas behind C125 (points of order 2, the discriminant, and torsion as a divisor of the cardinality). *)
From Coq Require Import Znumtheory Zpow_facts ZifyBool Permutation.
From Verif Require Import Prelude M_Bigint M_Variable M_Term M_Poly M_DivPoly M_Curve Spec SpecCurve P_Bigint P_Variable P_Group P_Fp P_Curve P_Curve2 P_Curve3 P_Curve4 P_CurveProps P_HasseProps P_Euler P_AbGroup P_Torsion P_TorsionProps P_TorsCount P_Cubic P_TwoTors.
Open Scope Z_scope.

Lemma two_list a b p E L : elliptic a b p -> ec_new a b p = Ok E -> division_points E 2 = Ok L ->
  NoDup L /\ forall P, In P L <-> In P (ec_points E) /\ ec_mult a p (affine p P) 2 None.
Proof.
  intros HEl HE HL. destruct (c64_exact a b p E 2 HEl HE ltac:(lia)) as (L' & E' & N & H); [right; exists 1; split; [lia|reflexivity]|].
  assert (L' = L) as -> by congruence. split; [exact N|exact H].
Qed.
Lemma the_roots a b p : exists R, NoDup R /\ forall x, In x R <-> 0 <= x < p /\ (p | x * x * x + a * x + b).
Proof.
  exists (filter (fun x => if Zdivide_dec p (x * x * x + a * x + b) then true else false) (zrange 0 p)). split; [apply NoDup_filter, NoDup_zrange|].
  intros x. rewrite filter_In, in_zrange. destruct (Zdivide_dec p (x * x * x + a * x + b)); intuition congruence.
Qed.
(** C125: division_points(2) lists the point at infinity and one point for every root of x^3 + a x + b modulo p. *)
Lemma c125_roots : forall a b p E L R, elliptic a b p -> ec_new a b p = Ok E -> division_points E 2 = Ok L ->
  NoDup R -> (forall x, In x R <-> 0 <= x < p /\ (p | x ^ 3 + a * x + b)) -> Z.of_nat (length L) = 1 + Z.of_nat (length R).
Proof.
  intros a b p E L R HEl HE HL NR HR. destruct (two_list a b p E L HEl HE HL) as (NL & IL).
  apply (two_len a b p E L R HEl HE NL IL NR). intros x. rewrite HR. replace (x ^ 3) with (x * x * x) by ring. reflexivity.
Qed.
(** C125: when - (4 a^3 + 27 b^2) is a square modulo p, division_points(2) has 1 or 4 entries, otherwise exactly 2. *)
Lemma c125_discriminant : forall a b p E L, elliptic a b p -> ec_new a b p = Ok E -> division_points E 2 = Ok L ->
  ((exists s, (p | s ^ 2 + (4 * a ^ 3 + 27 * b ^ 2))) <-> length L = 1%nat \/ length L = 4%nat) /\
  ((~ exists s, (p | s ^ 2 + (4 * a ^ 3 + 27 * b ^ 2))) <-> length L = 2%nat).
Proof.
  intros a b p E L HEl HE HL. destruct (two_list a b p E L HEl HE HL) as (NL & IL). destruct (the_roots a b p) as (R & NR & HR).
  pose proof (two_len a b p E L R HEl HE NL IL NR HR) as LL.
  assert (DS : (exists s, (p | s ^ 2 + (4 * a ^ 3 + 27 * b ^ 2))) <-> discsq a b p).
  { unfold discsq. split; intros (s & Hs); exists s; [replace (s * s + (4 * (a * a * a) + 27 * (b * b))) with (s ^ 2 + (4 * a ^ 3 + 27 * b ^ 2)) by ring|replace (s ^ 2 + (4 * a ^ 3 + 27 * b ^ 2)) with (s * s + (4 * (a * a * a) + 27 * (b * b))) by ring]; exact Hs. }
  rewrite DS. destruct (root_count a b p HEl R NR HR) as [(D & C)|(D & C)]; split; split; intros K; try tauto; try lia.
Qed.
(** C125: so, when - (4 a^3 + 27 b^2) is not a square, cardinality() is even; when it is one, cardinality() is odd or divisible by 4. *)
Lemma c125_cardinality : forall a b p E, elliptic a b p -> ec_new a b p = Ok E ->
  ((exists s, (p | s ^ 2 + (4 * a ^ 3 + 27 * b ^ 2))) -> ~ (2 | cardinality E) \/ (4 | cardinality E)) /\
  ((~ exists s, (p | s ^ 2 + (4 * a ^ 3 + 27 * b ^ 2))) -> (2 | cardinality E)).
Proof.
  intros a b p E HEl HE. pose proof HEl as (Pp & _). pose proof (prime_ge_2 p Pp).
  destruct (c64_exact a b p E 2 HEl HE ltac:(lia)) as (L & HL & NL & IL); [right; exists 1; split; [lia|reflexivity]|].
  pose proof (tors_divides a b p E 2 L HEl HE ltac:(lia) NL IL) as D. destruct (c125_discriminant a b p E L HEl HE HL) as (D1 & D2). split.
  - intros X. apply D1 in X. destruct X as [X|X]; [left|right; rewrite X in D; exact D].
    intros E2. apply (c88_parity a b p E HEl HE) in E2. destruct E2 as (x & Dx).
    destruct (the_roots a b p) as (R & NR & HR). pose proof (two_len a b p E L R HEl HE NL IL NR HR) as LL.
    assert (I : In (x mod p) R).
    { apply HR. split; [apply Z.mod_pos_bound; lia|]. destruct (mod_sub a b p HEl x) as (k & Hk). replace (x mod p) with (x - k * p) by lia. replace (x ^ 3) with (x * x * x) in Dx by ring.
      destruct Dx as (m & Hm). exists (m - k * (3 * x * x - 3 * x * (k * p) + k * p * (k * p) + a)). replace b with (m * p - x * x * x - a * x) by lia. ring. }
    destruct R; [destruct I|]. cbn [length] in LL. lia.
  - intros X. apply D2 in X. rewrite X in D. exact D.
Qed.
(** C125: the number of n-torsion points divides cardinality(), for every n >= 1; ... *)
Lemma c125_torsion_divides : forall a b p E n L, elliptic a b p -> ec_new a b p = Ok E -> 1 <= n -> NoDup L ->
  (forall P, In P L <-> In P (ec_points E) /\ ec_mult a p (affine p P) (Z.to_nat n) None) -> (Z.of_nat (length L) | cardinality E).
Proof. exact tors_divides. Qed.
(** C125: ... so does the length of division_points(n) when cardinality() is odd or n is a power of two. *)
Lemma c125_division_points : forall a b p E n L, elliptic a b p -> ec_new a b p = Ok E -> 1 <= n ->
  ~ (2 | cardinality E) \/ (exists k, 0 <= k /\ n = 2 ^ k) -> division_points E n = Ok L -> (Z.of_nat (length L) | cardinality E).
Proof.
  intros a b p E n L HEl HE Hn HC HL. destruct (c64_exact a b p E n HEl HE Hn) as (L' & E' & N & H).
  - destruct HC as [HC|HC]; [left|right; exact HC]. intros P IP O. apply HC. rewrite (i_card p E). change 2 with (Z.of_nat 2). apply divide_Z.
    destruct (i_listed a b p E HEl HE P IP) as (On & _).
    apply (ord_divides apoint (esum a p (proj1 HEl)) None (ec_neg p) (on_curve a b p) apdec (map (affine p) (ec_points E)) I (i_op a b p HEl) (i_inv a b p HEl) (i_comm a b p HEl) (i_assoc a b p HEl) (i_el a b p HEl) (i_inv_l a b p HEl) (i_nodup a b p E HE) (i_in a b p E HE) (affine p P) 2%nat On).
    apply (i_order a b p E HEl HE); [exact On|exact O].
  - assert (L' = L) as -> by congruence. exact (tors_divides a b p E n L HEl HE Hn N H).
Qed.
(** Over GF(5): y^2 = x^3 + x + 1 (discriminant 4 = 2^2, no root, 9 points), y^2 = x^3 + x (discriminant 1, three roots, 4 points) and y^2 = x^3 + 1 (discriminant 3, not a square, one root, 6 points). *)
Example c125_case : exists E1 E2 E3, ec_new 1 1 5 = Ok E1 /\ ec_new 1 0 5 = Ok E2 /\ ec_new 0 1 5 = Ok E3 /\
  (exists L, division_points E1 2 = Ok L /\ length L = 1%nat) /\ (exists L, division_points E2 2 = Ok L /\ length L = 4%nat) /\ (exists L, division_points E3 2 = Ok L /\ length L = 2%nat) /\
  cardinality E1 = 9 /\ cardinality E2 = 4 /\ cardinality E3 = 6 /\ (5 | 2 ^ 2 + (4 * 1 ^ 3 + 27 * 1 ^ 2)) /\ (5 | 1 ^ 2 + (4 * 1 ^ 3 + 27 * 0 ^ 2)) /\
  (forall s, ~ (5 | s ^ 2 + (4 * 0 ^ 3 + 27 * 1 ^ 2))) /\ elliptic 1 1 5 /\ elliptic 1 0 5 /\ elliptic 0 1 5.
Proof.
  assert (X : forall a b n c, match ec_new a b 5 with Ok E => match division_points E 2 with Ok L => (length L, cardinality E) | _ => (0%nat, 0) end | _ => (0%nat, 0) end = (n, c) -> c <> 0 ->
    exists E, ec_new a b 5 = Ok E /\ (exists L, division_points E 2 = Ok L /\ length L = n) /\ cardinality E = c).
  { intros a b n c Q C. destruct (ec_new a b 5) as [E| |]; try congruence. exists E. split; [reflexivity|]. destruct (division_points E 2) as [L| |]; try congruence. injection Q as <- <-. split; [exists L; split; reflexivity|reflexivity]. }
  assert (X1 := X 1 1 1%nat 9 ltac:(vm_compute; reflexivity) ltac:(discriminate)). assert (X2 := X 1 0 4%nat 4 ltac:(vm_compute; reflexivity) ltac:(discriminate)). assert (X3 := X 0 1 2%nat 6 ltac:(vm_compute; reflexivity) ltac:(discriminate)). clear X.
  destruct X1 as (E1 & A1 & B1 & C1), X2 as (E2 & A2 & B2 & C2), X3 as (E3 & A3 & B3 & C3). exists E1, E2, E3.
  assert (Q : forall s, ~ (5 | s ^ 2 + (4 * 0 ^ 3 + 27 * 1 ^ 2))).
  { intros s D. apply Z.mod_divide in D; [|lia]. pose proof (Z.mod_pos_bound s 5 ltac:(lia)) as B. rewrite Z.add_mod, Zpower_mod in D by lia. revert D. generalize dependent (s mod 5). intros m Hm.
    assert (C : m = 0 \/ m = 1 \/ m = 2 \/ m = 3 \/ m = 4) by lia. destruct C as [->|[->|[->|[->| ->]]]]; vm_compute; discriminate. }
  assert (N1 : nonsingular 1 1 5) by (intros (k & K); lia). assert (N2 : nonsingular 1 0 5) by (intros (k & K); lia). assert (N3 : nonsingular 0 1 5) by (intros (k & K); lia).
  repeat (split; [assumption|]). split; [exists 7; reflexivity|]. split; [exists 1; reflexivity|]. split; [exact Q|]. assert (P5 : prime 5) by (apply is_prime_spec; reflexivity). assert (P2 : 5 <> 2) by discriminate. exact (conj (conj P5 (conj P2 N1)) (conj (conj P5 (conj P2 N2)) (conj P5 (conj P2 N3)))).
Qed.
