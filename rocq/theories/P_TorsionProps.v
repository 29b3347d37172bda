(** C100, C101: torsion points and the structure of the group of points. *)
From Coq Require Import Znumtheory ZifyBool.
From Verif Require Import Prelude M_Bigint M_Variable M_Term M_Poly M_DivPoly M_Curve Spec SpecCurve P_Bigint P_Variable P_Group P_Fp P_Curve P_Curve2 P_Curve3 P_Curve4 P_CurveProps P_HasseProps P_AbGroup P_Torsion.
Open Scope Z_scope.

Section Inst.
Variables (a b p : Z) (E : curve).
Hypothesis HEl : elliptic a b p.
Hypothesis HE : ec_new a b p = Ok E.
Let Pp : prime p := proj1 HEl.
Let P2 : p <> 2 := proj1 (proj2 HEl).
Let NS : nonsingular a b p := proj2 (proj2 HEl).
Definition apdec (x y : apoint) : {x = y} + {x <> y}.
Proof. decide equality. decide equality; apply Z.eq_dec. Defined.
Let op := esum a p Pp.
Let on := on_curve a b p.
Let G := map (affine p) (ec_points E).
Lemma i_e : on None. Proof. exact I. Qed.
Lemma i_op x y : on x -> on y -> on (op x y). Proof. apply (esum_on a b p Pp P2). Qed.
Lemma i_inv x : on x -> on (ec_neg p x). Proof. apply (eneg_on a b p Pp P2). Qed.
Lemma i_comm x y : on x -> on y -> op x y = op y x. Proof. apply (esum_comm a b p Pp P2). Qed.
Lemma i_assoc x y z : on x -> on y -> on z -> op (op x y) z = op x (op y z). Proof. apply (esum_assoc a b p Pp P2 NS). Qed.
Lemma i_el x : on x -> op None x = x. Proof. intros H. apply (esum_0_l a p Pp). apply (on_canon a b p), H. Qed.
Lemma i_inv_l x : on x -> op (ec_neg p x) x = None.
Proof. intros H. rewrite i_comm by (auto; apply i_inv, H). apply (esum_neg a b p Pp P2), H. Qed.
Lemma i_nodup : NoDup G. Proof. apply (points_affine a b p E HE). Qed.
Lemma i_in x : In x G <-> on x. Proof. apply (points_affine a b p E HE). Qed.
Lemma i_mul n x : mul apoint op None n x = emul a p Pp n x.
Proof. induction n as [|n IH]; [reflexivity|]. cbn [mul]. rewrite IH. symmetry. apply (emul_S a p Pp). Qed.
Lemma i_mult n x : on x -> (ec_mult a p x n None <-> mul apoint op None n x = None).
Proof. intros H. rewrite i_mul, (ec_mult_iff a b p Pp P2) by exact H. split; congruence. Qed.
Definition TORS n := tors apoint op None apdec G n.
Lemma i_tors n x : In x (TORS n) <-> on x /\ ec_mult a p x n None.
Proof. unfold TORS. rewrite (tors_in apoint op None on apdec G i_in). split; intros (A & B); split; auto; apply i_mult; auto. Qed.
Lemma i_tors_nodup n : NoDup (TORS n).
Proof. apply (tors_nodup apoint op None apdec G i_nodup). Qed.
Lemma i_order x n : on x -> (ord apoint op None x n <-> ec_order a p x (Z.of_nat n)).
Proof.
  intros H. split.
  - intros (A & B & C). split; [lia|]. rewrite Nat2Z.id. split; [apply i_mult; assumption|]. intros k Hk M. apply i_mult in M; [|exact H]. apply C in M. apply Nat.divide_pos_le in M; lia.
  - intros (A & B & C). rewrite Nat2Z.id in B.
    destruct (ord_exists apoint op None (ec_neg p) on apdec G i_e i_op i_inv i_comm i_assoc i_el i_inv_l i_in x H) as (m & (M1 & M2 & M3) & _).
    assert (D : Nat.divide m n) by (apply M3, i_mult; assumption). assert (m = n).
    { apply Nat.divide_pos_le in D; [|lia]. destruct (Nat.eq_dec m n); [assumption|]. exfalso. apply (C (Z.of_nat m)); [lia|]. rewrite Nat2Z.id. apply i_mult; assumption. }
    subst m. split; [exact M1|]. split; assumption.
Qed.
(** Lists of points and lists of affine points. *)
Lemma pts_affine L : NoDup L -> (forall P, In P L -> In P (ec_points E)) -> NoDup (map (affine p) L).
Proof.
  intros NL HL. apply NoDup_map_inj_in; [|exact NL]. intros P Q IP IQ EA. apply HL in IP. apply HL in IQ. pose proof i_nodup as N. unfold G in N. clear - IP IQ EA N.
  induction (ec_points E) as [|R l IH]; [destruct IP|]. cbn [map] in N. inversion N as [|? ? NI N']; subst. destruct IP as [<-|IP], IQ as [<-|IQ]; auto.
  - exfalso. apply NI. rewrite EA. apply in_map, IQ.
  - exfalso. apply NI. rewrite <- EA. apply in_map, IP.
Qed.
Lemma tors_list n L : NoDup L -> (forall P, In P L <-> In P (ec_points E) /\ ec_mult a p (affine p P) n None) -> length L = length (TORS n).
Proof.
  intros NL HL. rewrite <- (map_length (affine p) L). apply same_length; [apply pts_affine; [exact NL|intros P IP; apply HL, IP]|apply i_tors_nodup|].
  intros x. rewrite i_tors, in_map_iff. split.
  - intros (P & <- & IP). apply HL in IP as (IP & M). split; [apply i_in, in_map, IP|exact M].
  - intros (Hx & M). apply i_in in Hx. unfold G in Hx. apply in_map_iff in Hx as (P & <- & IP). exists P. split; [reflexivity|]. apply HL. auto.
Qed.
Lemma tors_incl n L : NoDup L -> (forall P, In P L -> In P (ec_points E) /\ ec_mult a p (affine p P) n None) -> (length L <= length (TORS n))%nat.
Proof.
  intros NL HL. rewrite <- (map_length (affine p) L). apply NoDup_incl_length; [apply pts_affine; [exact NL|intros P IP; apply HL, IP]|].
  intros x Ix. apply in_map_iff in Ix as (P & <- & IP). apply HL in IP as (IP & M). apply i_tors. split; [apply i_in, in_map, IP|exact M].
Qed.
Lemma tors_bound n : 1 <= n <= 65534 -> ~ (p | n) -> Z.of_nat (length (TORS (Z.to_nat n))) <= n ^ 2.
Proof.
  intros Hn Dn. set (A := flat_map (fun x : apoint => match x with None => [] | Some q => [q] end) (TORS (Z.to_nat n))).
  assert (IA : forall q, In q A <-> In (Some q) (TORS (Z.to_nat n))).
  { intros q. unfold A. rewrite in_flat_map. split; [intros ([q'|] & I1 & I2); [destruct I2 as [<-|[]]; exact I1|destruct I2]|]. intros I1. exists (Some q). split; [exact I1|left; reflexivity]. }
  assert (NA : NoDup A). { unfold A. pose proof (i_tors_nodup (Z.to_nat n)) as N. clear IA A. induction N as [|x l NI N IH]; [constructor|]. cbn [flat_map]. destruct x as [q|]; [|exact IH]. cbn [app]. constructor; [|exact IH].
    intros I1. apply in_flat_map in I1 as ([q'|] & I1 & I2); [destruct I2 as [<-|[]]; contradiction|destruct I2]. }
  pose proof (torsion_count a b p E n A HEl HE Hn Dn NA) as L.
  assert (LA : (length (TORS (Z.to_nat n)) <= length A + 1)%nat).
  { unfold A. pose proof (i_tors_nodup (Z.to_nat n)) as N. clear IA A NA L. induction N as [|x l NI N IH]; [cbn; lia|]. destruct x as [q|]; [cbn [flat_map app length]; lia|].
    cbn [flat_map app length]. assert (X : (length l <= length (flat_map (fun x : apoint => match x with None => [] | Some q => [q] end) l))%nat).
    { clear - NI. induction l as [|x l IH]; [cbn; lia|]. destruct x as [q|]; [cbn [flat_map app length]; specialize (IH ltac:(intros H; apply NI; right; exact H)); lia|]. exfalso. apply NI. left. reflexivity. }
    lia. }
  specialize (L ltac:(intros x y I1; apply IA in I1; apply i_tors in I1; exact I1)). lia.
Qed.
Lemma i_card : cardinality E = Z.of_nat (length G).
Proof. unfold cardinality, G. rewrite map_length. reflexivity. Qed.
Lemma tors_sub n : (length (TORS n) <= length G)%nat.
Proof. apply NoDup_incl_length; [apply i_tors_nodup|]. intros x Ix. apply i_tors in Ix. apply i_in, Ix. Qed.
Lemma tors_prime_power l : nprime l -> exists r, length (TORS l) = (l ^ r)%nat.
Proof. apply (prime_torsion_size apoint op None (ec_neg p) on apdec G i_e i_op i_inv i_comm i_assoc i_el i_inv_l i_nodup i_in). Qed.
(** p-torsion: 1 or p points. *)
Lemma card_lt_sq : cardinality E < p ^ 2.
Proof.
  pose proof (c86_hasse a b p E HEl HE) as H. pose proof (prime_ge_2 p Pp). pose proof P2. assert (3 <= p) by lia. set (N := cardinality E) in *. clearbody N.
  destruct (Z_lt_le_dec N (p ^ 2)) as [|C]; [assumption|exfalso]. assert (X : p ^ 2 - p - 1 <= N - p - 1) by lia. assert (5 <= p ^ 2 - p - 1) by nia.
  assert (Y : (p ^ 2 - p - 1) ^ 2 <= (p + 1 - N) ^ 2) by nia. assert (p ^ 2 - p - 1 >= 2 * p - 1) by nia. assert (Z1 : (2 * p - 1) ^ 2 <= (p ^ 2 - p - 1) ^ 2) by nia. nia.
Qed.
Lemma tors_p : length (TORS (Z.to_nat p)) = 1%nat \/ length (TORS (Z.to_nat p)) = Z.to_nat p.
Proof.
  pose proof (prime_ge_2 p Pp). assert (Np : nprime (Z.to_nat p)) by (unfold nprime; rewrite Z2Nat.id by lia; exact Pp).
  destruct (tors_prime_power _ Np) as (r & Er). pose proof (tors_sub (Z.to_nat p)) as L. pose proof card_lt_sq as C. rewrite i_card in C. rewrite Er in *.
  destruct r as [|[|r]]; [left; reflexivity|right; rewrite Nat.pow_1_r; reflexivity|exfalso].
  assert (X : (Z.to_nat p ^ 2 <= Z.to_nat p ^ S (S r))%nat) by (apply Nat.pow_le_mono_r; lia). assert (Y : Z.of_nat (Z.to_nat p ^ 2) = p ^ 2) by (rewrite Nat2Z.inj_pow, Z2Nat.id by lia; reflexivity). lia.
Qed.
Lemma tors_prime_bound l : nprime l -> (l <= Z.to_nat 65534)%nat \/ p < 2 ^ 47 -> (length (TORS l) <= l * l)%nat.
Proof.
  intros Pl Hl. pose proof (prime_ge_2 p Pp). pose proof (nprime_ge l Pl) as L2. destruct (Nat.eq_dec l (Z.to_nat p)) as [-> | NE].
  { destruct tors_p as [-> | ->]; nia. }
  assert (B : (l <= Z.to_nat 65534)%nat -> (length (TORS l) <= l * l)%nat).
  { intros B. pose proof (tors_bound (Z.of_nat l) ltac:(lia)) as T. rewrite Nat2Z.id in T. assert (D : ~ (p | Z.of_nat l)).
    { intros D. apply (prime_divisors _ Pl) in D. lia. }
    specialize (T D). lia. }
  destruct Hl as [Hl|Hp]; [exact (B Hl)|]. destruct (Nat.le_gt_cases l (Z.to_nat 65534)) as [LE|GT]; [exact (B LE)|].
  destruct (tors_prime_power l Pl) as (r & Er). pose proof (tors_sub l) as L. rewrite Er in *. destruct r as [|[|[|r]]]; [cbn; nia|cbn; nia|cbn; lia|exfalso].
  assert (X : (l ^ 3 <= l ^ S (S (S r)))%nat) by (apply Nat.pow_le_mono_r; lia). assert (Y : Z.of_nat (l ^ 3) = Z.of_nat l ^ 3) by (rewrite Nat2Z.inj_pow; reflexivity).
  assert (Z1 : 65535 ^ 3 <= Z.of_nat l ^ 3) by (apply Z.pow_le_mono_l; lia). pose proof (c86_hasse a b p E HEl HE) as H1. rewrite i_card in H1. set (N := Z.of_nat (length G)) in *.
  assert (NB : 65535 ^ 3 <= N) by lia. change (65535 ^ 3) with 281462092005375 in NB. change (2 ^ 47) with 140737488355328 in Hp. nia.
Qed.
Lemma i_divides n : (1 <= n)%nat -> p < 2 ^ 47 \/ (forall l, nprime l -> Nat.divide l n -> (l <= Z.to_nat 65534)%nat) -> Nat.divide (length (TORS n)) (n * n).
Proof.
  intros Hn HB. apply (torsion_divides apoint op None (ec_neg p) on apdec G i_e i_op i_inv i_comm i_assoc i_el i_inv_l i_nodup i_in); [exact Hn|].
  intros l Pl Dl. apply (tors_prime_bound l Pl). destruct HB as [HB|HB]; [right; exact HB|left; exact (HB l Pl Dl)].
Qed.
Definition i_exponent := exponent apoint op None (ec_neg p) on apdec G i_e i_op i_inv i_comm i_assoc i_el i_inv_l i_in.
Definition i_cauchy := cauchy apoint op None (ec_neg p) on apdec G i_e i_op i_inv i_comm i_assoc i_el i_inv_l i_nodup i_in.
Definition i_structure := structure apoint op None (ec_neg p) on apdec G i_e i_op i_inv i_comm i_assoc i_el i_inv_l i_nodup i_in.
Lemma i_point x : on x -> exists P, In P (ec_points E) /\ affine p P = x.
Proof. intros H. apply i_in in H. unfold G in H. apply in_map_iff in H as (P & EP & IP). exists P. auto. Qed.
Lemma i_listed P : In P (ec_points E) -> on (affine p P) /\ is_on_curve E P = Ok true.
Proof.
  intros IP. assert (O : on (affine p P)) by (apply i_in, in_map, IP). split; [exact O|]. pose proof (prime_ge_2 p Pp).
  destruct (is_on_curve_spec a b p E P (ec_new_fields a b p E HE) ltac:(lia)) as (c & Ec & Hc). rewrite Ec. f_equal. apply Hc. apply (affine_on a b p P); [lia|exact O].
Qed.
End Inst.

Lemma odd_prime_pow2 p k : prime p -> p <> 2 -> 0 <= k -> ~ (p | 2 ^ k).
Proof.
  intros Pp P2 Hk. pattern k. apply natlike_ind; [| |exact Hk].
  - intros D. apply Z.divide_1_r in D. pose proof (prime_ge_2 p Pp). lia.
  - intros x Hx IH. rewrite Z.pow_succ_r by exact Hx. intros D. apply (prime_mult p Pp) in D. destruct D as [D|D]; [|exact (IH D)]. apply Z.divide_pos_le in D; [|lia]. pose proof (prime_ge_2 p Pp). lia.
Qed.
(** C100: at most n^2 of the listed points are n-torsion, for n up to 65534 prime to p. *)
Lemma c100_bound : forall a b p E n L, elliptic a b p -> ec_new a b p = Ok E -> 1 <= n <= 65534 -> ~ (p | n) -> NoDup L ->
  (forall P, In P L -> In P (ec_points E) /\ ec_mult a p (affine p P) (Z.to_nat n) None) -> Z.of_nat (length L) <= n ^ 2.
Proof.
  intros a b p E n L HEl HE Hn Dn NL HL. pose proof (tors_incl a b p E HEl HE (Z.to_nat n) L NL HL). pose proof (tors_bound a b p E HEl HE n Hn Dn). lia.
Qed.
(** C100: the number of n-torsion points divides n^2, for every n >= 1 whose prime factors are at most 65534; for every n >= 1 when p < 2^47. *)
Lemma c100_divides : forall a b p E n L, elliptic a b p -> ec_new a b p = Ok E -> 1 <= n ->
  p < 2 ^ 47 \/ (forall l, prime l -> (l | n) -> l <= 65534) -> NoDup L ->
  (forall P, In P L <-> In P (ec_points E) /\ ec_mult a p (affine p P) (Z.to_nat n) None) -> (Z.of_nat (length L) | n ^ 2).
Proof.
  intros a b p E n L HEl HE Hn HB NL HL. rewrite (tors_list a b p E HEl HE (Z.to_nat n) L NL HL). replace (n ^ 2) with (Z.of_nat (Z.to_nat n * Z.to_nat n)) by nia. apply divide_Z.
  apply (i_divides a b p E HEl HE); [lia|]. destruct HB as [HB|HB]; [left; exact HB|right]. intros l Pl Dl. apply divide_Z in Dl. rewrite Z2Nat.id in Dl by lia. pose proof (HB _ Pl Dl). lia.
Qed.
(** C100: for a prime l there are 1, l or l^2 points of l-torsion; for l = p only 1 or p. *)
Lemma c100_prime : forall a b p E l L, elliptic a b p -> ec_new a b p = Ok E -> prime l -> p < 2 ^ 47 \/ l <= 65534 \/ l = p -> NoDup L ->
  (forall P, In P L <-> In P (ec_points E) /\ ec_mult a p (affine p P) (Z.to_nat l) None) ->
  Z.of_nat (length L) = 1 \/ Z.of_nat (length L) = l \/ (Z.of_nat (length L) = l ^ 2 /\ l <> p).
Proof.
  intros a b p E l L HEl HE Pl HB NL HL. pose proof (prime_ge_2 l Pl). assert (Nl : nprime (Z.to_nat l)) by (unfold nprime; rewrite Z2Nat.id by lia; exact Pl).
  rewrite (tors_list a b p E HEl HE (Z.to_nat l) L NL HL). destruct (Z.eq_dec l p) as [-> | NE].
  - destruct (tors_p a b p E HEl HE) as [-> | ->]; lia.
  - destruct (tors_prime_power a b p E HEl HE _ Nl) as (r & Er). pose proof (tors_prime_bound a b p E HEl HE _ Nl ltac:(destruct HB as [HB|[HB|HB]]; [right; exact HB|left; lia|contradiction])) as B.
    rewrite Er in *. destruct r as [|[|[|r]]]; [left; reflexivity|right; left; rewrite Nat.pow_1_r; lia|right; right; split; [cbn; nia|exact NE]|exfalso].
    assert (X : (Z.to_nat l ^ 3 <= Z.to_nat l ^ S (S (S r)))%nat) by (apply Nat.pow_le_mono_r; lia). cbn [Nat.pow] in X, B. nia.
Qed.
(** C100: so division_points(n) has at most n^2 elements where it is exact (C64), and never more than 2 n^2. *)
Lemma c100_division_points : forall a b p E n, elliptic a b p -> ec_new a b p = Ok E -> 1 <= n <= 65534 -> ~ (p | n) ->
  exists L, division_points E n = Ok L /\ Z.of_nat (length L) <= n ^ 2 + (2 ^ Z.log2 n) ^ 2 /\
  ((forall P, In P (ec_points E) -> ~ ec_order a p (affine p P) 2) \/ (exists k, 0 <= k /\ n = 2 ^ k) -> Z.of_nat (length L) <= n ^ 2 /\ (Z.of_nat (length L) | n ^ 2)).
Proof.
  intros a b p E n HEl HE Hn Dn. destruct (c64_torsion_partial a b p E n HEl HE ltac:(lia)) as (L & EL & NL & I1 & I2 & I3). exists L. split; [exact EL|]. split.
  - set (t := 2 ^ Z.log2 n). pose proof (Z.log2_spec n ltac:(lia)) as LS. fold t in LS. assert (L0 : 0 <= Z.log2 n) by apply Z.log2_nonneg.
    assert (Dt : ~ (p | t)) by (apply odd_prime_pow2; [apply HEl|apply HEl|exact L0]).
    assert (TT : 1 <= t <= 65534) by lia.
    assert (SPL : forall l, NoDup l -> (forall P, In P l -> In P L) -> Z.of_nat (length l) <= Z.of_nat (length (TORS a b p E HEl (Z.to_nat n))) + Z.of_nat (length (TORS a b p E HEl (Z.to_nat t)))).
    { intros l Nl Hl. rewrite <- Nat2Z.inj_add, <- app_length. apply Nat2Z.inj_le. rewrite <- (map_length (affine p) l). apply NoDup_incl_length; [apply (pts_affine a b p E HE); [exact Nl|intros P IP; apply I1, Hl, IP]|].
      intros x Ix. apply in_map_iff in Ix as (P & <- & IP). apply in_app_iff. pose proof (proj1 (i_listed a b p E HEl HE P (I1 P (Hl P IP)))) as OP. destruct (I3 P (Hl P IP)) as [M|(k & K0 & K1 & _ & (_ & M & _))]; [left|right]; apply i_tors; auto; split; [exact OP|].
      assert (KL : k <= Z.log2 n) by (apply Z.log2_le_pow2; lia). unfold t. replace (Z.log2 n) with ((Z.log2 n - k) + k) by ring. rewrite Z.pow_add_r, Z2Nat.inj_mul by lia.
      apply (i_mult a b p HEl _ _ OP) in M. apply (i_mult a b p HEl _ _ OP).
      rewrite (mul_mul apoint (esum a p (proj1 HEl)) None (on_curve a b p) I (i_op a b p HEl) (i_assoc a b p HEl) (i_el a b p HEl)) by exact OP. rewrite M. apply (mul_e apoint (esum a p (proj1 HEl)) None (on_curve a b p) I (i_el a b p HEl)). }
    pose proof (SPL L NL (fun P H => H)). pose proof (tors_bound a b p E HEl HE n Hn Dn). pose proof (tors_bound a b p E HEl HE t TT Dt). lia.
  - intros HC. destruct (c64_exact a b p E n HEl HE ltac:(lia) HC) as (L' & EL' & _ & HL'). assert (L' = L) by congruence. subst L'. split.
    + apply (c100_bound a b p E n L HEl HE Hn Dn NL). intros P IP. apply HL', IP.
    + apply (c100_divides a b p E n L HEl HE ltac:(lia)); [right|exact NL|exact HL']. intros l _ D. apply Z.divide_pos_le in D; lia.
Qed.
(** On y^2 = x^3 - x over GF(7) all four 2-torsion points are listed: the bound is reached. *)
Example c100_case : exists E, ec_new (-1) 0 7 = Ok E /\ elliptic (-1) 0 7 /\ ~ (7 | 2) /\ division_points E 2 = Ok [mkPt 0 0 1; mkPt 1 0 1; mkPt 6 0 1; infinity].
Proof. eexists. split; [vm_compute; reflexivity|]. split; [|split; [intros (z & D); lia|vm_compute; reflexivity]]. split; [apply is_prime_spec; reflexivity|]. split; [lia|]. intros (z & D). lia. Qed.

(** C101: some listed point has an order m that every order of a point of the curve divides. *)
Lemma c101_exponent : forall a b p E, elliptic a b p -> ec_new a b p = Ok E ->
  exists P m fuel, In P (ec_points E) /\ point_order fuel E P = Ok m /\
    forall Q n f, is_on_curve E Q = Ok true -> point_order f E Q = Ok n -> (n | m).
Proof.
  intros a b p E HEl HE. destruct (i_exponent a b p E HEl HE) as (x & m & Hx & Om & M). destruct (i_point a b p E HE x Hx) as (P & IP & <-). pose proof (proj2 (i_listed a b p E HEl HE P IP)) as OP.
  destruct (c62_point_order a b p E P HEl (or_intror HE) OP) as (n & On & (fuel & Hf) & _). pose proof (prime_ge_2 p (proj1 HEl)).
  assert (n = Z.of_nat m). { apply (i_order a b p E HEl HE) in Om; [|exact Hx]. assert (N1 : 1 <= n) by apply On. rewrite <- (Z2Nat.id n) in On by lia. apply (i_order a b p E HEl HE) in On; [|exact Hx]. rewrite <- (Z2Nat.id n) by lia. f_equal.
    apply (i_order a b p E HEl HE) in Om; [|exact Hx]. exact (ord_unique apoint (esum a p (proj1 HEl)) None _ _ _ On Om). }
  subst n. exists P, (Z.of_nat m), fuel. split; [exact IP|]. split; [exact Hf|]. intros Q n f OQ HQ.
  destruct (c62_point_order a b p E Q HEl (or_intror HE) OQ) as (n' & On' & _ & U). rewrite (U f n HQ). assert (N1 : 1 <= n') by apply On'. rewrite <- (Z2Nat.id n') in * by lia.
  assert (OA : on_curve a b p (affine p Q)) by (apply (is_on_inv a b p E Q (ec_new_fields a b p E HE)); [lia|exact OQ]).
  apply divide_Z. apply (M (affine p Q)); [exact OA|]. apply (i_order a b p E HEl HE); [exact OA|]. exact On'.
Qed.
(** C101: every prime factor of cardinality() is the order of a listed point. *)
Lemma c101_cauchy : forall a b p E l, elliptic a b p -> ec_new a b p = Ok E -> prime l -> (l | cardinality E) -> exists P fuel, In P (ec_points E) /\ point_order fuel E P = Ok l.
Proof.
  intros a b p E l HEl HE Pl D. pose proof (prime_ge_2 l Pl). assert (Nl : nprime (Z.to_nat l)) by (unfold nprime; rewrite Z2Nat.id by lia; exact Pl).
  destruct (i_cauchy a b p E HEl HE (Z.to_nat l) Nl) as (x & Hx & Ox); [apply divide_Z; rewrite Z2Nat.id by lia; rewrite <- (i_card p E); exact D|].
  apply (i_order a b p E HEl HE) in Ox; [|exact Hx]. destruct (i_point a b p E HE x Hx) as (P & IP & <-). pose proof (proj2 (i_listed a b p E HEl HE P IP)) as OP.
  destruct (c62_point_order a b p E P HEl (or_intror HE) OP) as (n & On & (fuel & Hf) & _). exists P, fuel. split; [exact IP|]. rewrite Hf. f_equal.
  rewrite Z2Nat.id in Ox by lia. destruct On as (A & B & C), Ox as (A' & B' & C'). destruct (Z.lt_trichotomy n l) as [L|[L|L]]; [exfalso; apply (C' n); [lia|exact B]|exact L|exfalso; apply (C l); [lia|exact B']].
Qed.
(** C101: for p < 2^47: with m the largest order, cardinality() is m d with d dividing m. *)
Lemma c101_structure : forall a b p E, elliptic a b p -> ec_new a b p = Ok E -> p < 2 ^ 47 ->
  exists P m d fuel, In P (ec_points E) /\ point_order fuel E P = Ok m /\ cardinality E = m * d /\ (d | m) /\
    (forall Q n f, is_on_curve E Q = Ok true -> point_order f E Q = Ok n -> (n | m)).
Proof.
  intros a b p E HEl HE Hp. destruct (c101_exponent a b p E HEl HE) as (P & m & fuel & IP & HO & M). pose proof (i_listed a b p E HEl HE P IP) as (OA & OP).
  destruct (i_structure a b p E HEl HE) as (x & m' & d & Hx & Om & M' & EL & D); [intros l Pl _; apply (tors_prime_bound a b p E HEl HE l Pl); right; exact Hp|].
  destruct (c62_point_order a b p E P HEl (or_intror HE) OP) as (n & On & _ & U). pose proof (U fuel m HO) as Em. subst m. clear U. assert (N1 : 1 <= n) by apply On.
  assert (n = Z.of_nat m').
  { apply Z.divide_antisym_nonneg; [lia|lia| |].
    - rewrite <- (Z2Nat.id n) in On by lia. apply (i_order a b p E HEl HE) in On; [|exact OA]. rewrite <- (Z2Nat.id n) by lia. apply divide_Z. exact (M' _ _ OA On).
    - destruct (i_point a b p E HE x Hx) as (Q & IQ & EQ). subst x. pose proof (proj2 (i_listed a b p E HEl HE Q IQ)) as OQ. destruct (c62_point_order a b p E Q HEl (or_intror HE) OQ) as (k & Ok1 & (f & Hf) & _).
      apply (i_order a b p E HEl HE) in Om; [|exact Hx]. replace (Z.of_nat m') with k; [exact (M Q k f OQ Hf)|].
      destruct Ok1 as (A & B & C), Om as (A' & B' & C'). destruct (Z.lt_trichotomy k (Z.of_nat m')) as [L|[L|L]]; [exfalso; apply (C' k); [lia|exact B]|exact L|exfalso; apply (C (Z.of_nat m')); [lia|exact B']]. }
  subst n. exists P, (Z.of_nat m'), (Z.of_nat d), fuel. split; [exact IP|]. split; [exact HO|]. split; [rewrite (i_card p E), EL; apply Nat2Z.inj_mul|]. split; [apply divide_Z, D|exact M].
Qed.
(** y^2 = x^3 - x over GF(7) has 8 = 4 * 2 points; (4, 2) has order 4. *)
Example c101_case : exists E, ec_new (-1) 0 7 = Ok E /\ cardinality E = 8 /\ point_order 9 E (mkPt 4 2 1) = Ok 4 /\ In (mkPt 4 2 1) (ec_points E) /\
  forallb (fun P => match point_order 9 E P with Ok n => 4 mod n =? 0 | _ => false end) (ec_points E) = true.
Proof. eexists. split; [vm_compute; reflexivity|]. split; [reflexivity|]. split; [vm_compute; reflexivity|]. split; [cbn; tauto|vm_compute; reflexivity]. Qed.
