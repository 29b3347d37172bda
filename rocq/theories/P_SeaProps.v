(** Lemmas behind the property theorems C68-C71, C78 (src/schoof.rs, src/schoof_elkies_atkins.rs). *)
From Coq Require Import Znumtheory ZifyBool Setoid Morphisms Ring.
From Verif Require Import Prelude M_Bigint M_Variable M_Term M_Poly M_Curve M_DivPoly M_Modular M_Schoof Spec SpecCurve P_Bigint P_Variable P_FSum P_Poly P_Rem P_PolyProps P_Subst P_Subst2 P_Subst3 P_Mod P_Gcd P_Gcd2 P_Roots P_Modular P_Modular2 P_ModularProps P_Curve2 P_CurveProps P_Sea.
Open Scope Z_scope.

Lemma find_w_spec l ql : forall is_ w, find_w l ql is_ = Some w -> In w is_ /\ (w * w) mod l = ql.
Proof.
  induction is_ as [|i r IH]; intros w H; [discriminate|]. cbn [find_w] in H. destruct (_ =? _) eqn:E; [injection H as <-; split; [left; reflexivity|lia]|].
  destruct (IH w H). split; [right|]; assumption.
Qed.
Lemma find_w_first l ql : forall is_ w, find_w l ql is_ = Some w -> exists a c, is_ = a ++ w :: c /\ forall i, In i a -> (i * i) mod l <> ql.
Proof.
  induction is_ as [|i r IH]; intros w H; [discriminate|]. cbn [find_w] in H. destruct (_ =? _) eqn:E; [injection H as <-; exists [], r; split; [reflexivity|intros ? []]|].
  destruct (IH w H) as (a & c & -> & N). exists (i :: a), c. split; [reflexivity|]. intros k [<-|Hk]; [lia|apply N, Hk].
Qed.
Lemma find_j_in fuel a b q num1 den1 psi_l : forall js jj, schoof_find_j fuel a b q num1 den1 psi_l js = Ok (Some jj) -> In jj js.
Proof.
  induction js as [|j r IH]; intros jj H; [discriminate|]. cbn [schoof_find_j] in H.
  repeat (apply bind_Ok in H; destruct H as (? & _ & H)). destruct (is_zero _); [left; congruence|right; apply IH, H].
Qed.
Lemma schoof_found_range fuel a b q l ql q2 psi_l jj m : 0 < jj < l -> schoof_found fuel a b q l ql q2 psi_l jj = Ok m -> mr_l m = l /\ 0 <= mr_r m < l.
Proof.
  intros Hj H. unfold schoof_found in H. repeat (apply bind_Ok in H; destruct H as (? & _ & H)). cbv zeta in H. apply Ok_inj in H. subst m. cbn [mr_l mr_r]. split; [reflexivity|].
  destruct (negb _); destruct (_ <? 0) eqn:E; lia.
Qed.
Lemma schoof_not_found_range fuel a b q l ql m : l = 3 \/ l = 5 -> schoof_not_found fuel a b q l ql = Ok m -> mr_l m = l /\ 0 <= mr_r m < l.
Proof.
  intros Hl H. unfold schoof_not_found in H. destruct (find_w l ql (zrange 1 l)) as [w|] eqn:Ew; [|apply Ok_inj in H; subst m; cbn [mr_l mr_r]; lia].
  assert (Bw: 1 <= w /\ 2 * w < l).
  { destruct Hl as [-> | ->].
    - change (zrange 1 3) with [1; 2] in Ew. cbn [find_w] in Ew. change ((1 * 1) mod 3) with 1 in Ew. change ((2 * 2) mod 3) with 1 in Ew.
      destruct (1 =? ql); [assert (w = 1) by congruence; lia|discriminate].
    - change (zrange 1 5) with [1; 2; 3; 4] in Ew. cbn [find_w] in Ew. change ((1 * 1) mod 5) with 1 in Ew. change ((2 * 2) mod 5) with 4 in Ew. change ((3 * 3) mod 5) with 4 in Ew. change ((4 * 4) mod 5) with 1 in Ew.
      destruct (1 =? ql); [assert (w = 1) by congruence; lia|]. destruct (4 =? ql); [assert (w = 2) by congruence; lia|discriminate]. }
  repeat (apply bind_Ok in H; destruct H as (? & _ & H)). destruct (negb _); [apply Ok_inj in H; subst m; cbn [mr_l mr_r]; lia|].
  repeat (apply bind_Ok in H; destruct H as (? & _ & H)). cbv zeta in H. apply Ok_inj in H. subst m. cbn [mr_l mr_r]. split; [reflexivity|].
  match goal with g : bool |- _ => destruct g end; destruct (_ <? 0) eqn:E; lia.
Qed.
Lemma schoof_l_range fuel a b q l m : l = 3 \/ l = 5 -> schoof_l fuel a b q l = Ok m -> mr_l m = l /\ 0 <= mr_r m < l.
Proof.
  intros Hl H. unfold schoof_l in H. apply bind_Ok in H. destruct H as (q2 & _ & H). apply bind_Ok in H. destruct H as ((num1 & den1) & _ & H).
  apply bind_Ok in H. destruct H as (ps & _ & H). apply bind_Ok in H. destruct H as (psi_l & _ & H). apply bind_Ok in H. destruct H as (fj & Ef & H).
  destruct fj as [jj|].
  - apply (schoof_found_range fuel a b q l (q mod l) q2 psi_l jj m); [|exact H]. apply find_j_in in Ef. apply P_Bigint.in_zrange in Ef. destruct Hl as [-> | ->]; cbn in Ef; lia.
  - apply (schoof_not_found_range fuel a b q l (q mod l) m Hl H).
Qed.

(** C68: whenever schoof returns, it reports the moduli 2, then 3 if q > 3, then 5 if q > 5, each with a residue in range;
    so chinese_remainder applies to the result and gives the one residue class with these residues. *)
Lemma c68_residues : forall fuel a b q L, schoof fuel a b q = Ok L ->
  map mr_l L = (if q <=? 3 then [2] else if q <=? 5 then [2; 3] else [2; 3; 5]) /\
  (forall m, In m L -> 0 <= mr_r m < mr_l m) /\
  exists r, chinese_remainder L = Ok (mkMod (fold_right Z.mul 1 (map mr_l L)) r) /\ forall m, In m L -> (mr_l m | r - mr_r m).
Proof.
  intros fuel a b q L H.
  assert (G: map mr_l L = (if q <=? 3 then [2] else if q <=? 5 then [2; 3] else [2; 3; 5]) /\ (forall m, In m L -> 0 <= mr_r m < mr_l m)).
  { unfold schoof in H. apply bind_Ok in H. destruct H as (m2 & E2 & H).
    assert (R2: mr_l m2 = 2 /\ 0 <= mr_r m2 < 2). { unfold schoof_l2 in E2. apply bind_Ok in E2. destruct E2 as (g & _ & E2). apply Ok_inj in E2. subst m2. cbn. destruct g; lia. }
    cbn [schoof_loop] in H. destruct (q <=? 3) eqn:Q3.
    { apply Ok_inj in H. subst L. cbn [map]. destruct R2 as (L2 & R2). rewrite L2. split; [reflexivity|]. intros m [<-|[]]. lia. }
    apply bind_Ok in H. destruct H as (m3 & E3 & H). apply schoof_l_range in E3; [|lia]. destruct (q <=? 5) eqn:Q5.
    { apply Ok_inj in H. subst L. cbn [app map]. destruct R2 as (L2 & R2), E3 as (L3 & R3). rewrite L2, L3. split; [reflexivity|]. intros m [<-|[<-|[]]]; lia. }
    apply bind_Ok in H. destruct H as (m5 & E5 & H). apply schoof_l_range in E5; [|lia]. apply Ok_inj in H. subst L. cbn [app map].
    destruct R2 as (L2 & R2), E3 as (L3 & R3), E5 as (L5 & R5). rewrite L2, L3, L5. split; [reflexivity|]. intros m [<-|[<-|[<-|[]]]]; lia. }
  destruct G as (G1 & G2). split; [exact G1|]. split; [exact G2|].
  destruct (crt_spec L) as (r & E & Hr & _).
  - apply Forall_forall. intros m Hm. specialize (G2 m Hm). lia.
  - assert (R23: rel_prime 2 3) by (apply Zgcd_1_rel_prime; reflexivity). assert (R25: rel_prime 2 5) by (apply Zgcd_1_rel_prime; reflexivity). assert (R35: rel_prime 3 5) by (apply Zgcd_1_rel_prime; reflexivity).
    clear - G1 R23 R25 R35. destruct (q <=? 3); [|destruct (q <=? 5)].
    + destruct L as [|m [|? ?]]; try discriminate G1. constructor; constructor.
    + destruct L as [|m [|n [|? ?]]]; try discriminate G1. cbn in G1. injection G1 as E1 E2. constructor; [constructor; [rewrite E1, E2; exact R23|constructor]|]. constructor; constructor.
    + destruct L as [|m [|n [|k [|? ?]]]]; try discriminate G1. cbn in G1. injection G1 as E1 E2 E3. constructor; [constructor; [rewrite E1, E2; exact R23|constructor; [rewrite E1, E3; exact R25|constructor]]|].
      constructor; [constructor; [rewrite E2, E3; exact R35|constructor]|]. constructor; constructor.
  - exists r. split; assumption.
Qed.
Example c68_case : schoof 40 1 0 5 = Ok [mkMod 2 1; mkMod 3 2].
Proof. vm_compute. reflexivity. Qed.

(** ** l = 2 *)
Lemma schoof_l2_iff a b q : prime q -> q <= i32_max ->
  ((exists x, 0 <= x < q /\ (q | x ^ 3 + a * x + b)) -> exists fuel, schoof_l2 fuel a b q = Ok (mkMod 2 1)) /\
  (~ (exists x, 0 <= x < q /\ (q | x ^ 3 + a * x + b)) -> forall fuel, schoof_l2 fuel a b q = NoFuel) /\
  (forall fuel m, schoof_l2 fuel a b q = Ok m -> m = mkMod 2 1).
Proof.
  intros Hq Bq. pose proof (prime_ge_2 q Hq) as Hq2. unfold schoof_l2, tx. rewrite fermat_built by exact Hq2. unfold is_gcd_one. set (W := weierstrass a b).
  assert (SW: sorted W) by apply weierstrass_sorted. assert (OW: only_x W) by apply weierstrass_only_x. assert (IW: i32_poly W) by apply weierstrass_i32.
  assert (UW: ulead q W) by (apply weierstrass_ulead; lia). assert (NW: W <> []) by (intros E; pose proof (weierstrass_highest a b) as Hh; fold W in Hh; rewrite E in Hh; discriminate).
  assert (RT: (exists x, 0 <= x < q /\ (q | x ^ 3 + a * x + b)) <-> common_factor q W (fermat_poly q)).
  { rewrite common_factor_fermat by assumption. split; intros (x & Bx & D); exists x; (split; [exact Bx|]); unfold W in *; rewrite (fval_feq x 0 _ _ (weierstrass_feq a b)), fval_fweier in *; exact D. }
  assert (SP: forall fuel g, p_gcd fuel W (fermat_poly q) q = Ok g -> is_zero g = false /\ common_factor q W (fermat_poly q)).
  { intros fuel g Eg. destruct (ugcd_spec q Hq fuel W (fermat_poly q) g SW (fermat_sorted q Hq2) OW (fermat_only_x q ltac:(lia)) IW (fermat_i32 q ltac:(lia)) UW (fermat_ulead q Hq2) Eg)
      as (Sg & Rg & Og & Mo & Dg & Hin & _ & Da & Db & _). split; [destruct g; [destruct Hin|reflexivity]|]. exists g, (tm (highest_term_x g)), 1. auto 10. }
  split; [|split].
  - intros C. apply RT in C.
    destruct (ugcd_returns q Hq (Z.to_nat (q + 1)) W (fermat_poly q) SW (fermat_sorted q Hq2) OW (fermat_only_x q ltac:(lia)) IW (fermat_i32 q ltac:(lia)) UW (fermat_ulead q Hq2) NW ltac:(discriminate) C) as (fuel & g & Eg).
    { rewrite fermat_highest by exact Hq2. cbn [tm mx]. lia. }
    exists fuel. rewrite Eg. cbn [bind]. rewrite (proj1 (SP _ _ Eg)). reflexivity.
  - intros C fuel. destruct (p_gcd fuel W (fermat_poly q) q) as [g| |] eqn:Eg; cbn [bind]; [exfalso|exfalso|reflexivity].
    + apply C, RT, (SP _ _ Eg).
    + apply (ugcd_never_panics q Hq fuel W (fermat_poly q) SW (fermat_sorted q Hq2) OW (fermat_only_x q ltac:(lia)) IW (fermat_i32 q ltac:(lia)) UW (fermat_ulead q Hq2) Eg).
  - intros fuel m H. apply bind_Ok in H. destruct H as (g1 & E1 & H). apply bind_Ok in E1. destruct E1 as (g & Eg & E1). rewrite (proj1 (SP _ _ Eg)) in E1. apply Ok_inj in E1. subst g1. symmetry. apply Ok_inj, H.
Qed.
Lemma root_even a b q x E : elliptic a b q -> ec_new a b q = Ok E -> 0 <= x < q -> (q | x ^ 3 + a * x + b) -> (2 | cardinality E).
Proof.
  intros El HE Bx D. destruct El as (Hq & N2 & NS). pose proof (prime_ge_2 q Hq) as Hq2. set (P := mkPt x 0 1).
  assert (HC: curve_of a b q E) by (right; exact HE).
  assert (On: is_on_curve E P = Ok true).
  { destruct (c51_decides a b q E P ltac:(lia) HC) as (v & Ev & I). rewrite Ev. f_equal. apply I. right. unfold curve_eqn, P. cbn [px py]. apply Z.divide_opp_r in D.
    replace (0 * 0 - (x * x * x + a * x + b)) with (- (x ^ 3 + a * x + b)) by ring. exact D. }
  destruct (c62_point_order a b q E P (conj Hq (conj N2 NS)) HC On) as (n & (N1 & M & L) & (fuel & Eo) & _).
  assert (A: affine q P = Some (x, 0)) by (unfold affine, P; cbn [px py pz Z.eqb]; rewrite Z.mod_small, Z.mod_0_l by lia; reflexivity).
  rewrite A in *.
  assert (M1: ec_mult a q (Some (x, 0)) 1 (Some (x, 0))) by (econstructor; [constructor|constructor]).
  assert (M2: ec_mult a q (Some (x, 0)) 2 None). { econstructor; [exact M1|]. apply sum_opposite. exists 0. ring. }
  assert (n = 2) as ->.
  { assert (n <> 1). { intros ->. cbn in M. inversion M as [|k Q R HQ HS EK ER]; subst. inversion HQ; subst. inversion HS. }
    destruct (Z_le_gt_dec n 2); [lia|]. exfalso. apply (L 2); [lia|]. exact M2. }
  destruct (c63_lagrange a b q E P (conj Hq (conj N2 NS)) HE On) as (_ & Lg & _). exact (Lg 2 fuel Eo).
Qed.
(** C69 is false: y^2 = x^3 + x over GF(5) has 4 points, hence even trace 2, but the residue for l = 2 is 1. *)
Lemma c69_parity_refuted : exists a b q fuel L E, elliptic a b q /\ schoof fuel a b q = Ok L /\ In (mkMod 2 1) L /\
  ec_new a b q = Ok E /\ (2 | q + 1 - cardinality E) /\ exists x, (q | x ^ 3 + a * x + b).
Proof.
  destruct (proj1 (c61_new_returns 1 0 5)) as (H & _). 
  assert (P5: prime 5). { apply prime_intro; [lia|]. intros n Hn. apply Zgcd_1_rel_prime. assert (n = 1 \/ n = 2 \/ n = 3 \/ n = 4) as [->|[->|[->| ->]]] by lia; reflexivity. }
  assert (EL: elliptic 1 0 5). { split; [exact P5|]. split; [lia|]. intros (z & D). lia. }
  destruct H as (E & HE); [split; [exact P5|lia]|]. exists 1, 0, 5, 40%nat, [mkMod 2 1; mkMod 3 2], E.
  split; [exact EL|]. split; [exact c68_case|]. split; [left; reflexivity|]. split; [exact HE|].
  split; [|exists 0, 0; reflexivity]. apply Z.divide_sub_r; [exists 3; reflexivity|]. apply (root_even 1 0 5 0 E EL HE); [lia|exists 0; reflexivity].
Qed.
(** C69 is false also because schoof never returns on curves of odd order, e.g. the one of the (ignored) unit test for q = 7. *)
Lemma c69_returns_refuted : exists a b q, elliptic a b q /\ forall fuel, schoof fuel a b q = NoFuel.
Proof.
  exists 2, 1, 7. assert (P7: prime 7). { apply prime_intro; [lia|]. intros n Hn. apply Zgcd_1_rel_prime. assert (n = 1 \/ n = 2 \/ n = 3 \/ n = 4 \/ n = 5 \/ n = 6) as [->|[->|[->|[->|[->| ->]]]]] by lia; reflexivity. }
  split; [split; [exact P7|split; [lia|intros (z & D); lia]]|]. intros fuel. unfold schoof. destruct (schoof_l2_iff 2 1 7 P7) as (_ & N & _); [unfold i32_max; lia|]. rewrite N; [reflexivity|].
  intros (x & Bx & z & D). assert (x = 0 \/ x = 1 \/ x = 2 \/ x = 3 \/ x = 4 \/ x = 5 \/ x = 6) as X by lia. destruct X as [->|[->|[->|[->|[->|[->| ->]]]]]]; lia.
Qed.
(** C69, exact behaviour: if x^3 + a x + b has no root in GF(q), schoof runs forever; if it returns, there is a root (so on an elliptic
    curve the number of points, and the trace, are even) and the residue reported for l = 2 is 1 - wrong on every elliptic curve.
    The l = 2 stage returns whenever there is a root, so for q = 3 schoof then returns. *)
Lemma c69_parity_partial : forall a b q, prime q -> q <= i32_max ->
  (~ (exists x, 0 <= x < q /\ (q | x ^ 3 + a * x + b)) -> forall fuel, schoof fuel a b q = NoFuel) /\
  (forall fuel L, schoof fuel a b q = Ok L -> (exists L', L = mkMod 2 1 :: L') /\
     forall E, elliptic a b q -> ec_new a b q = Ok E -> (2 | cardinality E) /\ (2 | q + 1 - cardinality E)) /\
  ((exists x, 0 <= x < q /\ (q | x ^ 3 + a * x + b)) -> q <= 3 -> exists fuel, schoof fuel a b q = Ok [mkMod 2 1]).
Proof.
  intros a b q Hq Bq. pose proof (prime_ge_2 q Hq) as Hq2. destruct (schoof_l2_iff a b q Hq Bq) as (I1 & I2 & I3). split; [|split].
  - intros N fuel. unfold schoof. rewrite (I2 N). reflexivity.
  - intros fuel L H. assert (H' := H). unfold schoof in H. apply bind_Ok in H. destruct H as (m2 & E2 & H). pose proof (I3 _ _ E2) as ->.
    split.
    + assert (G: forall ls acc L, schoof_loop fuel a b q ls acc = Ok L -> exists r, L = acc ++ r).
      { induction ls as [|l ls IH]; intros acc M HM; cbn [schoof_loop] in HM; [apply Ok_inj in HM; subst; exists []; rewrite app_nil_r; reflexivity|].
        destruct (q <=? l); [apply Ok_inj in HM; subst; exists []; rewrite app_nil_r; reflexivity|]. apply bind_Ok in HM. destruct HM as (m & _ & HM). destruct (IH _ _ HM) as (r & ->). exists (m :: r). rewrite <- app_assoc. reflexivity. }
      destruct (G _ _ _ H) as (r & ->). exists r. reflexivity.
    + intros E El HE. assert (EX: exists x, 0 <= x < q /\ (q | x ^ 3 + a * x + b)).
      { assert (DEC: forall n : nat, (exists x, 0 <= x < Z.of_nat n /\ (q | x ^ 3 + a * x + b)) \/ ~ (exists x, 0 <= x < Z.of_nat n /\ (q | x ^ 3 + a * x + b))).
        { induction n as [|n [IH|IH]]; [right; intros (x & Bx & _); lia|left; destruct IH as (x & Bx & D); exists x; split; [lia|exact D]|].
          destruct (Zdivide_dec q (Z.of_nat n ^ 3 + a * Z.of_nat n + b)) as [D|D]; [left; exists (Z.of_nat n); split; [lia|exact D]|right].
          intros (x & Bx & Dx). destruct (Z.eq_dec x (Z.of_nat n)) as [->|]; [contradiction|]. apply IH. exists x. split; [lia|exact Dx]. }
        destruct (DEC (Z.to_nat q)) as [(x & Bx & D)|N]; [exists x; split; [lia|exact D]|]. rewrite I2 in E2; [discriminate|]. intros (x & Bx & D). apply N. exists x. split; [lia|exact D]. }
      destruct EX as (x & Bx & D). pose proof (root_even a b q x E El HE Bx D) as C. split; [exact C|]. destruct El as (_ & N2 & _).
      apply Z.divide_sub_r; [|exact C]. assert (Z.odd q = true). { destruct (Z.odd q) eqn:Od; [reflexivity|exfalso]. apply N2. assert (Ev: Z.even q = true) by (rewrite <- Z.negb_odd, Od; reflexivity). apply Z.even_spec in Ev. destruct Ev as (k & Ek).
        destruct (prime_divisors q Hq 2) as [|[|[|]]]; try lia. exists k. lia. }
      apply Z.odd_spec in H0. destruct H0 as (k & Ek). exists (k + 1). lia.
  - intros EX Q3. destruct (I1 EX) as (fuel & E2). exists fuel. unfold schoof. rewrite E2. cbn [bind schoof_loop]. replace (q <=? 3) with true by lia. reflexivity.
Qed.
(** C78 is false: y^2 = x^3 + 2 x over GF(5) has 2 points, trace 4 = 1 (mod 3), but the residue reported for l = 3 is 2. *)
Lemma c78_residue3_refuted : exists a b q fuel L E, elliptic a b q /\ schoof fuel a b q = Ok L /\ In (mkMod 3 2) L /\
  ec_new a b q = Ok E /\ (q + 1 - cardinality E) mod 3 = 1.
Proof.
  assert (P5: prime 5). { apply prime_intro; [lia|]. intros n Hn. apply Zgcd_1_rel_prime. assert (n = 1 \/ n = 2 \/ n = 3 \/ n = 4) as [->|[->|[->| ->]]] by lia; reflexivity. }
  destruct (proj1 (c61_new_returns 2 0 5)) as (H & _). destruct H as (E & HE); [split; [exact P5|lia]|].
  exists 2, 0, 5, 80%nat, [mkMod 2 1; mkMod 3 2], E. split; [split; [exact P5|split; [lia|intros (z & D); lia]]|]. split; [vm_compute; reflexivity|]. split; [right; left; reflexivity|].
  split; [exact HE|]. destruct (c61_cardinality 2 0 5 E [(0, 0)] HE) as (-> & _); [repeat constructor; intros []| |reflexivity].
  intros x y. split.
  - intros [E1|[]]. injection E1 as <- <-. split; [lia|]. split; [lia|]. exists 0. reflexivity.
  - intros (Bx & By & z & D). left. assert (X: x = 0 \/ x = 1 \/ x = 2 \/ x = 3 \/ x = 4) by lia. assert (Y: y = 0 \/ y = 1 \/ y = 2 \/ y = 3 \/ y = 4) by lia.
    destruct X as [->|[->|[->|[->| ->]]]], Y as [->|[->|[->|[->| ->]]]]; try reflexivity; exfalso; lia.
Qed.

(** ** sea *)
Lemma fpow_const v n : feq (fpow (fconst v) n) (fconst (v ^ Z.of_nat n)).
Proof.
  induction n as [|n IH]; [reflexivity|]. cbn [fpow]. rewrite (conv_proper_feq _ _ (reflexivity _) _ _ IH). rewrite Nat2Z.inj_succ, Z.pow_succ_r by lia. reflexivity.
Qed.
Lemma evy_subst v (a : fsum) : (forall m c, In (m, c) a -> c <> 0 -> 0 <= my m) -> feq (evy v a) (fsubst_y a (fconst v)).
Proof.
  unfold evy, fsubst_y. induction a as [|[m c] a IH]; intros H; [reflexivity|]. cbn [map flat_map fst snd].
  change ((set_y 0 m, c * v ^ my m) :: ?l) with (fadd [(set_y 0 m, c * v ^ my m)] l). apply fadd_proper_feq; [|apply IH; intros k d Hk; apply (H k d); right; exact Hk].
  rewrite (conv_proper_feq _ _ (reflexivity _) _ _ (fpow_const v (Z.to_nat (my m)))). unfold conv, fconst. cbn [flat_map map app fst snd]. rewrite mmul_1_r.
  destruct (Z.eq_dec c 0) as [->|N]; [reflexivity|]. rewrite Z2Nat.id by (apply (H m c (or_introl eq_refl) N)). reflexivity.
Qed.
Lemma modular_mshape l Phi : modular_polynomial l = Ok Phi -> mshape l Phi /\ l + 1 <= i32_max /\ sorted Phi /\ (forall m c, In (m, c) Phi -> c <> 0 -> 0 <= my m).
Proof.
  intros H. destruct (modular_inv l Phi H) as (_ & B & _). destruct (c46_shape l Phi H) as (Hp & Ss & _ & T & _ & K). split; [|split; [|split; [exact Ss|]]].
  - split; [lia|]. split; [exact T|exact K].
  - unfold conv_max in B. unfold i32_max. lia.
  - intros m c Hi Hc. destruct (K m) as (i & k & -> & X); [rewrite (sorted_coef _ _ _ Ss Hi); exact Hc|]. cbn. lia.
Qed.
Lemma NoDup_firstn {A} (l : list A) : forall n, NoDup l -> NoDup (firstn n l).
Proof.
  induction l as [|x l IH]; intros [|n] H; try constructor.
  - inversion H as [|? ? N H']; subst. intros Hi. apply N. rewrite <- (firstn_skipn n l). apply in_app_iff. left. exact Hi.
  - inversion H; subst. apply IH. assumption.
Qed.
Definition x_pow_p_minus_x (p : Z) : fsum := fsub (fmono 1 p 0 0) (fmono 1 1 0 0).
Lemma fermat_feq p : feq (fermat_poly p) (x_pow_p_minus_x p).
Proof. intros m. unfold fermat_poly, x_pow_p_minus_x, fsub, fmono, fneg. cbn [map app fst snd coef]. destruct (mono_eqb _ _), (mono_eqb _ _); reflexivity. Qed.
(** C70: whenever sea returns, with Phi the modular polynomial it computed and j the j-invariant: its gcd is monic and divides x^p - x and
    Phi(x, j) modulo p, and every common divisor divides it; degree_of_gcd is its degree and at the same time the number of
    roots of Phi(x, j) in GF(p); is_elkies_prime is true and the degree positive; the reported j-invariants are the first one or two roots in ascending order (all of them
    when there are at most two). *)
Lemma c70_sea : forall fuel a b p E l R, prime p -> curve_of a b p E -> sea fuel E l = Ok R ->
  exists Phi j, modular_polynomial l = Ok Phi /\ ec_j_invariant E = Ok j /\
    let g := sea_gcd R in let roots_of_Phi := filter (fun x => fval x j Phi mod p =? 0) (zrange 0 p) in
    sorted g /\ reduced p g /\ only_x g /\ tc (highest_term_x g) = 1 /\
    fdivides p g (x_pow_p_minus_x p) /\ fdivides p g (fsubst_y Phi (fconst j)) /\
    (forall h, fdivides p h (x_pow_p_minus_x p) -> fdivides p h (fsubst_y Phi (fconst j)) -> fdivides p h g) /\
    sea_degree R = mx (tm (highest_term_x g)) /\ sea_degree R = Z.of_nat (length roots_of_Phi) /\ 1 <= sea_degree R /\ sea_is_elkies R = true /\
    sea_js R = firstn (Z.to_nat (Z.min 2 (sea_degree R))) roots_of_Phi.
Proof.
  intros fuel a b p E l R Hp HC H. pose proof (prime_ge_2 p Hp). unfold sea in H. apply bind_Ok in H. destruct H as (Phi & EP & H).
  destruct (modular_mshape l Phi EP) as (Sh & Hl & Ss & K). apply curve_of_fields in HC. destruct HC as (Ea & Eb & Ep & _).
  destruct (sea_with_ok fuel a b p E l Phi R Ea Eb Ep Hp Sh Hl Ss H) as (j & Ej & Bp & Sg & Rg & Og & Mo & D1 & D2 & Dg & D3 & El & Rt & Ln & Js & Bz).
  exists Phi, j. split; [exact EP|]. split; [exact Ej|]. cbv zeta.
  assert (RE: roots p (sea_gcd R) = filter (fun x => fval x j Phi mod p =? 0) (zrange 0 p)).
  { unfold roots. apply filter_ext. intros x. apply Bool.eq_iff_eq_true. rewrite rootb_true by lia. rewrite Rt, Z.eqb_eq. symmetry. apply Z.mod_divide. lia. }
  pose proof (evy_subst j Phi K) as EV.
  rewrite RE in Ln, Js. rewrite Z.min_comm in Js.
  split; [exact Sg|]. split; [exact Rg|]. split; [exact Og|]. split; [exact Mo|]. split; [apply (fdiv_feqm p _ _ _ (feq_feqm p _ _ (fermat_feq p)) D1)|].
  split; [apply (fdiv_feqm p _ _ _ (feq_feqm p _ _ EV) D2)|]. split.
  { intros h H1 H2. destruct Bz as (u & v & Hu & Hv & F). apply (fdiv_feqm p h (fadd (conv (fermat_poly p) u) (conv (evy j Phi) v))).
    - rewrite F, (feq_feqm p _ _ (conv_comm (fermat_poly p) u)), (feq_feqm p _ _ (conv_comm (evy j Phi) v)). reflexivity.
    - apply fdiv_add; (apply fdiv_mul; [assumption|]); [apply (fdiv_feqm p h (x_pow_p_minus_x p)); [apply feq_feqm; symmetry; apply fermat_feq|exact H1]|apply (fdiv_feqm p h (fsubst_y Phi (fconst j))); [apply feq_feqm; symmetry; exact EV|exact H2]]. }
  split; [exact Dg|]. split; [exact Ln|]. split; [exact D3|]. split; [exact El|exact Js].
Qed.
(** C70: in particular every reported j' is a root of Phi(x, j) modulo p in [0, p); they are distinct. *)
Lemma c70_roots : forall fuel a b p E l R, prime p -> curve_of a b p E -> sea fuel E l = Ok R ->
  exists Phi j, modular_polynomial l = Ok Phi /\ ec_j_invariant E = Ok j /\ NoDup (sea_js R) /\
    Z.of_nat (length (sea_js R)) = Z.min 2 (sea_degree R) /\
    (forall j', In j' (sea_js R) -> 0 <= j' < p /\ (p | fval j' j Phi)) /\
    (sea_degree R <= 2 -> forall j', 0 <= j' < p -> (p | fval j' j Phi) -> In j' (sea_js R)).
Proof.
  intros fuel a b p E l R Hp HC H. pose proof (prime_ge_2 p Hp). destruct (c70_sea fuel a b p E l R Hp HC H) as (Phi & j & EP & Ej & G). exists Phi, j. split; [exact EP|]. split; [exact Ej|].
  cbv zeta in G. destruct G as (_ & _ & _ & _ & _ & _ & _ & _ & Ln & D & _ & Js). set (rts := filter _ _) in *.
  assert (IR: forall x, In x rts <-> 0 <= x < p /\ (p | fval x j Phi)).
  { intros x. unfold rts. rewrite filter_In, P_Bigint.in_zrange, Z.eqb_eq, Z.mod_divide by lia. reflexivity. }
  assert (ND: NoDup rts) by apply NoDup_filter, NoDup_zrange.
  rewrite Js. split; [apply NoDup_firstn, ND|]. split; [rewrite firstn_length; lia|]. split.
  - intros x Hx. apply IR. rewrite <- (firstn_skipn (Z.to_nat (Z.min 2 (sea_degree R))) rts). apply in_app_iff. left. exact Hx.
  - intros D2 x Bx Dx. rewrite firstn_all2 by lia. apply IR. auto.
Qed.
Example c70_case : exists R, sea_with 20 (new_raw 1 0 5) c46_phi2 = Ok R /\ modular_polynomial 2 = Ok c46_phi2 /\ sea_js R = [1; 3] /\ sea_degree R = 2.
Proof. eexists. split; [vm_compute; reflexivity|]. split; [exact c46_case|]. split; reflexivity. Qed.
(** C71 is false: for l = 2 and y^2 = x^3 + x + 1 over GF(5) the modular polynomial has no root, and sea runs forever. *)
Lemma c71_atkin_refuted : exists a b p E l Phi j, elliptic a b p /\ curve_of a b p E /\ modular_polynomial l = Ok Phi /\ ec_j_invariant E = Ok j /\
  (forall x, 0 <= x < p -> ~ (p | fval x j Phi)) /\ forall fuel, sea fuel E l = NoFuel.
Proof.
  assert (P5: prime 5). { apply prime_intro; [lia|]. intros n Hn. apply Zgcd_1_rel_prime. assert (n = 1 \/ n = 2 \/ n = 3 \/ n = 4) as [->|[->|[->| ->]]] by lia; reflexivity. }
  assert (V: forall x, 0 <= x < 5 -> ~ (5 | fval x 2 c46_phi2)).
  { intros x Bx D. apply Z.mod_divide in D; [|lia]. assert (X: x = 0 \/ x = 1 \/ x = 2 \/ x = 3 \/ x = 4) by lia. destruct X as [->|[->|[->|[->| ->]]]]; discriminate D. }
  assert (Ej: ec_j_invariant (new_raw 1 1 5) = Ok 2) by reflexivity.
  exists 1, 1, 5, (new_raw 1 1 5), 2, c46_phi2, 2. split; [split; [exact P5|split; [lia|intros (z & D); lia]]|]. split; [left; reflexivity|]. split; [exact c46_case|]. split; [exact Ej|].
  split; [exact V|]. intros fuel. unfold sea. rewrite c46_case. cbn [bind]. destruct (modular_mshape 2 c46_phi2 c46_case) as (Sh & Hl & Ss & _).
  destruct (sea_with_iff (new_raw 1 1 5) 5 2 c46_phi2 2 eq_refl P5 ltac:(unfold i32_max; lia) Sh Hl Ss Ej) as (_ & N). apply N. intros (x & Bx & D). exact (V x Bx D).
Qed.
(** C71, exact behaviour on elliptic curves: sea returns iff Phi_l(x, j) has a root in GF(p), and runs forever otherwise
    (for a modular polynomial that could be computed). *)
Lemma c71_atkin_partial : forall a b p E l Phi j, prime p -> nonsingular a b p -> p <= i32_max -> curve_of a b p E -> modular_polynomial l = Ok Phi -> ec_j_invariant E = Ok j ->
  ((exists x, 0 <= x < p /\ (p | fval x j Phi)) <-> (exists fuel R, sea fuel E l = Ok R)) /\
  (~ (exists x, 0 <= x < p /\ (p | fval x j Phi)) -> forall fuel, sea fuel E l = NoFuel).
Proof.
  intros a b p E l Phi j Hp NS Bp HC EP Ej. destruct (modular_mshape l Phi EP) as (Sh & Hl & Ss & _). pose proof (curve_of_fields _ _ _ _ HC) as (_ & _ & Ep & _).
  destruct (sea_with_iff E p l Phi j Ep Hp Bp Sh Hl Ss Ej) as (Y & N). unfold sea. rewrite EP. cbn [bind]. split; [|exact N]. split; [exact Y|].
  intros (fuel & R & H). destruct (c70_sea fuel a b p E l R Hp HC) as (Phi' & j' & EP' & Ej' & G); [unfold sea; rewrite EP; exact H|].
  assert (Phi' = Phi) by congruence. assert (j' = j) by congruence. subst. cbv zeta in G. destruct G as (_ & _ & _ & _ & _ & _ & _ & _ & Ln & D & _).
  destruct (filter _ _) as [|x r] eqn:EF; [cbn in Ln; lia|]. assert (Hx: In x (x :: r)) by (left; reflexivity). rewrite <- EF in Hx. apply filter_In in Hx. destruct Hx as (Hx & Hz).
  apply P_Bigint.in_zrange in Hx. exists x. split; [exact Hx|]. apply Z.mod_divide; [lia|]. lia.
Qed.
