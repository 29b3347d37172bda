(** C118-C120: arithmetic of the q-series. *)
From Coq Require Import Znumtheory ZifyBool Setoid Morphisms Ring Permutation.
From Verif Require Import Prelude M_Bigint M_Variable M_Term M_Poly M_QSeries Spec P_Bigint P_Variable P_FSum P_Poly P_Rem P_PolyProps P_Subst P_Subst2 P_Subst3 P_SubstProps P_Mod P_Gcd P_Q P_QProps P_QArith.
Open Scope Z_scope.

(** C118: the coefficients of delta1 obey n d(n) = -24 (sigma(1) d(n-1) + ... + sigma(n) d(0)), so 24 divides n d(n); d(0) = 1. *)
Lemma c118_delta : forall N d, 0 <= N -> 2 * N + 1 <= i32_max -> delta1 N = Ok d ->
  coef d (qmono 0) = 1 /\
  (forall n, 0 <= n <= N -> n * coef d (qmono n) = -24 * fold_right Z.add 0 (map (fun k => sigma 1 k * coef d (qmono (n - k))) (upto n))) /\
  (forall n, 0 <= n <= N -> (24 | n * coef d (qmono n))).
Proof.
  intros N d HN HM E. destruct (delta1_spec N HN HM) as (d' & E' & _ & K & F). assert (d' = d) by congruence. subst d'.
  assert (R: forall n, 0 <= n <= N -> n * coef d (qmono n) = -24 * zsum (map (fun k => sigma 1 k * coef d (qmono (n - k))) (upto n))).
  { intros n Hn. apply (logd_coef N); [exact Hn|apply (qkey_qnonneg N), K|apply logd_delta; assumption]. }
  split; [|split; [exact R|]].
  - rewrite F by (cbn; lia). assert (U: unit_ser (eta_product N)) by (apply eprod_unit; intros n Hn; apply in_upto in Hn; lia).
    specialize (U (qmono 0) ltac:(cbn; lia)). unfold fsub in U. rewrite coef_app, coef_neg in U. cbn [fconst coef] in U. change (mono_eqb mone (qmono 0)) with true in U. cbn iota in U. lia.
  - intros n Hn. rewrite (R n Hn). exists (- zsum (map (fun k => sigma 1 k * coef d (qmono (n - k))) (upto n))). ring.
Qed.
(** C118: the coefficients of delta1_inverse obey n i(n) = +24 (sigma(1) i(n-1) + ... + sigma(n) i(0)), so 24 divides n i(n); i(0) = 1. *)
Lemma c118_inverse : forall N i, 0 <= N -> 2 * N + 1 <= i32_max -> delta1_inverse N = Ok i ->
  coef i (qmono 0) = 1 /\
  (forall n, 0 <= n <= N -> n * coef i (qmono n) = 24 * fold_right Z.add 0 (map (fun k => sigma 1 k * coef i (qmono (n - k))) (upto n))) /\
  (forall n, 0 <= n <= N -> (24 | n * coef i (qmono n))).
Proof.
  intros N i HN HM E. destruct (delta1_inverse_spec N HN HM) as (d & i' & Ed & E' & _ & K & F). assert (i' = i) by congruence. subst i'.
  assert (R: forall n, 0 <= n <= N -> n * coef i (qmono n) = 24 * zsum (map (fun k => sigma 1 k * coef i (qmono (n - k))) (upto n))).
  { intros n Hn. apply (logd_coef N); [exact Hn|apply (qkey_qnonneg N), K|apply logd_inverse; assumption]. }
  split; [|split; [exact R|]].
  - destruct (delta1_spec N HN HM) as (d' & Ed' & _ & Kd & _). assert (d' = d) by congruence. subst d'. destruct (c118_delta N d HN HM Ed) as (D0 & _).
    assert (Ud: unit_ser d). { apply (unit_upto N (eta_product N)); [exact HN| |apply eprod_unit; intros n Hn; apply in_upto in Hn; lia]. destruct (delta1_spec N HN HM) as (d' & Ed'' & _ & _ & Fd). assert (d' = d) by congruence. subst d'. symmetry. exact Fd. }
    (* coefficient of q^0 in i d *)
    assert (P: coef (conv i d) (qmono 0) = coef i (qmono 0)).
    { assert (G: feq (conv i d) (fadd (conv i (fsub d (fconst 1))) i)) by (generalize (i : fsum), (d : fsum); intros; ring). rewrite G. unfold fadd. rewrite coef_app.
      assert (O: ord_ge (0 + 1) (conv i (fsub d (fconst 1)))) by (apply ord_conv; [apply ord_qnonneg, (qkey_qnonneg N), K|exact Ud]). rewrite O by (cbn; lia). ring. }
    rewrite <- P, F by (cbn; lia). reflexivity.
  - intros n Hn. rewrite (R n Hn). exists (zsum (map (fun k => sigma 1 k * coef i (qmono (n - k))) (upto n))). ring.
Qed.
(** C118: a series is determined by these recurrences: whatever starts with 1 and obeys the first one is the series delta1 computes. *)
Lemma c118_unique : forall N d (f : Z -> Z), 0 <= N -> 2 * N + 1 <= i32_max -> delta1 N = Ok d -> f 0 = 1 ->
  (forall n, 1 <= n <= N -> n * f n = -24 * fold_right Z.add 0 (map (fun k => sigma 1 k * f (n - k)) (upto n))) ->
  forall n, 0 <= n <= N -> coef d (qmono n) = f n.
Proof.
  intros N d f HN HM E F0 Hf. destruct (c118_delta N d HN HM E) as (D0 & R & _).
  assert (G: forall k n, (Z.to_nat n <= k)%nat -> 0 <= n <= N -> coef d (qmono n) = f n).
  { induction k as [|k IH]; intros n Hk Hn; [replace n with 0 by lia; congruence|].
    destruct (Z.eq_dec n 0) as [->|N0]; [congruence|]. apply (Z.mul_reg_l _ _ n N0). rewrite (R n Hn), (Hf n) by lia. f_equal. f_equal. apply map_ext_in. intros j Hj. apply in_upto in Hj.
    f_equal. apply IH; lia. }
  intros n Hn. apply (G (Z.to_nat n)); lia.
Qed.
Example c118_case : exists d, delta1 6 = Ok d /\ map (fun n => coef d (qmono n)) [0; 1; 2; 3; 4; 5; 6] = [1; -24; 252; -1472; 4830; -6048; -16744] /\
  6 * -16744 = -24 * (1 * -6048 + 3 * 4830 + 4 * -1472 + 7 * 252 + 6 * -24 + 12 * 1) /\ 2 * 6 + 1 <= i32_max.
Proof. eexists. split; [vm_compute; reflexivity|]. split; [vm_compute; reflexivity|]. split; [reflexivity|unfold i32_max; lia]. Qed.

(** ** Divisor sums *)
Definition divs (n : Z) : list Z := filter (fun d => n mod d =? 0) (upto n).
Lemma in_divs n d : 0 < n -> In d (divs n) <-> 0 < d /\ (d | n).
Proof.
  intros Hn. unfold divs. rewrite filter_In, in_upto. split.
  - intros (H & E). split; [lia|]. apply Z.mod_divide; lia.
  - intros (H & D). split; [split; [lia|apply Z.divide_pos_le; assumption]|]. apply Z.mod_divide in D; lia.
Qed.
Lemma divs_NoDup n : NoDup (divs n).
Proof. apply NoDup_filter, upto_NoDup. Qed.
Lemma sigma_divs k n : sigma k n = zsum (map (fun d => d ^ k) (divs n)).
Proof. reflexivity. Qed.
Lemma zsum_perm l l' : Permutation l l' -> zsum l = zsum l'.
Proof. induction 1; cbn [zsum fold_right]; unfold zsum in *; lia. Qed.
Lemma zsum_prod (f : Z -> Z) l l' : zsum (map (fun p => f (fst p) * f (snd p)) (list_prod l l')) = zsum (map f l) * zsum (map f l').
Proof.
  induction l as [|a l IH]; [reflexivity|]. cbn [list_prod]. rewrite map_app, zsum_app, IH, map_map. cbn [fst snd map zsum fold_right]. fold (zsum (map f l)). rewrite zsum_scale. ring.
Qed.
Lemma sigma_mult k a b : 0 <= k -> 0 < a -> 0 < b -> rel_prime a b -> sigma k (a * b) = sigma k a * sigma k b.
Proof.
  intros Hk Ha Hb R. rewrite !sigma_divs, <- zsum_prod.
  assert (P: Permutation (divs (a * b)) (map (fun p => fst p * snd p) (list_prod (divs a) (divs b)))).
  { apply NoDup_Permutation.
    - apply divs_NoDup.
    - assert (I: forall l, NoDup l -> (forall p q, In p l -> In q l -> fst p * snd p = fst q * snd q -> p = q) -> NoDup (map (fun p : Z * Z => fst p * snd p) l)).
      { induction l as [|p l IH]; intros Hd Hi; [constructor|]. inversion Hd; subst. cbn [map]. constructor.
        - intros X. apply in_map_iff in X. destruct X as (q & E & Hq). assert (q = p) by (apply Hi; [right; exact Hq|left; reflexivity|exact E]). subst. contradiction.
        - apply IH; [assumption|]. intros; apply Hi; [right; assumption|right; assumption|assumption]. }
      apply I.
      + assert (G: forall l l' : list Z, NoDup l -> NoDup l' -> NoDup (list_prod l l')).
        { induction l as [|x l IH]; intros l' Hl Hl'; [constructor|]. inversion Hl; subst. cbn [list_prod]. 
          assert (A: forall u v : list (Z * Z), NoDup u -> NoDup v -> (forall z, In z u -> ~ In z v) -> NoDup (u ++ v)).
          { induction u as [|z u IHu]; intros v Hu Hv Hz; [exact Hv|]. inversion Hu; subst. cbn [app]. constructor.
            - rewrite in_app_iff. intros [X|X]; [contradiction|]. apply (Hz z); [left; reflexivity|exact X].
            - apply IHu; auto. intros w Hw. apply Hz. right; exact Hw. }
          apply A; [apply FinFun.Injective_map_NoDup; [intros u v Huv; congruence|exact Hl']|apply IH; assumption|].
          intros z Hz X. apply in_map_iff in Hz. destruct Hz as (y & <- & _). apply in_prod_iff in X. destruct X. contradiction. }
        apply G; apply divs_NoDup.
      + intros [x y] [x' y'] H1 H2. apply in_prod_iff in H1. apply in_prod_iff in H2. rewrite !in_divs in H1, H2 by assumption. cbn [fst snd]. intros E.
        assert (Q: forall u v u' v', 0 < u -> (u | a) -> 0 < u' -> (u' | a) -> (v | b) -> (v' | b) -> u * v = u' * v' -> (u | u')).
        { intros u v u' v' U1 U2 U3 U4 V V' Euv. apply Gauss with v'; [exists v; lia|]. apply rel_prime_div with a; [|exact U2]. apply rel_prime_sym. apply rel_prime_div with b; [|exact V']. apply rel_prime_sym, R. }
        destruct H1 as ((X1 & X2) & Y1 & Y2), H2 as ((X1' & X2') & Y1' & Y2').
        assert (Exx: x = x'). { apply Z.divide_antisym_nonneg; [lia|lia| |]; [apply (Q x y x' y')|apply (Q x' y' x y)]; auto. }
        subst x'. apply Z.mul_reg_l in E; [congruence|lia].
    - intros d. rewrite in_divs by lia. split.
      + intros (D1 & D2). pose (g := Z.gcd d a). assert (Hg: 0 < g) by (assert (0 <= g) by apply Z.gcd_nonneg; assert (g <> 0) by (intros Z0; apply Z.gcd_eq_0 in Z0; lia); lia).
        destruct (Z.gcd_divide_l d a) as (e & Ee). fold g in Ee. apply in_map_iff. exists (g, e). cbn [fst snd]. split; [lia|]. apply in_prod_iff. rewrite !in_divs by assumption.
        split; [split; [exact Hg|apply Z.gcd_divide_r]|]. assert (0 < e) by nia. split; [assumption|].
        (* e | b : d | a b, gcd (e, a/g) = 1 *)
        destruct (Z.gcd_divide_r d a) as (a' & Ea). fold g in Ea. assert (Re: rel_prime e a').
        { apply Zgcd_1_rel_prime. assert (X: Z.gcd d a = g * Z.gcd e a') by (rewrite Ee at 1; rewrite Ea at 1; rewrite Z.gcd_mul_mono_r_nonneg by lia; ring). fold g in X. nia. }
        apply Gauss with a'; [|exact Re]. destruct D2 as (f & Ef). exists f. apply (Z.mul_reg_l _ _ g); [lia|]. rewrite Ee, Ea in Ef. lia.
      + intros X. apply in_map_iff in X. destruct X as ([x y] & <- & X). apply in_prod_iff in X. rewrite !in_divs in X by assumption. cbn [fst snd]. destruct X as ((X1 & X2) & Y1 & Y2).
        split; [nia|]. apply Z.mul_divide_mono_l with (p := x) in Y2. apply Z.divide_trans with (x * b); [exact Y2|]. apply Z.mul_divide_mono_r. exact X2. }
  rewrite (zsum_perm _ _ (Permutation_map (fun d => d ^ k) P)). rewrite map_map. f_equal. apply map_ext. intros [x y]. cbn [fst snd]. apply Z.pow_mul_l.
Qed.
(** C119: sigma_divisor is multiplicative on coprime arguments. *)
Lemma c119_multiplicative : forall a b k x y, 0 <= k -> 0 < a -> 0 < b -> a * b < i32_max -> rel_prime a b ->
  sigma_divisor a k = Ok x -> sigma_divisor b k = Ok y -> sigma_divisor (a * b) k = Ok (x * y).
Proof.
  intros a b k x y Hk Ha Hb HM R Ex Ey. assert (a <= a * b) by nia. assert (b <= a * b) by nia. rewrite sigma_spec in Ex by lia. rewrite sigma_spec in Ey by lia. rewrite sigma_spec by lia.
  assert (x = sigma k a) by congruence. assert (y = sigma k b) by congruence. subst. rewrite sigma_mult; auto.
Qed.
Lemma prime_pow_divs p e : prime p -> forall d, 0 < d -> (d | p ^ Z.of_nat e) -> exists i, (i <= e)%nat /\ d = p ^ Z.of_nat i.
Proof.
  intros Pp. assert (1 < p) by (destruct Pp; lia). induction e as [|e IH]; intros d Hd D.
  - exists O. split; [lia|]. cbn in *. apply Z.divide_1_r_nonneg in D; lia.
  - rewrite Nat2Z.inj_succ, Z.pow_succ_r in D by lia. destruct (Zdivide_dec p d) as [(d' & E)|Np].
    + destruct (IH d') as (i & Hi & Ei); [nia| |].
      * destruct D as (f & Ef). exists f. apply (Z.mul_reg_l _ _ p); [lia|]. rewrite E in Ef. lia.
      * exists (S i). split; [lia|]. rewrite Nat2Z.inj_succ, Z.pow_succ_r by lia. rewrite <- Ei. lia.
    + destruct (IH d Hd) as (i & Hi & Ei); [|exists i; split; [lia|exact Ei]]. apply Gauss with p; [exact D|]. apply rel_prime_sym. apply prime_rel_prime; assumption.
Qed.
(** C119: on a prime power, the sum 1 + p^k + p^2k + ... + p^ek. *)
Lemma c119_prime_power : forall p e k, prime p -> 0 <= k -> p ^ Z.of_nat e < i32_max ->
  sigma_divisor (p ^ Z.of_nat e) k = Ok (fold_right Z.add 0 (map (fun i => p ^ (k * Z.of_nat i)) (seq 0 (S e)))).
Proof.
  intros p e k Pp Hk HM. assert (1 < p) by (destruct Pp; lia). assert (0 < p ^ Z.of_nat e) by (apply Z.pow_pos_nonneg; lia). rewrite sigma_spec by lia. f_equal. rewrite sigma_divs.
  assert (P: Permutation (divs (p ^ Z.of_nat e)) (map (fun i => p ^ Z.of_nat i) (seq 0 (S e)))).
  { apply NoDup_Permutation; [apply divs_NoDup| |].
    - apply FinFun.Injective_map_NoDup; [|apply seq_NoDup]. intros i j E. apply Z.pow_inj_r in E; lia.
    - intros d. rewrite in_divs by assumption. rewrite in_map_iff. split.
      + intros (D1 & D2). destruct (prime_pow_divs p e Pp d D1 D2) as (i & Hi & ->). exists i. split; [reflexivity|]. apply in_seq. lia.
      + intros (i & <- & Hi). apply in_seq in Hi. split; [apply Z.pow_pos_nonneg; lia|]. exists (p ^ Z.of_nat (e - i)). rewrite <- Z.pow_add_r by lia. f_equal. lia. }
  rewrite (zsum_perm _ _ (Permutation_map (fun d => d ^ k) P)), map_map. unfold zsum. f_equal. apply map_ext. intros i. rewrite <- Z.pow_mul_r by lia. f_equal. lia.
Qed.
Lemma zsum_ge (f : Z -> Z) l : (forall x, In x l -> 0 <= f x) -> forall t, NoDup t -> incl t l -> zsum (map f t) <= zsum (map f l).
Proof.
  induction l as [|a l IH]; intros Hf t Ht Hi.
  - destruct t as [|b t]; [reflexivity|]. destruct (Hi b); left; reflexivity.
  - destruct (in_dec Z.eq_dec a t) as [Ia|Na].
    + apply in_split in Ia. destruct Ia as (t1 & t2 & ->). apply NoDup_remove in Ht. destruct Ht as (Ht & Na).
      assert (L: zsum (map f (t1 ++ t2)) <= zsum (map f l)).
      { apply IH; [intros; apply Hf; right; assumption|exact Ht|]. intros x Hx. destruct (Hi x) as [->|X]; [apply in_app_iff in Hx; apply in_app_iff; cbn [In]; tauto|contradiction|exact X]. }
      rewrite map_app, zsum_app in *. cbn [map zsum fold_right] in *. fold (zsum (map f t2)). fold (zsum (map f l)). lia.
    + assert (L: zsum (map f t) <= zsum (map f l)).
      { apply IH; [intros; apply Hf; right; assumption|exact Ht|]. intros x Hx. destruct (Hi x Hx) as [->|X]; [contradiction|exact X]. }
      cbn [map zsum fold_right]. fold (zsum (map f l)). pose proof (Hf a (or_introl eq_refl)). lia.
Qed.
(** C119: it recognises primes: for n >= 2 the value is 1 + n^k exactly when n is prime. *)
Lemma c119_prime_test : forall n k, 0 <= k -> 2 <= n < i32_max -> (sigma_divisor n k = Ok (1 + n ^ k) <-> prime n).
Proof.
  intros n k Hk Hn. split.
  - intros E. rewrite sigma_spec in E by lia. assert (Es: sigma k n = 1 + n ^ k) by congruence. rewrite sigma_divs in Es.
    destruct (prime_dec n) as [P|Np]; [exact P|exfalso]. destruct (not_prime_divide n ltac:(lia) Np) as (d & Hd & D).
    assert (L: zsum (map (fun d => d ^ k) [1; d; n]) <= zsum (map (fun d => d ^ k) (divs n))).
    { apply zsum_ge.
      - intros x Hx. apply in_divs in Hx; [|lia]. apply Z.pow_nonneg. lia.
      - repeat constructor; cbn; intuition lia.
      - intros x Hx. apply in_divs; [lia|]. destruct Hx as [<-|[<-|[<-|[]]]]; [split; [lia|apply Z.divide_1_l]|split; [lia|exact D]|split; [lia|apply Z.divide_refl]]. }
    rewrite Es in L. cbn [map zsum fold_right] in L. rewrite Z.pow_1_l in L by lia. assert (0 < d ^ k) by (apply Z.pow_pos_nonneg; lia). lia.
  - intros P. assert (E: n = n ^ Z.of_nat 1) by (cbn [Z.of_nat Pos.of_succ_nat]; rewrite Z.pow_1_r; reflexivity). rewrite E at 1.
    rewrite c119_prime_power; [|exact P|exact Hk|rewrite <- E; lia]. cbn [seq map fold_right Z.of_nat Pos.of_succ_nat]. rewrite Z.mul_0_r, Z.mul_1_r. rewrite Z.pow_0_r. f_equal. ring.
Qed.
Example c119_case : sigma_divisor 4 3 = Ok 73 /\ sigma_divisor 9 3 = Ok 757 /\ sigma_divisor 36 3 = Ok (73 * 757) /\ sigma_divisor 7 3 = Ok (1 + 7 ^ 3) /\ sigma_divisor 4 3 <> Ok (1 + 4 ^ 3).
Proof. split; [reflexivity|]. split; [reflexivity|]. split; [reflexivity|]. split; [reflexivity|discriminate]. Qed.

(** ** Congruences *)
Lemma e4_feqm N e : 0 <= N < i32_max -> eisenstein4 N = Ok e -> exists X, feq e (fadd (fconst 1) (conv (fconst 240) X)).
Proof.
  intros HN E. destruct (eisenstein4_spec N HN) as (e' & E' & _ & _ & _ & F). assert (e' = e) by congruence. subst e'. exists (qser (sigma 3) N).
  rewrite F. intros m. unfold fadd. rewrite coef_app, coef_constmul. unfold e4_sum, qser. cbn [coef fconst]. rewrite <- Z.add_assoc, Z.add_0_l. f_equal.
  generalize (upto N). induction l as [|a l IH]; [reflexivity|]. cbn [map coef]. rewrite IH. destruct (mono_eqb (qmono a) m); ring.
Qed.
Lemma cube_feqm e X : feq e (fadd (fconst 1) (conv (fconst 240) X)) -> feqm 720 (fpow e 3) (fconst 1).
Proof.
  intros H m. set (Y := conv (fconst 240) X) in *.
  assert (C: feq (fpow e 3) (fadd (fconst 1) (fadd (fadd Y (fadd Y Y)) (fadd (fadd (conv Y Y) (fadd (conv Y Y) (conv Y Y))) (conv Y (conv Y Y)))))) by (cbn [fpow]; rewrite H; ring).
  rewrite C. unfold fadd. rewrite !coef_app. assert (A: coef Y m = 240 * coef X m) by apply coef_constmul.
  assert (B: coef (conv Y Y) m = 240 * coef (conv X Y) m) by (transitivity (coef (conv (fconst 240) (conv X Y)) m); [symmetry; apply (conv_assoc (fconst 240) X Y m)|apply coef_constmul]).
  assert (D: coef (conv Y (conv Y Y)) m = 240 * (240 * coef (conv X (conv X Y)) m)).
  { transitivity (coef (conv (fconst 240) (conv X (conv Y Y))) m); [symmetry; apply (conv_assoc (fconst 240) X (conv Y Y) m)|]. rewrite coef_constmul. f_equal. assert (G: feq (conv X (conv Y Y)) (conv (fconst 240) (conv X (conv X Y)))) by (unfold Y; ring). rewrite G. apply coef_constmul. }
  rewrite A, B, D. exists (coef X m + coef (conv X Y) m + 80 * coef (conv X (conv X Y)) m). ring.
Qed.
(** C120: eisenstein4 is 1 modulo 240, and j_invariant1 agrees with delta1_inverse modulo 720 at every order it computes. *)
Lemma c120_mod720 : forall N e i r, 0 <= N -> 3 * N + 1 <= i32_max -> eisenstein4 N = Ok e -> delta1_inverse N = Ok i -> j_invariant1 N = Ok r ->
  feqm 240 e (fconst 1) /\ (forall n, n <= N -> (720 | coef r (qmono n) - coef i (qmono n))).
Proof.
  intros N e i r HN HM Ee Ei Er. destruct (j1_spec N HN HM) as (e' & d & i' & r' & Ee' & Ed & Ei' & Er' & _ & _ & F & _).
  assert (e' = e) by congruence. assert (i' = i) by congruence. assert (r' = r) by congruence. subst e' i' r'. destruct (e4_feqm N e ltac:(unfold i32_max in *; lia) Ee) as (X & HX). split.
  - intros m. rewrite (HX m). unfold fadd. rewrite coef_app, coef_constmul. exists (coef X m). ring.
  - intros n Hn. rewrite (F (qmono n)) by (cbn; lia). pose proof (conv_proper_r 720 i _ _ (cube_feqm e X HX) (qmono n)) as C. rewrite (conv_comm i (fconst 1) (qmono n)), (conv_1_l i (qmono n)) in C. exact C.
Qed.
(** C120: hence (n + 1) times the coefficient of q^n in j is a multiple of 24, at every order. *)
Lemma c120_j24 : forall N j n, -1 <= N -> 3 * (N + 1) + 1 <= i32_max -> j_invariant N = Ok j -> (24 | (n + 1) * coef j (qmono n)).
Proof.
  intros N j n HN HM Ej. destruct (c43_j N HN HM) as (r & j' & Er & Ej' & _ & Sh & _ & Kj). assert (j' = j) by congruence. subst j'.
  destruct (Z_le_gt_dec n N) as [L|G]; [destruct (Z_le_gt_dec (-1) n) as [L'|G']|].
  - destruct (j1_spec (N + 1) ltac:(lia) HM) as (e & d & i & r' & Ee & Ed & Ei & Er' & _). assert (r' = r) by congruence. subst r'.
    destruct (c120_mod720 (N + 1) e i r ltac:(lia) HM Ee Ei Er) as (_ & C). specialize (C (n + 1) ltac:(lia)). destruct C as (t & Et).
    destruct (c118_inverse (N + 1) i ltac:(lia) ltac:(lia) Ei) as (_ & _ & D). destruct (D (n + 1) ltac:(lia)) as (s & Es). rewrite Sh.
    exists (30 * t * (n + 1) + s). replace (coef r (qmono (n + 1))) with (coef i (qmono (n + 1)) + t * 720) by lia. lia.
  - rewrite coef_notin; [rewrite Z.mul_0_r; apply Z.divide_0_r|]. intros c Hi. destruct (Kj _ _ Hi) as (k & Hk & E). apply qmono_inj in E. lia.
  - rewrite coef_notin; [rewrite Z.mul_0_r; apply Z.divide_0_r|]. intros c Hi. destruct (Kj _ _ Hi) as (k & Hk & E). apply qmono_inj in E. lia.
Qed.
Example c120_case : exists j, j_invariant 4 = Ok j /\ coef j (qmono 4) = 20245856256 /\ (24 | 5 * 20245856256) /\ 20245856256 mod 24 = 0 /\ 196884 mod 24 <> 0 /\ (24 | 2 * 196884).
Proof.
  eexists. split; [vm_compute; reflexivity|]. split; [vm_compute; reflexivity|]. split; [exists 4217886720; reflexivity|]. split; [reflexivity|]. split; [discriminate|exists 16407; reflexivity].
Qed.
