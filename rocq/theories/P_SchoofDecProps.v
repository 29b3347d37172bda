(** Lemmas behind the property theorems C116 and C117. *)
From Coq Require Import Znumtheory ZifyBool Setoid Morphisms Ring.
From Verif Require Import Prelude M_Bigint M_Variable M_Term M_Poly M_DivPoly M_Schoof Spec P_Bigint P_Variable P_FSum P_Poly P_Rem P_PolyProps P_Subst P_Subst2 P_Subst3 P_SubstProps P_DivPoly P_DivPoly5 P_DivProps P_Binom P_NormalProps P_Mod P_Gcd P_MulProps P_DisplayProps P_SchoofVal P_XQuotProps SpecSchoof P_SchoofId P_SchoofId2 P_SchoofId3.
Open Scope Z_scope.

Section Top.
Variables (a b q : Z).
Hypothesis Pq : prime q.
Lemma pow2 s : i32_pow q 2 = Ok s -> s = q ^ 2 /\ 0 <= s <= i32_max.
Proof.
  unfold i32_pow. intros H. change (2 =? 0) with false in H. cbv iota in H. destruct (pow_loop_sound (halvings 2) 2 q 1 ltac:(lia) ltac:(lia)) as [E|(E & R)]; rewrite H in E; [discriminate|].
  assert (s = 1 * q ^ 2) as -> by congruence. rewrite Z.mul_1_l in *. pose proof (Z.pow_nonneg q 2). pose proof (prime_ge_2 q Pq). unfold i32_range in R. split; [reflexivity|]. lia.
Qed.
Lemma phi_ok n : 1 <= n <= 5 -> exists r, phi a b n = Ok r.
Proof. intros Hn. destruct (c50_phi a b n ltac:(lia)) as (r & _ & _ & _ & E & _). exists r. exact E. Qed.
Lemma omega_ok n : 1 <= n <= 5 -> exists r, omega a b n = Ok r.
Proof. intros Hn. destruct (Z.eq_dec n 1) as [-> | N]; [eexists; apply c50_omega_one|]. destruct (c50_omega a b n ltac:(lia)) as (r & _ & _ & _ & _ & E & _). exists r. exact E. Qed.
Ltac bd H z Hz := apply bind_Ok in H; destruct H as (z & Hz & H).
(** One prime l. *)
Lemma core fuel l m : l = 3 \/ l = 5 -> l < q -> schoof_l fuel a b q l = Ok m -> mr_l m = l /\
  ((exists j, 1 <= j <= (l - 1) / 2 /\ x_matches a b q l j /\ (forall k, 1 <= k < j -> ~ x_matches a b q l k) /\
      ((mr_r m = j /\ y_matches (-1) a b q l j) \/ (mr_r m = l - j /\ ~ y_matches (-1) a b q l j))) \/
   ((forall k, 1 <= k <= (l - 1) / 2 -> ~ x_matches a b q l k) /\
      ((mr_r m = 0 /\ forall w, 1 <= w < l -> (w * w) mod l <> q mod l) \/
       exists w, 1 <= w < l /\ (w * w) mod l = q mod l /\ (forall v, 1 <= v < w -> (v * v) mod l <> q mod l) /\
         ((mr_r m = 0 /\ ~ w_matches q a b q l w) \/ ((mr_r m = 2 * w \/ mr_r m = l - 2 * w) /\ w_matches q a b q l w))))).
Proof.
  intros Hl Hlq H. unfold schoof_l in H. bd H q2' Hq2. apply pow2 in Hq2. bd H nd Hn. destruct nd as (num1 & den1). bd H d Hd. bd H psl Hpl. bd H fj Hf.
  assert (Hq : 1 <= q mod l < l).
  { pose proof (Z.mod_pos_bound q l ltac:(lia)). enough (q mod l <> 0) by lia. intros Z0. apply Z.mod_divide in Z0; [|lia]. destruct (prime_divisors q Pq l Z0) as [|[|[|]]]; lia. }
  destruct (psi_ok a b (q mod l) ltac:(lia)) as (ps & Es). destruct (phi_ok (q mod l) ltac:(lia)) as (ph & Ef). destruct (omega_ok (q mod l) ltac:(lia)) as (om & Ew).
  destruct (num1_den1_id a b q Pq q2' Hq2 (q mod l) ps ph om num1 den1 ltac:(lia) Es Ef Ew Hn) as (V1 & V2).
  destruct (psi_div a b q Pq a l d psl Hl Hlq Hd Hpl) as (Sl & Ol & HD & HL & CR).
  assert (Jr : forall k, In k (zrange 1 ((l - 1) ÷ 2 + 1)) <-> 1 <= k <= (l - 1) / 2) by (intros k; rewrite in_zrange; destruct Hl as [-> | ->]; [change ((3 - 1) ÷ 2 + 1) with 2; change ((3 - 1) / 2) with 1|change ((5 - 1) ÷ 2 + 1) with 3; change ((5 - 1) / 2) with 2]; lia).
  assert (J5 : forall k, 1 <= k <= (l - 1) / 2 -> 1 <= k <= 5 /\ 2 * k < l) by (intros k; destruct Hl as [-> | ->]; [change ((3 - 1) / 2) with 1|change ((5 - 1) / 2) with 2]; lia).
  assert (XM : forall k, 1 <= k <= (l - 1) / 2 -> (x_matches a b q l k <-> xm a b q psl (sum_xnum q ps ph om) (sum_xden q ps ph) k)).
  { intros k Hk. unfold x_matches, xm. split.
    - intros (d' & ps' & ph' & om' & psj & phj & A1 & A2 & A3 & A4 & A5 & A6 & M). exists psj, phj. split; [exact A5|]. split; [exact A6|].
      assert (d' = d) as -> by congruence. assert (ps' = ps) as -> by congruence. assert (ph' = ph) as -> by congruence. assert (om' = om) as -> by congruence. apply (multiple_div a b q _ _ _ CR). exact M.
    - intros (psj & phj & A5 & A6 & M). exists d, ps, ph, om, psj, phj. do 6 (split; [assumption|]). unfold x_match. apply (multiple_div a b q _ _ _ CR). exact M. }
  pose proof (find_j_id a b q Pq fuel num1 den1 psl _ _ Sl Ol HD HL V1 V2 (zrange 1 ((l - 1) ÷ 2 + 1)) fj ltac:(intros k I; apply Jr in I; apply J5 in I; lia) Hf) as FJ. destruct fj as [j|].
  - destruct FJ as (js1 & js2 & ES & X & L). assert (Ij : 1 <= j <= (l - 1) / 2) by (apply Jr; rewrite ES; apply in_app_iff; right; left; reflexivity).
    destruct (J5 j Ij) as (J1 & J2). destruct X as (psj & phj & A5 & A6 & M). destruct (omega_ok j J1) as (omj & A7).
    pose proof (found_id a b q Pq q2' Hq2 fuel l (q mod l) psl j m ps ph om psj omj ltac:(lia) J1 ltac:(lia) Sl Ol HD HL Es Ef Ew A5 A7 H) as F.
    assert (YM : y_matches (-1) a b q l j <-> y_match (-1) a b q psl ps ph om psj omj).
    { unfold y_matches. split.
      - intros (d' & ps' & ph' & om' & psj' & omj' & B1 & B2 & B3 & B4 & B5 & B6 & N).
        assert (d' = d) as -> by congruence. assert (ps' = ps) as -> by congruence. assert (ph' = ph) as -> by congruence. assert (om' = om) as -> by congruence. assert (psj' = psj) as -> by congruence. assert (omj' = omj) as -> by congruence.
        apply (multiple_div a b q _ _ _ CR). exact N.
      - intros N. exists d, ps, ph, om, psj, omj. do 6 (split; [assumption|]). apply (multiple_div a b q _ _ _ CR). exact N. }
    rewrite <- YM in F. split; [destruct F as [(-> & _)|(-> & _)]; reflexivity|]. left. exists j. split; [exact Ij|]. split; [apply XM; [exact Ij|]; exists psj, phj; auto|]. split.
    + intros k Hk. rewrite XM by lia. apply L. clear - ES Hk Ij Hl. destruct Hl as [-> | ->].
      * change ((3 - 1) / 2) with 1 in Ij. lia.
      * change ((5 - 1) / 2) with 2 in Ij. change (zrange 1 ((5 - 1) ÷ 2 + 1)) with [1; 2] in ES. destruct js1 as [|z js1]; [injection ES; intros; subst; lia|]. injection ES; intros. left. lia.
    + destruct F as [(-> & Y)|(-> & Y)]; [left|right]; split; try exact Y; reflexivity.
  - destruct (psi_ok q b l ltac:(lia)) as (psd & Ed). pose proof (not_found_id a b q Pq q2' Hq2 fuel l (q mod l) m psd Hl Hlq Ed H) as NF.
    pose proof (find_w_id q Pq l (q mod l) (zrange 1 l)) as FW. destruct (find_w l (q mod l) (zrange 1 l)) as [w|].
    + destruct FW as (i1 & i2 & EW & Rw & Lw). assert (Hw : 1 <= w < l) by (apply in_zrange; rewrite EW; apply in_app_iff; right; left; reflexivity).
      destruct NF as (psw & phw & B1 & B2 & F).
      assert (WM : w_matches q a b q l w <-> w_match a b q psd psw phw).
      { unfold w_matches. split; [|intros N; exists psd, psw, phw; auto]. intros (d' & psw' & phw' & C1 & C2 & C3 & N). assert (d' = psd) as -> by congruence. assert (psw' = psw) as -> by congruence. assert (phw' = phw) as -> by congruence. exact N. }
      rewrite <- WM in F. assert (Fl : mr_l m = l) by (destruct F as [(-> & _)|([-> | ->] & _)]; reflexivity). split; [exact Fl|]. right. split; [intros k Hk; rewrite XM by exact Hk; apply FJ, Jr, Hk|].
      right. exists w. split; [exact Hw|]. split; [exact Rw|]. split.
      * intros v Hv. apply Lw. assert (Iv : In v (zrange 1 l)) by (apply in_zrange; lia). rewrite EW in Iv. apply in_app_iff in Iv as [Iv|Iv]; [exact Iv|]. exfalso.
        clear - EW Iv Hv Hl Hw. destruct Hl as [-> | ->].
        -- change (zrange 1 3) with [1; 2] in EW. destruct i1 as [|z1 i1]; [injection EW; intros; subst; lia|]. injection EW as <- EW'. destruct i1 as [|z2 i1]; [injection EW'; intros; subst; destruct Iv as [|[]]; lia|]. injection EW' as <- EW''. destruct i1; discriminate.
        -- change (zrange 1 5) with [1; 2; 3; 4] in EW. destruct i1 as [|z1 i1]; [injection EW; intros; subst; lia|]. injection EW as <- EW'.
           destruct i1 as [|z2 i1]; [injection EW'; intros; subst; cbn [In] in Iv; lia|]. injection EW' as <- EW''.
           destruct i1 as [|z3 i1]; [injection EW''; intros; subst; cbn [In] in Iv; lia|]. injection EW'' as <- EW3.
           destruct i1 as [|z4 i1]; [injection EW3; intros; subst; cbn [In] in Iv; lia|]. injection EW3 as <- EW4. destruct i1; discriminate.
      * destruct F as [(-> & W)|([-> | ->] & W)]; [left|right|right]; (split; [|exact W]); cbn [mr_r]; auto.
    + subst m. split; [reflexivity|]. right. split; [intros k Hk; rewrite XM by exact Hk; apply FJ, Jr, Hk|]. left. split; [reflexivity|]. intros w Hw. apply FW, in_zrange, Hw.
Qed.
Lemma entry fuel L l r : schoof fuel a b q = Ok L -> In (mkMod l r) L -> 3 <= l -> (l = 3 \/ l = 5) /\ l < q /\ schoof_l fuel a b q l = Ok (mkMod l r).
Proof.
  intros H I Hl. unfold schoof in H. bd H m2 H2. cbn [schoof_loop] in H.
  assert (E2 : mr_l m2 = 2). { unfold schoof_l2 in H2. cbv zeta in H2. bd H2 g1 Hg. assert (m2 = mkMod 2 (if g1 then 1 else 0)) as -> by congruence. reflexivity. }
  assert (S : forall l' m, l' = 3 \/ l' = 5 -> l' < q -> schoof_l fuel a b q l' = Ok m -> m = mkMod l r -> (l = 3 \/ l = 5) /\ l < q /\ schoof_l fuel a b q l = Ok (mkMod l r)).
  { intros l' m A B D ->. pose proof (proj1 (core fuel l' _ A B D)) as E. cbn [mr_l] in E. subst l'. auto. }
  destruct (q <=? 3) eqn:E3.
  - assert (L = [m2]) as -> by congruence. destruct I as [-> |[]]. cbn [mr_l] in E2. lia.
  - bd H m3 H3. destruct (q <=? 5) eqn:E5.
    + assert (L = [m2; m3]) as -> by (cbn [app] in H; congruence). destruct I as [-> |[I|[]]]; [cbn [mr_l] in E2; lia|]. exact (S 3 m3 ltac:(lia) ltac:(lia) H3 I).
    + bd H m5 H5. assert (L = [m2; m3; m5]) as -> by (cbn [app] in H; congruence). destruct I as [-> |[I|[I|[]]]]; [cbn [mr_l] in E2; lia| |]; [exact (S 3 m3 ltac:(lia) ltac:(lia) H3 I)|exact (S 5 m5 ltac:(lia) ltac:(lia) H5 I)].
Qed.
End Top.

(** C116: for l = 3 and 5 the residue is j or l - j for the least j whose x-coordinate matches. *)
Lemma c116_least : forall fuel a b q L l r j, prime q -> schoof fuel a b q = Ok L -> In (mkMod l r) L -> 3 <= l ->
  1 <= j <= (l - 1) / 2 -> x_matches a b q l j -> (forall k, 1 <= k < j -> ~ x_matches a b q l k) -> r = j \/ r = l - j.
Proof.
  intros fuel a b q L l r j Pq H I Hl Hj X Lj. destruct (entry a b q Pq fuel L l r H I Hl) as (Hl' & Hq & E). destruct (core a b q Pq fuel l _ Hl' Hq E) as (_ & [(j' & Hj' & X' & L' & F)|(N & _)]); [|exfalso; exact (N j Hj X)].
  assert (j' = j) as ->. { destruct (Z_lt_le_dec j' j) as [D|D]; [exfalso; exact (Lj j' ltac:(lia) X')|]. destruct (Z_lt_le_dec j j') as [D'|D']; [exfalso; exact (L' j ltac:(lia) X)|lia]. }
  cbn [mr_r] in F. destruct F as [(F & _)|(F & _)]; auto.
Qed.
(** C116: if no x-coordinate matches, the residue is 0 or a square root of 4 q modulo l. *)
Lemma c116_none : forall fuel a b q L l r, prime q -> schoof fuel a b q = Ok L -> In (mkMod l r) L -> 3 <= l ->
  (forall j, 1 <= j <= (l - 1) / 2 -> ~ x_matches a b q l j) -> r = 0 \/ (l | r ^ 2 - 4 * q).
Proof.
  intros fuel a b q L l r Pq H I Hl N. destruct (entry a b q Pq fuel L l r H I Hl) as (Hl' & Hq & E). destruct (core a b q Pq fuel l _ Hl' Hq E) as (_ & [(j' & Hj' & X' & _)|(_ & F)]); [exfalso; exact (N j' Hj' X')|].
  cbn [mr_r] in F. destruct F as [(F & _)|(w & Hw & W & _ & [(F & _)|(F & _)])]; auto. right. apply mod_eq_divide in W; [|lia]. destruct F as [-> | ->].
  - replace ((2 * w) ^ 2 - 4 * q) with (4 * (w * w - q)) by ring. apply Z.divide_mul_r, W.
  - replace ((l - 2 * w) ^ 2 - 4 * q) with (l * (l - 4 * w) + 4 * (w * w - q)) by ring. apply Z.divide_add_r; [exists (l - 4 * w); ring|apply Z.divide_mul_r, W].
Qed.
(** C116: the residue is 0 exactly when no x-coordinate matches and q is not a square modulo l or the test of its least square root w fails;
    that test uses the division polynomial of y^2 = x^3 + q x + b instead of the curve's. *)
Lemma c116_zero : forall fuel a b q L l r, prime q -> schoof fuel a b q = Ok L -> In (mkMod l r) L -> 3 <= l ->
  (r = 0 <-> (forall j, 1 <= j <= (l - 1) / 2 -> ~ x_matches a b q l j) /\
    forall w, 1 <= w < l -> (l | w ^ 2 - q) -> (forall v, 1 <= v < w -> ~ (l | v ^ 2 - q)) -> ~ w_matches q a b q l w).
Proof.
  intros fuel a b q L l r Pq H I Hl. destruct (entry a b q Pq fuel L l r H I Hl) as (Hl' & Hq & E).
  assert (SQ : forall v, (v * v) mod l = q mod l <-> (l | v ^ 2 - q)). { intros v. replace (v ^ 2) with (v * v) by ring. split; intros D; [apply mod_eq_divide in D; [exact D|lia]|apply mod_eq_divide; [lia|exact D]]. }
  destruct (core a b q Pq fuel l _ Hl' Hq E) as (_ & [(j' & Hj' & X' & L' & F)|(N & F)]); cbn [mr_r] in F.
  - split; [|intros (N & _); exfalso; exact (N j' Hj' X')]. intros ->. exfalso. assert (2 * j' < l) by (destruct Hl' as [-> | ->]; [change ((3 - 1) / 2) with 1 in Hj'|change ((5 - 1) / 2) with 2 in Hj']; lia). destruct F as [(F & _)|(F & _)]; lia.
  - destruct F as [(F & NW)|(w & Hw & W & Lw & F)].
    + split; [intros _; split; [exact N|]; intros w Hw D; exfalso; apply (NW w Hw), SQ, D|intros _; exact F].
    + destruct F as [(F & NW)|(F & MW)].
      * split; [intros _; split; [exact N|]|intros _; exact F]. intros w' Hw' D Lw'. assert (w' = w) as ->; [|exact NW].
        destruct (Z_lt_le_dec w' w) as [B|B]; [exfalso; apply (Lw w' ltac:(lia)), SQ, D|]. destruct (Z_lt_le_dec w w') as [B'|B']; [exfalso; apply (Lw' w ltac:(lia)), SQ, W|lia].
      * split; [|intros (_ & NW); exfalso; apply (NW w Hw); [apply SQ, W|intros v Hv D; apply (Lw v Hv), SQ, D|exact MW]]. intros ->. exfalso.
        assert (w <> 0 /\ 2 * w <> l) as (A & B) by (destruct Hl' as [-> | ->]; lia). destruct F as [F|F]; lia.
Qed.
Lemma fval_xpow x y n : 0 <= n -> fval x y (xpow n) = x ^ n.
Proof. intros H. unfold xpow, fmono, fval, mval; cbn [mx my]. rewrite Z.pow_0_r. ring. Qed.
Lemma fval_ypow x y n : 0 <= n -> fval x y (ypow n) = y ^ n.
Proof. intros H. unfold ypow, fmono, fval, mval; cbn [mx my]. rewrite Z.pow_0_r. ring. Qed.
Lemma nn_add u v : nonneg_xy u -> nonneg_xy v -> nonneg_xy (fadd u v).
Proof. intros A B m c I. apply in_app_iff in I as [I|I]; [exact (A m c I)|exact (B m c I)]. Qed.
Lemma nn_neg u : nonneg_xy u -> nonneg_xy (fneg u).
Proof. intros A m c I. unfold fneg in I. apply in_map_iff in I as ((m', c') & E & I). cbn [fst snd] in E. injection E; intros; subst. exact (A _ _ I). Qed.
Lemma nn_sub u v : nonneg_xy u -> nonneg_xy v -> nonneg_xy (fsub u v).
Proof. intros A B. exact (nn_add u (fneg v) A (nn_neg v B)). Qed.
Lemma nn_mono x y : 0 <= x -> 0 <= y -> nonneg_xy (fmono 1 x y 0).
Proof. intros A B m c [E|[]]. injection E; intros; subst. cbn [mx my]. lia. Qed.
Ltac nn := repeat first [assumption | simple apply nonneg_conv | simple apply nonneg_fpow | simple apply nonneg_fconst | simple apply nn_sub | simple apply nn_add | simple apply nn_mono; lia].
Lemma fval_sub x y u v : fval x y (fsub u v) = fval x y u - fval x y v.
Proof. unfold fsub. rewrite fval_app, fval_neg. ring. Qed.
Lemma fval_add x y u v : fval x y (fadd u v) = fval x y u + fval x y v.
Proof. apply fval_app. Qed.
(** What the polynomials compared mean: if [n](x, y) = (X, Y), i.e. ph = X ps^2 and om = Y ps^3 at (x, y), then sum_xnum and sum_xden are the numerator and the
    denominator of slope^2 - X - x^(q^2), and sum_ynum (s = 1) and sum_yden those of slope (x^(q^2) - x3) - y^(q^2), all scaled by the same power of ps. *)
Lemma c116_meaning : forall q ps ph om x y X Y, 0 <= q -> nonneg_xy ps -> nonneg_xy ph -> nonneg_xy om ->
  fval x y ph = X * fval x y ps ^ 2 -> fval x y om = Y * fval x y ps ^ 3 ->
  let u := x ^ (q ^ 2) in let v := y ^ (q ^ 2) in let c := fval x y ps in
  fval x y (sum_xnum q ps ph om) = c ^ 6 * ((Y - v) ^ 2 - (X + u) * (X - u) ^ 2) /\
  fval x y (sum_xden q ps ph) = c ^ 6 * (X - u) ^ 2 /\
  fval x y (sum_ynum 1 q ps ph om) = c ^ 9 * ((Y - v) * ((X + 2 * u) * (X - u) ^ 2 - (Y - v) ^ 2) - v * (X - u) ^ 3) /\
  fval x y (sum_yden q ps ph) = c ^ 9 * (X - u) ^ 3.
Proof.
  intros q ps ph om x y X Y Hq N1 N2 N3 E1 E2 u v c. pose proof (Z.pow_nonneg q 2 Hq) as Q0.
  assert (VD : fval x y (chord_D q ps om) = c ^ 3 * (Y - v)).
  { unfold chord_D. rewrite fval_sub, fval_conv, fval_fpow, fval_ypow, E2 by (nn; unfold ypow; nn). change (Z.of_nat 3) with 3. unfold c, v. ring. }
  assert (VF : fval x y (chord_F q ps ph) = c ^ 2 * (X - u)).
  { unfold chord_F. rewrite fval_sub, fval_conv, fval_fpow, fval_xpow, E1 by (nn; unfold xpow; nn). change (Z.of_nat 2) with 2. unfold c, u. ring. }
  assert (ND : nonneg_xy (chord_D q ps om)) by (unfold chord_D, ypow; nn). assert (NF : nonneg_xy (chord_F q ps ph)) by (unfold chord_F, xpow; nn).
  assert (NX : nonneg_xy (xpow (q ^ 2))) by (unfold xpow; nn). assert (NY : nonneg_xy (ypow (q ^ 2))) by (unfold ypow; nn).
  refine (conj _ (conj _ (conj _ _))).
  - unfold sum_xnum. rewrite fval_sub, fval_conv, !fval_fpow, fval_add, fval_conv, fval_fpow, fval_xpow, VD, VF, E1 by nn. fold c. fold u. change (Z.of_nat 2) with 2. ring.
  - unfold sum_xden. rewrite fval_conv, !fval_fpow, VF by nn. fold c. change (Z.of_nat 2) with 2. ring.
  - unfold sum_ynum. rewrite fval_sub, fval_conv, fval_sub, fval_conv, !fval_fpow, fval_add, !fval_conv, !fval_fconst, !fval_fpow, fval_xpow, fval_ypow, VD, VF, E1 by nn. fold c. fold u. fold v. change (Z.of_nat 2) with 2. change (Z.of_nat 3) with 3. ring.
  - unfold sum_yden. rewrite fval_conv, !fval_fpow, VF by nn. fold c. change (Z.of_nat 3) with 3. ring.
Qed.
Example c116_case : exists L, schoof 80 2 0 5 = Ok L /\ In (mkMod 3 2) L /\ x_matches 2 0 5 3 1.
Proof.
  assert (P5 : prime 5) by (apply is_prime_spec; reflexivity).
  assert (E : schoof 80 2 0 5 = Ok [mkMod 2 1; mkMod 3 2]) by (vm_compute; reflexivity). exists [mkMod 2 1; mkMod 3 2]. split; [exact E|]. split; [right; left; reflexivity|].
  destruct (entry 2 0 5 P5 80 _ 3 2 E (or_intror (or_introl eq_refl)) ltac:(lia)) as (Hl & Hq & E'). destruct (core 2 0 5 P5 80 3 _ Hl Hq E') as (_ & [(j & Hj & X & _)|(_ & F)]).
  - change ((3 - 1) / 2) with 1 in Hj. assert (j = 1) as -> by lia. exact X.
  - exfalso. cbn [mr_r] in F. destruct F as [(F & _)|(w & _ & W & _ & [(F & _)|([F|F] & _)])]; try lia. 
    + assert (w = 1) as -> by lia. discriminate.
Qed.
Definition gkb (u : fsum) : bool := forallb (fun e => (0 <=? mx (fst e)) && (mx (fst e) <=? 1000) && (0 <=? my (fst e)) && (my (fst e) <=? 1000) && (mq (fst e) =? 0) && (match mv (fst e) with None => true | Some _ => false end)) u.
Lemma gkb_good u : sorted u -> gkb u = true -> good u.
Proof.
  intros Su Gk. split; [exact Su|]. intros m c Im. unfold gkb in Gk. rewrite forallb_forall in Gk. specialize (Gk _ Im). cbn [fst] in Gk. unfold gk, i32_max. destruct (mv m); [rewrite Bool.andb_false_r in Gk; discriminate|]. repeat split; lia.
Qed.
Lemma decide_multiple fuel a b q D f v : prime q -> sorted D -> only_x D -> 1 <= mx (tm (highest_term_x D)) -> ~ (q | tc (highest_term_x D)) ->
  gkb (nf q f) = true -> reduction_modular (nf q f) a b q = Ok v -> polynomial_modular fuel v D q = Ok [] -> multiple q a b D f.
Proof.
  intros Pq Sl Ol HD HL Gk E5 E6. pose proof (prime_ge_2 q Pq). destruct (nf_spec q f ltac:(lia)) as (Su & _ & Fu & _).
  assert (V : cl a b q (nf q f) f) by (split; [exact (gkb_good _ Su Gk)|apply feqm_cong, Fu]).
  destruct (cl_redmod a b q Pq _ _ _ E5 V) as (V5 & Y5). apply (cl_pm a b q Pq fuel v D [] f Sl Ol HD HL V5 Y5 E6). reflexivity.
Qed.
(** C117 is false: for y^2 = x^3 + 2 x over GF(5) and l = 3 the y-coordinates of the sum and of the Frobenius image agree for j = 1 (addition law, s = 1), but the residue is 2 = l - j. *)
Lemma c117_sign_refuted : exists fuel a b q L l r j, prime q /\ schoof fuel a b q = Ok L /\ In (mkMod l r) L /\ 3 <= l /\
  1 <= j <= (l - 1) / 2 /\ x_matches a b q l j /\ y_matches 1 a b q l j /\ r = l - j.
Proof.
  assert (P5 : prime 5) by (apply is_prime_spec; reflexivity). destruct c116_case as (L & E & I & X). exists 80%nat, 2, 0, 5, L, 3, 2, 1.
  refine (conj P5 (conj E (conj I (conj _ (conj _ (conj X (conj _ eq_refl))))))); [lia|change ((3 - 1) / 2) with 1; lia|].
  destruct (psi 2 0 3) as [d| |] eqn:E1; [|vm_compute in E1; discriminate|vm_compute in E1; discriminate].
  destruct (psi 2 0 2) as [ps| |] eqn:E2; [|vm_compute in E2; discriminate|vm_compute in E2; discriminate].
  destruct (phi 2 0 2) as [ph| |] eqn:E3; [|vm_compute in E3; discriminate|vm_compute in E3; discriminate].
  destruct (omega 2 0 2) as [om| |] eqn:E4; [|vm_compute in E4; discriminate|vm_compute in E4; discriminate].
  destruct (p_rem_i32 d 5) as [d'| |] eqn:E0; [|pose proof E1 as E1'; vm_compute in E1'; injection E1' as <-; vm_compute in E0; discriminate|pose proof E1 as E1'; vm_compute in E1'; injection E1' as <-; vm_compute in E0; discriminate].
  exists d, ps, ph, om, (fmono 1 0 0 0), (fmono 1 0 1 0). change (5 mod 3) with 2.
  refine (conj E1 (conj E2 (conj E3 (conj E4 (conj eq_refl (conj eq_refl _)))))).
  destruct (psi_div 2 0 5 P5 2 3 d d' ltac:(lia) ltac:(lia) E1 E0) as (Sl & Ol & HD & HL & CR). unfold y_match. apply (multiple_div 2 0 5 _ _ _ CR).
  vm_compute in E1. injection E1 as <-. vm_compute in E2. injection E2 as <-. vm_compute in E3. injection E3 as <-. vm_compute in E4. injection E4 as <-. vm_compute in E0. injection E0 as <-. 
  match goal with |- multiple _ _ _ ?dd ?f => assert (E6 : match reduction_modular (nf 5 f) 2 0 5 with Ok v => polynomial_modular 200 v dd 5 | _ => Panic end = Ok []) by (vm_compute; reflexivity);
    destruct (reduction_modular (nf 5 f) 2 0 5) as [v| |] eqn:E5; [|discriminate E6|discriminate E6]; refine (decide_multiple 200 2 0 5 dd f v P5 Sl Ol HD HL _ E5 E6) end.
  vm_compute. reflexivity.
Qed.
(** C117, the exact rule: the sign is decided by the y-coordinate computed with -x(Q1) instead of +x(Q1) (s = -1) in slope (x(Q1) + 2 x(Q2) - slope^2) - y(Q2). *)
Lemma c117_sign_partial : forall fuel a b q L l r j, prime q -> schoof fuel a b q = Ok L -> In (mkMod l r) L -> 3 <= l ->
  1 <= j <= (l - 1) / 2 -> x_matches a b q l j -> (forall k, 1 <= k < j -> ~ x_matches a b q l k) ->
  (r = j <-> y_matches (-1) a b q l j) /\ (r = l - j <-> ~ y_matches (-1) a b q l j).
Proof.
  intros fuel a b q L l r j Pq H I Hl Hj X Lj. destruct (entry a b q Pq fuel L l r H I Hl) as (Hl' & Hq & E). destruct (core a b q Pq fuel l _ Hl' Hq E) as (_ & [(j' & Hj' & X' & L' & F)|(N & _)]); [|exfalso; exact (N j Hj X)].
  assert (j' = j) as ->. { destruct (Z_lt_le_dec j' j) as [D|D]; [exfalso; exact (Lj j' ltac:(lia) X')|]. destruct (Z_lt_le_dec j j') as [D'|D']; [exfalso; exact (L' j ltac:(lia) X)|lia]. }
  assert (2 * j < l) by (destruct Hl' as [-> | ->]; [change ((3 - 1) / 2) with 1 in Hj'|change ((5 - 1) / 2) with 2 in Hj']; lia).
  cbn [mr_r] in F. destruct F as [(F & Y)|(F & Y)]; split; split; intros Z; try assumption; try lia; try contradiction.
Qed.
Example c117_case : exists L, schoof 80 2 0 5 = Ok L /\ In (mkMod 3 2) L /\ x_matches 2 0 5 3 1 /\ ~ y_matches (-1) 2 0 5 3 1.
Proof.
  destruct c116_case as (L & E & I & X). exists L. split; [exact E|]. split; [exact I|]. split; [exact X|].
  apply (c117_sign_partial 80 2 0 5 L 3 2 1 ltac:(apply is_prime_spec; reflexivity) E I ltac:(lia) ltac:(change ((3 - 1) / 2) with 1; lia) X ltac:(lia)). reflexivity.
Qed.
