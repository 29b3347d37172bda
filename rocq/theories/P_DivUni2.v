(** Division polynomials: dependence on a and b modulo p, weights. *)
From Coq Require Import Znumtheory ZifyBool Setoid Morphisms Ring.
From Verif Require Import Prelude M_Bigint M_Variable M_Term M_Poly M_DivPoly Spec P_Bigint P_Variable P_FSum P_Poly P_Rem P_PolyProps P_Subst P_Subst2 P_SubstProps P_DivPoly P_DivPoly2 P_DivPoly3 P_DivPoly4 P_DivProps P_NormalProps P_DivUni.
Open Scope Z_scope.

Lemma coef_Y2 f m : coef (conv Y2 f) m = 2 * coef f (shift 0 (-1) m).
Proof. unfold Y2, fmono. rewrite coef_shift. change (- 0) with 0. change (- (1)) with (-1). reflexivity. Qed.
Lemma Y2_cancel f g : feq (conv Y2 f) (conv Y2 g) -> feq f g.
Proof. intros H m. specialize (H (shift 0 1 m)). rewrite !coef_Y2 in H. replace (shift 0 (-1) (shift 0 1 m)) with m in H by (destruct m; unfold shift; cbn; f_equal; lia). lia. Qed.
Lemma isU_uniq a b n f g : isU a b n f -> isU a b n g -> feq f g.
Proof.
  intros (_ & r & E & F) (_ & r' & E' & F'). rewrite E in E'. assert (r' = r) as -> by congruence. destruct (Z.odd n).
  - rewrite <- F. exact F'.
  - apply Y2_cancel. rewrite <- F. exact F'.
Qed.
Definition u3 (a b : Z) : fsum := fmono 3 4 0 0 ++ fmono (6 * a) 2 0 0 ++ fmono (12 * b) 1 0 0 ++ fmono (- a ^ 2) 0 0 0.
Definition u4 (a b : Z) : fsum := conv (fconst 2) (fmono 1 6 0 0 ++ fmono (5 * a) 4 0 0 ++ fmono (20 * b) 3 0 0 ++ fmono (-5 * a ^ 2) 2 0 0 ++ fmono (-4 * a * b) 1 0 0 ++ fmono (-8 * b ^ 2 - a ^ 3) 0 0 0).
Lemma isU_0 a b : isU a b 0 [].
Proof. split; [intros ? ? []|]. exists []. split; [reflexivity|]. cbn. reflexivity. Qed.
Lemma isU_1 a b : isU a b 1 (fconst 1).
Proof. split; [apply only_const|]. exists (fmono 1 0 0 0). split; [reflexivity|]. reflexivity. Qed.
Lemma isU_2 a b : isU a b 2 (fconst 1).
Proof. split; [apply only_const|]. exists (fmono 2 0 1 0). split; [reflexivity|]. cbn [Z.odd]. reflexivity. Qed.
Ltac onlyx := let m := fresh in let c := fresh in let I := fresh in intros m c I; cbn in I; repeat (destruct I as [I|I]; [injection I as <- _; cbn; repeat split; lia|]); destruct I.
Lemma isU_3 a b : isU a b 3 (u3 a b).
Proof. split; [onlyx|]. destruct (c48_psi_base a b) as (_ & _ & _ & (r & E & F) & _). exists r. split; [exact E|]. exact F. Qed.
Lemma isU_4 a b : isU a b 4 (u4 a b).
Proof. split; [onlyx|]. destruct (c48_psi_base a b) as (_ & _ & _ & _ & (r & E & F)). exists r. split; [exact E|]. rewrite F. cbn [Z.odd]. unfold u4. rewrite conv_assoc. reflexivity. Qed.

Section ModP.
Variables p a b a' b' : Z.
Hypothesis Ha : (p | a - a').
Hypothesis Hb : (p | b - b').
Lemma mono_mod c c' x y q : (p | c - c') -> feqm p (fmono c x y q) (fmono c' x y q).
Proof. intros H m. cbn [fmono coef]. destruct (mono_eqb _ m); [replace (c + 0 - (c' + 0)) with (c - c') by ring; exact H|]. exists 0. ring. Qed.
Lemma dmul c c' d d' : (p | c - c') -> (p | d - d') -> (p | c * d - c' * d').
Proof. intros (k & E) (l & F). exists (k * d + c' * l). replace (c * d - c' * d') with ((c - c') * d + c' * (d - d')) by ring. rewrite E, F. ring. Qed.
Lemma dadd c c' d d' : (p | c - c') -> (p | d - d') -> (p | c + d - (c' + d')).
Proof. intros (k & E) (l & F). exists (k + l). lia. Qed.
Lemma dsub c c' d d' : (p | c - c') -> (p | d - d') -> (p | c - d - (c' - d')).
Proof. intros (k & E) (l & F). exists (k - l). lia. Qed.
Lemma drefl c : (p | c - c).
Proof. exists 0. ring. Qed.
Lemma fadd_app u v : u ++ v = fadd u v. Proof. reflexivity. Qed.
Lemma dl_mod : feqm p (dl a b) (dl a' b').
Proof.
  unfold dl. assert (E : feqm p (fweier a b) (fweier a' b')).
  { change (fweier ?u ?v) with (fadd (fmono 1 3 0 0) (fadd (fmono u 1 0 0) (fmono v 0 0 0))). rewrite (mono_mod a a'), (mono_mod b b') by assumption. reflexivity. }
  rewrite E. reflexivity.
Qed.
Lemma u3_mod : feqm p (u3 a b) (u3 a' b').
Proof.
  unfold u3. rewrite !fadd_app.
  rewrite (mono_mod (6 * a) (6 * a')), (mono_mod (12 * b) (12 * b')), (mono_mod (- a ^ 2) (- a' ^ 2)); [reflexivity|..].
  - replace (- a ^ 2 - - a' ^ 2) with (0 - a * a - (0 - a' * a')) by ring. apply dsub; [apply drefl|apply dmul; assumption].
  - apply dmul; [apply drefl|assumption].
  - apply dmul; [apply drefl|assumption].
Qed.
Lemma u4_mod : feqm p (u4 a b) (u4 a' b').
Proof.
  unfold u4. rewrite !fadd_app. assert (Ha2 : (p | a ^ 2 - a' ^ 2)) by (replace (a ^ 2 - a' ^ 2) with (a * a - a' * a') by ring; apply dmul; assumption).
  assert (Hb2 : (p | b ^ 2 - b' ^ 2)) by (replace (b ^ 2 - b' ^ 2) with (b * b - b' * b') by ring; apply dmul; assumption).
  assert (Ha3 : (p | a ^ 3 - a' ^ 3)) by (replace (a ^ 3 - a' ^ 3) with (a ^ 2 * a - a' ^ 2 * a') by ring; apply dmul; assumption).
  rewrite (mono_mod (5 * a) (5 * a')), (mono_mod (20 * b) (20 * b')), (mono_mod (-5 * a ^ 2) (-5 * a' ^ 2)), (mono_mod (-4 * a * b) (-4 * a' * b')), (mono_mod (-8 * b ^ 2 - a ^ 3) (-8 * b' ^ 2 - a' ^ 3)); [reflexivity|..];
  repeat first [assumption | apply dsub | apply dmul | apply drefl].
Qed.
Lemma isU_mod n : 0 <= n -> n <= 65536 -> forall f f', isU a b n f -> isU a' b' n f' -> feqm p f f'.
Proof.
  revert n. apply (Zlt_0_ind (fun n => n <= 65536 -> forall f f', isU a b n f -> isU a' b' n f' -> feqm p f f')). intros n IH H0 H1 f f' U U'.
  destruct (Z_lt_le_dec n 5) as [Hlt|Hge].
  - assert (B : forall g g', isU a b n g -> isU a' b' n g' -> feqm p g g' -> feqm p f f').
    { intros g g' G G' H. rewrite (feq_feqm p _ _ (isU_uniq _ _ _ _ _ U G)), (feq_feqm p _ _ (isU_uniq _ _ _ _ _ U' G')). exact H. }
    assert (Hc: n = 0 \/ n = 1 \/ n = 2 \/ n = 3 \/ n = 4) by lia.
    destruct Hc as [-> | [-> | [-> | [-> | ->]]]].
    + apply (B [] []); auto using isU_0. reflexivity.
    + apply (B (fconst 1) (fconst 1)); auto using isU_1. reflexivity.
    + apply (B (fconst 1) (fconst 1)); auto using isU_2. reflexivity.
    + apply (B (u3 a b) (u3 a' b')); auto using isU_3, u3_mod.
    + apply (B (u4 a b) (u4 a' b')); auto using isU_4, u4_mod.
  - assert (G : forall k, 0 <= k < n -> exists g g', isU a b k g /\ isU a' b' k g' /\ feqm p g g').
    { intros k Hk. destruct (isU_ex a b k ltac:(lia)) as (g & Ug), (isU_ex a' b' k ltac:(lia)) as (g' & Ug'). exists g, g'. split; [exact Ug|]. split; [exact Ug'|]. exact (IH k Hk ltac:(lia) g g' Ug Ug'). }
    destruct (Z.Even_or_Odd n) as [(m & ->)|(m & ->)].
    + destruct (G (m + 2) ltac:(lia)) as (e & e' & Ue & Ue' & Fe), (G (m - 1) ltac:(lia)) as (g & g' & Ug & Ug' & Fg), (G (m - 2) ltac:(lia)) as (h & h' & Uh & Uh' & Fh), (G (m + 1) ltac:(lia)) as (i & i' & Ui & Ui' & Fi), (G m ltac:(lia)) as (j & j' & Uj & Uj' & Fj).
      rewrite (feq_feqm p _ _ (isU_rec_even a b m f e g h i j ltac:(lia) H1 U Ue Ug Uh Ui Uj)), (feq_feqm p _ _ (isU_rec_even a' b' m f' e' g' h' i' j' ltac:(lia) H1 U' Ue' Ug' Uh' Ui' Uj')).
      cbn [fpow]. rewrite Fe, Fg, Fh, Fi, Fj. reflexivity.
    + destruct (G (m + 2) ltac:(lia)) as (e & e' & Ue & Ue' & Fe), (G (m - 1) ltac:(lia)) as (g & g' & Ug & Ug' & Fg), (G (m + 1) ltac:(lia)) as (i & i' & Ui & Ui' & Fi), (G m ltac:(lia)) as (j & j' & Uj & Uj' & Fj).
      destruct (Z.odd m) eqn:O.
      * rewrite (feq_feqm p _ _ (isU_rec_odd_o a b m f e j g i ltac:(lia) H1 O U Ue Uj Ug Ui)), (feq_feqm p _ _ (isU_rec_odd_o a' b' m f' e' j' g' i' ltac:(lia) H1 O U' Ue' Uj' Ug' Ui')).
        cbn [fpow]. rewrite Fe, Fg, Fi, Fj, dl_mod. reflexivity.
      * rewrite (feq_feqm p _ _ (isU_rec_odd_e a b m f e j g i ltac:(lia) H1 O U Ue Uj Ug Ui)), (feq_feqm p _ _ (isU_rec_odd_e a' b' m f' e' j' g' i' ltac:(lia) H1 O U' Ue' Uj' Ug' Ui')).
        cbn [fpow]. rewrite Fe, Fg, Fi, Fj, dl_mod. reflexivity.
Qed.
End ModP.

(** Values of the univariate parts. *)
Lemma fval_sub x y f g : fval x y (fsub f g) = fval x y f - fval x y g.
Proof. unfold fsub. rewrite fval_app, fval_neg. ring. Qed.
Lemma only_nonneg f : only_x f -> nonneg_xy f.
Proof. intros H m c I. apply H in I. lia. Qed.
Lemma fval_dl a b x : fval x 0 (dl a b) = 4 * (x ^ 3 + a * x + b).
Proof. unfold dl. rewrite fval_conv, fval_fconst, fval_fweier; auto using nonneg_fconst, nonneg_fweier. Qed.
Lemma v3 x f : only_x f -> fval x 0 (fpow f 3) = fval x 0 f ^ 3.
Proof. intros H. rewrite fval_fpow by (apply only_nonneg, H). reflexivity. Qed.
Lemma v2 x f : only_x f -> fval x 0 (fpow f 2) = fval x 0 f ^ 2.
Proof. intros H. rewrite fval_fpow by (apply only_nonneg, H). reflexivity. Qed.
Lemma vc x f g : only_x f -> only_x g -> fval x 0 (conv f g) = fval x 0 f * fval x 0 g.
Proof. intros F G. apply fval_conv; apply only_nonneg; assumption. Qed.

(** uv a b x n: the value at x of the univariate part of psi_n. *)
Definition uv (a b x n : Z) : Z := match psi a b n with Ok r => if Z.odd n then fval x 1 r else fval x 1 r / 2 | _ => 0 end.
Lemma fval_only f x y y' : only_x f -> fval x y f = fval x y' f.
Proof. intros F. induction f as [|(m, c) f IH]; [reflexivity|]. cbn [fval]. rewrite IH by (intros k d I; apply (F k d); right; exact I). destruct (F m c (or_introl eq_refl)) as (_ & E & _). unfold mval. rewrite E. reflexivity. Qed.
Lemma fval_Y2 x y : fval x y Y2 = 2 * y.
Proof. unfold Y2, fmono, fval, mval. cbn [mx my]. ring. Qed.
Lemma nonneg_Y2 : nonneg_xy Y2.
Proof. intros m c [E|[]]. injection E as <- _. cbn. lia. Qed.
Lemma uv_isU a b x n f : isU a b n f -> uv a b x n = fval x 0 f.
Proof.
  intros (X & r & E & F). unfold uv. rewrite E. destruct (Z.odd n).
  - rewrite (fval_feq x 1 _ _ F). apply fval_only, X.
  - rewrite (fval_feq x 1 _ _ F), fval_conv, fval_Y2 by (auto using nonneg_Y2, only_nonneg). replace (2 * 1 * fval x 1 f) with (fval x 1 f * 2) by ring. rewrite Z.div_mul by lia. apply fval_only, X.
Qed.
Lemma uv_psi a b x y n r : psi a b n = Ok r -> 0 <= n <= 65536 -> fval x y r = (if Z.odd n then 1 else 2 * y) * uv a b x n.
Proof.
  intros E Hn. destruct (isU_ex a b n Hn) as (f & U). rewrite (uv_isU a b x n f U). destruct U as (X & r' & E' & F). rewrite E in E'. assert (r' = r) as -> by congruence. rewrite (fval_feq x y _ _ F). destruct (Z.odd n).
  - rewrite (fval_only f x y 0 X). ring.
  - rewrite fval_conv, fval_Y2 by (auto using nonneg_Y2, only_nonneg). rewrite (fval_only f x y 0 X). ring.
Qed.
Section V.
Variables a b x : Z.
Notation u := (uv a b x).
Definition dv : Z := 4 * (x ^ 3 + a * x + b).
Lemma uv_0 : u 0 = 0. Proof. reflexivity. Qed.
Lemma uv_1 : u 1 = 1. Proof. rewrite (uv_isU _ _ _ _ _ (isU_1 a b)). apply fval_fconst. Qed.
Lemma uv_2 : u 2 = 1. Proof. rewrite (uv_isU _ _ _ _ _ (isU_2 a b)). apply fval_fconst. Qed.
Lemma fval_m c i : fval x 0 (fmono c i 0 0) = c * x ^ i.
Proof. unfold fmono, fval, mval. cbn [mx my]. ring. Qed.
Lemma uv_3 : u 3 = 3 * x ^ 4 + 6 * a * x ^ 2 + 12 * b * x - a ^ 2.
Proof. rewrite (uv_isU _ _ _ _ _ (isU_3 a b)). unfold u3. rewrite !fval_app, !fval_m. ring. Qed.
Lemma uv_4 : u 4 = 2 * (x ^ 6 + 5 * a * x ^ 4 + 20 * b * x ^ 3 - 5 * a ^ 2 * x ^ 2 - 4 * a * b * x - 8 * b ^ 2 - a ^ 3).
Proof. rewrite (uv_isU _ _ _ _ _ (isU_4 a b)). unfold u4. rewrite fval_conv by (try apply nonneg_fconst; apply only_nonneg; onlyx). rewrite fval_fconst, !fval_app, !fval_m. ring. Qed.
Lemma uv_even m : 2 <= m -> 2 * m <= 65536 -> u (2 * m) = u m * (u (m + 2) * u (m - 1) ^ 2 - u (m - 2) * u (m + 1) ^ 2).
Proof.
  intros Hm Hn. destruct (isU_ex a b (2 * m) ltac:(lia)) as (f & U), (isU_ex a b (m + 2) ltac:(lia)) as (e & Ue), (isU_ex a b (m - 1) ltac:(lia)) as (g & Ug), (isU_ex a b (m - 2) ltac:(lia)) as (h & Uh), (isU_ex a b (m + 1) ltac:(lia)) as (i & Ui), (isU_ex a b m ltac:(lia)) as (j & Uj).
  rewrite (uv_isU _ _ _ _ _ U), (uv_isU _ _ _ _ _ Ue), (uv_isU _ _ _ _ _ Ug), (uv_isU _ _ _ _ _ Uh), (uv_isU _ _ _ _ _ Ui), (uv_isU _ _ _ _ _ Uj).
  rewrite (fval_feq x 0 _ _ (isU_rec_even a b m f e g h i j Hm Hn U Ue Ug Uh Ui Uj)). destruct U as (X & _), Ue as (Xe & _), Ug as (Xg & _), Uh as (Xh & _), Ui as (Xi & _), Uj as (Xj & _).
  rewrite vc by auto 10 using only_sub, only_conv, only_pow. rewrite fval_sub, !vc, !v2 by auto using only_pow. reflexivity.
Qed.
Lemma uv_odd m : 1 <= m -> 2 * m + 1 <= 65536 -> u (2 * m + 1) = (if Z.odd m then 1 else dv ^ 2) * (u (m + 2) * u m ^ 3) - (if Z.odd m then dv ^ 2 else 1) * (u (m - 1) * u (m + 1) ^ 3).
Proof.
  intros Hm Hn. destruct (isU_ex a b (2 * m + 1) ltac:(lia)) as (f & U), (isU_ex a b (m + 2) ltac:(lia)) as (e & Ue), (isU_ex a b (m - 1) ltac:(lia)) as (g & Ug), (isU_ex a b (m + 1) ltac:(lia)) as (i & Ui), (isU_ex a b m ltac:(lia)) as (j & Uj).
  rewrite (uv_isU _ _ _ _ _ U), (uv_isU _ _ _ _ _ Ue), (uv_isU _ _ _ _ _ Ug), (uv_isU _ _ _ _ _ Ui), (uv_isU _ _ _ _ _ Uj). pose proof (fval_dl a b x) as D. fold dv in D. pose proof (only_dl a b) as XD. destruct (Z.odd m) eqn:O.
  - rewrite (fval_feq x 0 _ _ (isU_rec_odd_o a b m f e j g i Hm Hn O U Ue Uj Ug Ui)). destruct U as (X & _), Ue as (Xe & _), Ug as (Xg & _), Ui as (Xi & _), Uj as (Xj & _).
    rewrite fval_sub, !vc, !v3, !D by auto using only_pow, only_conv. ring.
  - rewrite (fval_feq x 0 _ _ (isU_rec_odd_e a b m f e j g i Hm Hn O U Ue Uj Ug Ui)). destruct U as (X & _), Ue as (Xe & _), Ug as (Xg & _), Ui as (Xi & _), Uj as (Xj & _).
    rewrite fval_sub, !vc, !v3, !D by auto using only_pow, only_conv. ring.
Qed.
End V.

(** Weights: x has weight 2, a weight 4, b weight 6. *)
Definition wt (n : Z) : Z := if Z.odd n then n ^ 2 - 1 else n ^ 2 - 4.
Lemma wt_nonneg n : 1 <= n -> 0 <= wt n.
Proof. intros H. unfold wt. destruct (Z.odd n) eqn:O; [nia|]. assert (n <> 1) by (intros ->; discriminate). nia. Qed.
Lemma pow_sq t k j : 0 <= k -> 0 <= j -> t ^ ((k + j) ^ 2) = t ^ (k ^ 2) * (t ^ k) ^ (2 * j) * t ^ (j ^ 2).
Proof. intros Hk Hj. rewrite <- Z.pow_mul_r, <- !Z.pow_add_r by nia. f_equal. ring. Qed.
Lemma pow_sq4 t k : 0 <= k -> t ^ ((2 * (k + 2)) ^ 2) = (t ^ (k ^ 2)) ^ 4 * (t ^ k) ^ 16 * t ^ 16.
Proof. intros Hk. rewrite <- !Z.pow_mul_r, <- !Z.pow_add_r by nia. f_equal. ring. Qed.
Lemma pow_sq3 t k : 0 <= k -> t ^ ((2 * (k + 1) + 1) ^ 2 + 3) = (t ^ (k ^ 2)) ^ 4 * (t ^ k) ^ 12 * t ^ 12.
Proof. intros Hk. rewrite <- !Z.pow_mul_r, <- !Z.pow_add_r by nia. f_equal. ring. Qed.
Lemma uv_weight a b x t n : 0 <= n -> n <= 65536 -> t ^ 4 * uv (t ^ 4 * a) (t ^ 6 * b) (t ^ 2 * x) n = t ^ (n ^ 2 + if Z.odd n then 3 else 0) * uv a b x n.
Proof.
  revert n. apply (Zlt_0_ind (fun n => n <= 65536 -> t ^ 4 * uv (t ^ 4 * a) (t ^ 6 * b) (t ^ 2 * x) n = t ^ (n ^ 2 + if Z.odd n then 3 else 0) * uv a b x n)). intros n IH H0 H1.
  assert (DV : dv (t ^ 4 * a) (t ^ 6 * b) (t ^ 2 * x) = t ^ 6 * dv a b x) by (unfold dv; ring).
  destruct (Z_lt_le_dec n 5) as [Hlt|Hge].
  - assert (Hc: n = 0 \/ n = 1 \/ n = 2 \/ n = 3 \/ n = 4) by lia. destruct Hc as [-> | [-> | [-> | [-> | ->]]]].
    + rewrite !uv_0. ring.
    + change (1 ^ 2 + (if Z.odd 1 then 3 else 0)) with 4. rewrite !uv_1. ring.
    + change (2 ^ 2 + (if Z.odd 2 then 3 else 0)) with 4. rewrite !uv_2. ring.
    + change (3 ^ 2 + (if Z.odd 3 then 3 else 0)) with 12. rewrite !uv_3. ring.
    + change (4 ^ 2 + (if Z.odd 4 then 3 else 0)) with 16. rewrite !uv_4. ring.
  - destruct (Z.eq_dec t 0) as [-> | T]. { rewrite (Z.pow_0_l 4), (Z.pow_0_l (n ^ 2 + _)) by (try lia; destruct (Z.odd n); nia). ring. }
    set (u' := uv (t ^ 4 * a) (t ^ 6 * b) (t ^ 2 * x)) in *. set (u := uv a b x) in *.
    assert (PW : forall k, 0 <= k < n -> t ^ 4 * u' k = t ^ (k ^ 2) * (if Z.odd k then t ^ 3 else 1) * u k).
    { intros k Hk. rewrite (IH k Hk ltac:(lia)). destruct (Z.odd k); [rewrite Z.pow_add_r by nia|rewrite Z.add_0_r, Z.mul_1_r]; reflexivity. }
    assert (CC : forall c v w, c <> 0 -> c * v = c * w -> v = w) by (intros c v w Hc E; apply Z.mul_reg_l in E; assumption).
    assert (TN : forall k, 0 <= k -> t ^ k <> 0) by (intros k Hk; apply Z.pow_nonzero; lia). clear IH.
    destruct (Z.Even_or_Odd n) as [(m & ->)|(m & ->)].
    + assert (Hk : exists k, 0 <= k /\ m = k + 2) by (exists (m - 2); lia). destruct Hk as (k & Hk & ->).
      replace (Z.odd (2 * (k + 2))) with false by (rewrite Z.odd_mul; reflexivity). unfold u', u. rewrite !uv_even by lia. fold u u'.
      replace (k + 2 - 1) with (k + 1) by lia. replace (k + 2 - 2) with k by lia. replace (k + 2 + 1) with (k + 3) by lia. replace (k + 2 + 2) with (k + 4) by lia.
      pose proof (PW (k + 4) ltac:(lia)) as P1. pose proof (PW (k + 1) ltac:(lia)) as P2. pose proof (PW k ltac:(lia)) as P3. pose proof (PW (k + 3) ltac:(lia)) as P4. pose proof (PW (k + 2) ltac:(lia)) as P5.
      replace (Z.odd (k + 4)) with (Z.odd k) in P1 by (rewrite Z.odd_add; destruct (Z.odd k); reflexivity). replace (Z.odd (k + 2)) with (Z.odd k) in P5 by (rewrite Z.odd_add; destruct (Z.odd k); reflexivity).
      replace (Z.odd (k + 1)) with (negb (Z.odd k)) in P2 by (rewrite Z.odd_add; destruct (Z.odd k); reflexivity). replace (Z.odd (k + 3)) with (negb (Z.odd k)) in P4 by (rewrite Z.odd_add; destruct (Z.odd k); reflexivity).
      pose proof (pow_sq t k 1 Hk ltac:(lia)) as Q1. change (2 * 1) with 2 in Q1. change (1 ^ 2) with 1 in Q1. pose proof (pow_sq t k 2 Hk ltac:(lia)) as Q2. change (2 * 2) with 4 in Q2. change (2 ^ 2) with 4 in Q2. pose proof (pow_sq t k 3 Hk ltac:(lia)) as Q3. change (2 * 3) with 6 in Q3. change (3 ^ 2) with 9 in Q3. pose proof (pow_sq t k 4 Hk ltac:(lia)) as Q4. change (2 * 4) with 8 in Q4. change (4 ^ 2) with 16 in Q4. pose proof (pow_sq4 t k Hk) as Q5.
      rewrite Q4 in P1. rewrite Q1 in P2. rewrite Q3 in P4. rewrite Q2 in P5. rewrite Z.add_0_r, Q5. clear Q1 Q2 Q3 Q4 Q5 PW.
      generalize dependent (t ^ (k ^ 2)). generalize dependent (t ^ k). generalize dependent (u' (k + 4)). generalize dependent (u' (k + 3)). generalize dependent (u' (k + 2)). generalize dependent (u' (k + 1)). generalize dependent (u' k).
      generalize (u (k + 4)) (u (k + 3)) (u (k + 2)) (u (k + 1)) (u k). intros z4 z3 z2 z1 z0 v0 v1 v2 v3 v4 M K P1 P2 P3 P4 P5.
      apply (CC (t ^ 12)); [apply TN; lia|].
      transitivity ((t ^ 4 * v2) * ((t ^ 4 * v4) * (t ^ 4 * v1) ^ 2 - (t ^ 4 * v0) * (t ^ 4 * v3) ^ 2)); [ring|]. rewrite P1, P2, P3, P4, P5. destruct (Z.odd k); cbn [negb]; ring.
    + assert (Hk : exists k, 0 <= k /\ m = k + 1) by (exists (m - 1); lia). destruct Hk as (k & Hk & ->).
      replace (Z.odd (2 * (k + 1) + 1)) with true by (rewrite Z.odd_add, Z.odd_mul; reflexivity). unfold u', u. rewrite !uv_odd by lia. fold u u'. rewrite DV. set (d := dv a b x) in *. clearbody d. clear DV.
      replace (k + 1 - 1) with k by lia. replace (k + 1 + 1) with (k + 2) by lia. replace (k + 1 + 2) with (k + 3) by lia. 
      pose proof (PW (k + 3) ltac:(lia)) as P1. pose proof (PW k ltac:(lia)) as P2. pose proof (PW (k + 2) ltac:(lia)) as P4. pose proof (PW (k + 1) ltac:(lia)) as P5.
      replace (Z.odd (k + 2)) with (Z.odd k) in P4 by (rewrite Z.odd_add; destruct (Z.odd k); reflexivity).
      replace (Z.odd (k + 1)) with (negb (Z.odd k)) in * by (rewrite Z.odd_add; destruct (Z.odd k); reflexivity). replace (Z.odd (k + 3)) with (negb (Z.odd k)) in P1 by (rewrite Z.odd_add; destruct (Z.odd k); reflexivity).
      pose proof (pow_sq t k 1 Hk ltac:(lia)) as Q1. change (2 * 1) with 2 in Q1. change (1 ^ 2) with 1 in Q1. pose proof (pow_sq t k 2 Hk ltac:(lia)) as Q2. change (2 * 2) with 4 in Q2. change (2 ^ 2) with 4 in Q2. pose proof (pow_sq t k 3 Hk ltac:(lia)) as Q3. change (2 * 3) with 6 in Q3. change (3 ^ 2) with 9 in Q3. pose proof (pow_sq3 t k Hk) as Q5.
      rewrite Q3 in P1. rewrite Q2 in P4. rewrite Q1 in P5. rewrite Q5. clear Q1 Q2 Q3 Q5 PW.
      generalize dependent (t ^ (k ^ 2)). generalize dependent (t ^ k). generalize dependent (u' (k + 3)). generalize dependent (u' (k + 2)). generalize dependent (u' (k + 1)). generalize dependent (u' k).
      generalize (u (k + 3)) (u (k + 2)) (u (k + 1)) (u k). intros z3 z2 z1 z0 v0 v1 v2 v3 M K P1 P2 P4 P5.
      apply (CC (t ^ 12)); [apply TN; lia|]. destruct (Z.odd k); cbn [negb] in *.
      * transitivity (t ^ 12 * d ^ 2 * ((t ^ 4 * v3) * (t ^ 4 * v1) ^ 3) - ((t ^ 4 * v0) * (t ^ 4 * v2) ^ 3)); [ring|]. rewrite P1, P2, P4, P5. ring.
      * transitivity ((t ^ 4 * v3) * (t ^ 4 * v1) ^ 3 - t ^ 12 * d ^ 2 * ((t ^ 4 * v0) * (t ^ 4 * v2) ^ 3)); [ring|]. rewrite P1, P2, P4, P5. ring.
Qed.
