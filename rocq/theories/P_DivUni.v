(** Division polynomials: the univariate parts f_n (psi_n = f_n for odd n, 2y f_n for even n), their recurrences and their values. *)
From Coq Require Import Znumtheory ZifyBool Setoid Morphisms Ring.
From Verif Require Import Prelude M_Bigint M_Variable M_Term M_Poly M_DivPoly Spec P_Bigint P_Variable P_FSum P_Poly P_Rem P_PolyProps P_Subst P_Subst2 P_SubstProps P_DivPoly P_DivPoly2 P_DivPoly3 P_DivPoly4 P_DivProps P_NormalProps.
Open Scope Z_scope.

Definition Y2 : fsum := fmono 2 0 1 0.
(** f is the univariate part of psi_n. *)
Definition isU (a b n : Z) (f : fsum) : Prop := only_x f /\ exists r, psi a b n = Ok r /\ feq r (if Z.odd n then f else conv Y2 f).

Lemma isU_ex a b n : 0 <= n <= 65536 -> exists f, isU a b n f.
Proof.
  intros Hn. destruct (Z.odd n) eqn:O.
  - destruct (c48_psi_odd a b n Hn O) as (r & E & _ & X). exists r. split; [exact X|]. exists r. rewrite O. split; [exact E|reflexivity].
  - destruct (c48_psi_even a b n Hn O) as (r & g & E & _ & _ & X & F). exists g. split; [exact X|]. exists r. rewrite O. split; [exact E|exact F].
Qed.
Lemma only_conv f g : only_x f -> only_x g -> only_x (conv f g).
Proof. intros F G m c I. unfold conv in I. apply in_flat_map in I as ((m1, c1) & I1 & I). apply in_map_iff in I as ((m2, c2) & E & I2). cbn [fst snd] in E. injection E as <- _.
  apply F in I1. apply G in I2. unfold mmul. cbn [mx my mq mv]. destruct I1 as (? & ? & ? & ->), I2 as (? & ? & ? & ->). cbn [vmul]. repeat split; lia. Qed.
Lemma only_sub f g : only_x f -> only_x g -> only_x (fsub f g).
Proof. intros F G m c I. apply in_app_iff in I as [I|I]; [exact (F m c I)|]. apply in_map_iff in I as ((m', c') & E & I). cbn [fst snd] in E. injection E as <- _. exact (G m' c' I). Qed.
Lemma only_pow f k : only_x f -> only_x (fpow f k).
Proof. intros F. induction k as [|k IH]; [intros m c [E|[]]; injection E as <- _; cbn; repeat split; lia|]. cbn [fpow]. apply only_conv; assumption. Qed.
Lemma only_const c : only_x (fconst c).
Proof. intros m k [E|[]]. injection E as <- _. cbn. repeat split; lia. Qed.
Lemma only_weier a b : only_x (fweier a b).
Proof. intros m k I. cbn in I. destruct I as [E|[E|[E|[]]]]; injection E as <- _; cbn; repeat split; lia. Qed.
Lemma only_y01 f : only_x f -> forall m c, In (m, c) f -> 0 <= my m <= 1.
Proof. intros F m c I. apply F in I. lia. Qed.

(** delta = (2y)^2 = 4 (x^3 + a x + b). *)
Definition dl (a b : Z) : fsum := conv (fconst 4) (fweier a b).
Lemma only_dl a b : only_x (dl a b).
Proof. apply only_conv; [apply only_const|apply only_weier]. Qed.
Lemma Y2_sq a b : cong_ideal 0 (fcurve a b) (conv Y2 Y2) (dl a b).
Proof.
  exists (fconst 4). apply feq_feqm. assert (E : feq (fcurve a b) (fsub [(mkMono 0 2 0 None, 1)] (fweier a b))) by reflexivity. rewrite E. unfold dl.
  transitivity (conv (fconst 4) [(mkMono 0 2 0 None, 1)]); [reflexivity|]. ring.
Qed.
Section CI.
Variables a b : Z.
Notation C := (fcurve a b).
#[local] Instance ci_equiv : Equivalence (cong_ideal 0 C).
Proof. split; [intros u; apply cong_refl|intros u v; apply cong_sym|intros u v w; apply cong_trans]. Qed.
#[local] Instance ci_feq : subrelation feq (cong_ideal 0 C).
Proof. intros u v H. apply feqm_cong, feq_feqm, H. Qed.
#[local] Instance ci_conv_p : Proper (cong_ideal 0 C ==> cong_ideal 0 C ==> cong_ideal 0 C) conv.
Proof. intros u u' H v v' H'. apply ci_mul; assumption. Qed.
#[local] Instance ci_fneg_p : Proper (cong_ideal 0 C ==> cong_ideal 0 C) fneg.
Proof. intros u u' H. apply ci_neg; assumption. Qed.
#[local] Instance ci_fadd_p : Proper (cong_ideal 0 C ==> cong_ideal 0 C ==> cong_ideal 0 C) fadd.
Proof. intros u u' H v v' H'. apply ci_add; assumption. Qed.
#[local] Instance ci_fsub_p : Proper (cong_ideal 0 C ==> cong_ideal 0 C ==> cong_ideal 0 C) fsub.
Proof. intros u u' H v v' H'. unfold fsub. apply (ci_add 0 C u u' (fneg v) (fneg v')); [exact H|apply ci_neg, H']. Qed.

Lemma uniq u v : only_x u -> only_x v -> cong_ideal 0 C u v -> feq u v.
Proof. intros U V H. apply feqm_0, (cong_unique 0 a b); [exact H|apply only_y01, U|apply only_y01, V]. Qed.

(** x^3 + a x + b is not a zero divisor. *)
Lemma weier_cancel k : feq (conv (fweier a b) k) [] -> feq k [].
Proof.
  intros H. assert (F : forall m, coef k (shift (-3) 0 m) + a * coef k (shift (-1) 0 m) + b * coef k m = 0).
  { intros m. specialize (H m). cbn [coef] in H.
    assert (E : feq (conv (fweier a b) k) (fadd (conv [(mkMono 3 0 0 None, 1)] k) (fadd (conv [(mkMono 1 0 0 None, a)] k) (conv [(mkMono 0 0 0 None, b)] k)))).
    { transitivity (conv (fadd [(mkMono 3 0 0 None, 1)] (fadd [(mkMono 1 0 0 None, a)] [(mkMono 0 0 0 None, b)])) k); [reflexivity|]. rewrite !conv_add_l. reflexivity. }
    rewrite E in H. unfold fadd in H. rewrite !coef_app, !coef_shift in H. replace (shift (- 0) (- 0) m) with m in H by (destruct m; unfold shift; cbn; f_equal; lia).
    change (- 0) with 0 in H. change (- (3)) with (-3) in H. change (- (1)) with (-1) in H. lia. }
  intros m. cbn [coef]. destruct (Z.eq_dec (coef k m) 0) as [|N]; [assumption|]. exfalso.
  destruct (list_max (fun e : mono * Z => coef k (fst e) <> 0) (fun e => mx (fst e)) k) as ((m1, c1) & _ & N1 & M1).
  { intros e _. destruct (Z.eq_dec (coef k (fst e)) 0); tauto. }
  { destruct (coef_in k m N) as (c & I). exists (m, c). split; [exact I|exact N]. }
  cbn [fst] in N1, M1. assert (Z0 : forall i, 0 < i -> coef k (shift i 0 m1) = 0).
  { intros i Hi. destruct (Z.eq_dec (coef k (shift i 0 m1)) 0) as [|N2]; [assumption|]. destruct (coef_in k _ N2) as (c & I). pose proof (M1 _ I N2) as L. cbn [fst shift mx] in L. lia. }
  specialize (F (shift 3 0 m1)). replace (shift (-3) 0 (shift 3 0 m1)) with m1 in F by (destruct m1; unfold shift; cbn; f_equal; lia).
  replace (shift (-1) 0 (shift 3 0 m1)) with (shift 2 0 m1) in F by (destruct m1; unfold shift; cbn; f_equal; lia). rewrite !Z0 in F by lia. lia.
Qed.
Lemma dl_cancel u v : feq (conv (dl a b) u) (conv (dl a b) v) -> feq u v.
Proof.
  intros H. assert (Z1 : feq (conv (fweier a b) (fsub u v)) []).
  { intros m. assert (E : feq (conv (fconst 4) (conv (fweier a b) (fsub u v))) []).
    { transitivity (fsub (conv (dl a b) u) (conv (dl a b) v)); [unfold dl; ring|]. rewrite H. ring. }
    specialize (E m). rewrite fconst_scale in E. cbn [coef] in *. lia. }
  apply weier_cancel in Z1. transitivity (fadd (fsub u v) v); [ring|]. rewrite Z1. ring.
Qed.

Ltac par := repeat match goal with
  | H : context [if Z.odd ?n then _ else _], O : Z.odd ?n = _ |- _ => rewrite O in H end.

Lemma isU_rec_odd_e m f fe ff fg fh : 1 <= m -> 2 * m + 1 <= 65536 -> Z.odd m = false ->
  isU a b (2 * m + 1) f -> isU a b (m + 2) fe -> isU a b m ff -> isU a b (m - 1) fg -> isU a b (m + 1) fh ->
  feq f (fsub (conv (conv (dl a b) (dl a b)) (conv fe (fpow ff 3))) (conv fg (fpow fh 3))).
Proof.
  intros Hm Hn O (X & r & E & F) (X1 & r1 & E1 & F1) (X2 & r2 & E2 & F2) (X3 & r3 & E3 & F3) (X4 & r4 & E4 & F4).
  assert (O0 : Z.odd (2 * m + 1) = true) by (rewrite Z.odd_add, Z.odd_mul; reflexivity). assert (O1 : Z.odd (m + 2) = false) by (rewrite Z.odd_add, O; reflexivity).
  assert (O3 : Z.odd (m - 1) = true) by (rewrite Z.odd_sub, O; reflexivity). assert (O4 : Z.odd (m + 1) = true) by (rewrite Z.odd_add, O; reflexivity). par.
  destruct (c48_psi_rec_odd a b m Hm Hn) as (r' & e & f0 & g & h & Q & Q1 & Q2 & Q3 & Q4 & CI).
  rewrite E in Q. rewrite E1 in Q1. rewrite E2 in Q2. rewrite E3 in Q3. rewrite E4 in Q4. assert (r' = r) as -> by congruence. assert (e = r1) as -> by congruence. assert (f0 = r2) as -> by congruence. assert (g = r3) as -> by congruence. assert (h = r4) as -> by congruence.
  apply uniq; [exact X| |]. { apply only_sub; apply only_conv; auto using only_pow, only_conv, only_dl. }
  rewrite <- F. rewrite CI. cbn [fpow]. rewrite F1, F2, F3, F4. rewrite <- (Y2_sq a b). cbn [fpow]. apply ci_feq. ring.
Qed.
Lemma isU_rec_odd_o m f fe ff fg fh : 1 <= m -> 2 * m + 1 <= 65536 -> Z.odd m = true ->
  isU a b (2 * m + 1) f -> isU a b (m + 2) fe -> isU a b m ff -> isU a b (m - 1) fg -> isU a b (m + 1) fh ->
  feq f (fsub (conv fe (fpow ff 3)) (conv (conv (dl a b) (dl a b)) (conv fg (fpow fh 3)))).
Proof.
  intros Hm Hn O (X & r & E & F) (X1 & r1 & E1 & F1) (X2 & r2 & E2 & F2) (X3 & r3 & E3 & F3) (X4 & r4 & E4 & F4).
  assert (O0 : Z.odd (2 * m + 1) = true) by (rewrite Z.odd_add, Z.odd_mul; reflexivity). assert (O1 : Z.odd (m + 2) = true) by (rewrite Z.odd_add, O; reflexivity).
  assert (O3 : Z.odd (m - 1) = false) by (rewrite Z.odd_sub, O; reflexivity). assert (O4 : Z.odd (m + 1) = false) by (rewrite Z.odd_add, O; reflexivity). par.
  destruct (c48_psi_rec_odd a b m Hm Hn) as (r' & e & f0 & g & h & Q & Q1 & Q2 & Q3 & Q4 & CI).
  rewrite E in Q. rewrite E1 in Q1. rewrite E2 in Q2. rewrite E3 in Q3. rewrite E4 in Q4. assert (r' = r) as -> by congruence. assert (e = r1) as -> by congruence. assert (f0 = r2) as -> by congruence. assert (g = r3) as -> by congruence. assert (h = r4) as -> by congruence.
  apply uniq; [exact X| |]. { auto 10 using only_sub, only_conv, only_pow, only_dl. }
  rewrite <- F. rewrite CI. cbn [fpow]. rewrite F1, F2, F3, F4. rewrite <- (Y2_sq a b). cbn [fpow]. apply ci_feq. ring.
Qed.
Lemma isU_rec_even m f fe ff fg fh fi : 2 <= m -> 2 * m <= 65536 ->
  isU a b (2 * m) f -> isU a b (m + 2) fe -> isU a b (m - 1) ff -> isU a b (m - 2) fg -> isU a b (m + 1) fh -> isU a b m fi ->
  feq f (conv fi (fsub (conv fe (fpow ff 2)) (conv fg (fpow fh 2)))).
Proof.
  intros Hm Hn (X & r & E & F) (X1 & r1 & E1 & F1) (X2 & r2 & E2 & F2) (X3 & r3 & E3 & F3) (X4 & r4 & E4 & F4) (X5 & r5 & E5 & F5).
  assert (O0 : Z.odd (2 * m) = false) by (rewrite Z.odd_mul; reflexivity). 
  destruct (c48_psi_rec_even a b m Hm Hn) as (r' & e & f0 & g & h & i & Q & Q1 & Q2 & Q3 & Q4 & Q5 & CI). change (fmono 2 0 1 0) with Y2 in CI.
  rewrite E in Q. rewrite E1 in Q1. rewrite E2 in Q2. rewrite E3 in Q3. rewrite E4 in Q4. rewrite E5 in Q5. assert (r' = r) as -> by congruence. assert (e = r1) as -> by congruence. assert (f0 = r2) as -> by congruence. assert (g = r3) as -> by congruence. assert (h = r4) as -> by congruence. assert (i = r5) as -> by congruence.
  apply dl_cancel. apply uniq; [apply only_conv; auto using only_dl| |]. { auto 10 using only_sub, only_conv, only_pow, only_dl. }
  rewrite <- (Y2_sq a b). par. transitivity (conv Y2 r); [rewrite F; apply ci_feq; ring|]. rewrite CI. cbn [fpow]. rewrite F1, F2, F3, F4, F5. 
  replace (Z.odd (m + 2)) with (Z.odd m) by (rewrite Z.odd_add; destruct (Z.odd m); reflexivity). replace (Z.odd (m - 2)) with (Z.odd m) by (rewrite Z.odd_sub; destruct (Z.odd m); reflexivity).
  replace (Z.odd (m - 1)) with (negb (Z.odd m)) by (rewrite Z.odd_sub; destruct (Z.odd m); reflexivity). replace (Z.odd (m + 1)) with (negb (Z.odd m)) by (rewrite Z.odd_add; destruct (Z.odd m); reflexivity).
  destruct (Z.odd m); cbn [negb fpow]; apply ci_feq; ring.
Qed.
End CI.
