(** multiply_scalar, point_order, enumeration of points. *)
From Coq Require Import Znumtheory ZifyBool.
From Verif Require Import Prelude M_Bigint M_Variable M_Term M_Poly M_Curve Spec SpecCurve P_Bigint P_Variable P_Subst P_Subst2 P_Subst3 P_Fp P_Curve P_Curve2.
Open Scope Z_scope.

Lemma log2_quot e : 1 < e -> Z.log2 e = Z.succ (Z.log2 (Z.quot e 2)).
Proof.
  intros H. destruct (halvings_step e H) as (k & A & B). unfold halvings in *. pose proof (Z.log2_nonneg e). pose proof (Z.log2_nonneg (Z.quot e 2)).
  injection A as A. assert (Z.to_nat (Z.log2 e) = S (Z.to_nat (Z.log2 (Z.quot e 2)))) by lia. lia.
Qed.
Definition top (e : Z) : nat := Z.to_nat (2 ^ Z.log2 e).
Lemma top_quot e : 1 < e -> top e = (top (Z.quot e 2) * 2)%nat.
Proof.
  intros H. unfold top. rewrite (log2_quot e H). rewrite Z.pow_succ_r by apply Z.log2_nonneg. pose proof (Z.pow_nonneg 2 (Z.log2 (Z.quot e 2))). lia.
Qed.
Lemma quot_nat e : 1 < e -> Z.to_nat e = (Z.to_nat (Z.quot e 2) * 2 + (if Z.odd e then 1 else 0))%nat.
Proof. intros H. destruct (quot2_split e H) as (A & B). destruct (Z.odd e); lia. Qed.

Section Mul.
Variables (a b p : Z) (E : curve).
Hypothesis HE : fields a b p E.
Hypothesis Pp : prime p.
Hypothesis P2 : p <> 2.
Hypothesis NS : nonsingular a b p.
Notation "P +++ Q" := (esum a p Pp P Q) (at level 50).
Notation aff := (affine p).
Notation onc P := (on_curve a b p (affine p P)).
Notation emul := (emul a p Pp).
Let H0 : 0 < p := p_pos' p Pp.
Let Ass := esum_assoc a b p Pp P2 NS.
Let Com := esum_comm a b p Pp P2.
Let Onp := esum_on a b p Pp P2.
Let Onm := emul_on a b p Pp P2.
Lemma aff_none P : aff P = None <-> pz P = 0.
Proof. unfold affine. destruct (pz P =? 0) eqn:X; split; intros; try congruence; lia. Qed.
Lemma aff_pt_of P : canon p P -> aff (pt_of P) = P.
Proof. apply pt_of_affine. Qed.
Lemma esum_canon P Q : canon p (P +++ Q).
Proof. apply (canon_bk p Pp). Qed.
Lemma emul_1' P : canon p P -> emul 1 P = P.
Proof. apply emul_1. Qed.
Lemma emul_2 P : on_curve a b p P -> emul 2 P = P +++ P.
Proof. intros H. rewrite emul_S, (emul_1 a p Pp) by (apply (on_canon a b p), H). reflexivity. Qed.
(** Any sum of points on the curve is on the curve. *)
Lemma plus_on P Q : onc P -> onc Q -> exists R, plus E P Q = Ok R /\ onc R.
Proof.
  intros HP HQ. destruct (Z.eq_dec (pz P) 0) as [ZP|ZP]; [|destruct (Z.eq_dec (pz Q) 0) as [ZQ|ZQ]].
  - destruct (plus_ok a b p E HE Pp P2 P Q HP HQ) as (R & A & B & _); [tauto|]. exists R. split; [exact A|]. rewrite B. apply Onp; assumption.
  - exists (mkPt (px P) (py Q) 0). split; [apply (plus_inf_r a b p); assumption|]. exact I.
  - destruct (plus_ok a b p E HE Pp P2 P Q HP HQ) as (R & A & B & _); [tauto|]. exists R. split; [exact A|]. rewrite B. apply Onp; assumption.
Qed.
Lemma plus_inf P Q : onc P -> onc Q -> pz Q = 0 -> exists R, plus E P Q = Ok R /\ pz R = 0.
Proof.
  intros HP HQ ZQ. destruct (Z.eq_dec (pz P) 0) as [ZP|ZP].
  - exists Q. split; [apply (plus_inf_l a b p); assumption|exact ZQ].
  - exists (mkPt (px P) (py Q) 0). split; [apply (plus_inf_r a b p); assumption|]. reflexivity.
Qed.
Lemma plus_dbl B : onc B -> exists B', plus E B B = Ok B' /\ onc B' /\ aff B' = emul 2 (aff B).
Proof.
  intros HB. destruct (plus_ok a b p E HE Pp P2 B B HB HB) as (R & A & C & _); [destruct (Z.eq_dec (pz B) 0); tauto|].
  exists R. split; [exact A|]. rewrite emul_2 by exact HB. split; [rewrite C; apply Onp; assumption|exact C].
Qed.
Lemma loop_good fuel : forall e B R, 1 <= e -> (halvings e <= fuel)%nat -> onc B -> onc R -> emul (top e) (aff B) <> None ->
  exists X, multiply_loop fuel E e B R = Ok X /\ aff X = aff R +++ emul (Z.to_nat e) (aff B).
Proof.
  induction fuel as [|f IH]; intros e B R He Hf HB HR N; [unfold halvings in Hf; lia|]. cbn [multiply_loop].
  assert (ZB: pz B <> 0). { intros Z. apply N. apply aff_none in Z. rewrite Z. apply emul_none. }
  destruct (1 <? e) eqn:E1.
  - assert (He1: 1 < e) by lia. destruct (halvings_step e He1) as (k & Hk & Hk'). destruct (quot2_split e He1) as (Hs & Hb).
    assert (SR: exists R', (if Z.odd e then plus E R B else Ok R) = Ok R' /\ onc R' /\ aff R' = aff R +++ emul (if Z.odd e then 1 else 0) (aff B)).
    { destruct (Z.odd e).
      - destruct (plus_ok a b p E HE Pp P2 R B HR HB) as (R' & A & C & _); [tauto|]. exists R'. split; [exact A|]. rewrite emul_1' by (apply affine_canon, H0). split; [rewrite C; apply Onp; assumption|exact C].
      - exists R. split; [reflexivity|]. split; [exact HR|]. symmetry. apply (esum_0_r a p Pp). apply affine_canon, H0. }
    destruct SR as (R' & ER & HR' & AR). rewrite ER. cbn [bind].
    destruct (plus_dbl B HB) as (B' & EB & HB' & AB). rewrite EB. cbn [bind].
    destruct (IH (Z.quot e 2) B' R') as (X & EX & AX); [lia|lia|assumption|assumption| |].
    { rewrite AB. rewrite <- (emul_mul a b p Pp P2 NS) by exact HB. rewrite <- top_quot by exact He1. exact N. }
    exists X. split; [exact EX|]. rewrite AX, AR, AB. rewrite <- (emul_mul a b p Pp P2 NS) by exact HB.
    rewrite (quot_nat e He1). rewrite (emul_add a b p Pp P2 NS) by exact HB. rewrite Ass by (repeat first [apply Onm|assumption]). f_equal. apply Com; apply Onm; assumption.
  - assert (e = 1) by lia. subst e. destruct (plus_ok a b p E HE Pp P2 R B HR HB) as (R' & A & C & _); [tauto|].
    exists R'. split; [exact A|]. rewrite C. rewrite (emul_1 a p Pp) by (apply affine_canon, H0). reflexivity.
Qed.
Lemma loop_bad fuel : forall e B R, 1 <= e -> (halvings e <= fuel)%nat -> onc B -> onc R -> emul (top e) (aff B) = None ->
  exists X, multiply_loop fuel E e B R = Ok X /\ aff X = None.
Proof.
  induction fuel as [|f IH]; intros e B R He Hf HB HR N; [unfold halvings in Hf; lia|]. cbn [multiply_loop].
  destruct (1 <? e) eqn:E1.
  - assert (He1: 1 < e) by lia. destruct (halvings_step e He1) as (k & Hk & Hk'). destruct (quot2_split e He1) as (Hs & Hb).
    assert (SR: exists R', (if Z.odd e then plus E R B else Ok R) = Ok R' /\ onc R').
    { destruct (Z.odd e); [apply plus_on; assumption|]. exists R. auto. }
    destruct SR as (R' & ER & HR'). rewrite ER. cbn [bind].
    destruct (plus_dbl B HB) as (B' & EB & HB' & AB). rewrite EB. cbn [bind].
    apply IH; [lia|lia|assumption|assumption|]. rewrite AB. rewrite <- (emul_mul a b p Pp P2 NS) by exact HB. rewrite <- top_quot by exact He1. exact N.
  - assert (e = 1) by lia. subst e. change (top 1) with 1%nat in N. rewrite (emul_1 a p Pp) in N by (apply affine_canon, H0). apply aff_none in N.
    destruct (plus_inf R B HR HB N) as (X & A & C). exists X. split; [exact A|apply aff_none, C].
Qed.
(** Exact representation when the multiple is infinity and infinities are represented as (0,1,0). *)
Definition inf_ok (P : point) : Prop := pz P = 0 -> P = infinity.
Lemma loop_exact fuel : forall e B R, 1 <= e -> (halvings e <= fuel)%nat -> onc B -> onc R -> inf_ok B -> inf_ok R ->
  aff R +++ emul (Z.to_nat e) (aff B) = None -> multiply_loop fuel E e B R = Ok infinity.
Proof.
  induction fuel as [|f IH]; intros e B R He Hf HB HR IB IR N; [unfold halvings in Hf; lia|]. cbn [multiply_loop].
  assert (D: pz R = 0 \/ pz B <> 0).
  { destruct (Z.eq_dec (pz B) 0) as [ZB|]; [left|tauto]. apply aff_none in ZB. rewrite ZB, emul_none in N. rewrite (esum_0_r a p Pp) in N by (apply affine_canon, H0). apply aff_none, N. }
  destruct (1 <? e) eqn:E1.
  - assert (He1: 1 < e) by lia. destruct (halvings_step e He1) as (k & Hk & Hk'). destruct (quot2_split e He1) as (Hs & Hb).
    assert (SR: exists R', (if Z.odd e then plus E R B else Ok R) = Ok R' /\ onc R' /\ inf_ok R' /\ aff R' = aff R +++ emul (if Z.odd e then 1 else 0) (aff B)).
    { destruct (Z.odd e).
      - destruct (plus_ok a b p E HE Pp P2 R B HR HB D) as (R' & A & C & I'). exists R'. split; [exact A|]. rewrite emul_1' by (apply affine_canon, H0). split; [rewrite C; apply Onp; assumption|]. split; [|exact C].
        intros Z. destruct (I' Z) as [-> | ->]; [apply IB, Z|reflexivity].
      - exists R. split; [reflexivity|]. split; [exact HR|]. split; [exact IR|]. symmetry. apply (esum_0_r a p Pp). apply affine_canon, H0. }
    destruct SR as (R' & ER & HR' & IR' & AR). rewrite ER. cbn [bind].
    destruct (plus_ok a b p E HE Pp P2 B B HB HB) as (B' & EB & CB & IB'); [destruct (Z.eq_dec (pz B) 0); tauto|]. rewrite EB. cbn [bind].
    assert (AB: aff B' = emul 2 (aff B)) by (rewrite CB, emul_2 by exact HB; reflexivity).
    apply IH; [lia|lia| |exact HR'| |exact IR'|].
    + rewrite CB. apply Onp; assumption.
    + intros Z. destruct (IB' Z) as [-> | ->]; [apply IB, Z|reflexivity].
    + rewrite AR, AB, <- (emul_mul a b p Pp P2 NS) by exact HB. rewrite Ass by (repeat first [apply Onm|assumption]). rewrite <- (emul_add a b p Pp P2 NS) by exact HB.
      rewrite Nat.add_comm, <- (quot_nat e He1). exact N.
  - assert (e = 1) by lia. subst e. destruct (plus_ok a b p E HE Pp P2 R B HR HB D) as (R' & A & C & I').
    change (Z.to_nat 1) with 1%nat in N. rewrite (emul_1 a p Pp) in N by (apply affine_canon, H0). rewrite A. f_equal. rewrite N in C. apply aff_none in C. destruct (I' C) as [-> | ->]; [apply IB, C|reflexivity].
Qed.

(** The value of multiply_scalar for every n >= 0. *)
Lemma mult_value P n : onc P -> 0 <= n -> exists X, multiply_scalar E P n = Ok X /\
  aff X = (if Z.eqb n 0 then None else match emul (top n) (aff P) with None => None | Some _ => emul (Z.to_nat n) (aff P) end).
Proof.
  intros HP Hn. unfold multiply_scalar. destruct (n =? 0) eqn:E0; [exists infinity; split; reflexivity|]. destruct (n <? 0) eqn:E1; [lia|].
  unfold multiply_nonneg. rewrite E0. destruct (n =? 1) eqn:E2.
  - assert (n = 1) by lia. subst n. exists P. split; [reflexivity|]. change (top 1) with 1%nat. change (Z.to_nat 1) with 1%nat. rewrite (emul_1 a p Pp) by (apply affine_canon, H0). destruct (aff P); reflexivity.
  - destruct (emul (top n) (aff P)) eqn:X.
    + destruct (loop_good (halvings n) n P infinity) as (Y & A & B); [lia|lia|exact HP|exact I|congruence|]. exists Y. split; [exact A|]. rewrite B. apply (esum_0_l a p Pp). apply (canon_bk p Pp).
    + apply loop_bad; [lia|lia|exact HP|exact I|exact X].
Qed.
Lemma mult_exact P n : onc P -> 0 <= n -> inf_ok P -> emul (Z.to_nat n) (aff P) = None -> multiply_scalar E P n = Ok infinity.
Proof.
  intros HP Hn HI H. unfold multiply_scalar. destruct (n =? 0) eqn:E0; [reflexivity|]. destruct (n <? 0) eqn:E1; [lia|].
  unfold multiply_nonneg. rewrite E0. destruct (n =? 1) eqn:E2.
  - assert (n = 1) by lia. subst n. change (Z.to_nat 1) with 1%nat in H. rewrite (emul_1 a p Pp) in H by (apply affine_canon, H0). apply aff_none in H. rewrite (HI H). reflexivity.
  - apply loop_exact; [lia|lia|exact HP|exact I|exact HI|intros _; reflexivity|]. change (aff infinity) with (@None (Z * Z)). rewrite (esum_0_l a p Pp) by apply (canon_bk p Pp). exact H.
Qed.
Lemma mult_neg P n : onc P -> 0 < n -> multiply_scalar E P (- n) = multiply_scalar E P n.
Proof.
  intros HP Hn. destruct (mult_value P n HP ltac:(lia)) as (X & EX & AX). rewrite EX. unfold multiply_scalar in *.
  destruct (- n =? 0) eqn:E0; [lia|]. destruct (- n <? 0) eqn:E1; [|lia]. destruct (n =? 0) eqn:E2; [lia|]. destruct (n <? 0) eqn:E3; [lia|].
  rewrite Z.opp_involutive, EX. cbn [bind]. apply (plus_inf_l a b p); [exact HE|exact H0|reflexivity|]. rewrite AX. destruct (emul (top n) (aff P)); [apply Onm, HP|exact I].
Qed.

(** point_order *)
Lemma order_loop P n : onc P -> pz P <> 0 -> eorder a p Pp (aff P) n -> forall fuel k R, (1 <= k < n)%nat -> (n <= k + fuel)%nat -> aff R = emul k (aff P) ->
  point_order_loop fuel E P (Z.of_nat k + 1) R = Ok (Z.of_nat n).
Proof.
  intros HP ZP (N1 & N2 & N3). induction fuel as [|f IH]; intros k R Hk Hf HR; [lia|]. cbn [point_order_loop].
  assert (ZR: pz R <> 0) by (rewrite <- aff_none, HR; apply N3; lia).
  rewrite (plus_finite a b p E HE Pp P2 P R ZP ZR HP) by (rewrite HR; apply Onm, HP). cbn [bind].
  assert (ES: aff P +++ aff R = emul (S k) (aff P)) by (rewrite emul_S, HR; reflexivity). rewrite ES.
  assert (CA: aff (pt_of (emul (S k) (aff P))) = emul (S k) (aff P)) by (apply pt_of_affine, (canon_bk p Pp)).
  destruct (Nat.eq_dec (S k) n) as [En|Nn].
  - rewrite En, N2. cbn. f_equal. lia.
  - unfold is_infinity. destruct (pz (pt_of (emul (S k) (aff P))) =? 0) eqn:X.
    + exfalso. apply (N3 (S k)); [lia|]. rewrite <- CA. apply aff_none. lia.
    + replace (Z.of_nat k + 1 + 1) with (Z.of_nat (S k) + 1) by lia. apply IH; [lia|lia|exact CA].
Qed.
Lemma order_value P n : onc P -> eorder a p Pp (aff P) n -> forall fuel, (n <= S fuel)%nat -> point_order fuel E P = Ok (Z.of_nat n).
Proof.
  intros HP HO fuel Hf. unfold point_order, is_infinity. pose proof HO as (N1 & N2 & N3). destruct (pz P =? 0) eqn:X.
  - assert (n = 1)%nat; [|subst; reflexivity]. destruct (Nat.eq_dec n 1) as [|N]; [assumption|]. exfalso. apply (N3 1%nat); [lia|]. rewrite (emul_1 a p Pp) by (apply affine_canon, H0). apply aff_none. lia.
  - assert (n <> 1%nat). { intros ->. rewrite (emul_1 a p Pp) in N2 by (apply affine_canon, H0). apply aff_none in N2. lia. }
    apply (order_loop P n HP ltac:(lia) HO fuel 1%nat P); [lia|lia|]. symmetry. apply emul_1'. apply affine_canon, H0.
Qed.
Lemma order_loop_mono P : forall fuel x R v, point_order_loop fuel E P x R = Ok v -> forall fuel', (fuel <= fuel')%nat -> point_order_loop fuel' E P x R = Ok v.
Proof.
  induction fuel as [|f IH]; intros x R v H fuel' Hf; [discriminate|]. destruct fuel' as [|f']; [lia|]. cbn [point_order_loop] in *.
  apply bind_inv in H as (R' & -> & H). cbn [bind]. destruct (is_infinity R'); [exact H|]. apply (IH _ _ _ H). lia.
Qed.
Lemma order_mono P fuel v : point_order fuel E P = Ok v -> forall fuel', (fuel <= fuel')%nat -> point_order fuel' E P = Ok v.
Proof. unfold point_order. destruct (is_infinity P); [auto|]. intros H fuel' Hf. apply (order_loop_mono _ _ _ _ _ H). exact Hf. Qed.
Lemma eorder_ec_order P n : onc P -> (eorder a p Pp (aff P) n <-> ec_order a p (aff P) (Z.of_nat n)).
Proof.
  intros HP. unfold eorder, ec_order. rewrite Nat2Z.id. rewrite (ec_mult_iff a b p Pp P2) by exact HP. split; intros (A & B & C); (split; [lia|]); (split; [congruence|]); intros k Hk.
  - rewrite (ec_mult_iff a b p Pp P2) by exact HP. intros X. apply (C (Z.to_nat k)); [lia|]. congruence.
  - intros X. apply (C (Z.of_nat k)); [lia|]. rewrite Nat2Z.id, (ec_mult_iff a b p Pp P2) by exact HP. congruence.
Qed.
End Mul.
