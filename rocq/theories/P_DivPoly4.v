(** Division polynomials: psi returns and satisfies the invariant for every n. *)
From Coq Require Import Znumtheory ZifyBool Setoid Morphisms Ring.
From Verif Require Import Prelude M_Bigint M_Variable M_Term M_Poly M_DivPoly Spec P_Bigint P_Variable P_FSum P_Poly P_Rem P_PolyProps P_Subst P_Subst2 P_SubstProps P_DivPoly P_DivPoly2 P_DivPoly3.
Open Scope Z_scope.

Ltac keys_tac := let H := fresh in intros ? ? H; cbn [In] in H;
  repeat match type of H with _ \/ _ => destruct H as [H|H] end; try contradiction;
  injection H; intros; subst; unfold ykey; cbn [mx my mq mv]; repeat split; lia.

Lemma addt_feq (p : poly) t f : sorted p /\ feq p f -> sorted (p_add_t p t) /\ feq (p_add_t p t) (fadd f [(tm t, tc t)]).
Proof.
  intros (Sp & Fp). unfold p_add_t. split; [apply p_add_sorted, Sp|].
  rewrite (p_add_feq p _ Sp), Fp, (to_pol_feq t). reflexivity.
Qed.
Section Psi.
Variables a b : Z.
Notation psi := (psi a b).
Notation InvO := (InvO a).
Notation InvE := (InvE a).

Lemma base0 : psi 0 = Ok [] /\ InvE 0 [] [].
Proof.
  split; [reflexivity|]. split.
  - split; [exact I| | |reflexivity]; intros ? ? [].
  - split; [intros ? ? []|reflexivity].
  - reflexivity.
Qed.
Lemma base1 : psi 1 = Ok [(mone, 1)] /\ InvO 0 [(mone, 1)] (fconst 1).
Proof.
  split; [reflexivity|]. split.
  - exact rep_one.
  - exact (tops_const 1).
  - reflexivity.
Qed.
Lemma base2 : psi 2 = Ok [(mkMono 0 1 0 None, 2)] /\ InvE 1 [(mkMono 0 1 0 None, 2)] (fconst 1).
Proof.
  split; [reflexivity|]. split.
  - split; [exact (conj (fun _ _ (H : In _ []) => False_ind _ H) I)|keys_tac| |reflexivity].
    apply ykeys_scale, ykeys_const; lia.
  - exact (tops_const 1).
  - reflexivity.
Qed.
Definition f3 : fsum := [(X 4, 3); (X 2, 6 * a); (X 1, 12 * b); (X 0, - a ^ 2)].
Lemma U2_coef m : (2 | coef f3 m - coef (Up a 2) m).
Proof.
  set (h := [(X 4, 1); (X 2, 3 * a - a); (X 1, 6 * b); (X 0, - a ^ 2)] : fsum).
  change (Up a 2) with [(X 4, 1 * (1 * 1)); (X 2, 1 * (a * 1)); (X 2, a * (1 * 1)); (X 0, a * (a * 1))].
  cbn [coef f3].
  exists ((if mono_eqb (X 4) m then 1 else 0) + (if mono_eqb (X 2) m then 2 * a else 0) + (if mono_eqb (X 1) m then 6 * b else 0) + (if mono_eqb (X 0) m then - a ^ 2 else 0)).
  repeat match goal with |- context [if ?c then _ else _] => destruct c end; ring.
Qed.
Lemma base3 : exists r, psi 3 = Ok r /\ InvO 1 r f3.
Proof.
  change (psi 3) with (psi3 a b). unfold psi3. rewrite power_i32_spec by lia. cbn [bind].
  eexists. split; [reflexivity|].
  assert (K3: keysP (ykey 0 4) f3) by (unfold f3, X; keys_tac).
  split.
  - split.
    + unfold p_add_t. repeat apply p_add_sorted. apply term_add_sorted.
    + unfold p_add_t. repeat (apply p_add_keys; [repeat apply p_add_sorted; apply term_add_sorted| |]).
      * apply term_add_keys; unfold ykey; cbn; repeat split; lia.
      * apply to_pol_keys; unfold ykey; cbn; repeat split; lia.
      * apply to_pol_keys; unfold ykey; cbn; repeat split; lia.
    + exact K3.
    + unfold p_add_t. rewrite (p_add_feq _ _ ltac:(apply p_add_sorted, term_add_sorted)), (p_add_feq _ _ ltac:(apply term_add_sorted)), term_add_feq, !to_pol_feq.
      intros m. unfold fadd. rewrite !coef_app. cbn [coef conv flat_map map app Yk f3 tb_build tb_xpow tb_coef tb_new tm tc b_coef b_x b_y b_q b_v fst snd X mmul mx my mq mv vmul].
      rewrite ?Z.add_0_l, ?Z.add_0_r, ?Z.mul_1_l. change mmul with (fun a b => mkMono (mx a + mx b) (my a + my b) (mq a + mq b) (vmul (mv a) (mv b))). cbn [X mx my mq mv vmul Z.add]. repeat match goal with |- context [if ?c then _ else _] => destruct c end; ring.
  - split; [exact K3|]. cbn. ring.
  - exact U2_coef.
Qed.
Definition s4 : fsum := [(X 6, 1); (X 4, 5 * a); (X 3, 20 * b); (X 2, -5 * a ^ 2); (X 1, -4 * a * b); (X 0, -8 * b ^ 2 - a ^ 3)].
Lemma base4 : exists r, psi 4 = Ok r /\ InvE 2 r (conv (fconst 2) s4).
Proof.
  change (psi 4) with (psi4 a b). unfold psi4. rewrite !power_i32_spec by lia. cbn [bind].
  assert (K4: keysP (ykey 0 6) s4) by (unfold s4, X; keys_tac).
  match goal with |- exists r, t_mul_p ?u ?v = _ /\ _ => set (t := u); set (s := v) end.
  assert (Rs: rep 0 6 s4 s).
  { unfold s, p_add_t. split.
    - repeat apply p_add_sorted. apply term_add_sorted.
    - repeat (apply p_add_keys; [repeat apply p_add_sorted; apply term_add_sorted| |]);
        try (apply to_pol_keys; unfold ykey; cbn; repeat split; lia).
      apply term_add_keys; unfold ykey; cbn; repeat split; lia.
    - exact K4.
    - etransitivity; [eapply proj2; apply addt_feq, addt_feq, addt_feq, addt_feq; split; [apply term_add_sorted|apply term_add_feq]|].
      intros m. unfold fadd. rewrite !coef_app. cbn [coef conv flat_map map app Yk s4 tb_build tb_xpow tb_coef tb_new tm tc b_coef b_x b_y b_q b_v fst snd X mmul mx my mq mv vmul].
      rewrite ?Z.add_0_l, ?Z.add_0_r, ?Z.mul_1_l. change mmul with (fun a b => mkMono (mx a + mx b) (my a + my b) (mq a + mq b) (vmul (mv a) (mv b))). cbn [X mx my mq mv vmul Z.add]. repeat match goal with |- context [if ?c then _ else _] => destruct c end; ring. }
  assert (Rt: rep 1 0 (fconst 4) (to_pol t)).
  { split; [apply to_pol_sorted|apply to_pol_keys; unfold ykey; cbn; repeat split; lia|apply ykeys_const; lia|]. rewrite to_pol_feq. reflexivity. }
  destruct (rep_mul 1 0 _ _ 0 6 _ _ ltac:(lia) ltac:(lia) ltac:(unfold i32_max; lia) ltac:(unfold i32_max; lia) Rt Rs) as (r & Hr & R).
  unfold t_mul_p. exists r. split; [exact Hr|]. split.
  - change (2 * (2 * 2) - 2) with (0 + 6). change 1 with (1 + 0) at 1. eapply rep_ext; [|apply ykeys_scale; apply ykeys_scale; exact K4|exact R].
    assert (E: feq (fconst 4) (conv (fconst 2) (fconst 2))) by reflexivity. rewrite E. generalize (fconst 2). intros u. ring.
  - split; [apply ykeys_scale; exact K4|]. rewrite fconst_scale. cbn. ring.
  - cbn [Z.odd]. apply two_zero.
Qed.

Definition good (n : Z) : Prop :=
  (forall m, n = 2 * m + 1 -> exists r f, psi n = Ok r /\ InvO m r f) /\
  (forall m, n = 2 * m -> exists r f, psi n = Ok r /\ InvE m r f).
Lemma goodO n m : good n -> n = 2 * m + 1 -> exists r f, psi n = Ok r /\ InvO m r f.
Proof. intros (H & _). apply H. Qed.
Lemma goodE n m : good n -> n = 2 * m -> exists r f, psi n = Ok r /\ InvE m r f.
Proof. intros (_ & H). apply H. Qed.

Lemma good_step n : 5 <= n <= 65536 -> (forall k, 0 <= k < n -> good k) -> good n.
Proof.
  intros Hn IH. split.
  - intros m ->. rewrite (psi_eq a b) by lia. unfold psi_step.
    replace ((2 * m + 1) mod 2 =? 1) with true by (rewrite Z.add_comm, Z.mul_comm, Z_mod_plus_full; reflexivity). cbv zeta.
    replace ((2 * m + 1 - 1) / 2) with m by (replace (2 * m + 1 - 1) with (m * 2) by ring; rewrite Z.div_mul; lia).
    destruct (Z.Even_or_Odd m) as [(k & ->)|(k & ->)].
    + destruct (goodE (2 * k + 2) (k + 1) (IH (2 * k + 2) ltac:(lia)) ltac:(lia)) as (e & fe & -> & Ie).
      destruct (goodE (2 * k) k (IH (2 * k) ltac:(lia)) ltac:(lia)) as (f0 & ff & -> & If).
      destruct (goodO (2 * k - 1) (k - 1) (IH (2 * k - 1) ltac:(lia)) ltac:(lia)) as (g & fg & -> & Ig).
      destruct (goodO (2 * k + 1) k (IH (2 * k + 1) ltac:(lia)) ltac:(lia)) as (h0 & fh & -> & Ih).
      destruct (step_OE a b k e fe f0 ff g fg h0 fh ltac:(lia) ltac:(lia) Ie If Ig Ih) as (f1 & h & ef & gh & r & f & E1 & E2 & E3 & E4 & E5 & _ & R).
      cbn [bind]. rewrite E1. cbn [bind]. rewrite E2. cbn [bind]. rewrite E3. cbn [bind]. rewrite E4. cbn [bind]. rewrite E5. eauto.
    + destruct (goodO (2 * k + 1 + 2) (k + 1) (IH (2 * k + 1 + 2) ltac:(lia)) ltac:(lia)) as (e & fe & -> & Ie).
      destruct (goodO (2 * k + 1) k (IH (2 * k + 1) ltac:(lia)) ltac:(lia)) as (f0 & ff & -> & If).
      destruct (goodE (2 * k + 1 - 1) k (IH (2 * k + 1 - 1) ltac:(lia)) ltac:(lia)) as (g & fg & -> & Ig).
      destruct (goodE (2 * k + 1 + 1) (k + 1) (IH (2 * k + 1 + 1) ltac:(lia)) ltac:(lia)) as (h0 & fh & -> & Ih).
      destruct (step_OO a b k e fe f0 ff g fg h0 fh ltac:(lia) ltac:(lia) Ie If Ig Ih) as (f1 & h & ef & gh & r & f & E1 & E2 & E3 & E4 & E5 & _ & R).
      cbn [bind]. rewrite E1. cbn [bind]. rewrite E2. cbn [bind]. rewrite E3. cbn [bind]. rewrite E4. cbn [bind]. rewrite E5. eauto.
  - intros m ->. rewrite (psi_eq a b) by lia. unfold psi_step.
    replace ((2 * m) mod 2 =? 1) with false by (rewrite Z.mul_comm, Z_mod_mult; reflexivity). cbv zeta.
    replace (2 * m / 2) with m by (rewrite Z.mul_comm, Z.div_mul; lia).
    destruct (Z.Even_or_Odd m) as [(k & ->)|(k & ->)].
    + destruct (goodE (2 * k + 2) (k + 1) (IH (2 * k + 2) ltac:(lia)) ltac:(lia)) as (e & fe & -> & Ie).
      destruct (goodO (2 * k - 1) (k - 1) (IH (2 * k - 1) ltac:(lia)) ltac:(lia)) as (f0 & ff & -> & If).
      destruct (goodE (2 * k - 2) (k - 1) (IH (2 * k - 2) ltac:(lia)) ltac:(lia)) as (g & fg & -> & Ig).
      destruct (goodO (2 * k + 1) k (IH (2 * k + 1) ltac:(lia)) ltac:(lia)) as (h0 & fh & -> & Ih).
      destruct (goodE (2 * k) k (IH (2 * k) ltac:(lia)) ltac:(lia)) as (i0 & fi & -> & Ii).
      destruct (step_EE a b k e fe f0 ff g fg h0 fh i0 fi ltac:(lia) ltac:(lia) Ie If Ig Ih Ii) as (f1 & h & ef & gh & i & j & r & f & E1 & E2 & E3 & E4 & E5 & E6 & E7 & _ & _ & R).
      cbn [bind]. rewrite E1. cbn [bind]. rewrite E2. cbn [bind]. rewrite E3. cbn [bind]. rewrite E4. cbn [bind]. rewrite E5. cbn [bind]. rewrite E6. cbn [bind]. rewrite E7. eauto.
    + destruct (goodO (2 * k + 1 + 2) (k + 1) (IH (2 * k + 1 + 2) ltac:(lia)) ltac:(lia)) as (e & fe & -> & Ie).
      destruct (goodE (2 * k + 1 - 1) k (IH (2 * k + 1 - 1) ltac:(lia)) ltac:(lia)) as (f0 & ff & -> & If).
      destruct (goodO (2 * k + 1 - 2) (k - 1) (IH (2 * k + 1 - 2) ltac:(lia)) ltac:(lia)) as (g & fg & -> & Ig).
      destruct (goodE (2 * k + 1 + 1) (k + 1) (IH (2 * k + 1 + 1) ltac:(lia)) ltac:(lia)) as (h0 & fh & -> & Ih).
      destruct (goodO (2 * k + 1) k (IH (2 * k + 1) ltac:(lia)) ltac:(lia)) as (i0 & fi & -> & Ii).
      destruct (step_EO a b k e fe f0 ff g fg h0 fh i0 fi ltac:(lia) ltac:(lia) Ie If Ig Ih Ii) as (f1 & h & ef & gh & i & j & r & f & E1 & E2 & E3 & E4 & E5 & E6 & E7 & _ & _ & R).
      cbn [bind]. rewrite E1. cbn [bind]. rewrite E2. cbn [bind]. rewrite E3. cbn [bind]. rewrite E4. cbn [bind]. rewrite E5. cbn [bind]. rewrite E6. cbn [bind]. rewrite E7. eauto.
Qed.
Lemma psi_good n : 0 <= n <= 65536 -> good n.
Proof.
  intros Hn. destruct Hn as (H0 & H1). revert n H0 H1. apply (Zlt_0_ind (fun n => n <= 65536 -> good n)).
  intros n IH H0 H1. destruct (Z_lt_le_dec n 5) as [Hlt|Hge].
  - assert (Hc: n = 0 \/ n = 1 \/ n = 2 \/ n = 3 \/ n = 4) by lia.
    destruct Hc as [-> | [-> | [-> | [-> | ->]]]]; split; intros m Hm; try lia.
    + assert (m = 0) by lia. subst m. destruct base0; eauto.
    + assert (m = 0) by lia. subst m. destruct base1; eauto.
    + assert (m = 1) by lia. subst m. destruct base2; eauto.
    + assert (m = 1) by lia. subst m. destruct base3 as (r & E & R); eauto.
    + assert (m = 2) by lia. subst m. destruct base4 as (r & E & R); eauto.
  - apply good_step; [lia|]. intros k Hk. apply IH; lia.
Qed.
End Psi.
