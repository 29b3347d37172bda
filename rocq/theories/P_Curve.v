(** The chord-and-tangent law on residues (SpecCurve) is the group law of P_Group over Z/p. *)
From Coq Require Import Znumtheory ZifyBool Field Ring.
From Verif Require Import Prelude M_Bigint M_Curve SpecCurve P_Bigint P_Group P_Fp.
Open Scope Z_scope.

Section Bridge.
Variables a b p : Z.
Hypothesis Pp : prime p.
Hypothesis P2 : p <> 2.
Notation F := (fp p).
Notation J := (inj p Pp).
Notation FF := (fp_field p Pp).
Add Field FpField : (fp_field p Pp).
Notation GADD := (gadd F (J 1) (fadd p Pp) (fmul p Pp) (fsub p Pp) (fopp p Pp) (fdiv p Pp) (fdec p) (J a)).
Notation NMUL := (nmul F (J 1) (fadd p Pp) (fmul p Pp) (fsub p Pp) (fopp p Pp) (fdiv p Pp) (fdec p) (J a)).
Notation ON := (on F (fadd p Pp) (fmul p Pp) (J a) (J b)).
Notation CEQ := (curve_eq F (fadd p Pp) (fmul p Pp) (J a) (J b)).
Notation NEG := (neg F (fopp p Pp)).
Notation THIRD := (third F (fmul p Pp) (fsub p Pp)).
Notation SLOPE := (slope F (fadd p Pp) (fmul p Pp) (fsub p Pp) (J a)).
Notation OPP := (opp F (fopp p Pp)).

Definition emb (P : apoint) : option (F * F) := match P with None => None | Some (x, y) => Some ((J x), (J y)) end.
Definition bk (P : option (F * F)) : apoint := match P with None => None | Some (x, y) => Some (fv p x, fv p y) end.
Lemma emb_bk P : emb (bk P) = P.
Proof. destruct P as [[x y]|]; [|reflexivity]. cbn. rewrite !inj_fv. reflexivity. Qed.
Lemma fv_id z : 0 <= z < p -> fv p (J z) = z.
Proof. intros H. cbn. apply Z.mod_small, H. Qed.
Definition canon (P : apoint) : Prop := match P with None => True | Some (x, y) => 0 <= x < p /\ 0 <= y < p end.
Lemma bk_emb P : canon P -> bk (emb P) = P.
Proof. destruct P as [[x y]|]; [|reflexivity]. cbn [canon emb bk]. intros (H1 & H2). rewrite !fv_id by assumption. reflexivity. Qed.
Lemma canon_bk P : canon (bk P).
Proof. destruct P as [[x y]|]; [|exact I]. split; apply (fv_range p Pp). Qed.
Lemma on_canon P : on_curve a b p P -> canon P.
Proof. destruct P as [[x y]|]; [|tauto]. cbn. tauto. Qed.
Hint Resolve on_canon : core.
Lemma curve_eq_inj x y : CEQ (J x) (J y) <-> curve_eqn a b p x y.
Proof. unfold curve_eq, curve_eqn. rewrite !inj_mul, !inj_add, inj_eq. reflexivity. Qed.
Lemma on_emb P : on_curve a b p P -> ON (emb P).
Proof. destruct P as [[x y]|]; [|tauto]. cbn [emb on on_curve]. rewrite curve_eq_inj. tauto. Qed.
Lemma on_bk P : ON P -> on_curve a b p (bk P).
Proof.
  intros H. pose proof (canon_bk P) as C. rewrite <- (emb_bk P) in H. destruct (bk P) as [[x y]|]; [|exact I]. cbn [emb on] in H.
  rewrite curve_eq_inj in H. cbn in C |- *. tauto.
Qed.
Lemma emb_inj P Q : canon P -> canon Q -> emb P = emb Q -> P = Q.
Proof. intros CP CQ H. rewrite <- (bk_emb P CP), <- (bk_emb Q CQ), H. reflexivity. Qed.

(** The group operations on residues. *)
Definition esum (P Q : apoint) : apoint := bk (GADD (emb P) (emb Q)).
Definition emul (n : nat) (P : apoint) : apoint := bk (NMUL n (emb P)).
Lemma esum_on P Q : on_curve a b p P -> on_curve a b p Q -> on_curve a b p (esum P Q).
Proof. intros HP HQ. apply on_bk. apply (gadd_on F (J 0) _ _ _ _ _ _ _ FF (fdec p) (fchar2 p Pp P2)); apply on_emb; assumption. Qed.
Lemma eneg_emb P : emb (ec_neg p P) = NEG (emb P).
Proof. destruct P as [[x y]|]; [|reflexivity]. cbn [emb ec_neg neg]. rewrite inj_opp. do 2 f_equal. apply inj_eq. apply mod_eq_divide; [destruct Pp; lia|]. apply Z.mod_mod. destruct Pp; lia. Qed.
Lemma eneg_canon P : canon P -> canon (ec_neg p P).
Proof. destruct P as [[x y]|]; [|tauto]. cbn. intros (H1 & H2). split; [exact H1|]. apply Z.mod_pos_bound. lia. Qed.
Lemma eneg_on P : on_curve a b p P -> on_curve a b p (ec_neg p P).
Proof.
  intros H. rewrite <- (bk_emb (ec_neg p P)) by (apply eneg_canon; auto). apply on_bk. rewrite eneg_emb. apply (neg_on F (J 0) _ _ _ _ _ _ _ FF). apply on_emb, H.
Qed.
Lemma eneg_eneg P : canon P -> ec_neg p (ec_neg p P) = P.
Proof.
  intros H. apply emb_inj; [do 2 apply eneg_canon; exact H|exact H|]. rewrite !eneg_emb. apply (neg_neg F (J 0) _ _ _ _ _ _ _ FF).
Qed.
Lemma emb_esum P Q : emb (esum P Q) = GADD (emb P) (emb Q).
Proof. apply emb_bk. Qed.
Lemma emb_emul n P : emb (emul n P) = NMUL n (emb P).
Proof. apply emb_bk. Qed.
Lemma esum_comm P Q : on_curve a b p P -> on_curve a b p Q -> esum P Q = esum Q P.
Proof. intros HP HQ. unfold esum. f_equal. apply (gadd_comm F (J 0) _ _ _ _ _ _ _ FF (fdec p) (fchar2 p Pp P2) (J a) (J b)); apply on_emb; assumption. Qed.
Lemma esum_0_l P : canon P -> esum None P = P.
Proof. intros H. exact (bk_emb P H). Qed.
Lemma esum_0_r P : canon P -> esum P None = P.
Proof. intros H. unfold esum. cbn [emb]. rewrite gadd_0_r. apply bk_emb, H. Qed.
Lemma esum_neg P : on_curve a b p P -> esum P (ec_neg p P) = None.
Proof. intros H. unfold esum. rewrite eneg_emb. rewrite (gadd_opp F (J 0) _ _ _ _ _ _ _ FF (fdec p) (fchar2 p Pp P2) (J a) (J b)); [reflexivity|]. apply on_emb, H. Qed.
Lemma esum_none P Q : on_curve a b p P -> on_curve a b p Q -> esum P Q = None -> Q = ec_neg p P.
Proof.
  intros HP HQ H. apply emb_inj; [auto|apply eneg_canon; auto|]. rewrite eneg_emb.
  apply (gadd_none F (J 0) _ _ _ _ _ _ _ FF (fdec p) (fchar2 p Pp P2) (J a) (J b)); [apply on_emb, HP|apply on_emb, HQ|].
  rewrite <- emb_esum, H. reflexivity.
Qed.

(** *** The relation ec_sum *)
Lemma emb_line_third m x1 y1 x2 : emb (line_third p m x1 y1 x2) = Some (THIRD (J x1) (J y1) (J x2) (J m)).
Proof.
  assert (P0: p <> 0) by (destruct Pp; lia).
  unfold line_third, third. cbn [emb]. rewrite !inj_mul, !inj_sub, ?inj_mul, ?inj_sub.
  assert (D: (p | (m * m - x1 - x2) mod p - (m * m - x1 - x2))) by (apply mod_eq_divide; [exact P0|]; apply Z.mod_mod, P0).
  do 2 f_equal; apply inj_eq; [exact D|]. 
  assert (D2: (p | (m * (x1 - (m * m - x1 - x2) mod p) - y1) mod p - (m * (x1 - (m * m - x1 - x2) mod p) - y1))) by (apply mod_eq_divide; [exact P0|]; apply Z.mod_mod, P0).
  destruct D as (u & D), D2 as (v & D2). exists (v - m * u). nia.
Qed.
Lemma canon_line_third m x1 y1 x2 : canon (line_third p m x1 y1 x2).
Proof. unfold line_third. cbn. assert (0 < p) by (destruct Pp; lia). split; apply Z.mod_pos_bound; lia. Qed.
Lemma ec_sum_emb P Q R : on_curve a b p P -> on_curve a b p Q -> ec_sum a p P Q R -> emb R = GADD (emb P) (emb Q).
Proof.
  intros HP HQ H. apply on_emb in HP. apply on_emb in HQ.
  destruct H as [Q|P|x y1 y2 D|x1 y1 x2 y2 m N D|x y m N D].
  - reflexivity.
  - cbn [emb]. rewrite gadd_0_r. reflexivity.
  - symmetry. cbn [emb on] in *. destruct (gadd_cases F (J 0) _ _ _ _ _ _ _ FF (fdec p) (fchar2 p Pp P2) (J a) (J b) _ _ _ _ HP HQ) as [(_ & E)|(N & _)]; [exact E|].
    exfalso. apply N. split; [reflexivity|]. rewrite inj_opp. apply inj_eq. replace (y1 - - y2) with (y1 + y2) by ring. exact D.
  - rewrite emb_line_third. symmetry. cbn [emb on] in *.
    assert (Nx: (J x1) <> (J x2)). { rewrite inj_eq. intros D'. apply N. replace (x2 - x1) with (- (x1 - x2)) by ring. apply Z.divide_opp_r, D'. }
    assert (E: fsub p Pp (J y1) (J y2) = fmul p Pp (J m) (fsub p Pp (J x1) (J x2))).
    { rewrite !inj_sub, inj_mul. apply inj_eq. replace (y1 - y2 - m * (x1 - x2)) with (m * (x2 - x1) - (y2 - y1)) by ring. exact D. }
    apply (gadd_slope F (J 0) _ _ _ _ _ _ _ FF (fdec p) (fchar2 p Pp P2) (J a) (J b)); [exact HP|exact HQ| |].
    + intros (X & _). contradiction.
    + split; [exact E|]. apply (chord_second F (J 0) _ _ _ _ _ _ _ FF (fdec p) (J a) (J b)); assumption.
  - rewrite emb_line_third. symmetry. cbn [emb on] in *.
    apply (gadd_slope F (J 0) _ _ _ _ _ _ _ FF (fdec p) (fchar2 p Pp P2) (J a) (J b)); [exact HP|exact HQ| |].
    + intros (_ & X). rewrite inj_opp in X. apply inj_eq in X. apply N. replace (2 * y) with (y - - y) by ring. exact X.
    + split; [rewrite !inj_sub, inj_mul; f_equal; ring|]. rewrite !inj_mul, !inj_add, !inj_mul. apply inj_eq.
      replace (m * (y + y) - (x * x + x * x + x * x + a)) with (m * (2 * y) - (3 * (x * x) + a)) by ring. exact D.
Qed.
Lemma ec_sum_canon P Q R : canon P -> canon Q -> ec_sum a p P Q R -> canon R.
Proof. intros HP HQ H. destruct H; try assumption; try exact I; apply canon_line_third. Qed.
Lemma ec_sum_esum P Q R : on_curve a b p P -> on_curve a b p Q -> ec_sum a p P Q R -> R = esum P Q.
Proof.
  intros HP HQ H. unfold esum. rewrite <- (ec_sum_emb P Q R HP HQ H). symmetry. apply bk_emb. apply (ec_sum_canon P Q); auto.
Qed.
Lemma two_y y : (J y) <> fopp p Pp (J y) -> ~ (p | 2 * y).
Proof. intros N D. apply N. rewrite inj_opp. apply inj_eq. replace (y - - y) with (2 * y) by ring. exact D. Qed.
Lemma esum_ec_sum P Q : on_curve a b p P -> on_curve a b p Q -> ec_sum a p P Q (esum P Q).
Proof.
  intros HP HQ. destruct P as [[x1 y1]|]; [|rewrite esum_0_l by auto; constructor].
  destruct Q as [[x2 y2]|]; [|rewrite esum_0_r by auto; constructor].
  pose proof (on_canon _ HP) as (C1 & C2). pose proof (on_canon _ HQ) as (C3 & C4).
  assert (G: forall R, ec_sum a p (Some (x1, y1)) (Some (x2, y2)) R -> ec_sum a p (Some (x1, y1)) (Some (x2, y2)) (esum (Some (x1, y1)) (Some (x2, y2)))).
  { intros R HR. rewrite <- (ec_sum_esum _ _ _ HP HQ HR). exact HR. }
  destruct (Z.eq_dec x1 x2) as [<-|N].
  - assert (D: (p | y1 + y2) \/ y1 = y2).
    { destruct HP as (_ & _ & H1), HQ as (_ & _ & H2). unfold curve_eqn in *. assert (D: (p | (y1 - y2) * (y1 + y2))).
      { replace ((y1 - y2) * (y1 + y2)) with (y1 * y1 - (x1 * x1 * x1 + a * x1 + b) - (y2 * y2 - (x1 * x1 * x1 + a * x1 + b))) by ring. apply Z.divide_sub_r; assumption. }
      apply prime_mult in D; [|exact Pp]. destruct D as [D|D]; [right|left; exact D]. apply mod_eq_divide in D; [|lia]. rewrite !Z.mod_small in D by assumption. exact D. }
    destruct (Zdivide_dec p (y1 + y2)) as [D'|D']; [apply (G None); constructor; exact D'|]. destruct D as [D|<-]; [contradiction|].
    destruct (inverse_spec (2 * y1) p Pp) as (r & _ & _ & Hr); [replace (2 * y1) with (y1 + y1) by ring; exact D'|].
    apply (G (line_third p ((3 * (x1 * x1) + a) * r) x1 y1 x1)). constructor; [replace (2 * y1) with (y1 + y1) by ring; exact D'|].
    replace ((3 * (x1 * x1) + a) * r * (2 * y1) - (3 * (x1 * x1) + a)) with ((3 * (x1 * x1) + a) * (2 * y1 * r - 1)) by ring. apply Z.divide_mul_r, Hr.
  - assert (D: ~ (p | x2 - x1)). { rewrite <- mod_eq_divide by lia. rewrite !Z.mod_small by lia. lia. }
    destruct (inverse_spec (x2 - x1) p Pp D) as (r & _ & _ & Hr).
    apply (G (line_third p ((y2 - y1) * r) x1 y1 x2)). constructor; [exact D|].
    replace ((y2 - y1) * r * (x2 - x1) - (y2 - y1)) with ((y2 - y1) * ((x2 - x1) * r - 1)) by ring. apply Z.divide_mul_r, Hr.
Qed.
Lemma ec_sum_iff P Q R : on_curve a b p P -> on_curve a b p Q -> (ec_sum a p P Q R <-> R = esum P Q).
Proof. intros HP HQ. split; [apply ec_sum_esum; assumption|intros ->; apply esum_ec_sum; assumption]. Qed.
Lemma emul_S n P : emul (S n) P = esum P (emul n P).
Proof. unfold emul, esum. cbn [nmul]. rewrite emb_bk. reflexivity. Qed.
Lemma emul_on n P : on_curve a b p P -> on_curve a b p (emul n P).
Proof. intros H. induction n as [|n IH]; [exact I|]. rewrite emul_S. apply esum_on; assumption. Qed.
Lemma ec_mult_iff P n R : on_curve a b p P -> (ec_mult a p P n R <-> R = emul n P).
Proof.
  intros HP. split.
  - intros H. induction H as [|n Q R H IH HS]; [reflexivity|]. subst Q. rewrite emul_S. apply ec_sum_esum; [exact HP|apply emul_on, HP|exact HS].
  - intros ->. induction n as [|n IH]; [constructor|]. apply (mult_S a p P n (emul n P)); [exact IH|]. rewrite emul_S. apply esum_ec_sum; [exact HP|apply emul_on, HP].
Qed.
Lemma emul_1 P : canon P -> emul 1 P = P.
Proof. intros H. rewrite emul_S. apply esum_0_r, H. Qed.
Lemma emul_none n : emul n None = None.
Proof. unfold emul. cbn [emb]. rewrite nmul_none. reflexivity. Qed.

Section NonSing.
Hypothesis NS : nonsingular a b p.
Notation k2 := (fadd p Pp (J 1) (J 1)).
Lemma fp_nonsing x y : CEQ x y -> y = (J 0) -> fadd p Pp (fmul p Pp (fadd p Pp k2 (J 1)) (fmul p Pp x x)) (J a) = (J 0) -> False.
Proof.
  intros H Hy HA. subst y. rewrite <- (inj_fv p Pp x) in H, HA. revert H HA. generalize (fv p x). clear x. intros x H HA.
  apply curve_eq_inj in H. rewrite !inj_add, !inj_mul, !inj_add in HA. apply inj_eq in HA. unfold curve_eqn in H. apply NS.
  destruct H as (u & H), HA as (v & HA). 
  replace (4 * (a * a * a) + 27 * (b * b)) with
    (- (0 * 0 - (x * x * x + a * x + b)) * (27 * (x * x * x + a * x + b) - 54 * (x * x * x + a * x)) + ((1 + 1 + 1) * (x * x) + a - 0) * (4 * (a * a) + 15 * (a * (x * x)) + 9 * (x * x * x * x))) by ring.
  rewrite H, HA. exists (- u * (27 * (x * x * x + a * x + b) - 54 * (x * x * x + a * x)) + v * (4 * (a * a) + 15 * (a * (x * x)) + 9 * (x * x * x * x))). ring.
Qed.
Lemma esum_assoc P Q R : on_curve a b p P -> on_curve a b p Q -> on_curve a b p R -> esum (esum P Q) R = esum P (esum Q R).
Proof.
  intros HP HQ HR. unfold esum. rewrite !emb_bk. f_equal.
  apply (gadd_assoc F (J 0) _ _ _ _ _ _ _ FF (fdec p) (fchar2 p Pp P2) (J a) (J b) fp_nonsing); apply on_emb; assumption.
Qed.
Lemma emul_add m n P : on_curve a b p P -> emul (m + n) P = esum (emul m P) (emul n P).
Proof.
  intros H. unfold esum. rewrite !emb_emul. unfold emul. f_equal. apply (nmul_add F (J 0) _ _ _ _ _ _ _ FF (fdec p) (fchar2 p Pp P2) (J a) (J b) fp_nonsing). apply on_emb, H.
Qed.
Lemma emul_mul m n P : on_curve a b p P -> emul (m * n) P = emul m (emul n P).
Proof.
  intros H. unfold emul. rewrite emb_bk. f_equal. apply (nmul_mul F (J 0) _ _ _ _ _ _ _ FF (fdec p) (fchar2 p Pp P2) (J a) (J b) fp_nonsing). apply on_emb, H.
Qed.
Lemma emul_esum n P Q : on_curve a b p P -> on_curve a b p Q -> emul n (esum P Q) = esum (emul n P) (emul n Q).
Proof.
  intros HP HQ. unfold esum at 2. rewrite !emb_emul. unfold emul at 1. rewrite emb_esum. f_equal. apply (nmul_gadd F (J 0) _ _ _ _ _ _ _ FF (fdec p) (fchar2 p Pp P2) (J a) (J b) fp_nonsing); apply on_emb; assumption.
Qed.
Lemma emul_neg n P : on_curve a b p P -> emul n (ec_neg p P) = ec_neg p (emul n P).
Proof.
  intros HP. apply emb_inj; [apply canon_bk|apply eneg_canon, canon_bk|]. rewrite eneg_emb, !emb_emul, eneg_emb. symmetry. apply (neg_nmul F (J 0) _ _ _ _ _ _ _ FF (fdec p) (fchar2 p Pp P2) (J a) (J b)). apply on_emb, HP.
Qed.
Definition eorder (P : apoint) (n : nat) : Prop := (1 <= n)%nat /\ emul n P = None /\ forall k, (1 <= k < n)%nat -> emul k P <> None.
Lemma bk_none P : bk P = None <-> P = None.
Proof. destruct P as [[x y]|]; cbn; split; congruence. Qed.
Lemma eorder_emb P n : eorder P n <-> is_order F (J 1) (fadd p Pp) (fmul p Pp) (fsub p Pp) (fopp p Pp) (fdiv p Pp) (fdec p) (J a) (emb P) n.
Proof.
  unfold eorder, is_order, emul. rewrite bk_none. split; intros (A & B & C); (split; [exact A|]); (split; [exact B|]); intros k Hk; specialize (C k Hk); rewrite bk_none in *; exact C.
Qed.
Lemma eorder_divide P n k : on_curve a b p P -> eorder P n -> emul k P = None -> Nat.divide n k.
Proof.
  intros HP HO Hk. apply (order_divide F (J 0) _ _ _ _ _ _ _ FF (fdec p) (fchar2 p Pp P2) (J a) (J b) fp_nonsing (emb P)); [apply on_emb, HP|apply eorder_emb, HO|]. apply bk_none. exact Hk.
Qed.
(** All residue pairs. *)
Definition all_points : list apoint := None :: flat_map (fun x => map (fun y => Some (x, y)) (zrange 0 p)) (zrange 0 p).
Lemma all_points_in P : canon P -> In P all_points.
Proof.
  destruct P as [[x y]|]; [|left; reflexivity]. cbn. intros (H1 & H2). right. apply in_flat_map. exists x. split; [apply in_zrange; exact H1|]. apply in_map_iff. exists y. split; [reflexivity|]. apply in_zrange, H2.
Qed.
Lemma eorder_exists P : on_curve a b p P -> exists n, eorder P n.
Proof.
  intros HP. destruct (order_exists F (J 0) _ _ _ _ _ _ _ FF (fdec p) (fchar2 p Pp P2) (J a) (J b) fp_nonsing (map emb all_points)) with (P := emb P) as (n & Hn & _).
  - intros Q _. rewrite <- (emb_bk Q). apply in_map, all_points_in, canon_bk.
  - apply on_emb, HP.
  - exists n. apply eorder_emb, Hn.
Qed.
Lemma NoDup_map_emb L : (forall P, In P L -> canon P) -> NoDup L -> NoDup (map emb L).
Proof.
  induction L as [|P L IH]; cbn; intros HC HN; [constructor|]. inversion HN as [|? ? Hni Hnd]; subst. constructor; [|apply IH; [intros; apply HC; right; assumption|exact Hnd]].
  rewrite in_map_iff. intros (Q & E & HQ). apply Hni. assert (Q = P) by (apply emb_inj; [apply HC; right; exact HQ|apply HC; left; reflexivity|exact E]). congruence.
Qed.
Lemma elagrange P n (L : list apoint) : on_curve a b p P -> eorder P n -> NoDup L -> (forall Q, In Q L <-> on_curve a b p Q) -> Nat.divide n (length L).
Proof.
  intros HP HO Nd HL. rewrite <- (map_length emb). apply (lagrange F (J 0) _ _ _ _ _ _ _ FF (fdec p) (fchar2 p Pp P2) (J a) (J b) fp_nonsing (emb P)).
  - apply on_emb, HP.
  - apply eorder_emb, HO.
  - apply NoDup_map_emb; [intros Q HQ; apply on_canon, HL, HQ|exact Nd].
  - intros Q. rewrite in_map_iff. split.
    + intros (R & <- & HR). apply on_emb, HL, HR.
    + intros HQ. exists (bk Q). split; [apply emb_bk|]. apply HL, on_bk, HQ.
Qed.
End NonSing.
End Bridge.
