(** Algebra of formal sums (Spec.v): the coefficient congruence is a ring congruence and
    respects every linear functional. *)
From Coq Require Import Znumtheory ZifyBool Setoid Morphisms Ring.
From Verif Require Import Prelude M_Bigint M_Variable M_Term Spec P_Bigint P_Variable.
Open Scope Z_scope.

(** ** Linear functionals *)
Fixpoint lin (phi : mono -> Z) (a : fsum) : Z :=
  match a with
  | [] => 0
  | (m, c) :: r => c * phi m + lin phi r
  end.

Lemma lin_app phi a b : lin phi (a ++ b) = lin phi a + lin phi b.
Proof. induction a as [|[m c] a IH]; [reflexivity|]. cbn [app lin]. rewrite IH. ring. Qed.
Lemma lin_neg phi a : lin phi (fneg a) = - lin phi a.
Proof. induction a as [|[m c] a IH]; [reflexivity|]. cbn [fneg map lin fst snd] in *. unfold fneg in IH. rewrite IH. ring. Qed.
Lemma lin_ext_in phi psi a : (forall m c, In (m, c) a -> phi m = psi m) -> lin phi a = lin psi a.
Proof.
  induction a as [|[m c] a IH]; intros H; [reflexivity|]. cbn [lin].
  rewrite IH by (intros; eapply H; right; eassumption). rewrite (H m c) by (left; reflexivity). reflexivity.
Qed.
Lemma lin_ext phi psi a : (forall m, phi m = psi m) -> lin phi a = lin psi a.
Proof. intros H. apply lin_ext_in. intros; apply H. Qed.
Lemma lin_scale k phi a : lin (fun m => k * phi m) a = k * lin phi a.
Proof. induction a as [|[m c] a IH]; cbn [lin]; [ring|]. rewrite IH. ring. Qed.
Lemma lin_scale_r k phi a : lin (fun m => phi m * k) a = lin phi a * k.
Proof. induction a as [|[m c] a IH]; cbn [lin]; [ring|]. rewrite IH. ring. Qed.
Lemma lin_plus phi psi a : lin (fun m => phi m + psi m) a = lin phi a + lin psi a.
Proof. induction a as [|[m c] a IH]; cbn [lin]; [ring|]. rewrite IH. ring. Qed.
Lemma lin_zero a : lin (fun _ => 0) a = 0.
Proof. induction a as [|[m c] a IH]; cbn [lin]; [ring|]. rewrite IH. ring. Qed.

Definition delta (m : mono) : mono -> Z := fun k => if mono_eqb k m then 1 else 0.
Lemma coef_lin a m : coef a m = lin (delta m) a.
Proof.
  induction a as [|[k c] a IH]; [reflexivity|]. cbn [coef lin]. rewrite IH. unfold delta.
  destruct (mono_eqb k m); ring.
Qed.
Lemma coef_app a b m : coef (a ++ b) m = coef a m + coef b m.
Proof. rewrite !coef_lin. apply lin_app. Qed.
Lemma coef_neg a m : coef (fneg a) m = - coef a m.
Proof. rewrite !coef_lin. apply lin_neg. Qed.
Lemma fval_lin x y a : fval x y a = lin (mval x y) a.
Proof. induction a as [|[m c] a IH]; [reflexivity|]. cbn [fval lin]. rewrite IH. reflexivity. Qed.

Lemma lin_conv1 phi m c b :
  lin phi (map (fun f : mono * Z => (mmul m (fst f), c * snd f)) b) = c * lin (fun m2 => phi (mmul m m2)) b.
Proof. induction b as [|[k d] b IH]; [simpl; ring|]. cbn [map lin fst snd]. rewrite IH. ring. Qed.
Lemma lin_conv phi a b : lin phi (conv a b) = lin (fun m1 => lin (fun m2 => phi (mmul m1 m2)) b) a.
Proof.
  induction a as [|[m c] a IH]; [reflexivity|]. unfold conv in *. cbn [flat_map lin fst snd].
  rewrite lin_app, IH, lin_conv1. reflexivity.
Qed.
Lemma lin_swap (F : mono -> mono -> Z) a b :
  lin (fun m1 => lin (fun m2 => F m1 m2) b) a = lin (fun m2 => lin (fun m1 => F m1 m2) a) b.
Proof.
  induction a as [|[m c] a IH]; cbn [lin].
  - symmetry. apply lin_zero.
  - rewrite IH, <- lin_scale, <- lin_plus. reflexivity.
Qed.

(** ** Zero sums *)
Lemma lin_remove phi d k :
  lin phi d = coef d k * phi k + lin phi (filter (fun e => negb (mono_eqb (fst e) k)) d).
Proof.
  induction d as [|[m c] d IH]; [simpl; ring|]. cbn [lin coef filter fst]. rewrite IH.
  destruct (mono_eqb m k) eqn:E; cbn [negb].
  - apply mono_eqb_eq in E; subst. ring.
  - cbn [lin]. ring.
Qed.
Lemma coef_filter d k m :
  coef (filter (fun e => negb (mono_eqb (fst e) k)) d) m = if mono_eqb m k then 0 else coef d m.
Proof.
  induction d as [|[j c] d IH]; cbn [filter coef fst].
  - destruct (mono_eqb m k); reflexivity.
  - destruct (mono_eqb j k) eqn:E; cbn [negb coef].
    + rewrite IH. apply mono_eqb_eq in E; subst. destruct (mono_eqb m k) eqn:E'; [reflexivity|].
      destruct (mono_eqb k m) eqn:E2; [|ring]. apply mono_eqb_eq in E2; subst. rewrite mono_eqb_refl in E'; discriminate.
    + rewrite IH. destruct (mono_eqb m k) eqn:E'; [|reflexivity].
      apply mono_eqb_eq in E'; subst. rewrite E. reflexivity.
Qed.
Lemma filter_length_le' {A} (f : A -> bool) l : (length (filter f l) <= length l)%nat.
Proof. induction l as [|x l IH]; [reflexivity|]. simpl. destruct (f x); simpl; lia. Qed.

Lemma lin_zero_sum n phi d : (forall m, (n | coef d m)) -> (n | lin phi d).
Proof.
  remember (length d) as k eqn:Hk. assert (Hle: (length d <= k)%nat) by lia. clear Hk.
  revert d Hle. induction k as [|k IH]; intros d Hle H.
  - destruct d; [|simpl in Hle; lia]. apply Z.divide_0_r.
  - destruct d as [|[m c] d]; [apply Z.divide_0_r|].
    rewrite (lin_remove phi _ m). apply Z.divide_add_r.
    + apply Z.divide_mul_l. apply H.
    + apply IH.
      * cbn [filter fst]. rewrite mono_eqb_refl. cbn [negb].
        pose proof (filter_length_le' (fun e : mono * Z => negb (mono_eqb (fst e) m)) d). simpl in Hle. lia.
      * intros m'. rewrite coef_filter. destruct (mono_eqb m' m); [apply Z.divide_0_r|apply H].
Qed.

Lemma feqm_lin n phi a b : feqm n a b -> (n | lin phi a - lin phi b).
Proof.
  intros H. replace (lin phi a - lin phi b) with (lin phi (a ++ fneg b)) by (rewrite lin_app, lin_neg; ring).
  apply lin_zero_sum. intros m. rewrite coef_app, coef_neg.
  replace (coef a m + - coef b m) with (coef a m - coef b m) by ring. apply H.
Qed.
Lemma feqm_intro n a b : (forall phi, (n | lin phi a - lin phi b)) -> feqm n a b.
Proof. intros H m. rewrite !coef_lin. apply H. Qed.
Lemma feqm_0 a b : feqm 0 a b <-> feq a b.
Proof.
  unfold feqm, feq. split; intros H m; specialize (H m).
  - apply Z.divide_0_l in H. lia.
  - rewrite H, Z.sub_diag. apply Z.divide_0_r.
Qed.
Lemma feq_lin phi a b : feq a b -> lin phi a = lin phi b.
Proof. intros H. apply feqm_0 in H. apply (feqm_lin 0 phi) in H. apply Z.divide_0_l in H. lia. Qed.
Lemma feq_intro a b : (forall phi, lin phi a = lin phi b) -> feq a b.
Proof. intros H m. rewrite !coef_lin. apply H. Qed.
Lemma feq_feqm n a b : feq a b -> feqm n a b.
Proof. intros H m. rewrite H, Z.sub_diag. apply Z.divide_0_r. Qed.
Lemma feqm_divide n k a b : (k | n) -> feqm n a b -> feqm k a b.
Proof. intros H H' m. eapply Z.divide_trans; [exact H|apply H']. Qed.

(** ** Equivalence and congruence *)
Lemma feqm_refl n a : feqm n a a.
Proof. intros m. rewrite Z.sub_diag. apply Z.divide_0_r. Qed.
Lemma feqm_sym n a b : feqm n a b -> feqm n b a.
Proof. intros H m. replace (coef b m - coef a m) with (- (coef a m - coef b m)) by ring. apply Z.divide_opp_r, H. Qed.
Lemma feqm_trans n a b c : feqm n a b -> feqm n b c -> feqm n a c.
Proof.
  intros H H' m. replace (coef a m - coef c m) with ((coef a m - coef b m) + (coef b m - coef c m)) by ring.
  apply Z.divide_add_r; [apply H|apply H'].
Qed.
#[global] Instance feqm_equiv n : Equivalence (feqm n).
Proof. split; [exact (feqm_refl n)|exact (feqm_sym n)|exact (feqm_trans n)]. Qed.
#[global] Instance feq_equiv : Equivalence feq.
Proof.
  split; [intros a m; reflexivity | intros a b H m; symmetry; apply H | intros a b c H H' m; rewrite H; apply H'].
Qed.
#[global] Instance fadd_proper n : Proper (feqm n ==> feqm n ==> feqm n) fadd.
Proof.
  intros a a' Ha b b' Hb m. unfold fadd. rewrite !coef_app.
  replace (coef a m + coef b m - (coef a' m + coef b' m)) with ((coef a m - coef a' m) + (coef b m - coef b' m)) by ring.
  apply Z.divide_add_r; [apply Ha|apply Hb].
Qed.
#[global] Instance fneg_proper n : Proper (feqm n ==> feqm n) fneg.
Proof.
  intros a a' Ha m. rewrite !coef_neg. replace (- coef a m - - coef a' m) with (- (coef a m - coef a' m)) by ring.
  apply Z.divide_opp_r, Ha.
Qed.
#[global] Instance fsub_proper n : Proper (feqm n ==> feqm n ==> feqm n) fsub.
Proof. intros a a' Ha b b' Hb. unfold fsub. apply (fadd_proper n); [exact Ha|apply fneg_proper, Hb]. Qed.

Lemma vmul_comm a b : vmul a b = vmul b a.
Proof. destruct a as [[i j]|], b as [[k l]|]; simpl; try reflexivity. f_equal; f_equal; ring. Qed.
Lemma vmul_assoc a b c : vmul a (vmul b c) = vmul (vmul a b) c.
Proof. destruct a as [[i j]|], b as [[k l]|], c as [[u v]|]; simpl; try reflexivity. f_equal; f_equal; ring. Qed.
Lemma mmul_comm a b : mmul a b = mmul b a.
Proof. unfold mmul. f_equal; try ring. apply vmul_comm. Qed.
Lemma mmul_assoc a b c : mmul a (mmul b c) = mmul (mmul a b) c.
Proof. unfold mmul. simpl. f_equal; try ring. apply vmul_assoc. Qed.
Lemma mmul_1_l a : mmul mone a = a.
Proof. destruct a as [x y q v]. unfold mmul, mone; simpl. f_equal. Qed.
Lemma mmul_1_r a : mmul a mone = a.
Proof. rewrite mmul_comm. apply mmul_1_l. Qed.

Lemma conv_comm a b : feq (conv a b) (conv b a).
Proof.
  apply feq_intro. intros phi. rewrite !lin_conv, lin_swap. apply lin_ext. intros m. apply lin_ext.
  intros k. f_equal. apply mmul_comm.
Qed.
Lemma conv_proper_r n a b b' : feqm n b b' -> feqm n (conv a b) (conv a b').
Proof.
  intros H. apply feqm_intro. intros phi. rewrite !lin_conv.
  induction a as [|[m c] a IH]; cbn [lin]; [rewrite Z.sub_diag; apply Z.divide_0_r|].
  match goal with |- (_ | c * ?u + ?v - (c * ?u' + ?v')) =>
    replace (c * u + v - (c * u' + v')) with (c * (u - u') + (v - v')) by ring end.
  apply Z.divide_add_r; [|exact IH]. apply Z.divide_mul_r. apply feqm_lin, H.
Qed.
#[global] Instance conv_proper n : Proper (feqm n ==> feqm n ==> feqm n) conv.
Proof.
  intros a a' Ha b b' Hb. transitivity (conv a b'); [apply conv_proper_r, Hb|].
  transitivity (conv b' a); [apply feq_feqm, conv_comm|].
  transitivity (conv b' a'); [apply conv_proper_r, Ha|]. apply feq_feqm, conv_comm.
Qed.
Lemma conv_assoc a b c : feq (conv a (conv b c)) (conv (conv a b) c).
Proof.
  apply feq_intro. intros phi. rewrite !lin_conv. apply lin_ext. intros m. rewrite lin_conv.
  apply lin_ext. intros k. apply lin_ext. intros j. f_equal. apply mmul_assoc.
Qed.
Lemma conv_1_l a : feq (conv (fconst 1) a) a.
Proof.
  apply feq_intro. intros phi. rewrite lin_conv. cbn [fconst lin]. rewrite Z.add_0_r, Z.mul_1_l.
  apply lin_ext. intros m. f_equal. apply mmul_1_l.
Qed.
Lemma conv_add_l a b c : feq (conv (fadd a b) c) (fadd (conv a c) (conv b c)).
Proof. apply feq_intro. intros phi. unfold fadd. rewrite lin_app, !lin_conv, lin_app. reflexivity. Qed.

Lemma f_ring n : @ring_theory fsum (@nil (mono * Z)) (fconst 1) fadd conv fsub fneg (feqm n).
Proof.
  split.
  - intros a. reflexivity.
  - intros a b. apply feq_feqm. intros m. unfold fadd. rewrite !coef_app. ring.
  - intros a b c. unfold fadd. rewrite app_assoc. reflexivity.
  - intros a. apply feq_feqm, conv_1_l.
  - intros a b. apply feq_feqm, conv_comm.
  - intros a b c. apply feq_feqm, conv_assoc.
  - intros a b c. apply feq_feqm, conv_add_l.
  - intros a b. reflexivity.
  - intros a. apply feq_feqm. intros m. unfold fadd. rewrite coef_app, coef_neg. simpl. ring.
Qed.
Lemma f_ring_ext n : @ring_eq_ext fsum fadd conv fneg (feqm n).
Proof.
  split.
  - intros a a' Ha b b' Hb. apply fadd_proper; assumption.
  - intros a a' Ha b b' Hb. apply conv_proper; assumption.
  - intros a a' Ha. apply fneg_proper; assumption.
Qed.
Lemma fadd_proper_feq : Proper (feq ==> feq ==> feq) fadd.
Proof. intros a a' Ha b b' Hb. apply feqm_0. apply (fadd_proper 0); apply feqm_0; assumption. Qed.
Lemma conv_proper_feq : Proper (feq ==> feq ==> feq) conv.
Proof. intros a a' Ha b b' Hb. apply feqm_0. apply (conv_proper 0); apply feqm_0; assumption. Qed.
Lemma fneg_proper_feq : Proper (feq ==> feq) fneg.
Proof. intros a a' Ha. apply feqm_0. apply (fneg_proper 0); apply feqm_0; assumption. Qed.
Lemma fsub_proper_feq : Proper (feq ==> feq ==> feq) fsub.
Proof. intros a a' Ha b b' Hb. apply feqm_0. apply (fsub_proper 0); apply feqm_0; assumption. Qed.
#[global] Existing Instances fadd_proper_feq conv_proper_feq fneg_proper_feq fsub_proper_feq.

Lemma feq_ring : @ring_theory fsum (@nil (mono * Z)) (fconst 1) fadd conv fsub fneg feq.
Proof. destruct (f_ring 0) as [H0 H1 H2 H3 H4 H5 H6 H7 H8]. split; intros; apply feqm_0; auto. Qed.
Lemma feq_ring_ext : @ring_eq_ext fsum fadd conv fneg feq.
Proof. split; [exact fadd_proper_feq|exact conv_proper_feq|exact fneg_proper_feq]. Qed.

Add Ring FeqRing : feq_ring (setoid feq_equiv feq_ring_ext).

Lemma fpow_proper n k a a' : feqm n a a' -> feqm n (fpow a k) (fpow a' k).
Proof. intros H. induction k as [|k IH]; cbn [fpow]; [reflexivity|]. apply conv_proper; assumption. Qed.
Lemma fpow_add a i j : feq (fpow a (i + j)) (conv (fpow a i) (fpow a j)).
Proof.
  induction i as [|i IH]; cbn [fpow Nat.add].
  - symmetry. apply conv_1_l.
  - rewrite IH. rewrite conv_assoc. reflexivity.
Qed.
Lemma fpow_1 a : feq (fpow a 1) a.
Proof. cbn [fpow]. rewrite conv_comm. apply conv_1_l. Qed.
Lemma fpow_conv a b k : feq (fpow (conv a b) k) (conv (fpow a k) (fpow b k)).
Proof.
  induction k as [|k IH]; cbn [fpow]; [symmetry; apply conv_1_l|]. rewrite IH. ring.
Qed.
Lemma fpow_mul a i j : feq (fpow a (i * j)) (fpow (fpow a i) j).
Proof.
  rewrite Nat.mul_comm. induction j as [|j IH]; cbn [fpow Nat.mul]; [reflexivity|].
  rewrite fpow_add, IH. reflexivity.
Qed.

(** A functional that is multiplicative on the monomials involved is multiplicative. *)
Lemma lin_mult phi a b :
  (forall m1 c1 m2 c2, In (m1, c1) a -> In (m2, c2) b -> phi (mmul m1 m2) = phi m1 * phi m2) ->
  lin phi (conv a b) = lin phi a * lin phi b.
Proof.
  intros H. rewrite lin_conv. rewrite <- lin_scale_r. apply lin_ext_in. intros m1 c1 H1.
  rewrite <- lin_scale. apply lin_ext_in. intros m2 c2 H2. eapply H; eassumption.
Qed.

(** Coefficient tests on the support. *)
Lemma coef_notin a m : (forall c, ~ In (m, c) a) -> coef a m = 0.
Proof.
  induction a as [|[k c] a IH]; intros H; [reflexivity|]. cbn [coef].
  rewrite IH by (intros d Hd; apply (H d); right; exact Hd).
  rewrite mono_eqb_neq; [reflexivity|]. intros ->. apply (H c). left; reflexivity.
Qed.
Lemma coef_in a m : coef a m <> 0 -> exists c, In (m, c) a.
Proof.
  induction a as [|[k c] a IH]; intros H; [simpl in H; lia|]. cbn [coef] in H.
  destruct (mono_eqb k m) eqn:E.
  - apply mono_eqb_eq in E; subst. exists c; left; reflexivity.
  - destruct IH as [d Hd]; [lia|]. exists d; right; exact Hd.
Qed.
Lemma in_conv a b m c : In (m, c) (conv a b) ->
  exists m1 c1 m2 c2, In (m1, c1) a /\ In (m2, c2) b /\ m = mmul m1 m2 /\ c = c1 * c2.
Proof.
  unfold conv. rewrite in_flat_map. intros ([m1 c1] & H1 & H). rewrite in_map_iff in H.
  destruct H as ([m2 c2] & E & H2). injection E; intros; subst. exists m1, c1, m2, c2. auto.
Qed.
