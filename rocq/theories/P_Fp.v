(** The field Z/p with Leibniz equality, and the bridge from residues to it. *)
From Coq Require Import Znumtheory ZifyBool Field Ring Eqdep_dec.
From Verif Require Import Prelude M_Bigint M_Curve SpecCurve P_Bigint P_Group.
Open Scope Z_scope.

Section Fp.
Variable p : Z.
Hypothesis Pp : prime p.
Record fp := mkFp { fv : Z; fok : (fv mod p =? fv) = true }.
Lemma fp_ext x y : fv x = fv y -> x = y.
Proof. destruct x as [u Hu], y as [v Hv]. cbn. intros E. subst v. f_equal. apply UIP_dec, Bool.bool_dec. Qed.
Lemma p_pos : 2 <= p. Proof using Pp. destruct Pp. lia. Qed.
Lemma canon_ok z : ((z mod p) mod p =? z mod p) = true.
Proof using Pp. pose proof p_pos. rewrite Z.mod_mod by lia. apply Z.eqb_refl. Qed.
Definition inj (z : Z) : fp := mkFp (z mod p) (canon_ok z).
Lemma inj_eq a b : inj a = inj b <-> (p | a - b).
Proof using Pp.
  pose proof p_pos. rewrite <- mod_eq_divide by lia. split; [intros E; apply (f_equal fv) in E; exact E|]. intros E. apply fp_ext. exact E.
Qed.
Lemma inj_fv x : inj (fv x) = x.
Proof using Pp. apply fp_ext. cbn. destruct x as [v H]. cbn. lia. Qed.
Lemma fv_range x : 0 <= fv x < p.
Proof using Pp. pose proof p_pos as P2. destruct x as [v Hv]. cbn. pose proof (Z.mod_pos_bound v p). lia. Qed.
Definition fadd x y := inj (fv x + fv y).
Definition fmul x y := inj (fv x * fv y).
Definition fsub x y := inj (fv x - fv y).
Definition fopp x := inj (- fv x).
Definition finv x := match inverse (fv x) p with Ok r => inj r | _ => inj 0 end.
Definition fdiv x y := fmul x (finv y).
Lemma fv_inj z : (p | fv (inj z) - z).
Proof using Pp. pose proof p_pos. cbn. exists (- (z / p)). pose proof (Z.div_mod z p). lia. Qed.
Ltac dv := match goal with H : (_ | _) |- _ => let q := fresh "q" in destruct H as (q & H) end.
Lemma inj_add a b : fadd (inj a) (inj b) = inj (a + b).
Proof using Pp. apply inj_eq. replace (fv (inj a) + fv (inj b) - (a + b)) with ((fv (inj a) - a) + (fv (inj b) - b)) by ring. apply Z.divide_add_r; apply fv_inj. Qed.
Lemma inj_mul a b : fmul (inj a) (inj b) = inj (a * b).
Proof using Pp. apply inj_eq. replace (fv (inj a) * fv (inj b) - (a * b)) with ((fv (inj a) - a) * fv (inj b) + a * (fv (inj b) - b)) by ring. apply Z.divide_add_r; [apply Z.divide_mul_l|apply Z.divide_mul_r]; apply fv_inj. Qed.
Lemma inj_sub a b : fsub (inj a) (inj b) = inj (a - b).
Proof using Pp. apply inj_eq. replace (fv (inj a) - fv (inj b) - (a - b)) with ((fv (inj a) - a) - (fv (inj b) - b)) by ring. apply Z.divide_sub_r; apply fv_inj. Qed.
Lemma inj_opp a : fopp (inj a) = inj (- a).
Proof using Pp. apply inj_eq. replace (- fv (inj a) - (- a)) with (- (fv (inj a) - a)) by ring. apply Z.divide_opp_r; apply fv_inj. Qed.
Lemma fp_field : field_theory (inj 0) (inj 1) fadd fmul fsub fopp fdiv finv (@eq fp).
Proof using Pp.
  pose proof p_pos.
  constructor.
  - constructor; intros; repeat match goal with x : fp |- _ => rewrite <- (inj_fv x); generalize (fv x); clear x; intros end; rewrite ?inj_add, ?inj_mul, ?inj_sub, ?inj_opp, ?inj_add, ?inj_mul, ?inj_add; f_equal; ring.
  - intros E. apply inj_eq in E. destruct E as (q & E). assert (1 = q * p) by lia. assert (p | 1) by (exists q; lia). apply Z.divide_1_r in H1. lia.
  - reflexivity.
  - intros x Hx. unfold finv. destruct (inverse_spec (fv x) p Pp) as (r & E & _ & D).
    + intros D. apply Hx. rewrite <- (inj_fv x). apply inj_eq. rewrite Z.sub_0_r. exact D.
    + rewrite E. rewrite <- (inj_fv x) at 1. rewrite inj_mul. apply inj_eq. rewrite Z.mul_comm. exact D.
Qed.
Definition fdec (x y : fp) : {x = y} + {x <> y}.
Proof. destruct (Z.eq_dec (fv x) (fv y)) as [E|N]; [left; apply fp_ext, E|right; congruence]. Defined.
Lemma fchar2 : p <> 2 -> fadd (inj 1) (inj 1) <> inj 0.
Proof using Pp. intros N E. rewrite inj_add in E. apply inj_eq in E. change (1 + 1 - 0) with 2 in E. apply Z.divide_pos_le in E; [|lia]. pose proof p_pos. lia. Qed.
End Fp.
