(** Statements used by C_Variable.v. *)
From Coq Require Import Znumtheory ZifyBool.
From Verif Require Import Prelude M_Bigint M_Variable M_Term Spec P_Bigint P_Variable.
Open Scope Z_scope.

Lemma sv_order : ord_contract sv_eq sv_cmp.
Proof.
  split.
  - intros a b. rewrite sv_cmp_canon, sv_eq_canon. apply var_cmp_eq.
  - intros a. apply sv_eq_canon; reflexivity.
  - intros a b. rewrite !sv_cmp_canon. apply var_cmp_opp.
  - intros a b c. rewrite !sv_cmp_canon. apply var_cmp_trans.
  - intros a b c H. apply sv_eq_canon in H. rewrite !sv_cmp_canon, H. reflexivity.
Qed.
Lemma mono_order : ord_contract mono_eqb mono_cmp.
Proof.
  split.
  - intros a b. rewrite mono_cmp_eq, mono_eqb_eq. reflexivity.
  - apply mono_eqb_refl.
  - apply mono_cmp_opp.
  - apply mlt_trans.
  - intros a b c H. apply mono_eqb_eq in H. subst; reflexivity.
Qed.
Lemma term_order_refuted : exists s t, term_cmp s t = Eq /\ term_eqb s t = false.
Proof. exists (mkTerm 2 (mkMono 1 0 0 None)), (mkTerm 3 (mkMono 1 0 0 None)). split; reflexivity. Qed.
Lemma term_order_partial s t :
  (term_eqb s t = true -> term_cmp s t = Eq) /\ (term_cmp s t = Eq <-> tm s = tm t).
Proof.
  unfold term_eqb, term_cmp. rewrite mono_cmp_eq. split; [|reflexivity].
  intros H. apply andb_true_iff in H. apply mono_eqb_eq; apply H.
Qed.
Lemma variable_from_index_wraps : exists p k c v, prime p /\ conv_count p = Ok c /\
  c <= k < 2 ^ 64 /\ variable_from_index p k = Ok v.
Proof.
  exists 3, (2 ^ 32), 10, (mkSV 0 1 false). split; [apply is_prime_spec; reflexivity|].
  split; [reflexivity|]. split; [lia|reflexivity].
Qed.

(** C08: the default variable is the empty one, equal exactly to the empty variables and least in the order. *)
Lemma c08_new : forall v, (sv_eq sv_new v = true <-> sv_empty v = true) /\ sv_cmp sv_new v <> Gt /\ sv_eq sv_new sv_new = true.
Proof. intros [i j []]; repeat split; try reflexivity; try discriminate. Qed.
