(** Lemmas behind the property theorem C106. *)
From Coq Require Import Znumtheory ZifyBool.
From Verif Require Import Prelude M_Bigint M_Variable M_Term M_Poly M_DivPoly Spec P_Bigint P_DivProps P_ModRet3 P_DivRange.
Open Scope Z_scope.

Lemma panic_of {A} (x : res A) : nf x -> (forall r, x <> Ok r) -> x = Panic.
Proof. intros N H. destruct x as [r| |]; [exfalso; exact (H r eq_refl)|reflexivity|contradiction]. Qed.
(** C106: whatever the curve coefficients, psi(n) returns exactly for 0 <= n <= 65536 and panics for every other n (negative n:
    the assertion; larger n: an exponent leaves i32).  It never returns a wrong polynomial by wrapping and never loops. *)
Lemma c106_psi : forall a b n, (0 <= n <= 65536 -> exists r, psi a b n = Ok r) /\ (~ (0 <= n <= 65536) -> psi a b n = Panic).
Proof.
  intros a b n. split.
  - intros H. destruct (Z.odd n) eqn:O.
    + destruct (c48_psi_odd a b n H O) as (r & E & _). exists r. exact E.
    + destruct (c48_psi_even a b n H O) as (r & g & E & _). exists r. exact E.
  - intros H. apply panic_of; [apply nf_psi|]. intros r E. exact (H (psi_range a b n r E)).
Qed.
(** C106: phi(n) returns exactly for 1 <= n <= 46340, omega(n) exactly for 1 <= n <= 37837. *)
Lemma c106_phi : forall a b n, (1 <= n <= 46340 -> exists r, phi a b n = Ok r) /\ (~ (1 <= n <= 46340) -> phi a b n = Panic).
Proof.
  intros a b n. split.
  - intros H. destruct (c50_phi a b n H) as (r & ? & ? & ? & E & _). exists r. exact E.
  - intros H. apply panic_of; [apply nf_phi|]. intros r E. exact (H (phi_range a b n r E)).
Qed.
Lemma c106_omega : forall a b n, (1 <= n <= 37837 -> exists r, omega a b n = Ok r) /\ (~ (1 <= n <= 37837) -> omega a b n = Panic).
Proof.
  intros a b n. split.
  - intros H. destruct (Z.eq_dec n 1) as [-> | N]; [exists (fmono 1 0 1 0); apply c50_omega_one|].
    destruct (c50_omega a b n ltac:(lia)) as (r & ? & ? & ? & ? & E & _). exists r. exact E.
  - intros H. apply panic_of; [apply nf_omega|]. intros r E. exact (H (omega_range a b n r E)).
Qed.
Example c106_case : (exists r, psi 2 3 65536 = Ok r) /\ psi 2 3 65537 = Panic /\ (exists r, phi 2 3 46340 = Ok r) /\ phi 2 3 46341 = Panic /\
  (exists r, omega 2 3 37837 = Ok r) /\ omega 2 3 37838 = Panic.
Proof.
  split; [apply (proj1 (c106_psi 2 3 65536)); lia|]. split; [apply (proj2 (c106_psi 2 3 65537)); lia|].
  split; [apply (proj1 (c106_phi 2 3 46340)); lia|]. split; [apply (proj2 (c106_phi 2 3 46341)); lia|].
  split; [apply (proj1 (c106_omega 2 3 37837)); lia|apply (proj2 (c106_omega 2 3 37838)); lia].
Qed.
