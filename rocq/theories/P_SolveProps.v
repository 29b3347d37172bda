(** Properties C44-C45: the linear solver. *)
From Verif Require Import Prelude M_Bigint M_Solve Spec P_Solve.
Open Scope Z_scope.

Lemma c44_solve : forall n m b, rectangular n m -> solve m = Ok b -> rectangular n b /\ length b = length m /\ (n <= length b)%nat /\
  (forall i, (1 <= i < n)%nat -> nth i (nth i b []) 0 = 1) /\
  ((0 < n)%nat -> nth 0 (nth 0 b []) 0 <> 0) /\
  (forall i k, (i < length b)%nat -> (k < n)%nat -> k <> i -> nth k (nth i b []) 0 = 0) /\
  (forall x, solution n 1 m x ->
     (forall i, (i < n)%nat -> nth i (nth i b []) 0 * x i = nth n (nth i b []) 0) /\
     (forall i, (n <= i < length b)%nat -> nth n (nth i b []) 0 = 0)).
Proof.
  intros n m b Rm E. destruct (solve_cases n m Rm) as [(b' & E' & Lb & Sb & Ln & Db & Ob & Hs & _ & _)|(E' & _)]; [|congruence].
  assert (b' = b) by congruence. subst b'. split; [split; [|exact Sb]|]. { intros ->. destruct Rm as (N & _). destruct m; [congruence|discriminate]. }
  split; [exact Lb|]. split; [lia|]. split; [intros i Hi; apply Db; lia|]. split; [intros Hn; apply (Db 0%nat Hn)|]. split; [intros i k Hi Hk Ne; apply Ob; lia|].
  intros x Hx. apply Hs in Hx. split; intros i Hi; (assert (In (nth i b []) b) as Hin by (apply nth_In; lia)); specialize (Hx _ Hin); rewrite Z.mul_1_l in Hx; rewrite <- Hx.
  - symmetry. apply dot_single; [exact Hi|]. intros k Hk Ne. apply Ob; lia.
  - apply dot_zero. intros k Hk. apply Ob; lia.
Qed.
(** C44: solve returns exactly on the systems whose homogeneous system has only the zero solution; otherwise it panics. *)
Lemma c44_returns : forall n m, rectangular n m ->
  ((forall x, solution n 0 m x -> forall k, (k < n)%nat -> x k = 0) -> exists b, solve m = Ok b) /\
  ((exists x, solution n 0 m x /\ exists k, (k < n)%nat /\ x k <> 0) -> solve m = Panic).
Proof.
  intros n m Rm. destruct (solve_cases n m Rm) as [(b' & E' & Lb & Sb & Ln & Db & Ob & Hs & Hh & _)|(E' & i & a & row & Hi & Sa & Oa & Ua & Hz & Hs)].
  - split; [intros _; exists b'; exact E'|]. intros (x & Hx & k & Hk & N). exfalso. apply N, Hh; assumption.
  - split; [|intros _; exact E']. intros H. exfalso. destruct (kernel_exists _ n a row i Hi Sa Oa Ua Hz) as (x & X & Hx). apply X.
    apply (H x); [|exact Hi]. apply Sol_solution, Hs, Hx.
Qed.
(** C44: when it returns, there is at most one integer solution, and the result gives it. *)
Lemma c44_unique : forall n m b x y, rectangular n m -> solve m = Ok b -> solution n 1 m x -> solution n 1 m y ->
  forall i, (i < n)%nat -> x i = y i.
Proof.
  intros n m b x y Rm E Hx Hy i Hi. destruct (c44_solve n m b Rm E) as (_ & _ & _ & D & D0 & _ & H). destruct (H x Hx) as (Hx' & _). destruct (H y Hy) as (Hy' & _).
  apply (Z.mul_reg_l _ _ (nth i (nth i b []) 0)); [|rewrite Hx', Hy' by exact Hi; reflexivity].
  destruct i; [apply D0; lia|rewrite D by lia; lia].
Qed.
Definition c44_m : list (list Z) := [[0; 2; 1; 7]; [3; 1; 0; 5]; [1; 1; 1; 6]; [4; 2; 1; 11]].
Definition c44_x (k : nat) : Z := nth k [1; 2; 3] 0.
Example c44_case : rectangular 3 c44_m /\ solve c44_m = Ok [[3; 0; 0; 3]; [0; 1; 0; 2]; [0; 0; 1; 3]; [0; 0; 0; 0]] /\ solution 3 1 c44_m c44_x.
Proof.
  split; [split; [discriminate|]; intros r H; repeat (destruct H as [<-|H]; [reflexivity|]); destruct H|]. split; [vm_compute; reflexivity|].
  intros r H. repeat (destruct H as [<-|H]; [reflexivity|]). destruct H.
Qed.
Definition c44_x0 (k : nat) : Z := nth k [2; -1] 0.
Example c44_case_singular : solve [[1; 2; 0]; [2; 4; 0]] = Panic /\ rectangular 2 [[1; 2; 0]; [2; 4; 0]] /\ solution 2 0 [[1; 2; 0]; [2; 4; 0]] c44_x0.
Proof.
  split; [vm_compute; reflexivity|]. split; [split; [discriminate|]; intros r H; repeat (destruct H as [<-|H]; [reflexivity|]); destruct H|].
  intros r H. repeat (destruct H as [<-|H]; [reflexivity|]). destruct H.
Qed.

(** C45: refuted: 2x = 4 is solved by 2, but the result still reads 2x = 4. *)
Definition c45_x (_ : nat) : Z := 2.
Lemma c45_normalises_refuted : exists n m b x, rectangular n m /\ solve m = Ok b /\ solution n 1 m x /\ (0 < n)%nat /\
  nth 0 (nth 0 b []) 0 <> 1 /\ nth n (nth 0 b []) 0 <> x 0%nat.
Proof.
  exists 1%nat, [[2; 4]], [[2; 4]], c45_x. split; [split; [discriminate|]; intros r [<-|[]]; reflexivity|]. split; [vm_compute; reflexivity|].
  split; [intros r [<-|[]]; reflexivity|]. split; [lia|]. split; cbn; [lia|]. unfold c45_x. lia.
Qed.
(** C45: what holds: every unknown but the first is normalised and read off the last column; the first one
    is the (exact) quotient, so it is read off too exactly when its pivot is 1. *)
Lemma c45_normalises_partial : forall n m b x, rectangular n m -> solve m = Ok b -> solution n 1 m x ->
  (forall i, (1 <= i < n)%nat -> nth i (nth i b []) 0 = 1 /\ nth n (nth i b []) 0 = x i) /\
  ((0 < n)%nat -> nth n (nth 0 b []) 0 / nth 0 (nth 0 b []) 0 = x 0%nat /\
     (nth 0 (nth 0 b []) 0 = 1 -> nth n (nth 0 b []) 0 = x 0%nat)).
Proof.
  intros n m b x Rm E Hx. destruct (c44_solve n m b Rm E) as (_ & _ & _ & D & D0 & _ & H). destruct (H x Hx) as (Hx' & _). split.
  - intros i Hi. split; [apply D, Hi|]. rewrite <- Hx' by lia. rewrite D by lia. ring.
  - intros Hn. rewrite <- Hx' by lia. split; [rewrite Z.mul_comm; apply Z.div_mul, D0, Hn|]. intros ->. ring.
Qed.
(** C45: the pivot left in row 0 is the first non-zero entry of column 0 of the input. *)
Lemma c45_first_pivot_partial : forall n m b, rectangular n m -> (0 < n)%nat -> solve m = Ok b ->
  exists r, (r < length m)%nat /\ (forall r', (r' < r)%nat -> nth 0 (nth r' m []) 0 = 0) /\
    nth 0 (nth r m []) 0 <> 0 /\ nth 0 (nth 0 b []) 0 = nth 0 (nth r m []) 0.
Proof.
  intros n m b Rm Hn E. destruct (c44_solve n m b Rm E) as (_ & _ & _ & _ & D0 & _). destruct (solve_cases n m Rm) as [(b' & E' & _ & _ & _ & _ & _ & _ & _ & Hp)|(E' & _)]; [|congruence].
  assert (b' = b) by congruence. subst b'. destruct (Hp Hn) as (r & Hr & Hf & Er). exists r. split; [exact Hr|]. split; [exact Hf|]. unfold g in Er. rewrite <- Er. split; [apply D0, Hn|reflexivity].
Qed.
