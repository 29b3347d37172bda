(** C44-C45: the linear solver. *)
From Verif Require Import Prelude M_Bigint M_Solve Spec P_Solve.
From Verif Require Import P_SolveProps.
Open Scope Z_scope.

Theorem C44_solve : forall n m b, rectangular n m -> solve m = Ok b -> rectangular n b /\ length b = length m /\ (n <= length b)%nat /\
  (forall i, (1 <= i < n)%nat -> nth i (nth i b []) 0 = 1) /\
  ((0 < n)%nat -> nth 0 (nth 0 b []) 0 <> 0) /\
  (forall i k, (i < length b)%nat -> (k < n)%nat -> k <> i -> nth k (nth i b []) 0 = 0) /\
  (forall x, solution n 1 m x ->
     (forall i, (i < n)%nat -> nth i (nth i b []) 0 * x i = nth n (nth i b []) 0) /\
     (forall i, (n <= i < length b)%nat -> nth n (nth i b []) 0 = 0)).
Proof. exact c44_solve. Qed.
Print Assumptions C44_solve.
(** C44: solve returns exactly on the systems whose homogeneous system has only the zero solution; otherwise it panics. *)
Theorem C44_returns : forall n m, rectangular n m ->
  ((forall x, solution n 0 m x -> forall k, (k < n)%nat -> x k = 0) -> exists b, solve m = Ok b) /\
  ((exists x, solution n 0 m x /\ exists k, (k < n)%nat /\ x k <> 0) -> solve m = Panic).
Proof. exact c44_returns. Qed.
Print Assumptions C44_returns.
(** C44: when it returns, there is at most one integer solution, and the result gives it. *)
Theorem C44_unique : forall n m b x y, rectangular n m -> solve m = Ok b -> solution n 1 m x -> solution n 1 m y ->
  forall i, (i < n)%nat -> x i = y i.
Proof. exact c44_unique. Qed.
Print Assumptions C44_unique.
Example C44_case : rectangular 3 c44_m /\ solve c44_m = Ok [[3; 0; 0; 3]; [0; 1; 0; 2]; [0; 0; 1; 3]; [0; 0; 0; 0]] /\ solution 3 1 c44_m c44_x.
Proof. exact c44_case. Qed.
Example C44_case_singular : solve [[1; 2; 0]; [2; 4; 0]] = Panic /\ rectangular 2 [[1; 2; 0]; [2; 4; 0]] /\ solution 2 0 [[1; 2; 0]; [2; 4; 0]] c44_x0.
Proof. exact c44_case_singular. Qed.
Theorem C45_normalises_refuted : exists n m b x, rectangular n m /\ solve m = Ok b /\ solution n 1 m x /\ (0 < n)%nat /\
  nth 0 (nth 0 b []) 0 <> 1 /\ nth n (nth 0 b []) 0 <> x 0%nat.
Proof. exact c45_normalises_refuted. Qed.
Print Assumptions C45_normalises_refuted.
(** C45: what holds: every unknown but the first is normalised and read off the last column; the first one
    is the (exact) quotient, so it is read off too exactly when its pivot is 1. *)
Theorem C45_normalises_partial : forall n m b x, rectangular n m -> solve m = Ok b -> solution n 1 m x ->
  (forall i, (1 <= i < n)%nat -> nth i (nth i b []) 0 = 1 /\ nth n (nth i b []) 0 = x i) /\
  ((0 < n)%nat -> nth n (nth 0 b []) 0 / nth 0 (nth 0 b []) 0 = x 0%nat /\
     (nth 0 (nth 0 b []) 0 = 1 -> nth n (nth 0 b []) 0 = x 0%nat)).
Proof. exact c45_normalises_partial. Qed.
Print Assumptions C45_normalises_partial.
(** C45: the pivot left in row 0 is the first non-zero entry of column 0 of the input. *)
Theorem C45_first_pivot_partial : forall n m b, rectangular n m -> (0 < n)%nat -> solve m = Ok b ->
  exists r, (r < length m)%nat /\ (forall r', (r' < r)%nat -> nth 0 (nth r' m []) 0 = 0) /\
    nth 0 (nth r m []) 0 <> 0 /\ nth 0 (nth 0 b []) 0 = nth 0 (nth r m []) 0.
Proof. exact c45_first_pivot_partial. Qed.
Print Assumptions C45_first_pivot_partial.
