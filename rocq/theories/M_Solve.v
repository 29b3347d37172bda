(** Model of /repo/src/simultaneous_equation.rs. *)
From Verif Require Import Prelude M_Bigint.

(** Vec indexing: panics when out of bounds. *)
Definition vget {A} (v : list A) (i : nat) : res A :=
  match nth_error v i with Some x => Ok x | None => Panic end.
Fixpoint vset {A} (v : list A) (i : nat) (x : A) : res (list A) :=
  match v, i with
  | [], _ => Panic
  | _ :: r, O => Ok (x :: r)
  | y :: r, S j => r' <- vset r j x ;; Ok (y :: r')
  end.
Definition matrix := list (list Z).
(** a[i][k] and a[i][k] = x *)
Definition mget (a : matrix) (i k : nat) : res Z := r <- vget a i ;; vget r k.
Definition mset (a : matrix) (i k : nat) (x : Z) : res matrix :=
  r <- vget a i ;; r' <- vset r k x ;; vset a i r'.

(** src/simultaneous_equation.rs:9-14: copy of the matrix into a row_count x col_count
    array (reading matrix[row][col], panicking on a short row). *)
Definition copy_matrix (m : matrix) (rows cols : nat) : res matrix :=
  mapM (fun row => mapM (fun col => mget m row col) (seq 0 cols)) (seq 0 rows).

(** src/simultaneous_equation.rs:24-34: pivot search: swap row[i] with the first row[j],
    j >= i, whose column i is non-zero. *)
Fixpoint pivot_search (a : matrix) (row : list nat) (i : nat) (js : list nat) : res (list nat) :=
  match js with
  | [] => Ok row
  | j :: r =>
      rj <- vget row j ;;
      v <- mget a rj i ;;
      if negb (v =? 0) then
        if negb (Nat.eqb i j) then
          b <- vget row i ;;
          row <- vset row i rj ;;
          vset row j b
        else Ok row
      else pivot_search a row i r
  end.

(** src/simultaneous_equation.rs:38-54: eliminate column i from row[j].
    [Integer::lcm] of BigInts is the non-negative lcm; / is truncated (divisors non-zero here,
    but checked as in the code). *)
Definition eliminate_row (cols : nat) (row : list nat) (i : nat) (c1 : Z) (a : matrix) (j : nat) : res matrix :=
  rj <- vget row j ;;
  c2 <- mget a rj i ;;
  if negb (c2 =? 0) then
    let lcm := Z.lcm c1 c2 in
    cc1 <- div_trunc lcm c1 ;;
    cc2 <- div_trunc lcm c2 ;;
    a <- foldM (fun a k => v <- mget a rj k ;; mset a rj k (v * cc2)) (seq 0 cols) a ;;
    ri <- vget row i ;;
    foldM (fun a k =>
             w <- mget a ri k ;;
             v <- mget a rj k ;;
             mset a rj k (v - w * cc1)) (seq 0 cols) a
  else Ok a.

(** src/simultaneous_equation.rs:22-55: one column of the LU phase. *)
Definition lu_step (rows cols : nat) (s : matrix * list nat) (i : nat) : res (matrix * list nat) :=
  let (a, row) := s in
  row <- pivot_search a row i (seq i (rows - i)) ;;
  ri <- vget row i ;;
  c1 <- mget a ri i ;;
  _ <- assertb (negb (c1 =? 0)) ;;
  a <- foldM (eliminate_row cols row i c1) (seq (i + 1) (rows - (i + 1))) a ;;
  Ok (a, row).

(** src/simultaneous_equation.rs:59-74: one step of back substitution. *)
Definition substitute_step (cols : nat) (row : list nat) (a : matrix) (i : nat) : res matrix :=
  let prim_col := (cols - 1)%nat in
  ri <- vget row i ;;
  diag <- mget a ri i ;;
  prim <- mget a ri prim_col ;;
  a <- (if negb (diag =? 1) then
          a <- mset a ri i 1 ;;
          v <- div_trunc prim diag ;;
          mset a ri prim_col v
        else Ok a) ;;
  val <- mget a ri prim_col ;;
  foldM (fun a j =>
           rj <- vget row j ;;
           t_val <- mget a rj i ;;
           v <- mget a rj prim_col ;;
           a <- mset a rj prim_col (v - t_val * val) ;;
           mset a rj i 0) (seq 0 i) a.

(** src/simultaneous_equation.rs:6-80  solve.  [col_count - 1] on a usize panics for 0 columns.
    The back substitution runs over i = col_count-2, ..., 1 (line 59): i = 0 is not visited. *)
Definition solve (m : matrix) : res matrix :=
  let rows := length m in
  r0 <- vget m 0 ;;
  let cols := length r0 in
  a <- copy_matrix m rows cols ;;
  _ <- assertb (negb (Nat.eqb cols 0)) ;;
  '(a, row) <- foldM (lu_step rows cols) (seq 0 (cols - 1)) (a, seq 0 rows) ;;
  a <- foldM (substitute_step cols row) (rev (seq 1 (cols - 2))) a ;;
  mapM (fun i => ri <- vget row i ;; vget a ri) (seq 0 rows).
