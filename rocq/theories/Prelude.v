(** Shared vocabulary of the model: outcomes of a Rust call, checked i32
    arithmetic, division, ranges and loops. *)
From Coq Require Export ZArith List Bool Lia.
Export ListNotations.
Open Scope Z_scope.

(** Outcome of a call.  [Panic]: assert!/panic!/unwrap on None/division by
    zero/arithmetic overflow (dev profile)/index out of bounds.  [NoFuel]: the
    loop of the code was still running when the model's step bound ran out. *)
Inductive res (A : Type) : Type :=
| Ok (a : A)
| Panic
| NoFuel.
Arguments Ok {A} a.
Arguments Panic {A}.
Arguments NoFuel {A}.

Definition bind {A B} (x : res A) (f : A -> res B) : res B :=
  match x with
  | Ok a => f a
  | Panic => Panic
  | NoFuel => NoFuel
  end.

Notation "x <- e ;; k" := (bind e (fun x => k))
  (at level 100, e at next level, right associativity).
Notation "' p <- e ;; k" := (bind e (fun x => match x with p => k end))
  (at level 100, p pattern, e at next level, right associativity).

(** Rust's assert!(b). *)
Definition assertb (b : bool) : res unit := if b then Ok tt else Panic.

(** Rust's i32 type: results of arithmetic outside the range panic (dev profile). *)
Definition i32_min : Z := -2147483648.
Definition i32_max : Z := 2147483647.
Definition in_i32 (z : Z) : bool := (i32_min <=? z) && (z <=? i32_max).
Definition i32 (z : Z) : res Z := if in_i32 z then Ok z else Panic.

(** num_integer: BigInt::mod_floor / div_floor (floor semantics, panic on 0). *)
Definition mod_floor (a p : Z) : res Z := if p =? 0 then Panic else Ok (a mod p).
Definition div_floor (a b : Z) : res Z := if b =? 0 then Panic else Ok (a / b).

(** BigInt / and %: truncated division (panic on 0). *)
Definition div_trunc (a b : Z) : res Z := if b =? 0 then Panic else Ok (Z.quot a b).
Definition rem_trunc (a b : Z) : res Z := if b =? 0 then Panic else Ok (Z.rem a b).

(** num_iter::range(a, b): a, a+1, ..., b-1. *)
Definition zrange (a b : Z) : list Z :=
  map (fun k => a + Z.of_nat k) (seq 0 (Z.to_nat (b - a))).

(** for x in l { s = f(s, x)? } *)
Fixpoint foldM {S X} (f : S -> X -> res S) (l : list X) (s : S) : res S :=
  match l with
  | [] => Ok s
  | x :: r => s' <- f s x ;; foldM f r s'
  end.

(** Collect the results of a fallible map, in order. *)
Fixpoint mapM {A B} (f : A -> res B) (l : list A) : res (list B) :=
  match l with
  | [] => Ok []
  | x :: r => y <- f x ;; ys <- mapM f r ;; Ok (y :: ys)
  end.
