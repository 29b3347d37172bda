(** Model of /repo/src/subscripted_variable.rs (Display is in M_Display.v). *)
From Verif Require Import Prelude.

(** External crate primes 0.2: [primes::is_prime(n)], used by
    src/subscripted_variable.rs:88, src/elliptic_curve.rs:38, src/modular_polynomial.rs:15.
    Its source is not in /repo; modelled by trial division up to the square root. *)
Definition is_prime (n : Z) : bool :=
  (2 <=? n) && forallb (fun d => negb (n mod d =? 0)) (zrange 2 (Z.sqrt n + 1)).

(** src/subscripted_variable.rs:7-12  struct SubscriptedVariable. *)
Record svariable := mkSV { sv_i : Z; sv_j : Z; sv_empty : bool }.

(** src/subscripted_variable.rs:14-24  SubscriptedVariable::new / Default. *)
Definition sv_new : svariable := mkSV 0 0 true.

(** src/subscripted_variable.rs:26-37  PartialEq. *)
Definition sv_eq (a b : svariable) : bool :=
  if negb (Bool.eqb (sv_empty a) (sv_empty b)) then false
  else if sv_empty a && sv_empty b then true
  else (sv_i a =? sv_i b) && (sv_j a =? sv_j b).

(** src/subscripted_variable.rs:39-62  Ord::cmp. *)
Definition sv_cmp (a b : svariable) : comparison :=
  if sv_empty a && sv_empty b then Eq
  else if sv_empty a && negb (sv_empty b) then Lt
  else if negb (sv_empty a) && sv_empty b then Gt
  else if sv_i a <? sv_i b then Lt
  else if sv_i b <? sv_i a then Gt
  else if sv_j a <? sv_j b then Lt
  else if sv_j b <? sv_j a then Gt
  else Eq.

(** The canonical form used inside monomials (M_Term.v): [None] for an empty
    variable, whatever its i and j; [Some (i,j)] otherwise.  Simplification:
    justified by theorem C08_variable_canonical. *)
Definition canon (v : svariable) : option (Z * Z) :=
  if sv_empty v then None else Some (sv_i v, sv_j v).

(** src/subscripted_variable.rs:80-95  SubscriptedVariableConverter::new(p); the
    converter is its field p. *)
Definition converter_new (p : Z) : res Z :=
  _ <- assertb (2 <=? p) ;;
  if negb (is_prime p) then Panic else Ok p.

(** src/subscripted_variable.rs:99-106, 116-131, 137-158: all three methods run
    [for i in 0..p+1 { for j in i+1..p+1 {body(i,j)} }] and then
    [for i in 0..p+1 {body(i,i)}].  This is the sequence of (i,j) visited. *)
Definition conv_pairs (p1 : Z) : list (Z * Z) :=
  flat_map (fun i => map (fun j => (i, j)) (zrange (i + 1) p1)) (zrange 0 p1)
  ++ map (fun i => (i, i)) (zrange 0 p1).

(** src/subscripted_variable.rs:97-108  count ([self.p+1] is an i32 addition). *)
Definition conv_count (p : Z) : res Z :=
  p1 <- i32 (p + 1) ;;
  Ok (fold_left (fun index _ => index + 1) (conv_pairs p1) 0).

(** src/subscripted_variable.rs:115-132: search loop of index_from_variable. *)
Fixpoint index_search (v : svariable) (l : list (Z * Z)) (index : Z) : res (option Z) :=
  match l with
  | [] => Panic
  | (i, j) :: r =>
      if (sv_i v =? i) && (sv_j v =? j) then Ok (Some index)
      else index_search v r (index + 1)
  end.

(** src/subscripted_variable.rs:110-133  index_from_variable. *)
Definition index_from_variable (p : Z) (v : svariable) : res (option Z) :=
  if sv_empty v then Ok None
  else p1 <- i32 (p + 1) ;; index_search v (conv_pairs p1) 0.

(** u64 [as] i32: keep the low 32 bits, read as two's complement. *)
Definition as_i32 (k : Z) : Z := (k + 2147483648) mod 4294967296 - 2147483648.

(** src/subscripted_variable.rs:136-159: search loop of variable_from_index;
    [local_index] is an i32 and its increment is checked. *)
Fixpoint variable_search (index : Z) (l : list (Z * Z)) (local_index : Z) : res svariable :=
  match l with
  | [] => Panic
  | (i, j) :: r =>
      if local_index =? as_i32 index then Ok (mkSV i j false)
      else local_index <- i32 (local_index + 1) ;; variable_search index r local_index
  end.

(** src/subscripted_variable.rs:135-160  variable_from_index. *)
Definition variable_from_index (p index : Z) : res svariable :=
  p1 <- i32 (p + 1) ;; variable_search index (conv_pairs p1) 0.
