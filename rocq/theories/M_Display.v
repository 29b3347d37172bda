(** Model of the Display impls: /repo/src/subscripted_variable.rs:70-78,
    /repo/src/term.rs:377-511, /repo/src/polynomial.rs:189-209,
    /repo/src/elliptic_curve.rs:276-291, 314-329.  to_string is the formatted text. *)
From Coq Require Import String Ascii DecimalString.
From Verif Require Import Prelude M_Bigint M_Variable M_Term M_Poly M_Curve.
Local Open Scope string_scope.
Local Open Scope Z_scope.

(** BigInt / i32 to_string: decimal, leading "-" for negatives. *)
Definition z_to_string (z : Z) : string := NilZero.string_of_int (Z.to_int z).

(** str::trim_end restricted to the characters that occur here (the only whitespace
    ever printed is ' '). *)
Fixpoint trim_end (s : string) : string :=
  match s with
  | EmptyString => EmptyString
  | String c r =>
      match trim_end r with
      | EmptyString => if Ascii.eqb c " " then EmptyString else String c EmptyString
      | t => String c t
      end
  end.

(** src/subscripted_variable.rs:70-78. *)
Definition svar_to_string (v : svariable) : string :=
  if sv_empty v then "" else "c_" ++ z_to_string (sv_i v) ++ "_" ++ z_to_string (sv_j v).
(** the same on the canonical form *)
Definition var_to_string (v : option (Z * Z)) : string :=
  match v with
  | None => ""
  | Some (i, j) => "c_" ++ z_to_string i ++ "_" ++ z_to_string j
  end.

(** src/term.rs:390-398 (x), 399-407 (y), 408-416 (q), repeated at 434-460 and 476-502:
    nothing for exponent 0, the letter for 1, letter^n otherwise, then a space. *)
Definition pow_str (letter : string) (n : Z) : string :=
  if n =? 0 then ""
  else if n =? 1 then letter ++ " "
  else letter ++ "^" ++ z_to_string n ++ " ".
Definition mono_body (m : mono) : string :=
  pow_str "x" (mx m) ++ pow_str "y" (my m) ++ pow_str "q" (mq m) ++
  (if vempty (mv m) then "" else var_to_string (mv m)).
Definition mono_is_const (m : mono) : bool := (mx m =? 0) && (my m =? 0) && (mq m =? 0).

(** src/term.rs:377-511  impl Display for Term. *)
Definition term_to_string (t : term) : string :=
  let m := tm t in
  if tc t =? 1 then
    if mono_is_const m then
      (if vempty (mv m) then "1" else var_to_string (mv m))
    else trim_end (mono_body m)
  else if tc t =? -1 then
    if mono_is_const m then
      (if vempty (mv m) then "- 1" else "- " ++ var_to_string (mv m))
    else trim_end ("- " ++ mono_body m)
  else
    let st := if 0 <=? tc t then z_to_string (tc t)
              else "- " ++ z_to_string (tc t * (-1)) in
    trim_end (st ++ " " ++ mono_body m).

(** src/polynomial.rs:196-206: the loop over the terms in descending order; [first] is i == 0. *)
Fixpoint poly_body (l : list (mono * Z)) (first : bool) : string :=
  match l with
  | [] => ""
  | (m, coef) :: r =>
      (if (0 <? coef) && negb first then "+ " else "") ++
      (if negb (coef =? 0) then term_to_string (mkTerm coef m) ++ " " else "") ++
      poly_body r false
  end.
(** src/polynomial.rs:189-209  impl Display for Polynomial. *)
Definition poly_to_string (p : poly) : string :=
  if is_zero p then "0" else trim_end (poly_body (rev p) true).

(** src/elliptic_curve.rs:283-291  impl Display for ECPoint. *)
Definition point_to_string (P : point) : string :=
  if is_infinity P then "O"
  else "(" ++ z_to_string (px P) ++ ", " ++ z_to_string (py P) ++ ")".

(** src/elliptic_curve.rs:314-329  impl Display for ECPointVec. *)
Fixpoint points_body (l : list point) (first : bool) : string :=
  match l with
  | [] => ""
  | P :: r => (if first then "" else ", ") ++ point_to_string P ++ points_body r false
  end.
Definition points_to_string (l : list point) : string := points_body l true.

(** src/elliptic_curve.rs:276-281  impl Display for EllipticCurve. *)
Definition curve_to_string (E : curve) : res string :=
  j <- ec_j_invariant E ;;
  Ok ("F_" ++ z_to_string (cp E) ++ ": y^2 = " ++ poly_to_string (cpol E)
      ++ ", cardinality:" ++ z_to_string (cardinality E) ++ ", j:" ++ z_to_string j).
