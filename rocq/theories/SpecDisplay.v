(** Specification of the printed form of terms and polynomials: a list of words, to be joined by single spaces. *)
From Coq Require Import String Ascii DecimalString.
From Verif Require Import Prelude M_Variable M_Term.
Local Open Scope string_scope.
Local Open Scope Z_scope.

(** Decimal notation, with a leading "-" for negative numbers (Coq's standard library). *)
Definition decimal (z : Z) : string := NilZero.string_of_int (Z.to_int z).
(** A power: no word for exponent 0, the letter for 1, letter^n otherwise (negative n included). *)
Definition ptok (letter : string) (n : Z) : list string :=
  if n =? 0 then [] else if n =? 1 then [letter] else [letter ++ "^" ++ decimal n].
(** A subscripted variable c_i_j. *)
Definition vtok (v : option (Z * Z)) : list string :=
  match v with None => [] | Some (i, j) => ["c_" ++ decimal i ++ "_" ++ decimal j] end.
Definition mtoks (m : mono) : list string := (ptok "x" (mx m) ++ ptok "y" (my m) ++ ptok "q" (mq m)) ++ vtok (mv m).
(** The absolute value of the coefficient; left out when it is 1 and the monomial is not 1. *)
Definition ntok (c : Z) (m : mono) : list string :=
  if (Z.abs c =? 1) && negb (mono_eqb m (mkMono 0 0 0 None)) then [] else [decimal (Z.abs c)].
Definition btoks (e : mono * Z) : list string := ntok (snd e) (fst e) ++ mtoks (fst e).
(** The sign: "-" for negative coefficients; "+" otherwise, except before the first term. *)
Definition stok (first : bool) (c : Z) : list string := if c <? 0 then ["-"] else if first then [] else ["+"].
(** The words of a list of terms, printed in the order of the list. *)
Fixpoint toks (l : list (mono * Z)) (first : bool) : list string :=
  match l with [] => [] | e :: r => (stok first (snd e) ++ btoks e) ++ toks r false end.
