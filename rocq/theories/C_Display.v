(** Properties C72-C74: Display of terms and polynomials; Monomial::eval_q *)
From Coq Require Import String Ascii ZifyBool.
From Verif Require Import Prelude M_Bigint M_Variable M_Term M_Poly M_Curve M_Display Spec SpecDisplay P_Bigint P_Variable P_Poly P_Display.
From Verif Require Import P_DisplayProps.
Local Open Scope string_scope.
Local Open Scope Z_scope.

(** C72: the text of a nonzero polynomial in normal form: its words, from the highest term to the lowest, joined by single spaces. *)
Theorem C72_text : forall p : poly, no_zero p -> p <> [] -> poly_to_string p = String.concat " " (toks (rev p) true).
Proof. exact c72_text. Qed.
Print Assumptions C72_text.
(** C72: the text of a term with nonzero coefficient. *)
Theorem C72_term_text : forall c m, c <> 0 -> term_to_string (mkTerm c m) = String.concat " " (toks [(m, c)] true).
Proof. exact c72_term_text. Qed.
Print Assumptions C72_term_text.
(** C72: a nonzero polynomial in normal form never prints as "0". *)
Theorem C72_zero : forall p : poly, no_zero p -> (poly_to_string p = "0" <-> p = []).
Proof. exact c72_zero. Qed.
Print Assumptions C72_zero.
(** C72: two polynomials in normal form with the same text are equal. *)
Theorem C72_injective : forall p q : poly, no_zero p -> no_zero q -> poly_to_string p = poly_to_string q -> p = q.
Proof. exact c72_injective. Qed.
Print Assumptions C72_injective.
(** C72: the same for single terms with nonzero coefficient. *)
Theorem C72_term : forall s t : term, tc s <> 0 -> tc t <> 0 -> term_to_string s = term_to_string t -> s = t.
Proof. exact c72_term. Qed.
Print Assumptions C72_term.
Example C72_case : let p := [(mkMono 0 0 2 (Some (1, 2)), -1); (mkMono 1 3 (-1) None, 12); (mkMono 2 0 0 None, 1)] in
  no_zero p /\ poly_to_string p = "x^2 + 12 x y^3 q^-1 - q^2 c_1_2" /\ poly_to_string [(mone, 12)] = "12".
Proof. exact c72_case. Qed.
(** C73 is false: with the terms t = x and s = 1, the library's t - t has only zero coefficients and prints as the empty string,
    and (t - t) + s prints as "+ 1". *)
Theorem C73_zero_text_refuted : exists s t : term, tc s <> 0 /\ tc t <> 0 /\
  (forall m c, In (m, c) (term_sub t t) -> c = 0) /\ poly_to_string (term_sub t t) = "" /\
  poly_to_string (p_add_t (term_sub t t) s) = "+ 1".
Proof. exact c73_zero_text_refuted. Qed.
Print Assumptions C73_zero_text_refuted.
(** C73, what holds: in normal form the text never starts with '+' and is "0" exactly for the zero polynomial; an explicit zero anywhere but
    in the highest position does not show; with a zero in the highest position the text is that of the normal form, except that
    a positive leading coefficient is preceded by "+ ", and that a value of zero prints as the empty string. *)
Theorem C73_zero_text_partial : forall p : poly,
  (no_zero p -> (poly_to_string p = "0" <-> p = []) /\ forall s, poly_to_string p <> String "+" s) /\
  (forall l m c, p = (l ++ [(m, c)])%list -> c <> 0 -> poly_to_string p = poly_to_string (drop_zeros p)) /\
  (forall l m, p = (l ++ [(m, 0)])%list -> poly_to_string p =
     if Nat.eqb (length (drop_zeros p)) 0 then ""
     else (if 0 <? snd (last (drop_zeros p) (mone, 0)) then "+ " else "") ++ poly_to_string (drop_zeros p)).
Proof. exact c73_zero_text_partial. Qed.
Print Assumptions C73_zero_text_partial.
Example C73_case : poly_to_string [(mone, 1); (mkMono 1 0 0 None, 0); (mkMono 2 0 0 None, -3)] = "- 3 x^2 + 1" /\
  poly_to_string [(mone, 1); (mkMono 1 0 0 None, -2); (mkMono 2 0 0 None, 0)] = "- 2 x + 1".
Proof. exact c73_case. Qed.
(** C74: for a non-negative power the result is q^qpow, exactly when that fits i32; otherwise the call panics. *)
Theorem C74_nonneg : forall m q, 0 <= mq m <= i32_max -> i32_range q ->
  (i32_range (q ^ mq m) -> mono_eval_q m q = Ok (q ^ mq m)) /\ (~ i32_range (q ^ mq m) -> mono_eval_q m q = Panic).
Proof. exact c74_nonneg. Qed.
Print Assumptions C74_nonneg.
(** C74: for a negative power (cast to u32) and |q| >= 2 it always panics; for q = 1, -1, 0 it returns 1, (-1)^qpow, 0. *)
Theorem C74_negative : forall m q, i32_min <= mq m < 0 ->
  (2 <= Z.abs q -> mono_eval_q m q = Panic) /\
  (q = 1 -> mono_eval_q m q = Ok 1) /\ (q = -1 -> mono_eval_q m q = Ok (if Z.even (mq m) then 1 else -1)) /\ (q = 0 -> mono_eval_q m q = Ok 0).
Proof. exact c74_negative. Qed.
Print Assumptions C74_negative.
Example C74_case : mono_eval_q (qmono 31) (-2) = Ok (-2147483648) /\ mono_eval_q (qmono 31) 2 = Panic /\ mono_eval_q (qmono 5) 7 = Ok 16807 /\ mono_eval_q (qmono (-1)) 2 = Panic.
Proof. exact c74_case. Qed.
