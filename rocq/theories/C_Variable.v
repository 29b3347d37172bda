(** Property theorems C08-C11 (orders, src/subscripted_variable.rs). *)
From Coq Require Import Znumtheory.
From Verif Require Import Prelude M_Bigint M_Variable M_Term Spec P_Bigint P_Variable P_VariableProps.
From Verif Require Import P_Variable2.
Open Scope Z_scope.

(** C08: cmp of SubscriptedVariable and of Monomial is a total order whose Equal is ==. *)
Theorem C08_variable_order : ord_contract sv_eq sv_cmp.
Proof. exact sv_order. Qed.
Print Assumptions C08_variable_order.
Theorem C08_monomial_order : ord_contract mono_eqb mono_cmp.
Proof. exact mono_order. Qed.
Print Assumptions C08_monomial_order.
(** eq and cmp of variables only depend on the canonical form stored in monomials. *)
Theorem C08_variable_canonical : forall a b,
  (sv_eq a b = true <-> canon a = canon b) /\ sv_cmp a b = var_cmp (canon a) (canon b).
Proof. exact (fun a b => conj (sv_eq_canon a b) (sv_cmp_canon a b)). Qed.
Print Assumptions C08_variable_canonical.
(** C08: the default variable is the empty one, equal exactly to the empty variables and least in the order. *)
Theorem C08_new : forall v, (sv_eq sv_new v = true <-> sv_empty v = true) /\ sv_cmp sv_new v <> Gt /\ sv_eq sv_new sv_new = true.
Proof. exact c08_new. Qed.
Print Assumptions C08_new.
Example C08_case : sv_eq (mkSV 1 2 true) (mkSV 3 4 true) = true /\
  sv_cmp (mkSV 1 2 false) (mkSV 1 3 false) = Lt /\
  mono_cmp (mkMono 2 1 0 None) (mkMono 2 0 5 (Some (1, 1))) = Gt.
Proof. repeat split. Qed.

(** C09 is false of the code: Term::cmp ignores the coefficient. *)
Theorem C09_term_order_refuted : exists s t, term_cmp s t = Eq /\ term_eqb s t = false.
Proof. exact term_order_refuted. Qed.
Print Assumptions C09_term_order_refuted.
(** What holds: == implies Equal, and Equal means same monomial. *)
Theorem C09_term_order_partial : forall s t,
  (term_eqb s t = true -> term_cmp s t = Eq) /\ (term_cmp s t = Eq <-> tm s = tm t).
Proof. exact term_order_partial. Qed.
Print Assumptions C09_term_order_partial.

(** C10: index <-> variable bijection, for every prime p whose index range fits an i32. *)
Theorem C10_converter_new : forall p,
  (prime p -> converter_new p = Ok p) /\ (~ prime p -> converter_new p = Panic).
Proof. exact converter_new_spec. Qed.
Print Assumptions C10_converter_new.
Theorem C10_count : forall p, 0 <= p < i32_max -> conv_count p = Ok ((p + 1) * (p + 2) / 2).
Proof. exact conv_count_spec. Qed.
Print Assumptions C10_count.
Theorem C10_variable_from_index : forall p k, 0 <= p <= 65534 -> 0 <= k < (p + 1) * (p + 2) / 2 ->
  exists i j, variable_from_index p k = Ok (mkSV i j false) /\ 0 <= i <= j /\ j <= p /\
              index_from_variable p (mkSV i j false) = Ok (Some k).
Proof. exact variable_from_index_spec. Qed.
Print Assumptions C10_variable_from_index.
Theorem C10_index_from_variable : forall p i j, 0 <= p <= 65534 -> 0 <= i <= j -> j <= p ->
  exists k, index_from_variable p (mkSV i j false) = Ok (Some k) /\ 0 <= k < (p + 1) * (p + 2) / 2 /\
            variable_from_index p k = Ok (mkSV i j false).
Proof. exact index_from_variable_spec. Qed.
Print Assumptions C10_index_from_variable.
Theorem C10_index_from_variable_out : forall p i j, 0 <= p <= 65534 -> ~ (0 <= i <= j /\ j <= p) ->
  index_from_variable p (mkSV i j false) = Panic.
Proof. exact index_from_variable_out. Qed.
Print Assumptions C10_index_from_variable_out.
(** C10: the empty variable has no index. *)
Theorem C10_index_from_variable_empty : forall p v, sv_empty v = true -> index_from_variable p v = Ok None.
Proof. exact index_from_variable_empty. Qed.
Print Assumptions C10_index_from_variable_empty.
Example C10_case : prime 3 /\ conv_count 3 = Ok 10 /\ variable_from_index 3 4 = Ok (mkSV 1 3 false)
  /\ index_from_variable 3 (mkSV 1 3 false) = Ok (Some 4).
Proof. split; [apply is_prime_spec; reflexivity|]. repeat split. Qed.

(** C11 is false of the code: the u64 index is cast to i32, so 2^32 is accepted as index 0. *)
Theorem C11_out_of_range_refuted : exists p k c v, prime p /\ conv_count p = Ok c /\
  c <= k < 2 ^ 64 /\ variable_from_index p k = Ok v.
Proof. exact variable_from_index_wraps. Qed.
Print Assumptions C11_out_of_range_refuted.
(** What holds: every out-of-range index below 2^32 is rejected. *)
Theorem C11_out_of_range_partial : forall p k, 0 <= p <= 65534 ->
  (p + 1) * (p + 2) / 2 <= k < 2 ^ 32 -> variable_from_index p k = Panic.
Proof. exact variable_from_index_out. Qed.
Print Assumptions C11_out_of_range_partial.
Example C11_case : 0 <= 3 <= 65534 /\ (3 + 1) * (3 + 2) / 2 <= 10 < 2 ^ 32 /\ variable_from_index 3 10 = Panic.
Proof. split; [lia|]. split; [split; reflexivity || (vm_compute; congruence)|reflexivity]. Qed.
