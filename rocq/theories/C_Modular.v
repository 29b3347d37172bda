(** C46, C47, C75: modular polynomials. *)
From Coq Require Import Znumtheory ZifyBool.
From Verif Require Import Prelude M_Bigint M_Variable M_Term M_Poly M_QSeries M_Solve M_Curve M_Modular Spec P_Bigint P_Variable P_FSum P_Poly P_Subst P_Subst2 P_Subst3 P_SubstProps P_Q P_QProps P_Modular P_Modular2.
From Verif Require Import P_ModularProps.
Open Scope Z_scope.

(** C46: the result is x^(p+1) + y^(p+1) plus a symmetric polynomial with both exponents at most p,
    and nothing else (no q, no variable). *)
Theorem C46_shape : forall p Phi, modular_polynomial p = Ok Phi -> prime p /\ sorted Phi /\
  (forall i j, coef Phi (xymono i j) = coef Phi (xymono j i)) /\
  coef Phi (xymono (p + 1) 0) = 1 /\ coef Phi (xymono 0 (p + 1)) = 1 /\
  (forall m, coef Phi m <> 0 -> exists i j, m = xymono i j /\
     ((0 <= i <= p /\ 0 <= j <= p) \/ (i = p + 1 /\ j = 0) \/ (i = 0 /\ j = p + 1))).
Proof. exact c46_shape. Qed.
Print Assumptions C46_shape.
(** C46: the template is x^(p+1) + y^(p+1) + sum over 0 <= i, j <= p of c_(min i j)_(max i j) x^i y^j; it exists for every prime p. *)
Theorem C46_template : forall p, prime p -> p + 1 <= i32_max -> exists T, modular_template p = Ok T /\ sorted T /\
  forall i j q v, coef T (mkMono i j q v) =
    if negb (q =? 0) then 0
    else match v with
         | Some (k, l) => if (0 <=? i) && (i <=? p) && (0 <=? j) && (j <=? p) && (k =? Z.min i j) && (l =? Z.max i j) then 1 else 0
         | None => if ((i =? p + 1) && (j =? 0)) || ((i =? 0) && (j =? p + 1)) then 1 else 0
         end.
Proof. exact c46_template. Qed.
Print Assumptions C46_template.
Theorem C46_template_panics : forall p, ~ prime p -> modular_template p = Panic.
Proof. exact c46_template_panics. Qed.
Print Assumptions C46_template_panics.
Example C46_case : modular_polynomial 2 = Ok c46_phi2.
Proof. exact c46_case. Qed.
(** C47: entry number k + p^2 + p of the list (k = -p^2-p, ..., 0) holds, for every variable v, the coefficient of v q^k
    in the template with x := j(q), y := j(q^p); the j-series being cut at order p^2+p or anywhere later. *)
Theorem C47_list : forall p L, 3 * (p * p + p + 1) + 1 <= i32_max -> modular_template_list p = Ok L ->
  exists T, modular_template p = Ok T /\ length L = Z.to_nat (p * p + p + 1) /\
    forall N J, p * p + p <= N -> 3 * (N + 1) + 1 <= i32_max -> j_invariant N = Ok J ->
      forall k, - (p * p + p) <= k <= 0 -> exists r, nth_error L (Z.to_nat (k + (p * p + p))) = Some r /\ sorted r /\
        (forall v, coef r (mkMono 0 0 0 v) = coef (jsubst p T J) (mkMono 0 0 k v)) /\
        (forall m c, In (m, c) r -> exists v, m = mkMono 0 0 0 v).
Proof. exact c47_list. Qed.
Print Assumptions C47_list.
(** C47: no equation is missing below: there are no terms of order less than -p^2-p. *)
Theorem C47_lowest : forall p T N J, prime p -> modular_template p = Ok T -> -1 <= N -> 3 * (N + 1) + 1 <= i32_max -> j_invariant N = Ok J ->
  forall k v, k < - (p * p + p) -> coef (jsubst p T J) (mkMono 0 0 k v) = 0.
Proof. exact c47_lowest. Qed.
Print Assumptions C47_lowest.
Example C47_case : exists L, modular_template_list 2 = Ok L /\ length L = 7%nat /\
  nth 0 L [] = [(mkMono 0 0 0 None, 1); (mkMono 0 0 0 (Some (2, 2)), 1)].
Proof. exact c47_case. Qed.
(** C75: at most one polynomial of that shape satisfies the equations of orders -p^2-p, ..., 0; if there is one
    (the classical modular polynomial is one), modular_polynomial(p) is it whenever it returns. *)
Theorem C75_unique : forall p Phi Psi J c, 3 * (p * p + p + 1) + 1 <= i32_max -> modular_polynomial p = Ok Phi -> j_invariant (p * p + p) = Ok J ->
  symmetric_shape p c Psi -> (forall k, - (p * p + p) <= k <= 0 -> coef (jsubst p Psi J) (qmono k) = 0) -> feq Phi Psi.
Proof. exact c75_unique. Qed.
Print Assumptions C75_unique.
Example C75_case : exists J, j_invariant (2 * 2 + 2) = Ok J /\ symmetric_shape 2 c75_c c46_phi2 /\
  forall k, - (2 * 2 + 2) <= k <= 0 -> coef (jsubst 2 c46_phi2 J) (qmono k) = 0.
Proof. exact c75_case. Qed.
