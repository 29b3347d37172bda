(** The specification vocabulary: small, independent of the model's own helpers. *)
From Coq Require Import Znumtheory.
From Verif Require Import Prelude M_Variable M_Term.
Open Scope Z_scope.

(** ** Ordering contract (Rust's Ord + Eq) *)
Record ord_contract {A} (eqb : A -> A -> bool) (cmp : A -> A -> comparison) : Prop := {
  oc_eq : forall a b, cmp a b = Eq <-> eqb a b = true;
  oc_refl : forall a, eqb a a = true;
  oc_opp : forall a b, cmp b a = CompOpp (cmp a b);
  oc_trans : forall a b c, cmp a b = Lt -> cmp b c = Lt -> cmp a c = Lt;
  oc_eq_l : forall a b c, eqb a b = true -> cmp a c = cmp b c }.

(** ** Polynomials as finite formal sums
    A polynomial is a list of (monomial, integer); its meaning is its coefficient function. *)
Definition fsum := list (mono * Z).

(** Coefficient of [m]: the sum of all entries listed for m. *)
Fixpoint coef (p : fsum) (m : mono) : Z :=
  match p with
  | [] => 0
  | (k, c) :: r => (if mono_eqb k m then c else 0) + coef r m
  end.

(** Product of two monomials: exponents add up, the variable of the one that has it is kept.
    Two variables never meet in the code (it panics); the value chosen here for that case
    (sum of the subscripts) only serves to make the product total and associative. *)
Definition vmul (a b : option (Z * Z)) : option (Z * Z) :=
  match a, b with
  | None, _ => b
  | _, None => a
  | Some (i, j), Some (k, l) => Some (i + k, j + l)
  end.
Definition mmul (a b : mono) : mono :=
  mkMono (mx a + mx b) (my a + my b) (mq a + mq b) (vmul (mv a) (mv b)).
Definition mone : mono := mkMono 0 0 0 None.

(** Two monomials can be multiplied by the code: at most one variable, exponents in i32. *)
Definition mul_ok (a b : mono) : Prop :=
  (mv a = None \/ mv b = None) /\
  i32_min <= mx a + mx b <= i32_max /\
  i32_min <= my a + my b <= i32_max /\
  i32_min <= mq a + mq b <= i32_max.

(** All pairwise products: [coef (conv a b) m] is the sum over all pairs (m1 in a, m2 in b)
    with m1 m2 = m of the products of the coefficients. *)
Definition conv (a b : fsum) : fsum :=
  flat_map (fun e => map (fun f => (mmul (fst e) (fst f), snd e * snd f)) b) a.

(** The constant polynomial c, and a single term. *)
Definition fconst (c : Z) : fsum := [(mone, c)].
Definition fmono (c x y q : Z) : fsum := [(mkMono x y q None, c)].

(** n-fold product. *)
Fixpoint fpow (a : fsum) (n : nat) : fsum :=
  match n with O => fconst 1 | S k => conv a (fpow a k) end.

Definition fneg (a : fsum) : fsum := map (fun e => (fst e, - snd e)) a.
Definition fadd (a b : fsum) : fsum := a ++ b.
Definition fsub (a b : fsum) : fsum := a ++ fneg b.

(** Congruence of polynomials modulo an integer: all coefficients congruent.
    Modulo 0 it is equality of coefficient functions. *)
Definition feqm (n : Z) (a b : fsum) : Prop := forall m, (n | coef a m - coef b m).
Definition feq (a b : fsum) : Prop := forall m, coef a m = coef b m.

(** Normal form: no explicit zero coefficient. *)
Definition no_zero (a : fsum) : Prop := forall m c, In (m, c) a -> c <> 0.
(** Reduced modulo p: every coefficient in [1, p). *)
Definition reduced (p : Z) (a : fsum) : Prop := forall m c, In (m, c) a -> 1 <= c < p.
(** The i32 exponents of the representation. *)
Definition i32_range (z : Z) : Prop := i32_min <= z <= i32_max.
Definition i32_mono (m : mono) : Prop := i32_range (mx m) /\ i32_range (my m) /\ i32_range (mq m).
Definition i32_poly (a : fsum) : Prop := forall m c, In (m, c) a -> i32_mono m.
(** Strictly increasing monomials: the invariant of a BTreeMap. *)
Fixpoint sorted (a : fsum) : Prop :=
  match a with
  | [] => True
  | (m, _) :: r => (forall m' c', In (m', c') r -> mono_cmp m m' = Lt) /\ sorted r
  end.
(** Non-negative x and y exponents; no y; no q; no variable; polynomial in x only. *)
Definition nonneg_xy (a : fsum) : Prop := forall m c, In (m, c) a -> 0 <= mx m /\ 0 <= my m.
Definition only_x (a : fsum) : Prop :=
  forall m c, In (m, c) a -> 0 <= mx m /\ my m = 0 /\ mq m = 0 /\ mv m = None.

(** Value at (x, y) (q and variables set to 1). *)
Definition mval (x y : Z) (m : mono) : Z := x ^ mx m * y ^ my m.
Fixpoint fval (x y : Z) (a : fsum) : Z :=
  match a with
  | [] => 0
  | (m, c) :: r => c * mval x y m + fval x y r
  end.

(** ** Substitutions *)
(** Every monomial renamed by [f]. *)
Definition fmap (f : mono -> mono) (a : fsum) : fsum := map (fun e => (f (fst e), snd e)) a.
Definition set_x (k : Z) (m : mono) : mono := mkMono k (my m) (mq m) (mv m).
Definition set_y (k : Z) (m : mono) : mono := mkMono (mx m) k (mq m) (mv m).
(** x := s, y := s (non-negative exponents): c x^i m' contributes c s^i m'. *)
Definition fsubst_x (a s : fsum) : fsum := flat_map (fun e => conv [(set_x 0 (fst e), snd e)] (fpow s (Z.to_nat (mx (fst e))))) a.
Definition fsubst_y (a s : fsum) : fsum := flat_map (fun e => conv [(set_y 0 (fst e), snd e)] (fpow s (Z.to_nat (my (fst e))))) a.

(** x^3 + a x + b and y^2 - (x^3 + a x + b). *)
Definition fweier (a b : Z) : fsum := [(mkMono 3 0 0 None, 1); (mkMono 1 0 0 None, a); (mone, b)].
Definition fcurve (a b : Z) : fsum := (mkMono 0 2 0 None, 1) :: fneg (fweier a b).
(** u and v differ by a multiple of g, modulo n. *)
Definition cong_ideal (n : Z) (g u v : fsum) : Prop := exists k, feqm n u (fadd v (conv g k)).

(** x -> x^n and y -> y^n;  y -> y^n;  q -> q^n  on a monomial. *)
Definition frob (n : Z) (m : mono) : mono := mkMono (mx m * n) (my m * n) (mq m) (mv m).
Definition ypower (n : Z) (m : mono) : mono := mkMono (mx m) (my m * n) (mq m) (mv m).
Definition qpower (n : Z) (m : mono) : mono := mkMono (mx m) (my m) (mq m * n) (mv m).
(** The exponents of m and of its reduction (y^2 replaced by a cubic in x) fit i32. *)
Definition red_room (m : mono) : Prop := i32_mono m /\ 0 <= mx m /\ 0 <= my m /\ mx m + 3 * (my m / 2) <= i32_max.
(** All exponents at most B in absolute value, no variables. *)
Definition exp_bound (B : Z) (a : fsum) : Prop :=
  forall m c, In (m, c) a -> Z.abs (mx m) <= B /\ Z.abs (my m) <= B /\ Z.abs (mq m) <= B /\ mv m = None.
(** Neither x nor y occurs; no negative q power; equality up to O(q^(N+1)). *)
Definition qonly (a : fsum) : Prop := forall m c, In (m, c) a -> mx m = 0 /\ my m = 0.
Definition qnonneg (a : fsum) : Prop := forall m c, In (m, c) a -> 0 <= mq m.
Definition feq_upto (N : Z) (a b : fsum) : Prop := forall m, mq m <= N -> coef a m = coef b m.

(** ** Polynomials in x modulo p *)
(** g divides a modulo p (within polynomials in x). *)
Definition fdivides (p : Z) (g a : fsum) : Prop := exists k, only_x k /\ feqm p a (conv g k).
(** a and b have a common factor of positive degree modulo p. *)
Definition common_factor (p : Z) (a b : fsum) : Prop :=
  exists h m c, sorted h /\ reduced p h /\ only_x h /\ In (m, c) h /\ 1 <= mx m /\ fdivides p h a /\ fdivides p h b.

(** ** q-series *)
Definition qmono (n : Z) : mono := mkMono 0 0 n None.
(** 1, 2, ..., n. *)
Definition upto (n : Z) : list Z := map Z.of_nat (seq 1 (Z.to_nat n)).
(** Sum of the k-th powers of the positive divisors of n. *)
Definition sigma (k n : Z) : Z := fold_right Z.add 0 (map (fun d => d ^ k) (filter (fun d => n mod d =? 0) (upto n))).
(** (1 - q^n)^24 and the product over n = 1, ..., N. *)
Definition eta_factor (n : Z) : fsum := fpow [(mone, 1); (qmono n, -1)] 24.
Definition eta_product (N : Z) : fsum := fold_right (fun n acc => conv (eta_factor n) acc) (fconst 1) (upto N).

(** ** Linear systems
    A row (c_0, ..., c_(n-1), v) stands for c_0 x_0 + ... + c_(n-1) x_(n-1) = t v
    (t = 1: the system itself; t = 0: the homogeneous system). *)
Definition dot (n : nat) (row : list Z) (x : nat -> Z) : Z :=
  fold_right Z.add 0 (map (fun k => nth k row 0 * x k) (seq 0 n)).
Definition solution (n : nat) (t : Z) (m : list (list Z)) (x : nat -> Z) : Prop :=
  forall row, In row m -> dot n row x = t * nth n row 0.
Definition rectangular (n : nat) (m : list (list Z)) : Prop := m <> [] /\ forall row, In row m -> length row = S n.

(** ** Modular polynomials *)
Definition xymono (i j : Z) : mono := mkMono i j 0 None.
(** [Phi] is x^(p+1) + y^(p+1) + sum over 0 <= i, j <= p of c(min(i,j), max(i,j)) x^i y^j. *)
Definition symmetric_shape (p : Z) (c : Z -> Z -> Z) (Phi : fsum) : Prop :=
  (forall i j, 0 <= i <= p -> 0 <= j <= p -> coef Phi (xymono i j) = c (Z.min i j) (Z.max i j)) /\
  coef Phi (xymono (p + 1) 0) = 1 /\ coef Phi (xymono 0 (p + 1)) = 1 /\
  (forall m, ~ (exists i j, m = xymono i j /\ ((0 <= i <= p /\ 0 <= j <= p) \/ (i = p + 1 /\ j = 0) \/ (i = 0 /\ j = p + 1))) -> coef Phi m = 0).
(** Phi with x := J(q), y := J(q^p). *)
Definition jsubst (p : Z) (Phi J : fsum) : fsum := fsubst_y (fsubst_x Phi J) (fmap (qpower p) J).
