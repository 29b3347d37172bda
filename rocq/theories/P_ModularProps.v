(** Properties C46, C47, C75: modular polynomials. *)
From Coq Require Import Znumtheory ZifyBool.
From Verif Require Import Prelude M_Bigint M_Variable M_Term M_Poly M_QSeries M_Solve M_Curve M_Modular Spec P_Bigint P_Variable P_FSum P_Poly P_Subst P_Subst2 P_Subst3 P_SubstProps P_Q P_QProps P_Modular P_Modular2.
Open Scope Z_scope.

(** C46: the result is x^(p+1) + y^(p+1) plus a symmetric polynomial with both exponents at most p,
    and nothing else (no q, no variable). *)
Lemma c46_shape : forall p Phi, modular_polynomial p = Ok Phi -> prime p /\ sorted Phi /\
  (forall i j, coef Phi (xymono i j) = coef Phi (xymono j i)) /\
  coef Phi (xymono (p + 1) 0) = 1 /\ coef Phi (xymono 0 (p + 1)) = 1 /\
  (forall m, coef Phi m <> 0 -> exists i j, m = xymono i j /\
     ((0 <= i <= p /\ 0 <= j <= p) \/ (i = p + 1 /\ j = 0) \/ (i = 0 /\ j = p + 1))).
Proof.
  intros p Phi H. destruct (modular_inv p Phi H) as (Pp & Bp & _). split; [exact Pp|]. destruct (modular_shape p Phi H) as (S & c & A & B & C & D). split; [exact S|].
  assert (Dx: forall i j, ~ ((0 <= i <= p /\ 0 <= j <= p) \/ (i = p + 1 /\ j = 0) \/ (i = 0 /\ j = p + 1)) -> coef Phi (xymono i j) = 0).
  { intros i j N. apply D. intros (i' & j' & E & X). unfold xymono in E. injection E; intros; subst. contradiction. }
  split; [|split; [exact B|split; [exact C|]]].
  - intros i j. assert (X: (0 <= i <= p /\ 0 <= j <= p) \/ (i = p + 1 /\ j = 0) \/ (i = 0 /\ j = p + 1) \/ ~ ((0 <= i <= p /\ 0 <= j <= p) \/ (i = p + 1 /\ j = 0) \/ (i = 0 /\ j = p + 1))) by lia.
    destruct X as [X|[(-> & ->)|[(-> & ->)|X]]]; [rewrite !A, Z.min_comm, Z.max_comm by lia; reflexivity|congruence|congruence|]. rewrite !Dx by lia. reflexivity.
  - intros m Hm. destruct m as [i j q v]. 
    destruct (Z.eq_dec q 0) as [->|]; [|exfalso; apply Hm, D; intros (i' & j' & E & _); unfold xymono in E; injection E; intros; congruence].
    destruct v as [v|]; [exfalso; apply Hm, D; intros (i' & j' & E & _); discriminate E|]. exists i, j. split; [reflexivity|].
    assert (X: ((0 <= i <= p /\ 0 <= j <= p) \/ (i = p + 1 /\ j = 0) \/ (i = 0 /\ j = p + 1)) \/ ~ ((0 <= i <= p /\ 0 <= j <= p) \/ (i = p + 1 /\ j = 0) \/ (i = 0 /\ j = p + 1))) by lia.
    destruct X as [X|X]; [exact X|]. exfalso. apply Hm, (Dx i j X).
Qed.
(** C46: the template is x^(p+1) + y^(p+1) + sum over 0 <= i, j <= p of c_(min i j)_(max i j) x^i y^j; it exists for every prime p. *)
Lemma c46_template : forall p, prime p -> p + 1 <= i32_max -> exists T, modular_template p = Ok T /\ sorted T /\
  forall i j q v, coef T (mkMono i j q v) =
    if negb (q =? 0) then 0
    else match v with
         | Some (k, l) => if (0 <=? i) && (i <=? p) && (0 <=? j) && (j <=? p) && (k =? Z.min i j) && (l =? Z.max i j) then 1 else 0
         | None => if ((i =? p + 1) && (j =? 0)) || ((i =? 0) && (j =? p + 1)) then 1 else 0
         end.
Proof.
  intros p Pp Bp. destruct (template_returns p Pp Bp) as (T & E). exists T. split; [exact E|]. destruct (modular_template_spec p T E) as (_ & _ & S & F). split; [exact S|].
  assert (2 <= p) by (destruct Pp; lia).
  intros i j q v. rewrite (F _), tterms_eq, coef_sterms. destruct (Z.eqb_spec q 0) as [->|Nq]; cbn [negb].
  - destruct v as [[k l]|].
    + rewrite !(delta_neq (mkMono i j 0 (Some (k, l)))) by (unfold xymono; discriminate).
      assert (D: forall a b x y w, delta (mkMono i j 0 (Some (k, l))) (mkMono a b 0 (Some (x, y))) = w -> w = if (a =? i) && (b =? j) && (x =? k) && (y =? l) then 1 else 0).
      { intros a b x y w <-. unfold delta, mono_eqb. cbn. destruct (a =? i), (b =? j), (x =? k), (y =? l); reflexivity. }
      assert (D': forall a b x y, delta (mkMono i j 0 (Some (k, l))) (mkMono a b 0 (Some (x, y))) = if (a =? i) && (b =? j) && (x =? k) && (y =? l) then 1 else 0) by (intros; apply D; reflexivity).
      destruct ((0 <=? i) && (i <=? p) && (0 <=? j) && (j <=? p) && (k =? Z.min i j) && (l =? Z.max i j)) eqn:X.
      * rewrite (psum_single _ _ (k, l)); [|apply NoDup_conv_pairs|apply in_conv_pairs; lia|].
        -- rewrite coef_stermsv, !D', !Z.eqb_refl, !andb_true_r. destruct (k =? l) eqn:Y, ((k =? i) && (l =? j)) eqn:Z1, ((l =? i) && (k =? j)) eqn:Z2; lia.
        -- intros [x y] Hx Ne. rewrite coef_stermsv, !D'. assert (N: (x =? k) && (y =? l) = false) by (destruct ((x =? k) && (y =? l)) eqn:Y; [exfalso; apply Ne; f_equal; lia|reflexivity]).
           rewrite <- !andb_assoc, N, !andb_false_r. destruct (x =? y); lia.
      * rewrite psum_zero; [reflexivity|]. intros [x y] Hx. apply in_conv_pairs in Hx. rewrite coef_stermsv, !D'.
        destruct ((x =? i) && (y =? j) && (x =? k) && (y =? l)) eqn:Y1; [exfalso; lia|]. destruct ((y =? i) && (x =? j) && (x =? k) && (y =? l)) eqn:Y2; [exfalso; lia|]. destruct (x =? y); lia.
    + rewrite psum_zero.
      * unfold delta, mono_eqb, xymono. cbn [mx my mq mv var_eqb]. rewrite !(Z.eqb_refl 0), !andb_true_r. rewrite !(Z.eqb_sym (p + 1)), !(Z.eqb_sym 0).
        destruct (i =? p + 1) eqn:X1, (j =? 0) eqn:X2, (i =? 0) eqn:X3, (j =? p + 1) eqn:X4; cbn; try reflexivity; lia.
      * intros [x y] _. rewrite coef_stermsv, !delta_neq by discriminate. destruct (x =? y); ring.
  - rewrite !delta_neq by (unfold xymono; intros X; injection X; intros; congruence). rewrite psum_zero; [reflexivity|].
    intros [x y] _. rewrite coef_stermsv, !delta_neq by (intros X; injection X; intros; congruence). destruct (x =? y); ring.
Qed.
Lemma c46_template_panics : forall p, ~ prime p -> modular_template p = Panic.
Proof.
  intros p Np. unfold modular_template. destruct (2 <=? p); [|reflexivity]. cbn [assertb bind]. destruct (is_prime p) eqn:E; [|reflexivity]. exfalso. apply Np, is_prime_spec, E.
Qed.
Definition c46_phi2 : poly := [(xymono 0 0, -157464000000000); (xymono 0 1, 8748000000); (xymono 0 2, -162000); (xymono 0 3, 1); (xymono 1 0, 8748000000);
  (xymono 1 1, 40773375); (xymono 1 2, 1488); (xymono 2 0, -162000); (xymono 2 1, 1488); (xymono 2 2, -1); (xymono 3 0, 1)].
Example c46_case : modular_polynomial 2 = Ok c46_phi2.
Proof. vm_compute. reflexivity. Qed.

(** C47: entry number k + p^2 + p of the list (k = -p^2-p, ..., 0) holds, for every variable v, the coefficient of v q^k
    in the template with x := j(q), y := j(q^p); the j-series being cut at order p^2+p or anywhere later. *)
Lemma c47_list : forall p L, 3 * (p * p + p + 1) + 1 <= i32_max -> modular_template_list p = Ok L ->
  exists T, modular_template p = Ok T /\ length L = Z.to_nat (p * p + p + 1) /\
    forall N J, p * p + p <= N -> 3 * (N + 1) + 1 <= i32_max -> j_invariant N = Ok J ->
      forall k, - (p * p + p) <= k <= 0 -> exists r, nth_error L (Z.to_nat (k + (p * p + p))) = Some r /\ sorted r /\
        (forall v, coef r (mkMono 0 0 0 v) = coef (jsubst p T J) (mkMono 0 0 k v)) /\
        (forall m c, In (m, c) r -> exists v, m = mkMono 0 0 0 v).
Proof.
  intros p L HR EL. destruct (template_list_spec p L HR EL) as (T & J0 & ET & EJ0 & Pp & PJ & SJ & LL & HL). exists T. split; [exact ET|]. split; [exact LL|].
  intros N J HN HM EJ k Hk. assert (2 <= p) by (destruct Pp; lia). destruct (modular_template_spec p T ET) as (_ & _ & _ & FT). destruct (HL k Hk) as (Sr & Cr & Kr).
  exists (nth (Z.to_nat (k + (p * p + p))) L []). split; [apply nth_error_nth'; rewrite LL; lia|]. split; [exact Sr|]. split; [|exact Kr].
  intros v. rewrite Cr. pose proof (c43_j_stable (p * p + p) N J0 J ltac:(nia) HM EJ0 EJ) as St.
  destruct (c43_j (p * p + p) ltac:(nia) HR) as (x & y & _ & Ey & _ & _ & _ & KJ0). assert (y = J0) by congruence. subst y.
  destruct (c43_j N ltac:(nia) HM) as (x' & y & _ & Ey' & _ & _ & _ & KJ). assert (y = J) by congruence. subst y.
  apply jsubst_stable; try assumption; [apply (j_pure N); [nia|exact HM|exact EJ]|lia| |]; intros m c Hi; [apply KJ0 in Hi|apply KJ in Hi]; destruct Hi as (n & Hn & ->); cbn; lia.
Qed.
(** C47: no equation is missing below: there are no terms of order less than -p^2-p. *)
Lemma c47_lowest : forall p T N J, prime p -> modular_template p = Ok T -> -1 <= N -> 3 * (N + 1) + 1 <= i32_max -> j_invariant N = Ok J ->
  forall k v, k < - (p * p + p) -> coef (jsubst p T J) (mkMono 0 0 k v) = 0.
Proof.
  intros p T N J Pp ET HN HM EJ k v Hk. assert (2 <= p) by (destruct Pp; lia). destruct (modular_template_spec p T ET) as (_ & _ & _ & FT).
  destruct (c43_j N HN HM) as (x' & y & _ & Ey' & _ & _ & _ & KJ). assert (y = J) by congruence. subst y.
  apply jsubst_low; try assumption; [apply (j_pure N); [lia|exact HM|exact EJ]|]. intros m c Hi; apply KJ in Hi; destruct Hi as (n & Hn & ->); cbn; lia.
Qed.
Example c47_case : exists L, modular_template_list 2 = Ok L /\ length L = 7%nat /\
  nth 0 L [] = [(mkMono 0 0 0 None, 1); (mkMono 0 0 0 (Some (2, 2)), 1)].
Proof. eexists. split; [vm_compute; reflexivity|]. split; reflexivity. Qed.

(** C75: at most one polynomial of that shape satisfies the equations of orders -p^2-p, ..., 0; if there is one
    (the classical modular polynomial is one), modular_polynomial(p) is it whenever it returns. *)
Lemma c75_unique : forall p Phi Psi J c, 3 * (p * p + p + 1) + 1 <= i32_max -> modular_polynomial p = Ok Phi -> j_invariant (p * p + p) = Ok J ->
  symmetric_shape p c Psi -> (forall k, - (p * p + p) <= k <= 0 -> coef (jsubst p Psi J) (qmono k) = 0) -> feq Phi Psi.
Proof. exact modular_unique. Qed.
Definition c75_c (i j : Z) : Z := coef c46_phi2 (xymono i j).
Example c75_case : exists J, j_invariant (2 * 2 + 2) = Ok J /\ symmetric_shape 2 c75_c c46_phi2 /\
  forall k, - (2 * 2 + 2) <= k <= 0 -> coef (jsubst 2 c46_phi2 J) (qmono k) = 0.
Proof.
  eexists. split; [vm_compute; reflexivity|]. split.
  - split; [|split; [reflexivity|split; [reflexivity|]]].
    + intros i j Hi Hj. assert (i = 0 \/ i = 1 \/ i = 2) as [->|[->| ->]] by lia; (assert (j = 0 \/ j = 1 \/ j = 2) as [->|[->| ->]] by lia; reflexivity).
    + intros m Hm. apply coef_absent. intros c Hc. apply Hm. unfold c46_phi2 in Hc. repeat (destruct Hc as [E|Hc]; [injection E; intros; subst; do 2 eexists; (split; [reflexivity|]); lia|]). destruct Hc.
  - intros k Hk. assert (In k [-6; -5; -4; -3; -2; -1; 0]) as Hin by (cbn; lia).
    repeat (destruct Hin as [<-|Hin]; [vm_compute; reflexivity|]). destruct Hin.
Qed.
