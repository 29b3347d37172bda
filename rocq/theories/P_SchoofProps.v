(** C102: what schoof reports for l = 3 and l = 5 on curves with a point of order l. *)
From Coq Require Import Znumtheory ZifyBool Setoid Morphisms.
From Verif Require Import Prelude M_Bigint M_Variable M_Term M_Poly M_DivPoly M_Curve M_Schoof Spec SpecCurve P_Bigint P_Variable P_FSum P_Poly P_Rem P_PolyProps P_Subst2 P_Subst3 P_DivProps P_DivVal P_Group P_Fp P_Curve P_Curve2 P_Curve3 P_Curve4 P_CurveProps P_Mul P_MulProps P_DisplayProps P_SeaProps P_AbGroup P_TorsionProps P_SchoofVal.
Open Scope Z_scope.

(** Congruence modulo q. *)
Section Cg.
Variable q : Z.
Definition cg (u v : Z) : Prop := (q | u - v).
#[global] Instance cg_eq : Equivalence cg.
Proof.
  split; [intros u; exists 0; ring|intros u v (k & H); exists (- k); lia|intros u v w (k & H) (k' & H'); exists (k + k'); lia].
Qed.
#[global] Instance cg_add : Proper (cg ==> cg ==> cg) Z.add.
Proof. intros u u' (k & H) v v' (k' & H'). exists (k + k'). lia. Qed.
#[global] Instance cg_sub : Proper (cg ==> cg ==> cg) Z.sub.
Proof. intros u u' (k & H) v v' (k' & H'). exists (k - k'). lia. Qed.
#[global] Instance cg_opp : Proper (cg ==> cg) Z.opp.
Proof. intros u u' (k & H). exists (- k). lia. Qed.
#[global] Instance cg_mul : Proper (cg ==> cg ==> cg) Z.mul.
Proof. intros u u' (k & H) v v' (k' & H'). exists (k * v + u' * k'). replace u with (k * q + u') by lia. replace v with (k' * q + v') by lia. ring. Qed.
Lemma cg_0 u : (q | u) <-> cg u 0.
Proof. unfold cg. rewrite Z.sub_0_r. reflexivity. Qed.
Lemma cg_of u v : u = v -> cg u v.
Proof. intros ->. reflexivity. Qed.
End Cg.

Section Five.
Variables (a b q : Z).
Hypothesis HEl : elliptic a b q.
Let Pq : prime q := proj1 HEl.
Let P2 : q <> 2 := proj1 (proj2 HEl).
Let NS : nonsingular a b q := proj2 (proj2 HEl).
Notation EM n P := (emul a q Pq n P).
Notation on := (on_curve a b q).
(** The values of the division polynomials at a point. *)
Lemma dp_values x y n X Y : on (Some (x, y)) -> 1 <= n <= 5 -> EM (Z.to_nat n) (Some (x, y)) = Some (X, Y) ->
  exists ps ph om, psi a b n = Ok ps /\ phi a b n = Ok ph /\ omega a b n = Ok om /\ ~ (q | fval x y ps) /\
    cg q (fval x y ph) (X * (fval x y ps * fval x y ps)) /\ cg q (fval x y om) (Y * (fval x y ps * fval x y ps * fval x y ps)).
Proof.
  intros (Hx & Hy & C) Hn M. destruct (psi_Ok a b n ltac:(lia)) as (ps & E1 & _).
  destruct (c50_phi a b n ltac:(lia)) as (ph & ? & ? & ? & E2 & _).
  assert (W: exists w, omega a b n = Ok w). { destruct (Z.eq_dec n 1) as [-> |N1]; [eexists; apply c50_omega_one|]. destruct (c50_omega a b n ltac:(lia)) as (w & ? & ? & ? & ? & F & _); eauto. }
  destruct W as (om & E3). exists ps, ph, om. split; [exact E1|]. split; [exact E2|]. split; [exact E3|].
  pose proof (torsion_iff a b q x y Pq P2 NS Hx Hy C (Z.to_nat n) ltac:(lia) ltac:(lia)) as T. pose proof (coord_x a b q x y Pq P2 NS Hx Hy C (Z.to_nat n) X Y ph ltac:(lia) ltac:(lia)) as D1. pose proof (coord_y a b q x y Pq P2 NS Hx Hy C (Z.to_nat n) X Y om ltac:(lia) ltac:(lia)) as D2.
  rewrite Z2Nat.id in D1, D2 by lia. specialize (D1 E2 M). specialize (D2 E3 M). rewrite (pv_Z a b _ _ n ps ltac:(lia) E1) in T, D1, D2.
  split; [intros V; apply T in V; congruence|]. split; [apply symmetry, D1|apply symmetry, D2].
Qed.
Notation OP P Q := (esum a q Pq P Q).
Lemma add_m m n P : on P -> EM (m + n) P = OP (EM m P) (EM n P).
Proof. apply (emul_add a b q Pq P2 NS). Qed.
Lemma em_on n P : on P -> on (EM n P).
Proof. apply (emul_on a b q Pq P2). Qed.
Lemma em_1 P : on P -> EM 1 P = P.
Proof. intros H. apply (emul_1 a q Pq), (on_canon a b q), H. Qed.
Lemma op_none P Q : on P -> on Q -> OP P Q = None -> Q = ec_neg q P.
Proof. apply (esum_none a b q Pq P2). Qed.
Lemma chord x1 y1 x2 y2 x3 y3 : on (Some (x1, y1)) -> on (Some (x2, y2)) -> OP (Some (x1, y1)) (Some (x2, y2)) = Some (x3, y3) -> x1 <> x2 ->
  ~ (q | x2 - x1) /\ cg q ((y2 - y1) * (y2 - y1)) ((x1 + x2 + x3) * ((x2 - x1) * (x2 - x1))).
Proof.
  intros H1 H2 H NE. pose proof (esum_ec_sum a b q Pq P2 _ _ H1 H2) as S0. rewrite H in S0. inversion S0; subst; try congruence. split; [assumption|].
  assert (E3 : cg q (m * m) (x1 + x2 + (m * m - x1 - x2) mod q)).
  { pose proof (prime_ge_2 q Pq). pose proof (mod_cong q (m * m - x1 - x2) ltac:(lia)) as (k & D). exists k. lia. }
  match goal with D : (q | m * (x2 - x1) - (y2 - y1)) |- _ => pose proof (D : cg q (m * (x2 - x1)) (y2 - y1)) as E4 end.
  rewrite <- E4, <- E3. apply cg_of. ring.
Qed.
Lemma neg_mod z : cg q ((- z) mod q) (- z).
Proof. pose proof (prime_ge_2 q Pq). symmetry. apply mod_cong. lia. Qed.
(** A point of order 5 and its double. *)
Lemma ord5 x y : on (Some (x, y)) -> EM 5 (Some (x, y)) = None ->
  exists x2 y2, on (Some (x2, y2)) /\ EM 2 (Some (x, y)) = Some (x2, y2) /\ EM 3 (Some (x, y)) = Some (x2, (- y2) mod q) /\ EM 4 (Some (x, y)) = Some (x, (- y) mod q) /\
    ~ (q | x2 - x) /\ ~ (q | y2) /\ cg q ((y2 - y) * (y2 - y)) ((x + 2 * x2) * ((x2 - x) * (x2 - x))) /\ EM 5 (Some (x2, y2)) = None.
Proof.
  intros H M. set (P := Some (x, y)) in *. pose proof (prime_ge_2 q Pq).
  assert (M4 : EM 4 P = ec_neg q P). { apply op_none; [exact H|apply em_on, H|]. rewrite <- M. change 5%nat with (1 + 4)%nat. rewrite add_m, em_1 by exact H. reflexivity. }
  assert (M3 : EM 3 P = ec_neg q (EM 2 P)). { apply op_none; [apply em_on, H|apply em_on, H|]. rewrite <- M. change 5%nat with (2 + 3)%nat. rewrite add_m by exact H. reflexivity. }
  assert (M22 : EM 4 P = OP (EM 2 P) (EM 2 P)) by (change 4%nat with (2 + 2)%nat; apply add_m, H).
  destruct (EM 2 P) as [[x2 y2]|] eqn:E2.
  2:{ exfalso. rewrite M4 in M22. unfold P in M22. cbn [ec_neg] in M22. rewrite (esum_0_l a q Pq None I) in M22. discriminate. }
  assert (H2 : on (Some (x2, y2))) by (rewrite <- E2; apply em_on, H). exists x2, y2. split; [exact H2|]. split; [reflexivity|]. split; [exact M3|]. split; [exact M4|].
  assert (C3 : OP P (Some (x2, y2)) = Some (x2, (- y2) mod q)). { rewrite <- E2. rewrite <- (em_1 P H) at 1. rewrite <- add_m by exact H. exact M3. }
  assert (Y2 : ~ (q | y2)).
  { intros D. destruct H2 as (_ & R2 & _). assert (y2 = 0) as ->. { rewrite <- (Z.mod_small y2 q R2). apply Z.mod_divide; [lia|exact D]. } 
    assert (N0 : ec_neg q (Some (x2, 0)) = Some (x2, 0)) by (unfold ec_neg; rewrite Z.opp_0, Z.mod_0_l by lia; reflexivity).
    assert (Z4 : OP (Some (x2, 0)) (Some (x2, 0)) = None). { rewrite <- N0 at 2. apply (esum_neg a b q Pq P2). rewrite <- E2. apply em_on, H. } rewrite Z4, M4 in M22. discriminate. }
  assert (NX : x <> x2).
  { intros ->. pose proof (esum_ec_sum a b q Pq P2 _ _ H H2) as S0. rewrite C3 in S0. 
    assert (E : y = y2 \/ y = (- y2) mod q).
    { inversion S0; subst; [exfalso; match goal with D : ~ (q | _ - _) |- _ => apply D; rewrite Z.sub_diag; apply Z.divide_0_r end|]. left; reflexivity. }
    assert (Q4 : EM 4 P = ec_neg q (Some (x2, (- y2) mod q)) \/ EM 4 P = ec_neg q (Some (x2, y2))) by (destruct E as [-> | E]; [right; exact M4|left; rewrite M4; unfold P; rewrite E; reflexivity]).
    assert (I1 : P = Some (x2, y2) \/ P = ec_neg q (Some (x2, y2))) by (destruct E as [-> | E]; [left; reflexivity|right; unfold P; cbn [ec_neg]; rewrite E; reflexivity]).
    destruct I1 as [I1|I1].
    - assert (EM 1 P = None); [|rewrite em_1 in * by exact H; discriminate]. 
      assert (X : OP P P = P) by (rewrite <- (em_1 P H) at 1 2; rewrite <- add_m by exact H; change (1 + 1)%nat with 2%nat; rewrite E2; symmetry; exact I1).
      assert (X3 : EM 3 P = P). { rewrite M3. change 3%nat with (1 + 2)%nat in M3. rewrite add_m, em_1, E2, <- I1, X in M3 by exact H. symmetry. rewrite <- I1. exact M3. }
      assert (X5 : EM 5 P = P). { change 5%nat with (2 + 3)%nat. rewrite add_m, E2, X3, <- I1 by exact H. exact X. } rewrite M in X5. discriminate.
    - rewrite I1 in C3. rewrite (esum_comm a b q Pq P2) in C3; [|rewrite <- I1; exact H|exact H2]. rewrite (esum_neg a b q Pq P2) in C3 by exact H2. discriminate. }
  destruct (chord x y x2 y2 x2 _ H H2 C3 NX) as (D1 & D2). split; [exact D1|]. split; [exact Y2|]. split.
  - rewrite D2. apply cg_of. ring.
  - rewrite <- E2. rewrite <- (emul_mul a b q Pq P2 NS) by exact H. rewrite Nat.mul_comm, (emul_mul a b q Pq P2 NS) by exact H. rewrite M. apply (emul_none a q Pq).
Qed.
Lemma cancel s u : ~ (q | s) -> (q | s * u) -> (q | u).
Proof. intros N D. destruct (prime_mult q Pq _ _ D); [contradiction|assumption]. Qed.
Lemma x_match x y X Y Xj s f w sj fj : ~ (q | s) -> ~ (q | sj) -> cg q f (X * (s * s)) -> cg q w (Y * (s * s * s)) -> cg q fj (Xj * (sj * sj)) ->
  (q | ((w - y * s ^ 3) ^ 2 - (f + x * s ^ 2) * (f - x * s ^ 2) ^ 2) * sj ^ 2 - fj * (s ^ 2 * (f - x * s ^ 2) ^ 2)) ->
  cg q ((Y - y) * (Y - y)) ((X + x + Xj) * ((X - x) * (X - x))).
Proof.
  intros Ns Nj Ef Ew Ej D.
  assert (D2 : cg q (s * (s * (s * (s * (s * (s * (sj * (sj * ((Y - y) * (Y - y) - (X + x + Xj) * ((X - x) * (X - x)))))))))))  0).
  { apply cg_0 in D. rewrite <- D. replace (((w - y * s ^ 3) ^ 2 - (f + x * s ^ 2) * (f - x * s ^ 2) ^ 2) * sj ^ 2 - fj * (s ^ 2 * (f - x * s ^ 2) ^ 2))
      with (((w - y * (s * s * s)) * (w - y * (s * s * s)) - (f + x * (s * s)) * ((f - x * (s * s)) * (f - x * (s * s)))) * (sj * sj) - fj * (s * s * ((f - x * (s * s)) * (f - x * (s * s))))) by ring.
    rewrite Ef, Ew, Ej. apply cg_of. ring. }
  apply cg_0 in D2. do 6 (apply cancel in D2; [|exact Ns]). do 2 (apply cancel in D2; [|exact Nj]). exact D2.
Qed.
Lemma y_match x y X Y Yj s f w sj wj : ~ (q | s) -> ~ (q | sj) -> cg q f (X * (s * s)) -> cg q w (Y * (s * s * s)) -> cg q wj (Yj * (sj * sj * sj)) ->
  (let d := w - y * s ^ 3 in let e := - f + 2 * x * s ^ 2 in let g := f - x * s ^ 2 in
   (q | (d * (e * g ^ 2 - d ^ 2) - y * s ^ 3 * g ^ 3) * s * sj ^ 3 - wj * (s ^ 3 * g ^ 3 * s))) ->
  cg q ((Y - y) * ((2 * x - X) * ((X - x) * (X - x)) - (Y - y) * (Y - y)) - y * ((X - x) * (X - x) * (X - x))) (Yj * ((X - x) * (X - x) * (X - x))).
Proof.
  intros Ns Nj Ef Ew Ej D. cbv zeta in D.
  assert (D2 : cg q (s * (s * (s * (s * (s * (s * (s * (s * (s * (s * (sj * (sj * (sj * ((Y - y) * ((2 * x - X) * ((X - x) * (X - x)) - (Y - y) * (Y - y)) - y * ((X - x) * (X - x) * (X - x)) - Yj * ((X - x) * (X - x) * (X - x)))))))))))))))) 0).
  { apply cg_0 in D. rewrite <- D.
    match goal with |- cg q _ ?r => replace r with (((w - y * (s * s * s)) * ((- f + 2 * x * (s * s)) * ((f - x * (s * s)) * (f - x * (s * s))) - (w - y * (s * s * s)) * (w - y * (s * s * s))) -
       y * (s * s * s) * ((f - x * (s * s)) * (f - x * (s * s)) * (f - x * (s * s)))) * s * (sj * sj * sj) - wj * (s * s * s * ((f - x * (s * s)) * (f - x * (s * s)) * (f - x * (s * s))) * s)) by ring end.
    rewrite Ef, Ew, Ej. apply cg_of. ring. }
  apply cg_0 in D2. do 10 (apply cancel in D2; [|exact Ns]). do 3 (apply cancel in D2; [|exact Nj]). exact D2.
Qed.
Lemma curve_pt x y : on (Some (x, y)) -> (q | y ^ 2 - (x ^ 3 + a * x + b)).
Proof. intros (_ & _ & C). replace (y ^ 2 - (x ^ 3 + a * x + b)) with (y * y - (x * x * x + a * x + b)) by ring. exact C. Qed.
Lemma psi_l_val l x y r r' : l = 3 \/ l = 5 -> on (Some (x, y)) -> EM (Z.to_nat l) (Some (x, y)) = None -> psi a b l = Ok r -> p_rem_i32 r q = Ok r' -> only_x r' /\ vl q x y r' 0.
Proof.
  intros Hl H M E E'. assert (Ho : Z.odd l = true) by (destruct Hl as [-> | ->]; reflexivity). destruct (c48_psi_odd a b l ltac:(lia) Ho) as (r0 & E0 & Sr & Ox). assert (r0 = r) as -> by congruence.
  pose proof (prime_ge_2 q Pq). assert (R : r' = redp q r) by (unfold p_rem_i32 in E'; rewrite p_rem_eq in E' by (try lia; exact Sr); congruence). split.
  - subst r'. intros m c I. revert m c I. apply (redp_keys (fun m => 0 <= mx m /\ my m = 0 /\ mq m = 0 /\ mv m = None)). exact Ox.
  - apply (vl_rem q x y Pq r r' 0 E'). apply (vl_cong q x y r (fval x y r)); [apply (psi_vl a b q x y l r); [lia|exact E]|]. rewrite Z.sub_0_r.
    destruct H as (Hx & Hy & C). apply (torsion_iff a b q x y Pq P2 NS Hx Hy C (Z.to_nat l)) in M; [|lia|lia]. rewrite (pv_Z a b x y l r ltac:(lia) E) in M. exact M.
Qed.
Lemma i32_pow2 s : i32_pow q 2 = Ok s -> s = q ^ 2 /\ 0 <= s <= i32_max.
Proof.
  unfold i32_pow. intros H. change (2 =? 0) with false in H. cbv iota in H. destruct (pow_loop_sound (halvings 2) 2 q 1 ltac:(lia) ltac:(lia)) as [E|(E & R)]; rewrite H in E; [discriminate|].
  assert (s = 1 * q ^ 2) as -> by congruence. rewrite Z.mul_1_l in *. pose proof (Z.pow_nonneg q 2). pose proof (prime_ge_2 q Pq). unfold i32_range in R. split; [reflexivity|]. lia.
Qed.

Lemma inv_mod s : ~ (q | s) -> exists i, cg q (i * s) 1.
Proof.
  intros N. pose proof (prime_rel_prime q Pq s N) as R. destruct (rel_prime_bezout _ _ R) as [u v E]. exists v, (- u). lia.
Qed.
Lemma cancel_l s u v : ~ (q | s) -> cg q (s * u) (s * v) -> cg q u v.
Proof. intros N D. apply (cancel s); [exact N|]. unfold cg in D. rewrite <- Z.mul_sub_distr_l in D. exact D. Qed.
Lemma n2 : ~ (q | 2).
Proof. intros D. apply Z.divide_pos_le in D; [|lia]. pose proof (prime_ge_2 q Pq). lia. Qed.
(** What the congruence of the y-coordinates says for q = 2 and q = 3 modulo 5. *)
Definition ysign x y X Y Yj : Prop :=
  cg q ((Y - y) * ((2 * x - X) * ((X - x) * (X - x)) - (Y - y) * (Y - y)) - y * ((X - x) * (X - x) * (X - x))) (Yj * ((X - x) * (X - x) * (X - x))).
Lemma slope x y X Y K : ~ (q | X - x) -> cg q ((Y - y) * (Y - y)) (K * ((X - x) * (X - x))) -> exists L, cg q (L * (X - x)) (Y - y) /\ cg q (L * L) K.
Proof.
  intros N H. destruct (inv_mod _ N) as (i & Hi). exists (i * (Y - y)).
  assert (E : cg q (i * (Y - y) * (X - x)) (Y - y)). { transitivity (i * (X - x) * (Y - y)); [apply cg_of; ring|]. rewrite Hi. apply cg_of. ring. }
  split; [exact E|]. apply (cancel_l (X - x)); [exact N|]. apply (cancel_l (X - x)); [exact N|].
  transitivity ((i * (Y - y) * (X - x)) * (i * (Y - y) * (X - x))); [apply cg_of; ring|]. rewrite E. rewrite H. apply cg_of. ring.
Qed.
Lemma half1 x y X Y Yj : ~ (q | X - x) -> cg q Yj Y -> cg q ((Y - y) * (Y - y)) ((x + 2 * X) * ((X - x) * (X - x))) -> ysign x y X Y Yj ->
  exists L, cg q (L * (X - x)) (Y - y) /\ cg q (L * L) (x + 2 * X) /\ cg q Y (- (L * X)).
Proof.
  intros N EY H D. destruct (slope x y X Y _ N H) as (L & E1 & E2). exists L. split; [exact E1|]. split; [exact E2|]. unfold ysign in D. rewrite EY in D.
  assert (E3 : cg q (L * (2 * x - X - L * L) - y) Y).
  { apply (cancel_l (X - x)); [exact N|]. apply (cancel_l (X - x)); [exact N|]. apply (cancel_l (X - x)); [exact N|].
    transitivity (Y * ((X - x) * (X - x) * (X - x))); [|apply cg_of; ring]. rewrite <- D. rewrite <- E1. apply cg_of. ring. }
  rewrite E2 in E3. apply (cancel_l 2); [exact n2|]. unfold cg in *. 
  replace (2 * Y - 2 * - (L * X)) with (- (L * (2 * x - X - (x + 2 * X)) - y - Y) - (L * (X - x) - (Y - y))) by ring.
  apply Z.divide_sub_r; [apply Z.divide_opp_r; exact E3|exact E1].
Qed.
Lemma half2 x y X Y Yj : ~ (q | X - x) -> cg q Yj y -> cg q ((Y - y) * (Y - y)) ((X + 2 * x) * ((X - x) * (X - x))) -> ysign x y X Y Yj ->
  exists L, cg q (L * (X - x)) (Y - y) /\ cg q (L * L) (X + 2 * x) /\ cg q y (- (L * X)).
Proof.
  intros N EY H D. destruct (slope x y X Y _ N H) as (L & E1 & E2). exists L. split; [exact E1|]. split; [exact E2|]. unfold ysign in D. rewrite EY in D.
  assert (E3 : cg q (L * (2 * x - X - L * L) - y) y).
  { apply (cancel_l (X - x)); [exact N|]. apply (cancel_l (X - x)); [exact N|]. apply (cancel_l (X - x)); [exact N|].
    transitivity (y * ((X - x) * (X - x) * (X - x))); [|apply cg_of; ring]. rewrite <- D. rewrite <- E1. apply cg_of. ring. }
  rewrite E2 in E3. apply (cancel_l 2); [exact n2|]. unfold cg in *. 
  replace (2 * y - 2 * - (L * X)) with (- (L * (2 * x - X - (X + 2 * x)) - y - y)) by ring. apply Z.divide_opp_r. exact E3.
Qed.
Lemma np r : prime r -> r <> q -> ~ (q | r).
Proof. intros Pr N D. pose proof (prime_ge_2 q Pq). pose proof (prime_ge_2 r Pr). destruct (prime_divisors r Pr q D) as [E|[E|[E|E]]]; lia. Qed.
Lemma quad7 x X : (7 | x * x - 3 * x * X + X * X) -> (7 | X).
Proof.
  intros D. assert (G : (((x mod 7) * (x mod 7) - 3 * (x mod 7) * (X mod 7) + (X mod 7) * (X mod 7)) mod 7 =? 0) = true).
  { apply Z.eqb_eq. apply Z.mod_divide; [lia|]. pose proof (Z.div_mod x 7 ltac:(lia)) as E. pose proof (Z.div_mod X 7 ltac:(lia)) as E'. set (u := x mod 7) in *. set (v := X mod 7) in *.
    clearbody u v. generalize dependent (x / 7). intros k E. generalize dependent (X / 7). intros k' E'.
    replace (u * u - 3 * u * v + v * v) with ((x * x - 3 * x * X + X * X) - 7 * (k * (x + u) - 3 * (k * X + u * k') + k' * (X + v))) by (rewrite E, E'; ring).
    apply Z.divide_sub_r; [exact D|apply Z.divide_factor_l]. }
  apply Z.mod_divide; [lia|]. pose proof (Z.mod_pos_bound x 7 ltac:(lia)) as B. pose proof (Z.mod_pos_bound X 7 ltac:(lia)) as B'. revert G. generalize (x mod 7) (X mod 7) B B'. clear. intros u v B B' G.
  assert (F : forallb (fun u => forallb (fun v => implb ((u * u - 3 * u * v + v * v) mod 7 =? 0) (v =? 0)) [0;1;2;3;4;5;6]) [0;1;2;3;4;5;6] = true) by (vm_compute; reflexivity).
  rewrite forallb_forall in F. assert (IU : In u [0;1;2;3;4;5;6]) by (cbn; lia). specialize (F u IU). cbv beta in F. rewrite forallb_forall in F. assert (IV : In v [0;1;2;3;4;5;6]) by (cbn; lia). specialize (F v IV). cbv beta in F. rewrite G in F. cbn [implb] in F. lia.
Qed.
Lemma no_sign2 x y X Y L M : q <> 5 -> ~ (q | X - x) -> ~ (q | Y) ->
  cg q (L * (X - x)) (Y - y) -> cg q (L * L) (x + 2 * X) -> cg q Y (- (L * X)) ->
  cg q (M * (x - X)) (- y - Y) -> cg q (M * M) (X + 2 * x) -> cg q (- y) (- (M * x)) -> False.
Proof.
  intros N5 Ns NY E1 E2 E3 F1 F2 F3. 
  assert (NL : ~ (q | L)). { intros D. apply NY. apply cg_0. rewrite E3. apply cg_0 in D. rewrite D. reflexivity. }
  assert (NX : ~ (q | X)). { intros D. apply NY. apply cg_0. rewrite E3. apply cg_0 in D. rewrite D. apply cg_of. ring. }
  assert (G1 : cg q y (L * (x - 2 * X))). { transitivity (Y - (Y - y)); [apply cg_of; ring|]. rewrite <- E1. rewrite E3. apply cg_of. ring. }
  assert (G2 : cg q (M * (X - x)) (L * (x - 3 * X))). { transitivity (- (M * (x - X))); [apply cg_of; ring|]. rewrite F1, E3, G1. apply cg_of. ring. }
  assert (G3 : cg q (M * x) y) by (transitivity (- - (M * x)); [apply cg_of; ring|]; rewrite <- F3; apply cg_of; ring).
  assert (T : cg q (x * x - 3 * x * X + X * X) 0).
  { apply (cancel_l 2); [exact n2|]. apply (cancel_l L); [exact NL|]. transitivity ((L * (x - 3 * X)) * x - (L * (x - 2 * X)) * (X - x)); [apply cg_of; ring|].
    rewrite <- G2, <- G1, <- G3. apply cg_of. ring. }
  assert (R : cg q (7 * (X * (X * (2 * x - 3 * X)))) 0).
  { transitivity ((X + 2 * x) * ((X - x) * (X - x)) - (x + 2 * X) * ((x - 3 * X) * (x - 3 * X)) - (x + 4 * X) * (x * x - 3 * x * X + X * X)); [apply cg_of; ring|]. rewrite T. rewrite <- F2, <- E2.
    transitivity ((M * (X - x)) * (M * (X - x)) - (L * (x - 3 * X)) * (L * (x - 3 * X))); [apply cg_of; ring|]. rewrite G2. apply cg_of. ring. }
  apply cg_0 in R. destruct (Z.eq_dec q 7) as [E7|N7].
  - apply NX. rewrite E7. apply (quad7 x). rewrite <- E7. apply cg_0. exact T.
  - apply cancel in R; [|apply np; [apply is_prime_spec; reflexivity|lia]]. do 2 (apply cancel in R; [|exact NX]).
    assert (K : (q | 5 * (X * X))). 
    { apply cg_0. transitivity ((2 * x - 3 * X) * (2 * x - 3 * X) - 4 * (x * x - 3 * x * X + X * X)); [apply cg_of; ring|]. rewrite T. apply cg_0 in R. rewrite R. apply cg_of. ring. }
    apply cancel in K; [|apply np; [apply is_prime_spec; reflexivity|lia]]. apply cancel in K; [|exact NX]. exact (NX K).
Qed.
Lemma no_sign3 x y X Y L M : ~ (q | X - x) -> ~ (q | Y) ->
  cg q (L * (X - x)) (- Y - y) -> cg q (L * L) (X + 2 * x) -> cg q y (- (L * X)) ->
  cg q (M * (x - X)) (y - Y) -> cg q (M * M) (x + 2 * X) -> cg q Y (- (M * x)) -> False.
Proof.
  intros Ns NY E1 E2 E3 F1 F2 F3. 
  assert (Nx : ~ (q | x)). { intros D. apply NY. apply cg_0. rewrite F3. apply cg_0 in D. rewrite D. apply cg_of. ring. }
  assert (G : cg q (x * L) (x * - M)). { transitivity (- (M * x)); [|apply cg_of; ring]. rewrite <- F3. transitivity (- (L * X - L * x) + L * X); [apply cg_of; ring|].
    transitivity (- (L * (X - x)) + L * X); [apply cg_of; ring|]. rewrite E1. transitivity (Y + y - - (L * X)); [apply cg_of; ring|]. rewrite <- E3. apply cg_of. ring. }
  apply cancel_l in G; [|exact Nx]. apply Ns. apply cg_0. transitivity (M * M - L * L); [rewrite E2, F2; apply cg_of; ring|]. rewrite G. apply cg_of. ring.
Qed.
(** One run of the loop body, seen from one point of order l. *)
Ltac bd H z Hz := apply bind_Ok in H; destruct H as (z & Hz & H).
Lemma run l fuel m x y X Y : l = 3 \/ l = 5 -> on (Some (x, y)) -> EM (Z.to_nat l) (Some (x, y)) = None -> 1 <= q mod l -> EM (Z.to_nat (q mod l)) (Some (x, y)) = Some (X, Y) ->
  (forall w, find_w l (q mod l) (zrange 1 l) <> Some w) -> schoof_l fuel a b q l = Ok m ->
  mr_l m = l /\ (mr_r m = 0 \/ exists j Xj Yj, 1 <= j <= Z.quot (l - 1) 2 /\ EM (Z.to_nat j) (Some (x, y)) = Some (Xj, Yj) /\
    cg q ((Y - y) * (Y - y)) ((X + x + Xj) * ((X - x) * (X - x))) /\ (mr_r m = l - j \/ mr_r m = j /\ ysign x y X Y Yj)).
Proof.
  intros Hl H M Hq MX Nw R. unfold schoof_l in R. bd R q2' Hq2. apply i32_pow2 in Hq2. bd R nd Hn. destruct nd as (num1 & den1). bd R ps Hp. bd R psl Hpl. bd R fj Hf.
  assert (Hl5 : q mod l < l) by (apply Z.mod_pos_bound; lia). pose proof (curve_pt _ _ H) as Hc.
  destruct (dp_values x y (q mod l) X Y H ltac:(lia) MX) as (s & f & w & Es & Ef & Ew & Ns & Vf & Vw).
  destruct (psi_l_val l x y ps psl Hl H M Hp Hpl) as (Ol & Vl).
  destruct (num1_den1_val a b q x y Pq Hc q2' Hq2 (q mod l) s f w num1 den1 ltac:(lia) Es Ef Ew Hn) as (V1 & V2).
  destruct fj as [j|].
  - assert (Jr : forall k, In k (zrange 1 ((l - 1) ÷ 2 + 1)) -> 1 <= k <= 5) by (intros k Ik; apply in_zrange in Ik; destruct Hl as [-> | ->]; cbn in Ik; lia).
    destruct (find_j_val a b q x y Pq Hc fuel num1 den1 psl _ _ Ol Vl V1 V2 _ j Jr Hf) as (Ij & sj & fj & Esj & Efj & D).
    apply in_zrange in Ij. assert (Bj : 1 <= j <= 5 /\ j < l) by (destruct Hl as [-> | ->]; cbn in Ij; lia).
    assert (Nj : exists Xj Yj, EM (Z.to_nat j) (Some (x, y)) = Some (Xj, Yj)).
    { destruct (EM (Z.to_nat j) (Some (x, y))) as [[Xj Yj]|] eqn:Ej; [eauto|]. exfalso.
      assert (j = 1 \/ j = 2 /\ l = 5) as [-> |(-> & ->)] by (destruct Hl as [-> | ->]; cbn in Ij; lia).
      - change (Z.to_nat 1) with 1%nat in Ej. rewrite em_1 in Ej by exact H. discriminate.
      - destruct (ord5 x y H M) as (? & ? & _ & M2 & _). change (Z.to_nat 2) with 2%nat in Ej. congruence. }
    destruct Nj as (Xj & Yj & Mj). destruct (dp_values x y j Xj Yj H ltac:(lia) Mj) as (s1 & f1 & w1 & Es1 & Ef1 & Ew1 & Ns1 & Vf1 & Vw1).
    assert (s1 = sj) as -> by congruence. assert (f1 = fj) as -> by congruence.
    assert (B1 : 1 <= q mod l <= 5) by (clear - Hl Hq Hl5; lia). destruct (found_val a b q x y Pq Hc q2' Hq2 fuel l (q mod l) psl j m s f w B1 (proj1 Bj) (proj2 Bj) Ol Vl Es Ef Ew R) as (L1 & L2).
    split; [exact L1|]. right. exists j, Xj, Yj. split; [lia|]. split; [exact Mj|]. split; [exact (x_match x y X Y Xj _ _ _ _ _ Ns Ns1 Vf Vw Vf1 D)|].
    destruct L2 as [L2|(L2 & psj & omj & Ep & Eo & D2)]; [left; exact L2|]. right. split; [exact L2|]. assert (psj = sj) as -> by congruence. assert (omj = w1) as -> by congruence.
    exact (y_match x y X Y Yj _ _ _ _ _ Ns Ns1 Vf Vw Vw1 D2).
  - unfold schoof_not_found in R. destruct (find_w l (q mod l) (zrange 1 l)) as [w0|] eqn:Ew0; [exfalso; exact (Nw w0 eq_refl)|]. assert (m = mkMod l 0) as -> by congruence. split; [reflexivity|left; reflexivity].
Qed.
Lemma res5 fuel m x y : on (Some (x, y)) -> EM 5 (Some (x, y)) = None -> q mod 5 = 2 \/ q mod 5 = 3 -> schoof_l fuel a b q 5 = Ok m -> mr_l m = 5 /\ (mr_r m = 0 \/ mr_r m = (q + 1) mod 5).
Proof.
  intros H M Hq R. pose proof (prime_ge_2 q Pq) as Q2. destruct (ord5 x y H M) as (x2 & y2 & H2 & M2 & M3 & M4 & Nx & Ny2 & F1 & M5').
  destruct (ord5 x2 y2 H2 M5') as (x4 & y4 & H4 & N2 & N3 & N4 & Nx' & Ny4 & F2 & _).
  assert (E4 : EM 4 (Some (x, y)) = EM 2 (Some (x2, y2))). { rewrite <- M2. rewrite <- (emul_mul a b q Pq P2 NS) by exact H. reflexivity. }
  rewrite M4, N2 in E4. assert (x4 = x) as -> by congruence. assert (Ey4 : y4 = (- y) mod q) by congruence. clear E4. pose proof (neg_mod y) as Cy4. rewrite <- Ey4 in Cy4.
  pose proof (neg_mod y2) as Cy2. pose proof (neg_mod y4) as Cy4'.
  assert (Nq5 : q <> 5) by (intros ->; destruct Hq; discriminate).
  assert (Nw : forall w, find_w 5 (q mod 5) (zrange 1 5) <> Some w) by (intros w; destruct Hq as [-> | ->]; discriminate).
  assert (Eq1 : (q + 1) mod 5 = q mod 5 + 1) by (rewrite <- Z.add_mod_idemp_l by lia; apply Z.mod_small; destruct Hq; lia).
  assert (J : forall j, 1 <= j <= Z.quot (5 - 1) 2 -> j = 1 \/ j = 2) by (intros j Hj; change (Z.quot (5 - 1) 2) with 2 in Hj; lia).
  assert (UX : forall u v w, cg q ((u + v) * ((x2 - x) * (x2 - x))) ((u + w) * ((x2 - x) * (x2 - x))) -> cg q v w).
  { intros u v w E. apply (cancel_l (x2 - x)); [exact Nx|]. apply (cancel_l (x2 - x)); [exact Nx|]. unfold cg in *. match goal with |- (q | ?g) => match type of E with (q | ?e) => replace g with e by ring end end. exact E. }
  assert (U1 : forall z1 z2, EM (Z.to_nat 1) (Some (x, y)) = Some (z1, z2) -> z1 = x /\ z2 = y) by (intros z1 z2 E; change (Z.to_nat 1) with 1%nat in E; rewrite em_1 in E by exact H; split; congruence).
  assert (U2 : forall z1 z2, EM (Z.to_nat 2) (Some (x, y)) = Some (z1, z2) -> z1 = x2 /\ z2 = y2) by (intros z1 z2 E; change (Z.to_nat 2) with 2%nat in E; split; congruence).
  assert (W1 : forall z1 z2, EM (Z.to_nat 1) (Some (x2, y2)) = Some (z1, z2) -> z1 = x2 /\ z2 = y2) by (intros z1 z2 E; change (Z.to_nat 1) with 1%nat in E; rewrite em_1 in E by exact H2; split; congruence).
  assert (W2 : forall z1 z2, EM (Z.to_nat 2) (Some (x2, y2)) = Some (z1, z2) -> z1 = x /\ z2 = y4) by (intros z1 z2 E; change (Z.to_nat 2) with 2%nat in E; split; congruence).
  destruct Hq as [Hq|Hq].
  - destruct (run 5 fuel m x y x2 y2 (or_intror eq_refl) H M ltac:(lia)) as (Lm & R1); [rewrite Hq; exact M2|exact Nw|exact R|].
    destruct (run 5 fuel m x2 y2 x y4 (or_intror eq_refl) H2 M5' ltac:(lia)) as (_ & R2); [rewrite Hq; exact N2|exact Nw|exact R|].
    split; [exact Lm|]. rewrite Eq1, Hq. destruct R1 as [R1|(j & Xj & Yj & Bj & Mj & Ex & S1)]; [left; exact R1|]. destruct R2 as [R2|(k & Xk & Yk & Bk & Mk & Ex' & S2)]; [left; exact R2|]. right.
    destruct (J j Bj) as [-> | ->].
    { exfalso. destruct (U1 _ _ Mj) as (-> & ->). rewrite F1 in Ex. apply Nx. apply (UX (x + x2) x2 x). unfold cg in *. match goal with |- (q | ?g) => match type of Ex with (q | ?e) => replace g with e by ring end end. exact Ex. }
    destruct S1 as [S1|(S1 & Y1)]; [lia|]. destruct (J k Bk) as [-> | ->]; [destruct S2 as [S2|(S2 & _)]; lia|]. destruct S2 as [S2|(S2 & Y2)]; [lia|]. exfalso.
    destruct (U2 _ _ Mj) as (-> & ->). destruct (W2 _ _ Mk) as (-> & ->).
    destruct (half1 x y x2 y2 y2 Nx ltac:(reflexivity) F1 Y1) as (L & A1 & A2 & A3). destruct (half1 x2 y2 x y4 y4 Nx' ltac:(reflexivity) F2 Y2) as (K & B1 & B2 & B3). rewrite Cy4 in B1, B3.
    exact (no_sign2 x y x2 y2 L K Nq5 Nx Ny2 A1 A2 A3 B1 B2 B3).
  - destruct (run 5 fuel m x y x2 ((- y2) mod q) (or_intror eq_refl) H M ltac:(lia)) as (Lm & R1); [rewrite Hq; exact M3|exact Nw|exact R|].
    destruct (run 5 fuel m x2 y2 x ((- y4) mod q) (or_intror eq_refl) H2 M5' ltac:(lia)) as (_ & R2); [rewrite Hq; exact N3|exact Nw|exact R|].
    split; [exact Lm|]. rewrite Eq1, Hq. destruct R1 as [R1|(j & Xj & Yj & Bj & Mj & Ex & S1)]; [left; exact R1|]. destruct R2 as [R2|(k & Xk & Yk & Bk & Mk & Ex' & S2)]; [left; exact R2|]. right.
    assert (G1 : cg q (((- y2) mod q - y) * ((- y2) mod q - y)) ((x2 + 2 * x) * ((x2 - x) * (x2 - x)))). { rewrite Cy2. transitivity ((y4 - y2) * (y4 - y2)); [rewrite Cy4; apply cg_of; ring|]. rewrite F2. apply cg_of. ring. }
    assert (G2 : cg q (((- y4) mod q - y2) * ((- y4) mod q - y2)) ((x + 2 * x2) * ((x - x2) * (x - x2)))). { rewrite Cy4'. rewrite Cy4. transitivity ((y2 - y) * (y2 - y)); [apply cg_of; ring|]. rewrite F1. apply cg_of. ring. }
    destruct (J j Bj) as [-> | ->].
    2:{ exfalso. destruct (U2 _ _ Mj) as (-> & ->). rewrite G1 in Ex. apply Nx. apply (UX (x + x2) x2 x). unfold cg in *. match goal with |- (q | ?g) => match type of Ex with (q | ?e) => replace g with (- e) by ring end end. apply Z.divide_opp_r. exact Ex. }
    destruct S1 as [S1|(S1 & Y1)]; [lia|]. destruct (J k Bk) as [-> | ->]; [|destruct S2 as [S2|(S2 & _)]; lia]. destruct S2 as [S2|(S2 & Y2)]; [lia|]. exfalso.
    destruct (U1 _ _ Mj) as (-> & ->). destruct (W1 _ _ Mk) as (-> & ->).
    destruct (half2 x y x2 ((- y2) mod q) y Nx ltac:(reflexivity) G1 Y1) as (L & A1 & A2 & A3). destruct (half2 x2 y2 x ((- y4) mod q) y2 Nx' ltac:(reflexivity) G2 Y2) as (K & B1 & B2 & B3). rewrite Cy2 in A1. rewrite Cy4', Cy4, Z.opp_involutive in B1.
    exact (no_sign3 x y x2 y2 L K Nx Ny2 A1 A2 A3 B1 B2 B3).
Qed.
Lemma res3 fuel m x y : on (Some (x, y)) -> EM 3 (Some (x, y)) = None -> q mod 3 = 2 -> schoof_l fuel a b q 3 = Ok m -> m = mkMod 3 0.
Proof.
  intros H M Hq R. pose proof (prime_ge_2 q Pq) as Q2. set (P := Some (x, y)) in *.
  assert (M2 : EM 2 P = ec_neg q P). { apply op_none; [exact H|apply em_on, H|]. rewrite <- M. change 3%nat with (1 + 2)%nat. rewrite add_m, em_1 by exact H. reflexivity. }
  assert (Ny : ~ (q | y)).
  { intros D. destruct H as (Hx & Hy & HC). assert (y = 0) as ->. { rewrite <- (Z.mod_small y q Hy). apply Z.mod_divide; [lia|exact D]. }
    assert (N0 : ec_neg q P = P) by (unfold P, ec_neg; rewrite Z.opp_0, Z.mod_0_l by lia; reflexivity). assert (H : on P) by (split; auto).
    change 2%nat with (1 + 1)%nat in M2. rewrite add_m, em_1 in M2 by exact H. rewrite <- N0 in M2 at 2. rewrite (esum_neg a b q Pq P2) in M2 by exact H. discriminate. }
  unfold P in M2. cbn [ec_neg] in M2.
  destruct (run 3 fuel m x y x ((- y) mod q) (or_introl eq_refl) H M ltac:(lia)) as (Lm & R1); [rewrite Hq; exact M2|intros w; rewrite Hq; discriminate|exact R|].
  destruct R1 as [R1|(j & Xj & Yj & Bj & Mj & Ex & _)]; [destruct m; cbn in *; congruence|]. exfalso. pose proof (neg_mod y) as Cy. rewrite Cy in Ex.
  apply Ny. apply (cancel 2); [exact n2|]. assert (D : (q | (2 * y) * (2 * y))). { apply cg_0. transitivity ((- y - y) * (- y - y)); [apply cg_of; ring|]. rewrite Ex. apply cg_of. ring. }
  destruct (prime_mult q Pq _ _ D); assumption.
Qed.
End Five.

(** A listed point of prime order l, as an affine point. *)
Lemma order_point a b q E l (HEl : elliptic a b q) : ec_new a b q = Ok E -> prime l -> (l | cardinality E) -> exists x y, on_curve a b q (Some (x, y)) /\ emul a q (proj1 HEl) (Z.to_nat l) (Some (x, y)) = None.
Proof.
  intros HE Pl D. pose proof (prime_ge_2 l Pl). assert (Nl : nprime (Z.to_nat l)) by (unfold nprime; rewrite Z2Nat.id by lia; exact Pl).
  destruct (i_cauchy a b q E HEl HE (Z.to_nat l) Nl) as (P & HP & OP); [apply divide_Z; rewrite Z2Nat.id by lia; rewrite <- (i_card q E); exact D|].
  destruct OP as (_ & M & Min). destruct P as [[x y]|].
  - exists x, y. split; [exact HP|]. rewrite (i_mul a b q HEl) in M. exact M.
  - exfalso. assert (D1 : Nat.divide (Z.to_nat l) 1) by (apply Min; apply (mul_e apoint (esum a q (proj1 HEl)) None (on_curve a b q) I (i_el a b q HEl))). apply Nat.divide_pos_le in D1; lia.
Qed.
(** C102: on a curve with a rational point of order 3 over GF(q), q = 2 mod 3, q > 3, the residue for 3 that schoof reports is right (and is 0). *)
Lemma c102_three : forall fuel a b q E L, elliptic a b q -> ec_new a b q = Ok E -> 3 < q -> q mod 3 = 2 -> (3 | cardinality E) -> schoof fuel a b q = Ok L ->
  In (mkMod 3 0) L /\ (3 | q + 1 - cardinality E - 0).
Proof.
  intros fuel a b q E L HEl HE Hq Q3 D H. split.
  2:{ rewrite Z.sub_0_r. apply Z.divide_sub_r; [|exact D]. apply Z.mod_divide; [lia|]. rewrite <- Z.add_mod_idemp_l, Q3 by lia. reflexivity. }
  destruct (order_point a b q E 3 HEl HE ltac:(apply is_prime_spec; reflexivity) D) as (x & y & HP & M).
  unfold schoof in H. apply bind_Ok in H. destruct H as (m2 & E2 & H). unfold schoof_loop in H. replace (q <=? 3) with false in H by lia.
  apply bind_Ok in H. destruct H as (m3 & E3 & H). apply (res3 a b q HEl fuel m3 x y HP M Q3) in E3. subst m3.
  destruct (q <=? 5); [assert (L = ([m2] ++ [mkMod 3 0])) as -> by congruence; right; left; reflexivity|].
  apply bind_Ok in H. destruct H as (m5 & _ & H). assert (L = (([m2] ++ [mkMod 3 0]) ++ [m5])) as -> by congruence. right; left; reflexivity.
Qed.
(** C102: on a curve with a rational point of order 5 over GF(q), q = 2 or 3 mod 5, q > 5, the residue for 5 is right or 0. *)
Lemma c102_five : forall fuel a b q E L, elliptic a b q -> ec_new a b q = Ok E -> 5 < q -> q mod 5 = 2 \/ q mod 5 = 3 -> (5 | cardinality E) -> schoof fuel a b q = Ok L ->
  exists r, In (mkMod 5 r) L /\ 0 <= r < 5 /\ (r = 0 \/ (5 | q + 1 - cardinality E - r)).
Proof.
  intros fuel a b q E L HEl HE Hq Q5 D H.
  destruct (order_point a b q E 5 HEl HE ltac:(apply is_prime_spec; reflexivity) D) as (x & y & HP & M).
  unfold schoof in H. apply bind_Ok in H. destruct H as (m2 & E2 & H). unfold schoof_loop in H. replace (q <=? 3) with false in H by lia. replace (q <=? 5) with false in H by lia.
  apply bind_Ok in H. destruct H as (m3 & E3 & H). apply bind_Ok in H. destruct H as (m5 & E5 & H). apply (res5 a b q HEl fuel m5 x y HP M Q5) in E5. destruct E5 as (L5 & R5).
  assert (L = (([m2] ++ [m3]) ++ [m5])) as -> by congruence. exists (mr_r m5). split; [right; right; left; destruct m5; cbn in *; congruence|]. pose proof (Z.mod_pos_bound (q + 1) 5 ltac:(lia)). split; [lia|].
  destruct R5 as [R5|R5]; [left; exact R5|right]. rewrite R5. replace (q + 1 - cardinality E - (q + 1) mod 5) with (q + 1 - (q + 1) mod 5 - cardinality E) by ring. apply Z.divide_sub_r; [|exact D].
  apply Z.mod_divide; [lia|]. rewrite Zminus_mod_idemp_r, Z.sub_diag. reflexivity.
Qed.
Example c102_case : exists E, elliptic 0 1 5 /\ ec_new 0 1 5 = Ok E /\ 5 mod 3 = 2 /\ (3 | cardinality E) /\ schoof 4000 0 1 5 = Ok [mkMod 2 1; mkMod 3 0].
Proof.
  assert (P5 : prime 5) by (apply is_prime_spec; reflexivity). destruct (ec_new 0 1 5) as [E| |] eqn:HE; [|discriminate|discriminate]. exists E.
  split; [split; [exact P5|split; [lia|intros (z & D); lia]]|]. split; [reflexivity|]. split; [reflexivity|]. split; [|vm_compute; reflexivity].
  exists 2. revert HE. vm_compute. intros HE. match type of HE with Ok ?e = _ => assert (E = e) as -> by congruence end. reflexivity.
Qed.
Example c102_case5 : exists E, elliptic 1 4 7 /\ ec_new 1 4 7 = Ok E /\ 7 mod 5 = 2 /\ (5 | cardinality E).
Proof.
  assert (P7 : prime 7) by (apply is_prime_spec; reflexivity). destruct (ec_new 1 4 7) as [E| |] eqn:HE; [|discriminate|discriminate]. exists E.
  split; [split; [exact P7|split; [lia|intros (z & D); lia]]|]. split; [reflexivity|]. split; [reflexivity|].
  exists 2. revert HE. vm_compute. intros HE. match type of HE with Ok ?e = _ => assert (E = e) as -> by congruence end. reflexivity.
Qed.
(** C78, the part that holds: on curves with rational l-torsion (q = 2 mod 3 for l = 3; q = 2, 3 mod 5 for l = 5) the reported residue is
    the trace modulo 3, and the trace modulo 5 or 0. *)
Lemma c78_residue_partial : forall fuel a b q E L, elliptic a b q -> ec_new a b q = Ok E -> schoof fuel a b q = Ok L ->
  (3 < q -> q mod 3 = 2 -> (3 | cardinality E) -> exists r, In (mkMod 3 r) L /\ (3 | q + 1 - cardinality E - r)) /\
  (5 < q -> q mod 5 = 2 \/ q mod 5 = 3 -> (5 | cardinality E) -> exists r, In (mkMod 5 r) L /\ (r = 0 \/ (5 | q + 1 - cardinality E - r))).
Proof.
  intros fuel a b q E L He En Es. split.
  - intros H3 M3 D3. exists 0. exact (c102_three fuel a b q E L He En H3 M3 D3 Es).
  - intros H5 M5 D5. destruct (c102_five fuel a b q E L He En H5 M5 D5 Es) as (r & Hi & _ & H). exists r. split; assumption.
Qed.
