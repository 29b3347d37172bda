(** Division polynomials: the elliptic divisibility relation for all M >= N as a polynomial identity, and psi_m | psi_(km). *)
From Coq Require Import Znumtheory ZifyBool Setoid Morphisms Ring.
From Verif Require Import Prelude M_Bigint M_Variable M_Term M_Poly M_DivPoly Spec P_Bigint P_Variable P_FSum P_Poly P_Rem P_PolyProps P_Subst P_Subst2 P_SubstProps P_DivPoly P_DivPoly2 P_DivPoly3 P_DivPoly4 P_DivProps P_NormalProps P_Eds2 P_DivVal P_DivUni P_DivUni2.
Open Scope Z_scope.

(** ** Polynomial functions of one integer variable *)
Lemma ispoly_pow' f e : 0 <= e -> ispoly f -> ispoly (fun s => f s ^ e).
Proof. intros He F. apply (ispoly_ext (fun s => f s ^ Z.of_nat (Z.to_nat e))); [intros s; rewrite Z2Nat.id by lia; reflexivity|apply ispoly_pow, F]. Qed.
Lemma ispoly_zero f : ispoly f -> (forall B, exists s, B < s /\ f s = 0) -> forall s, f s = 0.
Proof. intros P H s. destruct (Z.eq_dec (f s) 0) as [|N]; [assumption|]. exfalso. destruct (ispoly_large f s P N) as (B & HB). destruct (H B) as (s1 & L & E). exact (HB s1 L E). Qed.
Lemma ispoly_cancel f g : ispoly f -> ispoly g -> (exists s, f s <> 0) -> (forall s, f s * g s = 0) -> forall s, g s = 0.
Proof.
  intros F G (s0 & N) H. apply ispoly_zero; [exact G|]. intros B. destruct (ispoly_large f s0 F N) as (B' & HB). exists (Z.max B B' + 1). split; [lia|].
  specialize (H (Z.max B B' + 1)). apply Z.mul_eq_0 in H as [E|E]; [|exact E]. exfalso. apply (HB (Z.max B B' + 1)); [lia|exact E].
Qed.
Ltac poly := repeat first
  [ assumption | apply ispoly_const | apply ispoly_id
  | match goal with
    | |- ispoly (fun s => @?f s + @?g s) => apply ispoly_add
    | |- ispoly (fun s => @?f s - @?g s) => apply ispoly_sub
    | |- ispoly (fun s => @?f s * @?g s) => apply ispoly_mul
    | |- ispoly (Z.mul ?c) => change (ispoly (fun s => c * s)); apply (ispoly_mul (fun _ => c) (fun s => s))
    | |- ispoly (Z.add ?c) => change (ispoly (fun s => c + s)); apply (ispoly_add (fun _ => c) (fun s => s))
    | |- ispoly (fun s => @?f s ^ ?e) => apply (ispoly_pow' f e); [lia|]
    end ].

Lemma uv_poly_b a x n : 0 <= n -> n <= 65536 -> ispoly (fun b => uv a b x n).
Proof.
  revert n. apply (Zlt_0_ind (fun n => n <= 65536 -> ispoly (fun b => uv a b x n))). intros n IH H0 H1.
  destruct (Z_lt_le_dec n 5) as [Hlt|Hge].
  - assert (Hc: n = 0 \/ n = 1 \/ n = 2 \/ n = 3 \/ n = 4) by lia. destruct Hc as [-> | [-> | [-> | [-> | ->]]]].
    + apply (ispoly_ext (fun _ => 0)); [intros; reflexivity|poly].
    + apply (ispoly_ext (fun _ => 1)); [intros; rewrite uv_1; reflexivity|poly].
    + apply (ispoly_ext (fun _ => 1)); [intros; rewrite uv_2; reflexivity|poly].
    + eapply ispoly_ext; [intros s; symmetry; exact (uv_3 a s x)|poly].
    + eapply ispoly_ext; [intros s; symmetry; exact (uv_4 a s x)|poly].
  - destruct (Z.Even_or_Odd n) as [(m & ->)|(m & ->)].
    + eapply ispoly_ext; [intros s; symmetry; exact (uv_even a s x m ltac:(lia) H1)|]. pose proof (IH (m + 2) ltac:(lia) ltac:(lia)). pose proof (IH (m - 1) ltac:(lia) ltac:(lia)). pose proof (IH (m - 2) ltac:(lia) ltac:(lia)). pose proof (IH (m + 1) ltac:(lia) ltac:(lia)). pose proof (IH m ltac:(lia) ltac:(lia)). poly.
    + eapply ispoly_ext; [intros s; symmetry; exact (uv_odd a s x m ltac:(lia) H1)|]. pose proof (IH (m + 2) ltac:(lia) ltac:(lia)). pose proof (IH (m - 1) ltac:(lia) ltac:(lia)). pose proof (IH (m + 1) ltac:(lia) ltac:(lia)). pose proof (IH m ltac:(lia) ltac:(lia)). unfold dv. destruct (Z.odd m); poly.
Qed.
(** delta appears squared exactly when the parities differ. *)
Definition c1 (d M N : Z) : Z := if Z.odd M && negb (Z.odd N) then d ^ 2 else 1.
Definition c2 (d M N : Z) : Z := if negb (Z.odd M) && Z.odd N then d ^ 2 else 1.
Definition eds_def (a b x M N : Z) : Z :=
  uv a b x (M + N) * uv a b x (M - N) - (c1 (dv a b x) M N * (uv a b x (M + 1) * uv a b x (M - 1) * uv a b x N ^ 2) - c2 (dv a b x) M N * (uv a b x (N + 1) * uv a b x (N - 1) * uv a b x M ^ 2)).
Lemma eds_at_point a x y M N : y <> 0 -> 1 <= N <= M -> M + N <= 65536 -> eds_def a (bz a x y) x M N = 0.
Proof.
  intros Hy HN HM. set (b := bz a x y). pose proof (pv_eds_Z a x y (Z.to_nat N) (Z.to_nat (M - N)) Hy ltac:(lia) ltac:(lia)) as E. cbv zeta in E. fold b in E.
  assert (PV : forall n : nat, (Z.of_nat n <= 65536) -> pv a b x y n = (if Z.odd (Z.of_nat n) then 1 else 2 * y) * uv a b x (Z.of_nat n)).
  { intros n Hn. unfold pv. destruct (psi_Ok a b (Z.of_nat n) ltac:(lia)) as (r & Er & _). rewrite Er. apply uv_psi; [exact Er|lia]. }
  rewrite !PV in E by lia.
  replace (Z.of_nat (Z.to_nat N + Z.to_nat N + Z.to_nat (M - N))) with (M + N) in E by lia. replace (Z.of_nat (Z.to_nat (M - N))) with (M - N) in E by lia.
  replace (Z.of_nat (Z.to_nat N + Z.to_nat (M - N) + 1)) with (M + 1) in E by lia. replace (Z.of_nat (Z.to_nat N + Z.to_nat (M - N) - 1)) with (M - 1) in E by lia.
  replace (Z.of_nat (Z.to_nat N + Z.to_nat (M - N))) with M in E by lia. replace (Z.of_nat (Z.to_nat N + 1)) with (N + 1) in E by lia. replace (Z.of_nat (Z.to_nat N - 1)) with (N - 1) in E by lia. replace (Z.of_nat (Z.to_nat N)) with N in E by lia.
  assert (D : dv a b x = (2 * y) ^ 2) by (unfold dv, b, bz; ring). unfold eds_def, c1, c2. rewrite D.
  rewrite !Z.odd_add, !Z.odd_sub in E. change (Z.odd 1) with true in E. assert (N0 : (2 * y) * (2 * y) <> 0) by nia.
  destruct (Z.odd M), (Z.odd N); cbn [xorb negb andb] in *.
  - apply (Z.mul_reg_l _ 0 ((2 * y) * (2 * y)) N0). lia.
  - lia.
  - lia.
  - apply (Z.mul_reg_l _ 0 ((2 * y) * (2 * y)) N0). lia.
Qed.
Lemma uv_eds a b x M N : 1 <= N <= M -> M + N <= 65536 -> eds_def a b x M N = 0.
Proof.
  intros HN HM. revert b. apply ispoly_zero.
  - assert (P : forall n, 0 <= n <= 65536 -> ispoly (fun b => uv a b x n)) by (intros n Hn; apply uv_poly_b; lia).
    pose proof (P (M + N) ltac:(lia)). pose proof (P (M - N) ltac:(lia)). pose proof (P (M + 1) ltac:(lia)). pose proof (P (M - 1) ltac:(lia)). pose proof (P (N + 1) ltac:(lia)). pose proof (P (N - 1) ltac:(lia)). pose proof (P M ltac:(lia)). pose proof (P N ltac:(lia)).
    unfold eds_def, c1, c2, dv. destruct (Z.odd M && negb (Z.odd N)), (negb (Z.odd M) && Z.odd N); poly.
  - intros B. set (y := Z.abs B + Z.abs (x * x * x + a * x) + 1). exists (bz a x y). split; [unfold bz, y; nia|]. apply eds_at_point; [unfold y; lia|exact HN|exact HM].
Qed.

(** ** Polynomials in x are determined by their values *)
Fixpoint tolist (f : fsum) : list Z := match f with [] => [] | (m, c) :: r => ladd (repeat 0 (Z.to_nat (mx m)) ++ [c]) (tolist r) end.
Lemma evl_rep k c s : evl (repeat 0 k ++ [c]) s = c * s ^ Z.of_nat k.
Proof. induction k as [|k IH]; [cbn; ring|]. cbn [repeat app]. unfold evl in *. cbn [fold_right]. rewrite IH, Nat2Z.inj_succ, Z.pow_succ_r by lia. ring. Qed.
Lemma evl_tolist f x : only_x f -> evl (tolist f) x = fval x 0 f.
Proof.
  induction f as [|(m, c) f IH]; intros X; [reflexivity|]. cbn [tolist fval]. rewrite evl_add, evl_rep, IH by (intros k d I; apply (X k d); right; exact I).
  destruct (X m c (or_introl eq_refl)) as (H & E & _). unfold mval. rewrite E, Z2Nat.id by lia. ring.
Qed.
Lemma nth_ladd l : forall m i, nth i (ladd l m) 0 = nth i l 0 + nth i m 0.
Proof. induction l as [|c l IH]; intros m i; [destruct i; reflexivity|]. destruct m as [|d m]; [destruct i; cbn; lia|]. destruct i as [|i]; [reflexivity|]. cbn [ladd nth]. apply IH. Qed.
Lemma nth_rep k c i : nth i (repeat 0 k ++ [c]) 0 = if (i =? k)%nat then c else 0.
Proof.
  revert i. induction k as [|k IH]; intros i; [destruct i as [|[|i]]; reflexivity|]. destruct i as [|i]; [reflexivity|]. cbn [repeat app nth Nat.eqb]. apply IH.
Qed.
Lemma nth_tolist f i : only_x f -> nth i (tolist f) 0 = coef f (mkMono (Z.of_nat i) 0 0 None).
Proof.
  induction f as [|(m, c) f IH]; intros X; [destruct i; reflexivity|]. cbn [tolist coef]. rewrite nth_ladd, nth_rep, IH by (intros k d I; apply (X k d); right; exact I). f_equal.
  destruct (X m c (or_introl eq_refl)) as (H & E & E' & E''). destruct m as [m1 m2 m3 m4]. cbn [mx my mq mv] in *. subst.
  assert (Q : (i =? Z.to_nat m1)%nat = mono_eqb (mkMono m1 0 0 None) (mkMono (Z.of_nat i) 0 0 None)).
  { apply Bool.eq_iff_eq_true. rewrite Nat.eqb_eq, mono_eqb_eq. split; [intros ->; f_equal; lia|intros E; injection E; lia]. }
  rewrite Q. reflexivity.
Qed.
Lemma evl_zero l : (forall s, evl l s = 0) -> forall i, nth i l 0 = 0.
Proof.
  induction l as [|c l IH]; intros H i; [destruct i; reflexivity|]. unfold evl in H. cbn [fold_right] in H. fold (evl l) in H.
  assert (c = 0) as -> by (specialize (H 0); lia). destruct i as [|i]; [reflexivity|]. cbn [nth]. apply IH. apply (ispoly_zero (evl l)); [exists l; reflexivity|].
  intros B. exists (Z.max B 0 + 1). split; [lia|]. specialize (H (Z.max B 0 + 1)). apply (Z.mul_reg_l _ 0 (Z.max B 0 + 1)); [lia|]. change (fold_right (fun c r => c + (Z.max B 0 + 1) * r) 0 l) with (evl l (Z.max B 0 + 1)) in H. lia.
Qed.
Lemma only_zero f : only_x f -> (forall x, fval x 0 f = 0) -> feq f [].
Proof.
  intros X H m. cbn [coef]. destruct (Z.eq_dec (coef f m) 0) as [|N]; [assumption|]. exfalso. destruct (coef_in f m N) as (c & I). destruct (X m c I) as (H1 & H2 & H3 & H4). destruct m as [m1 m2 m3 m4]. cbn [mx my mq mv] in *. subst.
  apply N. rewrite <- (Z2Nat.id m1) by lia. rewrite <- nth_tolist by exact X. apply evl_zero. intros s. rewrite evl_tolist by exact X. apply H.
Qed.
Lemma only_ext f g : only_x f -> only_x g -> (forall x, fval x 0 f = fval x 0 g) -> feq f g.
Proof. intros F G H. assert (E : feq (fsub f g) []) by (apply only_zero; [apply only_sub; assumption|]; intros x; rewrite fval_sub, H; ring). transitivity (fadd (fsub f g) g); [ring|]. rewrite E. ring. Qed.
Fixpoint ofl (i : nat) (l : list Z) : fsum := match l with [] => [] | c :: r => (mkMono (Z.of_nat i) 0 0 None, c) :: ofl (S i) r end.
Lemma ofl_only l : forall i, only_x (ofl i l).
Proof. induction l as [|c l IH]; intros i m d I; [destruct I|]. destruct I as [E|I]; [injection E as <- _; cbn; repeat split; lia|exact (IH (S i) m d I)]. Qed.
Lemma fval_ofl l x : forall i, fval x 0 (ofl i l) = x ^ Z.of_nat i * evl l x.
Proof. induction l as [|c l IH]; intros i; [cbn; ring|]. cbn [ofl fval]. rewrite IH. unfold mval. cbn [mx my]. rewrite Nat2Z.inj_succ, Z.pow_succ_r by lia. unfold evl. cbn [fold_right]. ring. Qed.

(** ** Divisibility *)
Section Div.
Variables a b : Z.
Lemma uv_poly_x n : 0 <= n <= 65536 -> ispoly (fun x => uv a b x n).
Proof. intros Hn. destruct (isU_ex a b n Hn) as (f & U). exists (tolist f). intros x. rewrite (uv_isU _ _ _ _ _ U), evl_tolist by apply U. reflexivity. Qed.
Lemma isU_nz n f : 1 <= n <= 65536 -> isU a b n f -> ~ feq f [].
Proof.
  intros Hn (X & r & E & F) Z0. destruct (Z.odd n) eqn:O.
  - destruct (c49_odd a b n r Hn O E) as (_ & _ & _ & C). rewrite F, Z0 in C. cbn in C. lia.
  - assert (n <> 1) by (intros ->; discriminate). destruct (c49_even a b n r ltac:(lia) O E) as (_ & _ & C). rewrite F, coef_Y2, Z0 in C. cbn in C. lia.
Qed.
Lemma uv_nz n : 1 <= n <= 65536 -> exists x, uv a b x n <> 0.
Proof.
  intros Hn. destruct (isU_ex a b n ltac:(lia)) as (f & U). destruct (evl_large (tolist f)) as [Z0|(B & H)].
  - exfalso. apply (isU_nz n f Hn U). apply only_zero; [apply U|]. intros x. rewrite <- evl_tolist by apply U. apply Z0.
  - exists (B + 1). rewrite (uv_isU _ _ _ _ _ U), <- evl_tolist by apply U. apply H. lia.
Qed.
Lemma uv_divides m : 1 <= m -> forall k, 0 <= k -> k * m <= 65536 -> exists g, ispoly g /\ forall x, uv a b x (k * m) = uv a b x m * g x.
Proof.
  intros Hm. apply (Zlt_0_ind (fun k => k * m <= 65536 -> exists g, ispoly g /\ forall x, uv a b x (k * m) = uv a b x m * g x)). intros k IH Hk HB.
  assert (P : forall n, 0 <= n <= 65536 -> ispoly (fun x => uv a b x n)) by (intros n Hn; apply uv_poly_x, Hn).
  destruct (Z.eq_dec k 0) as [-> | N0]. { exists (fun _ => 0). split; [poly|]. intros x. rewrite Z.mul_0_l, uv_0. ring. }
  destruct (Z.eq_dec k 1) as [-> | N1]. { exists (fun _ => 1). split; [poly|]. intros x. rewrite Z.mul_1_l. ring. }
  destruct (Z.Even_or_Odd k) as [(j & ->)|(j & ->)].
  - destruct (Z.eq_dec (j * m) 1) as [E|N].
    + assert (j = 1) as -> by nia. assert (m = 1) as -> by nia. exists (fun _ => 1). split; [poly|]. intros x. change (2 * 1 * 1) with 2. rewrite uv_1, uv_2. ring.
    + destruct (IH j ltac:(lia) ltac:(nia)) as (g & G & E). set (M := j * m) in *. assert (HM : 2 <= M) by (unfold M in *; nia). replace (2 * j * m) with (2 * M) in * by (unfold M; ring).
      exists (fun x => g x * (uv a b x (M + 2) * uv a b x (M - 1) ^ 2 - uv a b x (M - 2) * uv a b x (M + 1) ^ 2)). split.
      * pose proof (P (M + 2) ltac:(lia)). pose proof (P (M - 1) ltac:(lia)). pose proof (P (M - 2) ltac:(lia)). pose proof (P (M + 1) ltac:(lia)). poly.
      * intros x. rewrite uv_even by lia. rewrite E. ring.
  - destruct (IH j ltac:(lia) ltac:(nia)) as (g & G & E), (IH (j + 1) ltac:(lia) ltac:(nia)) as (h & H & F). set (N := j * m) in *. set (M := (j + 1) * m) in *.
    assert (HN : 1 <= N) by (unfold N; nia). assert (HM : N + m = M) by (unfold N, M; ring). replace ((2 * j + 1) * m) with (M + N) in * by (unfold M, N; ring).
    set (V := fun x => c1 (dv a b x) M N * (uv a b x (M + 1) * uv a b x (M - 1) * g x ^ 2) - c2 (dv a b x) M N * (uv a b x (N + 1) * uv a b x (N - 1) * h x ^ 2)).
    assert (PV : ispoly (fun x => uv a b x m * V x)).
    { pose proof (P m ltac:(nia)). pose proof (P (M + 1) ltac:(nia)). pose proof (P (M - 1) ltac:(nia)). pose proof (P (N + 1) ltac:(nia)). pose proof (P (N - 1) ltac:(nia)). unfold V, c1, c2, dv. destruct (Z.odd M && negb (Z.odd N)), (negb (Z.odd M) && Z.odd N); poly. }
    exists V. split.
    { pose proof (P (M + 1) ltac:(nia)). pose proof (P (M - 1) ltac:(nia)). pose proof (P (N + 1) ltac:(nia)). pose proof (P (N - 1) ltac:(nia)). unfold V, c1, c2, dv. destruct (Z.odd M && negb (Z.odd N)), (negb (Z.odd M) && Z.odd N); poly. }
    assert (Z1 : forall x, uv a b x (M + N) - uv a b x m * V x = 0).
    { apply (ispoly_cancel (fun x => uv a b x m)); [apply P; nia| |apply uv_nz; nia|].
      - pose proof (P (M + N) ltac:(nia)). apply ispoly_sub; assumption.
      - intros x. pose proof (uv_eds a b x M N ltac:(lia) ltac:(lia)) as Q. unfold eds_def in Q. replace (M - N) with m in Q by lia. rewrite E, F in Q. rewrite <- Q. unfold V. ring. }
    intros x. specialize (Z1 x). lia.
Qed.
End Div.
