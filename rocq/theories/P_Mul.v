(** Division polynomials and multiplication of points: the values of psi, phi, omega at a point of the curve. *)
From Coq Require Import Znumtheory ZifyBool Field Ring.
From Verif Require Import Prelude M_Bigint M_Variable M_Term M_Poly M_DivPoly M_Curve Spec SpecCurve P_Bigint P_FSum P_Poly P_Subst2 P_Subst3 P_DivPoly P_DivPoly3 P_DivPoly4 P_DivPoly5 P_DivProps P_Modular P_Group P_Fp P_Curve P_Eds2 P_Eds3 P_DivVal.
Open Scope Z_scope.

Lemma y_zero_keys (r : poly) x : (forall m c, In (m, c) r -> 0 <= mx m /\ my m = 1 /\ mq m = 0 /\ mv m = None) -> fval x 0 r = 0.
Proof.
  induction r as [|[m c] r IH]; intros H; [reflexivity|]. cbn [fval]. rewrite IH by (intros m' c' I; apply (H m' c'); right; exact I).
  destruct (H m c (or_introl eq_refl)) as (_ & E & _). unfold mval. rewrite E. ring.
Qed.
Lemma pv_even_0 a b x n : Z.of_nat n <= 65536 -> Nat.odd n = false -> pv a b x 0 n = 0.
Proof.
  intros Hn Ho. destruct (c48_psi_even a b (Z.of_nat n)) as (r & g & E & _ & K & _); [lia| |].
  - rewrite <- Ho. clear. induction n as [|n IH]; [reflexivity|]. rewrite Nat2Z.inj_succ, Z.odd_succ, Nat.odd_succ, <- Z.negb_odd, <- Nat.negb_odd, IH. reflexivity.
  - unfold pv. rewrite E. apply y_zero_keys, K.
Qed.

Section M.
Variables a b p x y : Z.
Hypothesis Pp : prime p.
Hypothesis P2 : p <> 2.
Hypothesis NS : nonsingular a b p.
Hypothesis Hx : 0 <= x < p.
Hypothesis Hy : 0 <= y < p.
Hypothesis Hc : curve_eqn a b p x y.
Notation v := (pv a b x y).
Notation P := (Some (x, y)).
Notation F := (fp p).
Notation J := (inj p Pp).
Lemma HC : (p | y ^ 2 - (x ^ 3 + a * x + b)).
Proof using Hc. replace (y ^ 2 - (x ^ 3 + a * x + b)) with (y * y - (x * x * x + a * x + b)) by ring. exact Hc. Qed.
Lemma Pon : on_curve a b p P.
Proof using Hx Hy Hc. split; [|split]; assumption. Qed.
Lemma two_y_nz : y <> 0 -> ~ (p | 2 * y).
Proof using Pp P2 Hy.
  intros y0 D. apply prime_mult in D; [|exact Pp]. destruct D as [D|D]; apply Z.divide_pos_le in D; destruct Pp; lia.
Qed.

(** y = 0: the point has order two. *)
Lemma pv_odd_nz n : y = 0 -> Z.of_nat n <= 65536 -> Nat.odd n = true -> ~ (p | v n).
Proof using Pp P2 NS Hx Hy Hc.
  intros y0. pose proof HC as C. rewrite y0 in *. induction n as [n IH] using (well_founded_induction Wf_nat.lt_wf). intros Hn Ho.
  destruct (le_lt_dec n 4) as [L|L].
  - destruct n as [|[|[|[|[|n]]]]]; try discriminate; [| |lia].
    + rewrite pv_1. intros D. apply Z.divide_1_r in D. destruct Pp. lia.
    + rewrite pv_3. intros D. apply (fp_nonsing a b p Pp NS (J x) (J 0)).
      * apply curve_eq_inj. unfold curve_eqn. replace (0 * 0 - (x * x * x + a * x + b)) with (0 ^ 2 - (x ^ 3 + a * x + b)) by ring. exact C.
      * reflexivity.
      * rewrite !inj_add, !inj_mul, !inj_add. apply inj_eq. rewrite Z.sub_0_r.
        assert (D2: (p | (3 * (x * x) + a) * (3 * (x * x) + a))).
        { replace ((3 * (x * x) + a) * (3 * (x * x) + a)) with ((0 ^ 2 - (x ^ 3 + a * x + b)) * (- (12 * x)) - (3 * (x * x * x * x) + 6 * a * (x * x) + 12 * b * x - a * a)) by ring.
          apply Z.divide_sub_r; [apply Z.divide_mul_l, C|exact D]. }
        apply prime_mult in D2; [|exact Pp]. replace ((1 + 1 + 1) * (x * x) + a) with (3 * (x * x) + a) by ring. destruct D2; assumption.
  - destruct (Nat.Even_or_Odd n) as [(j & E)|(j & E)]; [rewrite E in Ho; rewrite Nat.odd_mul in Ho; discriminate|].
    assert (n = j + j + 1)%nat by lia. clear E. subst n. intros D. pose proof (pv_odd a b x 0 p C j ltac:(lia) Hn) as R.
    assert (D2: (p | pv a b x 0 (j + 2) * (pv a b x 0 j * pv a b x 0 j * pv a b x 0 j) - pv a b x 0 (j - 1) * (pv a b x 0 (j + 1) * pv a b x 0 (j + 1) * pv a b x 0 (j + 1)))).
    { match goal with |- (_ | ?t) => replace t with (pv a b x 0 (j + j + 1) - (pv a b x 0 (j + j + 1) - t)) by ring end. apply Z.divide_sub_r; assumption. }
    clear R D. destruct (Nat.odd j) eqn:Oj.
    + rewrite (pv_even_0 a b x (j - 1)), Z.mul_0_l, Z.sub_0_r in D2 by (try lia; rewrite Nat.odd_sub by lia; rewrite Oj; reflexivity).
      assert (N1: ~ (p | pv a b x 0 (j + 2))) by (apply IH; [lia|lia|rewrite Nat.odd_add, Oj; reflexivity]).
      assert (N2: ~ (p | pv a b x 0 j)) by (apply IH; [lia|lia|exact Oj]).
      repeat (apply prime_mult in D2; [|exact Pp]; destruct D2 as [D2|D2]; try contradiction).
    + rewrite (pv_even_0 a b x (j + 2)), Z.mul_0_l, Z.sub_0_l, Z.divide_opp_r in D2 by (try lia; rewrite Nat.odd_add, Oj; reflexivity).
      assert (N1: ~ (p | pv a b x 0 (j - 1))) by (apply IH; [lia|lia|rewrite Nat.odd_sub, Oj by lia; reflexivity]).
      assert (N2: ~ (p | pv a b x 0 (j + 1))) by (apply IH; [lia|lia|rewrite Nat.odd_add, Oj; reflexivity]).
      repeat (apply prime_mult in D2; [|exact Pp]; destruct D2 as [D2|D2]; try contradiction).
Qed.
Lemma emul_2tors n : y = 0 -> emul a p Pp n P = if Nat.odd n then P else None.
Proof using P2 Hx Hy Hc.
  intros y0. pose proof Pon as On. induction n as [|n IH]; [reflexivity|]. rewrite emul_S, IH, Nat.odd_succ, <- Nat.negb_odd. destruct (Nat.odd n); cbn [negb].
  - symmetry. apply (ec_sum_iff a b p Pp P2); try exact On. apply sum_opposite. rewrite y0. exists 0. reflexivity.
  - rewrite (esum_0_r a p Pp). reflexivity. apply (on_canon a b), On.
Qed.
(** y <> 0: elliptic divisibility sequence. *)
Lemma spec_n n : y <> 0 -> (1 <= n)%nat -> Z.of_nat n <= 65534 ->
  spec F (J 0) (J 1) (fadd p Pp) (fmul p Pp) (fsub p Pp) (fopp p Pp) (fdiv p Pp) (fdec p) (J a) (J x) (J y) (fun k => J (v k)) n.
Proof using P2 NS Hx Hy Hc.
  intros y0 H1 H2. pose proof (two_y_nz y0) as Y2.
  apply (spec_all F (J 0) (J 1) (fadd p Pp) (fmul p Pp) (fsub p Pp) (fopp p Pp) (fdiv p Pp) (finv p Pp) (fp_field p Pp) (fdec p) (fchar2 p Pp P2) (J a) (J b) (J x) (J y)) with (N := Z.to_nat 65536).
  - apply (fp_nonsing a b p Pp NS).
  - apply curve_eq_inj. exact Hc.
  - intros E. apply inj_eq in E. rewrite Z.sub_0_r in E. apply Y2. apply Z.divide_mul_r, E.
  - rewrite pv_0. reflexivity.
  - rewrite pv_1. reflexivity.
  - rewrite pv_2. rewrite !inj_add, !inj_mul. reflexivity.
  - rewrite pv_3. unfold psi3k. repeat rewrite ?inj_add, ?inj_mul, ?inj_sub. apply (f_equal J). ring.
  - rewrite pv_4. unfold psi4k. repeat rewrite ?inj_add, ?inj_mul, ?inj_sub. apply (f_equal J). ring.
  - intros m k Hm Hk. rewrite !inj_mul, !inj_sub. apply inj_eq. rewrite !Z.mul_assoc. pose proof (pv_eds_p a b x y p m k Pp Y2 HC Hm ltac:(lia)) as E. cbv zeta in E. rewrite !Z.mul_assoc in E. exact E.
  - exact H1.
  - lia.
Qed.
Lemma torsion_iff n : (1 <= n)%nat -> Z.of_nat n <= 65534 -> ((p | v n) <-> emul a p Pp n P = None).
Proof using P2 NS Hx Hy Hc.
  intros H1 H2. destruct (Z.eq_dec y 0) as [y0|y0].
  - rewrite (emul_2tors n y0). destruct (Nat.odd n) eqn:Ho.
    + pose proof (pv_odd_nz n y0 ltac:(lia) Ho). split; [contradiction|discriminate].
    + rewrite y0 at 1. rewrite (pv_even_0 a b x n ltac:(lia) Ho). split; [reflexivity|]. intros _. exists 0. reflexivity.
  - pose proof (spec_n n y0 H1 H2) as S0. unfold spec in S0. unfold emul. change (emb p Pp P) with (Some (J x, J y)). destruct (nmul _ _ _ _ _ _ _ _ _ n (Some (J x, J y))) as [[u w]|].
    + destruct S0 as (S0 & _). split; [|discriminate]. intros D. exfalso. apply S0. apply inj_eq. rewrite Z.sub_0_r. exact D.
    + split; [reflexivity|]. intros _. apply inj_eq in S0. rewrite Z.sub_0_r in S0. exact S0.
Qed.
Lemma coord_x n X Y r : (1 <= n)%nat -> Z.of_nat n <= 46340 -> phi a b (Z.of_nat n) = Ok r -> emul a p Pp n P = Some (X, Y) -> (p | X * (v n * v n) - fval x y r).
Proof using P2 NS Hx Hy Hc.
  intros H1 H2 E M. pose proof (phi_val a b x y p HC n r ltac:(lia) E) as D. destruct (Z.eq_dec y 0) as [y0|y0].
  - rewrite (emul_2tors n y0) in M. destruct (Nat.odd n) eqn:Ho; [|discriminate]. injection M as <- <-.
    assert (Z0: v (n + 1)%nat = 0) by (rewrite y0; apply pv_even_0; [lia|rewrite Nat.odd_add, Ho; reflexivity]). rewrite Z0 in D. rewrite Z.mul_0_l, Z.sub_0_r in D. apply cong_sym, D.
  - pose proof (spec_n n y0 H1 ltac:(lia)) as S0. unfold spec in S0. unfold emul in M. change (emb p Pp P) with (Some (J x, J y)) in M. destruct (nmul _ _ _ _ _ _ _ _ _ n (Some (J x, J y))) as [[u w]|]; [|discriminate].
    cbn [bk] in M. injection M as <- <-. destruct S0 as (_ & S0 & _). rewrite <- (inj_fv p Pp u) in S0. rewrite !inj_mul, !inj_sub, !inj_mul in S0. apply inj_eq in S0.
    apply cong_sym. eapply cong_tr; [exact D|]. match goal with |- (_ | ?t) => replace t with ((x - fv p u) * (v n * v n) - v (n + 1)%nat * v (n - 1)%nat) by ring end. exact S0.
Qed.
Lemma coord_y n X Y r : (1 <= n)%nat -> Z.of_nat n <= 37837 -> omega a b (Z.of_nat n) = Ok r -> emul a p Pp n P = Some (X, Y) -> (p | Y * (v n * v n * v n) - fval x y r).
Proof using P2 NS Hx Hy Hc.
  intros H1 H2 E M. destruct (Nat.eq_dec n 1) as [-> |N1].
  { rewrite (emul_1 a p Pp) in M by (apply (on_canon a b), Pon). injection M as <- <-. rewrite pv_1. change (Z.of_nat 1) with 1 in E. rewrite (c50_omega_one a b) in E. apply Ok_inj in E. subst r. unfold fmono, fval, mval. cbn [mx my fst snd]. exists 0. ring. }
  destruct (Z.eq_dec y 0) as [y0|y0].
  - rewrite (emul_2tors n y0) in M. destruct (Nat.odd n) eqn:Ho; [|discriminate]. injection M as <- <-.
    destruct (c50_omega a b (Z.of_nat n) ltac:(lia)) as (r' & u & w & s & t & E' & _ & _ & _ & _ & _ & K & _). rewrite E in E'. apply Ok_inj in E'. subst r'.
    assert (Oz: Z.odd (Z.of_nat n) = true). { rewrite <- Ho. clear. induction n as [|n IH]; [reflexivity|]. rewrite Nat2Z.inj_succ, Z.odd_succ, Nat.odd_succ, <- Z.negb_odd, <- Nat.negb_odd, IH. reflexivity. }
    rewrite Oz in K. rewrite y0 at 1. replace (fval x y r) with (fval x 0 r) by (rewrite y0; reflexivity). rewrite (y_zero_keys r x K). exists 0. ring.
  - pose proof (omega_val a b x y p HC n r ltac:(lia) E) as D.
    pose proof (spec_n n y0 H1 ltac:(lia)) as S0. unfold spec in S0. unfold emul in M. change (emb p Pp P) with (Some (J x, J y)) in M. destruct (nmul _ _ _ _ _ _ _ _ _ n (Some (J x, J y))) as [[u w]|]; [|discriminate].
    cbn [bk] in M. injection M as <- <-. destruct S0 as (_ & _ & S0). specialize (S0 ltac:(lia)). rewrite <- (inj_fv p Pp w) in S0. repeat rewrite ?inj_add, ?inj_mul, ?inj_sub in S0. apply inj_eq in S0.
    assert (D2: (p | 2 * y * (2 * (fv p w * (v n * v n * v n) - fval x y r)))).
    { match goal with |- (_ | ?t) => replace t with ((1 + 1) * (1 + 1) * y * fv p w * (v n * v n * v n) - 4 * y * fval x y r) by ring end. eapply cong_tr; [exact S0|]. apply cong_sym, D. }
    apply prime_mult in D2; [|exact Pp]. destruct D2 as [D2|D2]; [exfalso; apply (two_y_nz y0), D2|].
    apply prime_mult in D2; [|exact Pp]. destruct D2 as [D2|D2]; [|exact D2]. exfalso. apply Z.divide_pos_le in D2; destruct Pp; lia.
Qed.
End M.
