(** Values of the division polynomials at points of the curve. *)
From Coq Require Import Znumtheory ZifyBool Setoid Morphisms Ring.
From Verif Require Import Prelude M_Bigint M_Variable M_Term M_Poly M_DivPoly Spec P_Bigint P_Variable P_FSum P_Poly P_Rem P_PolyProps P_Subst P_Subst2 P_Subst3 P_SubstProps P_DivPoly P_DivPoly2 P_DivPoly3 P_DivPoly4 P_DivPoly5 P_DivProps P_Modular P_Eds2.
Open Scope Z_scope.

Lemma psi_nonneg a b n r : 0 <= n <= 65536 -> psi a b n = Ok r -> nonneg_xy r.
Proof.
  intros Hn E. destruct (Z.odd n) eqn:Ho.
  - destruct (psi_O a b n Hn Ho) as (r' & f & E' & [R _ _]). rewrite E in E'. apply Ok_inj in E'. subst r'. eapply rep_nonneg; [|exact R]. lia.
  - destruct (psi_E a b n Hn Ho) as (r' & f & E' & [R _ _]). rewrite E in E'. apply Ok_inj in E'. subst r'. eapply rep_nonneg; [|exact R]. lia.
Qed.
Lemma psi_Ok a b n : 0 <= n <= 65536 -> exists r, psi a b n = Ok r /\ nonneg_xy r.
Proof.
  intros Hn. assert (H: exists r, psi a b n = Ok r). { destruct (Z.odd n) eqn:Ho; [destruct (psi_O a b n Hn Ho) as (r & f & E & _)|destruct (psi_E a b n Hn Ho) as (r & f & E & _)]; eauto. }
  destruct H as (r & E). exists r. split; [exact E|]. eapply psi_nonneg; eassumption.
Qed.
Ltac nn H N := match type of H with psi ?a ?b ?z = Ok ?r => assert (N : nonneg_xy r) by (apply (psi_nonneg a b z r); [lia|exact H]) end.
Lemma nonneg_mul (a b c : poly) : nonneg_xy a -> nonneg_xy b -> p_mul a b = Ok c -> nonneg_xy c.
Proof.
  intros Ha Hb H. assert (keysP (fun m => 0 <= mx m /\ 0 <= my m) c) as Hc; [|exact Hc]. eapply (p_mul_keys _ _ _ _ _ _ H Ha Hb). intros m1 m2 (A & B) (C & D) _. unfold mmul. cbn [mx my]. lia.
Qed.
Lemma nonneg_sub (a b : poly) : sorted a -> sorted b -> nonneg_xy a -> nonneg_xy b -> nonneg_xy (p_sub a b).
Proof. intros S1 S2 Ha Hb. exact (p_sub_keys (fun m => 0 <= mx m /\ 0 <= my m) a b S1 S2 Ha Hb). Qed.
Lemma val_mul x y (a b c : poly) : nonneg_xy a -> nonneg_xy b -> p_mul a b = Ok c -> fval x y c = fval x y a * fval x y b.
Proof. intros Ha Hb H. rewrite (fval_feq x y _ _ (p_mul_feq _ _ _ H)). apply fval_conv; assumption. Qed.
Lemma val_sub x y (a b : poly) : sorted a -> sorted b -> fval x y (p_sub a b) = fval x y a - fval x y b.
Proof. intros S1 S2. rewrite (fval_feq x y _ _ (p_sub_feq a b S1 S2)). unfold Spec.fsub. rewrite fval_app, fval_neg. ring. Qed.
Lemma val_pow2 x y (a c : poly) : nonneg_xy a -> p_power_i32 a 2 = Ok c -> fval x y c = fval x y a * fval x y a.
Proof. intros Ha H. rewrite (fval_feq x y _ _ (pow2_feq _ _ H)), fval_fpow by exact Ha. change (Z.of_nat 2) with 2. ring. Qed.
Lemma val_pow3 x y (a c : poly) : nonneg_xy a -> p_power_i32 a 3 = Ok c -> fval x y c = fval x y a * fval x y a * fval x y a.
Proof. intros Ha H. rewrite (fval_feq x y _ _ (pow3_feq _ _ H)), fval_fpow by exact Ha. change (Z.of_nat 3) with 3. ring. Qed.
Lemma nonneg_pow2 (a c : poly) : nonneg_xy a -> p_power_i32 a 2 = Ok c -> nonneg_xy c.
Proof.
  intros Ha H. rewrite p_power_2 in H. apply bind_Ok in H. destruct H as (b & Hb & H). pose proof (nonneg_mul _ _ _ Ha Ha Hb). eapply nonneg_mul; [|eassumption|exact H].
  intros m c' [E|[]]. injection E. intros; subst. cbn. lia.
Qed.
Lemma nonneg_pow3 (a c : poly) : nonneg_xy a -> p_power_i32 a 3 = Ok c -> nonneg_xy c.
Proof.
  intros Ha H. rewrite p_power_3 in H. apply bind_Ok in H. destruct H as (r1 & Hr & H). apply bind_Ok in H. destruct H as (b & Hb & H). pose proof (nonneg_mul _ _ _ Ha Ha Hb).
  assert (N1: nonneg_xy p_one) by (intros m c' [E|[]]; injection E; intros; subst; cbn; lia). pose proof (nonneg_mul _ _ _ N1 Ha Hr). eapply nonneg_mul; [| |exact H]; assumption.
Qed.
Lemma div_trans n u v w : (n | u - v) -> v = w -> (n | u - w).
Proof. intros H <-. exact H. Qed.

(** The value of psi(a,b,n) at (x, y). *)
Definition pv (a b x y : Z) (n : nat) : Z := match psi a b (Z.of_nat n) with Ok r => fval x y r | _ => 0 end.
Lemma pv_eq a b x y n r z : psi a b z = Ok r -> z = Z.of_nat n -> fval x y r = pv a b x y n.
Proof. intros E ->. unfold pv. rewrite E. reflexivity. Qed.

Section V.
Variables a b x y n : Z.
Hypothesis C : (n | y ^ 2 - (x ^ 3 + a * x + b)).
Notation v := (pv a b x y).

Lemma pv_odd m : (2 <= m)%nat -> (Z.of_nat (m + m + 1) <= 65536) -> (n | v (m + m + 1) - (v (m + 2) * (v m * v m * v m) - v (m - 1) * (v (m + 1) * v (m + 1) * v (m + 1))))%nat.
Proof using C.
  intros Hm Hn. set (k := Z.of_nat m). assert (Hk: 2 <= k) by (unfold k; lia). assert (Hk2: 2 * k + 1 <= 65536) by (unfold k; lia).
  destruct (psi_O a b (2 * k + 1)) as (r & fr & E & _); [lia|rewrite Z.odd_add, Z.odd_mul; reflexivity|]. pose proof E as E'.
  rewrite (psi_eq a b) in E by lia. unfold psi_step in E.
  replace ((2 * k + 1) mod 2 =? 1) with true in E by (rewrite Z.add_comm, Z.mul_comm, Z_mod_plus_full; reflexivity). cbv zeta in E.
  replace ((2 * k + 1 - 1) / 2) with k in E by (replace (2 * k + 1 - 1) with (k * 2) by ring; rewrite Z.div_mul; lia).
  apply bind_Ok in E. destruct E as (e & He & E). apply bind_Ok in E. destruct E as (f & Hf & E). apply bind_Ok in E. destruct E as (f1 & Hf1 & E).
  apply bind_Ok in E. destruct E as (g & Hg & E). apply bind_Ok in E. destruct E as (h & Hh & E). apply bind_Ok in E. destruct E as (h1 & Hh1 & E).
  apply bind_Ok in E. destruct E as (ef & Hef & E). apply bind_Ok in E. destruct E as (gh & Hgh & E).
  pose proof (p_mul_sorted _ _ _ Hef) as S1. pose proof (p_mul_sorted _ _ _ Hgh) as S2.
  assert (Hi: i32_poly (p_sub ef gh)) by (apply (p_sub_keys i32_mono); auto; eapply p_mul_i32; eassumption).
  nn He Ne. nn Hf Nf. nn Hg Ng. nn Hh Nh.
  pose proof (nonneg_pow3 _ _ Nf Hf1) as Nf1. pose proof (nonneg_pow3 _ _ Nh Hh1) as Nh1.
  pose proof (nonneg_sub _ _ S1 S2 (nonneg_mul _ _ _ Ne Nf1 Hef) (nonneg_mul _ _ _ Ng Nh1 Hgh)) as Ns.
  pose proof (reduction_value n x y _ a b r Hi Ns E C) as D.
  rewrite <- (pv_eq a b x y (m + m + 1) r (2 * k + 1) E' ltac:(unfold k; lia)), <- (pv_eq a b x y (m + 2) e _ He ltac:(unfold k; lia)), <- (pv_eq a b x y m f _ Hf ltac:(unfold k; lia)), <- (pv_eq a b x y (m - 1) g _ Hg ltac:(unfold k; lia)), <- (pv_eq a b x y (m + 1) h _ Hh ltac:(unfold k; lia)).
  apply (div_trans _ _ _ _ D). rewrite (val_sub x y _ _ S1 S2), (val_mul x y _ _ _ Ne Nf1 Hef), (val_mul x y _ _ _ Ng Nh1 Hgh), (val_pow3 x y _ _ Nf Hf1), (val_pow3 x y _ _ Nh Hh1). reflexivity.
Qed.
Lemma pv_even m : (3 <= m)%nat -> (Z.of_nat (m + m) <= 65536) -> (n | 2 * y * v (m + m) - v m * (v (m + 2) * (v (m - 1) * v (m - 1)) - v (m - 2) * (v (m + 1) * v (m + 1))))%nat.
Proof using C.
  intros Hm Hn. set (k := Z.of_nat m). assert (Hk: 3 <= k) by (unfold k; lia). assert (Hk2: 2 * k <= 65536) by (unfold k; lia).
  destruct (rec_even_aux a b k Hk Hk2) as (r & e & f & g & h & i & E1 & E2 & E3 & E4 & E5 & E6 & f1 & h1 & ef & gh & i1 & j & H1 & H2 & H3 & H4 & H5 & H6 & (Hi & Nj) & Hx).
  pose proof (p_mul_sorted _ _ _ H3) as S1. pose proof (p_mul_sorted _ _ _ H4) as S2.
  nn E2 Ne. nn E3 Nf. nn E4 Ng. nn E5 Nh. nn E6 Ni.
  pose proof (nonneg_pow2 _ _ Nf H1) as Nf1. pose proof (nonneg_pow2 _ _ Nh H2) as Nh1.
  pose proof (nonneg_sub _ _ S1 S2 (nonneg_mul _ _ _ Ne Nf1 H3) (nonneg_mul _ _ _ Ng Nh1 H4)) as Ns.
  pose proof (reduction_value n x y _ a b r Hi Nj H6 C) as D.
  rewrite <- (pv_eq a b x y (m + m) r (2 * k) E1 ltac:(unfold k; lia)), <- (pv_eq a b x y (m + 2) e _ E2 ltac:(unfold k; lia)), <- (pv_eq a b x y (m - 1) f _ E3 ltac:(unfold k; lia)), <- (pv_eq a b x y (m - 2) g _ E4 ltac:(unfold k; lia)), <- (pv_eq a b x y (m + 1) h _ E5 ltac:(unfold k; lia)), <- (pv_eq a b x y m i _ E6 ltac:(unfold k; lia)).
  assert (V: 2 * y * fval x y j = fval x y i * (fval x y e * (fval x y f * fval x y f) - fval x y g * (fval x y h * fval x y h))).
  { transitivity (fval x y i1).
    - rewrite (fval_feq x y _ _ Hx). rewrite fval_conv; [|intros m0 c0 [E|[]]; injection E; intros; subst; cbn; lia|exact Nj]. f_equal. unfold fval, mval. cbn [mx my fst snd]. rewrite Z.pow_0_r, Z.pow_1_r. ring.
    - rewrite (val_mul x y _ _ _ Ni Ns H5), (val_sub x y _ _ S1 S2), (val_mul x y _ _ _ Ne Nf1 H3), (val_mul x y _ _ _ Ng Nh1 H4), (val_pow2 x y _ _ Nf H1), (val_pow2 x y _ _ Nh H2). reflexivity. }
  rewrite <- V. replace (2 * y * fval x y r - 2 * y * fval x y j) with (2 * y * (fval x y r - fval x y j)) by ring. apply Z.divide_mul_r, D.
Qed.
Lemma pv_0 : v 0 = 0. Proof using. reflexivity. Qed.
Lemma pv_1 : v 1 = 1. Proof using. unfold pv. change (psi a b (Z.of_nat 1)) with (Ok [(mone, 1)]). apply (fval_fconst x y 1). Qed.
Lemma pv_2 : v 2 = 2 * y.
Proof using. unfold pv. change (psi a b (Z.of_nat 2)) with (Ok [(mkMono 0 1 0 None, 2)]). unfold fval, mval. cbn [mx my fst snd]. rewrite Z.pow_0_r, Z.pow_1_r. ring. Qed.
Lemma pv_3 : v 3 = 3 * (x * x * x * x) + 6 * a * (x * x) + 12 * b * x - a * a.
Proof using.
  unfold pv. destruct (c48_psi_base a b) as (_ & _ & _ & (r & E & F) & _). change (Z.of_nat 3) with 3. rewrite E, (fval_feq x y _ _ F). unfold fmono. rewrite !fval_app. unfold fval, mval. cbn [mx my fst snd]. ring.
Qed.
Lemma pv_4 : v 4 = 4 * y * (x * x * x * x * x * x + 5 * a * (x * x * x * x) + 20 * b * (x * x * x) - 5 * (a * a) * (x * x) - 4 * a * b * x - 8 * (b * b) - a * a * a).
Proof using.
  unfold pv. destruct (c48_psi_base a b) as (_ & _ & _ & _ & (r & E & F)). change (Z.of_nat 4) with 4. rewrite E, (fval_feq x y _ _ F).
  rewrite fval_conv; [|intros m0 c0 [Q|[]]; injection Q; intros; subst; cbn; lia|unfold fmono; intros m0 c0 H; cbn in H; intuition (repeat match goal with H : (_, _) = (_, _) |- _ => injection H; intros; subst; clear H end; cbn; lia)].
  unfold fmono. rewrite !fval_app. unfold fval, mval. cbn [mx my fst snd]. ring.
Qed.
Lemma phi_val k r : 1 <= Z.of_nat k <= 46340 -> phi a b (Z.of_nat k) = Ok r -> (n | fval x y r - (x * (v k * v k) - v (k + 1)%nat * v (k - 1)%nat)).
Proof using C.
  intros Hk E. set (z := Z.of_nat k) in *.
  destruct (psi_Ok a b z ltac:(unfold z; lia)) as (pn & E1 & N1). destruct (psi_Ok a b (z + 1) ltac:(unfold z; lia)) as (u & E2 & N2). destruct (psi_Ok a b (z - 1) ltac:(unfold z; lia)) as (w & E3 & N3).
  rewrite (phi_chain a b z pn u w ltac:(unfold z; lia) E1 E2 E3) in E. apply bind_Ok in E. destruct E as (p2 & H1 & E). apply bind_Ok in E. destruct E as (t & H2 & E). apply bind_Ok in E. destruct E as (uv & H3 & E).
  unfold t_mul_p in H2. pose proof (p_mul_sorted _ _ _ H2) as S1. pose proof (p_mul_sorted _ _ _ H3) as S2.
  assert (Hi: i32_poly (p_sub t uv)) by (apply (p_sub_keys i32_mono); auto; eapply p_mul_i32; eassumption).
  pose proof (nonneg_pow2 _ _ N1 H1) as Np.
  assert (Nx: nonneg_xy (to_pol (tb_build (tb_xpow 1 tb_new)))) by (eapply rep_nonneg; [|exact rep_x]; lia).
  pose proof (nonneg_sub _ _ S1 S2 (nonneg_mul _ _ _ Nx Np H2) (nonneg_mul _ _ _ N2 N3 H3)) as Ns.
  pose proof (reduction_value n x y _ a b r Hi Ns E C) as D.
  rewrite <- (pv_eq a b x y k pn _ E1 ltac:(unfold z; lia)), <- (pv_eq a b x y (k + 1) u _ E2 ltac:(unfold z; lia)), <- (pv_eq a b x y (k - 1) w _ E3 ltac:(unfold z; lia)).
  apply (div_trans _ _ _ _ D). rewrite (val_sub x y _ _ S1 S2), (val_mul x y _ _ _ Nx Np H2), (val_mul x y _ _ _ N2 N3 H3), (val_pow2 x y _ _ N1 H1). do 2 f_equal.
  rewrite (fval_feq x y _ _ (to_pol_feq _)). unfold fval, mval. cbn [mx my fst snd tb_build tb_xpow tb_new tm tc]. cbn. rewrite ?Z.mul_1_r. unfold Z.pow_pos. cbn. destruct x; reflexivity.
Qed.
Lemma omega_val k r : 2 <= Z.of_nat k <= 37837 -> omega a b (Z.of_nat k) = Ok r ->
  (n | 4 * y * fval x y r - (v (k + 2) * (v (k - 1) * v (k - 1)) - v (k - 2) * (v (k + 1) * v (k + 1))))%nat.
Proof using C.
  intros Hk E. set (z := Z.of_nat k) in *.
  destruct (omega_good a b z ltac:(unfold z; lia)) as (r' & u & w & s & t & f & E' & E1 & E2 & E3 & E4 & _ & _ & i & H6 & Hi & Ni & Fx). rewrite E in E'. apply Ok_inj in E'. subst r'.
  nn E1 Nu. nn E2 Nw. nn E3 Nq. nn E4 Nt.
  pose proof (reduction_value n x y _ a b r Hi Ni H6 C) as D.
  rewrite <- (pv_eq a b x y (k + 2) u _ E1 ltac:(unfold z; lia)), <- (pv_eq a b x y (k - 1) w _ E2 ltac:(unfold z; lia)), <- (pv_eq a b x y (k - 2) s _ E3 ltac:(unfold z; lia)), <- (pv_eq a b x y (k + 1) t _ E4 ltac:(unfold z; lia)).
  assert (V: 4 * y * fval x y i = fval x y u * (fval x y w * fval x y w) - fval x y s * (fval x y t * fval x y t)).
  { transitivity (fval x y (conv [(mkMono 0 1 0 None, 4)] i)).
    - rewrite fval_conv; [|intros m0 c0 [Q|[]]; injection Q; intros; subst; cbn; lia|exact Ni]. f_equal. unfold fval, mval. cbn [mx my fst snd]. rewrite Z.pow_0_r, Z.pow_1_r. ring.
    - rewrite (fval_feq x y _ _ Fx). unfold Spec.fsub. rewrite fval_app, fval_neg, !fval_conv by (auto using nonneg_fpow). rewrite !fval_fpow by assumption. change (Z.of_nat 2) with 2. ring. }
  rewrite <- V. replace (4 * y * fval x y r - 4 * y * fval x y i) with (4 * y * (fval x y r - fval x y i)) by ring. apply Z.divide_mul_r, D.
Qed.
End V.
Lemma div0 u v : (0 | u - v) -> u = v.
Proof. intros (k & H). lia. Qed.

(** The elliptic divisibility relation over Z, at every point with y <> 0. *)
Lemma pv_eds_Z a x y n k : y <> 0 -> (1 <= n)%nat -> (Z.of_nat (n + n + k) <= 65536) -> let v := pv a (bz a x y) x y in
  v (n + n + k)%nat * v k = v (n + k + 1)%nat * v (n + k - 1)%nat * (v n * v n) - v (n + 1)%nat * v (n - 1)%nat * (v (n + k)%nat * v (n + k)%nat).
Proof.
  intros Hy Hn HN v. assert (Cz: forall a x y, (0 | y ^ 2 - (x ^ 3 + a * x + bz a x y))) by (intros; unfold bz; exists 0; ring).
  apply (eds_Z (fun a x y => pv a (bz a x y) x y) (Z.to_nat 65536)); try assumption; try lia.
  - intros. apply pv_0.
  - intros. apply pv_1.
  - intros. apply pv_2.
  - intros. apply pv_3.
  - intros. apply pv_4.
  - intros a' x' y' m H1 H2. apply div0, pv_odd; [apply Cz|lia|lia].
  - intros a' x' y' m H1 H2. apply div0, pv_even; [apply Cz|lia|lia].
Qed.
Lemma cong_sub p u v u' v' : (p | u - u') -> (p | v - v') -> (p | (u - v) - (u' - v')).
Proof. intros A B. replace (u - v - (u' - v')) with ((u - u') - (v - v')) by ring. apply Z.divide_sub_r; assumption. Qed.
Lemma cong_mul p u v u' v' : (p | u - u') -> (p | v - v') -> (p | u * v - u' * v').
Proof. intros A B. replace (u * v - u' * v') with ((u - u') * v + u' * (v - v')) by ring. apply Z.divide_add_r; [apply Z.divide_mul_l, A|apply Z.divide_mul_r, B]. Qed.
Lemma cong_tr p u v w : (p | u - v) -> (p | v - w) -> (p | u - w).
Proof. intros A B. replace (u - w) with ((u - v) + (v - w)) by ring. apply Z.divide_add_r; assumption. Qed.
Lemma cong_sym p u v : (p | u - v) -> (p | v - u).
Proof. intros A. replace (v - u) with (- (u - v)) by ring. apply Z.divide_opp_r, A. Qed.
Lemma cong_rf p u : (p | u - u). Proof. exists 0. ring. Qed.

(** The value modulo p depends on b modulo p only, at points of the curve with 2y invertible. *)
Lemma pv_lift a b b' x y p n : prime p -> ~ (p | 2 * y) -> (p | y ^ 2 - (x ^ 3 + a * x + b)) -> (p | b - b') -> (Z.of_nat (n) <= 65536) -> (p | pv a b x y n - pv a b' x y n).
Proof.
  intros Pp Hy C Hb. assert (C': (p | y ^ 2 - (x ^ 3 + a * x + b'))). { replace (y ^ 2 - (x ^ 3 + a * x + b')) with ((y ^ 2 - (x ^ 3 + a * x + b)) + (b - b')) by ring. apply Z.divide_add_r; assumption. }
  induction n as [n IH] using (well_founded_induction Wf_nat.lt_wf). intros L.
  destruct (le_lt_dec n 4) as [H|H].
  - destruct n as [|[|[|[|[|n]]]]]; [| | | | |lia].
    + rewrite !pv_0. apply cong_rf.
    + rewrite !pv_1. apply cong_rf.
    + rewrite !pv_2. apply cong_rf.
    + rewrite !pv_3. match goal with |- (_ | ?t) => replace t with ((b - b') * (12 * x)) by ring end. apply Z.divide_mul_l, Hb.
    + rewrite !pv_4. match goal with |- (_ | ?t) => replace t with ((b - b') * (4 * y * (20 * (x * x * x) - 4 * a * x - 8 * (b + b')))) by ring end. apply Z.divide_mul_l, Hb.
  - destruct (Nat.Even_or_Odd n) as [(j & J)|(j & J)].
    + assert (n = j + j)%nat by lia. clear J. subst n. pose proof (pv_even a b x y p C j ltac:(lia) L) as E. pose proof (pv_even a b' x y p C' j ltac:(lia) L) as E'.
      assert (D: (p | 2 * y * (pv a b x y (j + j) - pv a b' x y (j + j)))).
      { rewrite Z.mul_sub_distr_l. eapply cong_tr; [exact E|]. eapply cong_tr; [|apply cong_sym; exact E']. apply cong_mul; [apply IH; lia|]. apply cong_sub; repeat apply cong_mul; apply IH; lia. }
      apply prime_mult in D; [|exact Pp]. destruct D as [D|D]; [contradiction|exact D].
    + assert (n = j + j + 1)%nat by lia. clear J. subst n. eapply cong_tr; [apply (pv_odd a b x y p C j); lia|]. eapply cong_tr; [|apply cong_sym; apply (pv_odd a b' x y p C' j); lia].
      apply cong_sub; repeat apply cong_mul; apply IH; lia.
Qed.
Lemma pv_eds_p a b x y p n k : prime p -> ~ (p | 2 * y) -> (p | y ^ 2 - (x ^ 3 + a * x + b)) -> (1 <= n)%nat -> (Z.of_nat (n + n + k) <= 65536) -> let v := pv a b x y in
  (p | v (n + n + k)%nat * v k - (v (n + k + 1)%nat * v (n + k - 1)%nat * (v n * v n) - v (n + 1)%nat * v (n - 1)%nat * (v (n + k)%nat * v (n + k)%nat))).
Proof.
  intros Pp Hy C Hn HN v. assert (Hb: (p | b - bz a x y)). { replace (b - bz a x y) with (- (y ^ 2 - (x ^ 3 + a * x + b))) by (unfold bz; ring). apply Z.divide_opp_r, C. }
  assert (y0 : y <> 0) by (intros ->; apply Hy; exists 0; ring).
  pose proof (pv_eds_Z a x y n k y0 Hn HN) as E. cbv zeta in E. set (v' := pv a (bz a x y) x y) in *.
  assert (Lf: forall m, (Z.of_nat (m) <= 65536) -> (p | v m - v' m)) by (intros m M; apply pv_lift; assumption).
  eapply cong_tr; [apply cong_mul; apply Lf; lia|]. rewrite E. apply cong_sym. apply cong_sub; repeat apply cong_mul; apply Lf; lia.
Qed.
