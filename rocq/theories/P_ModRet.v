(** modular_polynomial returns for every prime p with p^2 (p+1)^2 <= i32::MAX. *)
From Coq Require Import Znumtheory ZifyBool Setoid Morphisms Ring.
From Verif Require Import Prelude M_Bigint M_Variable M_Term M_Poly M_QSeries M_Solve M_Curve M_Modular Spec P_Bigint P_Variable P_FSum P_Poly P_Rem P_PolyProps P_Subst P_Subst2 P_Subst3 P_SubstProps P_Mod P_Q P_QProps P_Solve P_SolveProps P_Modular P_Modular2.
Open Scope Z_scope.

(** ** Keys *)
Lemma pow_loop_keys (P : mono -> Prop) : (forall m m', P m -> P m' -> P (mmul m m')) ->
  forall fuel e b r c, keysP P b -> keysP P r -> p_power_loop fuel e b r = Ok c -> keysP P c.
Proof.
  intros PM. assert (K : forall a b c, keysP P a -> keysP P b -> p_mul a b = Ok c -> keysP P c).
  { intros a b c Ha Hb E. apply (p_mul_keys P P P a b c E Ha Hb). intros m1 m2 H1 H2 _. apply PM; assumption. }
  induction fuel as [|f IH]; intros e b r c Hb Hr H; cbn [p_power_loop] in H; destruct (1 <? e).
  - discriminate.
  - exact (K r b c Hr Hb H).
  - apply bind_Ok in H. destruct H as (r' & Er & H). apply bind_Ok in H. destruct H as (b' & Eb & H).
    apply (IH (Z.quot e 2) b' r' c); [exact (K b b b' Hb Hb Eb)| |exact H]. destruct (Z.odd e); [exact (K r b r' Hr Hb Er)|]. apply Ok_inj in Er. subst r'. exact Hr.
  - exact (K r b c Hr Hb H).
Qed.
Lemma power_qpure s n c : keysP qpure s -> p_power s n = Ok c -> keysP qpure c.
Proof.
  intros Hs H. unfold p_power in H. apply bind_Ok in H. destruct H as (_ & _ & H). assert (K1 : keysP qpure p_one) by (intros m d [E|[]]; injection E; intros; subst; unfold qpure; cbn; auto).
  destruct (n =? 0); [apply Ok_inj in H; subst c; exact K1|]. apply (pow_loop_keys qpure qpure_mmul _ _ _ _ _ Hs K1 H).
Qed.
Definition xk (D C : Z) (m : mono) : Prop := mx m = 0 /\ 0 <= my m /\ Z.abs (mq m) + my m * D <= C.
Definition qk (C : Z) (m : mono) : Prop := mx m = 0 /\ my m = 0 /\ Z.abs (mq m) <= C.
Lemma evalx_returns (a s : poly) B D C : 1 <= B -> 1 <= D -> C <= i32_max -> exp_bound B s -> keysP qpure s ->
  keysP (fun m => 0 <= mx m /\ 0 <= my m /\ Z.abs (mq m) + mx m * B + my m * D <= C) a ->
  exists r, eval_x_polynomial a s = Ok r /\ sorted r /\ keysP (xk D C) r.
Proof.
  intros HB HD HC Bs Qs Ka. unfold eval_x_polynomial. match goal with |- exists r, foldM ?F a p_new = Ok r /\ _ => set (f := F) end.
  destruct (foldM_returns (fun s0 => sorted s0 /\ keysP (xk D C) s0) f a) with (s := p_new) as (r & E & Sr & Kr); [|split; [exact I|intros m c []]|exists r; auto].
  intros t [m c] Hi (St & Kt). pose proof (Ka m c Hi) as (H1 & H2 & H3). unfold f. cbn [fst snd]. unfold mono_eval_x_polynomial.
  assert (mx m * B <= C) by nia. assert (my m * D <= C) by nia. assert (my m <= C) by nia.
  destruct (p_power_returns s (mx m) B) as (w & Ew & Bw); [lia|lia|lia|exact Bs|]. change p_power_i32 with p_power. rewrite Ew. cbn [bind]. pose proof (power_qpure _ _ _ Qs Ew) as Qw.
  set (u := mkMono 0 (my m) (mq m) (mv m)).
  assert (Ku : keysP (fun k => k = u) (to_pol (tb_build (tb_variable (mv m) (tb_qpow (mq m) (tb_ypow (my m) tb_new)))))) by (apply to_pol_keys; reflexivity).
  match goal with |- context [p_mul w ?x] => set (tt := x) in * end.
  destruct (p_mul_returns w tt) as (w2 & E2).
  { intros m1 c1 m2 c2 I1 I2. pose proof (Ku _ _ I2) as ->. pose proof (Bw _ _ I1) as (B1 & B2 & B3 & B4). destruct (Qw _ _ I1) as (Q1 & Q2 & _). unfold mul_ok, u, i32_min, i32_max in *. cbn. rewrite Q1, Q2. repeat split; try lia. left. exact B4. }
  rewrite E2. cbn [bind].
  assert (K2 : keysP (xk D C) w2).
  { apply (p_mul_keys (fun k => qpure k /\ Z.abs (mq k) <= mx m * B) (fun k => k = u) _ w tt w2 E2); [|exact Ku|].
    - intros k d Hk. split; [exact (Qw _ _ Hk)|]. apply (Bw _ _ Hk).
    - intros m1 m2 ((Q1 & Q2 & _) & Q3) -> _. unfold xk, mmul, u. cbn. rewrite Q1, Q2. repeat split; lia. }
  destruct (p_mul_returns w2 (to_pol (tb_build (tb_coef c tb_new)))) as (w3 & E3).
  { intros m1 c1 m2 c2 I1 I2. apply K2 in I1. assert (m2 = mone) as -> by (revert m2 c2 I2; apply (to_pol_keys (fun m => m = mone)); reflexivity).
    destruct I1 as (A1 & A2 & A3). assert (my m1 <= C) by nia. assert (0 <= my m1 * D) by nia. unfold mul_ok, i32_min, i32_max in *. cbn. rewrite A1. repeat split; try lia. right. reflexivity. }
  rewrite E3. cbn [bind]. eexists. split; [reflexivity|]. change p_add_assign with p_add. split; [apply p_add_sorted, St|]. apply p_add_keys; [exact St|exact Kt|].
  apply (p_mul_keys (xk D C) (fun k => k = mone) _ w2 _ w3 E3); [exact K2|apply to_pol_keys; reflexivity|].
  intros m1 m2 (A1 & A2 & A3) -> _. unfold xk, mmul. cbn. rewrite A1, !Z.add_0_r. repeat split; lia.
Qed.
Lemma evaly_returns (a s : poly) B C : 1 <= B -> C <= i32_max -> exp_bound B s -> keysP qpure s -> keysP (xk B C) a ->
  exists r, eval_y_polynomial a s = Ok r /\ sorted r /\ keysP (qk C) r.
Proof.
  intros HB HC Bs Qs Ka. unfold eval_y_polynomial. match goal with |- exists r, foldM ?F a p_new = Ok r /\ _ => set (f := F) end.
  destruct (foldM_returns (fun s0 => sorted s0 /\ keysP (qk C) s0) f a) with (s := p_new) as (r & E & Sr & Kr); [|split; [exact I|intros m c []]|exists r; auto].
  intros t [m c] Hi (St & Kt). pose proof (Ka m c Hi) as (H1 & H2 & H3). unfold f. cbn [fst snd]. unfold mono_eval_y_polynomial.
  assert (my m * B <= C) by nia.
  destruct (p_power_returns s (my m) B) as (w & Ew & Bw); [lia|lia|lia|exact Bs|]. change p_power_i32 with p_power. rewrite Ew. cbn [bind]. pose proof (power_qpure _ _ _ Qs Ew) as Qw.
  set (u := mkMono (mx m) 0 (mq m) (mv m)).
  assert (Ku : keysP (fun k => k = u) (to_pol (tb_build (tb_variable (mv m) (tb_qpow (mq m) (tb_xpow (mx m) tb_new)))))) by (apply to_pol_keys; reflexivity).
  match goal with |- context [p_mul w ?x] => set (tt := x) in * end.
  destruct (p_mul_returns w tt) as (w2 & E2).
  { intros m1 c1 m2 c2 I1 I2. pose proof (Ku _ _ I2) as ->. pose proof (Bw _ _ I1) as (B1 & B2 & B3 & B4). destruct (Qw _ _ I1) as (Q1 & Q2 & _). unfold mul_ok, u, i32_min, i32_max in *. cbn. rewrite Q1, Q2, H1. repeat split; try lia. left. exact B4. }
  rewrite E2. cbn [bind].
  assert (K2 : keysP (qk C) w2).
  { apply (p_mul_keys (fun k => qpure k /\ Z.abs (mq k) <= my m * B) (fun k => k = u) _ w tt w2 E2); [|exact Ku|].
    - intros k d Hk. split; [exact (Qw _ _ Hk)|]. apply (Bw _ _ Hk).
    - intros m1 m2 ((Q1 & Q2 & _) & Q3) -> _. unfold qk, mmul, u. cbn. rewrite Q1, Q2, H1. repeat split; lia. }
  destruct (p_mul_returns w2 (to_pol (tb_build (tb_coef c tb_new)))) as (w3 & E3).
  { intros m1 c1 m2 c2 I1 I2. apply K2 in I1. assert (m2 = mone) as -> by (revert m2 c2 I2; apply (to_pol_keys (fun m => m = mone)); reflexivity).
    destruct I1 as (A1 & A2 & A3). unfold mul_ok, i32_min, i32_max in *. cbn. rewrite A1, A2. repeat split; try lia. right. reflexivity. }
  rewrite E3. cbn [bind]. eexists. split; [reflexivity|]. change p_add_assign with p_add. split; [apply p_add_sorted, St|]. apply p_add_keys; [exact St|exact Kt|].
  apply (p_mul_keys (qk C) (fun k => k = mone) _ w2 _ w3 E3); [exact K2|apply to_pol_keys; reflexivity|].
  intros m1 m2 (A1 & A2 & A3) -> _. unfold qk, mmul. cbn. rewrite A1, A2, !Z.add_0_r. repeat split; lia.
Qed.
(** ** The template *)
Definition tk (p : Z) (m : mono) : Prop := mq m = 0 /\ ((0 <= mx m <= p /\ 0 <= my m <= p) \/ (mx m = p + 1 /\ my m = 0) \/ (mx m = 0 /\ my m = p + 1)).
Lemma template_keys p : prime p -> p + 1 <= i32_max -> exists T, modular_template p = Ok T /\ keysP (tk p) T.
Proof.
  intros Pp Hp. assert (2 <= p) by (destruct Pp; lia). unfold modular_template. destruct (2 <=? p) eqn:E; [|lia]. cbn [assertb bind]. apply is_prime_spec in Pp. rewrite Pp. cbn [assertb bind].
  rewrite i32_ok by (unfold i32_min, i32_max in *; lia). cbn [bind]. set (s0 := p_add_assign _ _).
  set (P := fun s : poly => sorted s /\ keysP (tk p) s).
  assert (P0 : P s0). { unfold s0. change p_add_assign with p_add. split; [apply p_add_sorted, to_pol_sorted|]. apply p_add_keys; [apply to_pol_sorted|apply to_pol_keys; unfold tk; cbn; lia..]. }
  clearbody s0.
  assert (Pa : forall s i j k l, P s -> 0 <= i <= p -> 0 <= j <= p -> P (p_add s [(mkMono i j 0 (Some (k, l)), 1)])).
  { intros s i j k l (Ss & Ks) Hi Hj. split; [apply p_add_sorted, Ss|]. apply p_add_keys; [exact Ss|exact Ks|]. intros m c [X|[]]. injection X; intros; subst. unfold tk. cbn. lia. }
  match goal with |- context [bind (foldM ?f ?l s0)] => destruct (foldM_returns P f l) with (s := s0) as (s1 & -> & P1) end; [|exact P0|].
  { intros s i Hi Ps. apply in_zrange in Hi. rewrite template_term_eq. destruct (0 <=? i) eqn:X; [|lia]. cbn [andb bind]. eexists. split; [reflexivity|]. change p_add_assign with p_add. apply Pa; [exact Ps|lia|lia]. }
  cbn [bind].
  match goal with |- exists T, foldM ?f _ _ = _ /\ _ => destruct (foldM_returns P f (zrange 0 (p + 1))) with (s := s1) as (r & E1 & (_ & K1)) end; [|exact P1|exists r; auto].
  intros s i Hi Ps. apply in_zrange in Hi.
  match goal with |- exists T, foldM ?f ?l _ = _ /\ _ => destruct (foldM_returns P f l) with (s := s) as (r & E1 & P2) end; [|exact Ps|exists r; auto].
  intros t j Hj Pt. apply in_zrange in Hj. rewrite !template_term_eq. destruct (0 <=? i) eqn:X; [|lia]. destruct (0 <=? j) eqn:Y; [|lia]. cbn [andb bind]. eexists. split; [reflexivity|].
  change p_add_assign with p_add. apply Pa; [apply Pa; [exact Pt|lia|lia]|lia|lia].
Qed.
Definition proom (p : Z) : Prop := p * (p + 1) * (p * p + p) <= i32_max.
Lemma proom_j p : 2 <= p -> proom p -> jroom p.
Proof. unfold proom, jroom, i32_max. intros H R. assert (p * p + p <= 46340) by nia. lia. Qed.
Lemma mapM_returns {A B} (f : A -> res B) l : (forall x, In x l -> exists y, f x = Ok y) -> exists r, mapM f l = Ok r.
Proof.
  induction l as [|x l IH]; intros H; [eexists; reflexivity|]. cbn [mapM]. destruct (H x (or_introl eq_refl)) as (y & ->). cbn [bind]. destruct IH as (r & ->); [intros z Hz; apply H; right; exact Hz|]. cbn [bind]. eexists. reflexivity.
Qed.
Lemma template_list_returns p : prime p -> proom p -> exists L, modular_template_list p = Ok L.
Proof.
  intros Pp R. assert (Hp : 2 <= p) by (destruct Pp; lia). pose proof (proom_j p Hp R) as RJ. unfold proom in R. set (M := p * p + p) in *. assert (HM : 6 <= M <= 46340) by (unfold M, i32_max in *; nia). assert (p <= M) by (unfold M; nia). assert (p * p <= M) by (unfold M; lia).
  assert (B0 : forall k, Z.abs k <= M + 1 -> i32_range k) by (clear - HM; intros k Hk; unfold i32_range, i32_min, i32_max; lia).
  unfold modular_template_list, modular_template_q. destruct (template_keys p Pp ltac:(unfold i32_max; lia)) as (T & ET & KT). destruct (modular_template_spec p T ET) as (_ & _ & ST & _). rewrite ET. cbn [bind].
  rewrite i32_ok by (apply B0; lia). cbn [bind]. fold M. rewrite i32_ok by (apply B0; lia). cbn [bind].
  destruct (j_spec M ltac:(lia) RJ) as (j1 & J & _ & EJ & SJ & _ & KJ). rewrite EJ. cbn [bind].
  assert (PJ: keysP qpure J) by (intros m c Hi; destruct (KJ _ _ Hi) as (n & _ & ->); unfold qpure; auto).
  assert (BJ: exp_bound M J) by (intros m c Hi; destruct (KJ _ _ Hi) as (n & Hn & ->); cbn; repeat split; lia).
  assert (KI: key_inj (qpower p) J) by (intros m c m' c' _ _; apply qpower_inj; lia).
  assert (pM : p * M <= i32_max) by nia.
  destruct (to_q_power_spec J p SJ KI) as (J' & EJ' & SJ' & KJ' & _).
  { intros m c Hi. destruct (KJ _ _ Hi) as (n & Hn & ->). cbn. unfold i32_range, i32_min, i32_max in *. nia. }
  rewrite EJ'. cbn [bind].
  assert (PJ': keysP qpure J') by (intros m c Hi; apply KJ' in Hi; apply (fmap_qpower_pure p J PJ _ _ Hi)).
  assert (BJ': exp_bound (p * M) J').
  { intros m c Hi. apply KJ' in Hi. apply fmap_in in Hi. destruct Hi as (k & Hk & ->). destruct (KJ _ _ Hk) as (n & Hn & ->). cbn. repeat split; nia. }
  destruct (evalx_returns T J M (p * M) (p * (p + 1) * M)) as (P1 & E1 & S1 & K1); [lia|nia|exact R|exact BJ|exact PJ| |].
  { intros m c Hi. destruct (KT _ _ Hi) as (Q & X). rewrite Q. cbn [Z.abs].
    assert (A1: forall i j, 0 <= i <= p -> 0 <= j <= p -> 0 + i * M + j * (p * M) <= p * (p + 1) * M) by (clear - Hp HM; intros i j Hi Hj; nia).
    destruct X as [(X & Y)|[(X & Y)|(X & Y)]]; [repeat split; try lia; apply A1; lia| |]; rewrite X, Y; repeat split; try lia; nia. }
  rewrite E1. cbn [bind]. destruct (evaly_returns P1 J' (p * M) (p * (p + 1) * M)) as (P2 & E2 & S2 & K2); [nia|exact R|exact BJ'|exact PJ'|exact K1|]. rewrite E2. cbn [bind].
  assert (Q2 : qonly P2) by (intros m c Hi; destruct (K2 _ _ Hi) as (X & Y & _); auto).
  destruct (c37_omit P2 0 S2 Q2 ltac:(unfold i32_range, i32_min, i32_max; lia)) as (pq & Eq & Sq & Kq). rewrite Eq. cbn [bind].
  assert (Qq: qonly pq) by (intros m c Hi; apply Kq in Hi; apply (Q2 m c); apply Hi).
  assert (Epp : i32_pow p 2 = Ok (p * p)).
  { unfold i32_pow. cbn [Z.eqb]. change (halvings 2) with 2%nat. cbn [i32_pow_loop Z.ltb Z.compare Pos.compare Pos.compare_cont Z.odd bind]. rewrite i32_ok by (apply B0; lia). cbn [bind]. change (2 / 2) with 1. cbn. destruct (p * p) eqn:X; rewrite i32_ok; try reflexivity; apply B0; lia. }
  rewrite Epp. cbn [bind]. rewrite i32_ok by (apply B0; lia). cbn [bind]. rewrite i32_ok by (apply B0; unfold M; lia). cbn [bind].
  apply mapM_returns. intros k _. destruct (q_coef_spec pq k Sq Qq) as (r & Er & _). exists r. exact Er.
Qed.
