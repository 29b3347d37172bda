(** When the remainders computed inside schoof vanish. *)
From Coq Require Import Znumtheory ZifyBool Setoid Morphisms Ring.
From Verif Require Import Prelude M_Bigint M_Variable M_Term M_Poly M_DivPoly M_Schoof Spec P_Bigint P_Variable P_FSum P_Poly P_Rem P_PolyProps P_Subst P_Subst2 P_Subst3 P_SubstProps P_DivPoly P_DivPoly2 P_DivPoly5 P_DivProps P_Binom P_NormalProps P_Mod P_Gcd P_MulProps P_SchoofVal P_XQuotProps SpecSchoof P_SchoofId.
Open Scope Z_scope.

(** Keeping the entries without q, variables and negative powers of y. *)
Definition pk (m : mono) : bool := (0 <=? my m) && (mq m =? 0) && (match mv m with None => true | Some _ => false end).
Definition filt (f : fsum) : fsum := filter (fun e => pk (fst e)) f.
Lemma coef_filt f m : coef (filt f) m = if pk m then coef f m else 0.
Proof.
  induction f as [|[k c] f IH]; [destruct (pk m); reflexivity|]. unfold filt in *. cbn [filter fst coef]. destruct (pk k) eqn:E; cbn [coef]; rewrite IH.
  - destruct (mono_eqb k m) eqn:M; [apply mono_eqb_eq in M; subst; rewrite E; reflexivity|]. destruct (pk m); reflexivity.
  - destruct (mono_eqb k m) eqn:M; [apply mono_eqb_eq in M; subst; rewrite E; reflexivity|]. destruct (pk m); reflexivity.
Qed.
Lemma pk_mul m1 m2 : my m1 = 0 -> mq m1 = 0 -> mv m1 = None -> pk (mmul m1 m2) = pk m2.
Proof. intros A B C. unfold pk, mmul; cbn [my mq mv]. rewrite A, B, C. cbn [vmul]. rewrite !Z.add_0_l. reflexivity. Qed.
Lemma filt_conv d k : only_x d -> filt (conv d k) = conv d (filt k).
Proof.
  intros O. unfold filt, conv. induction d as [|[m c] d IH]; [reflexivity|]. cbn [flat_map]. rewrite filter_app, IH by (intros m' c' I; apply (O m' c'); right; exact I). f_equal.
  destruct (O m c (or_introl eq_refl)) as (A & B & C & D). cbn [fst snd]. clear IH. induction k as [|[n e] k IK]; [reflexivity|]. cbn [map filter fst snd]. rewrite pk_mul by assumption. destruct (pk n); cbn [map fst snd]; rewrite IK; reflexivity.
Qed.
Lemma filt_in f m c : In (m, c) (filt f) -> In (m, c) f /\ 0 <= my m /\ mq m = 0 /\ mv m = None.
Proof. intros I. apply filter_In in I as (I & P). split; [exact I|]. cbn [fst] in P. unfold pk in P. destruct (mv m); [rewrite Bool.andb_false_r in P; discriminate|]. split; [lia|]. split; [lia|reflexivity]. Qed.

(** A multiple of d in the formal (Laurent) sense. *)
Definition xmul (q : Z) (d u : fsum) : Prop := exists k, (forall m c, In (m, c) k -> 0 <= mx m) /\ feqm q u (conv d k).

Section Mult.
Variables (a b q : Z).
Hypothesis Pq : prime q.
Notation C := (fcurve a b).
Notation R := (cong_ideal q C).
Let Q2 : 2 <= q := prime_ge_2 q Pq.
Lemma fpow_weier_keys n : forall m c, In (m, c) (fpow (fweier a b) n) -> 0 <= mx m /\ my m = 0.
Proof.
  induction n as [|n IH]; intros m c J; cbn [fpow] in J.
  - destruct J as [J|[]]. injection J; intros; subst. cbn. lia.
  - apply in_conv in J as (m1 & c1 & m2 & c2 & J1 & J2 & -> & _). apply IH in J2 as (X2 & Y2). unfold mmul. cbn [mx my]. destruct J1 as [J|[J|[J|[]]]]; injection J; intros; subst; unfold mone; cbn [mx my]; lia.
Qed.
Lemma red_keys e m c : 0 <= mx (fst e) -> 0 <= my (fst e) -> In (m, c) (red_term a b e) -> 0 <= mx m /\ 0 <= my m <= 1.
Proof.
  destruct e as [k d]. cbn [fst]. intros Hx Hy I. unfold red_term in I. cbn [fst snd] in I. destruct (2 <=? my k) eqn:E.
  - apply in_conv in I as (m1 & c1 & m2 & c2 & J1 & J2 & -> & _). apply fpow_weier_keys in J2 as (X2 & Y2). destruct J1 as [J|[]]. injection J; intros; subst. unfold mmul, set_y. cbn [mx my]. pose proof (Z.mod_pos_bound (my k) 2 ltac:(lia)). lia.
  - destruct I as [J|[]]. injection J; intros; subst. lia.
Qed.
Lemma reds_keys k m c : (forall m c, In (m, c) k -> 0 <= mx m /\ 0 <= my m) -> In (m, c) (flat_map (red_term a b) k) -> 0 <= mx m /\ 0 <= my m <= 1.
Proof. intros H I. apply in_flat_map in I as ((m', c') & I' & I). destruct (H _ _ I'). exact (red_keys (m', c') m c ltac:(assumption) ltac:(assumption) I). Qed.
Lemma reds_cong k : R (flat_map (red_term a b) k) k.
Proof.
  induction k as [|e k IH]; [apply cong_refl|]. cbn [flat_map]. change (e :: k) with (fadd [e] k). change (red_term a b e ++ flat_map (red_term a b) k) with (fadd (red_term a b e) (flat_map (red_term a b) k)).
  apply ci_add; [|exact IH]. destruct (red_term_ideal a b e) as (z & F). exists z. intros m. specialize (F m). destruct F as (t & F). exists 0. lia.
Qed.
(** For u of y-degree at most 1 the formal multiples are the multiples modulo the curve. *)
Lemma xmul_multiple d u : only_x d -> (forall m c, In (m, c) u -> 0 <= mx m /\ 0 <= my m <= 1 /\ mq m = 0 /\ mv m = None) -> (xmul q d u <-> multiple q a b d u).
Proof.
  intros Od Ku. split.
  - intros (k & Kk & F). exists (filt k). split.
    + intros m c I. apply filt_in in I as (I & A & B & D). specialize (Kk _ _ I). auto.
    + apply feqm_cong. rewrite <- filt_conv by exact Od. intros m. rewrite coef_filt. destruct (pk m) eqn:E; [exact (F m)|].
      destruct (Z.eq_dec (coef u m) 0) as [-> | N]; [exists 0; ring|]. apply coef_in in N as (c & I). destruct (Ku _ _ I) as (_ & A & B & D). unfold pk in E. rewrite B, D in E. lia.
  - intros (k & Kk & Cg). exists (flat_map (red_term a b) k). 
    assert (Kr : forall m c, In (m, c) (flat_map (red_term a b) k) -> 0 <= mx m /\ 0 <= my m <= 1) by (intros m c I; apply (reds_keys k m c); [intros m' c' I'; destruct (Kk _ _ I') as (? & ? & _); split; assumption|exact I]).
    split; [intros m c I; apply (Kr _ _ I)|]. apply (cong_unique q a b).
    + apply (cong_trans _ _ _ _ _ Cg). apply ci_mul; [apply cong_refl|]. apply cong_sym, reds_cong.
    + intros m c I. apply (Ku _ _ I).
    + intros m c I. apply in_conv in I as (m1 & c1 & m2 & c2 & J1 & J2 & -> & _). destruct (Od _ _ J1) as (_ & Y1 & _). destruct (Kr _ _ J2) as (_ & Y2). unfold mmul; cbn [my]. lia.
Qed.
Lemma pm_xmul fuel u d w : sorted d -> only_x d -> 1 <= mx (tm (highest_term_x d)) -> ~ (q | tc (highest_term_x d)) -> sorted u -> (forall m c, In (m, c) u -> 0 <= mx m) ->
  polynomial_modular fuel u d q = Ok w -> (is_zero w = true <-> xmul q d u).
Proof.
  intros Sd Od HD HL Su Ku H. 
  assert (E0: polynomial_modular 0 [] d q = Ok []).
  { rewrite pm_eq by exact Od. rewrite pm_loop_exit by (cbn; lia). cbn [bind]. rewrite modular_assign_eq by (try exact I; lia). reflexivity. }
  pose proof (c107_decides fuel 0 u [] d q w [] Pq Su I Ku ltac:(intros ? ? []) Sd Od HD HL H E0) as X. rewrite is_zero_nil. rewrite X. unfold xmul, fadd. reflexivity.
Qed.
Lemma multiple_cong d u v : R u v -> (multiple q a b d u <-> multiple q a b d v).
Proof.
  intros E. split; intros (k & Kk & F); exists k; (split; [exact Kk|]).
  - exact (cong_trans _ _ _ _ _ (cong_sym _ _ _ _ E) F).
  - exact (cong_trans _ _ _ _ _ E F).
Qed.
Lemma multiple_div d d' u : R d d' -> (multiple q a b d u <-> multiple q a b d' u).
Proof.
  intros E. split; intros (k & Kk & F); exists k; (split; [exact Kk|]); apply (cong_trans _ _ _ _ _ F); apply ci_mul; try apply cong_refl; [exact E|apply cong_sym, E].
Qed.
Lemma yl_keys u : keysP yl u -> forall m c, In (m, c) u -> 0 <= mx m /\ 0 <= my m <= 1 /\ mq m = 0 /\ mv m = None.
Proof. intros K m c I. destruct (K m c I) as ((A & B & D & E) & F). repeat split; try assumption; lia. Qed.
Lemma cl_pm fuel u d w f : sorted d -> only_x d -> 1 <= mx (tm (highest_term_x d)) -> ~ (q | tc (highest_term_x d)) -> cl a b q u f -> keysP yl u ->
  polynomial_modular fuel u d q = Ok w -> (is_zero w = true <-> multiple q a b d f).
Proof.
  intros Sd Od HD HL ((Su & _) & Cu) Ku H. pose proof (yl_keys u Ku) as Ky. rewrite (pm_xmul fuel u d w Sd Od HD HL Su (fun m c I => proj1 (Ky m c I)) H). rewrite (xmul_multiple d u Od Ky). apply multiple_cong, Cu.
Qed.
Lemma xmul_feqm d u v : feqm q u v -> (xmul q d u <-> xmul q d v).
Proof. intros E. split; intros (k & Kk & F); exists k; (split; [exact Kk|]); [rewrite <- E|rewrite E]; exact F. Qed.
Lemma conv_y_inv u : feq (conv (fmono 1 0 (-1) 0) (conv (fmono 1 0 1 0) u)) u.
Proof. transitivity (conv (conv (fmono 1 0 (-1) 0) (fmono 1 0 1 0)) u); [apply conv_assoc|]. change (conv (fmono 1 0 (-1) 0) (fmono 1 0 1 0)) with (fconst 1). apply conv_1_l. Qed.
Lemma xmul_y d u : xmul q d (conv (fmono 1 0 1 0) u) <-> xmul q d u.
Proof.
  assert (K1 : forall e k m c, (forall m c, In (m, c) k -> 0 <= mx m) -> In (m, c) (conv (fmono 1 0 e 0) k) -> 0 <= mx m).
  { intros e k m c H I. apply in_conv in I as (m1 & c1 & m2 & c2 & J1 & J2 & -> & _). destruct J1 as [J|[]]. injection J; intros; subst. specialize (H _ _ J2). unfold mmul; cbn [mx]. lia. }
  assert (Sw : forall z k, feq (conv z (conv d k)) (conv d (conv z k))) by (intros z k; ring).
  split; intros (k & Kk & F).
  - exists (conv (fmono 1 0 (-1) 0) k). split; [intros m c I; exact (K1 _ _ _ _ Kk I)|]. rewrite <- (feq_feqm q _ _ (conv_y_inv u)). rewrite F. apply feq_feqm, Sw.
  - exists (conv (fmono 1 0 1 0) k). split; [intros m c I; exact (K1 _ _ _ _ Kk I)|]. rewrite F. apply feq_feqm, Sw.
Qed.
Lemma cl_pm_y fuel u d v v' w f : sorted d -> only_x d -> 1 <= mx (tm (highest_term_x d)) -> ~ (q | tc (highest_term_x d)) -> cl a b q u f -> keysP yl u ->
  p_div_t u (ty 1) = Ok v -> modular_assign v q = Ok v' -> polynomial_modular fuel v' d q = Ok w -> (is_zero w = true <-> multiple q a b d f).
Proof.
  intros Sd Od HD HL ((Su & Gu) & Cu) Ku Hd Hd' H. pose proof (yl_keys u Ku) as Ky. unfold p_div_t in Hd. change (to_pol (ty 1)) with [(mkMono 0 1 0 None, 1)] in Hd.
  destruct (p_div_single u (mkMono 0 1 0 None) 1 ltac:(lia) eq_refl Su) as (d0 & E0 & Sv & Id).
  { intros m c I. destruct (Gu m c I) as (A & B & D & _). unfold i32_mono, i32_range, i32_min, i32_max in *. cbn. lia. }
  assert (d0 = v) as -> by congruence. rewrite modular_assign_eq in Hd' by (try lia; exact Sv). assert (redp q v = v') as <- by congruence.
  assert (Kv : keysP (fun m => 0 <= mx m) v). { intros m c I. apply Id in I as (k & e & I & -> & ->). destruct (Gu k e I) as (A & B & _). cbn [mx]. lia. }
  assert (Fu : feq u (conv (fmono 1 0 1 0) v)).
  { intros m. unfold fmono. rewrite coef_conv1 by reflexivity. rewrite Z.mul_1_l. unfold mdiv; cbn [mx my mq mv].
    destruct (Z.eq_dec (coef u m) 0) as [E|N].
    - rewrite E. symmetry. destruct (Z.eq_dec (coef v (mkMono (mx m - 0) (my m - 1) (mq m - 0) (mv m))) 0) as [|N]; [assumption|]. apply coef_in in N as (e & I). pose proof (sorted_coef v _ e Sv I) as E1.
      apply Id in I as (k & e' & I & Ek & ->). assert (k = m). { destruct k, m; cbn in Ek. injection Ek; intros; subst. f_equal; lia. } subst k. rewrite (sorted_coef u m e' Su I) in E. rewrite E1, E. apply Z.div_0_l. lia.
    - apply coef_in in N as (e & I). rewrite (sorted_coef u m e Su I). symmetry. apply sorted_coef; [exact Sv|]. apply Id. exists m, e. rewrite Z.div_1_r. cbn [mx my mq]. auto. }
  rewrite (pm_xmul fuel (redp q v) d w Sd Od HD HL (redp_sorted q v Sv) (redp_keys _ q v Kv) H).
  rewrite (xmul_feqm d (redp q v) v) by (apply redp_feqm; [lia|exact Sv]). rewrite <- xmul_y. rewrite <- (xmul_feqm d u) by apply feq_feqm, Fu. rewrite (xmul_multiple d u Od Ky). apply multiple_cong, Cu.
Qed.
(** The divisors: division polynomials of odd index reduced modulo q. *)
Lemma psi_div a' l ps psl : l = 3 \/ l = 5 -> l < q -> psi a' b l = Ok ps -> p_rem_i32 ps q = Ok psl ->
  sorted psl /\ only_x psl /\ 1 <= mx (tm (highest_term_x psl)) /\ ~ (q | tc (highest_term_x psl)) /\ R psl ps.
Proof.
  intros Hl Hq E E'. assert (Ho : Z.odd l = true) by (destruct Hl as [-> | ->]; reflexivity). destruct (c48_psi_odd a' b l ltac:(lia) Ho) as (r0 & E0 & Sr & Ox). assert (r0 = ps) as -> by congruence.
  destruct (c49_odd a' b l ps ltac:(lia) Ho E) as (_ & _ & _ & Lc).
  unfold p_rem_i32 in E'. rewrite p_rem_eq in E' by (try lia; exact Sr). assert (redp q ps = psl) as <- by congruence.
  pose proof (redp_sorted q ps Sr) as Sl. split; [exact Sl|]. split; [intros m c I; revert m c I; apply (redp_keys (fun m => 0 <= mx m /\ my m = 0 /\ mq m = 0 /\ mv m = None)); exact Ox|].
  set (D := (l ^ 2 - 1) / 2) in *. assert (1 <= D) by (unfold D; destruct Hl as [-> | ->]; vm_compute; discriminate).
  assert (CN : coef (redp q ps) (mkMono D 0 0 None) <> 0). { rewrite redp_coef by exact Sr. rewrite Lc. rewrite Z.mod_small by lia. lia. }
  apply coef_in in CN as (c & I). pose proof (highest_max _ _ _ Sl I) as HM. cbn [mx] in HM. split; [lia|]. split.
  - destruct (highest_in _ Sl) as [(E1 & _)|(_ & Hi)]; [rewrite E1 in I; destruct I|]. pose proof (redp_reduced q ps ltac:(lia) _ _ Hi). intros Dv. apply Z.divide_pos_le in Dv; lia.
  - apply feqm_cong, redp_feqm; [lia|exact Sr].
Qed.
End Mult.
