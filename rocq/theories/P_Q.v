(** Lemmas about divisor sums, Eisenstein series, Delta and j as q-series. *)
From Coq Require Import Znumtheory ZifyBool Setoid Morphisms Ring.
From Verif Require Import Prelude M_Bigint M_Variable M_Term M_Poly M_QSeries Spec P_Bigint P_Variable P_FSum P_Poly P_Rem P_PolyProps P_Subst P_Subst2 P_Subst3 P_SubstProps P_Mod P_Gcd.
Open Scope Z_scope.

Lemma zrange_upto n : zrange 1 (n + 1) = upto n.
Proof.
  unfold zrange, upto. replace (Z.to_nat (n + 1 - 1)) with (Z.to_nat n) by (f_equal; lia). rewrite <- seq_shift, map_map. apply map_ext. intros k. lia.
Qed.
Lemma in_upto n k : In k (upto n) <-> 1 <= k <= n.
Proof.
  unfold upto. rewrite in_map_iff. split.
  - intros (i & <- & Hi). apply in_seq in Hi. lia.
  - intros H. exists (Z.to_nat k). split; [lia|]. apply in_seq. lia.
Qed.
Lemma sigma_spec n k : 0 <= k -> 0 <= n < i32_max -> sigma_divisor n k = Ok (sigma k n).
Proof.
  intros Hk Hn. unfold sigma_divisor. destruct (k <? 0) eqn:E; [lia|]. destruct (n <? 0) eqn:E'; [lia|].
  rewrite i32_ok by (unfold i32_min, i32_max in *; lia). cbn [bind]. rewrite zrange_upto. unfold sigma.
  assert (G: forall l s, (forall i, In i l -> 1 <= i) -> foldM (fun sum i => if Z.rem n i =? 0 then (v <- power_i32 i k ;; Ok (sum + v)) else Ok sum) l s
     = Ok (s + fold_right Z.add 0 (map (fun d => d ^ k) (filter (fun d => n mod d =? 0) l)))).
  { induction l as [|i l IH]; intros s Hl; cbn [foldM filter map fold_right]; [f_equal; ring|].
    assert (1 <= i) by (apply Hl; left; reflexivity). rewrite Z.rem_mod_nonneg by lia. destruct (n mod i =? 0).
    - rewrite power_i32_spec by lia. cbn [bind map fold_right]. rewrite IH by (intros; apply Hl; right; assumption). f_equal. ring.
    - cbn [bind]. apply IH. intros; apply Hl; right; assumption. }
  rewrite G; [reflexivity|]. intros i Hi. apply in_upto in Hi. lia.
Qed.

(** ** q-polynomials with bounded exponents *)
Definition qkey (B : Z) (m : mono) : Prop := mx m = 0 /\ my m = 0 /\ 0 <= mq m <= B /\ mv m = None.
Lemma qkey_mono B m : qkey B m -> m = qmono (mq m) /\ 0 <= mq m <= B.
Proof. intros (A & C & D & E). destruct m; cbn in *; subst. split; [reflexivity|exact D]. Qed.
Lemma qkey_qmono B n : 0 <= n <= B -> qkey B (qmono n).
Proof. intros H. unfold qkey. cbn. auto. Qed.
Lemma qkey_le A B a : A <= B -> keysP (qkey A) a -> keysP (qkey B) a.
Proof. intros H Ha m c Hi. destruct (Ha m c Hi) as (X & Y & Z & W). unfold qkey. repeat split; auto; lia. Qed.
Lemma qkey_qnonneg B a : keysP (qkey B) a -> qnonneg a.
Proof. intros H m c Hi. destruct (H m c Hi) as (_ & _ & X & _). lia. Qed.
Lemma qkey_qonly B a : keysP (qkey B) a -> qonly a.
Proof. intros H m c Hi. destruct (H m c Hi) as (X & Y & _). auto. Qed.
Lemma qmul_returns A B (a b : poly) : A + B <= i32_max -> keysP (qkey A) a -> keysP (qkey B) b ->
  exists c, p_mul a b = Ok c /\ sorted c /\ keysP (qkey (A + B)) c /\ feq c (conv a b).
Proof.
  intros H Ha Hb. destruct (p_mul_returns a b) as (c & Hc).
  { intros m1 c1 m2 c2 H1 H2. destruct (Ha _ _ H1) as (X & Y & Z & W), (Hb _ _ H2) as (X' & Y' & Z' & W'). unfold mul_ok, i32_min, i32_max in *. split; [auto|lia]. }
  exists c. split; [exact Hc|]. split; [eapply p_mul_sorted, Hc|]. split; [|eapply p_mul_feq, Hc].
  apply (p_mul_keys (qkey A) (qkey B) _ a b c Hc Ha Hb). intros m1 m2 (X & Y & Z & W) (X' & Y' & Z' & W') _. unfold qkey, mmul. cbn [mx my mq mv]. rewrite W, W'. cbn. intuition lia.
Qed.
Lemma qomit_returns A N (a : poly) : 0 <= N -> N + 1 <= i32_max -> sorted a -> keysP (qkey A) a ->
  exists r, omit_high_order_q a N = Ok r /\ sorted r /\ keysP (qkey N) r /\ feq_upto N r a.
Proof.
  intros HN HM Sa Ka. destruct (omit_spec a N Sa (qkey_qonly A a Ka)) as (r & E & Sr & Kr); [unfold i32_range, i32_min, i32_max in *; lia|].
  exists r. split; [exact E|]. split; [exact Sr|]. split.
  - intros m c Hi. apply Kr in Hi. destruct Hi as (Hi & L). destruct (Ka _ _ Hi) as (X & Y & Z & W). unfold qkey. intuition lia.
  - intros m Hm. rewrite (omit_coef a r N m Sa Sr Kr). destruct (mq m <=? N) eqn:El; [reflexivity|lia].
Qed.
Lemma qone_key B : 0 <= B -> keysP (qkey B) p_one.
Proof. intros H m c [E|[]]. injection E; intros; subst. unfold qkey. cbn. intuition lia. Qed.
Lemma qone_sorted : sorted p_one.
Proof. exact (to_pol_sorted term_one). Qed.
Lemma qpower_omit_returns A N (a : poly) n : 0 <= n -> 0 <= A -> 0 <= N -> A + N <= i32_max -> N + 1 <= i32_max -> sorted a -> keysP (qkey A) a ->
  exists r, power_omit_high_order_q a n N = Ok r /\ sorted r /\ keysP (qkey N) r /\ feq_upto N r (fpow a (Z.to_nat n)).
Proof.
  intros Hn HA HN HM HM' Sa Ka.
  assert (R: exists r, power_omit_high_order_q a n N = Ok r /\ keysP (qkey N) r).
  { unfold power_omit_high_order_q. destruct (proj1 (qonly_has a) (qkey_qonly A a Ka)) as (-> & ->). cbn [negb assertb bind].
    destruct (foldM_returns (fun s => sorted s /\ keysP (qkey N) s) (fun pol (_ : Z) => pol <- p_mul_assign pol a ;; omit_high_order_q pol N) (zrange 0 n)) with (s := p_one) as (r & E & _ & Kr).
    - intros s _ _ (Ss & Ks). unfold p_mul_assign. destruct (qmul_returns N A s a ltac:(lia) Ks Ka) as (s1 & -> & S1 & K1 & _). cbn [bind].
      destruct (qomit_returns (N + A) N s1 HN HM' S1 K1) as (s2 & E2 & S2 & K2 & _). exists s2. auto.
    - split; [exact qone_sorted|apply qone_key, HN].
    - exists r. split; assumption. }
  destruct R as (r & E & Kr). exists r. split; [exact E|].
  destruct (c37_power_omit a n N r Sa (qkey_qnonneg A a Ka) Hn HN E) as (Sr & _ & F & _). auto.
Qed.

(** ** Orders *)
Definition ord_ge (k : Z) (a : fsum) : Prop := forall m, mq m < k -> coef a m = 0.
Lemma ord_ge_feq k a b : feq a b -> ord_ge k a -> ord_ge k b.
Proof. intros H Ha m Hm. rewrite <- (H m). apply Ha, Hm. Qed.
Lemma ord_filter k a : ord_ge k a -> feq a (filter (fun e => k <=? mq (fst e)) a).
Proof.
  intros H m. assert (G: coef (filter (fun e => k <=? mq (fst e)) a) m = if k <=? mq m then coef a m else 0).
  { clear H. induction a as [|[j c] a IH]; cbn [filter coef fst]; [destruct (k <=? mq m); reflexivity|].
    destruct (k <=? mq j) eqn:E; cbn [coef]; rewrite IH; destruct (mono_eqb j m) eqn:E'; try reflexivity.
    - apply mono_eqb_eq in E'; subst. rewrite E. reflexivity.
    - apply mono_eqb_eq in E'; subst. rewrite E. ring. }
  rewrite G. destruct (k <=? mq m) eqn:E; [reflexivity|apply H; lia].
Qed.
Lemma ord_conv i j a b : ord_ge i a -> ord_ge j b -> ord_ge (i + j) (conv a b).
Proof.
  intros Ha Hb. apply (ord_ge_feq _ (conv (filter (fun e => i <=? mq (fst e)) a) (filter (fun e => j <=? mq (fst e)) b))).
  { rewrite <- (ord_filter i a Ha), <- (ord_filter j b Hb). reflexivity. }
  intros m Hm. apply coef_notin. intros c Hi. apply in_conv in Hi. destruct Hi as (m1 & c1 & m2 & c2 & H1 & H2 & -> & _).
  apply filter_In in H1. apply filter_In in H2. cbn in *. lia.
Qed.
Lemma ord_add k a b : ord_ge k a -> ord_ge k b -> ord_ge k (fadd a b).
Proof. intros Ha Hb m Hm. unfold fadd. rewrite coef_app, (Ha m Hm), (Hb m Hm). reflexivity. Qed.
Lemma ord_neg k a : ord_ge k a -> ord_ge k (fneg a).
Proof. intros Ha m Hm. rewrite coef_neg, (Ha m Hm). reflexivity. Qed.
Lemma ord_const c : ord_ge 0 (fconst c).
Proof. intros m Hm. cbn. rewrite mono_eqb_neq; [reflexivity|]. intros <-. cbn in Hm. lia. Qed.
Lemma ord_fpow a k : ord_ge 1 a -> ord_ge (Z.of_nat k) (fpow a k).
Proof.
  intros H. induction k as [|k IH]; [apply (ord_const 1)|]. cbn [fpow]. replace (Z.of_nat (S k)) with (1 + Z.of_nat k) by lia. apply ord_conv; assumption.
Qed.
Lemma ord_upto N a : ord_ge (N + 1) a -> feq_upto N a [].
Proof. intros H m Hm. rewrite (H m) by lia. reflexivity. Qed.
Lemma ord_qnonneg a : qnonneg a -> ord_ge 0 a.
Proof. intros H m Hm. apply coef_notin. intros c Hi. apply H in Hi. lia. Qed.
(** 1 + O(q) *)
Definition unit_ser (a : fsum) : Prop := ord_ge 1 (fsub a (fconst 1)).
Lemma unit_conv a b : qnonneg a -> qnonneg b -> unit_ser a -> unit_ser b -> unit_ser (conv a b).
Proof.
  intros Na Nb Ha Hb. unfold unit_ser in *. apply (ord_ge_feq 1 (fadd (conv (fsub a (fconst 1)) b) (fsub b (fconst 1)))); [ring|].
  apply ord_add; [|exact Hb]. change 1 with (1 + 0). apply ord_conv; [exact Ha|apply ord_qnonneg, Nb].
Qed.
Lemma unit_one : unit_ser (fconst 1).
Proof. intros m _. unfold fsub. rewrite coef_app, coef_neg. ring. Qed.
Lemma qnonneg_const c : qnonneg (fconst c).
Proof. intros m d [E|[]]. injection E; intros; subst. cbn. lia. Qed.
Lemma unit_fpow a k : qnonneg a -> unit_ser a -> unit_ser (fpow a k).
Proof. intros Na Ha. induction k as [|k IH]; [exact unit_one|]. cbn [fpow]. apply unit_conv; auto. apply qnonneg_fpow, Na. Qed.
Lemma unit_upto N a b : 0 <= N -> feq_upto N a b -> unit_ser a -> unit_ser b.
Proof.
  intros HN H Ha m Hm. specialize (Ha m Hm). unfold fsub in *. rewrite coef_app in *. rewrite <- (H m) by lia. exact Ha.
Qed.

(** ** Eisenstein series *)
Definition e4_sum (N : Z) : fsum := (mone, 1) :: map (fun n => (qmono n, 240 * sigma 3 n)) (upto N).
Lemma sigma_nonneg k n : 0 <= k -> 0 <= sigma k n.
Proof.
  intros Hk. unfold sigma. assert (H: forall i, In i (filter (fun d => n mod d =? 0) (upto n)) -> 1 <= i) by (intros i Hi; apply filter_In in Hi; destruct Hi as (Hi & _); apply in_upto in Hi; lia).
  induction (filter _ _) as [|i l IH]; [cbn; lia|]. cbn. assert (1 <= i) by (apply H; left; reflexivity). assert (0 < i ^ k) by (apply Z.pow_pos_nonneg; lia).
  assert (0 <= fold_right Z.add 0 (map (fun d => d ^ k) l)) by (apply IH; intros; apply H; right; assumption). lia.
Qed.
Lemma sigma_pos k n : 0 <= k -> 1 <= n -> 1 <= sigma k n.
Proof.
  intros Hk Hn. unfold sigma. assert (H: forall i, In i (filter (fun d => n mod d =? 0) (upto n)) -> 1 <= i) by (intros i Hi; apply filter_In in Hi; destruct Hi as (Hi & _); apply in_upto in Hi; lia).
  assert (H1: In 1 (filter (fun d => n mod d =? 0) (upto n))) by (apply filter_In; split; [apply in_upto; lia|rewrite Z.mod_1_r; reflexivity]).
  induction (filter _ _) as [|i l IH]; [destruct H1|]. cbn. assert (1 <= i) by (apply H; left; reflexivity). assert (0 < i ^ k) by (apply Z.pow_pos_nonneg; lia).
  assert (0 <= fold_right Z.add 0 (map (fun d => d ^ k) l)).
  { assert (Hl: forall j, In j l -> 1 <= j) by (intros; apply H; right; assumption). clear - Hl Hk. induction l as [|j l IH]; [cbn; lia|]. cbn.
    assert (1 <= j) by (apply Hl; left; reflexivity). assert (0 < j ^ k) by (apply Z.pow_pos_nonneg; lia). specialize (IH (fun i Hi => Hl i (or_intror Hi))). lia. }
  lia.
Qed.
Lemma eisenstein4_spec N : 0 <= N < i32_max -> exists r, eisenstein4 N = Ok r /\ sorted r /\ no_zero r /\ keysP (qkey N) r /\ feq r (e4_sum N).
Proof.
  intros HN. unfold eisenstein4. rewrite i32_ok by (unfold i32_min, i32_max in *; lia). cbn [bind]. rewrite zrange_upto.
  match goal with |- context [foldM ?F _ _] => set (f := F) end.
  assert (G: forall l s, (forall n, In n l -> 1 <= n <= N) -> sorted s -> no_zero s -> keysP (qkey N) s ->
    exists r, foldM f l s = Ok r /\ sorted r /\ no_zero r /\ keysP (qkey N) r /\ feq r (fadd s (map (fun n => (qmono n, 240 * sigma 3 n)) l))).
  { induction l as [|n l IH]; intros s Hl Ss Ns Ks.
    - exists s. split; [reflexivity|]. split; [exact Ss|]. split; [exact Ns|]. split; [exact Ks|]. cbn. unfold fadd. rewrite app_nil_r. reflexivity.
    - cbn [foldM]. assert (Hn: 1 <= n <= N) by (apply Hl; left; reflexivity).
      assert (E: f s n = Ok (p_add s (to_pol (mkTerm (240 * sigma 3 n) (qmono n))))).
      { unfold f. rewrite sigma_spec by lia. reflexivity. }
      rewrite E. cbn [bind]. destruct (IH (p_add s (to_pol (mkTerm (240 * sigma 3 n) (qmono n))))) as (r & Er & Sr & Nr & Kr & F).
      + intros; apply Hl; right; assumption.
      + apply p_add_sorted, Ss.
      + apply p_add_no_zero; [exact Ss|exact Ns|apply to_pol_no_zero].
      + apply p_add_keys; [exact Ss|exact Ks|]. apply to_pol_keys, qkey_qmono. lia.
      + exists r. split; [exact Er|]. split; [exact Sr|]. split; [exact Nr|]. split; [exact Kr|]. rewrite F, (p_add_feq _ _ Ss), (to_pol_feq _).
        cbn [tm tc map]. unfold fadd. rewrite <- app_assoc. reflexivity. }
  destruct (G (upto N) p_one) as (r & E & Sr & Nr & Kr & F).
  - intros n Hn. apply in_upto in Hn. lia.
  - exact qone_sorted.
  - exact (to_pol_no_zero term_one).
  - apply qone_key. lia.
  - exists r. split; [exact E|]. split; [exact Sr|]. split; [exact Nr|]. split; [exact Kr|]. rewrite F. reflexivity.
Qed.
Lemma qmono_inj n k : qmono n = qmono k -> n = k.
Proof. intros H. injection H. auto. Qed.
Lemma coef_qmap (f : Z -> Z) l n : NoDup l -> coef (map (fun n => (qmono n, f n)) l) (qmono n) = if existsb (Z.eqb n) l then f n else 0.
Proof.
  induction l as [|k l IH]; intros Hd; [reflexivity|]. inversion Hd as [|? ? Hk Hd']; subst. cbn [map coef existsb]. rewrite (IH Hd').
  destruct (n =? k) eqn:E.
  - assert (n = k) by lia. subst. rewrite mono_eqb_refl. cbn [orb]. destruct (existsb (Z.eqb k) l) eqn:Ex; [|ring].
    exfalso. apply existsb_exists in Ex. destruct Ex as (j & Hj & Ej). apply Hk. replace k with j by lia. exact Hj.
  - rewrite mono_eqb_neq; [reflexivity|]. intros H. apply qmono_inj in H. lia.
Qed.
Lemma upto_NoDup n : NoDup (upto n).
Proof. unfold upto. apply FinFun.Injective_map_NoDup; [intros x y H; lia|apply seq_NoDup]. Qed.
Lemma e4_coef N n : 0 <= n -> coef (e4_sum N) (qmono n) = if n =? 0 then 1 else if n <=? N then 240 * sigma 3 n else 0.
Proof.
  intros Hn. unfold e4_sum. cbn [coef]. rewrite coef_qmap by apply upto_NoDup. change mone with (qmono 0). destruct (n =? 0) eqn:E.
  - assert (n = 0) by lia. subst. rewrite mono_eqb_refl. destruct (existsb (Z.eqb 0) (upto N)) eqn:Ex; [|ring]. apply existsb_exists in Ex. destruct Ex as (j & Hj & Ej). apply in_upto in Hj. lia.
  - rewrite mono_eqb_neq by (intros H; apply qmono_inj in H; lia). rewrite Z.add_0_l.
    destruct (n <=? N) eqn:En, (existsb (Z.eqb n) (upto N)) eqn:Ex; try reflexivity; exfalso.
    + assert (existsb (Z.eqb n) (upto N) = true); [|congruence]. apply existsb_exists. exists n. split; [apply in_upto; lia|lia].
    + apply existsb_exists in Ex. destruct Ex as (j & Hj & Ej). apply in_upto in Hj. lia.
Qed.

(** ** Delta *)
Arguments eta_factor : simpl never.
Definition eprod (l : list Z) : fsum := fold_right (fun n acc => conv (eta_factor n) acc) (fconst 1) l.
Lemma eta_base_feq n : 1 <= n -> feq (p_sub p_one (to_pol (tb_build (tb_qpow n tb_new)))) [(mone, 1); (qmono n, -1)].
Proof.
  intros Hn. rewrite (p_sub_feq _ _ qone_sorted (to_pol_sorted _)). change (to_pol (tb_build (tb_qpow n tb_new))) with [(qmono n, 1)]. reflexivity.
Qed.
Lemma eta_base_keys n N : 1 <= n <= N -> keysP (qkey N) (p_sub p_one (to_pol (tb_build (tb_qpow n tb_new)))).
Proof. intros Hn. apply p_sub_keys; [exact qone_sorted|apply to_pol_sorted|apply qone_key; lia|]. apply to_pol_keys. apply (qkey_qmono N n). lia. Qed.
Lemma eta_qnonneg n : 0 <= n -> qnonneg (eta_factor n).
Proof. intros Hn. apply qnonneg_fpow. intros m c [E|[E|[]]]; injection E; intros; subst; cbn; lia. Qed.
Lemma eprod_qnonneg l : (forall n, In n l -> 0 <= n) -> qnonneg (eprod l).
Proof. induction l as [|n l IH]; intros H; [apply qnonneg_const|]. cbn. apply qnonneg_conv; [apply eta_qnonneg, H; left; reflexivity|apply IH; intros; apply H; right; assumption]. Qed.
Lemma delta_loop N : 0 <= N -> 2 * N + 1 <= i32_max -> forall l s, (forall n, In n l -> 1 <= n <= N) -> sorted s -> keysP (qkey N) s ->
  exists r, foldM (fun pol n => let t := to_pol (tb_build (tb_qpow n tb_new)) in
           u <- power_omit_high_order_q (p_sub p_one t) 24 N ;; pol <- p_mul_assign pol u ;; omit_high_order_q pol N) l s = Ok r /\
    sorted r /\ keysP (qkey N) r /\ feq_upto N r (conv s (eprod l)).
Proof.
  intros HN HM. induction l as [|n l IH]; intros s Hl Ss Ks.
  - exists s. split; [reflexivity|]. split; [exact Ss|]. split; [exact Ks|]. apply feq_upto_of. cbn. rewrite (conv_comm s (fconst 1)), conv_1_l. reflexivity.
  - cbn [foldM]. assert (Hn: 1 <= n <= N) by (apply Hl; left; reflexivity).
    set (e := p_sub p_one (to_pol (tb_build (tb_qpow n tb_new)))).
    destruct (qpower_omit_returns N N e 24) as (u & Eu & Su & Ku & Fu); try lia; [apply p_sub_sorted, qone_sorted|apply eta_base_keys, Hn|].
    cbv zeta. rewrite Eu. cbn [bind]. unfold p_mul_assign. destruct (qmul_returns N N s u ltac:(lia) Ks Ku) as (s1 & E1 & S1 & K1 & F1). rewrite E1. cbn [bind].
    destruct (qomit_returns (N + N) N s1 HN ltac:(lia) S1 K1) as (s2 & E2 & S2 & K2 & F2). rewrite E2. cbn [bind].
    destruct (IH s2) as (r & Er & Sr & Kr & Fr); [intros; apply Hl; right; assumption|exact S2|exact K2|].
    cbv zeta in Er. exists r. split; [exact Er|]. split; [exact Sr|]. split; [exact Kr|]. rewrite Fr. cbn [eprod fold_right]. fold (eprod l).
    assert (Nl: qnonneg (eprod l)) by (apply eprod_qnonneg; intros k Hk; assert (1 <= k <= N) by (apply Hl; right; exact Hk); lia).
    assert (Fe: feq_upto N s2 (conv s (eta_factor n))).
    { rewrite F2, (feq_upto_of N _ _ F1). apply upto_conv; [apply (qkey_qnonneg N), Ku|apply (qkey_qnonneg N), Ks|reflexivity|].
      rewrite Fu. apply feq_upto_of. apply feqm_0. apply fpow_proper. apply feqm_0. apply eta_base_feq. lia. }
    rewrite (upto_conv_l N _ _ (eprod l) Nl Fe). apply feq_upto_of. rewrite conv_assoc. reflexivity.
Qed.
Lemma delta1_spec N : 0 <= N -> 2 * N + 1 <= i32_max -> exists r, delta1 N = Ok r /\ sorted r /\ keysP (qkey N) r /\ feq_upto N r (eta_product N).
Proof.
  intros HN HM. unfold delta1. rewrite i32_ok by (unfold i32_min, i32_max in *; lia). cbn [bind]. rewrite zrange_upto.
  destruct (delta_loop N HN HM (upto N) p_one) as (r & E & Sr & Kr & F); [intros n Hn; apply in_upto in Hn; lia|exact qone_sorted|apply qone_key, HN|].
  exists r. split; [exact E|]. split; [exact Sr|]. split; [exact Kr|]. rewrite F. apply feq_upto_of. rewrite p_one_eq. apply conv_1_l.
Qed.
Lemma eta_base_unit n : 1 <= n -> unit_ser [(mone, 1); (qmono n, -1)].
Proof.
  intros Hn m Hm. unfold fsub. rewrite coef_app, coef_neg. cbn [coef fconst]. rewrite (mono_eqb_neq (qmono n) m) by (intros <-; cbn in Hm; lia).
  destruct (mono_eqb mone m); reflexivity.
Qed.
Lemma eprod_unit l : (forall n, In n l -> 1 <= n) -> unit_ser (eprod l).
Proof.
  induction l as [|n l IH]; intros H; [exact unit_one|]. cbn [eprod fold_right]. fold (eprod l). assert (1 <= n) by (apply H; left; reflexivity).
  apply unit_conv; [apply eta_qnonneg; lia|apply eprod_qnonneg; intros k Hk; assert (1 <= k) by (apply H; right; exact Hk); lia| |apply IH; intros; apply H; right; assumption].
  apply unit_fpow; [|apply eta_base_unit; assumption]. intros m c [E|[E|[]]]; injection E; intros; subst; cbn; lia.
Qed.

(** ** Inverse of Delta *)
Fixpoint fgeom (a : fsum) (k : nat) : fsum := match k with O => [] | S k => fadd (fgeom a k) (fpow a k) end.
Lemma fgeom_spec a k : feq (conv (fsub (fconst 1) a) (fgeom a k)) (fsub (fconst 1) (fpow a k)).
Proof.
  induction k as [|k IH]; cbn [fgeom fpow]; [ring|]. rewrite conv_add_r, IH. ring.
Qed.
Lemma geom_loop N (a : poly) : 0 <= N -> 2 * N + 1 <= i32_max -> sorted a -> keysP (qkey N) a -> forall l s, (forall n, In n l -> 1 <= n) -> sorted s -> keysP (qkey N) s ->
  exists r, foldM (fun pol n => t <- power_omit_high_order_q a n N ;; Ok (p_add_assign pol t)) l s = Ok r /\
    sorted r /\ keysP (qkey N) r /\ feq_upto N r (fadd s (flat_map (fun n => fpow a (Z.to_nat n)) l)).
Proof.
  intros HN HM Sa Ka. induction l as [|n l IH]; intros s Hl Ss Ks.
  - exists s. split; [reflexivity|]. split; [exact Ss|]. split; [exact Ks|]. cbn. unfold fadd. rewrite app_nil_r. reflexivity.
  - cbn [foldM]. assert (1 <= n) by (apply Hl; left; reflexivity). destruct (qpower_omit_returns N N a n) as (u & Eu & Su & Ku & Fu); try lia; try assumption.
    rewrite Eu. cbn [bind]. unfold p_add_assign. change (fold_left add_entry u s) with (p_add s u).
    destruct (IH (p_add s u)) as (r & Er & Sr & Kr & Fr); [intros; apply Hl; right; assumption|apply p_add_sorted, Ss|apply p_add_keys; assumption|].
    exists r. split; [exact Er|]. split; [exact Sr|]. split; [exact Kr|]. intros m Hm. rewrite (Fr m Hm). unfold fadd. cbn [flat_map]. rewrite !coef_app, p_add_coef by exact Ss.
    rewrite (Fu m Hm). ring.
Qed.
Lemma flat_geom a n : feq (fadd (fconst 1) (flat_map (fun n => fpow a (Z.to_nat n)) (upto (Z.of_nat n)))) (fgeom a (S n)).
Proof.
  induction n as [|n IH].
  - cbn. reflexivity.
  - cbn [fgeom] in *. assert (upto (Z.of_nat (S n)) = upto (Z.of_nat n) ++ [Z.of_nat (S n)]) as ->.
    { unfold upto. rewrite !Nat2Z.id. rewrite seq_S, map_app. reflexivity. }
    rewrite flat_map_app. cbn [flat_map]. rewrite app_nil_r, Nat2Z.id. intros m. unfold fadd in *. specialize (IH m). rewrite !coef_app in *. lia.
Qed.
Lemma upto_sub N a b c d : feq_upto N a b -> feq_upto N c d -> feq_upto N (fsub a c) (fsub b d).
Proof. intros H H' m Hm. unfold fsub. rewrite !coef_app, !coef_neg, (H m Hm), (H' m Hm). reflexivity. Qed.
Lemma delta1_inverse_spec N : 0 <= N -> 2 * N + 1 <= i32_max -> exists d r, delta1 N = Ok d /\ delta1_inverse N = Ok r /\ sorted r /\ keysP (qkey N) r /\
  feq_upto N (conv r d) (fconst 1).
Proof.
  intros HN HM. destruct (delta1_spec N HN HM) as (d & Ed & Sd & Kd & Fd). unfold delta1_inverse. rewrite Ed. cbn [bind]. exists d.
  rewrite i32_ok by (unfold i32_min, i32_max in *; lia). cbn [bind]. rewrite zrange_upto. set (a := p_sub p_one d).
  assert (Sa: sorted a) by (apply p_sub_sorted, qone_sorted). assert (Ka: keysP (qkey N) a) by (apply p_sub_keys; auto using qone_sorted; apply qone_key, HN).
  assert (Fa: feq a (fsub (fconst 1) d)) by (unfold a; rewrite (p_sub_feq _ _ qone_sorted Sd), p_one_eq; reflexivity).
  destruct (geom_loop N a HN HM Sa Ka (upto N) p_one) as (r & Er & Sr & Kr & Fr); [intros n Hn; apply in_upto in Hn; lia|exact qone_sorted|apply qone_key, HN|].
  exists r. split; [reflexivity|]. split; [exact Er|]. split; [exact Sr|]. split; [exact Kr|].
  assert (Fg: feq_upto N r (fgeom a (S (Z.to_nat N)))).
  { rewrite Fr. rewrite p_one_eq. apply feq_upto_of. rewrite <- flat_geom. rewrite Z2Nat.id by exact HN. reflexivity. }
  rewrite (upto_conv_l N _ _ d (qkey_qnonneg N d Kd) Fg). rewrite (feq_upto_of N _ _ (conv_comm _ d)).
  assert (Fd': feq d (fsub (fconst 1) a)) by (rewrite Fa; generalize (d : fsum); intros u; ring).
  rewrite (feq_upto_of N _ (conv (fsub (fconst 1) a) (fgeom a (S (Z.to_nat N))))) by (rewrite <- Fd'; reflexivity).
  rewrite (feq_upto_of N _ _ (fgeom_spec a _)).
  assert (U: ord_ge 1 a).
  { assert (unit_ser d) as Ud.
    { apply (unit_upto N (eta_product N)); [exact HN|symmetry; exact Fd|]. apply (eprod_unit (upto N)). intros n Hn. apply in_upto in Hn. lia. }
    apply (ord_ge_feq 1 (fneg (fsub d (fconst 1)))); [rewrite Fa; generalize (d : fsum); intros u; ring|]. apply ord_neg, Ud. }
  pose proof (ord_fpow a (S (Z.to_nat N)) U) as O. replace (Z.of_nat (S (Z.to_nat N))) with (N + 1) in O by lia.
  rewrite (upto_sub N _ _ _ _ (reflexivity (fconst 1)) (ord_upto N _ O)). reflexivity.
Qed.

(** ** j *)
Lemma upto_conv_sym N a a' b b' : qnonneg a' -> qnonneg b -> feq_upto N a a' -> feq_upto N b b' -> feq_upto N (conv a b) (conv a' b').
Proof. intros Ha Hb H H'. apply upto_conv; assumption. Qed.
Lemma j1_spec N : 0 <= N -> 3 * N + 1 <= i32_max -> exists e d i r, eisenstein4 N = Ok e /\ delta1 N = Ok d /\ delta1_inverse N = Ok i /\ j_invariant1 N = Ok r /\
  sorted r /\ keysP (qkey N) r /\ feq_upto N r (conv i (fpow e 3)) /\ feq_upto N (conv r d) (fpow e 3).
Proof.
  intros HN HM. destruct (eisenstein4_spec N ltac:(lia)) as (e & Ee & Se & _ & Ke & Fe). destruct (delta1_inverse_spec N HN ltac:(lia)) as (d & i & Ed & Ei & Si & Ki & Fi).
  destruct (delta1_spec N HN ltac:(lia)) as (d' & Ed' & Sd & Kd & _). assert (d' = d) by congruence. subst d'.
  unfold j_invariant1. rewrite Ei, Ee. cbn [bind]. change p_power_i32 with p_power.
  destruct (p_power_returns e 3 N ltac:(lia) HN ltac:(lia)) as (e3 & E3 & _).
  { intros m c Hi. destruct (Ke _ _ Hi) as (X & Y & Z & W). rewrite X, Y. cbn. repeat split; try lia. exact W. }
  rewrite E3. cbn [bind]. destruct (p_power_spec e 3 e3 Se E3) as (_ & S3 & F3).
  assert (K3: keysP (qkey (3 * N)) e3).
  { (* e^3 = e * (e * e) as keys *)
    assert (P: keysP (fun m => mx m = 0 /\ my m = 0 /\ 0 <= mq m /\ mv m = None) e3).
    { refine (p_power_keys (fun m => mx m = 0 /\ my m = 0 /\ 0 <= mq m /\ mv m = None) e 3 e3 _ _ _ E3); [cbn; intuition lia| |].
      - intros m1 m2 (X & Y & Z & W) (X' & Y' & Z' & W') _. unfold mmul. cbn. rewrite W, W'. cbn. intuition lia.
      - intros m c Hi. destruct (Ke _ _ Hi) as (X & Y & Z & W). intuition lia. }
    destruct (p_power_returns e 3 N ltac:(lia) HN ltac:(lia)) as (e3' & E3' & B3).
    { intros m c Hi. destruct (Ke _ _ Hi) as (X & Y & Z & W). rewrite X, Y. cbn. repeat split; try lia. exact W. }
    assert (e3' = e3) by congruence. subst e3'. intros m c Hi. destruct (P _ _ Hi) as (X & Y & Z & W). destruct (B3 _ _ Hi) as (_ & _ & B & _). unfold qkey. intuition lia. }
  destruct (qomit_returns (3 * N) N e3 HN ltac:(lia) S3 K3) as (e' & E' & S' & K' & F'). rewrite E'. cbn [bind].
  destruct (qmul_returns N N i e' ltac:(lia) Ki K') as (j & Ej & Sj & Kj & Fj). rewrite Ej. cbn [bind].
  destruct (qomit_returns (N + N) N j HN ltac:(lia) Sj Kj) as (r & Er & Sr & Kr & Fr). exists e, d, i, r. do 3 (split; [assumption || reflexivity|]). split; [exact Er|]. split; [exact Sr|]. split; [exact Kr|].
  assert (Fr': feq_upto N r (conv i (fpow e 3))).
  { rewrite Fr, (feq_upto_of N _ _ Fj). apply upto_conv; [apply (qkey_qnonneg N), K'|apply (qkey_qnonneg N), Ki|reflexivity|]. rewrite F'. apply feq_upto_of, F3. }
  split; [exact Fr'|]. rewrite (upto_conv_l N _ _ d (qkey_qnonneg N d Kd) Fr').
  assert (Ne: qnonneg (fpow e 3)) by (apply qnonneg_fpow, (qkey_qnonneg N), Ke).
  rewrite (feq_upto_of N _ (conv (conv i d) (fpow e 3))) by ring. rewrite (upto_conv_l N _ _ (fpow e 3) Ne Fi). apply feq_upto_of. apply conv_1_l.
Qed.

(** Stability in N *)
Lemma upto_snoc M : 0 <= M -> upto (M + 1) = upto M ++ [M + 1].
Proof. intros H. unfold upto. replace (Z.to_nat (M + 1)) with (S (Z.to_nat M)) by lia. rewrite seq_S, map_app. cbn [map]. f_equal. f_equal. lia. Qed.
Lemma eprod_cons n l : eprod (n :: l) = conv (eta_factor n) (eprod l).
Proof. reflexivity. Qed.
Lemma eprod_app l l' : feq (eprod (l ++ l')) (conv (eprod l) (eprod l')).
Proof.
  induction l as [|n l IH].
  - cbn [app]. change (eprod []) with (fconst 1). rewrite conv_1_l. reflexivity.
  - cbn [app]. rewrite !eprod_cons. generalize (eta_factor n). intros u. rewrite IH. generalize (eprod l), (eprod l'). intros. ring.
Qed.
Lemma eta_high N n : 0 <= N < n -> feq_upto N (eta_factor n) (fconst 1).
Proof.
  intros H. unfold eta_factor. set (b := [(mone, 1); (qmono n, -1)]).
  assert (Hb: feq_upto N b (fconst 1)).
  { intros m Hm. unfold b. cbn [coef fconst]. rewrite (mono_eqb_neq (qmono n) m) by (intros <-; cbn in Hm; lia). ring. }
  assert (Nb: qnonneg b) by (intros m c [E|[E|[]]]; injection E; intros; subst; cbn; lia).
  assert (P: forall k, feq_upto N (fpow b k) (fconst 1)).
  { induction k as [|k IH]; [reflexivity|]. cbn [fpow]. rewrite (upto_conv N b (fconst 1) (fpow b k) (fconst 1)); auto using qnonneg_fpow, qnonneg_const.
    apply feq_upto_of, conv_1_l. }
  apply P.
Qed.
Lemma eta_product_stable N k : 0 <= N -> feq_upto N (eta_product (N + Z.of_nat k)) (eta_product N).
Proof.
  intros HN. induction k as [|k IH]; [rewrite Z.add_0_r; reflexivity|]. replace (N + Z.of_nat (S k)) with (N + Z.of_nat k + 1) by lia.
  change eta_product with (fun N => eprod (upto N)) in *. cbv beta in *. rewrite upto_snoc by lia. rewrite (feq_upto_of N _ _ (eprod_app _ _)).
  assert (Nn: qnonneg (eprod [N + Z.of_nat k + 1])) by (apply eprod_qnonneg; intros n [<-|[]]; lia).
  rewrite (upto_conv_l N _ _ _ Nn IH). rewrite (feq_upto_of N _ _ (conv_comm _ _)). 
  assert (F1: feq_upto N (eprod [N + Z.of_nat k + 1]) (fconst 1)).
  { cbn [eprod fold_right]. rewrite (feq_upto_of N _ _ (conv_comm _ _)), (feq_upto_of N _ _ (conv_1_l _)). apply eta_high. lia. }
  rewrite (upto_conv_l N _ _ _ (eprod_qnonneg _ ltac:(intros n Hn; apply in_upto in Hn; lia)) F1). apply feq_upto_of, conv_1_l.
Qed.
Lemma e4_stable N M : 0 <= N <= M -> feq_upto N (e4_sum M) (e4_sum N).
Proof.
  intros H. assert (G: forall k, feq_upto N (e4_sum (N + Z.of_nat k)) (e4_sum N)).
  { induction k as [|k IH]; [rewrite Z.add_0_r; reflexivity|]. intros m Hm. rewrite <- (IH m Hm). replace (N + Z.of_nat (S k)) with (N + Z.of_nat k + 1) by lia.
    unfold e4_sum. rewrite upto_snoc by lia. cbn [coef]. rewrite map_app, coef_app. cbn [map coef]. rewrite (mono_eqb_neq (qmono _) m) by (intros <-; cbn in Hm; lia). ring. }
  specialize (G (Z.to_nat (M - N))). replace (N + Z.of_nat (Z.to_nat (M - N))) with M in G by lia. exact G.
Qed.
Lemma j1_stable N M r s : 0 <= N <= M -> 3 * M + 1 <= i32_max -> j_invariant1 N = Ok r -> j_invariant1 M = Ok s -> feq_upto N r s.
Proof.
  intros H HM Er Es. destruct (j1_spec N ltac:(lia) ltac:(lia)) as (e & d & i & r' & Ee & Ed & Ei & Er' & Sr & Kr & Fr & Fd).
  destruct (j1_spec M ltac:(lia) ltac:(lia)) as (e2 & d2 & i2 & s' & Ee2 & Ed2 & Ei2 & Es' & Ss & Ks & Fs & Fd2).
  assert (r' = r) by congruence. assert (s' = s) by congruence. subst r' s'.
  destruct (delta1_spec N ltac:(lia) ltac:(lia)) as (d' & Ed' & _ & Kd & Pd). assert (d' = d) by congruence. subst d'.
  destruct (delta1_spec M ltac:(lia) ltac:(lia)) as (d' & Ed'2 & _ & Kd2 & Pd2). assert (d' = d2) by congruence. subst d'.
  destruct (eisenstein4_spec N ltac:(lia)) as (e' & Ee'1 & _ & _ & Ke & Fe). assert (e' = e) by congruence. subst e'.
  destruct (eisenstein4_spec M ltac:(lia)) as (e' & Ee' & _ & _ & Ke2 & Fe2). assert (e' = e2) by congruence. subst e'.
  destruct (delta1_inverse_spec N ltac:(lia) ltac:(lia)) as (d' & i' & Ed'3 & Ei' & _ & Ki & Fi). assert (d' = d) by congruence. assert (i' = i) by congruence. subst d' i'.
  (* d = d2, e = e2 up to N *)
  assert (Fdd: feq_upto N d2 d).
  { rewrite Pd. rewrite (upto_le M N _ _ ltac:(lia) Pd2). replace M with (N + Z.of_nat (Z.to_nat (M - N))) by lia. apply eta_product_stable. lia. }
  assert (Fee: feq_upto N e2 e) by (rewrite (feq_upto_of N _ _ Fe), (feq_upto_of N _ _ Fe2); apply e4_stable, H).
  assert (Ns: qnonneg s) by (apply (qkey_qnonneg M), Ks). assert (Nr: qnonneg r) by (apply (qkey_qnonneg N), Kr).
  assert (Nd: qnonneg d) by (apply (qkey_qnonneg N), Kd). assert (Nd2: qnonneg d2) by (apply (qkey_qnonneg M), Kd2).
  assert (Ne: qnonneg e) by (apply (qkey_qnonneg N), Ke). assert (Ne2: qnonneg e2) by (apply (qkey_qnonneg M), Ke2). assert (Ni: qnonneg i) by (apply (qkey_qnonneg N), Ki).
  assert (Pow: forall k, feq_upto N (fpow e2 k) (fpow e k)).
  { induction k as [|k IH]; [reflexivity|]. cbn [fpow]. apply upto_conv; auto using qnonneg_fpow. }
  (* s = s d i = s d2 i = e2^3 i = e^3 i = r *)
  assert (A: feq_upto N s (conv (conv s d2) i)).
  { assert (B: feq_upto N (conv (conv s d2) i) (conv (conv s d) i)) by (apply upto_conv_l; [exact Ni|]; apply upto_conv; auto; reflexivity).
    rewrite B.
    assert (B2: feq (conv (conv s d) i) (conv (conv i d) s)) by (generalize (s:fsum), (d:fsum), (i:fsum); intros; ring).
    rewrite (feq_upto_of N _ _ B2). rewrite (upto_conv_l N _ _ s Ns Fi). apply feq_upto_of. symmetry. apply conv_1_l. }
  symmetry. rewrite A. rewrite (upto_conv_l N (conv s d2) (fpow e 3) i Ni).
  - rewrite Fr. apply feq_upto_of, conv_comm.
  - rewrite (upto_le M N _ _ ltac:(lia) Fd2). apply Pow.
Qed.
(** Shift by q^-1 *)
Lemma j_spec N : -1 <= N -> 3 * (N + 1) + 1 <= i32_max -> exists r j, j_invariant1 (N + 1) = Ok r /\ j_invariant N = Ok j /\ sorted j /\
  (forall m, coef j m = coef r (mmul m (qmono 1))) /\ (forall m c, In (m, c) j -> exists n, -1 <= n <= N /\ m = qmono n).
Proof.
  intros HN HM. destruct (j1_spec (N + 1) ltac:(lia) HM) as (e & d & i & r & _ & _ & _ & Er & Sr & Kr & _). exists r. unfold j_invariant.
  rewrite i32_ok by (unfold i32_min, i32_max in *; lia). cbn [bind]. rewrite Er. cbn [bind]. change (to_pol (tb_build (tb_qpow (-1) tb_new))) with [(qmono (-1), 1)].
  destruct (p_mul_returns r [(qmono (-1), 1)]) as (j & Ej).
  { intros m1 c1 m2 c2 H1 [E|[]]. injection E; intros; subst. destruct (Kr _ _ H1) as (X & Y & Z & W). unfold mul_ok, i32_min, i32_max in *. cbn. intuition lia. }
  exists j. split; [reflexivity|]. split; [exact Ej|]. split; [eapply p_mul_sorted, Ej|]. split.
  - intros m. rewrite (p_mul_feq _ _ _ Ej m), (conv_comm r _ m), coef_conv1 by reflexivity. rewrite Z.mul_1_l. f_equal. unfold mdiv, mmul, qmono. cbn. destruct (mv m) as [[? ?]|]; cbn; f_equal; try ring; reflexivity.
  - apply (p_mul_keys (qkey (N + 1)) (fun m => m = qmono (-1)) (fun m => exists n, -1 <= n <= N /\ m = qmono n) r _ j Ej Kr).
    + intros m c [E|[]]. injection E; intros; subst. reflexivity.
    + intros m1 m2 H1 -> _. apply qkey_mono in H1. destruct H1 as (Eq & B). exists (mq m1 - 1). split; [lia|]. rewrite Eq. reflexivity.
Qed.
