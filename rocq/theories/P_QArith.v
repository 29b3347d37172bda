(** The Euler operator q d/dq on q-series and the logarithmic derivative of the product (1 - q^n)^24. *)
From Coq Require Import Znumtheory ZifyBool Setoid Morphisms Ring Permutation.
From Verif Require Import Prelude M_Bigint M_Variable M_Term M_Poly M_QSeries Spec P_Bigint P_Variable P_FSum P_Poly P_Rem P_PolyProps P_Subst P_Subst2 P_Subst3 P_SubstProps P_Mod P_Gcd P_Q.
Open Scope Z_scope.

(** ** The Euler operator *)
Definition theta (a : fsum) : fsum := map (fun e => (fst e, snd e * mq (fst e))) a.
Lemma coef_theta a m : coef (theta a) m = mq m * coef a m.
Proof.
  induction a as [|[k c] a IH]; cbn [theta map coef fst snd]; [ring|]. fold (theta a). rewrite IH.
  destruct (mono_eqb k m) eqn:E; [apply mono_eqb_eq in E; subst; ring|ring].
Qed.
Lemma theta_upto N a b : feq_upto N a b -> feq_upto N (theta a) (theta b).
Proof. intros H m Hm. rewrite !coef_theta, (H m Hm). reflexivity. Qed.
Lemma theta_qnonneg a : qnonneg a -> qnonneg (theta a).
Proof. intros H m c Hi. unfold theta in Hi. apply in_map_iff in Hi. destruct Hi as ([k e] & E & Hi). injection E as <- <-. exact (H _ _ Hi). Qed.
Lemma lin_theta phi a : lin phi (theta a) = lin (fun m => mq m * phi m) a.
Proof. induction a as [|[k c] a IH]; [reflexivity|]. unfold theta in *. cbn [map lin fst snd]. rewrite IH. ring. Qed.
Lemma theta_conv a b : feq (theta (conv a b)) (fadd (conv (theta a) b) (conv a (theta b))).
Proof.
  apply feq_intro. intros phi. unfold fadd. rewrite lin_app, lin_theta, !lin_conv, lin_theta, <- lin_plus. apply lin_ext. intros m1.
  rewrite lin_theta, <- lin_scale, <- lin_plus. apply lin_ext. intros m2. cbn [mmul mq]. ring.
Qed.
(** D is the logarithmic derivative of u, up to order N. *)
Definition logd (N : Z) (D u : fsum) : Prop := feq_upto N (theta u) (conv D u).
Lemma upto_add N a a' b b' : feq_upto N a a' -> feq_upto N b b' -> feq_upto N (fadd a b) (fadd a' b').
Proof. intros H H' m Hm. unfold fadd. rewrite !coef_app, (H m Hm), (H' m Hm). reflexivity. Qed.
Lemma logd_mul N D E u v : qnonneg u -> qnonneg v -> logd N D u -> logd N E v -> logd N (fadd D E) (conv u v).
Proof.
  intros Nu Nv Hu Hv. unfold logd in *. rewrite (feq_upto_of N _ _ (theta_conv u v)).
  rewrite (upto_add N _ (conv (conv D u) v) _ (conv (conv E v) u)).
  - apply feq_upto_of. ring.
  - apply upto_conv_l; [exact Nv|exact Hu].
  - rewrite (feq_upto_of N _ _ (conv_comm u (theta v))). apply upto_conv_l; [exact Nu|exact Hv].
Qed.
Lemma logd_one N : logd N [] (fconst 1).
Proof. intros m Hm. rewrite coef_theta. cbn [conv flat_map coef fconst]. destruct (mono_eqb mone m) eqn:E; [apply mono_eqb_eq in E; subst; reflexivity|ring]. Qed.
Lemma logd_feq N D E u : qnonneg u -> feq_upto N D E -> logd N D u -> logd N E u.
Proof. intros Nu H Hu. unfold logd in *. rewrite Hu. apply upto_conv_l; assumption. Qed.
Lemma fconst_add a b : feq (fadd (fconst a) (fconst b)) (fconst (a + b)).
Proof. intros m. cbn. destruct (mono_eqb mone m); ring. Qed.
Lemma coef_constmul c b m : coef (conv (fconst c) b) m = c * coef b m.
Proof. unfold fconst. rewrite coef_conv1 by reflexivity. f_equal. f_equal. destruct m as [x y q v]. unfold mdiv. cbn. f_equal; lia. Qed.
Lemma logd_pow N D u k : qnonneg u -> logd N D u -> logd N (conv (fconst (Z.of_nat k)) D) (fpow u k).
Proof.
  intros Nu Hu. induction k as [|k IH].
  - apply (logd_feq N []); [apply qnonneg_const| |apply logd_one]. apply feq_upto_of. intros m. rewrite coef_constmul. reflexivity.
  - cbn [fpow]. apply (logd_feq N (fadd D (conv (fconst (Z.of_nat k)) D))); [apply qnonneg_conv; auto using qnonneg_fpow| |apply logd_mul; auto using qnonneg_fpow].
    apply feq_upto_of. replace (Z.of_nat (S k)) with (1 + Z.of_nat k) by lia. rewrite <- fconst_add. ring.
Qed.

(** ** Sums of c_k q^k *)
Definition qser (f : Z -> Z) (N : Z) : fsum := map (fun k => (qmono k, f k)) (upto N).
Lemma coef_qser f N n : coef (qser f N) (qmono n) = if (1 <=? n) && (n <=? N) then f n else 0.
Proof.
  unfold qser. rewrite coef_qmap by apply upto_NoDup. destruct (existsb (Z.eqb n) (upto N)) eqn:Ex.
  - apply existsb_exists in Ex. destruct Ex as (j & Hj & Ej). apply in_upto in Hj. replace ((1 <=? n) && (n <=? N)) with true by lia. reflexivity.
  - destruct ((1 <=? n) && (n <=? N)) eqn:E; [|reflexivity]. exfalso. assert (existsb (Z.eqb n) (upto N) = true); [|congruence]. apply existsb_exists. exists n. split; [apply in_upto; lia|lia].
Qed.
Lemma qser_key f N : keysP (qkey N) (qser f N).
Proof. intros m c Hi. unfold qser in Hi. apply in_map_iff in Hi. destruct Hi as (k & E & Hk). injection E as <- _. apply in_upto in Hk. apply qkey_qmono. lia. Qed.
(** Comparing sums of powers of q only needs the coefficients of powers of q. *)
Definition qpure (a : fsum) : Prop := forall m c, In (m, c) a -> m = qmono (mq m).
Lemma qpure_key B a : keysP (qkey B) a -> qpure a.
Proof. intros H m c Hi. apply (qkey_mono B). exact (H _ _ Hi). Qed.
Lemma qpure_conv a b : qpure a -> qpure b -> qpure (conv a b).
Proof.
  intros Ha Hb m c Hi. apply in_conv in Hi. destruct Hi as (m1 & c1 & m2 & c2 & H1 & H2 & -> & _). rewrite (Ha _ _ H1), (Hb _ _ H2). reflexivity.
Qed.
Lemma qpure_app a b : qpure a -> qpure b -> qpure (a ++ b).
Proof. intros Ha Hb m c Hi. apply in_app_or in Hi. destruct Hi; eauto. Qed.
Lemma qpure_theta a : qpure a -> qpure (theta a).
Proof. intros H m c Hi. unfold theta in Hi. apply in_map_iff in Hi. destruct Hi as ([k e] & E & Hi). injection E as <- <-. exact (H _ _ Hi). Qed.
Lemma qpure_upto N a b : qpure a -> qpure b -> (forall n, n <= N -> coef a (qmono n) = coef b (qmono n)) -> feq_upto N a b.
Proof.
  intros Ha Hb H m Hm. destruct (mono_eqb m (qmono (mq m))) eqn:E.
  - apply mono_eqb_eq in E. rewrite E. apply H. exact Hm.
  - assert (m <> qmono (mq m)) by (intros X; rewrite <- X, mono_eqb_refl in E; discriminate).
    rewrite !coef_notin; [reflexivity| |]; intros c Hi; [apply Hb in Hi|apply Ha in Hi]; congruence.
Qed.
(** Product of such a sum with another series, coefficient by coefficient. *)
Definition zsum (l : list Z) : Z := fold_right Z.add 0 l.
Lemma coef_qser_conv f l d n : coef (conv (map (fun k => (qmono k, f k)) l) d) (qmono n) = zsum (map (fun k => f k * coef d (qmono (n - k))) l).
Proof.
  induction l as [|k l IH]; [reflexivity|]. cbn [map zsum fold_right]. fold (zsum (map (fun k => f k * coef d (qmono (n - k))) l)). rewrite <- IH.
  change (conv ((qmono k, f k) :: map (fun k => (qmono k, f k)) l) d) with (conv ([(qmono k, f k)] ++ map (fun k => (qmono k, f k)) l) d).
  unfold conv. rewrite flat_map_app, coef_app. f_equal. change (coef (conv [(qmono k, f k)] d) (qmono n) = f k * coef d (qmono (n - k))). rewrite coef_conv1 by reflexivity. reflexivity.
Qed.
Lemma zsum_ext {A} (f g : A -> Z) l : (forall k, In k l -> f k = g k) -> zsum (map f l) = zsum (map g l).
Proof. intros H. f_equal. apply map_ext_in, H. Qed.
Lemma zsum_app l l' : zsum (l ++ l') = zsum l + zsum l'.
Proof. induction l as [|a l IH]; [reflexivity|]. cbn [app zsum fold_right]. fold (zsum l). fold (zsum (l ++ l')). rewrite IH. ring. Qed.
Lemma zsum_zero {A} (f : A -> Z) l : (forall k, In k l -> f k = 0) -> zsum (map f l) = 0.
Proof. induction l as [|a l IH]; intros H; [reflexivity|]. cbn [map zsum fold_right]. fold (zsum (map f l)). rewrite IH by (intros; apply H; right; assumption). rewrite H by (left; reflexivity). reflexivity. Qed.
Lemma zsum_scale {A} c (f : A -> Z) l : zsum (map (fun k => c * f k) l) = c * zsum (map f l).
Proof. induction l as [|a l IH]; [cbn; ring|]. cbn [map zsum fold_right]. fold (zsum (map f l)). fold (zsum (map (fun k => c * f k) l)). rewrite IH. ring. Qed.
(** 1, ..., N is 1, ..., n followed by n+1, ..., N. *)
Lemma upto_split n N : 0 <= n <= N -> exists l, upto N = upto n ++ l /\ forall k, In k l -> n < k <= N.
Proof.
  intros H. exists (map Z.of_nat (seq (S (Z.to_nat n)) (Z.to_nat N - Z.to_nat n))). split.
  - unfold upto. rewrite <- map_app. f_equal. replace (seq 1 (Z.to_nat N)) with (seq 1 (Z.to_nat n + (Z.to_nat N - Z.to_nat n))) by (f_equal; lia). rewrite seq_app. f_equal.
  - intros k Hk. apply in_map_iff in Hk. destruct Hk as (i & <- & Hi). apply in_seq in Hi. lia.
Qed.
Lemma zsum_upto f n N : 0 <= n <= N -> (forall k, n < k <= N -> f k = 0) -> zsum (map f (upto N)) = zsum (map f (upto n)).
Proof.
  intros H Hf. destruct (upto_split n N H) as (l & -> & Hl). rewrite map_app, zsum_app. rewrite (zsum_zero f l) by (intros k Hk; apply Hf, Hl, Hk). ring.
Qed.

(** ** The factors *)
Definition lfac (N n : Z) : fsum := qser (fun k => if k mod n =? 0 then n else 0) N.
Definition ebase (n : Z) : fsum := [(mone, 1); (qmono n, -1)].
Lemma ebase_qnonneg n : 0 <= n -> qnonneg (ebase n).
Proof. intros H m c [E|[E|[]]]; injection E as <- _; cbn; lia. Qed.
Lemma ebase_qpure n : qpure (ebase n).
Proof. intros m c [E|[E|[]]]; injection E as <- _; reflexivity. Qed.
Lemma logd_base N n : 1 <= n -> logd N (fneg (lfac N n)) (ebase n).
Proof.
  intros Hn. unfold logd. apply qpure_upto; [apply qpure_theta, ebase_qpure|apply qpure_conv; [|apply ebase_qpure]|].
  { intros m c Hi. unfold fneg in Hi. apply in_map_iff in Hi. destruct Hi as ([k e] & E & Hi). injection E as <- _. cbn [fst]. exact (qpure_key N _ (qser_key _ N) _ _ Hi). }
  intros k Hk. rewrite coef_theta. rewrite (conv_comm (fneg (lfac N n)) (ebase n) (qmono k)).
  assert (F: coef (conv (ebase n) (fneg (lfac N n))) (qmono k) = coef (lfac N n) (qmono (k - n)) - coef (lfac N n) (qmono k)).
  { unfold ebase. change [(mone, 1); (qmono n, -1)] with ([(mone, 1)] ++ [(qmono n, -1)]). unfold conv. rewrite flat_map_app, coef_app.
    change (coef (conv [(mone, 1)] (fneg (lfac N n))) (qmono k) + coef (conv [(qmono n, -1)] (fneg (lfac N n))) (qmono k) = coef (lfac N n) (qmono (k - n)) - coef (lfac N n) (qmono k)).
    rewrite !coef_conv1 by reflexivity. change (mdiv (qmono k) (qmono n)) with (qmono (k - n)). replace (mdiv (qmono k) mone) with (qmono k); [|unfold mdiv, qmono; cbn; f_equal; lia]. rewrite !coef_neg. ring. }
  rewrite F. unfold lfac. rewrite !coef_qser. unfold ebase. cbn [coef mq qmono]. change (mkMono 0 0 k None) with (qmono k). change (mkMono 0 0 n None) with (qmono n).
  destruct (Z.eq_dec k 0) as [->|K0].
  { cbn [Z.mul]. replace (1 <=? 0 - n) with false by lia. reflexivity. }
  rewrite (mono_eqb_neq mone (qmono k)) by (change mone with (qmono 0); intros X; apply qmono_inj in X; lia).
  destruct (Z.eq_dec k n) as [->|Kn].
  { rewrite mono_eqb_refl, Z.sub_diag. cbn [Z.leb andb Z.compare]. replace ((1 <=? n) && (n <=? N)) with true by lia. rewrite Z.mod_same by lia. cbn [Z.eqb]. lia. }
  rewrite mono_eqb_neq by (intros X; apply qmono_inj in X; lia).
  assert (Em: (k - n) mod n = k mod n) by (replace (k - n) with (k + (-1) * n) by lia; apply Z.mod_add; lia).
  destruct (1 <=? k) eqn:K1; [|replace (1 <=? k - n) with false by lia; cbn [andb]; ring].
  replace (k <=? N) with true by lia. cbn [andb]. destruct (1 <=? k - n) eqn:K2.
  - replace (k - n <=? N) with true by lia. cbn [andb]. rewrite Em. ring.
  - cbn [andb]. assert (k mod n <> 0) by (rewrite Z.mod_small by lia; lia). replace (k mod n =? 0) with false by lia. ring.
Qed.
Lemma logd_eta N n : 1 <= n -> logd N (conv (fconst (-24)) (lfac N n)) (eta_factor n).
Proof.
  intros Hn. unfold eta_factor. apply (logd_feq N (conv (fconst (Z.of_nat 24)) (fneg (lfac N n)))).
  - apply qnonneg_fpow, ebase_qnonneg. lia.
  - apply feq_upto_of. intros m. rewrite !coef_constmul. rewrite coef_neg. change (Z.of_nat 24) with 24. ring.
  - apply logd_pow; [apply ebase_qnonneg; lia|apply logd_base, Hn].
Qed.
Lemma logd_eprod N l : (forall n, In n l -> 1 <= n) -> logd N (conv (fconst (-24)) (flat_map (lfac N) l)) (eprod l).
Proof.
  induction l as [|n l IH]; intros H; [exact (logd_one N)|]. rewrite eprod_cons. assert (1 <= n) by (apply H; left; reflexivity).
  apply (logd_feq N (fadd (conv (fconst (-24)) (lfac N n)) (conv (fconst (-24)) (flat_map (lfac N) l)))).
  - apply qnonneg_conv; [apply eta_qnonneg; lia|apply eprod_qnonneg; intros k Hk; assert (1 <= k) by (apply H; right; exact Hk); lia].
  - apply feq_upto_of. cbn [flat_map]. change (lfac N n ++ flat_map (lfac N) l) with (fadd (lfac N n) (flat_map (lfac N) l)). generalize (lfac N n), (flat_map (lfac N) l). intros. ring.
  - apply logd_mul; [apply eta_qnonneg; lia|apply eprod_qnonneg; intros k Hk; assert (1 <= k) by (apply H; right; exact Hk); lia|apply logd_eta; assumption|apply IH; intros; apply H; right; assumption].
Qed.
Lemma sum_filter (f : Z -> Z) (g : Z -> bool) l : zsum (map (fun k => if g k then f k else 0) l) = zsum (map f (filter g l)).
Proof.
  induction l as [|a l IH]; [reflexivity|]. cbn [map filter]. destruct (g a); cbn [map zsum fold_right]; fold (zsum (map f (filter g l))); fold (zsum (map (fun k => if g k then f k else 0) l)); rewrite IH; ring.
Qed.
Lemma coef_flat_lfac N l k : coef (flat_map (lfac N) l) (qmono k) = if (1 <=? k) && (k <=? N) then zsum (map (fun n => if k mod n =? 0 then n else 0) l) else 0.
Proof.
  induction l as [|n l IH]; [cbn; destruct ((1 <=? k) && (k <=? N)); reflexivity|]. cbn [flat_map map zsum fold_right]. rewrite coef_app, IH. unfold lfac. rewrite coef_qser.
  destruct ((1 <=? k) && (k <=? N)); reflexivity.
Qed.
Lemma qpure_flat_lfac N l : qpure (flat_map (lfac N) l).
Proof. induction l as [|n l IH]; [intros m c []|]. cbn [flat_map]. apply qpure_app; [apply (qpure_key N), qser_key|exact IH]. Qed.
Lemma flat_lfac N : feq_upto N (flat_map (lfac N) (upto N)) (qser (sigma 1) N).
Proof.
  apply qpure_upto; [apply qpure_flat_lfac|apply (qpure_key N), qser_key|]. intros k Hk. rewrite coef_flat_lfac, coef_qser.
  destruct ((1 <=? k) && (k <=? N)) eqn:E; [|reflexivity]. rewrite (zsum_upto _ k N) by (try lia; intros n Hn; rewrite Z.mod_small by lia; replace (k =? 0) with false by lia; reflexivity).
  rewrite (sum_filter (fun n => n) (fun n => k mod n =? 0)). unfold sigma, zsum. f_equal. apply map_ext. intros d. rewrite Z.pow_1_r. reflexivity.
Qed.
Lemma logd_eta_product N : 0 <= N -> logd N (conv (fconst (-24)) (qser (sigma 1) N)) (eta_product N).
Proof.
  intros HN. change (eta_product N) with (eprod (upto N)). assert (P: forall n, In n (upto N) -> 1 <= n) by (intros n Hn; apply in_upto in Hn; lia).
  apply (logd_feq N (conv (fconst (-24)) (flat_map (lfac N) (upto N)))).
  - apply eprod_qnonneg. intros n Hn. apply P in Hn. lia.
  - intros m Hm. rewrite !coef_constmul. f_equal. apply flat_lfac. exact Hm.
  - apply logd_eprod, P.
Qed.
Lemma logd_delta N d : 0 <= N -> 2 * N + 1 <= i32_max -> delta1 N = Ok d -> logd N (conv (fconst (-24)) (qser (sigma 1) N)) d.
Proof.
  intros HN HM E. destruct (delta1_spec N HN HM) as (d' & E' & _ & K & F). assert (d' = d) by congruence. subst d'. unfold logd.
  rewrite (theta_upto N _ _ F). pose proof (logd_eta_product N HN) as L0. unfold logd in L0. rewrite L0. apply upto_conv; [|apply qnonneg_conv; [apply qnonneg_const|apply (qkey_qnonneg N), qser_key]|reflexivity|symmetry; exact F].
  apply eprod_qnonneg. intros n Hn. apply in_upto in Hn. lia.
Qed.
Lemma logd_inverse N i : 0 <= N -> 2 * N + 1 <= i32_max -> delta1_inverse N = Ok i -> logd N (conv (fconst 24) (qser (sigma 1) N)) i.
Proof.
  intros HN HM E. destruct (delta1_inverse_spec N HN HM) as (d & i' & Ed & E' & _ & Ki & F). assert (i' = i) by congruence. subst i'.
  pose proof (logd_delta N d HN HM Ed) as L. destruct (delta1_spec N HN HM) as (d' & Ed' & _ & Kd & _). assert (d' = d) by congruence. subst d'.
  assert (Nd: qnonneg d) by (apply (qkey_qnonneg N), Kd). assert (Ni: qnonneg i) by (apply (qkey_qnonneg N), Ki).
  set (sg := qser (sigma 1) N) in *. assert (Ns: qnonneg sg) by (apply (qkey_qnonneg N), qser_key). clearbody sg. clear E E' Ed Ed' Kd Ki.
  unfold logd in *. generalize dependent (i : fsum). generalize dependent (d : fsum). clear i d. intros d L Nd i F Ni.
  (* theta (i d) = 0 *)
  assert (Z0: feq_upto N (fadd (conv (theta i) d) (conv i (theta d))) []).
  { rewrite <- (feq_upto_of N _ _ (theta_conv i d)). rewrite (theta_upto N _ _ F). exact (logd_one N). }
  assert (A: feq_upto N (theta i) (conv (conv i d) (theta i))).
  { symmetry. rewrite (upto_conv_l N _ _ (theta i) (theta_qnonneg _ Ni) F). apply feq_upto_of, conv_1_l. }
  rewrite A. rewrite (feq_upto_of N _ (fsub (conv (fadd (conv (theta i) d) (conv i (theta d))) i) (conv (conv i i) (theta d)))) by ring.
  rewrite (upto_sub N _ (conv [] i) _ (conv (conv i i) (conv (conv (fconst (-24)) sg) d))).
  - rewrite (feq_upto_of N _ (conv (conv (conv i d) (conv (fconst 24) sg)) i)).
    + apply upto_conv_l; [exact Ni|]. assert (Ng: qnonneg (conv (fconst 24) sg)) by (apply qnonneg_conv; [apply qnonneg_const|exact Ns]).
      rewrite (upto_conv_l N _ _ _ Ng F). apply feq_upto_of, conv_1_l.
    + assert (M: feq (fconst (-24)) (fneg (fconst 24))) by (intros m; rewrite coef_neg; cbn; destruct (mono_eqb mone m); ring). rewrite M. generalize (fconst 24). intros. ring.
  - apply upto_conv_l; assumption.
  - rewrite (feq_upto_of N _ _ (conv_comm (conv i i) (theta d))), (feq_upto_of N _ _ (conv_comm (conv i i) (conv (conv (fconst (-24)) sg) d))).
    apply upto_conv_l; [apply qnonneg_conv; assumption|exact L].
Qed.
(** Reading off the coefficients *)
Lemma logd_coef N c u n : 0 <= n <= N -> qnonneg u -> logd N (conv (fconst c) (qser (sigma 1) N)) u ->
  n * coef u (qmono n) = c * zsum (map (fun k => sigma 1 k * coef u (qmono (n - k))) (upto n)).
Proof.
  intros Hn Nu L. assert (C: mq (qmono n) * coef u (qmono n) = coef (conv (conv (fconst c) (qser (sigma 1) N)) u) (qmono n)) by (rewrite <- coef_theta; apply L; cbn [mq qmono]; lia).
  cbn [mq qmono] in C. change (mkMono 0 0 n None) with (qmono n) in C. rewrite C. rewrite <- (conv_assoc (fconst c) (qser (sigma 1) N) u (qmono n)).
  rewrite coef_constmul. f_equal. unfold qser. rewrite coef_qser_conv.
  apply zsum_upto; [exact Hn|]. intros k Hk. rewrite (ord_qnonneg u Nu); [ring|cbn; lia].
Qed.
