(** Lemmas behind C129 (laws of chinese_remainder). *)
From Coq Require Import Znumtheory ZifyBool Permutation.
From Verif Require Import Prelude M_Bigint Spec SpecCrt P_Bigint.
Open Scope Z_scope.

Notation prodl v := (fold_right Z.mul 1 (map mr_l v)).
Lemma fop_perm {A} (R : A -> A -> Prop) : (forall x y, R x y -> R y x) -> forall l m : list A, Permutation l m -> ForallOrdPairs R l -> ForallOrdPairs R m.
Proof.
  intros Sy l m H. induction H; intros F; [exact F| | |auto].
  - inversion F as [|? ? F1 F2]; subst. constructor; [|apply IHPermutation, F2]. rewrite Forall_forall in *. intros z Hz. apply F1. apply (Permutation_in z (Permutation_sym H)), Hz.
  - inversion F as [|? ? F1 F2]; subst. inversion F2 as [|? ? F3 F4]; subst. inversion F1 as [|? ? F5 F6]; subst. constructor; [constructor; [apply Sy, F5|exact F3]|constructor; [exact F6|exact F4]].
Qed.
Lemma prodl_perm (v w : list mod_result) : Permutation v w -> prodl v = prodl w.
Proof. intros H. induction H; cbn [map fold_right]; [reflexivity|rewrite IHPermutation; reflexivity|ring|congruence]. Qed.
Lemma prodl_pos (v : list mod_result) : positive_moduli v -> 0 < prodl v.
Proof. intros H. induction H; cbn [map fold_right]; [lia|nia]. Qed.
Lemma prodl_app (v w : list mod_result) : prodl (v ++ w) = prodl v * prodl w.
Proof. induction v as [|m v IH]; cbn [app map fold_right]; [ring|]. rewrite IH. ring. Qed.
Lemma prodl_in (v : list mod_result) m : In m v -> (mr_l m | prodl v).
Proof. induction v as [|x v IH]; intros []; cbn [map fold_right]; [subst x; apply Z.divide_factor_l|]. apply Z.divide_mul_r, IH; assumption. Qed.
Lemma prodl_rel x (v : list mod_result) : Forall (fun m => rel_prime x (mr_l m)) v -> rel_prime x (prodl v).
Proof. intros H. induction H; cbn [map fold_right]; [apply rel_prime_sym, rel_prime_1|]. apply rel_prime_mult; assumption. Qed.
Lemma fop_app {A} (R : A -> A -> Prop) (l m : list A) : ForallOrdPairs R (l ++ m) -> ForallOrdPairs R l /\ ForallOrdPairs R m /\ forall x y, In x l -> In y m -> R x y.
Proof.
  induction l as [|x l IH]; cbn [app]; intros H; [repeat split; [constructor|exact H|intros ? ? []]|]. inversion H as [|? ? F1 F2]; subst. destruct (IH F2) as (A1 & A2 & A3). rewrite Forall_forall in F1.
  split; [constructor; [|exact A1]; apply Forall_forall; intros y Hy; apply F1, in_app_iff; left; exact Hy|]. split; [exact A2|]. intros y z [<-|Hy] Hz; [apply F1, in_app_iff; right; exact Hz|apply A3; assumption].
Qed.
Lemma crt_inv v x : positive_moduli v -> coprime_moduli v -> chinese_remainder v = Ok x ->
  mr_l x = prodl v /\ (forall m, In m v -> (mr_l m | mr_r x - mr_r m)) /\ forall s, (forall m, In m v -> (mr_l m | s - mr_r m)) -> (mr_l x | s - mr_r x).
Proof.
  intros H1 H2 HX. destruct (crt_spec v H1 H2) as (r & E & A & B). assert (x = mkMod (prodl v) r) as -> by congruence. cbn [mr_l mr_r]. split; [reflexivity|]. split; [exact A|exact B].
Qed.
Lemma div_trans3 l x y z : (l | x - y) -> (l | y - z) -> (l | x - z).
Proof. intros H1 H2. replace (x - z) with (x - y + (y - z)) by ring. apply Z.divide_add_r; assumption. Qed.
Lemma div_sym l x y : (l | x - y) -> (l | y - x).
Proof. intros H. replace (y - x) with (- (x - y)) by ring. apply Z.divide_opp_r, H. Qed.
(** C129: the order of the system is irrelevant: same modulus, congruent residue. *)
Lemma c129_permutation : forall v w x y, positive_moduli v -> coprime_moduli v -> Permutation v w -> chinese_remainder v = Ok x -> chinese_remainder w = Ok y ->
  mr_l y = mr_l x /\ (mr_l x | mr_r y - mr_r x).
Proof.
  intros v w x y Pv Cv Pm Hx Hy. destruct (crt_inv v x Pv Cv Hx) as (X1 & X2 & X3).
  assert (Pw : positive_moduli w). { rewrite Forall_forall in *. intros m Hm. apply Pv, (Permutation_in m (Permutation_sym Pm)), Hm. }
  assert (Cw : coprime_moduli w). { apply (fop_perm (fun m m' => rel_prime (mr_l m) (mr_l m'))) with (l := v); [intros; apply rel_prime_sym; assumption|exact Pm|exact Cv]. }
  destruct (crt_inv w y Pw Cw Hy) as (Y1 & Y2 & _). split; [rewrite X1, Y1; symmetry; apply prodl_perm, Pm|]. apply X3. intros m Hm. apply Y2, (Permutation_in m Pm), Hm.
Qed.
(** C129: a system may be solved in two parts and the two results combined. *)
Lemma c129_merge : forall v w x y z, positive_moduli (v ++ w) -> coprime_moduli (v ++ w) ->
  chinese_remainder v = Ok x -> chinese_remainder w = Ok y -> chinese_remainder (v ++ w) = Ok z ->
  exists u, chinese_remainder [x; y] = Ok u /\ mr_l u = mr_l z /\ (mr_l z | mr_r u - mr_r z).
Proof.
  intros v w x y z P C Hx Hy Hz. pose proof P as P'. apply Forall_app in P. destruct P as (Pv & Pw). destruct (fop_app _ _ _ C) as (Cv & Cw & CC).
  destruct (crt_inv v x Pv Cv Hx) as (X1 & X2 & _). destruct (crt_inv w y Pw Cw Hy) as (Y1 & Y2 & _). destruct (crt_inv _ z P' C Hz) as (Z1 & Z2 & Z3).
  assert (R : rel_prime (mr_l x) (mr_l y)).
  { rewrite X1, Y1. apply prodl_rel, Forall_forall. intros n Hn. apply rel_prime_sym, prodl_rel, Forall_forall. intros m Hm. apply rel_prime_sym, CC; assumption. }
  assert (Pxy : positive_moduli [x; y]) by (constructor; [rewrite X1; apply prodl_pos, Pv|constructor; [rewrite Y1; apply prodl_pos, Pw|constructor]]).
  assert (Cxy : coprime_moduli [x; y]) by (constructor; [constructor; [exact R|constructor]|constructor; constructor]).
  destruct (crt_spec [x; y] Pxy Cxy) as (r & EU & A & _). exists (mkMod (prodl [x; y]) r). split; [exact EU|]. cbn [mr_l mr_r map fold_right]. split; [rewrite Z1, prodl_app, X1, Y1; ring|].
  apply Z3. intros m Hm. apply in_app_iff in Hm. destruct Hm as [Hm|Hm].
  - apply (div_trans3 _ _ (mr_r x)); [|apply X2, Hm]. apply Z.divide_trans with (mr_l x); [rewrite X1; apply prodl_in, Hm|]. apply A. left; reflexivity.
  - apply (div_trans3 _ _ (mr_r y)); [|apply Y2, Hm]. apply Z.divide_trans with (mr_l y); [rewrite Y1; apply prodl_in, Hm|]. apply A. right; left; reflexivity.
Qed.
(** C129: over fixed moduli the result is a ring homomorphism from the residues: congruent residues give congruent results, and sums and products of residues give
    the sum and the product of the results. *)
Lemma c129_ring : forall (moduli : list Z) (r s t : Z -> Z) x y z, Forall (fun l => 0 < l) moduli -> ForallOrdPairs rel_prime moduli ->
  chinese_remainder (map (fun l => mkMod l (r l)) moduli) = Ok x -> chinese_remainder (map (fun l => mkMod l (s l)) moduli) = Ok y ->
  chinese_remainder (map (fun l => mkMod l (t l)) moduli) = Ok z ->
  mr_l y = mr_l x /\ mr_l z = mr_l x /\
  ((forall l, In l moduli -> (l | s l - r l)) -> (mr_l x | mr_r y - mr_r x)) /\
  ((forall l, In l moduli -> (l | t l - (r l + s l))) -> (mr_l x | mr_r z - (mr_r x + mr_r y))) /\
  ((forall l, In l moduli -> (l | t l - r l * s l)) -> (mr_l x | mr_r z - mr_r x * mr_r y)).
Proof.
  intros ms r s t x y z P C Hx Hy Hz.
  assert (PP : forall f, positive_moduli (map (fun l => mkMod l (f l)) ms)). { intros f. rewrite Forall_forall in *. intros m Hm. apply in_map_iff in Hm. destruct Hm as (l & <- & Hl). apply P, Hl. }
  assert (CC : forall f : Z -> Z, coprime_moduli (map (fun l => mkMod l (f l)) ms)).
  { intros f. clear - C. induction C as [|l ms F _ IH]; [constructor|]. cbn [map]. constructor; [|exact IH]. rewrite Forall_forall in *. intros m Hm. apply in_map_iff in Hm. destruct Hm as (l' & <- & Hl). apply F, Hl. }
  assert (LL : forall f : Z -> Z, prodl (map (fun l => mkMod l (f l)) ms) = fold_right Z.mul 1 ms). { intros f. rewrite map_map. f_equal. apply map_id. }
  destruct (crt_inv _ x (PP r) (CC r) Hx) as (X1 & X2 & X3). destruct (crt_inv _ y (PP s) (CC s) Hy) as (Y1 & Y2 & Y3). destruct (crt_inv _ z (PP t) (CC t) Hz) as (Z1 & Z2 & Z3).
  rewrite LL in X1, Y1, Z1. assert (IN : forall (f : Z -> Z) l, In l ms -> In (mkMod l (f l)) (map (fun l => mkMod l (f l)) ms)) by (intros f l Hl; apply in_map_iff; exists l; split; [reflexivity|exact Hl]).
  assert (EX : forall l, In l ms -> (l | mr_r x - r l)) by (intros l Hl; exact (X2 _ (IN r l Hl))).
  assert (EY : forall l, In l ms -> (l | mr_r y - s l)) by (intros l Hl; exact (Y2 _ (IN s l Hl))).
  split; [congruence|]. split; [congruence|]. split; [|split].
  - intros H. apply X3. intros m Hm. apply in_map_iff in Hm. destruct Hm as (l & <- & Hl). cbn [mr_l mr_r]. apply (div_trans3 _ _ (s l)); [apply EY, Hl|apply H, Hl].
  - intros H. replace (mr_l x) with (mr_l z) by congruence. apply div_sym, Z3. intros m Hm. apply in_map_iff in Hm. destruct Hm as (l & <- & Hl). cbn [mr_l mr_r].
    apply (div_trans3 _ _ (r l + s l)); [|apply div_sym, H, Hl]. replace (mr_r x + mr_r y - (r l + s l)) with (mr_r x - r l + (mr_r y - s l)) by ring. apply Z.divide_add_r; [apply EX, Hl|apply EY, Hl].
  - intros H. replace (mr_l x) with (mr_l z) by congruence. apply div_sym, Z3. intros m Hm. apply in_map_iff in Hm. destruct Hm as (l & <- & Hl). cbn [mr_l mr_r].
    apply (div_trans3 _ _ (r l * s l)); [|apply div_sym, H, Hl]. replace (mr_r x * mr_r y - r l * s l) with ((mr_r x - r l) * mr_r y + r l * (mr_r y - s l)) by ring.
    apply Z.divide_add_r; [apply Z.divide_mul_l, EX, Hl|apply Z.divide_mul_r, EY, Hl].
Qed.
(** C129: a range is enough: an integer known to lie in an interval as long as the product of the moduli is determined by the result. *)
Lemma c129_window : forall v x c s t, positive_moduli v -> coprime_moduli v -> chinese_remainder v = Ok x ->
  c <= s < c + mr_l x -> c <= t < c + mr_l x -> (forall m, In m v -> (mr_l m | s - mr_r m)) -> (forall m, In m v -> (mr_l m | t - mr_r m)) ->
  s = t /\ s = c + (mr_r x - c) mod mr_l x.
Proof.
  intros v x c s t P C Hx Hs Ht S1 T1. destruct (crt_inv v x P C Hx) as (X1 & X2 & X3). pose proof (prodl_pos v P) as L0. rewrite <- X1 in L0.
  assert (W : forall u, c <= u < c + mr_l x -> (forall m, In m v -> (mr_l m | u - mr_r m)) -> u = c + (mr_r x - c) mod mr_l x).
  { intros u Hu U1. destruct (X3 u U1) as (k & Hk). replace (mr_r x - c) with (u - c + (- k) * mr_l x) by lia. rewrite Z.mod_add by lia. rewrite Z.mod_small by lia. ring. }
  split; [rewrite (W s Hs S1), (W t Ht T1); reflexivity|exact (W s Hs S1)].
Qed.
Example c129_case : let v := [mkMod 3 2; mkMod 5 3; mkMod 7 2] in positive_moduli v /\ coprime_moduli v /\ chinese_remainder v = Ok (mkMod 105 (-82)) /\
  chinese_remainder [mkMod 7 2; mkMod 3 2; mkMod 5 3] = Ok (mkMod 105 23) /\ chinese_remainder [mkMod 15 8; mkMod 7 2] = Ok (mkMod 105 (-82)).
Proof.
  assert (R : forall x y, Z.gcd x y = 1 -> rel_prime x y) by (intros; apply Zgcd_1_rel_prime; assumption).
  intros v. split; [repeat constructor|]. split; [repeat (constructor; [repeat (constructor; [apply R; reflexivity|]); constructor|]); constructor|]. split; [vm_compute; reflexivity|]. split; vm_compute; reflexivity.
Qed.
