(** Lemmas behind the property theorem C89: the group of secp256k1 is cyclic of the prime order n of SEC 2, generated by g. *)
From Coq Require Import Znumtheory ZifyBool.
From Verif Require Import Prelude M_Bigint M_Variable M_Term M_Poly M_Curve Spec SpecCurve P_Bigint P_Curve P_Curve2 P_Curve3 P_CurveProps P_Prime P_HasseZ P_HasseProps P_SecpProps P_SecpN.
Open Scope Z_scope.

Lemma Ok_inj {A} (u v : A) : Ok u = Ok v -> u = v.
Proof. congruence. Qed.
Lemma fr_cong z : (sp | fr z - z).
Proof.
  unfold fr. pose proof (fold1_cong 4294968273 z) as (u & Hu). pose proof (fold1_cong 4294968273 (fold1 4294968273 z)) as (v & Hv).
  change (2 ^ 256 - 4294968273) with sp in Hu, Hv. exists (- (u + v)). lia.
Qed.
Lemma fr_mod z : canon1 (fr z) = true -> fr z = z mod sp.
Proof.
  intros H. unfold canon1 in H. apply andb_prop in H. pose proof (fr_cong z) as D. apply mod_eq_divide in D; [|discriminate]. rewrite <- D. symmetry. apply Z.mod_small. lia.
Qed.
Lemma fr_eq z w : fr z = fr w -> (sp | z - w).
Proof. intros H. destruct (fr_cong z) as (u & Hu), (fr_cong w) as (v & Hv). exists (v - u). lia. Qed.
Notation Pp := prime_sp.
Lemma sp2 : sp <> 2. Proof. discriminate. Qed.
Notation EM := (emul 0 sp prime_sp).
Notation ES := (esum 0 sp prime_sp).
Definition G : apoint := Some (gx, gy).
Lemma G_on : on_curve 0 7 sp G.
Proof. exact secp_g_on. Qed.
Lemma G_aff : affine sp (mkPt gx gy 1) = G. Proof. reflexivity. Qed.
Lemma divide_small z : 0 <= z < sp -> (sp | z) -> z = 0.
Proof. intros B D. apply Z.mod_divide in D; [|discriminate]. rewrite Z.mod_small in D by exact B. exact D. Qed.
Lemma no_two y x : on_curve 0 7 sp (Some (x, y)) -> ~ (sp | 2 * y).
Proof.
  intros (Bx & By & C) D. apply prime_mult in D; [|exact prime_sp]. destruct D as [D|D]; [apply Z.divide_pos_le in D; [apply D; reflexivity|lia]|].
  apply (no_root_secp x). unfold curve_eqn in C. replace (x * x * x + 7) with (y * y - (y * y - (x * x * x + 0 * x + 7))) by ring. apply Z.divide_sub_r; [apply Z.divide_mul_l, D|exact C].
Qed.
Definition fstep (s : cstep) (k : positive) : positive := match s with D _ => xO k | A _ => Pos.succ k end.
Lemma chain_step_ok s x y Q k : Some (x, y) = EM (Pos.to_nat k) G -> chain_step s (x, y) = Some Q -> Some Q = EM (Pos.to_nat (fstep s k)) G.
Proof.
  intros HP H. assert (O: on_curve 0 7 sp (Some (x, y))) by (rewrite HP; apply (emul_on 0 7 sp Pp sp2), G_on).
  destruct s as [m|m]; cbn [chain_step fstep] in H |- *.
  - destruct (fr (m * (2 * y)) =? fr (x * (3 * x))) eqn:E1; [|discriminate]. apply Z.eqb_eq, fr_eq in E1.
    set (x3 := fr (m * m + 2 * (sp - x))) in *. set (y3 := fr (m * (x + (sp - x3)) + (sp - y))) in *.
    destruct (canon1 x3) eqn:C1; [|discriminate]. destruct (canon1 y3) eqn:C2; [|discriminate]. cbn [andb] in H. injection H as <-.
    apply fr_mod in C1, C2. fold x3 in C1. fold y3 in C2.
    replace (Pos.to_nat k~0) with (Pos.to_nat k + Pos.to_nat k)%nat by lia. rewrite (emul_add 0 7 sp Pp sp2 secp_nonsing) by exact G_on. rewrite <- HP.
    apply (ec_sum_iff 0 7 sp Pp sp2); [exact O|exact O|].
    replace (Some (x3, y3)) with (line_third sp m x y x).
    + constructor; [apply (no_two y x O)|]. replace (m * (2 * y) - (3 * (x * x) + 0)) with (m * (2 * y) - x * (3 * x)) by ring. exact E1.
    + unfold line_third. assert (E3: (m * m - x - x) mod sp = x3). { rewrite C1. apply mod_eq_divide; [discriminate|]. exists (-2). ring. }
      rewrite E3. do 2 f_equal. rewrite C2. apply mod_eq_divide; [discriminate|]. exists (- m - 1). ring.
  - destruct (x =? gx) eqn:E0; [discriminate|]. cbn [negb andb] in H. destruct (fr (m * (x + (sp - gx)) + gy) =? fr y) eqn:E1; [|discriminate]. apply Z.eqb_eq, fr_eq in E1.
    set (x3 := fr (m * m + (sp - gx) + (sp - x))) in *. set (y3 := fr (m * (gx + (sp - x3)) + (sp - gy))) in *.
    destruct (canon1 x3) eqn:C1; [|discriminate]. destruct (canon1 y3) eqn:C2; [|discriminate]. cbn [andb] in H. injection H as <-.
    apply fr_mod in C1, C2. fold x3 in C1. fold y3 in C2.
    rewrite Pos2Nat.inj_succ, emul_S, <- HP. apply (ec_sum_iff 0 7 sp Pp sp2); [exact G_on|exact O|].
    replace (Some (x3, y3)) with (line_third sp m gx gy x).
    + unfold G. constructor.
      * intros DV. destruct O as (Bx & _). pose proof G_on as (Bg & _). apply mod_eq_divide in DV; [|discriminate]. rewrite !Z.mod_small in DV by assumption. lia.
      * destruct E1 as (u & Hu). exists (u - m). lia.
    + unfold line_third. assert (E3: (m * m - gx - x) mod sp = x3). { rewrite C1. apply mod_eq_divide; [discriminate|]. exists (-2). ring. }
      rewrite E3. do 2 f_equal. rewrite C2. apply mod_eq_divide; [discriminate|]. exists (- m - 1). ring.
Qed.
Lemma chain_ok l : forall P k, Some P = EM (Pos.to_nat k) G -> forall Q, chain l P = Some Q -> Some Q = EM (Pos.to_nat (follow l k)) G.
Proof.
  induction l as [|s l IH]; intros P k HP Q H; cbn [chain follow] in H |- *; [congruence|].
  destruct (chain_step s P) as [R|] eqn:E; [|discriminate]. destruct P as [x y]. pose proof (chain_step_ok s x y R k HP E) as HR.
  destruct s; apply (IH R); assumption.
Qed.
Lemma sn_pos : 1 < sn. Proof. reflexivity. Qed.
Lemma succ_nat n k : Z.pos k = n - 1 -> Z.to_nat n = S (Pos.to_nat k).
Proof. lia. Qed.
Lemma sn_mul_G : EM (Z.to_nat sn) G = None.
Proof.
  assert (H: Some (gx, sp - gy) = EM (Pos.to_nat (follow slopes 1)) G).
  { apply (chain_ok slopes (gx, gy) 1); [|exact slopes_end]. change (Pos.to_nat 1) with 1%nat. symmetry. apply (emul_1 0 sp Pp), (on_canon 0 7 sp), G_on. }
  rewrite (succ_nat sn (follow slopes 1) slopes_follow).
  rewrite emul_S, <- H. change (Some (gx, sp - gy)) with (ec_neg sp G). apply (esum_neg 0 7 sp Pp sp2), G_on.
Qed.
Lemma emul_small_order P k : on_curve 0 7 sp P -> EM (Z.to_nat sn) P = None -> P <> None -> EM k P = None -> Nat.divide (Z.to_nat sn) k.
Proof.
  intros HP H0 HN Hk. destruct (eorder_exists 0 7 sp Pp sp2 secp_nonsing P HP) as (n & HO).
  pose proof (eorder_divide 0 7 sp Pp sp2 secp_nonsing P n _ HP HO H0) as (u & Hu). pose proof (eorder_divide 0 7 sp Pp sp2 secp_nonsing P n _ HP HO Hk) as Dk.
  assert (Dz: (Z.of_nat n | sn)) by (exists (Z.of_nat u); pose proof sn_pos; lia).
  destruct (prime_divisors sn prime_sn _ Dz) as [E|[E|[E|E]]].
  - lia.
  - exfalso. apply HN. assert (n = 1)%nat by lia. subst n. destruct HO as (_ & H1 & _). rewrite (emul_1 0 sp Pp) in H1 by (apply (on_canon 0 7 sp), HP). exact H1.
  - replace (Z.to_nat sn) with n by lia. exact Dk.
  - pose proof sn_pos. lia.
Qed.
Lemma order_of P : on_curve 0 7 sp P -> EM (Z.to_nat sn) P = None -> P <> None -> eorder 0 sp Pp P (Z.to_nat sn).
Proof.
  intros HP H0 HN. pose proof sn_pos. split; [lia|]. split; [exact H0|]. intros k Hk E. apply (emul_small_order P k HP H0 HN) in E. apply Nat.divide_pos_le in E; lia.
Qed.
Definition secp_points : list apoint := None :: map Some (zsols 0 7 sp).
Lemma secp_points_in Q : In Q secp_points <-> on_curve 0 7 sp Q.
Proof.
  unfold secp_points. destruct Q as [[x y]|]; cbn [In on_curve].
  - rewrite in_map_iff. unfold curve_eqn. split.
    + intros [H|((x' & y') & E & H)]; [discriminate|]. injection E as -> ->. apply (zsols_in 0 7 Pp) in H. exact H.
    + intros H. right. exists (x, y). split; [reflexivity|]. apply (zsols_in 0 7 Pp). exact H.
  - tauto.
Qed.
Lemma secp_points_nodup : NoDup secp_points.
Proof.
  constructor; [rewrite in_map_iff; intros (? & E & _); discriminate|]. apply FinFun.Injective_map_NoDup; [intros u v E; congruence|]. apply (zsols_NoDup 0 7 Pp).
Qed.
Lemma secp_count : Z.of_nat (length secp_points) = sn.
Proof.
  pose proof (order_of G G_on sn_mul_G ltac:(discriminate)) as HO.
  pose proof (elagrange 0 7 sp Pp sp2 secp_nonsing G _ secp_points G_on HO secp_points_nodup secp_points_in) as (u & Hu).
  pose proof (hasse_Z Pp sp2 secp_nonsing) as H. unfold secp_points in Hu |- *. cbn [length] in Hu |- *. rewrite map_length in Hu |- *.
  set (N := Z.of_nat (length (zsols 0 7 sp))) in *. assert (E: sp + 1 - (N + 1) = sp + 1 - sn); [|lia].
  apply (trace_unique sp _ _ sn); [nia|vm_compute; discriminate|vm_compute; reflexivity|]. exists (1 - Z.of_nat u). pose proof sn_pos. nia.
Qed.
Lemma secp_kill P : on_curve 0 7 sp P -> EM (Z.to_nat sn) P = None.
Proof.
  intros HP. destruct (eorder_exists 0 7 sp Pp sp2 secp_nonsing P HP) as (n & HO).
  pose proof (elagrange 0 7 sp Pp sp2 secp_nonsing P n secp_points HP HO secp_points_nodup secp_points_in) as (u & Hu).
  rewrite <- secp_count, Nat2Z.id, Hu. rewrite (emul_mul 0 7 sp Pp sp2 secp_nonsing) by exact HP. destruct HO as (_ & -> & _). apply emul_none.
Qed.
(** k P depends exactly on k modulo n, for every finite P. *)
Lemma emul_inj P j k : on_curve 0 7 sp P -> P <> None -> (j <= k)%nat -> EM j P = EM k P -> Nat.divide (Z.to_nat sn) (k - j).
Proof.
  intros HP HN L E. apply (emul_small_order P _ HP (secp_kill P HP) HN).
  replace k with (j + (k - j))%nat in E by lia. rewrite (emul_add 0 7 sp Pp sp2 secp_nonsing) in E by exact HP.
  set (X := EM j P) in *. set (Y := EM (k - j) P) in *. assert (OX: on_curve 0 7 sp X) by apply (emul_on 0 7 sp Pp sp2 j P), HP. assert (OY: on_curve 0 7 sp Y) by apply (emul_on 0 7 sp Pp sp2 (k - j) P), HP.
  assert (ON: on_curve 0 7 sp (ec_neg sp X)) by apply (eneg_on 0 7 sp Pp sp2), OX.
  transitivity (ES (ES (ec_neg sp X) X) Y).
  - rewrite (esum_comm 0 7 sp Pp sp2 (ec_neg sp X) X ON OX), (esum_neg 0 7 sp Pp sp2 X OX), (esum_0_l 0 sp Pp) by (apply (on_canon 0 7 sp), OY). reflexivity.
  - rewrite (esum_assoc 0 7 sp Pp sp2 secp_nonsing _ _ _ ON OX OY), <- E, (esum_comm 0 7 sp Pp sp2 (ec_neg sp X) X ON OX). apply (esum_neg 0 7 sp Pp sp2 X OX).
Qed.
Lemma emul_mod P k : on_curve 0 7 sp P -> 0 <= k -> EM (Z.to_nat (k mod sn)) P = EM (Z.to_nat k) P.
Proof.
  intros HP Hk. pose proof sn_pos. pose proof (Z.mod_pos_bound k sn ltac:(lia)). pose proof (Z.div_pos k sn Hk ltac:(lia)). pose proof (Z.div_mod k sn ltac:(lia)) as DM.
  replace (Z.to_nat k) with (Z.to_nat (k / sn) * Z.to_nat sn + Z.to_nat (k mod sn))%nat by nia.
  rewrite (emul_add 0 7 sp Pp sp2 secp_nonsing) by exact HP. rewrite (emul_mul 0 7 sp Pp sp2 secp_nonsing) by exact HP. rewrite (secp_kill P HP), emul_none. symmetry.
  apply (esum_0_l 0 sp Pp), (on_canon 0 7 sp), (emul_on 0 7 sp Pp sp2), HP.
Qed.
Lemma emul_eq_iff P j k : on_curve 0 7 sp P -> P <> None -> 0 <= j -> 0 <= k -> (EM (Z.to_nat j) P = EM (Z.to_nat k) P <-> (sn | j - k)).
Proof.
  intros HP HN Hj Hk. pose proof sn_pos as S0. split.
  - intros E. destruct (Nat.le_ge_cases (Z.to_nat j) (Z.to_nat k)) as [L|L].
    + destruct (emul_inj P _ _ HP HN L E) as (u & Hu). exists (- Z.of_nat u). nia.
    + destruct (emul_inj P _ _ HP HN L (eq_sym E)) as (u & Hu). exists (Z.of_nat u). nia.
  - intros DV. rewrite <- (emul_mod P j HP Hj), <- (emul_mod P k HP Hk). apply mod_eq_divide in DV; [|lia]. rewrite DV. reflexivity.
Qed.
(** Every point is a multiple of every finite point. *)
Lemma secp_cyclic P Q : on_curve 0 7 sp P -> P <> None -> on_curve 0 7 sp Q -> exists k, 0 <= k < sn /\ EM (Z.to_nat k) P = Q.
Proof.
  intros HP HN HQ. pose proof sn_pos as S0. set (L := map (fun i => EM i P) (seq 0 (Z.to_nat sn))).
  assert (I: incl secp_points L).
  { apply NoDup_length_incl.
    - unfold L. assert (K: forall n a, Z.of_nat (a + n) <= sn -> NoDup (map (fun i => EM i P) (seq a n))).
      { induction n as [|n IH]; intros c Hc; cbn [seq map]; constructor; [|apply IH; lia]. rewrite in_map_iff. intros (i & E & Hi). apply in_seq in Hi.
        destruct (emul_inj P c i HP HN ltac:(lia) (eq_sym E)) as (u & Hu). destruct u; nia. }
      apply K. lia.
    - unfold L. rewrite map_length, seq_length, <- secp_count, Nat2Z.id. apply le_n.
    - intros R HR. unfold L in HR. apply in_map_iff in HR. destruct HR as (i & <- & _). apply secp_points_in. apply (emul_on 0 7 sp Pp sp2), HP. }
  specialize (I Q (proj2 (secp_points_in Q) HQ)). unfold L in I. apply in_map_iff in I. destruct I as (i & E & Hi). apply in_seq in Hi. exists (Z.of_nat i). split; [lia|]. rewrite Nat2Z.id. exact E.
Qed.

(** C89: the order n of SEC 2 is prime, and the curve y^2 = x^3 + 7 has exactly n points: n - 1 pairs of residues and the point at infinity. *)
Lemma c89_count : let p := 2 ^ 256 - 2 ^ 32 - 977 in let n := 0xFFFFFFFFFFFFFFFFFFFFFFFFFFFFFFFEBAAEDCE6AF48A03BBFD25E8CD0364141 in
  prime n /\ exists L, NoDup L /\ (forall x y, In (x, y) L <-> 0 <= x < p /\ 0 <= y < p /\ curve_eqn 0 7 p x y) /\ Z.of_nat (length L) + 1 = n.
Proof.
  cbv zeta. rewrite <- sp_eq. split; [exact prime_sn|]. exists (zsols 0 7 sp). split; [apply (zsols_NoDup 0 7 Pp)|]. split; [intros x y; apply (zsols_in 0 7 Pp)|].
  pose proof secp_count as H. unfold secp_points in H. cbn [length] in H. rewrite map_length in H. change 0xFFFFFFFFFFFFFFFFFFFFFFFFFFFFFFFEBAAEDCE6AF48A03BBFD25E8CD0364141 with sn. lia.
Qed.
(** C89: every finite point of the curve has order n: point_order returns n, multiply_scalar by n gives infinity, and no smaller multiple does. *)
Lemma c89_order : forall E g P, let p := 2 ^ 256 - 2 ^ 32 - 977 in let n := 0xFFFFFFFFFFFFFFFFFFFFFFFFFFFFFFFEBAAEDCE6AF48A03BBFD25E8CD0364141 in
  secp256k1_new = Ok (E, g) -> is_on_curve E P = Ok true -> is_infinity P = false ->
  ec_order 0 p (affine p P) n /\ (exists fuel, point_order fuel E P = Ok n) /\
  (exists R, multiply_scalar E P n = Ok R /\ is_infinity R = true) /\
  forall k R, 0 < k < n -> multiply_scalar E P k = Ok R -> is_infinity R = false.
Proof.
  intros E g P. cbv zeta. rewrite <- sp_eq. change 0xFFFFFFFFFFFFFFFFFFFFFFFFFFFFFFFEBAAEDCE6AF48A03BBFD25E8CD0364141 with sn. intros HE HP HI.
  rewrite secp_new in HE. injection HE as <- <-. pose proof (new_raw_fields 0 7 sp) as HF. pose proof (is_on_inv 0 7 sp _ P HF secp_pos HP) as OP. pose proof sn_pos as S0.
  assert (HN: affine sp P <> None) by (unfold is_infinity in HI; unfold affine; rewrite HI; discriminate).
  assert (AI: forall R, is_infinity R = true <-> affine sp R = None) by (intros R; unfold is_infinity, affine; destruct (pz R =? 0); split; congruence).
  pose proof (order_of _ OP (secp_kill _ OP) HN) as HO. split.
  { rewrite <- (Z2Nat.id sn) by lia. apply (eorder_ec_order 0 7 sp Pp sp2); assumption. } split.
  { exists (Z.to_nat sn). rewrite (order_value 0 7 sp _ HF Pp sp2 P _ OP HO) by lia. rewrite Z2Nat.id by lia. reflexivity. } split.
  - destruct (secp_mult P sn OP ltac:(lia)) as (R & ER & AR). exists R. split; [exact ER|]. apply AI. rewrite AR. apply secp_kill, OP.
  - intros k R Hk ER. destruct (secp_mult P k OP ltac:(lia)) as (R' & ER' & AR). rewrite ER in ER'. apply Ok_inj in ER'. subst R'.
    destruct (is_infinity R) eqn:IR; [|reflexivity]. exfalso. apply AI in IR. rewrite IR in AR. destruct HO as (_ & _ & HO). apply (HO (Z.to_nat k)); [lia|congruence].
Qed.
(** C89: every finite point (g in particular) generates the curve: every point Q is multiply_scalar(P, k) for exactly one k in [0, n). *)
Lemma c89_generator : forall E g P Q, let p := 2 ^ 256 - 2 ^ 32 - 977 in let n := 0xFFFFFFFFFFFFFFFFFFFFFFFFFFFFFFFEBAAEDCE6AF48A03BBFD25E8CD0364141 in
  secp256k1_new = Ok (E, g) -> is_on_curve E P = Ok true -> is_infinity P = false -> is_on_curve E Q = Ok true ->
  exists! k, 0 <= k < n /\ exists R, multiply_scalar E P k = Ok R /\ affine p R = affine p Q.
Proof.
  intros E g P Q. cbv zeta. rewrite <- sp_eq. change 0xFFFFFFFFFFFFFFFFFFFFFFFFFFFFFFFEBAAEDCE6AF48A03BBFD25E8CD0364141 with sn. intros HE HP HI HQ.
  rewrite secp_new in HE. injection HE as <- <-. pose proof (new_raw_fields 0 7 sp) as HF. pose proof (is_on_inv 0 7 sp _ P HF secp_pos HP) as OP. pose proof (is_on_inv 0 7 sp _ Q HF secp_pos HQ) as OQ. pose proof sn_pos as S0.
  assert (HN: affine sp P <> None) by (unfold is_infinity in HI; unfold affine; rewrite HI; discriminate).
  destruct (secp_cyclic _ _ OP HN OQ) as (k & Bk & Ek). exists k. split.
  - split; [exact Bk|]. destruct (secp_mult P k OP ltac:(lia)) as (R & ER & AR). exists R. split; [exact ER|congruence].
  - intros j (Bj & R & ER & AR). destruct (secp_mult P j OP ltac:(lia)) as (R' & ER' & AR'). rewrite ER in ER'. apply Ok_inj in ER'. subst R'.
    assert (DV: (sn | k - j)) by (apply (emul_eq_iff (affine sp P)); [exact OP|exact HN|lia|lia|congruence]). apply mod_eq_divide in DV; [|lia]. rewrite !Z.mod_small in DV by lia. exact DV.
Qed.
(** C89: two multiples of a finite point are the same point exactly when the scalars agree modulo n; in particular scalars may be reduced modulo n. *)
Lemma c89_scalars : forall E g P j k A B, let p := 2 ^ 256 - 2 ^ 32 - 977 in let n := 0xFFFFFFFFFFFFFFFFFFFFFFFFFFFFFFFEBAAEDCE6AF48A03BBFD25E8CD0364141 in
  secp256k1_new = Ok (E, g) -> is_on_curve E P = Ok true -> is_infinity P = false -> 0 <= j -> 0 <= k ->
  multiply_scalar E P j = Ok A -> multiply_scalar E P k = Ok B -> (affine p A = affine p B <-> (n | j - k)).
Proof.
  intros E g P j k A B. cbv zeta. rewrite <- sp_eq. change 0xFFFFFFFFFFFFFFFFFFFFFFFFFFFFFFFEBAAEDCE6AF48A03BBFD25E8CD0364141 with sn. intros HE HP HI Hj Hk EA EB.
  rewrite secp_new in HE. injection HE as <- <-. pose proof (new_raw_fields 0 7 sp) as HF. pose proof (is_on_inv 0 7 sp _ P HF secp_pos HP) as OP.
  assert (HN: affine sp P <> None) by (unfold is_infinity in HI; unfold affine; rewrite HI; discriminate).
  destruct (secp_mult P j OP Hj) as (R & ER & AR). rewrite EA in ER. apply Ok_inj in ER. subst R. destruct (secp_mult P k OP Hk) as (R & ER & AB). rewrite EB in ER. apply Ok_inj in ER. subst R.
  rewrite AR, AB. apply emul_eq_iff; assumption.
Qed.
(** C89: the check of an ECDSA signature succeeds: for a key Q = d g, a nonce k and a signature (r, s) of z with s k = z + r d (mod n),
    with 0 < r, s < n and w = inverse(s, n), the point (z w) g + (r w) Q computed with multiply_scalar and plus is k g (so its x is the one r was taken from). *)
Lemma c89_signature : forall E g d k z r s w Q R U V, let p := 2 ^ 256 - 2 ^ 32 - 977 in let n := 0xFFFFFFFFFFFFFFFFFFFFFFFFFFFFFFFEBAAEDCE6AF48A03BBFD25E8CD0364141 in
  secp256k1_new = Ok (E, g) -> 0 < d < n -> 0 < k < n -> 0 <= z -> 0 < r < n -> 0 < s < n -> (n | s * k - (z + r * d)) -> inverse s n = Ok w ->
  multiply_scalar E g d = Ok Q -> multiply_scalar E g k = Ok R ->
  multiply_scalar E g (z * w mod n) = Ok U -> multiply_scalar E Q (r * w mod n) = Ok V ->
  exists X, plus E U V = Ok X /\ affine p X = affine p R.
Proof.
  intros E g d k z r s w Q R U V. cbv zeta. rewrite <- sp_eq. change 0xFFFFFFFFFFFFFFFFFFFFFFFFFFFFFFFEBAAEDCE6AF48A03BBFD25E8CD0364141 with sn. intros HE Bd Bk Hz Br Bs HS HW EQ ER EU EV.
  rewrite secp_new in HE. injection HE as <- <-. pose proof (new_raw_fields 0 7 sp) as HF. pose proof sn_pos as S0. set (g := mkPt gx gy 1) in *. assert (Og: on_curve 0 7 sp (affine sp g)) by exact secp_g_on.
  assert (NG: affine sp g <> None) by discriminate.
  assert (DZ: forall t, 0 < t < sn -> ~ (sn | t)) by (intros t Ht DV; apply Z.divide_pos_le in DV; lia).
  destruct (inverse_spec s sn prime_sn) as (w' & EW & BW & DW); [apply DZ, Bs|]. rewrite HW in EW. apply Ok_inj in EW. subst w'.
  destruct (secp_mult g d Og ltac:(lia)) as (Q' & EQ' & AQ). rewrite EQ in EQ'. apply Ok_inj in EQ'. subst Q'.
  destruct (secp_mult g k Og ltac:(lia)) as (R' & ER' & AR). rewrite ER in ER'. apply Ok_inj in ER'. subst R'.
  pose proof (Z.mod_pos_bound (z * w) sn ltac:(lia)) as Bu. pose proof (Z.mod_pos_bound (r * w) sn ltac:(lia)) as Bv. set (u := (z * w) mod sn) in *. set (v := (r * w) mod sn) in *.
  assert (OQ: on_curve 0 7 sp (affine sp Q)) by (rewrite AQ; apply (emul_on 0 7 sp Pp sp2), Og).
  destruct (secp_mult g u Og ltac:(lia)) as (U' & EU' & AU). rewrite EU in EU'. apply Ok_inj in EU'. subst U'.
  destruct (secp_mult Q v OQ ltac:(lia)) as (V' & EV' & AV). rewrite EV in EV'. apply Ok_inj in EV'. subst V'.
  assert (AV2: affine sp V = EM (Z.to_nat v * Z.to_nat d) (affine sp g)) by (rewrite AV, AQ, (emul_mul 0 7 sp Pp sp2 secp_nonsing) by exact Og; reflexivity).
  assert (NV: affine sp V <> None).
  { rewrite AV2. intros E0. apply (emul_small_order _ _ Og (secp_kill _ Og) NG) in E0. destruct E0 as (c & E0).
    assert (DV: (sn | v * d)) by (exists (Z.of_nat c); nia). apply prime_mult in DV; [|exact prime_sn]. destruct DV as [DV|DV]; [|revert DV; apply DZ, Bd].
    unfold v in DV. assert (D1: (sn | r * w)) by (apply Z.mod_divide in DV; [|lia]; rewrite Z.mod_mod in DV by lia; apply Z.mod_divide; [lia|exact DV]).
    apply prime_mult in D1; [|exact prime_sn]. destruct D1 as [D1|D1]; [revert D1; apply DZ, Br|].
    assert (D2: (sn | 1)) by (replace 1 with (s * w - (s * w - 1)) by ring; apply Z.divide_sub_r; [apply Z.divide_mul_r, D1|exact DW]). revert D2. apply DZ. lia. }
  destruct (plus_ok 0 7 sp _ HF Pp sp2 U V) as (X & EX & AX & _).
  - rewrite AU. apply (emul_on 0 7 sp Pp sp2), Og.
  - rewrite AV. apply (emul_on 0 7 sp Pp sp2), OQ.
  - right. intros Z0. apply NV. unfold affine. rewrite Z0. reflexivity.
  - exists X. split; [exact EX|]. rewrite AX, AU, AV2, AR. rewrite <- (emul_add 0 7 sp Pp sp2 secp_nonsing) by exact Og.
    replace (Z.to_nat u + Z.to_nat v * Z.to_nat d)%nat with (Z.to_nat (u + v * d)) by nia.
    apply (emul_eq_iff (affine sp g)); [exact Og|exact NG|nia|lia|].
    assert (Du: (sn | z * w - u)) by (exists (z * w / sn); pose proof (Z.div_mod (z * w) sn ltac:(lia)); unfold u; lia).
    assert (Dv: (sn | r * w - v)) by (exists (r * w / sn); pose proof (Z.div_mod (r * w) sn ltac:(lia)); unfold v; lia).
    destruct Du as (c1 & H1), Dv as (c2 & H2), DW as (c3 & H3), HS as (c4 & H4). exists (c3 * k - c4 * w - c1 - c2 * d).
    replace (u + v * d - k) with (z * w - (z * w - u) + (r * w - (r * w - v)) * d - k) by ring. rewrite H1, H2.
    replace (z * w) with ((s * k - r * d - c4 * sn) * w) by (replace z with (s * k - r * d - (s * k - (z + r * d))) by ring; rewrite H4; ring).
    replace ((s * k - r * d - c4 * sn) * w) with ((s * w - 1) * k + k - r * w * d - c4 * sn * w) by ring. rewrite H3. ring.
Qed.
Example c89_case : exists E g, secp256k1_new = Ok (E, g) /\ is_on_curve E g = Ok true /\ is_infinity g = false.
Proof. exists (new_raw 0 7 sp), (mkPt gx gy 1). split; [exact secp_new|]. split; [|reflexivity]. apply (is_on_true 0 7 sp); [apply new_raw_fields|exact secp_pos|exact secp_g_on]. Qed.

(** C89: the hypotheses of the signature theorem are met, e.g. with d = 2, k = 1, z = 5, r = 7, s = 19. *)
Example c89_case_signature : exists E g w Q R U V, let n := 0xFFFFFFFFFFFFFFFFFFFFFFFFFFFFFFFEBAAEDCE6AF48A03BBFD25E8CD0364141 in
  secp256k1_new = Ok (E, g) /\ (n | 19 * 1 - (5 + 7 * 2)) /\ inverse 19 n = Ok w /\
  multiply_scalar E g 2 = Ok Q /\ multiply_scalar E g 1 = Ok R /\ multiply_scalar E g (5 * w mod n) = Ok U /\ multiply_scalar E Q (7 * w mod n) = Ok V.
Proof.
  cbv zeta. change 0xFFFFFFFFFFFFFFFFFFFFFFFFFFFFFFFEBAAEDCE6AF48A03BBFD25E8CD0364141 with sn. pose proof sn_pos as S0.
  destruct (inverse_spec 19 sn prime_sn) as (w & EW & _); [intros DV; apply Z.divide_pos_le in DV; [apply DV; reflexivity|reflexivity]|].
  set (g := mkPt gx gy 1). assert (Og: on_curve 0 7 sp (affine sp g)) by exact secp_g_on.
  destruct (secp_mult g 2 Og ltac:(lia)) as (Q & EQ & AQ). destruct (secp_mult g 1 Og ltac:(lia)) as (R & ER & _).
  pose proof (Z.mod_pos_bound (5 * w) sn ltac:(lia)). pose proof (Z.mod_pos_bound (7 * w) sn ltac:(lia)).
  destruct (secp_mult g (5 * w mod sn) Og ltac:(lia)) as (U & EU & _).
  assert (OQ: on_curve 0 7 sp (affine sp Q)) by (rewrite AQ; apply (emul_on 0 7 sp Pp sp2), Og).
  destruct (secp_mult Q (7 * w mod sn) OQ ltac:(lia)) as (V & EV & _).
  exists (new_raw 0 7 sp), g, w, Q, R, U, V. split; [exact secp_new|]. split; [apply Z.divide_0_r|]. auto.
Qed.
