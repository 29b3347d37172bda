(** Lemmas about sea and the l = 2 part of schoof. *)
From Coq Require Import Znumtheory ZifyBool Setoid Morphisms Ring.
From Verif Require Import Prelude M_Bigint M_Variable M_Term M_Poly M_Curve M_DivPoly M_Modular M_Schoof Spec SpecCurve P_Bigint P_Variable P_FSum P_Poly P_Rem P_PolyProps P_Subst P_Subst2 P_Subst3 P_Mod P_Gcd P_Gcd2 P_Roots P_Modular.
Open Scope Z_scope.

(** ** the root search *)
Lemma eval_x_root p g x : 0 < p -> only_x g -> exists r, eval_x g x = Ok r /\ modular_assign r p = Ok (redp p r) /\ is_zero (redp p r) = rootb p g x.
Proof.
  intros Hp Og. destruct (eval_x_spec g x) as (r & E & Sr & Fr & Kr); [intros m c Hi; apply (Og m c Hi)|].
  exists r. split; [exact E|]. split; [apply modular_assign_eq; auto|].
  assert (C: forall m, coef r m = if mono_eqb mone m then fval x 0 g else 0).
  { intros m. rewrite (Fr m). unfold evx. clear E Fr Kr Sr r. induction g as [|[k c] g IH]; cbn [map coef fst snd fval]; [destruct (mono_eqb mone m); reflexivity|].
    rewrite IH by (intros m' c' Hi; apply (Og m' c'); right; exact Hi). destruct (Og k c (or_introl eq_refl)) as (_ & K2 & K3 & K4). destruct k as [kx ky kq kv]. cbn in *. subst.
    unfold set_x, mval. cbn [mx my mq mv]. change (mkMono 0 0 0 None) with mone. rewrite Z.pow_0_r. destruct (mono_eqb mone m); ring. }
  destruct (is_zero (redp p r)) eqn:Z1.
  - apply is_zero_nil in Z1. apply redp_nil_iff in Z1; auto. symmetry. apply rootb_true; [lia|]. specialize (Z1 mone). rewrite C, mono_eqb_refl in Z1. cbn [coef] in Z1. rewrite Z.sub_0_r in Z1. exact Z1.
  - symmetry. apply not_true_is_false. intros H. apply rootb_true in H; [|lia]. assert (Z2: redp p r = []).
    { apply redp_nil_iff; auto. intros m. rewrite C. cbn [coef]. rewrite Z.sub_0_r. destruct (mono_eqb mone m); [exact H|apply Z.divide_0_r]. }
    rewrite Z2 in Z1. discriminate.
Qed.
Lemma sea_roots_spec p g d : 0 < p -> only_x g -> 1 <= d -> forall js acc, Z.of_nat (length acc) < Z.min d 2 ->
  sea_roots p d g js acc = Ok (acc ++ firstn (Z.to_nat (Z.min d 2) - length acc) (filter (rootb p g) js)).
Proof.
  intros Hp Og Hd. induction js as [|j js IH]; intros acc Ha; cbn [sea_roots filter].
  - rewrite firstn_nil, app_nil_r. reflexivity.
  - destruct (eval_x_root p g j Hp Og) as (r & -> & E2 & E3). cbn [bind]. rewrite E2. cbn [bind]. rewrite E3. destruct (rootb p g j).
    + rewrite app_length. cbn [length]. destruct ((d =? Z.of_nat (length acc + 1)) || Nat.eqb (length acc + 1) 2) eqn:C.
      * assert (Z.min d 2 = Z.of_nat (length acc + 1)) as -> by (apply orb_prop in C; destruct C as [C|C]; [lia|apply Nat.eqb_eq in C; lia]).
        rewrite Nat2Z.id. replace (length acc + 1 - length acc)%nat with 1%nat by lia. reflexivity.
      * apply orb_false_elim in C. destruct C as (C1 & C2). apply Nat.eqb_neq in C2. rewrite IH by (rewrite app_length; cbn [length]; lia). rewrite app_length. cbn [length].
        replace (Z.to_nat (Z.min d 2) - length acc)%nat with (S (Z.to_nat (Z.min d 2) - (length acc + 1)))%nat by lia. cbn [firstn]. rewrite <- app_assoc. reflexivity.
    + apply IH, Ha.
Qed.

(** ** Phi(x, j) mod p *)
Definition mshape (l : Z) (Phi : fsum) : Prop := 0 < l /\ coef Phi (xymono (l + 1) 0) = 1 /\
  (forall m, coef Phi m <> 0 -> exists i j, m = xymono i j /\ ((0 <= i <= l /\ 0 <= j <= l) \/ (i = l + 1 /\ j = 0) \/ (i = 0 /\ j = l + 1))).
Lemma fval_evy x v a : fval x 0 (evy v a) = fval x v a.
Proof. unfold evy. induction a as [|[m c] a IH]; [reflexivity|]. cbn [map fst snd fval]. rewrite IH. unfold mval, set_y. cbn [mx my]. rewrite Z.pow_0_r. ring. Qed.
Lemma sea_poly l Phi p j : mshape l Phi -> l + 1 <= i32_max -> sorted Phi -> prime p ->
  exists m2 M, modular_assign Phi p = Ok (redp p Phi) /\ eval_y (redp p Phi) j = Ok m2 /\ modular_assign m2 p = Ok M /\
    sorted M /\ reduced p M /\ only_x M /\ i32_poly M /\ M <> [] /\ (forall x, (p | fval x 0 M - fval x j Phi)) /\ feqm p M (evy j Phi).
Proof.
  intros (Hl & T & Sh) Hl2 Ss Hp. pose proof (prime_ge_2 p Hp) as Hp2.
  assert (K1: forall m c, In (m, c) (redp p Phi) -> exists i k, m = xymono i k /\ 0 <= k /\ 0 <= i <= l + 1 /\ (i = l + 1 -> k = 0)).
  { intros m c Hi. apply redp_in in Hi. destruct Hi as (d & Hi & -> & Hn). destruct (Sh m) as (i & k & -> & H).
    - rewrite (sorted_coef _ _ _ Ss Hi). intros ->. apply Hn. apply Z.mod_0_l. lia.
    - exists i, k. split; [reflexivity|]. lia. }
  destruct (eval_y_spec (redp p Phi) j) as (m2 & E & S2 & F2 & Kr).
  { intros m c Hi. apply K1 in Hi. destruct Hi as (i & k & -> & H & _). cbn. lia. }
  exists m2, (redp p m2). split; [apply modular_assign_eq; [lia|exact Ss]|]. split; [exact E|]. split; [apply modular_assign_eq; [lia|exact S2]|].
  assert (KM: keysP (fun m => exists i, m = xymono i 0 /\ 0 <= i <= l + 1) (redp p m2)).
  { apply redp_keys. intros m c Hi. destruct (Kr m c Hi) as (k & d & Hk & ->). apply K1 in Hk. destruct Hk as (i & k' & -> & H & H2 & _). exists i. split; [reflexivity|exact H2]. }
  assert (FM: feqm p (redp p m2) (evy j Phi)).
  { rewrite (redp_feqm p m2 ltac:(lia) S2). rewrite (feq_feqm p _ _ F2). intros m. rewrite !coef_lin. unfold evy.
    assert (G: forall a, lin (delta m) (map (fun e => (set_y 0 (fst e), snd e * j ^ my (fst e))) a) = lin (fun k => j ^ my k * delta m (set_y 0 k)) a).
    { induction a as [|[k c] a IH]; [reflexivity|]. cbn [map lin fst snd]. rewrite IH. ring. }
    rewrite !G. apply feqm_lin. apply redp_feqm; [lia|exact Ss]. }
  split; [apply redp_sorted, S2|]. split; [apply redp_reduced; lia|].
  split; [intros m c Hi; apply KM in Hi; destruct Hi as (i & -> & Hi); cbn; intuition lia|].
  split; [intros m c Hi; apply KM in Hi; destruct Hi as (i & -> & Hi); unfold i32_mono, i32_range, xymono; cbn [mx my mq]; unfold i32_min, i32_max in *; lia|].
  split; [|split; [intros x; rewrite <- (fval_evy x j Phi); apply fval_feqm, FM|exact FM]].
  intros E0. rewrite E0 in FM. specialize (FM (xymono (l + 1) 0)).
  assert (C1: coef (evy j Phi) (xymono (l + 1) 0) = 1).
  { rewrite coef_lin. unfold evy.
    assert (G: lin (delta (xymono (l + 1) 0)) (map (fun e => (set_y 0 (fst e), snd e * j ^ my (fst e))) Phi) = lin (fun k => j ^ my k * delta (xymono (l + 1) 0) (set_y 0 k)) Phi).
    { clear. induction Phi as [|[k c] a IH]; [reflexivity|]. cbn [map lin fst snd]. rewrite IH. ring. }
    rewrite G. transitivity (coef Phi (xymono (l + 1) 0)); [|exact T]. rewrite coef_lin.
    (* compare termwise on the monomials that occur *)
    assert (G2: forall a : fsum, (forall k c, In (k, c) a -> c <> 0 -> j ^ my k * delta (xymono (l + 1) 0) (set_y 0 k) = delta (xymono (l + 1) 0) k) ->
      lin (fun k => j ^ my k * delta (xymono (l + 1) 0) (set_y 0 k)) a = lin (delta (xymono (l + 1) 0)) a).
    { induction a as [|[k c] a IH]; intros H; [reflexivity|]. cbn [lin]. rewrite IH by (intros k' c' Hi; apply (H k' c'); right; exact Hi).
      destruct (Z.eq_dec c 0) as [->|N]; [ring|]. rewrite (H k c (or_introl eq_refl) N). reflexivity. }
    apply G2. intros k c Hi Hc. destruct (Sh k) as (i & k' & -> & H); [rewrite (sorted_coef _ _ _ Ss Hi); exact Hc|].
    unfold set_y, xymono, delta. cbn [mx my mq mv]. destruct (Z.eq_dec i (l + 1)) as [->|Ni].
    - assert (k' = 0) as -> by lia. rewrite Z.pow_0_r. ring.
    - rewrite !mono_eqb_neq by (intros E1; injection E1; lia). ring. }
  rewrite C1 in FM. cbn [coef] in FM. apply Z.divide_opp_r in FM. replace (- (0 - 1)) with 1 in FM by ring. apply Z.divide_pos_le in FM; lia.
Qed.

(** ** sea after the modular polynomial *)
Lemma sea_with_ok fuel a b p E l Phi R : ca E = a -> cb E = b -> cp E = p -> prime p -> mshape l Phi -> l + 1 <= i32_max -> sorted Phi -> sea_with fuel E Phi = Ok R ->
  exists j, ec_j_invariant E = Ok j /\ p <= i32_max /\ sorted (sea_gcd R) /\ reduced p (sea_gcd R) /\ only_x (sea_gcd R) /\ tc (highest_term_x (sea_gcd R)) = 1 /\
    fdivides p (sea_gcd R) (fermat_poly p) /\ fdivides p (sea_gcd R) (evy j Phi) /\
    sea_degree R = mx (tm (highest_term_x (sea_gcd R))) /\ 1 <= sea_degree R /\ sea_is_elkies R = true /\
    (forall x, (p | fval x 0 (sea_gcd R)) <-> (p | fval x j Phi)) /\
    sea_degree R = Z.of_nat (length (roots p (sea_gcd R))) /\ sea_js R = firstn (Z.to_nat (Z.min (sea_degree R) 2)) (roots p (sea_gcd R)) /\
    (exists u v, only_x u /\ only_x v /\ feqm p (sea_gcd R) (fadd (conv u (fermat_poly p)) (conv v (evy j Phi)))).
Proof.
  intros Ea Eb Ep Hp Sh Hl Ss H. pose proof (prime_ge_2 p Hp) as Hp2. unfold sea_with in H. rewrite Ep in H.
  apply bind_Ok in H. destruct H as (m1 & E1 & H). apply bind_Ok in H. destruct H as (j & Ej & H). exists j. split; [exact Ej|].
  destruct (sea_poly l Phi p j Sh Hl Ss Hp) as (m2 & M & A1 & A2 & A3 & SM & RM & OM & IM & NM & VM & FM).
  assert (m1 = redp p Phi) by congruence. subst m1. rewrite A2 in H. cbn [bind] in H. rewrite A3 in H. cbn [bind] in H.
  unfold to_i32, i32, in_i32 in H. destruct ((i32_min <=? p) && (p <=? i32_max)) eqn:B; [|cbn [bind] in H; discriminate]. cbn [bind] in H.
  split; [lia|]. cbv zeta in H. rewrite fermat_built in H by exact Hp2.
  apply bind_Ok in H. destruct H as (g & Eg & H).
  destruct (ugcd_spec p Hp fuel (fermat_poly p) M g (fermat_sorted p Hp2) SM (fermat_only_x p ltac:(lia)) OM (fermat_i32 p ltac:(lia)) IM (fermat_ulead p Hp2) (reduced_ulead p M Hp SM RM) Eg)
    as (Sg & Rg & Og & Mo & Dg & Hin & Ig & Da & Db & u & v & Hu & Hv & F).
  assert (Ng: g <> []) by (intros ->; destruct Hin).
  assert (Deg: degree_x g = Ok (mx (tm (highest_term_x g)))).
  { unfold degree_x. destruct (only_x_no_yq g Og) as (-> & ->). cbn [negb assertb bind]. destruct g; [contradiction|reflexivity]. }
  rewrite Deg in H. cbn [bind] in H. replace (0 <? mx (tm (highest_term_x g))) with true in H by lia.
  rewrite (sea_roots_spec p g _ ltac:(lia) Og Dg) in H by (cbn [length]; lia). cbn [bind app length] in H. rewrite Nat.sub_0_r in H. injection H as <-.
  cbn [sea_gcd sea_degree sea_is_elkies sea_js].
  split; [exact Sg|]. split; [exact Rg|]. split; [exact Og|]. split; [exact Mo|]. split; [exact Da|]. split; [apply (fdiv_feqm p g M _ FM Db)|].
  split; [reflexivity|]. split; [exact Dg|]. split; [reflexivity|]. split; [|split; [symmetry; apply roots_of_divisor; assumption|split; [reflexivity|exists u, v; split; [exact Hu|]; split; [exact Hv|]; rewrite <- FM; exact F]]].
  intros x. split; intros D.
  - apply (divides_root p g M x Og Db) in D. replace (fval x j Phi) with (fval x 0 M - (fval x 0 M - fval x j Phi)) by ring. apply Z.divide_sub_r; [exact D|apply VM].
  - assert (D2: (p | fval x 0 M)). { replace (fval x 0 M) with ((fval x 0 M - fval x j Phi) + fval x j Phi) by ring. apply Z.divide_add_r; [apply VM|exact D]. }
    apply (fval_feqm p x 0) in F. unfold fadd in F. rewrite fval_app, !fval_conv_x in F by (assumption || apply fermat_only_x; lia).
    replace (fval x 0 g) with ((fval x 0 g - (fval x 0 u * fval x 0 (fermat_poly p) + fval x 0 v * fval x 0 M)) + (fval x 0 u * fval x 0 (fermat_poly p) + fval x 0 v * fval x 0 M)) by ring.
    apply Z.divide_add_r; [exact F|]. apply Z.divide_add_r; apply Z.divide_mul_r; [apply fermat_roots, Hp|exact D2].
Qed.
Lemma sea_with_iff E p l Phi j : cp E = p -> prime p -> p <= i32_max -> mshape l Phi -> l + 1 <= i32_max -> sorted Phi -> ec_j_invariant E = Ok j ->
  ((exists x, 0 <= x < p /\ (p | fval x j Phi)) -> exists fuel R, sea_with fuel E Phi = Ok R) /\
  (~ (exists x, 0 <= x < p /\ (p | fval x j Phi)) -> forall fuel, sea_with fuel E Phi = NoFuel).
Proof.
  intros Ep Hp Hpm Sh Hl Ss Ej. pose proof (prime_ge_2 p Hp) as Hp2.
  destruct (sea_poly l Phi p j Sh Hl Ss Hp) as (m2 & M & A1 & A2 & A3 & SM & RM & OM & IM & NM & VM & FM).
  assert (EQ: forall fuel, sea_with fuel E Phi = (g <- p_gcd fuel (fermat_poly p) M p ;; degree <- degree_x g ;;
     js <- (if 0 <? degree then sea_roots p degree g (zrange 0 p) [] else Ok []) ;; Ok (mkSea g degree (0 <? degree) js))).
  { intros fuel. unfold sea_with. rewrite Ep, A1. cbn [bind]. rewrite Ej. cbn [bind]. rewrite A2. cbn [bind]. rewrite A3. cbn [bind].
    unfold to_i32, i32, in_i32. replace ((i32_min <=? p) && (p <=? i32_max)) with true by (unfold i32_min, i32_max in *; lia). cbn [bind]. rewrite fermat_built by exact Hp2. reflexivity. }
  assert (RT: (exists x, 0 <= x < p /\ (p | fval x j Phi)) <-> common_factor p M (fermat_poly p)).
  { rewrite common_factor_fermat by assumption. split; intros (x & Bx & D); exists x; (split; [exact Bx|]).
    - replace (fval x 0 M) with ((fval x 0 M - fval x j Phi) + fval x j Phi) by ring. apply Z.divide_add_r; [apply VM|exact D].
    - replace (fval x j Phi) with (fval x 0 M - (fval x 0 M - fval x j Phi)) by ring. apply Z.divide_sub_r; [exact D|apply VM]. }
  split; intros C.
  - apply RT, common_factor_sym in C.
    destruct (ugcd_returns p Hp (Z.to_nat (mx (tm (highest_term_x M)) + 1)) (fermat_poly p) M (fermat_sorted p Hp2) SM (fermat_only_x p ltac:(lia)) OM (fermat_i32 p ltac:(lia)) IM (fermat_ulead p Hp2) (reduced_ulead p M Hp SM RM) ltac:(discriminate) NM C) as (fuel & g & Eg).
    { destruct (highest_only_x M SM OM) as (_ & _ & _ & P0). rewrite Z2Nat.id; lia. }
    exists fuel. rewrite EQ, Eg. cbn [bind].
    destruct (ugcd_spec p Hp fuel (fermat_poly p) M g (fermat_sorted p Hp2) SM (fermat_only_x p ltac:(lia)) OM (fermat_i32 p ltac:(lia)) IM (fermat_ulead p Hp2) (reduced_ulead p M Hp SM RM) Eg)
      as (Sg & Rg & Og & Mo & Dg & Hin & _).
    assert (Deg: degree_x g = Ok (mx (tm (highest_term_x g)))).
    { unfold degree_x. destruct (only_x_no_yq g Og) as (-> & ->). cbn [negb assertb bind]. destruct g; [destruct Hin|reflexivity]. }
    rewrite Deg. cbn [bind]. replace (0 <? mx (tm (highest_term_x g))) with true by lia.
    rewrite (sea_roots_spec p g _ ltac:(lia) Og Dg) by (cbn [length]; lia). cbn [bind]. eexists. reflexivity.
  - intros fuel. rewrite EQ. destruct (p_gcd fuel (fermat_poly p) M p) as [g| |] eqn:Eg; cbn [bind]; [exfalso|exfalso|reflexivity].
    + destruct (ugcd_spec p Hp fuel (fermat_poly p) M g (fermat_sorted p Hp2) SM (fermat_only_x p ltac:(lia)) OM (fermat_i32 p ltac:(lia)) IM (fermat_ulead p Hp2) (reduced_ulead p M Hp SM RM) Eg)
        as (Sg & Rg & Og & Mo & Dg & Hin & _ & Da & Db & _).
      apply C, RT. exists g, (tm (highest_term_x g)), 1. auto 10.
    + apply (ugcd_never_panics p Hp fuel (fermat_poly p) M (fermat_sorted p Hp2) SM (fermat_only_x p ltac:(lia)) OM (fermat_i32 p ltac:(lia)) IM (fermat_ulead p Hp2) (reduced_ulead p M Hp SM RM) Eg).
Qed.
