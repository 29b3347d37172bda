(** Lemmas behind C128 (the order in which points() and division_points() list the points). *)
From Coq Require Import Znumtheory ZifyBool Sorting.Sorted.
From Verif Require Import Prelude M_Bigint M_Variable M_Term M_Poly M_Curve Spec SpecCurve SpecEnum P_Bigint P_Variable P_Subst P_Curve2 P_Curve4 P_CurveProps.
Open Scope Z_scope.

Lemma ss_app {A} (R : A -> A -> Prop) (l m : list A) : StronglySorted R l -> StronglySorted R m -> (forall x y, In x l -> In y m -> R x y) -> StronglySorted R (l ++ m).
Proof.
  induction l as [|x l IH]; intros Hl Hm Hd; [exact Hm|]. apply StronglySorted_inv in Hl. destruct Hl as (Hl & F). cbn. constructor.
  - apply IH; [exact Hl|exact Hm|]. intros y z Hy Hz. apply Hd; [right; exact Hy|exact Hz].
  - apply Forall_forall. intros y Hy. apply in_app_iff in Hy. destruct Hy as [Hy|Hy]; [rewrite Forall_forall in F; apply F, Hy|]. apply Hd; [left; reflexivity|exact Hy].
Qed.
Lemma ss_filter {A} (R : A -> A -> Prop) f (l : list A) : StronglySorted R l -> StronglySorted R (filter f l).
Proof.
  induction l as [|x l IH]; intros H; [constructor|]. apply StronglySorted_inv in H. destruct H as (H & F). cbn [filter]. destruct (f x); [|apply IH, H].
  constructor; [apply IH, H|]. apply Forall_forall. intros y Hy. apply filter_In in Hy. rewrite Forall_forall in F. apply F, Hy.
Qed.
Lemma ss_unique {A} (R : A -> A -> Prop) : (forall x, ~ R x x) -> (forall x y, R x y -> ~ R y x) ->
  forall l m : list A, StronglySorted R l -> StronglySorted R m -> (forall x, In x l <-> In x m) -> l = m.
Proof.
  intros Ir As. induction l as [|x l IH]; intros m Hl Hm I.
  - destruct m as [|y m]; [reflexivity|]. exfalso. apply (I y). left; reflexivity.
  - destruct m as [|y m]; [exfalso; apply (I x); left; reflexivity|]. apply StronglySorted_inv in Hl, Hm. destruct Hl as (Hl & Fl), Hm as (Hm & Fm). rewrite Forall_forall in Fl, Fm.
    assert (XY : x = y).
    { destruct (proj1 (I x) (or_introl eq_refl)) as [X|X]; [symmetry; exact X|]. destruct (proj2 (I y) (or_introl eq_refl)) as [Y|Y]; [exact Y|]. exfalso. exact (As y x (Fm x X) (Fl y Y)). }
    subst y. f_equal. apply IH; [exact Hl|exact Hm|]. intros z. split; intros Hz.
    + destruct (proj1 (I z) (or_intror Hz)) as [Z|Z]; [|exact Z]. subst z. exfalso. exact (Ir x (Fl x Hz)).
    + destruct (proj2 (I z) (or_intror Hz)) as [Z|Z]; [|exact Z]. subst z. exfalso. exact (Ir x (Fm x Hz)).
Qed.
Lemma seq_ss n : forall k, StronglySorted (fun i j => (i < j)%nat) (seq k n).
Proof. induction n as [|n IH]; intros k; [constructor|]. cbn. constructor; [apply IH|]. apply Forall_forall. intros x Hx. apply in_seq in Hx. lia. Qed.
Lemma zrange_ss c d : StronglySorted Z.lt (zrange c d).
Proof.
  unfold zrange. generalize (seq_ss (Z.to_nat (d - c)) 0). induction (seq 0 (Z.to_nat (d - c))) as [|x l IH]; intros H; [constructor|].
  apply StronglySorted_inv in H. destruct H as (H & F). cbn [map]. constructor; [apply IH, H|]. apply Forall_forall. intros y Hy. apply in_map_iff in Hy. destruct Hy as (z & <- & Hz). rewrite Forall_forall in F. specialize (F z Hz). lia.
Qed.

Section Enum.
Variables (a b p : Z) (E : curve).
Hypothesis HE : fields a b p E.
Hypothesis Pp : prime p.
Let H0 : 2 <= p := prime_ge_2 p Pp.
Lemma find_y_sorted x : forall ys pts, (forall y, 0 <= y < p -> curve_eqn a b p x y -> In y ys) -> (forall y, In y ys -> 0 <= y < p) -> StronglySorted Z.lt ys ->
  forall M, find_y E x ((x ^ 3 + a * x + b) mod p) ys pts = Ok M -> exists L, M = pts ++ L /\ StronglySorted lex L.
Proof.
  destruct HE as (Ea & Eb & Ep & Epol).
  induction ys as [|y ys IH]; intros pts Hc Hb Hs M.
  - cbn [find_y]. intros X. injection X as <-. exists []. rewrite app_nil_r. split; [reflexivity|constructor].
  - cbn [find_y]. rewrite power_i32_spec by lia. cbn [bind]. unfold mod_floor. rewrite Ep. destruct (p =? 0) eqn:Z0; [lia|]. cbn [bind].
    assert (By: 0 <= y < p) by (apply Hb; left; reflexivity). apply StronglySorted_inv in Hs. destruct Hs as (Hs & F).
    destruct ((y ^ 2) mod p =? (x ^ 3 + a * x + b) mod p) eqn:Y.
    + apply Z.eqb_eq in Y. apply (xpol_eqn a b p x y) in Y; [|lia]. unfold negate. cbn [is_infinity pz Z.eqb]. rewrite Ep. unfold mod_floor. rewrite Z0. cbn [bind px py pz].
      assert (B2: 0 <= (- y) mod p < p) by (apply Z.mod_pos_bound; lia).
      pose proof (neg_eqn a b p Pp x y Y) as C2. pose proof (Hc _ B2 C2) as I2.
      destruct (point_eqb (mkPt x ((- y) mod p) 1) (mkPt x y 1)) eqn:EQ; cbn [negb]; intros X; injection X as <-.
      * exists [mkPt x y 1]. split; [reflexivity|]. constructor; constructor.
      * exists [mkPt x y 1; mkPt x ((- y) mod p) 1]. split; [rewrite <- app_assoc; reflexivity|]. constructor; [constructor; constructor|]. constructor; [|constructor].
        right. cbn [px py]. split; [reflexivity|]. destruct I2 as [I2|I2]; [|rewrite Forall_forall in F; apply F, I2].
        exfalso. rewrite <- I2 in EQ. assert (X : point_eqb (mkPt x y 1) (mkPt x y 1) = true) by (apply point_eqb_eq; reflexivity). congruence.
    + apply IH; [|intros; apply Hb; right; assumption|exact Hs]. intros z Bz Cz. destruct (Hc z Bz Cz) as [<-|]; [|assumption]. apply Z.eqb_neq in Y. exfalso. apply Y. apply xpol_eqn; [lia|exact Cz].
Qed.
Lemma enum_sorted : forall xs pts, StronglySorted Z.lt xs -> forall M,
  foldM (fun pts x =>
           x3 <- power_i32 x 3 ;;
           let xpol := x3 + ca E * x + cb E in
           xpol <- mod_floor xpol (cp E) ;;
           find_y E x xpol (zrange 0 (cp E)) pts) xs pts = Ok M -> exists L, M = pts ++ L /\ StronglySorted lex L /\ forall P, In P L -> In (px P) xs.
Proof.
  pose proof HE as (Ea & Eb & Ep & Epol).
  induction xs as [|x xs IH]; intros pts Hs M.
  - cbn [foldM]. intros X. injection X as <-. exists []. rewrite app_nil_r. split; [reflexivity|]. split; [constructor|intros P []].
  - apply StronglySorted_inv in Hs. destruct Hs as (Hs & F). cbn [foldM]. rewrite Ea, Eb, Ep in *. rewrite power_i32_spec by lia. cbn [bind].
    assert (MF: mod_floor (x ^ 3 + a * x + b) p = Ok ((x ^ 3 + a * x + b) mod p)) by (unfold mod_floor; destruct (p =? 0) eqn:Z0; [lia|reflexivity]). rewrite MF. cbn [bind].
    destruct (find_y_spec a b p E HE Pp x (zrange 0 p) pts) as (L1 & E1 & _ & _ & I1).
    { intros y By _. apply in_zrange. lia. } { intros y Hy. apply in_zrange in Hy. lia. }
    destruct (find_y_sorted x (zrange 0 p) pts) with (M := pts ++ L1) as (L1' & X1 & S1).
    { intros y By _. apply in_zrange. lia. } { intros y Hy. apply in_zrange in Hy. lia. } { apply zrange_ss. } { exact E1. }
    apply app_inv_head in X1. subst L1'. rewrite E1. cbn [bind]. intros HM. destruct (IH (pts ++ L1) Hs M) as (L2 & -> & S2 & I2); [exact HM|].
    exists (L1 ++ L2). split; [rewrite app_assoc; reflexivity|].
    assert (HX: forall P, In P L1 -> px P = x) by (intros P HP; apply I1 in HP; destruct HP as (_ & X & _); exact X). split.
    + apply ss_app; [exact S1|exact S2|]. intros P Q HP HQ. left. rewrite (HX P HP). rewrite Forall_forall in F. apply F, I2, HQ.
    + intros P HP. apply in_app_iff in HP. destruct HP as [HP|HP]; [left; symmetry; apply HX, HP|right; apply I2, HP].
Qed.
End Enum.
Lemma points_sorted a b p E : ec_new a b p = Ok E -> exists L, ec_points E = L ++ [infinity] /\ StronglySorted lex L.
Proof.
  intros H. assert (Pp : prime p) by (apply (proj1 (c61_new_returns a b p)); exists E; exact H). revert H. unfold ec_new. intros H.
  apply bind_inv in H as (? & _ & H). apply bind_inv in H as (? & _ & H). apply bind_inv in H as (? & _ & H). unfold create_points in H.
  apply bind_inv in H as (M & HM & H). injection H as <-. cbn [ec_points cpoints].
  destruct (enum_sorted a b p (mkCurve a b p (weierstrass a b) []) ltac:(repeat split) Pp (zrange 0 p) []) with (M := M) as (L & -> & S1 & _); [apply zrange_ss|exact HM|].
  exists L. split; [reflexivity|exact S1].
Qed.
(** C128: points() lists the finite points in lexicographic order of (x, y), followed by the point at infinity; with C61 this determines the list. *)
Lemma c128_points : forall a b p E, ec_new a b p = Ok E ->
  exists L, ec_points E = L ++ [infinity] /\ StronglySorted lex L /\
    forall L', StronglySorted lex L' -> (forall P, In P L' <-> pz P = 1 /\ 0 <= px P < p /\ 0 <= py P < p /\ curve_eqn a b p (px P) (py P)) -> L' = L.
Proof.
  intros a b p E H. destruct (points_sorted a b p E H) as (L & EL & SL). exists L. split; [exact EL|]. split; [exact SL|]. intros L' SL' I.
  destruct (c61_points a b p E H) as (ND & IP). apply (ss_unique lex); [intros; lia|intros; lia|exact SL'|exact SL|]. intros P. rewrite I.
  unfold ec_points in *. rewrite EL in ND. apply NoDup_remove_2 in ND. rewrite app_nil_r in ND. specialize (IP P). rewrite EL, in_app_iff in IP. cbn [In] in IP. split.
  - intros X. destruct (proj2 IP (or_intror X)) as [Y|[Y|[]]]; [exact Y|]. subst P. destruct X as (X & _). discriminate.
  - intros X. destruct (proj1 IP (or_introl X)) as [Y|Y]; [subst P; contradiction|exact Y].
Qed.
(** C128: coefficients congruent modulo p give the same list of points. *)
Lemma c128_congruent : forall a b a' b' p E E', ec_new a b p = Ok E -> ec_new a' b' p = Ok E' -> (p | a' - a) -> (p | b' - b) -> ec_points E' = ec_points E.
Proof.
  intros a b a' b' p E E' H H' Da Db. destruct (points_sorted a b p E H) as (L & EL & SL). destruct (c128_points a' b' p E' H') as (L' & EL' & SL' & U). rewrite EL, EL'. f_equal. symmetry. apply U; [exact SL|].
  intros P. destruct (c61_points a b p E H) as (ND & IP). unfold ec_points in *. rewrite EL in ND. apply NoDup_remove_2 in ND. rewrite app_nil_r in ND. specialize (IP P). rewrite EL, in_app_iff in IP. cbn [In] in IP.
  assert (CE : curve_eqn a' b' p (px P) (py P) <-> curve_eqn a b p (px P) (py P)).
  { unfold curve_eqn. set (x := px P). set (y := py P). replace (y * y - (x * x * x + a' * x + b')) with (y * y - (x * x * x + a * x + b) - ((a' - a) * x + (b' - b))) by ring.
    assert (D : (p | (a' - a) * x + (b' - b))) by (apply Z.divide_add_r; [apply Z.divide_mul_l|]; assumption). split; intros X; [|apply Z.divide_sub_r; assumption].
    pose proof (Z.divide_add_r _ _ _ X D) as Y. replace (y * y - (x * x * x + a * x + b)) with (y * y - (x * x * x + a * x + b) - ((a' - a) * x + (b' - b)) + ((a' - a) * x + (b' - b))) by ring. exact Y. }
  rewrite CE. split.
  - intros X. destruct (proj1 IP (or_introl X)) as [Y|Y]; [subst P; contradiction|exact Y].
  - intros X. destruct (proj2 IP (or_intror X)) as [Y|[Y|[]]]; [exact Y|]. subst P. destruct X as (X & _). discriminate.
Qed.
Lemma division_filter E n : forall L acc V, foldM (fun vec P => Q <- multiply_scalar E P n ;; Ok (if point_eqb Q infinity then vec ++ [P] else vec)) L acc = Ok V ->
  exists keep, V = acc ++ filter keep L.
Proof.
  intros L acc V H. exists (fun P => match multiply_scalar E P n with Ok Q => point_eqb Q infinity | _ => false end). revert acc V H.
  induction L as [|P L IH]; intros acc V H; cbn [foldM] in H; [injection H as <-; rewrite app_nil_r; reflexivity|].
  destruct (multiply_scalar E P n) as [Q| |] eqn:EQ; cbn [bind] in H; try discriminate. apply IH in H. rewrite H. cbn [filter]. rewrite EQ.
  destruct (point_eqb Q infinity); [rewrite <- app_assoc; reflexivity|reflexivity].
Qed.
(** C128: division_points(n) keeps that order and ends with the point at infinity. *)
Lemma c128_division : forall a b p E n V, elliptic a b p -> ec_new a b p = Ok E -> 1 <= n -> division_points E n = Ok V ->
  exists L, V = L ++ [infinity] /\ StronglySorted lex L.
Proof.
  intros a b p E n V HEl H Hn HV. destruct (points_sorted a b p E H) as (L & EL & SL).
  destruct (c64_torsion_partial a b p E n HEl H Hn) as (V' & EV & _ & _ & IV & _). assert (V' = V) as -> by congruence.
  assert (II : In infinity V).
  { apply IV; [rewrite EL; apply in_app_iff; right; left; reflexivity|]. change (affine p infinity) with (@None (Z * Z)). clear. induction (Z.to_nat n) as [|m IH]; [constructor|]. econstructor; [exact IH|constructor]. }
  unfold division_points in HV. apply division_filter in HV. destruct HV as (keep & HV). cbn [app] in HV. unfold ec_points in EL. rewrite EL in HV.
  assert (K : keep infinity = true) by (rewrite HV in II; apply filter_In in II; apply II).
  exists (filter keep L). split; [|apply ss_filter, SL]. rewrite HV, filter_app. cbn [filter]. rewrite K. reflexivity.
Qed.
Example c128_case : exists E E', ec_new 1 1 5 = Ok E /\ ec_new 6 (-4) 5 = Ok E' /\ elliptic 1 1 5 /\ ec_points E' = ec_points E /\
  ec_points E = [mkPt 0 1 1; mkPt 0 4 1; mkPt 2 1 1; mkPt 2 4 1; mkPt 3 1 1; mkPt 3 4 1; mkPt 4 2 1; mkPt 4 3 1; infinity] /\
  division_points E 3 = Ok [mkPt 2 1 1; mkPt 2 4 1; infinity].
Proof.
  assert (P5 : prime 5) by (apply is_prime_spec; reflexivity). assert (Q : 5 <> 2) by discriminate. assert (N1 : nonsingular 1 1 5) by (intros (k & K); lia).
  eexists. eexists. split; [vm_compute; reflexivity|]. split; [vm_compute; reflexivity|]. split; [exact (conj P5 (conj Q N1))|]. split; [vm_compute; reflexivity|]. split; vm_compute; reflexivity.
Qed.
