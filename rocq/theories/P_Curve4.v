(** EllipticCurve::new enumerates the points. *)
From Coq Require Import Znumtheory ZifyBool.
From Verif Require Import Prelude M_Bigint M_Variable M_Term M_Poly M_Curve Spec SpecCurve P_Bigint P_Variable P_Subst P_Curve2.
Open Scope Z_scope.

(** (x, y, 1) with residues satisfying the equation. *)
Definition is_pt (a b p x : Z) (P : point) : Prop := pz P = 1 /\ px P = x /\ 0 <= py P < p /\ curve_eqn a b p x (py P).
Lemma xpol_eqn a b p x y : 0 < p -> ((y ^ 2) mod p = (x ^ 3 + a * x + b) mod p <-> curve_eqn a b p x y).
Proof. intros H. rewrite mod_eq_divide by lia. unfold curve_eqn. rewrite pow2, pow3. reflexivity. Qed.
Lemma point_ext P Q : px P = px Q -> py P = py Q -> pz P = pz Q -> P = Q.
Proof. destruct P, Q. cbn. congruence. Qed.
Lemma point_eqb_eq P Q : point_eqb P Q = true <-> P = Q.
Proof. unfold point_eqb. split; [intros H; apply point_ext; lia|intros ->; lia]. Qed.

Section Enum.
Variables (a b p : Z) (E : curve).
Hypothesis HE : fields a b p E.
Hypothesis Pp : prime p.
Let H0 : 2 <= p := prime_ge_2 p Pp.
Lemma roots x y1 y2 : 0 <= y1 < p -> 0 <= y2 < p -> curve_eqn a b p x y1 -> curve_eqn a b p x y2 -> y2 = y1 \/ y2 = (- y1) mod p.
Proof.
  intros B1 B2 C1 C2. assert (D: (p | (y2 - y1) * (y2 - - y1))).
  { replace ((y2 - y1) * (y2 - - y1)) with (y2 * y2 - (x * x * x + a * x + b) - (y1 * y1 - (x * x * x + a * x + b))) by ring. apply Z.divide_sub_r; assumption. }
  apply prime_mult in D; [|exact Pp]. destruct D as [D|D]; apply mod_eq_divide in D; try lia; rewrite (Z.mod_small y2) in D by lia; [left|right; exact D].
  rewrite Z.mod_small in D by lia. exact D.
Qed.
Lemma neg_eqn x y : curve_eqn a b p x y -> curve_eqn a b p x ((- y) mod p).
Proof.
  intros H. assert (C: curve_eqn a b p x (- y)). { unfold curve_eqn in *. replace (- y * - y) with (y * y) by ring. exact H. }
  apply (proj1 (curve_eqn_mod a b p x ((- y) mod p) ltac:(lia))). rewrite Z.mod_mod by lia. exact (proj2 (curve_eqn_mod a b p x (- y) ltac:(lia)) C).
Qed.
(** The y-loop over a suffix of 0..p whose skipped part holds no root. *)
Lemma find_y_spec x : forall ys pts, (forall y, 0 <= y < p -> curve_eqn a b p x y -> In y ys) -> (forall y, In y ys -> 0 <= y < p) ->
  exists L, find_y E x ((x ^ 3 + a * x + b) mod p) ys pts = Ok (pts ++ L) /\ NoDup L /\ (length L <= 2)%nat /\ forall P, In P L <-> is_pt a b p x P.
Proof.
  destruct HE as (Ea & Eb & Ep & Epol).
  induction ys as [|y ys IH]; intros pts Hc Hb.
  - exists []. cbn [find_y]. rewrite app_nil_r. split; [reflexivity|]. split; [constructor|]. split; [cbn; lia|]. intros P. split; [intros []|].
    intros (_ & _ & B & C). exact (Hc _ B C).
  - cbn [find_y]. rewrite power_i32_spec by lia. cbn [bind]. unfold mod_floor. rewrite Ep. destruct (p =? 0) eqn:Z0; [lia|]. cbn [bind].
    assert (By: 0 <= y < p) by (apply Hb; left; reflexivity).
    destruct ((y ^ 2) mod p =? (x ^ 3 + a * x + b) mod p) eqn:Y.
    + apply Z.eqb_eq in Y. apply (xpol_eqn a b p x y) in Y; [|lia]. unfold negate. cbn [is_infinity pz Z.eqb]. rewrite Ep. unfold mod_floor. rewrite Z0. cbn [bind px py pz].
      set (P1 := mkPt x y 1). set (P2 := mkPt x ((- y) mod p) 1).
      assert (I1: is_pt a b p x P1) by (repeat split; cbn; try lia; exact Y).
      assert (B2: 0 <= (- y) mod p < p) by (apply Z.mod_pos_bound; lia).
      assert (I2: is_pt a b p x P2) by (repeat split; cbn [px py pz P2]; try lia; apply neg_eqn, Y).
      assert (All: forall P, is_pt a b p x P -> P = P1 \/ P = P2).
      { intros P (A & B & C & D). destruct (roots x y (py P) By C Y D) as [X|X]; [left|right]; apply point_ext; cbn [px py pz P1 P2]; lia. }
      destruct (point_eqb P2 P1) eqn:EQ.
      * apply point_eqb_eq in EQ. exists [P1]. cbn [negb]. split; [reflexivity|]. split; [constructor; [intros []|constructor]|]. split; [cbn; lia|].
        intros P. cbn [In]. split; [intros [<-|[]]; exact I1|]. intros HP. destruct (All P HP) as [-> | ->]; left; congruence.
      * exists [P1; P2]. cbn [negb]. rewrite <- app_assoc. split; [reflexivity|]. split.
        -- constructor; [|constructor; [intros []|constructor]]. intros [X|[]]. rewrite X in EQ. assert (point_eqb P1 P1 = true) by (apply point_eqb_eq; reflexivity). congruence.
        -- split; [cbn; lia|]. intros P. cbn [In]. split; [intros [<-|[<-|[]]]; assumption|]. intros HP. destruct (All P HP) as [-> | ->]; tauto.
    + apply IH; [|intros; apply Hb; right; assumption]. intros z Bz Cz. destruct (Hc z Bz Cz) as [<-|]; [|assumption]. apply Z.eqb_neq in Y. exfalso. apply Y. apply xpol_eqn; [lia|exact Cz].
Qed.
Lemma NoDup_app {A} (l m : list A) : NoDup l -> NoDup m -> (forall x, In x l -> In x m -> False) -> NoDup (l ++ m).
Proof.
  induction l as [|x l IH]; intros Hl Hm Hd; [exact Hm|]. inversion Hl; subst. cbn. constructor.
  - rewrite in_app_iff. intros [X|X]; [contradiction|]. apply (Hd x); [left; reflexivity|exact X].
  - apply IH; [assumption|assumption|]. intros y Hy. apply Hd. right; exact Hy.
Qed.
Lemma enum_spec : forall xs pts, NoDup xs -> exists L,
  foldM (fun pts x =>
           x3 <- power_i32 x 3 ;;
           let xpol := x3 + ca E * x + cb E in
           xpol <- mod_floor xpol (cp E) ;;
           find_y E x xpol (zrange 0 (cp E)) pts) xs pts = Ok (pts ++ L) /\ NoDup L /\ (length L <= 2 * length xs)%nat /\
  forall P, In P L <-> In (px P) xs /\ is_pt a b p (px P) P.
Proof.
  pose proof HE as (Ea & Eb & Ep & Epol).
  induction xs as [|x xs IH]; intros pts ND.
  - exists []. cbn [foldM]. rewrite app_nil_r. split; [reflexivity|]. split; [constructor|]. split; [cbn; lia|]. cbn. tauto.
  - apply NoDup_cons_iff in ND as (Nx & ND'). cbn [foldM]. rewrite Ea, Eb, Ep in *. rewrite power_i32_spec by lia. cbn [bind]. assert (MF: mod_floor (x ^ 3 + a * x + b) p = Ok ((x ^ 3 + a * x + b) mod p)) by (unfold mod_floor; destruct (p =? 0) eqn:Z0; [lia|reflexivity]). rewrite MF. cbn [bind].
    destruct (find_y_spec x (zrange 0 p) pts) as (L1 & E1 & N1 & C1 & I1).
    { intros y By _. apply in_zrange. lia. } { intros y Hy. apply in_zrange in Hy. lia. }
    rewrite E1. cbn [bind]. destruct (IH (pts ++ L1) ND') as (L2 & E2 & N2 & C2 & I2). exists (L1 ++ L2). split; [etransitivity; [exact E2|rewrite app_assoc; reflexivity]|].
    assert (HX: forall P, In P L1 -> px P = x) by (intros P HP; apply I1 in HP; destruct HP as (_ & X & _); exact X).
    split.
    + apply NoDup_app; [exact N1|exact N2|]. intros P A B. apply I2 in B. destruct B as (B & _). rewrite (HX P A) in B. contradiction.
    + split; [rewrite app_length; cbn [length]; lia|]. intros P. rewrite in_app_iff, I2. cbn [In]. split.
      * intros [A|A]; [|tauto]. pose proof (HX P A) as X. apply I1 in A. rewrite X. tauto.
      * intros ([A|A] & B); [|tauto]. left. apply I1. rewrite A. exact B.
Qed.
End Enum.
Lemma ec_new_spec a b p : prime p -> p < 18446744073709551616 -> exists E, ec_new a b p = Ok E /\ NoDup (cpoints E) /\
  (length (cpoints E) <= 2 * Z.to_nat p + 1)%nat /\
  forall P, In P (cpoints E) <-> P = infinity \/ (0 <= px P < p /\ is_pt a b p (px P) P).
Proof.
  intros Pp HU. pose proof (prime_ge_2 p Pp) as H0. unfold ec_new. destruct (2 <=? p) eqn:X; [|lia]. cbn [assertb bind]. unfold to_u64.
  destruct ((0 <=? p) && (p <? 18446744073709551616)) eqn:Y; [|lia]. cbn [bind]. rewrite (proj2 (is_prime_spec p) Pp). cbn [assertb bind].
  unfold create_points. set (E := mkCurve a b p (weierstrass a b) []).
  destruct (enum_spec a b p E ltac:(repeat split) Pp (zrange 0 p) []) as (L & EL & NL & CL & IL); [apply NoDup_zrange|].
  match goal with |- exists E', bind ?x _ = _ /\ _ => replace x with (Ok ([] ++ L)) by (symmetry; exact EL) end. cbn [bind app]. eexists. split; [reflexivity|]. cbn [cpoints].
  rewrite length_zrange in CL. 
  assert (NI: ~ In infinity L). { intros HI. apply IL in HI. destruct HI as (_ & (Z & _)). discriminate. }
  split; [|split].
  - apply NoDup_app; [exact NL|constructor; [intros []|constructor]|]. intros P A [<-|[]]. contradiction.
  - rewrite app_length. cbn [length]. lia.
  - intros P. rewrite in_app_iff, IL, in_zrange. cbn [In]. intuition congruence.
Qed.
Lemma ec_new_panic a b p : ~ (prime p /\ p < 18446744073709551616) -> ec_new a b p = Panic.
Proof.
  intros N. unfold ec_new. destruct (2 <=? p) eqn:X; [|reflexivity]. cbn [assertb bind]. unfold to_u64.
  destruct ((0 <=? p) && (p <? 18446744073709551616)) eqn:Y; [|reflexivity]. cbn [bind]. destruct (is_prime p) eqn:Q; [|reflexivity]. exfalso. apply N. split; [apply is_prime_spec, Q|lia].
Qed.
