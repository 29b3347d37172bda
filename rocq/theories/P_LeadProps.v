(** Lemmas behind C130 (leading terms and degrees). *)
From Coq Require Import Znumtheory ZifyBool.
From Verif Require Import Prelude M_Bigint M_Variable M_Term M_Poly Spec SpecLead P_Bigint P_Variable P_FSum P_Poly P_Rem P_PolyProps P_Subst P_Subst2 P_Subst3 P_SubstProps P_Mod P_Gcd.
Open Scope Z_scope.
Notation X d := (mkMono d 0 0 None).

Lemma lead_ne a c d : leading a c d -> a <> [].
Proof. intros (_ & _ & N & H) ->. rewrite highest_nil in H. injection H as H1 H2. lia. Qed.
Lemma lead_in a c d : leading a c d -> In (X d, c) a /\ coef a (X d) = c /\ (forall m e, In (m, e) a -> mx m <= d) /\ 0 <= d.
Proof.
  intros L. pose proof (lead_ne a c d L) as N. destruct L as (Sa & O & C & H). destruct (highest_spec a Sa N) as (I & _ & M). rewrite H in I, M. cbn [tm tc mx] in I, M.
  split; [exact I|]. split; [apply sorted_coef; assumption|]. split; [exact M|]. apply O in I. cbn [mx] in I. lia.
Qed.
Lemma lead_char a c d : sorted a -> only_x a -> c <> 0 -> coef a (X d) = c -> (forall m e, In (m, e) a -> mx m <= d) -> leading a c d.
Proof.
  intros Sa O C E M. destruct (coef_in a (X d)) as (e & I); [lia|]. assert (N : a <> []) by (intros ->; destruct I).
  destruct (highest_spec a Sa N) as (I' & _ & M'). pose proof (M' _ _ I) as L1. pose proof (M _ _ I') as L2. cbn [mx] in L1.
  pose proof (only_x_key a _ _ O I') as K. assert (D : mx (tm (highest_term_x a)) = d) by lia. rewrite D in K. rewrite K in I'. apply (sorted_coef a _ _ Sa) in I'. rewrite E in I'.
  split; [exact Sa|]. split; [exact O|]. split; [exact C|]. destruct (highest_term_x a) as [h m]. cbn [tm tc] in *. congruence.
Qed.
Lemma lead_degree a c d : leading a c d -> degree_x a = Ok d.
Proof.
  intros L. pose proof (lead_ne a c d L) as N. destruct L as (Sa & O & C & H). unfold degree_x.
  rewrite (proj2 (has_y_false a)) by (intros m e I; apply (O m e I)). rewrite (proj2 (has_q_false a)) by (intros m e I; apply (O m e I)). cbn [negb assertb bind].
  destruct a; [congruence|]. cbn [is_zero]. rewrite H. reflexivity.
Qed.
Lemma mul_keys a b r B C : only_x a -> only_x b -> (forall m e, In (m, e) a -> mx m <= B) -> (forall m e, In (m, e) b -> mx m <= C) -> p_mul a b = Ok r ->
  only_x r /\ forall m e, In (m, e) r -> mx m <= B + C.
Proof.
  intros Oa Ob Ma Mb H.
  assert (K : keysP (fun m => (0 <= mx m /\ my m = 0 /\ mq m = 0 /\ mv m = None) /\ mx m <= B + C) r).
  { apply (p_mul_keys (fun m => (0 <= mx m /\ my m = 0 /\ mq m = 0 /\ mv m = None) /\ mx m <= B) (fun m => (0 <= mx m /\ my m = 0 /\ mq m = 0 /\ mv m = None) /\ mx m <= C) _ a b r H).
    - intros m e I. split; [apply (Oa m e I)|apply (Ma m e I)].
    - intros m e I. split; [apply (Ob m e I)|apply (Mb m e I)].
    - intros m1 m2 ((A1 & A2 & A3 & A4) & A5) ((B1 & B2 & B3 & B4) & B5) _. unfold mmul. cbn [mx my mq mv]. rewrite A4, B4. cbn [vmul]. repeat apply conj; (lia || reflexivity). }
  split; intros m e I; apply (K m e I).
Qed.
(** C130: the leading term of a product is the product of the leading terms; in particular a product of polynomials that are not zero is not zero. *)
Lemma c130_mul : forall a b c d c' d' r, leading a c d -> leading b c' d' -> p_mul a b = Ok r ->
  leading r (c * c') (d + d') /\ degree_x r = Ok (d + d') /\ ~ feq r [].
Proof.
  intros a b c d c' d' r La Lb H. assert (L : leading r (c * c') (d + d')).
  { destruct (lead_in a c d La) as (_ & _ & Ma & _), (lead_in b c' d' Lb) as (_ & _ & Mb & _). pose proof La as (Sa & Oa & Ca & Ha). pose proof Lb as (Sb & Ob & Cb & Hb).
    destruct (mul_keys a b r d d' Oa Ob Ma Mb H) as (Or & Mr). apply lead_char; [eapply p_mul_sorted; exact H|exact Or|nia| |exact Mr].
    rewrite (p_mul_feq _ _ _ H (X (d + d'))). pose proof (top_coef a b Sa Sb Oa Ob (lead_ne a c d La) (lead_ne b c' d' Lb)) as T. rewrite Ha, Hb in T. cbn [tm tc mx] in T. exact T. }
  split; [exact L|]. split; [apply (lead_degree r _ _ L)|]. intros F. destruct (lead_in r _ _ L) as (_ & E & _). rewrite (F (X (d + d'))) in E. cbn in E. destruct L as (_ & _ & N & _). lia.
Qed.
Lemma power_loop_lead fuel : forall e b r c d c' d' s, 1 <= e -> leading b c d -> leading r c' d' -> p_power_loop fuel e b r = Ok s -> leading s (c' * c ^ e) (d' + e * d).
Proof.
  induction fuel as [|f IH]; intros e b r c d c' d' s He Lb Lr H; cbn [p_power_loop] in H; destruct (1 <? e) eqn:E; try discriminate.
  1, 3: assert (e = 1) as -> by lia; rewrite Z.pow_1_r, Z.mul_1_l; exact (proj1 (c130_mul r b c' d' c d s Lr Lb H)).
  destruct (quot2_split e ltac:(lia)) as (Hs & Hq). set (h := Z.quot e 2) in *.
  apply bind_Ok in H. destruct H as (r' & Hr & H). apply bind_Ok in H. destruct H as (b' & Hb' & H).
  pose proof (proj1 (c130_mul b b c d c d b' Lb Lb Hb')) as Lb'.
  destruct (Z.odd e).
  - unfold p_mul_assign in Hr. pose proof (proj1 (c130_mul r b c' d' c d r' Lr Lb Hr)) as Lr'. pose proof (IH h b' r' _ _ _ _ s ltac:(lia) Lb' Lr' H) as L.
    replace (c' * c ^ e) with (c' * c * (c * c) ^ h); [replace (d' + e * d) with (d' + d + h * (d + d)); [exact L|]|].
    + rewrite Hs. ring.
    + rewrite Hs, Z.pow_add_r, Z.pow_mul_r, Z.pow_1_r, Z.pow_2_r by lia. ring.
  - injection Hr as <-. pose proof (IH h b' r _ _ _ _ s ltac:(lia) Lb' Lr H) as L.
    replace (c' * c ^ e) with (c' * (c * c) ^ h); [replace (d' + e * d) with (d' + h * (d + d)); [exact L|]|].
    + rewrite Hs. ring.
    + rewrite Hs, Z.pow_add_r, Z.pow_mul_r, Z.pow_0_r, Z.pow_2_r by lia. ring.
Qed.
(** C130: the leading term of a power is the power of the leading term. *)
Lemma c130_power : forall a c d n r, leading a c d -> p_power a n = Ok r -> leading r (c ^ n) (n * d) /\ degree_x r = Ok (n * d).
Proof.
  intros a c d n r L H. assert (LR : leading r (c ^ n) (n * d)); [|split; [exact LR|exact (lead_degree _ _ _ LR)]]. unfold p_power in H. destruct (0 <=? n) eqn:E; [|discriminate]. cbn [assertb bind] in H.
  assert (L1 : leading p_one 1 0) by (split; [split; [intros ? ? []|exact I]|]; split; [intros m e [X|[]]; injection X as <- <-; cbn; repeat split; lia|]; split; [lia|reflexivity]).
  destruct (n =? 0) eqn:E0.
  - injection H as <-. assert (n = 0) as -> by lia. exact L1.
  - pose proof (power_loop_lead _ n a p_one c d 1 0 r ltac:(lia) L L1 H) as P. rewrite Z.mul_1_l, Z.add_0_l in P. exact P.
Qed.
(** C130: the sum of two polynomials of different degrees leads with the term of higher degree; of equal degrees, with the sum of the leading coefficients unless it is 0. *)
Lemma c130_add : forall a b c d c' d', leading a c d -> leading b c' d' ->
  (d < d' -> leading (p_add a b) c' d' /\ leading (p_add b a) c' d') /\
  (d = d' -> c + c' <> 0 -> leading (p_add a b) (c + c') d) /\
  forall k, degree_x (p_add a b) = Ok k -> k <= Z.max d d'.
Proof.
  intros a b c d c' d' La Lb. destruct (lead_in a c d La) as (_ & Ea & Ma & Da), (lead_in b c' d' Lb) as (_ & Eb & Mb & Db). pose proof La as (Sa & Oa & Ca & _). pose proof Lb as (Sb & Ob & Cb & _).
  assert (OO : forall a b, sorted a -> only_x a -> only_x b -> only_x (p_add a b)).
  { intros u v Su Ou Ov. exact (p_add_keys (fun m => 0 <= mx m /\ my m = 0 /\ mq m = 0 /\ mv m = None) v u Su Ou Ov). }
  assert (MM : forall a b B C, sorted a -> (forall m e, In (m, e) a -> mx m <= B) -> (forall m e, In (m, e) b -> mx m <= C) -> forall m e, In (m, e) (p_add a b) -> mx m <= Z.max B C).
  { intros u v B C Su Mu Mv. apply (p_add_keys (fun m => mx m <= Z.max B C) v u Su); intros m e I; [apply Mu in I|apply Mv in I]; lia. }
  destruct (c13_add a b Sa Sb) as (S1 & C1 & _). destruct (c13_add b a Sb Sa) as (S2 & C2 & _).
  assert (HI : d < d' -> coef a (X d') = 0). { intros L. apply coef_notin. intros e I. apply Ma in I. cbn [mx] in I. lia. }
  split; [|split].
  - intros L. split; apply lead_char; try assumption; try (apply OO; assumption).
    + rewrite C1, HI, Eb by exact L. ring.
    + intros m e I. pose proof (MM a b d d' Sa Ma Mb m e I). lia.
    + rewrite C2, HI, Eb by exact L. ring.
    + intros m e I. pose proof (MM b a d' d Sb Mb Ma m e I). lia.
  - intros <- N. apply lead_char; [exact S1|apply OO; assumption|exact N|rewrite C1; lia|]. intros m e I. pose proof (MM a b d d Sa Ma Mb m e I). lia.
  - intros k H. destruct (c38_degree (p_add a b) S1) as (Z0 & Z1); [intros m e I; pose proof (OO a b Sa Oa Ob m e I); tauto|].
    destruct (p_add a b) as [|x l] eqn:EQ; [rewrite (Z0 eq_refl) in H; injection H as <-; lia|]. destruct (Z1 ltac:(discriminate)) as (k' & K & (m & e & I & MK) & _). rewrite K in H. injection H as <-.
    rewrite <- EQ in I. pose proof (MM a b d d' Sa Ma Mb m e I). lia.
Qed.
(** C130: the derivative of a polynomial of degree d >= 1 leads with d c x^(d-1). *)
Lemma c130_derivative : forall a c d, leading a c d -> 1 <= d -> exists r, derivative_x a = Ok r /\ leading r (d * c) (d - 1) /\ degree_x r = Ok (d - 1).
Proof.
  intros a c d L Hd. destruct (lead_in a c d L) as (_ & E & M & _). pose proof L as (Sa & Oa & Ca & _).
  destruct (derivative_x_spec a Sa) as (r & H & Sr & _ & _ & K); [intros m e I; apply (Oa m e I)|]. destruct (c29_derivative_x a Sa) as (r' & H' & _ & _ & F); [intros m e I; apply (Oa m e I)|]. assert (r' = r) as -> by congruence.
  exists r. split; [exact H|]. assert (LR : leading r (d * c) (d - 1)); [|split; [exact LR|exact (lead_degree _ _ _ LR)]]. apply lead_char; [exact Sr| |nia| |].
  - intros m e I. destruct (K m e I) as (e' & I' & B). apply Oa in I'. destruct m. cbn in *. tauto.
  - rewrite F. cbn [mx]. unfold set_x. cbn [mx my mq mv]. replace (d - 1 + 1) with d by ring. rewrite E. reflexivity.
  - intros m e I. destruct (K m e I) as (e' & I' & B). apply M in I'. destruct m. cbn in *. lia.
Qed.
(** C130: reduction modulo p keeps the degree when the leading coefficient is not divisible by p; so modulo a prime the degree of a product is the sum of the degrees. *)
Lemma c130_modulo : forall a c d p r, leading a c d -> 0 < p -> ~ (p | c) -> p_rem a p = Ok r -> leading r (c mod p) d /\ degree_x r = Ok d.
Proof.
  intros a c d p r L Hp N H. destruct (lead_in a c d L) as (_ & E & M & _). pose proof L as (Sa & Oa & Ca & _). destruct (c20_rem a p Hp Sa) as (r' & H' & _ & _ & Sr & _ & F & K & _). assert (r' = r) as -> by congruence.
  assert (LR : leading r (c mod p) d); [|split; [exact LR|exact (lead_degree _ _ _ LR)]]. apply lead_char; [exact Sr| | | |].
  - intros m e I. destruct (K m e I) as (e' & I' & _). exact (Oa m e' I').
  - intros Z0. apply N. apply Z.mod_divide; lia.
  - rewrite F, E. reflexivity.
  - intros m e I. destruct (K m e I) as (e' & I' & _). exact (M m e' I').
Qed.
Lemma c130_modulo_mul : forall a b c d c' d' p s r, leading a c d -> leading b c' d' -> prime p -> ~ (p | c) -> ~ (p | c') -> p_mul a b = Ok s -> p_rem s p = Ok r ->
  leading r ((c * c') mod p) (d + d') /\ degree_x r = Ok (d + d').
Proof.
  intros a b c d c' d' p s r La Lb Hp N N' H HR. pose proof (prime_ge_2 p Hp). apply (c130_modulo s (c * c') (d + d') p r); [exact (proj1 (c130_mul a b c d c' d' s La Lb H))|lia| |exact HR].
  intros D. apply (prime_mult p Hp) in D. tauto.
Qed.
Example c130_case : let a := [(X 0, -1); (X 1, 2)] in let b := [(X 0, 4); (X 2, 3)] in leading a 2 1 /\ leading b 3 2 /\
  (exists r, p_mul a b = Ok r /\ highest_term_x r = mkTerm 6 (X 3)) /\ (exists r, p_power a 5 = Ok r /\ highest_term_x r = mkTerm 32 (X 5)).
Proof.
  intros a b. split; [|split; [|split]].
  - split; [split; [intros m c [H|[]]; injection H as <- <-; reflexivity|split; [intros ? ? []|exact I]]|]. split; [|split; [lia|reflexivity]].
    intros m e [H|[H|[]]]; injection H as <- <-; cbn; repeat split; lia.
  - split; [split; [intros m c [H|[]]; injection H as <- <-; reflexivity|split; [intros ? ? []|exact I]]|]. split; [|split; [lia|reflexivity]].
    intros m e [H|[H|[]]]; injection H as <- <-; cbn; repeat split; lia.
  - eexists. split; vm_compute; reflexivity.
  - eexists. split; vm_compute; reflexivity.
Qed.
