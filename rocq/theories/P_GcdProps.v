(** Lemmas behind the property theorems C23-C28. *)
From Coq Require Import Znumtheory ZifyBool Setoid Morphisms Ring.
From Verif Require Import Prelude M_Bigint M_Variable M_Term M_Poly Spec P_Bigint P_Variable P_FSum P_Poly P_Rem P_PolyProps P_Subst P_Subst2 P_Subst3 P_Mod P_Gcd.
Open Scope Z_scope.

(** C23: by a divisor of positive degree in x with unit leading coefficient, polynomial_modular terminates
    with the canonical remainder.  The dividend may contain y and q (no subscripted variables). *)
Lemma c23_polynomial_modular : forall a d p, prime p -> sorted a -> i32_poly a -> (forall m c, In (m, c) a -> mv m = None) ->
  sorted d -> only_x d -> 1 <= mx (tm (highest_term_x d)) -> ~ (p | tc (highest_term_x d)) ->
  exists fuel r, polynomial_modular fuel a d p = Ok r /\ sorted r /\ reduced p r /\
    (forall m c, In (m, c) r -> mx m < mx (tm (highest_term_x d))) /\ (exists k, feqm p a (fadd (conv d k) r)) /\
    (only_x a -> only_x r).
Proof.
  intros a d p Hp Sa Ia Va Sd Od HD HL. pose proof (prime_ge_2 p Hp).
  destruct (pm_returns a d p Hp Sa Sd Od) as (fuel & r & E); [intros m c Hi; split; [apply (Ia _ _ Hi)|apply (Va _ _ Hi)]|assumption..|].
  exists fuel, r. split; [exact E|]. destruct (pm_spec fuel a d p r ltac:(lia) Sa Sd E) as (Sr & Rr & Lr & K). split; [exact Sr|]. split; [exact Rr|].
  split; [exact Lr|]. split; [exact K|]. intros Oa. apply (pm_only_x fuel a d p r ltac:(lia) Sa Sd Oa Od E).
Qed.
(** C23: the model's step bound only cuts off running loops: more fuel never changes a result. *)
Lemma c23_fuel : forall f f' a d p x, (f <= f')%nat -> polynomial_modular f a d p = x -> x <> NoFuel -> polynomial_modular f' a d p = x.
Proof. intros f f' a d p x. apply pm_mono. Qed.
(** C23: the remainder of polynomials in x is unique. *)
Lemma c23_unique : forall a d p r s k l, prime p -> sorted d -> only_x d -> 1 <= mx (tm (highest_term_x d)) -> reduced p d ->
  sorted r -> sorted s -> reduced p r -> reduced p s -> only_x r -> only_x s ->
  (forall m c, In (m, c) r -> mx m < mx (tm (highest_term_x d))) -> (forall m c, In (m, c) s -> mx m < mx (tm (highest_term_x d))) ->
  only_x k -> only_x l -> feqm p a (fadd (conv d k) r) -> feqm p a (fadd (conv d l) s) -> r = s.
Proof.
  intros a d p r s k l Hp Sd Od HD Rd Sr Ss Rr Rs Or Os Lr Ls Ok Ol Fr Fs. pose proof (prime_ge_2 p Hp) as Hp2.
  apply (canonical_mod p r s ltac:(lia) Sr Ss Rr Rs).
  set (e := nf p (fsub r s)). destruct (nf_spec p (fsub r s) ltac:(lia)) as (Se & Re & Fe & Oe). fold e in Se, Re, Fe, Oe.
  assert (Oe': only_x e) by (apply Oe, only_x_add; [exact Or|apply only_x_neg, Os]).
  assert (De: fdivides p d e).
  { exists (fadd l (fneg k)). split; [apply only_x_add; [exact Ol|apply only_x_neg, Ok]|]. rewrite Fe.
    assert (G: feqm p (fadd (conv d l) s) (fadd (conv d k) r)) by (rewrite <- Fr, <- Fs; reflexivity).
    transitivity (fsub (fadd (conv d l) r) (fadd (conv d l) s)); [apply feq_feqm; ring|]. rewrite G. apply feq_feqm. ring. }
  assert (e = []) as E.
  { destruct e as [|e0 e1] eqn:Ee; [reflexivity|exfalso]. rewrite <- Ee in *. assert (Ne: e <> []) by (rewrite Ee; discriminate). clear Ee.
    assert (Nd: d <> []) by (intros ->; cbn in HD; lia). pose proof (factor_degree p d e Hp Sd Rd Od Nd Se Re Oe' Ne De) as L.
    destruct (highest_spec e Se Ne) as (He & _).
    assert (keysP (fun m => mx m < mx (tm (highest_term_x d))) e) as Ke; [|apply Ke in He; lia].
    unfold e, nf. apply redp_keys, p_add_keys; [exact I|intros ? ? []|]. intros m c Hi. apply in_app_iff in Hi. destruct Hi as [Hi|Hi]; [apply (Lr _ _ Hi)|]. apply fneg_in in Hi. apply (Ls _ _ Hi). }
  rewrite E in Fe. intros m. specialize (Fe m). unfold fsub in Fe. rewrite coef_app, coef_neg in Fe. destruct Fe as (z & Fe). exists (- z). cbn [coef] in Fe. lia.
Qed.
Example c23_case : let a := [(mkMono 0 1 0 None, 3); (mkMono 2 1 0 None, 1); (mkMono 4 0 0 None, 2)] in let d := [(mkMono 0 0 0 None, 1); (mkMono 2 0 0 None, 3)] in
  sorted a /\ sorted d /\ only_x d /\ 1 <= mx (tm (highest_term_x d)) /\
  polynomial_modular 5 a d 7 = Ok [(mkMono 0 0 0 None, 1); (mkMono 0 1 0 None, 5)].
Proof. split; [csorted|]. split; [csorted|]. split; [intros m c H; in_cases H; cbn; intuition lia|]. split; [cbn; lia|reflexivity]. Qed.

(** C24: refuted: by a constant (also a non-zero one, and also by the polynomial without terms) the division
    of any polynomial in x never ends, for any modulus >= 2. *)
Lemma c24_constant_divisor : forall a d p, 2 <= p -> sorted a -> only_x a -> i32_poly a -> sorted d -> only_x d ->
  (forall m c, In (m, c) d -> mx m = 0) -> forall fuel, polynomial_modular fuel a d p = NoFuel.
Proof.
  intros a d p Hp Sa Oa Ia Sd Od HD. apply pm_diverges; auto. destruct (highest_in d Sd) as [(_ & ->)|(_ & Hi)]; [reflexivity|eapply HD, Hi].
Qed.
Lemma c24_terminates_refuted : exists a d p, prime p /\ sorted a /\ sorted d /\ only_x a /\ only_x d /\ reduced p a /\ reduced p d /\ d <> [] /\
  forall fuel, polynomial_modular fuel a d p = NoFuel.
Proof.
  exists [(mkMono 1 0 0 None, 1)], [(mone, 1)], 3. split; [exact prime_3|]. split; [csorted|]. split; [csorted|].
  split; [intros m c H; in_cases H; cbn; intuition lia|]. split; [intros m c H; in_cases H; cbn; intuition lia|].
  split; [intros m c H; in_cases H; lia|]. split; [intros m c H; in_cases H; lia|]. split; [discriminate|].
  apply c24_constant_divisor; try lia; try csorted; intros m c H; in_cases H; cbn; try intuition lia. unfold i32_mono, i32_range, i32_min, i32_max; cbn; lia.
Qed.
(** C24: what does hold: every divisor that is reduced mod p and of positive degree is fine. *)
Lemma c24_terminates_partial : forall a d p, prime p -> sorted a -> only_x a -> i32_poly a -> sorted d -> only_x d -> reduced p d ->
  1 <= mx (tm (highest_term_x d)) -> exists fuel r, polynomial_modular fuel a d p = Ok r.
Proof.
  intros a d p Hp Sa Oa Ia Sd Od Rd HD. apply pm_returns; auto.
  - intros m c Hi. split; [apply (Ia _ _ Hi)|apply (Oa _ _ Hi)].
  - apply reduced_lead; auto. intros ->. cbn in HD. lia.
Qed.

(** C25: whatever gcd returns is the monic greatest common divisor. *)
Lemma c25_gcd : forall fuel a b p g, prime p -> sorted a -> sorted b -> only_x a -> only_x b -> i32_poly a -> i32_poly b -> reduced p a -> reduced p b ->
  p_gcd fuel a b p = Ok g ->
  sorted g /\ reduced p g /\ only_x g /\ tc (highest_term_x g) = 1 /\
  fdivides p g a /\ fdivides p g b /\
  (exists u v, only_x u /\ only_x v /\ feqm p g (fadd (conv u a) (conv v b))) /\
  (forall h, fdivides p h a -> fdivides p h b -> fdivides p h g).
Proof.
  intros fuel a b p g Hp Sa Sb Oa Ob Ia Ib Ra Rb H.
  destruct (gcd_spec p Hp fuel a b g Sa Sb Oa Ob Ia Ib Ra Rb H) as (Sg & Rg & Og & M & _ & _ & _ & Da & Db & u & v & Hu & Hv & F).
  split; [exact Sg|]. split; [exact Rg|]. split; [exact Og|]. split; [exact M|]. split; [exact Da|]. split; [exact Db|]. split; [exists u, v; auto|].
  intros h Ha Hb. apply (fdiv_feqm p h (fadd (conv a u) (conv b v))); [|apply fdiv_add; apply fdiv_mul; assumption].
  rewrite F, (feq_feqm p _ _ (conv_comm a u)), (feq_feqm p _ _ (conv_comm b v)). reflexivity.
Qed.
Example c25_case : (* (x+1)(x+2) and (x+1)(x+3) mod 5 *) let a := [(mone, 2); (mkMono 1 0 0 None, 3); (mkMono 2 0 0 None, 1)] in
  let b := [(mone, 3); (mkMono 1 0 0 None, 4); (mkMono 2 0 0 None, 1)] in
  sorted a /\ sorted b /\ only_x a /\ reduced 5 a /\ reduced 5 b /\ p_gcd 9 a b 5 = Ok [(mone, 1); (mkMono 1 0 0 None, 1)].
Proof.
  split; [csorted|]. split; [csorted|]. split; [intros m c H; in_cases H; cbn; intuition lia|].
  split; [intros m c H; in_cases H; lia|]. split; [intros m c H; in_cases H; lia|]. reflexivity.
Qed.

(** C26: gcd returns exactly when there is a common factor of positive degree; otherwise it runs forever. *)
Lemma c26_gcd_iff : forall a b p, prime p -> sorted a -> sorted b -> only_x a -> only_x b -> i32_poly a -> i32_poly b -> reduced p a -> reduced p b ->
  a <> [] -> b <> [] ->
  (common_factor p a b -> exists fuel g, p_gcd fuel a b p = Ok g) /\
  (~ common_factor p a b -> forall fuel, p_gcd fuel a b p = NoFuel).
Proof.
  intros a b p Hp Sa Sb Oa Ob Ia Ib Ra Rb Na Nb. split.
  - intros C. apply (gcd_returns p Hp (Z.to_nat (mx (tm (highest_term_x b)) + 1)) a b); auto. destruct (highest_only_x b Sb Ob). rewrite Z2Nat.id; lia.
  - intros C fuel. destruct (p_gcd fuel a b p) as [g| |] eqn:E; [exfalso; apply C|exfalso; exact (gcd_never_panics p Hp fuel a b Sa Sb Oa Ob Ia Ib Ra Rb E)|reflexivity].
    destruct (gcd_spec p Hp fuel a b g Sa Sb Oa Ob Ia Ib Ra Rb E) as (Sg & Rg & Og & M & D & Hin & _ & Da & Db & _).
    exists g, (tm (highest_term_x g)), 1. auto 10.
Qed.
Lemma coprime_x_x1 : ~ common_factor 3 [(mkMono 1 0 0 None, 1)] [(mone, 1); (mkMono 1 0 0 None, 1)].
Proof.
  intros (h & m & c & Sh & Rh & Oh & Hi & Hm & Da & Db).
  set (A := [(mkMono 1 0 0 None, 1)]) in *. set (B := [(mone, 1); (mkMono 1 0 0 None, 1)]) in *.
  assert (D: fdivides 3 h [(mone, 1)]).
  { apply (fdiv_feqm 3 h (fadd B (fneg A))); [|apply fdiv_add; [exact Db|apply fdiv_neg, Da]]. apply feq_feqm. intros k. unfold A, B. cbn [fneg map fadd app coef fst snd].
    destruct (mono_eqb mone k), (mono_eqb (mkMono 1 0 0 None) k); reflexivity. }
  assert (Nh: h <> []) by (intros ->; destruct Hi).
  assert (L: mx (tm (highest_term_x h)) <= 0).
  { apply (factor_degree 3 h [(mone, 1)] prime_3 Sh Rh Oh Nh); [csorted| | |discriminate|exact D]; intros k d H; in_cases H; cbn; intuition lia. }
  pose proof (highest_max h m c Sh Hi). lia.
Qed.
Lemma c26_gcd_terminates_refuted : exists a b p, prime p /\ sorted a /\ sorted b /\ only_x a /\ only_x b /\ reduced p a /\ reduced p b /\ a <> [] /\ b <> [] /\
  forall fuel, p_gcd fuel a b p = NoFuel.
Proof.
  exists [(mkMono 1 0 0 None, 1)], [(mone, 1); (mkMono 1 0 0 None, 1)], 3.
  assert (Sa: sorted [(mkMono 1 0 0 None, 1)]) by csorted. assert (Sb: sorted [(mone, 1); (mkMono 1 0 0 None, 1)]) by csorted.
  assert (Oa: only_x [(mkMono 1 0 0 None, 1)]) by (intros m c H; in_cases H; cbn; intuition lia).
  assert (Ob: only_x [(mone, 1); (mkMono 1 0 0 None, 1)]) by (intros m c H; in_cases H; cbn; intuition lia).
  assert (Ra: reduced 3 [(mkMono 1 0 0 None, 1)]) by (intros m c H; in_cases H; lia).
  assert (Rb: reduced 3 [(mone, 1); (mkMono 1 0 0 None, 1)]) by (intros m c H; in_cases H; lia).
  split; [exact prime_3|]. split; [exact Sa|]. split; [exact Sb|]. split; [exact Oa|]. split; [exact Ob|]. split; [exact Ra|]. split; [exact Rb|].
  split; [discriminate|]. split; [discriminate|]. apply (c26_gcd_iff _ _ 3 prime_3 Sa Sb Oa Ob); auto; try discriminate; [| |exact coprime_x_x1];
  intros m c H; in_cases H; unfold i32_mono, i32_range, i32_min, i32_max; cbn; lia.
Qed.
Lemma c26_gcd_terminates_partial : forall a b p, prime p -> sorted a -> sorted b -> only_x a -> only_x b -> i32_poly a -> i32_poly b -> reduced p a -> reduced p b ->
  a <> [] -> b <> [] -> ((exists fuel g, p_gcd fuel a b p = Ok g) <-> common_factor p a b).
Proof.
  intros a b p Hp Sa Sb Oa Ob Ia Ib Ra Rb Na Nb. split; [|apply c26_gcd_iff; assumption].
  intros (fuel & g & E). destruct (gcd_spec p Hp fuel a b g Sa Sb Oa Ob Ia Ib Ra Rb E) as (Sg & Rg & Og & M & D & Hin & _ & Da & Db & _).
  exists g, (tm (highest_term_x g)), 1. auto 10.
Qed.

(** C27: refuted: is_gcd_one answers true for x+1, x+1, which have the common factor x+1. *)
Lemma c27_is_gcd_one_refuted : exists a b p fuel, prime p /\ sorted a /\ sorted b /\ reduced p a /\ reduced p b /\ only_x a /\ only_x b /\
  is_gcd_one fuel a b p = Ok true /\ common_factor p a b.
Proof.
  set (B := [(mone, 1); (mkMono 1 0 0 None, 1)]). exists B, B, 3, 9%nat.
  assert (Sb: sorted B) by (unfold B; csorted). assert (Rb: reduced 3 B) by (intros m c H; unfold B in H; in_cases H; lia).
  assert (Ob: only_x B) by (intros m c H; unfold B in H; in_cases H; cbn; intuition lia).
  split; [exact prime_3|]. do 2 (split; [exact Sb|]). do 2 (split; [exact Rb|]). do 2 (split; [exact Ob|]). split; [reflexivity|].
  exists B, (mkMono 1 0 0 None), 1. split; [exact Sb|]. split; [exact Rb|]. split; [exact Ob|]. split; [right; left; reflexivity|]. split; [cbn; lia|].
  split; apply fdiv_refl.
Qed.
(** C27: exact behaviour: it answers true precisely on polynomials that are NOT coprime, never answers false,
    and runs forever on coprime ones. *)
Lemma c27_is_gcd_one_partial : forall a b p, prime p -> sorted a -> sorted b -> only_x a -> only_x b -> i32_poly a -> i32_poly b -> reduced p a -> reduced p b ->
  a <> [] -> b <> [] ->
  (common_factor p a b -> exists fuel, is_gcd_one fuel a b p = Ok true) /\
  (~ common_factor p a b -> forall fuel, is_gcd_one fuel a b p = NoFuel) /\
  (forall fuel, is_gcd_one fuel a b p <> Ok false).
Proof.
  intros a b p Hp Sa Sb Oa Ob Ia Ib Ra Rb Na Nb. unfold is_gcd_one.
  assert (T: forall fuel g, p_gcd fuel a b p = Ok g -> is_zero g = false).
  { intros fuel g E. destruct (gcd_spec p Hp fuel a b g Sa Sb Oa Ob Ia Ib Ra Rb E) as (_ & _ & _ & _ & _ & Hin & _). destruct g; [destruct Hin|reflexivity]. }
  destruct (c26_gcd_iff a b p Hp Sa Sb Oa Ob Ia Ib Ra Rb Na Nb) as (C1 & C2). split; [|split].
  - intros C. destruct (C1 C) as (fuel & g & E). exists fuel. rewrite E. cbn [bind]. rewrite (T _ _ E). reflexivity.
  - intros C fuel. rewrite (C2 C). reflexivity.
  - intros fuel. destruct (p_gcd fuel a b p) as [g| |] eqn:E; cbn [bind]; try discriminate. rewrite (T _ _ E). discriminate.
Qed.

(** C28: to_monic. *)
Lemma c28_to_monic : forall a p, prime p -> sorted a -> i32_poly a -> a <> [] -> ~ (p | tc (highest_term_x a)) ->
  exists r, to_monic a p = Ok r /\ sorted r /\ reduced p r /\ highest_term_x r = mkTerm 1 (tm (highest_term_x a)) /\
    feqm p (conv (fconst (tc (highest_term_x a))) r) a.
Proof.
  intros a p Hp Sa Ia Na HL. destruct (to_monic_spec a p Hp Sa Ia Na HL) as (r & E & Sr & Rr & _ & F & Hh & _). exists r. auto.
Qed.
Lemma c28_zero : forall p, to_monic [] p = Ok [].
Proof. reflexivity. Qed.
Example c28_case : to_monic [(mkMono 0 1 0 None, 4); (mkMono 2 0 0 None, 3)] 7 = Ok [(mkMono 0 1 0 None, 6); (mkMono 2 0 0 None, 1)] /\ prime 7 /\ ~ (7 | 3).
Proof. split; [reflexivity|]. split; [|intros (z & H); lia]. apply prime_intro; [lia|]. intros n Hn. apply Zgcd_1_rel_prime. assert (n = 1 \/ n = 2 \/ n = 3 \/ n = 4 \/ n = 5 \/ n = 6) as [->|[->|[->|[->|[->| ->]]]]] by lia; reflexivity. Qed.
