(** Lemmas behind the property theorem C108: the laws of gcd. *)
From Coq Require Import Znumtheory ZifyBool Setoid Morphisms Ring.
From Verif Require Import Prelude M_Bigint M_Variable M_Term M_Poly Spec P_Bigint P_Variable P_FSum P_Binom P_Poly P_Rem P_PolyProps P_Subst P_Subst2 P_Subst3 P_Mod P_Gcd P_Gcd2 P_GcdProps P_XQuot P_Sqfree.
Open Scope Z_scope.

(** A polynomial the code can take a gcd of: entries in order, coefficients in [1, p), exponents of x in i32, nothing else. *)
Definition gcd_arg (p : Z) (a : fsum) : Prop := sorted a /\ reduced p a /\ only_x a /\ i32_poly a.
Lemma arg_good p a : gcd_arg p a -> good p a.
Proof. intros (A & B & C & _). split; [exact A|]. split; assumption. Qed.
Lemma gcd_all p fuel a b g : prime p -> gcd_arg p a -> gcd_arg p b -> p_gcd fuel a b p = Ok g ->
  gcd_arg p g /\ g <> [] /\ tc (highest_term_x g) = 1 /\ 1 <= dg g /\ fdivides p g a /\ fdivides p g b /\
  (exists u v, only_x u /\ only_x v /\ feqm p g (fadd (conv u a) (conv v b))).
Proof.
  intros Hp (Sa & Ra & Oa & Ia) (Sb & Rb & Ob & Ib) H.
  destruct (gcd_spec p Hp fuel a b g Sa Sb Oa Ob Ia Ib Ra Rb H) as (Sg & Rg & Og & M & D & Hin & Ig & Da & Db & X).
  split; [split; [exact Sg|split; [exact Rg|split; assumption]]|]. split; [intros ->; destruct Hin|]. auto.
Qed.
Lemma gcd_greatest p fuel a b g h : prime p -> gcd_arg p a -> gcd_arg p b -> p_gcd fuel a b p = Ok g -> fdivides p h a -> fdivides p h b -> fdivides p h g.
Proof. intros Hp (Sa & Ra & Oa & Ia) (Sb & Rb & Ob & Ib) H. apply (c25_gcd fuel a b p g); assumption. Qed.
Lemma nonempty_gcd p fuel a b g : 2 <= p -> gcd_arg p a -> gcd_arg p b -> p_gcd fuel a b p = Ok g -> a <> [] /\ b <> [].
Proof.
  intros Hp (Sa & Ra & Oa & Ia) (Sb & Rb & Ob & Ib) H.
  assert (X: forall f u, sorted u -> only_x u -> i32_poly u -> p_gcd f u [] p = NoFuel).
  { intros f u Su Ou Iu. destruct f; [reflexivity|]. cbn [p_gcd]. destruct (highest_only_x u Su Ou) as (_ & _ & _ & P0). destruct (_ <? _) eqn:E; [cbn in E; lia|].
    rewrite (pm_diverges u [] p Hp Su Ou Iu I) by (try reflexivity; intros ? ? []). reflexivity. }
  split; intros ->; [|rewrite X in H by assumption; discriminate].
  destruct fuel as [|f]; [discriminate|]. cbn [p_gcd] in H. destruct (highest_only_x b Sb Ob) as (_ & _ & _ & P0). destruct (_ <? _) eqn:E.
  - rewrite X in H by assumption. discriminate.
  - rewrite (pm_diverges [] b p Hp I) in H; try assumption; try (intros ? ? []); [discriminate|]. cbn in E. lia.
Qed.

(** C108: the result is the only monic polynomial that divides both arguments and is divided by every common divisor. *)
Lemma c108_unique : forall fuel a b p g h, prime p -> gcd_arg p a -> gcd_arg p b -> p_gcd fuel a b p = Ok g ->
  sorted h -> reduced p h -> only_x h -> h <> [] -> tc (highest_term_x h) = 1 -> fdivides p h a -> fdivides p h b ->
  (forall k, fdivides p k a -> fdivides p k b -> fdivides p k h) -> h = g.
Proof.
  intros fuel a b p g h Hp Aa Ab H Sh Rh Oh Nh Mh Da Db Gr. destruct (gcd_all p fuel a b g Hp Aa Ab H) as (Ag & Ng & Mg & _ & Dga & Dgb & _).
  apply (monic_unique p h g Hp); auto; [split; auto|apply arg_good, Ag|]. apply (gcd_greatest p fuel a b g h Hp Aa Ab H Da Db).
Qed.
Lemma gcd_same p f f' a b c d g h : prime p -> gcd_arg p a -> gcd_arg p b -> gcd_arg p c -> gcd_arg p d -> p_gcd f a b p = Ok g -> p_gcd f' c d p = Ok h ->
  (forall k, only_x k -> (fdivides p k a /\ fdivides p k b <-> fdivides p k c /\ fdivides p k d)) -> g = h.
Proof.
  intros Hp Aa Ab Ac Ad E1 E2 K. destruct (gcd_all p f a b g Hp Aa Ab E1) as (Ag & Ng & Mg & _ & Dga & Dgb & _). destruct (gcd_all p f' c d h Hp Ac Ad E2) as (Ah & Nh & Mh & _ & Dhc & Dhd & _).
  apply (monic_unique p g h Hp); auto using arg_good.
  - destruct (proj1 (K g ltac:(apply Ag)) (conj Dga Dgb)). apply (gcd_greatest p f' c d h g); assumption.
  - destruct (proj2 (K h ltac:(apply Ah)) (conj Dhc Dhd)). apply (gcd_greatest p f a b g h); assumption.
Qed.
(** C108: gcd is commutative, including whether it returns. *)
Lemma c108_commutative : forall fuel a b p g, prime p -> gcd_arg p a -> gcd_arg p b -> p_gcd fuel a b p = Ok g -> exists fuel', p_gcd fuel' b a p = Ok g.
Proof.
  intros fuel a b p g Hp Aa Ab H. pose proof (prime_ge_2 p Hp) as Hp2. destruct (nonempty_gcd p fuel a b g Hp2 Aa Ab H) as (Na & Nb).
  destruct (gcd_all p fuel a b g Hp Aa Ab H) as (Ag & Ng & Mg & Dg & Dga & Dgb & _).
  destruct (degree_pos p g (arg_good p g Ag) Dg) as (_ & m & c & Hi & L).
  assert (exists fuel' g', p_gcd fuel' b a p = Ok g') as (f' & g' & E').
  { destruct Aa as (Sa & Ra & Oa & Ia), Ab as (Sb & Rb & Ob & Ib). apply (c26_gcd_iff b a p Hp Sb Sa Ob Oa Ib Ia Rb Ra Nb Na).
    exists g, m, c. destruct Ag as (Sg & Rg & Og & _). auto 10. }
  exists f'. rewrite E'. f_equal. apply (gcd_same p f' fuel b a a b g' g Hp); auto. intros k _. tauto.
Qed.
(** C108: gcd(a, a) is a made monic. *)
Lemma c108_self : forall fuel a p g, prime p -> gcd_arg p a -> p_gcd fuel a a p = Ok g -> to_monic a p = Ok g.
Proof.
  intros fuel a p g Hp Aa H. pose proof (prime_ge_2 p Hp) as Hp2. destruct (nonempty_gcd p fuel a a g Hp2 Aa Aa H) as (Na & _).
  destruct Aa as (Sa & Ra & Oa & Ia). destruct (to_monic_spec a p Hp Sa Ia Na (reduced_lead p a Hp Sa Na Ra)) as (r & Er & Sr & Rr & Kr & Fr & Hr & i & Fi & Di).
  rewrite Er. f_equal. assert (Or: only_x r) by (intros m c Hi; destruct (Kr m) as (d & Hd); [eexists; exact Hi|apply (Oa _ _ Hd)]).
  assert (D1: fdivides p r a). { exists (fconst (tc (highest_term_x a))). split; [apply only_x_const|]. rewrite (feq_feqm p _ _ (conv_comm r _)), Fr. reflexivity. }
  apply (c108_unique fuel a a p g r Hp (conj Sa (conj Ra (conj Oa Ia))) (conj Sa (conj Ra (conj Oa Ia))) H); auto.
  - intros ->. apply Na. apply (canonical_mod p a [] ltac:(lia) Sa I Ra); [intros ? ? []|]. rewrite <- Fr. apply conv_nil_r.
  - rewrite Hr. reflexivity.
  - intros k Dk _. apply (fdiv_feqm p k (conv (fconst i) a)); [symmetry; exact Fi|]. apply fdiv_mul_l; [apply only_x_const|exact Dk].
Qed.
(** C108: adding a multiple of one argument to the other does not change the result. *)
Lemma c108_add_multiple : forall f f' a b c k p g h, prime p -> gcd_arg p a -> gcd_arg p b -> gcd_arg p c -> only_x k -> feqm p c (fadd a (conv k b)) ->
  p_gcd f a b p = Ok g -> p_gcd f' c b p = Ok h -> g = h.
Proof.
  intros f f' a b c k p g h Hp Aa Ab Ac Ok F E1 E2. apply (gcd_same p f f' a b c b g h Hp); auto. intros j _. split; intros (D1 & D2); (split; [|exact D2]).
  - apply (fdiv_feqm p j (fadd a (conv k b))); [symmetry; exact F|]. apply fdiv_add; [exact D1|apply fdiv_mul_l; assumption].
  - apply (fdiv_feqm p j (fadd c (fneg (conv k b)))); [rewrite F; apply feq_feqm; ring|]. apply fdiv_add; [exact D1|apply fdiv_neg, fdiv_mul_l; assumption].
Qed.
(** C108: gcd is associative where it returns. *)
Lemma c108_associative : forall f1 f2 f3 f4 a b c p g h u v, prime p -> gcd_arg p a -> gcd_arg p b -> gcd_arg p c ->
  p_gcd f1 a b p = Ok g -> p_gcd f2 g c p = Ok u -> p_gcd f3 b c p = Ok h -> p_gcd f4 a h p = Ok v -> u = v.
Proof.
  intros f1 f2 f3 f4 a b c p g h u v Hp Aa Ab Ac E1 E2 E3 E4.
  destruct (gcd_all p f1 a b g Hp Aa Ab E1) as (Ag & _ & _ & _ & Dga & Dgb & _). destruct (gcd_all p f3 b c h Hp Ab Ac E3) as (Ah & _ & _ & _ & Dhb & Dhc & _).
  apply (gcd_same p f2 f4 g c a h u v Hp); auto. intros k _. split; intros (D1 & D2).
  - split; [apply (fdiv_trans p k g a D1 Dga)|]. apply (gcd_greatest p f3 b c h k); auto. apply (fdiv_trans p k g b D1 Dgb).
  - split; [|apply (fdiv_trans p k h c D2 Dhc)]. apply (gcd_greatest p f1 a b g k); auto. apply (fdiv_trans p k h b D2 Dhb).
Qed.
(** C108: a common factor comes out: gcd(ac, bc) is gcd(a, b) times c made monic. *)
Lemma c108_common_factor : forall f1 f2 a b c ac bc m p g h, prime p -> gcd_arg p a -> gcd_arg p b -> gcd_arg p c -> gcd_arg p ac -> gcd_arg p bc ->
  feqm p ac (conv a c) -> feqm p bc (conv b c) -> c <> [] ->
  p_gcd f1 a b p = Ok g -> p_gcd f2 ac bc p = Ok h -> to_monic c p = Ok m -> feqm p h (conv g m).
Proof.
  intros f1 f2 a b c ac bc m p g h Hp Aa Ab Ac Aac Abc Fa Fb Nc E1 E2 Em. pose proof (prime_ge_2 p Hp) as Hp2.
  destruct (gcd_all p f1 a b g Hp Aa Ab E1) as (Ag & Ng & Mg & _ & Dga & Dgb & u & v & Ou & Ov & B). destruct (gcd_all p f2 ac bc h Hp Aac Abc E2) as (Ah & Nh & Mh & _ & Dha & Dhb & _).
  pose proof Ac as (Sc & Rc & Oc & Ic). destruct (to_monic_spec c p Hp Sc Ic Nc (reduced_lead p c Hp Sc Nc Rc)) as (r & Er & Sr & Rr & Kr & Fr & Hr & i & Fi & Di).
  assert (r = m) by congruence. subst r. assert (Om: only_x m) by (intros x y Hi; destruct (Kr x) as (d & Hd); [eexists; exact Hi|apply (Oc _ _ Hd)]).
  assert (Nm: m <> []) by (intros Z0; subst m; apply Nc; apply (canonical_mod p c [] ltac:(lia) Sc I Rc); [intros ? ? []|]; rewrite <- Fr; apply conv_nil_r).
  assert (Og: only_x g) by apply Ag. set (w := nf p (conv g m)). assert (Gw: good p w) by (apply nf_good; [lia|apply only_x_conv; assumption]).
  destruct (nf_spec p (conv g m) ltac:(lia)) as (_ & _ & Fw & _). fold w in Fw.
  assert (Gm: good p m) by (split; auto). destruct (dg_mul p g m w Hp (arg_good p g Ag) Gm Gw Ng Nm Fw) as (Nw & _ & Tw). rewrite Mg, Hr in Tw. cbn [tc] in Tw.
  assert (Mw: tc (highest_term_x w) = 1).
  { destruct (highest_spec w (proj1 Gw) Nw) as (Hh & _). apply (proj1 (proj2 Gw)) in Hh. destruct Tw as (z & Tw). assert (z = 0) by nia. lia. }
  assert (h = w) as ->; [|exact Fw].
  assert (Dmc: fdivides p m c). { exists (fconst (tc (highest_term_x c))). split; [apply only_x_const|]. rewrite (feq_feqm p _ _ (conv_comm m _)), Fr. reflexivity. }
  assert (Dw: forall x xc, fdivides p g x -> feqm p xc (conv x c) -> fdivides p w xc).
  { intros x xc (k1 & O1 & F1) Fx. destruct Dmc as (k2 & O2 & F2). exists (conv k1 k2). split; [apply only_x_conv; assumption|]. rewrite Fx, F1, F2, Fw. apply feq_feqm. ring. }
  apply (monic_unique p h w Hp); auto using arg_good.
  - apply (fdiv_feqm p h (fadd (conv (conv (fconst i) u) ac) (conv (conv (fconst i) v) bc))).
    + rewrite Fw, Fi, B, Fa, Fb. apply feq_feqm. ring.
    + apply fdiv_add; apply fdiv_mul_l; auto using only_x_conv, only_x_const.
  - apply (gcd_greatest p f2 ac bc h w Hp Aac Abc E2); [apply (Dw a ac Dga Fa)|apply (Dw b bc Dgb Fb)].
Qed.
Example c108_case : (* (x+1)(x+2) and (x+1)(x+3) mod 5, both orders *) let a := [(mone, 2); (mkMono 1 0 0 None, 3); (mkMono 2 0 0 None, 1)] in
  let b := [(mone, 3); (mkMono 1 0 0 None, 4); (mkMono 2 0 0 None, 1)] in gcd_arg 5 a /\ gcd_arg 5 b /\
  p_gcd 9 a b 5 = Ok [(mone, 1); (mkMono 1 0 0 None, 1)] /\ p_gcd 9 b a 5 = Ok [(mone, 1); (mkMono 1 0 0 None, 1)] /\ p_gcd 9 a a 5 = Ok a.
Proof.
  assert (A: forall c d, 1 <= c < 5 -> 1 <= d < 5 -> gcd_arg 5 [(mone, c); (mkMono 1 0 0 None, d); (mkMono 2 0 0 None, 1)]).
  { intros c d Hc Hd. split; [csorted|]. split; [|split]; intros m e H; in_cases H; unfold i32_mono, i32_range, i32_min, i32_max; cbn; intuition lia. }
  cbv zeta. refine (conj (A 2 3 _ _) (conj (A 3 4 _ _) (conj _ (conj _ _)))); [lia|lia|lia|lia|vm_compute; reflexivity..].
Qed.
