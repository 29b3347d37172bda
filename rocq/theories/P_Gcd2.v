(** gcd for inputs that need not be reduced modulo p, only have a leading coefficient prime to p. *)
From Coq Require Import Znumtheory ZifyBool Setoid Morphisms Ring.
From Verif Require Import Prelude M_Bigint M_Variable M_Term M_Poly Spec P_Bigint P_Variable P_FSum P_Poly P_Rem P_PolyProps P_Subst P_Subst2 P_Subst3 P_Mod P_Gcd.
Open Scope Z_scope.

Definition ulead (p : Z) (a : fsum) : Prop := a = [] \/ ~ (p | tc (highest_term_x a)).
Lemma ulead_unit p a : a <> [] -> ulead p a -> ~ (p | tc (highest_term_x a)).
Proof. intros N [->|H]; [contradiction|exact H]. Qed.
Lemma reduced_ulead p a : prime p -> sorted a -> reduced p a -> ulead p a.
Proof. intros Hp Sa Ra. destruct a as [|e r]; [left; reflexivity|right]. apply reduced_lead; auto. discriminate. Qed.
Lemma ufactor_degree p h b : prime p -> sorted h -> reduced p h -> only_x h -> h <> [] -> sorted b -> ulead p b -> only_x b -> b <> [] ->
  fdivides p h b -> mx (tm (highest_term_x h)) <= mx (tm (highest_term_x b)).
Proof.
  intros Hp Sh Rh Oh Nh Sb Rb Ob Nb (k & Ok & F). pose proof (prime_ge_2 p Hp) as Hp2.
  destruct (nf_spec p k ltac:(lia)) as (Sk & Rk & Fk & Ok'). specialize (Ok' Ok). set (k' := nf p k) in *. rewrite <- Fk in F.
  assert (Nk: k' <> []).
  { intros E. rewrite E in F. apply (ulead_unit p b Nb Rb). destruct (highest_spec b Sb Nb) as (Hh & _). specialize (F (tm (highest_term_x b))). rewrite (conv_comm h [] (tm (highest_term_x b))) in F. rewrite (sorted_coef b _ _ Sb Hh) in F. cbn [conv flat_map coef] in F. rewrite Z.sub_0_r in F. exact F. }
  pose proof (top_coef h k' Sh Sk Oh Ok' Nh Nk) as T. set (m := mkMono _ _ _ _) in T. specialize (F m). rewrite T in F.
  destruct (highest_only_x k' Sk Ok') as (_ & _ & _ & P0).
  destruct (bm_get m b) as [c|] eqn:G.
  - pose proof (bm_get_in _ _ _ G) as Hi. pose proof (highest_max b m c Sb Hi). cbn [m mx] in *. unfold m in *. cbn [mx] in *. lia.
  - exfalso. rewrite (bm_get_coef b m Sb), G in F. assert (D: (p | tc (highest_term_x h) * tc (highest_term_x k'))) by (destruct F as (z & F); exists (- z); lia).
    apply (prime_mult p Hp) in D. destruct D as [D|D]; [apply (reduced_lead p h Hp Sh Nh Rh D)|apply (reduced_lead p k' Hp Sk Nk Rk D)].
Qed.
Lemma ugcd_spec p : prime p -> forall fuel a b g, sorted a -> sorted b -> only_x a -> only_x b -> i32_poly a -> i32_poly b -> ulead p a -> ulead p b ->
  p_gcd fuel a b p = Ok g ->
  sorted g /\ reduced p g /\ only_x g /\ tc (highest_term_x g) = 1 /\ 1 <= mx (tm (highest_term_x g)) /\ In (tm (highest_term_x g), 1) g /\ i32_poly g /\
  fdivides p g a /\ fdivides p g b /\ (exists u v, only_x u /\ only_x v /\ feqm p g (fadd (conv u a) (conv v b))).
Proof.
  intros Hp. pose proof (prime_ge_2 p Hp) as Hp2. induction fuel as [|f IH]; intros a b g Sa Sb Oa Ob Ia Ib Ra Rb H; [discriminate|]. cbn [p_gcd] in H.
  destruct (_ <? _) eqn:E.
  - destruct (IH b a g Sb Sa Ob Oa Ib Ia Rb Ra H) as (Sg & Rg & Og & M & D & Hin & Ig & Db & Da & u & v & Hu & Hv & F).
    split; [exact Sg|]. split; [exact Rg|]. split; [exact Og|]. split; [exact M|]. split; [exact D|]. split; [exact Hin|]. split; [exact Ig|]. split; [exact Da|]. split; [exact Db|].
    exists v, u. split; [exact Hv|]. split; [exact Hu|]. rewrite F. intros m. unfold fadd. rewrite !coef_app. exists 0. ring.
  - apply bind_Ok in H. destruct H as (r & Er & H).
    destruct (pm_spec f a b p r ltac:(lia) Sa Sb Er) as (Sr & Rr & Lr & _).
    destruct (pm_only_x f a b p r ltac:(lia) Sa Sb Oa Ob Er) as (Or & k & Ok & Fk).
    pose proof (pm_i32 a b p f r Sa Oa Ia Sb Ob Er) as Ir.
    assert (Db: 1 <= mx (tm (highest_term_x b))).
    { destruct (highest_only_x b Sb Ob) as (_ & _ & _ & P0). destruct (Z.eq_dec (mx (tm (highest_term_x b))) 0) as [E0|]; [|lia].
      rewrite (pm_diverges a b p Hp2 Sa Oa Ia Sb Ob E0 f) in Er. discriminate. }
    assert (Nb: b <> []) by (intros ->; cbn in Db; lia).
    destruct (is_zero r) eqn:Ez.
    + apply is_zero_nil in Ez. subst r. destruct (to_monic_spec b p Hp Sb Ib Nb (ulead_unit p b Nb Rb)) as (g' & Eg & Sg & Rg & Kg & Fg & Hg & i & Fi & Di).
      assert (g' = g) by congruence. subst g'. split; [exact Sg|]. split; [exact Rg|].
      assert (Og: only_x g) by (intros m c Hi; destruct (Kg m) as (d & Hd); [eexists; exact Hi|apply (Ob _ _ Hd)]).
      split; [exact Og|]. rewrite Hg. cbn [tm tc]. split; [reflexivity|]. split; [exact Db|].
      assert (Dgb: fdivides p g b). { exists (fconst (tc (highest_term_x b))). split; [apply only_x_const|]. rewrite (feq_feqm p _ _ (conv_comm g _)), Fg. reflexivity. }
      split.
      { assert (Ng: g <> []) by (intros Eg0; rewrite Eg0 in Hg; destruct (tm (highest_term_x b)); cbn in Db; discriminate).
        destruct (highest_spec g Sg Ng) as (Hh & _). rewrite Hg in Hh. exact Hh. }
      split; [intros m c Hi; destruct (Kg m) as (d & Hd); [eexists; exact Hi|apply (Ib _ _ Hd)]|].
      split; [|split; [exact Dgb|]].
      * apply (fdiv_feqm p g (conv b k)); [|apply fdiv_mul; assumption]. rewrite Fk. unfold fadd. rewrite app_nil_r. reflexivity.
      * exists [], (fconst i). split; [intros ? ? []|]. split; [apply only_x_const|]. cbn [conv flat_map fadd app]. exact Fi.
    + assert (Nr: r <> []) by (intros ->; discriminate).
      destruct (IH b r g Sb Sr Ob Or Ib Ir Rb (reduced_ulead p r Hp Sr Rr) H) as (Sg & Rg & Og & M & D & Hin & Ig & Dgb & Dgr & u & v & Hu & Hv & F).
      split; [exact Sg|]. split; [exact Rg|]. split; [exact Og|]. split; [exact M|]. split; [exact D|]. split; [exact Hin|]. split; [exact Ig|]. split; [|split; [exact Dgb|]].
      * apply (fdiv_feqm p g (fadd (conv b k) r)); [rewrite Fk; reflexivity|]. apply fdiv_add; [apply fdiv_mul; assumption|exact Dgr].
      * exists v, (fadd u (conv v (fneg k))). split; [exact Hv|]. split; [apply only_x_add; [exact Hu|apply only_x_conv; [exact Hv|apply only_x_neg, Ok]]|].
        rewrite F. assert (Gr: feqm p r (fadd a (conv (fneg k) b))).
        { rewrite Fk. intros m. unfold fadd. rewrite !coef_app, (conv_comm (fneg k) b m), (conv_neg_r b k m), coef_neg. exists 0. ring. }
        rewrite Gr. apply feq_feqm. ring.
Qed.
Lemma ugcd_never_panics p : prime p -> forall fuel a b, sorted a -> sorted b -> only_x a -> only_x b -> i32_poly a -> i32_poly b -> ulead p a -> ulead p b ->
  p_gcd fuel a b p <> Panic.
Proof.
  intros Hp. pose proof (prime_ge_2 p Hp) as Hp2. induction fuel as [|f IH]; intros a b Sa Sb Oa Ob Ia Ib Ra Rb; [discriminate|]. cbn [p_gcd].
  destruct (_ <? _) eqn:E; [apply IH; assumption|].
  destruct (polynomial_modular f a b p) as [r| |] eqn:Er; cbn [bind]; [|exfalso; eapply (pm_never_panics a b p f Hp2); eassumption|discriminate].
  destruct (pm_spec f a b p r ltac:(lia) Sa Sb Er) as (Sr & Rr & Lr & _).
  destruct (pm_only_x f a b p r ltac:(lia) Sa Sb Oa Ob Er) as (Or & k & Ok & Fk).
  pose proof (pm_i32 a b p f r Sa Oa Ia Sb Ob Er) as Ir.
  destruct (is_zero r).
  - destruct b as [|e b']; [discriminate|]. destruct (to_monic_spec (e :: b') p Hp Sb Ib ltac:(discriminate)) as (g & -> & _); [|discriminate].
    apply ulead_unit; auto. discriminate.
  - apply IH; try assumption. apply reduced_ulead; assumption.
Qed.
Lemma ugcd_returns p : prime p -> forall n a b, sorted a -> sorted b -> only_x a -> only_x b -> i32_poly a -> i32_poly b -> ulead p a -> ulead p b ->
  a <> [] -> b <> [] -> common_factor p a b -> mx (tm (highest_term_x b)) < Z.of_nat n -> exists fuel g, p_gcd fuel a b p = Ok g.
Proof.
  intros Hp. pose proof (prime_ge_2 p Hp) as Hp2. induction n as [|n IH]; intros a b Sa Sb Oa Ob Ia Ib Ra Rb Na Nb (h & hm & hc & Sh & Rh & Oh & Hh & Dh & Da & Db) Hn.
  { destruct (highest_only_x b Sb Ob). lia. }
  destruct (mx (tm (highest_term_x a)) <? mx (tm (highest_term_x b))) eqn:E.
  - destruct (IH b a Sb Sa Ob Oa Ib Ia Rb Ra Nb Na) as (fuel & g & Eg); [exists h, hm, hc; auto 10|lia|].
    exists (S fuel), g. cbn [p_gcd]. rewrite E. exact Eg.
  - assert (Nh: h <> []) by (intros ->; destruct Hh). pose proof (ufactor_degree p h b Hp Sh Rh Oh Nh Sb Rb Ob Nb Db) as Le. pose proof (highest_max h hm hc Sh Hh) as Lh.
    destruct (pm_returns a b p Hp Sa Sb Ob) as (f1 & r & Er); [intros m c Hi; split; [apply (Ia _ _ Hi)|apply (Oa _ _ Hi)]|lia|apply ulead_unit; assumption|].
    destruct (pm_spec f1 a b p r ltac:(lia) Sa Sb Er) as (Sr & Rr & Lr & _).
    destruct (pm_only_x f1 a b p r ltac:(lia) Sa Sb Oa Ob Er) as (Or & k & Ok & Fk).
    pose proof (pm_i32 a b p f1 r Sa Oa Ia Sb Ob Er) as Ir.
    destruct (is_zero r) eqn:Ez.
    + destruct (to_monic_spec b p Hp Sb Ib Nb (ulead_unit p b Nb Rb)) as (g & Eg & _). exists (S f1), g. cbn [p_gcd]. rewrite E, Er. cbn [bind]. rewrite Ez. exact Eg.
    + assert (Nr: r <> []) by (intros ->; discriminate).
      destruct (IH b r Sb Sr Ob Or Ib Ir Rb (reduced_ulead p r Hp Sr Rr) Nb Nr) as (f2 & g & Eg).
      * exists h, hm, hc. split; [exact Sh|]. split; [exact Rh|]. split; [exact Oh|]. split; [exact Hh|]. split; [exact Dh|]. split; [exact Db|].
        apply (fdiv_feqm p h (fadd a (conv b (fneg k)))).
        -- rewrite Fk. intros m. unfold fadd. rewrite !coef_app, (conv_neg_r b k m), coef_neg. exists 0. ring.
        -- apply fdiv_add; [exact Da|]. apply fdiv_mul; [apply only_x_neg, Ok|exact Db].
      * destruct (highest_spec r Sr Nr) as (Hr & _). apply Lr in Hr. lia.
      * exists (S (Nat.max f1 f2)), g. cbn [p_gcd]. rewrite E.
        rewrite (pm_mono b p f1 (Nat.max f1 f2) a _ ltac:(lia) Er ltac:(discriminate)). cbn [bind]. rewrite Ez.
        apply (p_gcd_mono p f2); [lia|exact Eg|discriminate].
Qed.
