(** Euclid's algorithm in F_p[x] as pure algebra; uniqueness of monic gcds; repeated factors and the derivative. *)
From Coq Require Import Znumtheory ZifyBool Setoid Morphisms Ring.
From Verif Require Import Prelude M_Bigint M_Variable M_Term M_Poly Spec P_Bigint P_Variable P_FSum P_Binom P_Poly P_Rem P_PolyProps P_Subst P_Subst2 P_Subst3 P_Mod P_Gcd P_Gcd2 P_XQuot.
Open Scope Z_scope.

Definition dg (a : fsum) : Z := mx (tm (highest_term_x a)).
Definition good (p : Z) (a : fsum) : Prop := sorted a /\ reduced p a /\ only_x a.
Definition unit_in (p i c : Z) : Prop := (p | i * c - 1).
Lemma inv_exists p c : prime p -> 1 <= c < p -> exists i, (p | i * c - 1).
Proof.
  intros Hp Hc. destruct (inverse_spec c p Hp) as (i & _ & _ & D); [intros D; apply Z.divide_pos_le in D; lia|]. exists i. rewrite Z.mul_comm. exact D.
Qed.
Lemma fconst_inv p i c : (p | i * c - 1) -> feqm p (conv (fconst i) (fconst c)) (fconst 1).
Proof. intros D k. unfold conv, fconst. cbn [flat_map map app fst snd coef]. rewrite mmul_1_l. destruct (mono_eqb mone k); [|exists 0; ring]. rewrite !Z.add_0_r. exact D. Qed.
Lemma fdiv_mul_l p g a k : only_x k -> fdivides p g a -> fdivides p g (conv k a).
Proof. intros Hk H. apply (fdiv_feqm p g (conv a k)); [apply feq_feqm, conv_comm|]. apply fdiv_mul; assumption. Qed.
Lemma fdiv_unit p g a i c : (p | i * c - 1) -> fdivides p g (conv (fconst c) a) -> fdivides p g a.
Proof.
  intros D H. apply (fdiv_feqm p g (conv (fconst i) (conv (fconst c) a))); [|apply fdiv_mul_l; [apply only_x_const|exact H]].
  rewrite (feq_feqm p _ _ (conv_assoc _ _ _)), (fconst_inv p i c D). apply feq_feqm, conv_1_l.
Qed.
Lemma dg_nonneg a : sorted a -> only_x a -> 0 <= dg a.
Proof. intros Sa Oa. destruct (highest_only_x a Sa Oa) as (_ & _ & _ & H). exact H. Qed.
Lemma const_good p g : good p g -> g <> [] -> dg g = 0 -> exists c, 1 <= c < p /\ g = [(mone, c)].
Proof.
  intros (Sg & Rg & Og) Ng D. assert (K: forall m c, In (m, c) g -> m = mone).
  { intros m c Hi. pose proof (highest_max g m c Sg Hi) as L. fold (dg g) in L. destruct (Og _ _ Hi) as (A & B & C & E). destruct m; cbn in *. subst. unfold mone. f_equal. lia. }
  destruct g as [|[m c] g]; [contradiction|]. exists c. split; [apply (Rg m c); left; reflexivity|].
  rewrite (K m c (or_introl eq_refl)) in *. destruct g as [|[m' c'] g]; [reflexivity|exfalso]. destruct Sg as (Lt & _).
  specialize (Lt m' c' (or_introl eq_refl)). rewrite (K m' c' (or_intror (or_introl eq_refl))), mono_cmp_refl in Lt. discriminate.
Qed.
Lemma good_i32 p a b : good p a -> i32_poly b -> sorted b -> b <> [] -> dg a <= dg b -> i32_poly a.
Proof.
  intros (Sa & Ra & Oa) Ib Sb Nb L m c Hi. destruct (Oa _ _ Hi) as (A & B & C & D). pose proof (highest_max a m c Sa Hi) as Lm. fold (dg a) in Lm.
  destruct (highest_spec b Sb Nb) as (Hb & _). destruct (Ib _ _ Hb) as (E & _). fold (dg b) in E.
  unfold i32_mono, i32_range in *. rewrite B, C. unfold i32_min, i32_max in *. lia.
Qed.
(** Bezout: a non-zero common divisor that is a combination. *)
Lemma bezout p : prime p -> forall n a b, good p a -> good p b -> i32_poly a -> i32_poly b -> a <> [] -> (b = [] \/ dg b < Z.of_nat n) ->
  exists g u v, good p g /\ g <> [] /\ fdivides p g a /\ fdivides p g b /\ only_x u /\ only_x v /\ feqm p g (fadd (conv u a) (conv v b)).
Proof.
  intros Hp. pose proof (prime_ge_2 p Hp) as Hp2.
  assert (B0: forall a, good p a -> a <> [] -> exists g u v, good p g /\ g <> [] /\ fdivides p g a /\ fdivides p g [] /\ only_x u /\ only_x v /\ feqm p g (fadd (conv u a) (conv v []))).
  { intros a Ga Na. exists a, (fconst 1), []. split; [exact Ga|]. split; [exact Na|]. split; [apply fdiv_refl|].
    split; [exists []; split; [intros ? ? []|rewrite (feq_feqm p _ _ (conv_comm a [])); reflexivity]|]. split; [apply only_x_const|]. split; [intros ? ? []|].
    apply feq_feqm. rewrite conv_1_l. cbn [conv flat_map]. unfold fadd. rewrite app_nil_r. reflexivity. }
  induction n as [|n IH]; intros a b Ga Gb Ia Ib Na Hn.
  { destruct Hn as [->|Hn]; [apply B0; assumption|]. destruct Gb as (Sb & _ & Ob). pose proof (dg_nonneg b Sb Ob). lia. }
  destruct b as [|e b'] eqn:Eb; [apply B0; assumption|]. rewrite <- Eb in *. assert (Nb: b <> []) by (rewrite Eb; discriminate). clear Eb e b'.
  destruct Hn as [->|Hn]; [contradiction|]. destruct (Z.eq_dec (dg b) 0) as [D0|D0].
  - destruct (const_good p b Gb Nb D0) as (c & Hc & ->). destruct (inv_exists p c Hp Hc) as (i & Di).
    exists [(mone, c)], [], (fconst 1). split; [exact Gb|]. split; [discriminate|]. split.
    { exists (conv (fconst i) a). split; [apply only_x_conv; [apply only_x_const|apply Ga]|]. change [(mone, c)] with (fconst c).
      rewrite (feq_feqm p _ _ (conv_assoc _ _ _)), (feq_feqm p _ _ (conv_comm (fconst c) (fconst i))), (fconst_inv p i c Di). symmetry. apply feq_feqm, conv_1_l. }
    split; [apply fdiv_refl|]. split; [intros ? ? []|]. split; [apply only_x_const|]. apply feq_feqm. cbn [conv flat_map fadd app]. symmetry. apply (conv_1_l [(mone, c)]).
  - destruct Ga as (Sa & Ra & Oa), Gb as (Sb & Rb & Ob). pose proof (dg_nonneg b Sb Ob) as Pb.
    destruct (pm_returns a b p Hp Sa Sb Ob) as (f1 & r & Er); [intros m c Hi; split; [apply (Ia _ _ Hi)|apply (Oa _ _ Hi)]|fold (dg b); lia|apply reduced_lead; assumption|].
    destruct (pm_spec f1 a b p r ltac:(lia) Sa Sb Er) as (Sr & Rr & Lr & _).
    destruct (pm_only_x f1 a b p r ltac:(lia) Sa Sb Oa Ob Er) as (Or & k & Ok & Fk).
    pose proof (pm_i32 a b p f1 r Sa Oa Ia Sb Ob Er) as Ir.
    destruct (IH b r) as (g & u & v & Gg & Ng & Dgb & Dgr & Ou & Ov & F); [split; auto|split; auto|exact Ib|exact Ir|exact Nb| |].
    { destruct r as [|e r'] eqn:E; [left; reflexivity|right]. rewrite <- E in *. destruct (highest_in r Sr) as [(E' & _)|(_ & Hi)]; [congruence|]. apply Lr in Hi. fold (dg b) in Hi. unfold dg at 1. lia. }
    exists g, v, (fadd u (conv v (fneg k))). split; [exact Gg|]. split; [exact Ng|]. split; [|split; [exact Dgb|]].
    { apply (fdiv_feqm p g (fadd (conv b k) r)); [rewrite Fk; reflexivity|]. apply fdiv_add; [apply fdiv_mul; assumption|exact Dgr]. }
    split; [exact Ov|]. split; [apply only_x_add; [exact Ou|apply only_x_conv; [exact Ov|apply only_x_neg, Ok]]|].
    rewrite F. assert (Gr: feqm p r (fadd a (conv (fneg k) b))).
    { rewrite Fk. intros m. unfold fadd. rewrite !coef_app, (conv_comm (fneg k) b m), (conv_neg_r b k m), coef_neg. exists 0. ring. }
    rewrite Gr. apply feq_feqm. ring.
Qed.
(** Degree of a product. *)
Lemma nf_good p k : 0 < p -> only_x k -> good p (nf p k).
Proof. intros Hp Ok. destruct (nf_spec p k Hp) as (A & B & _ & C). split; [exact A|]. split; [exact B|apply C, Ok]. Qed.
Lemma dg_mul p a b c : prime p -> good p a -> good p b -> good p c -> a <> [] -> b <> [] -> feqm p c (conv a b) -> c <> [] /\ dg c = dg a + dg b /\
  (p | tc (highest_term_x c) - tc (highest_term_x a) * tc (highest_term_x b)).
Proof.
  intros Hp (Sa & Ra & Oa) (Sb & Rb & Ob) (Sc & Rc & Oc) Na Nb F. pose proof (prime_ge_2 p Hp) as Hp2.
  pose proof (top_coef a b Sa Sb Oa Ob Na Nb) as T. fold (dg a) (dg b) in T. set (m := mkMono (dg a + dg b) 0 0 None) in T.
  pose proof (F m) as Fm. rewrite T in Fm. assert (Hn: coef c m <> 0).
  { intros E. rewrite E in Fm. assert (D: (p | tc (highest_term_x a) * tc (highest_term_x b))) by (destruct Fm as (z & Fm); exists (- z); lia).
    apply (prime_mult p Hp) in D. destruct D as [D|D]; [exact (reduced_lead p a Hp Sa Na Ra D)|exact (reduced_lead p b Hp Sb Nb Rb D)]. }
  destruct (coef_in c m Hn) as (e & Hi). assert (Nc: c <> []) by (intros ->; destruct Hi). split; [exact Nc|].
  pose proof (highest_max c m e Sc Hi) as L1. fold (dg c) in L1. cbn [m mx] in L1.
  destruct (highest_spec c Sc Nc) as (Hc & _). pose proof (only_x_key c _ _ Oc Hc) as Kc. fold (dg c) in Kc.
  assert (L2: dg c <= dg a + dg b).
  { destruct (Z_lt_le_dec (dg a + dg b) (dg c)) as [L|]; [|assumption]. exfalso. pose proof (F (tm (highest_term_x c))) as G. rewrite (sorted_coef c _ _ Sc Hc) in G.
    rewrite (coef_notin (conv a b)) in G; [apply (Rc _ _) in Hc; rewrite Z.sub_0_r in G; apply Z.divide_pos_le in G; lia|].
    intros d Hd. apply in_conv in Hd. destruct Hd as (m1 & c1 & m2 & c2 & H1 & H2 & E & _). pose proof (highest_max a m1 c1 Sa H1) as La. pose proof (highest_max b m2 c2 Sb H2) as Lb.
    fold (dg a) in La. fold (dg b) in Lb. apply (f_equal mx) in E. cbn [mmul mx] in E. fold (dg c) in E. lia. }
  assert (E: dg c = dg a + dg b) by (unfold m in L1; cbn [mx] in L1; lia). split; [exact E|]. assert (Em: m = tm (highest_term_x c)) by (rewrite Kc; unfold m; rewrite E; reflexivity).
  rewrite Em, (sorted_coef c _ _ Sc Hc) in Fm. exact Fm.
Qed.
(** The cofactor of a division by a good polynomial, in normal form. *)
Lemma cofactor p g a : prime p -> fdivides p g a -> exists k, good p k /\ feqm p a (conv g k).
Proof.
  intros Hp (k & Ok & F). pose proof (prime_ge_2 p Hp) as Hp2. exists (nf p k). split; [apply nf_good; [lia|exact Ok]|]. destruct (nf_spec p k ltac:(lia)) as (_ & _ & G & _). rewrite G. exact F.
Qed.
Lemma feqm_nil_good p a : 0 < p -> good p a -> feqm p a [] -> a = [].
Proof. intros Hp (Sa & Ra & _) F. apply (canonical_mod p a [] Hp Sa I Ra); [intros ? ? []|exact F]. Qed.
Lemma conv_nil_r p a : feqm p (conv a []) [].
Proof. rewrite (feq_feqm p _ _ (conv_comm a [])). reflexivity. Qed.
Lemma divides_deg p g a : prime p -> good p g -> good p a -> g <> [] -> a <> [] -> fdivides p g a -> exists k, good p k /\ k <> [] /\ feqm p a (conv g k) /\ dg a = dg g + dg k.
Proof.
  intros Hp Gg Ga Ng Na D. pose proof (prime_ge_2 p Hp) as Hp2. destruct (cofactor p g a Hp D) as (k & Gk & F). exists k. split; [exact Gk|].
  assert (Nk: k <> []). { intros ->. apply Na. apply (feqm_nil_good p a ltac:(lia) Ga). rewrite F. apply conv_nil_r. }
  split; [exact Nk|]. split; [exact F|]. apply (dg_mul p g k a Hp Gg Gk Ga Ng Nk F).
Qed.
(** Dividing with equal degree: associates. *)
Lemma same_degree p g h : prime p -> good p g -> good p h -> g <> [] -> h <> [] -> fdivides p g h -> dg g = dg h -> fdivides p h g.
Proof.
  intros Hp Gg Gh Ng Nh D E. destruct (divides_deg p g h Hp Gg Gh Ng Nh D) as (k & Gk & Nk & F & E').
  destruct (const_good p k Gk Nk ltac:(lia)) as (c & Hc & ->). destruct (inv_exists p c Hp Hc) as (i & Di).
  apply (fdiv_unit p h g i c Di). exists (fconst 1). split; [apply only_x_const|]. rewrite F. apply feq_feqm. rewrite (conv_comm (conv g [(mone, c)]) (fconst 1)), conv_1_l. apply conv_comm.
Qed.
Lemma monic_unique p g h : prime p -> good p g -> good p h -> g <> [] -> h <> [] -> tc (highest_term_x g) = 1 -> tc (highest_term_x h) = 1 ->
  fdivides p g h -> fdivides p h g -> g = h.
Proof.
  intros Hp Gg Gh Ng Nh Mg Mh D1 D2. pose proof (prime_ge_2 p Hp) as Hp2.
  destruct (divides_deg p g h Hp Gg Gh Ng Nh D1) as (k & Gk & Nk & F & E). destruct (divides_deg p h g Hp Gh Gg Nh Ng D2) as (l & Gl & Nl & _ & E').
  pose proof (dg_nonneg k (proj1 Gk) (proj2 (proj2 Gk))). pose proof (dg_nonneg l (proj1 Gl) (proj2 (proj2 Gl))).
  destruct (const_good p k Gk Nk ltac:(lia)) as (c & Hc & ->). destruct (dg_mul p g [(mone, c)] h Hp Gg Gk Gh Ng Nk F) as (_ & _ & T).
  rewrite Mg, Mh in T. cbn [highest_term_x] in T. change (tc (highest_term_x [(mone, c)])) with c in T.
  assert (c = 1) by (destruct T as (z & T); assert (z = 0) by nia; lia). subst c.
  apply (canonical_mod p g h ltac:(lia)); try apply Gg; try apply Gh. rewrite F. apply feq_feqm. rewrite (conv_comm g [(mone, 1)]). symmetry. apply (conv_1_l g).
Qed.

(** ** Repeated factors *)
(** A polynomial in x with derivative zero modulo p is a p-th power. *)
Lemma zero_derivative p h : prime p -> good p h -> feqm p (fdx h) [] -> exists g, only_x g /\ feqm p h (fpow g (Z.to_nat p)).
Proof.
  intros Hp (Sh & Rh & Oh) F. pose proof (prime_ge_2 p Hp) as Hp2.
  assert (K: forall m c, In (m, c) h -> mx m = p * (mx m / p)).
  { intros m c Hi. specialize (F (set_x (mx m - 1) m)). rewrite coef_fdx in F. cbn [set_x mx my mq mv coef] in F.
    replace (mx m - 1 + 1) with (mx m) in F by ring. replace (set_x (mx m) (set_x (mx m - 1) m)) with m in F by (destruct m; reflexivity). rewrite (sorted_coef h m c Sh Hi), Z.sub_0_r in F.
    apply (prime_mult p Hp) in F. destruct F as [F|F]; [apply Z_div_exact_full_2; [lia|apply Z.mod_divide; [lia|exact F]]|]. apply (Rh _ _) in Hi. apply Z.divide_pos_le in F; lia. }
  exists (fmap (fun m => mkMono (mx m / p) 0 0 None) h). split.
  { intros m c Hi. apply fmap_in in Hi. destruct Hi as (k & Hk & ->). destruct (Oh _ _ Hk) as (A & _). cbn. split; [apply Z.div_pos; lia|auto]. }
  rewrite (frobenius p _ Hp).
  - assert (E: fmap (frob p) (fmap (fun m => mkMono (mx m / p) 0 0 None) h) = h); [|rewrite E; reflexivity].
    unfold fmap. rewrite map_map. cbn [fst snd]. rewrite <- (map_id h) at 2. apply map_ext_in. intros [m c] Hi. cbn [fst snd]. f_equal.
    destruct (Oh _ _ Hi) as (A & B & C & D). specialize (K m c Hi). destruct m; unfold frob; cbn in *. subst. f_equal; lia.
  - intros m c Hi. apply fmap_in in Hi. destruct Hi as (k & _ & ->). auto.
Qed.
Definition repeated (p : Z) (f : fsum) : Prop :=
  exists h m c, sorted h /\ reduced p h /\ only_x h /\ In (m, c) h /\ 1 <= mx m /\ fdivides p (conv h h) f.
Lemma pos_degree p h m c : good p h -> In (m, c) h -> 1 <= mx m -> h <> [] /\ 1 <= dg h.
Proof. intros (Sh & _) Hi L. split; [intros ->; destruct Hi|]. pose proof (highest_max h m c Sh Hi) as H. fold (dg h) in H. lia. Qed.
Lemma degree_pos p h : good p h -> 1 <= dg h -> h <> [] /\ exists m c, In (m, c) h /\ 1 <= mx m.
Proof.
  intros (Sh & _) L. destruct (highest_in h Sh) as [(-> & _)|(N & Hi)]; [cbn in L; lia|]. split; [exact N|]. exists (tm (highest_term_x h)), (tc (highest_term_x h)). split; [exact Hi|exact L].
Qed.
Lemma dg_pow p g n : prime p -> good p g -> g <> [] -> forall k, good p k -> k <> [] -> feqm p k (fpow g n) -> dg k = Z.of_nat n * dg g.
Proof.
  intros Hp Gg Ng. pose proof (prime_ge_2 p Hp) as Hp2. induction n as [|n IH]; intros k Gk Nk F.
  - cbn [fpow] in F. assert (k = fconst 1) as ->; [|reflexivity]. apply (canonical_mod p); [lia|apply Gk|cbn; split; [intros ? ? []|exact I]|apply Gk|intros m c [E|[]]; injection E; intros; subst; lia|exact F].
  - cbn [fpow] in F. set (w := nf p (fpow g n)). assert (Ow: only_x (fpow g n)). { clear IH F. induction n; [apply only_x_const|]. cbn [fpow]. apply only_x_conv; [apply Gg|assumption]. }
    assert (Gw: good p w) by (apply nf_good; [lia|exact Ow]). destruct (nf_spec p (fpow g n) ltac:(lia)) as (_ & _ & Fw & _). fold w in Fw.
    assert (Nw: w <> []). { intros E. rewrite E in Fw. apply Nk. apply (feqm_nil_good p k ltac:(lia) Gk). rewrite F, <- Fw. apply conv_nil_r. }
    rewrite <- Fw in F. destruct (dg_mul p g w k Hp Gg Gw Gk Ng Nw F) as (_ & -> & _). rewrite (IH w Gw Nw Fw). lia.
Qed.
Lemma fdx_below h : sorted h -> only_x h -> 1 <= dg h -> forall m, dg h <= mx m -> coef (fdx h) m = 0.
Proof.
  intros Sh Oh D m Hm. rewrite coef_fdx. rewrite (coef_notin h); [ring|]. intros c Hi. pose proof (highest_max h _ c Sh Hi) as L. fold (dg h) in L. cbn [set_x mx] in L. lia.
Qed.
Lemma common_repeated p f : prime p -> good p f -> i32_poly f -> f <> [] -> forall n h, good p h -> 1 <= dg h < Z.of_nat n -> fdivides p h f -> fdivides p h (fdx f) -> repeated p f.
Proof.
  intros Hp Gf If Nf. pose proof (prime_ge_2 p Hp) as Hp2. induction n as [|n IH]; intros h Gh Dh D1 D2; [lia|].
  destruct (degree_pos p h Gh ltac:(lia)) as (Nh & m0 & c0 & H0 & L0).
  destruct (divides_deg p h f Hp Gh Gf Nh Nf D1) as (k & Gk & Nk & F & E).
  pose proof (dg_nonneg k (proj1 Gk) (proj2 (proj2 Gk))) as Pk.
  assert (Ih: i32_poly h) by (apply (good_i32 p h f Gh If); [apply Gf|exact Nf|lia]). assert (Ik: i32_poly k) by (apply (good_i32 p k f Gk If); [apply Gf|exact Nf|lia]).
  destruct (bezout p Hp (S (Z.to_nat (dg k))) h k Gh Gk Ih Ik Nh ltac:(right; lia)) as (g & u & v & Gg & Ng & Dgh & Dgk & Ou & Ov & B).
  destruct (divides_deg p g h Hp Gg Gh Ng Nh Dgh) as (l & Gl & Nl & Fl & El).
  pose proof (dg_nonneg g (proj1 Gg) (proj2 (proj2 Gg))) as Pg. pose proof (dg_nonneg l (proj1 Gl) (proj2 (proj2 Gl))) as Pl.
  destruct (Z.eq_dec (dg g) 0) as [Z0|Z0].
  - destruct (const_good p g Gg Ng Z0) as (c & Hc & ->). destruct (inv_exists p c Hp Hc) as (i & Di).
    assert (Df: feqm p (fdx f) (fadd (conv (fdx h) k) (conv h (fdx k)))) by (rewrite (fdx_proper p _ _ F); apply feq_feqm, fdx_conv).
    (* work with the derivative in normal form: fdx h itself may list a zero entry x^-1 *)
    assert (N1: forall a, only_x a -> exists a', good p a' /\ feqm p (fdx a) a').
    { intros a Oa. set (w := filter (fun e : mono * Z => negb (mx (fst e) =? 0)) a).
      assert (E1: feq (fdx w) (fdx a)).
      { intros m. unfold w. clear w. induction a as [|[q e] a IHa]; [reflexivity|]. cbn [filter fst].
        assert (Oa': only_x a) by (intros x y Hx; apply (Oa x y); right; exact Hx).
        destruct (mx q =? 0) eqn:E1; cbn [negb fdx map coef fst snd].
        - specialize (IHa Oa'). unfold fdx in IHa. rewrite IHa. replace (mx q) with 0 by lia. destruct (mono_eqb _ m); lia.
        - specialize (IHa Oa'). unfold fdx in IHa. rewrite IHa. reflexivity. }
      assert (Ow: only_x (fdx w)).
      { intros m e Hi. unfold fdx in Hi. apply in_map_iff in Hi. destruct Hi as ([q d] & Eq & Hi). apply filter_In in Hi. cbn in Eq, Hi. destruct Hi as (Hi & Nz).
        injection Eq; intros; subst. destruct (Oa _ _ Hi) as (A1 & A2 & A3 & A4). cbn. intuition lia. }
      exists (nf p (fdx w)). split; [apply nf_good; [lia|exact Ow]|]. destruct (nf_spec p (fdx w) ltac:(lia)) as (_ & _ & G & _). rewrite G. symmetry. apply feq_feqm, E1. }
    destruct (N1 h (proj2 (proj2 Gh))) as (h' & Gh' & Fh'). destruct (N1 k (proj2 (proj2 Gk))) as (k' & Gk' & Fk').
    assert (D3: fdivides p h (conv h' k)).
    { apply (fdiv_feqm p h (fadd (fdx f) (fneg (conv h k')))).
      - rewrite Df, Fh', Fk'. apply feq_feqm. ring.
      - apply fdiv_add; [exact D2|]. apply fdiv_neg, fdiv_mul; [apply Gk'|apply fdiv_refl]. }
    assert (D4: fdivides p h h').
    { apply (fdiv_unit p h h' i c Di). apply (fdiv_feqm p h (fadd (conv (conv u h') h) (conv v (conv h' k)))).
      - change (fconst c) with [(mone, c)]. rewrite B. apply feq_feqm. ring.
      - apply fdiv_add; [apply fdiv_mul_l; [apply only_x_conv; [exact Ou|apply Gh']|apply fdiv_refl]|]. apply fdiv_mul_l; [exact Ov|exact D3]. }
    assert (Z1: feqm p (fdx h) []).
    { rewrite Fh'. destruct D4 as (w & Ow & Fw). apply (small_multiple p h h' w Hp); try apply Gh; [exact Nh|apply reduced_lead; try apply Gh; assumption|intros x y Hx; apply (Ow _ _ Hx)| |exact Fw].
      intros m e Hi. fold (dg h). destruct (Z_lt_le_dec (mx m) (dg h)) as [|L]; [assumption|exfalso]. pose proof (fdx_below h (proj1 Gh) (proj2 (proj2 Gh)) ltac:(lia) m L) as Z1.
      specialize (Fh' m). rewrite Z1, (sorted_coef h' m e (proj1 Gh') Hi) in Fh'. apply (proj1 (proj2 Gh')) in Hi. assert (D: (p | e)) by (destruct Fh' as (z & Fz); exists (- z); lia). apply Z.divide_pos_le in D; lia. }
    destruct (zero_derivative p h Hp Gh Z1) as (w & Ow & Fw). set (w' := nf p w). assert (Gw: good p w') by (apply nf_good; [lia|exact Ow]).
    destruct (nf_spec p w ltac:(lia)) as (_ & _ & Fw' & _). fold w' in Fw'.
    assert (Fp: feqm p h (fpow w' (Z.to_nat p))) by (rewrite Fw; symmetry; apply fpow_proper, Fw').
    assert (Nw: w' <> []). { intros Ew. rewrite Ew in Fp. apply Nh. apply (feqm_nil_good p h ltac:(lia) Gh). rewrite Fp. destruct (Z.to_nat p) eqn:Ep; [lia|]. reflexivity. }
    pose proof (dg_pow p w' (Z.to_nat p) Hp Gw Nw h Gh Nh Fp) as Dp. destruct (degree_pos p w' Gw ltac:(nia)) as (_ & m1 & c1 & H1 & L1).
    exists w', m1, c1. split; [apply Gw|]. split; [apply Gw|]. split; [apply Gw|]. split; [exact H1|]. split; [exact L1|].
    apply (fdiv_feqm p _ (conv h k)); [rewrite F; reflexivity|]. apply fdiv_mul; [apply Gk|].
    assert (Op: forall j, only_x (fpow w' j)) by (induction j as [|j IHj]; [apply only_x_const|cbn [fpow]; apply only_x_conv; [apply Gw|exact IHj]]).
    exists (fpow w' (Z.to_nat p - 2)). split; [apply Op|]. rewrite Fp. replace (Z.to_nat p) with (2 + (Z.to_nat p - 2))%nat at 1 by lia. rewrite (feq_feqm p _ _ (fpow_add w' 2 (Z.to_nat p - 2))).
    apply conv_proper; [|reflexivity]. cbn [fpow]. apply feq_feqm. rewrite (conv_comm w' (fconst 1)), conv_1_l. reflexivity.
  - destruct (Z.eq_dec (dg l) 0) as [L|L].
    + exists h, m0, c0. split; [apply Gh|]. split; [apply Gh|]. split; [apply Gh|]. split; [exact H0|]. split; [exact L0|].
      assert (Dhk: fdivides p h k) by (apply (fdiv_trans p h g k); [apply same_degree; auto; lia|exact Dgk]).
      destruct Dhk as (w & Ow & Fw). exists w. split; [exact Ow|]. rewrite F, Fw. apply feq_feqm, conv_assoc.
    + apply (IH g Gg ltac:(lia)); [apply (fdiv_trans p g h f Dgh D1)|apply (fdiv_trans p g h _ Dgh D2)].
Qed.
