(** Lemmas behind the property theorem C109: gcd with the derivative finds repeated factors. *)
From Coq Require Import Znumtheory ZifyBool Setoid Morphisms Ring.
From Verif Require Import Prelude M_Bigint M_Variable M_Term M_Poly Spec P_Bigint P_Variable P_FSum P_Binom P_Poly P_Rem P_PolyProps P_Subst P_Subst2 P_Subst3 P_Mod P_Gcd P_Gcd2 P_GcdProps P_Roots P_XQuot P_Sqfree P_GcdLawProps.
Open Scope Z_scope.

(** A square of a polynomial of positive degree divides f modulo p. *)
Definition has_square_factor (p : Z) (f : fsum) : Prop :=
  exists h m c, sorted h /\ reduced p h /\ only_x h /\ In (m, c) h /\ 1 <= mx m /\ fdivides p (conv h h) f.

Lemma deriv_arg p f f' d : prime p -> gcd_arg p f -> derivative_x f = Ok f' -> modular_assign f' p = Ok d -> gcd_arg p d /\ feqm p d (fdx f).
Proof.
  intros Hp (Sf & Rf & Of & If) E1 E2. pose proof (prime_ge_2 p Hp) as Hp2.
  destruct (derivative_x_spec f Sf) as (r & Er & Sr & Nr & Fr & Kr); [intros m c Hi; apply (Of _ _ Hi)|]. assert (r = f') by congruence. subst r.
  rewrite modular_assign_eq in E2 by (assumption || lia). injection E2 as <-.
  assert (K: keysP (fun m => 0 <= mx m /\ my m = 0 /\ mq m = 0 /\ mv m = None) f' /\ keysP i32_mono f').
  { split; intros m c Hi; destruct (Kr m c Hi) as (e & He & L); destruct (Of _ _ He) as (A & B & C & D), (If _ _ He) as (X & Y & Z0); unfold set_x, i32_mono, i32_range in *; cbn [mx my mq mv] in *;
    unfold i32_min, i32_max in *; intuition lia. }
  split; [|rewrite (redp_feqm p f' ltac:(lia) Sr); apply feq_feqm, Fr].
  split; [apply redp_sorted, Sr|]. split; [apply redp_reduced; lia|]. split; [exact (redp_keys _ p f' (proj1 K))|exact (redp_keys _ p f' (proj2 K))].
Qed.
Lemma fdx_only_x p a : prime p -> only_x a -> exists a', good p a' /\ feqm p (fdx a) a'.
Proof.
  intros Hp Oa. pose proof (prime_ge_2 p Hp) as Hp2. set (w := filter (fun e : mono * Z => negb (mx (fst e) =? 0)) a).
  assert (E1: feq (fdx w) (fdx a)).
  { intros m. unfold w. clear w. induction a as [|[q e] a IHa]; [reflexivity|]. cbn [filter fst].
    assert (Oa': only_x a) by (intros x y Hx; apply (Oa x y); right; exact Hx).
    destruct (mx q =? 0) eqn:E1; cbn [negb fdx map coef fst snd].
    - specialize (IHa Oa'). unfold fdx in IHa. rewrite IHa. replace (mx q) with 0 by lia. destruct (mono_eqb _ m); lia.
    - specialize (IHa Oa'). unfold fdx in IHa. rewrite IHa. reflexivity. }
  assert (Ow: only_x (fdx w)).
  { intros m e Hi. unfold fdx in Hi. apply in_map_iff in Hi. destruct Hi as ([q d] & Eq & Hi). apply filter_In in Hi. cbn in Eq, Hi. destruct Hi as (Hi & Nz).
    injection Eq; intros; subst. destruct (Oa _ _ Hi) as (A1 & A2 & A3 & A4). cbn. intuition lia. }
  exists (nf p (fdx w)). split; [apply nf_good; [lia|exact Ow]|]. destruct (nf_spec p (fdx w) ltac:(lia)) as (_ & _ & G & _). rewrite G. symmetry. apply feq_feqm, E1.
Qed.
Lemma square_common p h f : prime p -> only_x h -> fdivides p (conv h h) f -> fdivides p h f /\ fdivides p h (fdx f).
Proof.
  intros Hp Oh (k & Ok & F). split.
  - exists (conv h k). split; [apply only_x_conv; assumption|]. rewrite F. apply feq_feqm. ring.
  - destruct (fdx_only_x p h Hp Oh) as (h' & Gh & Fh), (fdx_only_x p k Hp Ok) as (k' & Gk & Fk).
    exists (fadd (conv (fadd h' h') k) (conv h k')). split; [apply only_x_add; apply only_x_conv; try assumption; try apply Gk; apply only_x_add; apply Gh|].
    rewrite (fdx_proper p _ _ F), (feq_feqm p _ _ (fdx_conv (conv h h) k)), (feq_feqm p _ _ (fdx_conv h h)), Fh, Fk. apply feq_feqm. ring.
Qed.
(** C109: with f' the derivative of f and d = f' mod p not zero, gcd(f, d) returns exactly when f has a repeated factor modulo p;
    otherwise it never returns. *)
Lemma c109_repeated : forall f f' d p, prime p -> gcd_arg p f -> f <> [] -> derivative_x f = Ok f' -> modular_assign f' p = Ok d -> d <> [] ->
  (has_square_factor p f <-> exists fuel g, p_gcd fuel f d p = Ok g) /\
  (~ has_square_factor p f -> forall fuel, p_gcd fuel f d p = NoFuel).
Proof.
  intros f f' d p Hp Af Nf E1 E2 Nd. destruct (deriv_arg p f f' d Hp Af E1 E2) as (Ad & Fd).
  pose proof Af as (Sf & Rf & Of & If). pose proof Ad as (Sd & Rd & Od & Id).
  assert (W: common_factor p f d <-> has_square_factor p f).
  { split.
    - intros (h & m & c & Sh & Rh & Oh & Hi & L & D1 & D2). assert (Gh: good p h) by (split; auto). destruct (pos_degree p h m c Gh Hi L) as (Nh & Dh).
      apply (common_repeated p f Hp (arg_good p f Af) If Nf (S (Z.to_nat (dg h))) h Gh ltac:(lia) D1). apply (fdiv_feqm p h d); assumption.
    - intros (h & m & c & Sh & Rh & Oh & Hi & L & D). destruct (square_common p h f Hp Oh D) as (D1 & D2). exists h, m, c.
      repeat (split; [assumption|]). apply (fdiv_feqm p h (fdx f)); [symmetry; exact Fd|exact D2]. }
  destruct (c26_gcd_iff f d p Hp Sf Sd Of Od If Id Rf Rd Nf Nd) as (G1 & G2). split.
  - rewrite <- W. split; [exact G1|]. intros (fuel & g & E).
    destruct (gcd_all p fuel f d g Hp Af Ad E) as (Ag & _ & _ & Dg & Dgf & Dgd & _). destruct (degree_pos p g (arg_good p g Ag) Dg) as (_ & m & c & Hi & L).
    exists g, m, c. destruct Ag as (Sg & Rg & Og & _). auto 10.
  - intros N. apply G2. rewrite W. exact N.
Qed.
(** C109: if the derivative vanishes modulo p (and f is not constant) then f has a repeated factor too, but gcd(f, d) never returns. *)
Lemma c109_zero_derivative : forall f f' p, prime p -> gcd_arg p f -> 1 <= mx (tm (highest_term_x f)) -> derivative_x f = Ok f' -> modular_assign f' p = Ok [] ->
  has_square_factor p f /\ forall fuel, p_gcd fuel f [] p = NoFuel.
Proof.
  intros f f' p Hp Af Df E1 E2. pose proof (prime_ge_2 p Hp) as Hp2. destruct (deriv_arg p f f' [] Hp Af E1 E2) as (A0 & F0).
  pose proof Af as (Sf & Rf & Of & If). pose proof (arg_good p f Af) as Gf. destruct (degree_pos p f Gf Df) as (Nf & _). split.
  - apply (common_repeated p f Hp Gf If Nf (S (Z.to_nat (dg f))) f Gf); [unfold dg; lia|apply fdiv_refl|]. exists []. split; [intros ? ? []|]. rewrite <- F0. symmetry. apply conv_nil_r.
  - intros fuel. destruct (p_gcd fuel f [] p) as [g| |] eqn:E; [|exfalso; exact (gcd_never_panics p Hp fuel f [] Sf I Of ltac:(intros ? ? []) If ltac:(intros ? ? []) Rf ltac:(intros ? ? []) E)|reflexivity].
    destruct (nonempty_gcd p fuel f [] g Hp2 Af A0 E) as (_ & N). congruence.
Qed.
(** C109: when it returns, the roots of the result are exactly the multiple roots of f. *)
Lemma c109_multiple_roots : forall fuel f f' d p g r, prime p -> gcd_arg p f -> derivative_x f = Ok f' -> modular_assign f' p = Ok d ->
  p_gcd fuel f d p = Ok g ->
  ((p | fval r 0 g) <-> exists k, only_x k /\ feqm p f (conv (conv [(mone, - r); (mkMono 1 0 0 None, 1)] [(mone, - r); (mkMono 1 0 0 None, 1)]) k)).
Proof.
  intros fuel f f' d p g r Hp Af E1 E2 E. destruct (deriv_arg p f f' d Hp Af E1 E2) as (Ad & Fd). change [(mone, - r); (mkMono 1 0 0 None, 1)] with (lin_factor r).
  destruct (gcd_all p fuel f d g Hp Af Ad E) as (Ag & _ & _ & _ & Dgf & Dgd & _). pose proof (lin_factor_only_x r) as Ol. pose proof Ag as (_ & _ & Og & _). pose proof Ad as (_ & _ & Od & _).
  split.
  - intros D. pose proof (root_factor p r g Og D) as Dl. pose proof (fdiv_trans p _ g f Dl Dgf) as (k & Ok & F).
    pose proof (fdiv_trans p _ g d Dl Dgd) as D2. destruct (fdx_only_x p k Hp Ok) as (k' & Gk & Fk).
    assert (Dk: fdivides p (lin_factor r) k).
    { apply (fdiv_feqm p _ (fadd d (fneg (conv (lin_factor r) k')))); [|apply fdiv_add; [exact D2|apply fdiv_neg, fdiv_mul; [apply Gk|apply fdiv_refl]]].
      rewrite Fd, (fdx_proper p _ _ F), (feq_feqm p _ _ (fdx_conv (lin_factor r) k)), Fk.
      assert (E3: feq (fdx (lin_factor r)) (fconst 1)) by (intros m; unfold lin_factor, fconst, fdx, mone, set_x; cbn [map fst snd mx my mq mv coef]; change (1 - 1) with 0; repeat match goal with |- context[mono_eqb ?u m] => destruct (mono_eqb u m) end; lia).
      rewrite (feq_feqm p _ _ E3). apply feq_feqm. rewrite conv_1_l. ring. }
    destruct Dk as (l & Ol' & Fl). exists l. split; [exact Ol'|]. rewrite F, Fl. apply feq_feqm, conv_assoc.
  - intros X. destruct (square_common p (lin_factor r) f Hp Ol X) as (D1 & D2).
    assert (D3: fdivides p (lin_factor r) g) by (apply (gcd_greatest p fuel f d g (lin_factor r) Hp Af Ad E D1); apply (fdiv_feqm p _ (fdx f)); [symmetry; exact Fd|exact D2]).
    apply (divides_root p (lin_factor r) g r Ol D3). rewrite lin_factor_val. exists 0. ring.
Qed.
(** C109: for the cubic of a curve: gcd with the derivative returns exactly when the curve is singular. *)
Lemma cubic_sq : forall a b p f f' d, prime p -> 3 < p -> sorted f -> reduced p f -> feqm p f (fweier a b) -> i32_poly f -> only_x f -> derivative_x f = Ok f' -> modular_assign f' p = Ok d ->
  ((p | 4 * a ^ 3 + 27 * b ^ 2) <-> exists fuel g, p_gcd fuel f d p = Ok g).
Proof.
  intros a b p f f' d Hp P3 Sf Rf Ff If Of E1 E2. pose proof (prime_ge_2 p Hp) as Hp2. assert (Af: gcd_arg p f) by (split; auto).
  destruct (deriv_arg p f f' d Hp Af E1 E2) as (Ad & Fd).
  set (m3 := mkMono 3 0 0 None). assert (C3: (p | coef f m3 - 1)) by (specialize (Ff m3); cbn in Ff; exact Ff).
  assert (Nz: coef f m3 <> 0) by (intros Z0; rewrite Z0 in C3; assert (X: (p | 1)) by (destruct C3 as (z & C3); exists (- z); lia); apply Z.divide_pos_le in X; lia).
  destruct (coef_in f m3 Nz) as (c3 & H3). assert (Nf: f <> []) by (intros ->; destruct H3).
  assert (Df: dg f = 3).
  { pose proof (highest_max f m3 c3 Sf H3) as L. fold (dg f) in L. cbn [m3 mx] in L. destruct (highest_spec f Sf Nf) as (Hh & _). pose proof (only_x_key f _ _ Of Hh) as Kh. fold (dg f) in Kh.
    destruct (Z_lt_le_dec 3 (dg f)) as [L'|]; [|unfold m3 in L; cbn [mx] in L; lia]. exfalso. specialize (Ff (tm (highest_term_x f))). rewrite (sorted_coef f _ _ Sf Hh) in Ff.
    rewrite (coef_notin (fweier a b)) in Ff; [apply Rf in Hh; rewrite Z.sub_0_r in Ff; apply Z.divide_pos_le in Ff; lia|].
    intros c Hc. rewrite Kh in Hc. cbn in Hc. destruct Hc as [X|[X|[X|[]]]]; injection X; intros; lia. }
  assert (Nd: d <> []).
  { intros ->. specialize (Fd (mkMono 2 0 0 None)). rewrite coef_fdx in Fd. cbn [coef mx set_x my mq mv] in Fd. change (2 + 1) with 3 in Fd. change (set_x 3 (mkMono 2 0 0 None)) with m3 in Fd.
    assert (X: (p | 3 * 1)). { destruct C3 as (z & C3), Fd as (y & Fd). exists (- y - 3 * z). lia. } apply (prime_mult p Hp) in X. destruct X as [X|X]; apply Z.divide_pos_le in X; lia. }
  destruct (c109_repeated f f' d p Hp Af Nf E1 E2 Nd) as (W & _). rewrite <- W. clear W.
  assert (sq: forall r, fdivides p (conv (lin_factor r) (lin_factor r)) f -> (p | 4 * a ^ 3 + 27 * b ^ 2)).
  { intros r D. destruct (square_common p _ f Hp (lin_factor_only_x r) D) as (D1 & D2).
    assert (V1: (p | r ^ 3 + a * r + b)).
    { pose proof (divides_root p (lin_factor r) (fweier a b) r (lin_factor_only_x r) (fdiv_feqm p _ _ _ Ff D1)) as X. rewrite lin_factor_val, fval_fweier in X. apply X. exists 0. ring. }
    assert (V2: (p | 3 * r ^ 2 + a)).
    { assert (F2: feqm p (fdx f) [(mkMono 2 0 0 None, 3); (mone, a)]).
      { rewrite (fdx_proper p _ _ Ff). apply feq_feqm. intros m. unfold fweier, fdx, mone, set_x. cbn [map fst snd mx my mq mv coef]. change (1 - 1) with 0. change (3 - 1) with 2. repeat match goal with |- context[mono_eqb ?u m] => destruct (mono_eqb u m) end; lia. }
      pose proof (divides_root p (lin_factor r) _ r (lin_factor_only_x r) (fdiv_feqm p _ _ _ F2 D2)) as X. rewrite lin_factor_val in X. cbn [fval] in X. unfold mval, mone in X. cbn [mx my] in X.
      rewrite !Z.pow_0_r in X. replace (3 * (r ^ 2 * 1) + (a * (1 * 1) + 0)) with (3 * r ^ 2 + a) in X by ring. apply X. exists 0. ring. }
    destruct V1 as (y & V1), V2 as (z & V2).
    replace (4 * a ^ 3 + 27 * b ^ 2) with ((18 * a * r - 27 * b) * - (r ^ 3 + a * r + b) + ((6 * r ^ 2 * a - 9 * r * b + 4 * a ^ 2)) * (3 * r ^ 2 + a) + 0) by ring.
    rewrite V1, V2. exists ((18 * a * r - 27 * b) * - y + (6 * r ^ 2 * a - 9 * r * b + 4 * a ^ 2) * z). ring. }
  split.
  - intros D.
    assert (R: exists r, (p | r ^ 3 + a * r + b) /\ (p | 3 * r ^ 2 + a)).
    { destruct (Zdivide_dec p a) as [Da|Da].
      - exists 0. assert (Db: (p | b)).
        { assert (X: (p | 27 * b ^ 2)) by (destruct D as (y & D), Da as (z & ->); exists (y - 4 * (z * p) ^ 2 * z); lia).
          apply (prime_mult p Hp) in X. destruct X as [X|X].
          - exfalso. change 27 with (3 * (3 * 3)) in X. apply (prime_mult p Hp) in X. destruct X as [X|X]; [apply Z.divide_pos_le in X; lia|]. apply (prime_mult p Hp) in X. destruct X as [X|X]; apply Z.divide_pos_le in X; lia.
          - rewrite Z.pow_2_r in X. apply (prime_mult p Hp) in X. tauto. }
        split; [destruct Da as (z & ->), Db as (y & ->); exists y; ring|destruct Da as (z & ->); exists z; ring].
      - (* r = -3b/(2a) *) destruct (inverse_spec (2 * a) p Hp) as (i & _ & _ & Di); [intros X; apply (prime_mult p Hp) in X; destruct X as [X|X]; [apply Z.divide_pos_le in X; lia|contradiction]|].
        exists (- 3 * b * i). assert (U: (p | 4 * a ^ 2 * (3 * (- 3 * b * i) ^ 2 + a))).
        { destruct Di as (z & Di), D as (y & D). set (t := 2 * a * i) in *. assert (Et: 2 * a * i = 1 + z * p) by (unfold t in Di; lia).
          replace (4 * a ^ 2 * (3 * (- 3 * b * i) ^ 2 + a)) with (27 * b ^ 2 * (2 * a * i) ^ 2 + 4 * a ^ 3) by ring. rewrite Et.
          replace (27 * b ^ 2 * (1 + z * p) ^ 2 + 4 * a ^ 3) with ((4 * a ^ 3 + 27 * b ^ 2) + 27 * b ^ 2 * (2 * z + z ^ 2 * p) * p) by ring. rewrite D. exists (y + 27 * b ^ 2 * (2 * z + z ^ 2 * p)). ring. }
        assert (U': (p | 3 * (- 3 * b * i) ^ 2 + a)).
        { apply (prime_mult p Hp) in U. destruct U as [U|U]; [exfalso|exact U]. apply (prime_mult p Hp) in U. destruct U as [U|U].
          - change 4 with (2 * 2) in U. apply (prime_mult p Hp) in U. destruct U as [U|U]; apply Z.divide_pos_le in U; lia.
          - rewrite Z.pow_2_r in U. apply (prime_mult p Hp) in U. tauto. }
        split; [|exact U']. set (r := - 3 * b * i) in *.
        (* 3 (r^3 + a r + b) = r (3 r^2 + a) + (2 a r + 3 b) *)
        assert (V: (p | 3 * (r ^ 3 + a * r + b))).
        { replace (3 * (r ^ 3 + a * r + b)) with (r * (3 * r ^ 2 + a) + (2 * a * r + 3 * b)) by ring. apply Z.divide_add_r; [apply Z.divide_mul_r, U'|].
          destruct Di as (z & Di). exists (- 3 * b * z). unfold r. replace (2 * a * (-3 * b * i) + 3 * b) with (- 3 * b * (2 * a * i - 1)) by ring. rewrite Di. ring. }
        apply (prime_mult p Hp) in V. destruct V as [V|V]; [apply Z.divide_pos_le in V; lia|exact V]. }
    destruct R as (r & R1 & R2).
    (* x^3 + a x + b = (x-r)^2 (x+2r) modulo p *)
    destruct (nf_lin_factor p r Hp) as (Sl & Rl & Ol & Hl & Fl). exists (nf p (lin_factor r)), (mkMono 1 0 0 None), 1. repeat (split; [assumption|]). split; [cbn; lia|].
    exists (lin_factor (- 2 * r)). split; [apply lin_factor_only_x|]. rewrite Ff. destruct (nf_spec p (lin_factor r) ltac:(lia)) as (_ & _ & F & _). rewrite F.
    assert (X: feq (conv (conv (lin_factor r) (lin_factor r)) (lin_factor (-2 * r))) [(mkMono 3 0 0 None, 1); (mkMono 1 0 0 None, - 3 * r ^ 2); (mone, 2 * r ^ 3)]).
    { intros m. unfold lin_factor, mone. cbn [conv flat_map map app fst snd mx my mq mv vmul coef].
      repeat match goal with |- context[mono_eqb (mmul ?u ?v) m] => let w := eval vm_compute in (mmul u v) in change (mmul u v) with w end.
      destruct (mono_eqb {| mx := 0; my := 0; mq := 0; mv := None |} m), (mono_eqb {| mx := 1; my := 0; mq := 0; mv := None |} m), (mono_eqb {| mx := 2; my := 0; mq := 0; mv := None |} m), (mono_eqb {| mx := 3; my := 0; mq := 0; mv := None |} m); ring. }
    rewrite (feq_feqm p _ _ X). intros m. unfold fweier. cbn [coef].
    assert (A1: (p | a - - 3 * r ^ 2)) by (replace (a - - 3 * r ^ 2) with (3 * r ^ 2 + a) by ring; exact R2).
    assert (A2: (p | b - 2 * r ^ 3)) by (replace (b - 2 * r ^ 3) with ((r ^ 3 + a * r + b) - r * (3 * r ^ 2 + a)) by ring; apply Z.divide_sub_r; [exact R1|apply Z.divide_mul_r, R2]).
    destruct (mono_eqb (mkMono 3 0 0 None) m), (mono_eqb (mkMono 1 0 0 None) m), (mono_eqb mone m); destruct A1 as (y & A1), A2 as (z & A2);
    first [exists 0; ring | exists y; lia | exists z; lia | exists (y + z); lia].
  - intros (h & m & c & Sh & Rh & Oh & Hi & L & D). assert (Gh: good p h) by (split; auto). destruct (pos_degree p h m c Gh Hi L) as (Nh & Dh).
    destruct D as (k & Ok & F). set (w := nf p (conv h h)). assert (Gw: good p w) by (apply nf_good; [lia|apply only_x_conv; assumption]).
    destruct (nf_spec p (conv h h) ltac:(lia)) as (_ & _ & Fw & _). fold w in Fw. destruct (dg_mul p h h w Hp Gh Gh Gw Nh Nh Fw) as (Nw & Dw & _).
    destruct (divides_deg p w f Hp Gw (arg_good p f Af) Nw Nf) as (l & Gl & Nl & Fl & El); [exists k; split; [exact Ok|rewrite Fw; exact F]|].
    pose proof (dg_nonneg l (proj1 Gl) (proj2 (proj2 Gl))). assert (D1: dg h = 1) by lia.
    (* h = c1 (x - r) *)
    assert (R: exists r, fdivides p (lin_factor r) h).
    { set (c1 := tc (highest_term_x h)). destruct (highest_spec h Sh Nh) as (Hh & _). pose proof (Rh _ _ Hh) as B1. fold c1 in B1. destruct (inv_exists p c1 Hp B1) as (i & Di).
      exists (- (i * coef h mone)). apply root_factor; [exact Oh|].
      assert (V: forall x, fval x 0 h = c1 * x + coef h mone).
      { intros x. pose proof (only_x_key h _ _ Oh Hh) as Kh. fold (dg h) in Kh. rewrite D1 in Kh.
        assert (F2: feq h [(mkMono 1 0 0 None, c1); (mone, coef h mone)]).
        { intros q. cbn [coef]. destruct (mono_eqb (mkMono 1 0 0 None) q) eqn:E3.
          - apply mono_eqb_eq in E3. subst q. assert (E4: coef h (mkMono 1 0 0 None) = c1) by (rewrite <- Kh; apply sorted_coef; assumption). rewrite E4. change (mono_eqb mone (mkMono 1 0 0 None)) with false. cbv iota. ring.
          - destruct (mono_eqb mone q) eqn:E4; [apply mono_eqb_eq in E4; subst q; ring|]. apply coef_notin. intros e He. pose proof (highest_max h q e Sh He) as Lq. fold (dg h) in Lq.
            pose proof (only_x_key h q e Oh He) as Kq. destruct (Oh _ _ He) as (Pq & _). assert (mx q = 0 \/ mx q = 1) as [Z0|Z0] by lia; rewrite Kq, Z0 in E3, E4; cbn in E3, E4; discriminate. }
        rewrite (fval_feq x 0 _ _ F2). cbn [fval]. unfold mval, mone. cbn [mx my]. rewrite !Z.pow_0_r, Z.pow_1_r. ring. }
      rewrite V. destruct Di as (z & Di). exists (- z * coef h mone). replace (c1 * - (i * coef h mone) + coef h mone) with (- (i * c1 - 1) * coef h mone) by ring. rewrite Di. ring. }
    destruct R as (r & t & Ot & Ft). apply (sq r). exists (conv (conv t t) k). split; [apply only_x_conv; [apply only_x_conv; assumption|exact Ok]|]. rewrite F, Ft. apply feq_feqm. ring.
Qed.
(** C109: for the cubic of a curve, p > 3: gcd of (x^3 + a x + b) mod p with its derivative mod p returns exactly when the curve is singular. *)
Lemma c109_cubic : forall a b p f f' d, prime p -> 3 < p -> modular_assign (weierstrass a b) p = Ok f -> derivative_x f = Ok f' -> modular_assign f' p = Ok d ->
  ((p | 4 * a ^ 3 + 27 * b ^ 2) <-> exists fuel g, p_gcd fuel f d p = Ok g).
Proof.
  intros a b p f f' d Hp P3 E0 E1 E2. rewrite modular_assign_eq in E0 by (try lia; apply weierstrass_sorted). injection E0 as <-.
  apply (cubic_sq a b p (redp p (weierstrass a b)) f' d Hp P3); auto.
  - apply redp_sorted, weierstrass_sorted.
  - apply redp_reduced. lia.
  - rewrite redp_feqm by (try lia; apply weierstrass_sorted). apply feq_feqm, weierstrass_feq.
  - exact (redp_keys _ p _ (weierstrass_i32 a b)).
  - exact (redp_keys _ p _ (weierstrass_only_x a b)).
Qed.
Example c109_case : (* (x+1)^2 (x+3) and (x+1)(x+3), modulo 5 *)
  let f := [(mone, 3); (mkMono 1 0 0 None, 2); (mkMono 3 0 0 None, 1)] in
  derivative_x f = Ok [(mone, 2); (mkMono 2 0 0 None, 3)] /\ gcd_arg 5 f /\ p_gcd 9 f [(mone, 2); (mkMono 2 0 0 None, 3)] 5 = Ok [(mone, 1); (mkMono 1 0 0 None, 1)].
Proof.
  assert (A: gcd_arg 5 [(mone, 3); (mkMono 1 0 0 None, 2); (mkMono 3 0 0 None, 1)]).
  { split; [csorted|]. split; [|split]; intros m e H; in_cases H; unfold i32_mono, i32_range, i32_min, i32_max; cbn; intuition lia. }
  cbv zeta. refine (conj _ (conj A _)); vm_compute; reflexivity.
Qed.
