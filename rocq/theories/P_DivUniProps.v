(** Lemmas behind the property theorems C113-C115. *)
From Coq Require Import Znumtheory ZifyBool Setoid Morphisms Ring.
From Verif Require Import Prelude M_Bigint M_Variable M_Term M_Poly M_DivPoly Spec P_Bigint P_Variable P_FSum P_Poly P_Rem P_PolyProps P_Subst P_Subst2 P_Subst3 P_SubstProps P_DivPoly P_DivPoly2 P_DivPoly3 P_DivPoly4 P_DivProps P_NormalProps P_Eds2 P_DivVal P_GcdProps P_XQuotProps P_DivUni P_DivUni2 P_DivUni3.
Open Scope Z_scope.

Section Eds.
Variables a b : Z.
Notation C := (fcurve a b).
#[local] Instance ci_equiv' : Equivalence (cong_ideal 0 C) := ci_equiv a b.
#[local] Instance ci_feq' : subrelation feq (cong_ideal 0 C) := ci_feq a b.
#[local] Instance ci_conv_p' : Proper (cong_ideal 0 C ==> cong_ideal 0 C ==> cong_ideal 0 C) conv := ci_conv_p a b.
#[local] Instance ci_fsub_p' : Proper (cong_ideal 0 C ==> cong_ideal 0 C ==> cong_ideal 0 C) fsub := ci_fsub_p a b.
#[local] Instance ci_fadd_p' : Proper (cong_ideal 0 C ==> cong_ideal 0 C ==> cong_ideal 0 C) fadd := ci_fadd_p a b.
Lemma fval_dl' x : fval x 0 (dl a b) = dv a b x. Proof. apply fval_dl. Qed.
Lemma isU_eds M N f1 f2 g1 g2 g h1 h2 h : 1 <= N <= M -> M + N <= 65536 ->
  isU a b (M + N) f1 -> isU a b (M - N) f2 -> isU a b (M + 1) g1 -> isU a b (M - 1) g2 -> isU a b N g -> isU a b (N + 1) h1 -> isU a b (N - 1) h2 -> isU a b M h ->
  feq (conv f1 f2) (fsub (conv (if Z.odd M && negb (Z.odd N) then conv (dl a b) (dl a b) else fconst 1) (conv (conv g1 g2) (conv g g)))
                         (conv (if negb (Z.odd M) && Z.odd N then conv (dl a b) (dl a b) else fconst 1) (conv (conv h1 h2) (conv h h)))).
Proof.
  intros HN HB U1 U2 U3 U4 U5 U6 U7 U8.
  assert (OC : forall k : bool, only_x (if k then conv (dl a b) (dl a b) else fconst 1)) by (intros []; auto using only_conv, only_dl, only_const).
  assert (O1 := proj1 U1). assert (O2 := proj1 U2). assert (O3 := proj1 U3). assert (O4 := proj1 U4). assert (O5 := proj1 U5). assert (O6 := proj1 U6). assert (O7 := proj1 U7). assert (O8 := proj1 U8).
  apply only_ext; [auto using only_conv|apply only_sub; auto 10 using only_conv|]. intros x. pose proof (uv_eds a b x M N HN HB) as Q. unfold eds_def in Q.
  rewrite (uv_isU _ _ x _ _ U1), (uv_isU _ _ x _ _ U2), (uv_isU _ _ x _ _ U3), (uv_isU _ _ x _ _ U4), (uv_isU _ _ x _ _ U5), (uv_isU _ _ x _ _ U6), (uv_isU _ _ x _ _ U7), (uv_isU _ _ x _ _ U8) in Q.
  rewrite fval_sub. rewrite !vc by auto 10 using only_conv. 
  assert (V : forall k : bool, fval x 0 (if k then conv (dl a b) (dl a b) else fconst 1) = if k then dv a b x ^ 2 else 1). { intros []; [rewrite vc by auto using only_dl; rewrite fval_dl'; ring|apply fval_fconst]. }
  rewrite !V. unfold c1, c2 in Q. lia.
Qed.
Lemma psi_eds M N : 1 <= N <= M -> M + N <= 65536 ->
  exists s d m1 m2 m n1 n2 n, psi a b (M + N) = Ok s /\ psi a b (M - N) = Ok d /\ psi a b (M + 1) = Ok m1 /\ psi a b (M - 1) = Ok m2 /\ psi a b M = Ok m /\
    psi a b (N + 1) = Ok n1 /\ psi a b (N - 1) = Ok n2 /\ psi a b N = Ok n /\
    cong_ideal 0 C (conv s d) (fsub (conv (conv m1 m2) (fpow n 2)) (conv (conv n1 n2) (fpow m 2))).
Proof.
  intros HN HB. destruct (isU_ex a b (M + N) ltac:(lia)) as (f1 & U1), (isU_ex a b (M - N) ltac:(lia)) as (f2 & U2), (isU_ex a b (M + 1) ltac:(lia)) as (g1 & U3), (isU_ex a b (M - 1) ltac:(lia)) as (g2 & U4),
    (isU_ex a b N ltac:(lia)) as (g & U5), (isU_ex a b (N + 1) ltac:(lia)) as (h1 & U6), (isU_ex a b (N - 1) ltac:(lia)) as (h2 & U7), (isU_ex a b M ltac:(lia)) as (h & U8).
  pose proof (isU_eds M N f1 f2 g1 g2 g h1 h2 h HN HB U1 U2 U3 U4 U5 U6 U7 U8) as Q.
  destruct U1 as (_ & r1 & E1 & F1), U2 as (_ & r2 & E2 & F2), U3 as (_ & r3 & E3 & F3), U4 as (_ & r4 & E4 & F4), U5 as (_ & r5 & E5 & F5), U6 as (_ & r6 & E6 & F6), U7 as (_ & r7 & E7 & F7), U8 as (_ & r8 & E8 & F8).
  exists r1, r2, r3, r4, r8, r6, r7, r5. do 8 (split; [assumption|]).
  cbn [fpow]. rewrite F1, F2, F3, F4, F5, F6, F7, F8.
  rewrite !Z.odd_add, !Z.odd_sub. change (Z.odd 1) with true. pose proof (Y2_sq a b) as Y.
  destruct (Z.odd M), (Z.odd N); cbn [xorb negb andb] in *.
  - transitivity (conv (dl a b) (conv f1 f2)); [rewrite <- Y; apply ci_feq'; ring|]. rewrite Q, <- Y. apply ci_feq'. ring.
  - rewrite Q, <- Y. apply ci_feq'. ring.
  - rewrite Q, <- Y. apply ci_feq'. ring.
  - transitivity (conv (dl a b) (conv f1 f2)); [rewrite <- Y; apply ci_feq'; ring|]. rewrite Q, <- Y. apply ci_feq'. ring.
Qed.
End Eds.

(** C113: the elliptic divisibility relation
      psi(M+N) psi(M-N) = psi(M+1) psi(M-1) psi(N)^2 - psi(N+1) psi(N-1) psi(M)^2
    holds modulo the curve equation, over the integers, for all M >= N >= 1 with M + N <= 65536. *)
Lemma c113_eds : forall a b M N, 1 <= N <= M -> M + N <= 65536 ->
  exists s d m1 m2 m n1 n2 n, psi a b (M + N) = Ok s /\ psi a b (M - N) = Ok d /\ psi a b (M + 1) = Ok m1 /\ psi a b (M - 1) = Ok m2 /\ psi a b M = Ok m /\
    psi a b (N + 1) = Ok n1 /\ psi a b (N - 1) = Ok n2 /\ psi a b N = Ok n /\
    cong_ideal 0 (fcurve a b) (conv s d) (fsub (conv (conv m1 m2) (fpow n 2)) (conv (conv n1 n2) (fpow m 2))).
Proof. exact psi_eds. Qed.
Lemma only_factor a b m n f h : 1 <= m -> (m | n) -> 0 <= n <= 65536 -> isU a b m f -> isU a b n h -> exists g, only_x g /\ feq h (conv f g).
Proof.
  intros Hm (k & ->) Hn U V. destruct (uv_divides a b m Hm k ltac:(nia) ltac:(lia)) as (g & (l & G) & E).
  exists (ofl 0 l). split; [apply ofl_only|]. apply only_ext; [apply V|apply only_conv; [apply U|apply ofl_only]|]. intros x. rewrite vc by (apply U || apply ofl_only).
  rewrite fval_ofl, <- (uv_isU _ _ _ _ _ U), <- (uv_isU _ _ _ _ _ V), E, G. change (x ^ Z.of_nat 0) with 1. ring.
Qed.
Lemma psi_monos a b n r m c : 1 <= n <= 65536 -> psi a b n = Ok r -> In (m, c) r -> 0 <= mx m <= 2147483646 /\ 0 <= my m <= 1 /\ mq m = 0 /\ mv m = None.
Proof.
  intros Hn E I. destruct (Z.odd n) eqn:O.
  - destruct (c48_psi_odd a b n ltac:(lia) O) as (r' & E' & _ & X). assert (r' = r) as -> by congruence. destruct (c49_odd a b n r Hn O E) as (_ & _ & B & _). specialize (B m c I). apply X in I.
    assert (n <> 65536) by (intros ->; discriminate). assert ((n ^ 2 - 1) / 2 <= 2147483646) by (apply Z.div_le_upper_bound; nia). intuition lia.
  - assert (n <> 1) by (intros ->; discriminate). destruct (c48_psi_even a b n ltac:(lia) O) as (r' & g & E' & _ & X & _). assert (r' = r) as -> by congruence. destruct (c49_even a b n r ltac:(lia) O E) as (_ & B & _). specialize (B m c I). apply X in I.
    assert ((n ^ 2 - 4) / 2 <= 2147483646) by (apply Z.div_le_upper_bound; nia). intuition lia.
Qed.
Lemma psi_sorted a b n r : 0 <= n <= 65536 -> psi a b n = Ok r -> sorted r.
Proof.
  intros Hn E. destruct (Z.odd n) eqn:O.
  - destruct (c48_psi_odd a b n Hn O) as (r' & E' & X & _). assert (r' = r) as -> by congruence. exact X.
  - destruct (c48_psi_even a b n Hn O) as (r' & g & E' & X & _). assert (r' = r) as -> by congruence. exact X.
Qed.
(** C113: if m divides n then the polynomial psi(m) divides psi(n): the quotient has integer coefficients and y-degree at most 1. *)
Lemma c113_divides : forall a b m n r s, 1 <= m -> (m | n) -> 1 <= n <= 65536 -> psi a b m = Ok r -> psi a b n = Ok s ->
  exists g, (forall k c, In (k, c) g -> 0 <= mx k /\ 0 <= my k <= 1 /\ mq k = 0 /\ mv k = None) /\ feq s (conv r g).
Proof.
  intros a b m n r s Hm D Hn E F.
  assert (m <= n) by (apply Z.divide_pos_le; [lia|exact D]). 
  destruct (isU_ex a b m ltac:(lia)) as (f & U), (isU_ex a b n ltac:(lia)) as (h & V). destruct (only_factor a b m n f h Hm D ltac:(lia) U V) as (g & G & Q).
  destruct U as (_ & r' & E' & F1), V as (_ & s' & F' & F2). assert (r' = r) as -> by congruence. assert (s' = s) as -> by congruence.
  assert (OG : forall k c, In (k, c) g -> 0 <= mx k /\ 0 <= my k <= 1 /\ mq k = 0 /\ mv k = None). { intros k c I. apply G in I. intuition lia. }
  destruct (Z.odd m) eqn:Om.
  - destruct (Z.odd n) eqn:On.
    + exists g. split; [exact OG|]. rewrite F1, F2. exact Q.
    + exists (conv Y2 g). split.
      * intros k c I. apply in_conv in I as (m1 & c1' & m2 & c2' & I1 & I2 & -> & _). destruct I1 as [I1|[]]. injection I1; intros; subst. apply G in I2. destruct I2 as (? & ? & ? & V2).
        unfold mmul. cbn [mx my mq mv]. rewrite V2. repeat split; try reflexivity; lia.
      * rewrite F1, F2, Q. ring.
  - assert (On : Z.odd n = false). { destruct D as (k & ->). rewrite Z.odd_mul, Om. apply andb_false_r. }
    rewrite On in F2. exists g. split; [exact OG|]. rewrite F1, F2, Q. ring.
Qed.
(** C113: consequently, reducing psi(n) by an odd psi(m) with m | n, modulo a prime not dividing m, leaves remainder 0. *)
Lemma c113_remainder : forall a b p m n r s, prime p -> 3 <= m -> Z.odd m = true -> ~ (p | m) -> (m | n) -> 1 <= n <= 65536 ->
  psi a b m = Ok r -> psi a b n = Ok s -> exists fuel, polynomial_modular fuel s r p = Ok [].
Proof.
  intros a b p m n r s Hp Hm Om Np D Hn E F. pose proof (prime_ge_2 p Hp). assert (m <= n) by (apply Z.divide_pos_le; [lia|exact D]).
  destruct (c48_psi_odd a b m ltac:(lia) Om) as (r' & E' & Sr & Or). assert (r' = r) as -> by congruence. clear E'.
  destruct (c49_odd a b m r ltac:(lia) Om E) as (T & _). assert (HD : 1 <= (m ^ 2 - 1) / 2) by (apply Z.div_le_lower_bound; nia).
  pose proof (psi_sorted a b n s ltac:(lia) F) as Ss. pose proof (fun k c => psi_monos a b n s k c Hn F) as Ks.
  destruct (c113_divides a b m n r s ltac:(lia) D Hn E F) as (g & Kg & Q).
  destruct (c23_polynomial_modular s r p Hp Ss) as (fuel & u & Eu & Su & Ru & Lu & _ & _); try assumption.
  { intros k c I. pose proof (Ks k c I) as KK. clear - KK. unfold i32_mono, i32_range, i32_min, i32_max. destruct KK as (? & ? & -> & _). lia. } { intros k c I. apply (Ks k c I). } { rewrite T. exact HD. } { rewrite T. exact Np. }
  exists fuel. rewrite Eu. f_equal.
  assert (E0: polynomial_modular 0 [] r p = Ok []).
  { rewrite P_Gcd.pm_eq by exact Or. rewrite P_Mod.pm_loop_exit by (rewrite T; cbn [highest_term_x tm mx]; change (mx (tm (highest_term_x []))) with 0; cbn [tm mx]; lia). cbn [bind]. rewrite modular_assign_eq by (try exact I; lia). reflexivity. }
  apply (c107_decides fuel 0 s [] r p u [] Hp Ss I); try assumption. { intros k c I. apply (Ks k c I). } { intros k c []. } { rewrite T. exact HD. } { rewrite T. exact Np. }
  exists g. split; [intros k c I; apply (Kg k c I)|]. apply feq_feqm. rewrite Q. ring.
Qed.
Example c113_case : exists r s fuel, psi 2 3 3 = Ok r /\ psi 2 3 6 = Ok s /\ polynomial_modular fuel s r 7 = Ok [] /\ mx (tm (highest_term_x r)) = 4 /\ mx (tm (highest_term_x s)) = 16.
Proof.
  destruct (psi_Ok 2 3 3 ltac:(lia)) as (r & E & _), (psi_Ok 2 3 6 ltac:(lia)) as (s & F & _).
  destruct (c113_remainder 2 3 7 3 6 r s) as (fuel & Q); try assumption; try lia; try reflexivity. { apply is_prime_spec; reflexivity. } { intros (k & Hk). lia. } { exists 2. reflexivity. }
  exists r, s, fuel. rewrite (proj1 (c49_odd 2 3 3 r ltac:(lia) eq_refl E)), (proj1 (c49_even 2 3 6 s ltac:(lia) eq_refl F)). repeat (split; [assumption|]). split; reflexivity.
Qed.

(** ** phi and omega in terms of the univariate parts *)
Section PhiOmega.
Variables a b : Z.
Notation C := (fcurve a b).
#[local] Instance ci_equiv'' : Equivalence (cong_ideal 0 C) := ci_equiv a b.
#[local] Instance ci_feq'' : subrelation feq (cong_ideal 0 C) := ci_feq a b.
#[local] Instance ci_conv_p'' : Proper (cong_ideal 0 C ==> cong_ideal 0 C ==> cong_ideal 0 C) conv := ci_conv_p a b.
#[local] Instance ci_fsub_p'' : Proper (cong_ideal 0 C ==> cong_ideal 0 C ==> cong_ideal 0 C) fsub := ci_fsub_p a b.
Lemma only_X : only_x (fmono 1 1 0 0).
Proof. intros m c [H|[]]. injection H; intros; subst. cbn. intuition lia. Qed.
Lemma phi_uni n r f g h : 1 <= n <= 46340 -> phi a b n = Ok r -> isU a b n f -> isU a b (n + 1) g -> isU a b (n - 1) h ->
  sorted r /\ only_x r /\ feq r (fsub (conv (if Z.odd n then fconst 1 else dl a b) (conv (fmono 1 1 0 0) (fpow f 2))) (conv (if Z.odd n then dl a b else fconst 1) (conv g h))).
Proof.
  intros Hn E (X1 & r1 & E1 & F1) (X2 & r2 & E2 & F2) (X3 & r3 & E3 & F3).
  destruct (c50_phi a b n Hn) as (r' & pn & u & v & Q & Q1 & Q2 & Q3 & S0 & O0 & CI & _).
  assert (r' = r) as -> by congruence. assert (pn = r1) as -> by congruence. assert (u = r2) as -> by congruence. assert (v = r3) as -> by congruence.
  split; [exact S0|]. split; [exact O0|].
  assert (OC : forall k : bool, only_x (if k then fconst 1 else dl a b) /\ only_x (if k then dl a b else fconst 1)) by (intros []; auto using only_dl, only_const).
  apply (uniq a b); [exact O0|apply only_sub; apply only_conv; try apply OC; auto using only_conv, only_pow, only_X|].
  rewrite CI. cbn [fpow]. rewrite F1, F2, F3. rewrite Z.odd_add, Z.odd_sub. change (Z.odd 1) with true. pose proof (Y2_sq a b) as Y.
  destruct (Z.odd n); cbn [xorb]; rewrite <- Y; apply ci_feq''; ring.
Qed.
Lemma omega_uni n r f1 f2 f3 f4 : 2 <= n <= 37837 -> omega a b n = Ok r -> isU a b (n + 2) f1 -> isU a b (n - 1) f2 -> isU a b (n - 2) f3 -> isU a b (n + 1) f4 ->
  sorted r /\ exists w, only_x w /\ feq r (if Z.odd n then conv (fmono 1 0 1 0) w else w) /\
    feq (conv (fconst (if Z.odd n then 1 else 2)) w) (fsub (conv f1 (fpow f2 2)) (conv f3 (fpow f4 2))).
Proof.
  intros Hn E (X1 & r1 & E1 & F1) (X2 & r2 & E2 & F2) (X3 & r3 & E3 & F3) (X4 & r4 & E4 & F4).
  destruct (c50_omega a b n Hn) as (r' & u & v & s & t & Q & Q1 & Q2 & Q3 & Q4 & S0 & K & CI & _).
  assert (r' = r) as -> by congruence. assert (u = r1) as -> by congruence. assert (v = r2) as -> by congruence. assert (s = r3) as -> by congruence. assert (t = r4) as -> by congruence.
  split; [exact S0|]. pose proof (Y2_sq a b) as Y.
  assert (OR : only_x (fsub (conv f1 (fpow f2 2)) (conv f3 (fpow f4 2)))) by (apply only_sub; auto using only_conv, only_pow).
  revert CI. cbn [fpow]. rewrite F1, F2, F3, F4. rewrite !Z.odd_add, !Z.odd_sub. change (Z.odd 1) with true. change (Z.odd 2) with false. intros CI.
  destruct (Z.odd n) eqn:O; cbn [xorb] in *.
  - exists (map (fun e => (mkMono (mx (fst e)) 0 0 None, snd e)) r).
    assert (OW : only_x (map (fun e => (mkMono (mx (fst e)) 0 0 None, snd e)) r)).
    { intros m c I. apply in_map_iff in I as ((m', c') & EE & I). cbn [fst snd] in EE. injection EE; intros; subst. apply K in I. cbn. intuition lia. }
    assert (FW : feq r (conv (fmono 1 0 1 0) (map (fun e => (mkMono (mx (fst e)) 0 0 None, snd e)) r))).
    { apply eq_subrelation; [typeclasses eauto|]. cbn [conv flat_map fmono]. rewrite app_nil_r. cbn [fst snd]. rewrite map_map. symmetry. transitivity (map (fun e : mono * Z => e) r); [|apply map_id].
      apply map_ext_in. intros (m, c) I. apply K in I. unfold mmul. destruct m as [x y q v0]. cbn [fst snd mx my mq mv] in *. destruct I as (_ & -> & -> & ->). apply f_equal2; [reflexivity|]. destruct c; reflexivity. }
    split; [exact OW|]. split; [exact FW|]. apply (dl_cancel a b). apply (uniq a b); [auto using only_conv, only_dl, only_const|auto using only_conv, only_dl|].
    rewrite <- Y. set (w := map _ r) in *. transitivity (conv (fmono 4 0 1 0) r).
    + rewrite FW. apply ci_feq''. change Y2 with (conv (fconst 2) (fmono 1 0 1 0)). change (fmono 4 0 1 0) with (conv (conv (fconst 2) (fconst 2)) (fmono 1 0 1 0)). ring.
    + rewrite CI. apply ci_feq''. ring.
  - exists r. assert (OW : only_x r) by (intros m c I; exact (K m c I)). split; [exact OW|]. split; [reflexivity|].
    apply (dl_cancel a b). apply (uniq a b); [auto using only_conv, only_dl, only_const|auto using only_conv, only_dl|].
    rewrite <- Y. transitivity (conv Y2 (conv (fmono 4 0 1 0) r)).
    + apply ci_feq''. change (fmono 4 0 1 0) with (conv Y2 (fconst 2)). ring.
    + rewrite CI. apply ci_feq''. ring.
Qed.
End PhiOmega.

(** ** Dependence on the curve coefficients modulo p *)
(** C114: modulo any p > 0, psi(n) depends only on the residues of a and b: the reductions are the same map. *)
Lemma c114_psi : forall p a b a' b' n, 0 < p -> (p | a - a') -> (p | b - b') -> 0 <= n <= 65536 ->
  exists r r' u, psi a b n = Ok r /\ psi a' b' n = Ok r' /\ p_rem r p = Ok u /\ p_rem r' p = Ok u.
Proof.
  intros p a b a' b' n Hp Ha Hb Hn. destruct (isU_ex a b n Hn) as (f & U), (isU_ex a' b' n Hn) as (f' & U').
  pose proof (isU_mod p a b a' b' Ha Hb n ltac:(lia) ltac:(lia) f f' U U') as F. destruct U as (_ & r & E & G), U' as (_ & r' & E' & G').
  pose proof (psi_sorted a b n r Hn E) as S1. pose proof (psi_sorted a' b' n r' Hn E') as S2. exists r, r', (redp p r). rewrite !p_rem_eq by assumption. repeat (split; [assumption || reflexivity|]).
  f_equal. symmetry. apply redp_ext; try assumption. rewrite (feq_feqm p _ _ G), (feq_feqm p _ _ G'). destruct (Z.odd n); rewrite F; reflexivity.
Qed.
(** C114: the same for phi. *)
Lemma c114_phi : forall p a b a' b' n, 0 < p -> (p | a - a') -> (p | b - b') -> 1 <= n <= 46340 ->
  exists r r' u, phi a b n = Ok r /\ phi a' b' n = Ok r' /\ p_rem r p = Ok u /\ p_rem r' p = Ok u.
Proof.
  intros p a b a' b' n Hp Ha Hb Hn. destruct (c50_phi a b n Hn) as (r & _ & _ & _ & E & _), (c50_phi a' b' n Hn) as (r' & _ & _ & _ & E' & _).
  assert (G : forall k, n - 1 <= k <= n + 1 -> exists g g', isU a b k g /\ isU a' b' k g' /\ feqm p g g').
  { intros k Hk. destruct (isU_ex a b k ltac:(lia)) as (g & Ug), (isU_ex a' b' k ltac:(lia)) as (g' & Ug'). exists g, g'. split; [exact Ug|]. split; [exact Ug'|]. exact (isU_mod p a b a' b' Ha Hb k ltac:(lia) ltac:(lia) g g' Ug Ug'). }
  destruct (G n ltac:(lia)) as (f & f' & U1 & U1' & F1), (G (n + 1) ltac:(lia)) as (g & g' & U2 & U2' & F2), (G (n - 1) ltac:(lia)) as (h & h' & U3 & U3' & F3).
  destruct (phi_uni a b n r f g h Hn E U1 U2 U3) as (S1 & _ & Q), (phi_uni a' b' n r' f' g' h' Hn E' U1' U2' U3') as (S2 & _ & Q').
  exists r, r', (redp p r). rewrite !p_rem_eq by assumption. repeat (split; [assumption || reflexivity|]). f_equal. symmetry. apply redp_ext; try assumption.
  rewrite (feq_feqm p _ _ Q), (feq_feqm p _ _ Q'). cbn [fpow]. rewrite F1, F2, F3. pose proof (dl_mod p a b a' b' Ha Hb) as D. destruct (Z.odd n); rewrite D; reflexivity.
Qed.
(** C114: the same for omega, modulo any odd p. *)
Lemma c114_omega : forall p a b a' b' n, 0 < p -> Z.odd p = true -> (p | a - a') -> (p | b - b') -> 1 <= n <= 37837 ->
  exists r r' u, omega a b n = Ok r /\ omega a' b' n = Ok r' /\ p_rem r p = Ok u /\ p_rem r' p = Ok u.
Proof.
  intros p a b a' b' n Hp Op Ha Hb Hn. destruct (Z.eq_dec n 1) as [-> | N1].
  { exists (fmono 1 0 1 0), (fmono 1 0 1 0), (redp p (fmono 1 0 1 0)). rewrite !c50_omega_one. rewrite p_rem_eq; [repeat split|exact Hp|]. cbn. repeat constructor; intros ? ? []. }
  assert (Hn' : 2 <= n <= 37837) by lia.
  destruct (c50_omega a b n Hn') as (r & _ & _ & _ & _ & E & _), (c50_omega a' b' n Hn') as (r' & _ & _ & _ & _ & E' & _).
  assert (G : forall k, n - 2 <= k <= n + 2 -> exists g g', isU a b k g /\ isU a' b' k g' /\ feqm p g g').
  { intros k Hk. destruct (isU_ex a b k ltac:(lia)) as (g & Ug), (isU_ex a' b' k ltac:(lia)) as (g' & Ug'). exists g, g'. split; [exact Ug|]. split; [exact Ug'|]. exact (isU_mod p a b a' b' Ha Hb k ltac:(lia) ltac:(lia) g g' Ug Ug'). }
  destruct (G (n + 2) ltac:(lia)) as (f1 & f1' & U1 & U1' & F1), (G (n - 1) ltac:(lia)) as (f2 & f2' & U2 & U2' & F2), (G (n - 2) ltac:(lia)) as (f3 & f3' & U3 & U3' & F3), (G (n + 1) ltac:(lia)) as (f4 & f4' & U4 & U4' & F4).
  destruct (omega_uni a b n r f1 f2 f3 f4 Hn' E U1 U2 U3 U4) as (S1 & w & Ow & Q & W), (omega_uni a' b' n r' f1' f2' f3' f4' Hn' E' U1' U2' U3' U4') as (S2 & w' & Ow' & Q' & W').
  exists r, r', (redp p r). rewrite !p_rem_eq by assumption. repeat (split; [assumption || reflexivity|]). f_equal. symmetry. apply redp_ext; try assumption.
  rewrite (feq_feqm p _ _ Q), (feq_feqm p _ _ Q').
  assert (D : feqm p (conv (fconst (if Z.odd n then 1 else 2)) w) (conv (fconst (if Z.odd n then 1 else 2)) w')).
  { rewrite (feq_feqm p _ _ W), (feq_feqm p _ _ W'). cbn [fpow]. rewrite F1, F2, F3, F4. reflexivity. }
  assert (DW : feqm p w w').
  { intros m. specialize (D m). rewrite !fconst_scale in D. destruct (Z.odd n); [replace (coef w m - coef w' m) with (1 * coef w m - 1 * coef w' m) by ring; exact D|].
    apply (Gauss p 2); [replace (2 * (coef w m - coef w' m)) with (2 * coef w m - 2 * coef w' m) by ring; exact D|]. apply Z.odd_spec in Op. destruct Op as (k & ->). apply bezout_rel_prime. apply (Bezout_intro _ _ _ 1 (- k)). ring. }
  destruct (Z.odd n); rewrite DW; reflexivity.
Qed.
Example c114_case : exists r r' u, psi 2 3 5 = Ok r /\ psi (-5) 10 5 = Ok r' /\ r <> r' /\ p_rem r 7 = Ok u /\ p_rem r' 7 = Ok u.
Proof.
  destruct (c114_psi 7 2 3 (-5) 10 5) as (r & r' & u & E & E' & F & F'); try lia; [exists 1; reflexivity|exists (-1); reflexivity|].
  exists r, r', u. split; [exact E|]. split; [exact E'|]. split; [|split; assumption]. intros ->. rewrite <- E in E'. vm_compute in E'. discriminate.
Qed.
Example c114_case2 : exists r r' u, omega 2 3 2 = Ok r /\ omega (-5) 10 2 = Ok r' /\ r <> r' /\ p_rem r 7 = Ok u /\ p_rem r' 7 = Ok u.
Proof.
  destruct (c114_omega 7 2 3 (-5) 10 2 ltac:(lia) eq_refl ltac:(exists 1; reflexivity) ltac:(exists (-1); reflexivity) ltac:(lia)) as (r & r' & u & E & E' & F & F').
  exists r, r', u. split; [exact E|]. split; [exact E'|]. split; [|split; assumption]. intros ->. rewrite <- E in E'. vm_compute in E'. discriminate.
Qed.

(** ** Weights *)
Section Weight.
Variables a b x t : Z.
Hypothesis Ht : t <> 0.
Notation u := (uv a b x). Notation u' := (uv (t ^ 4 * a) (t ^ 6 * b) (t ^ 2 * x)).
Lemma uw_odd n : 1 <= n -> n <= 65536 -> Z.odd n = true -> u' n = t ^ (n ^ 2 - 1) * u n.
Proof.
  intros H1 H2 O. pose proof (uv_weight a b x t n ltac:(lia) H2) as W. rewrite O in W. replace (n ^ 2 + 3) with (4 + (n ^ 2 - 1)) in W by ring. rewrite Z.pow_add_r in W by nia.
  apply (Z.mul_reg_l _ _ (t ^ 4)); [apply Z.pow_nonzero; lia|]. rewrite W. ring.
Qed.
Lemma uw_even n : 0 <= n -> n <= 65536 -> Z.odd n = false -> t ^ 4 * u' n = t ^ (n ^ 2) * u n.
Proof. intros H1 H2 O. pose proof (uv_weight a b x t n H1 H2) as W. rewrite O, Z.add_0_r in W. exact W. Qed.
End Weight.
Lemma fval_X x y : fval x y (fmono 1 1 0 0) = x.
Proof. unfold fval, fmono, mval. cbn [lin map fst snd mx my fold_right]. rewrite Z.pow_1_r, Z.pow_0_r. ring. Qed.
Lemma fval_Y x y : fval x y (fmono 1 0 1 0) = y.
Proof. unfold fval, fmono, mval. cbn [lin map fst snd mx my fold_right]. rewrite Z.pow_1_r, Z.pow_0_r. ring. Qed.
(** C115: psi(n) is isobaric of weight n^2 - 1: passing to the isomorphic curve (t^4 a, t^6 b) and the point (t^2 x, t^3 y)
    multiplies its value by t^(n^2-1). *)
Lemma c115_psi : forall a b x y t n, t <> 0 -> 1 <= n <= 65536 -> exists r r' v, psi a b n = Ok r /\ psi (t ^ 4 * a) (t ^ 6 * b) n = Ok r' /\
  eval_xy r x y = Ok v /\ eval_xy r' (t ^ 2 * x) (t ^ 3 * y) = Ok (t ^ (n ^ 2 - 1) * v).
Proof.
  intros a b x y t n Ht Hn. destruct (psi_Ok a b n ltac:(lia)) as (r & E & N), (psi_Ok (t ^ 4 * a) (t ^ 6 * b) n ltac:(lia)) as (r' & E' & N').
  exists r, r', (fval x y r). rewrite !eval_xy_spec by assumption. repeat (split; [assumption || reflexivity|]). f_equal.
  rewrite (uv_psi a b x y n r E ltac:(lia)), (uv_psi _ _ _ _ n r' E' ltac:(lia)). destruct (Z.odd n) eqn:O.
  - rewrite (uw_odd a b x t Ht) by (assumption || lia). ring.
  - pose proof (uw_even a b x t n ltac:(lia) ltac:(lia) O) as W. assert (2 <= n) by (destruct (Z.eq_dec n 1) as [-> |]; [discriminate|lia]).
    apply (Z.mul_reg_l _ _ (t ^ 1)); [apply Z.pow_nonzero; lia|]. transitivity (2 * y * (t ^ 4 * uv (t ^ 4 * a) (t ^ 6 * b) (t ^ 2 * x) n)); [ring|]. rewrite W. replace (n ^ 2) with (1 + (n ^ 2 - 1)) at 1 by ring. rewrite Z.pow_add_r by nia. ring.
Qed.
Lemma pw t e1 e2 : 0 <= e1 -> 0 <= e2 -> t ^ (e1 + e2) = t ^ e1 * t ^ e2.
Proof. intros. apply Z.pow_add_r; assumption. Qed.
Lemma phi_uval a b x y n r : 1 <= n <= 46340 -> phi a b n = Ok r -> nonneg_xy r /\
  fval x y r = (if Z.odd n then 1 else 4 * (x ^ 3 + a * x + b)) * (x * uv a b x n ^ 2) - (if Z.odd n then 4 * (x ^ 3 + a * x + b) else 1) * (uv a b x (n + 1) * uv a b x (n - 1)).
Proof.
  intros Hn E. destruct (isU_ex a b n ltac:(lia)) as (f & U1), (isU_ex a b (n + 1) ltac:(lia)) as (g & U2), (isU_ex a b (n - 1) ltac:(lia)) as (h & U3).
  destruct (phi_uni a b n r f g h Hn E U1 U2 U3) as (_ & O & Q). split; [apply only_nonneg, O|].
  rewrite (fval_only _ x y 0 O), (fval_feq x 0 _ _ Q), (uv_isU _ _ x _ _ U1), (uv_isU _ _ x _ _ U2), (uv_isU _ _ x _ _ U3).
  assert (O1 := proj1 U1). assert (O2 := proj1 U2). assert (O3 := proj1 U3). pose proof only_X. pose proof (only_dl a b). pose proof (only_const 1).
  rewrite fval_sub. destruct (Z.odd n); rewrite !vc by auto using only_conv, only_pow; rewrite v2, fval_dl, fval_fconst, fval_X by assumption; reflexivity.
Qed.
Lemma omega_uval a b x y n r : 2 <= n <= 37837 -> omega a b n = Ok r -> nonneg_xy r /\
  (if Z.odd n then 1 else 2) * fval x y r = (if Z.odd n then y else 1) * (uv a b x (n + 2) * uv a b x (n - 1) ^ 2 - uv a b x (n - 2) * uv a b x (n + 1) ^ 2).
Proof.
  intros Hn E. destruct (isU_ex a b (n + 2) ltac:(lia)) as (f1 & U1), (isU_ex a b (n - 1) ltac:(lia)) as (f2 & U2), (isU_ex a b (n - 2) ltac:(lia)) as (f3 & U3), (isU_ex a b (n + 1) ltac:(lia)) as (f4 & U4).
  destruct (omega_uni a b n r f1 f2 f3 f4 Hn E U1 U2 U3 U4) as (S1 & w & Ow & Q & W).
  assert (O1 := proj1 U1). assert (O2 := proj1 U2). assert (O3 := proj1 U3). assert (O4 := proj1 U4).
  split. { destruct (c50_omega a b n Hn) as (r' & _ & _ & _ & _ & E' & _ & _ & _ & _ & _ & K & _). assert (r' = r) as -> by congruence. intros m c I. apply K in I. destruct (Z.odd n); intuition lia. }
  rewrite (uv_isU _ _ x _ _ U1), (uv_isU _ _ x _ _ U2), (uv_isU _ _ x _ _ U3), (uv_isU _ _ x _ _ U4).
  rewrite (fval_feq x y _ _ Q). apply (fval_feq x 0) in W. rewrite fval_sub, !vc, !v2 in W by auto using only_const, only_pow. rewrite fval_fconst in W. rewrite <- W. destruct (Z.odd n).
  - rewrite fval_conv; [|intros m c [H|[]]; injection H; intros; subst; cbn; lia|apply only_nonneg, Ow]. rewrite fval_Y, (fval_only _ x y 0 Ow). ring.
  - rewrite (fval_only _ x y 0 Ow). ring.
Qed.
(** C115: phi(n) is isobaric of weight 2 n^2. *)
Lemma c115_phi : forall a b x y t n, t <> 0 -> 1 <= n <= 46340 -> exists r r' v, phi a b n = Ok r /\ phi (t ^ 4 * a) (t ^ 6 * b) n = Ok r' /\
  eval_xy r x y = Ok v /\ eval_xy r' (t ^ 2 * x) (t ^ 3 * y) = Ok (t ^ (2 * n ^ 2) * v).
Proof.
  intros a b x y t n Ht Hn. destruct (c50_phi a b n Hn) as (r & _ & _ & _ & E & _), (c50_phi (t ^ 4 * a) (t ^ 6 * b) n Hn) as (r' & _ & _ & _ & E' & _).
  destruct (phi_uval a b x y n r Hn E) as (N & F), (phi_uval _ _ (t ^ 2 * x) (t ^ 3 * y) n r' Hn E') as (N' & F').
  exists r, r', (fval x y r). rewrite !eval_xy_spec by assumption. repeat (split; [assumption || reflexivity|]). f_equal. rewrite F, F'. clear F F'.
  destruct (Z.odd n) eqn:O.
  - assert (O1 : Z.odd (n + 1) = false) by (rewrite Z.odd_add, O; reflexivity). assert (O2 : Z.odd (n - 1) = false) by (rewrite Z.odd_sub, O; reflexivity).
    rewrite (uw_odd a b x t Ht n) by (assumption || lia). pose proof (uw_even a b x t (n + 1) ltac:(lia) ltac:(lia) O1) as W1. pose proof (uw_even a b x t (n - 1) ltac:(lia) ltac:(lia) O2) as W2.
    set (g := uv _ _ _ (n + 1)) in *. set (h := uv _ _ _ (n - 1)) in *. set (g0 := uv a b x (n + 1)) in *. set (h0 := uv a b x (n - 1)) in *. set (f0 := uv a b x n).
    apply (Z.mul_reg_l _ _ (t ^ 2)); [apply Z.pow_nonzero; lia|].
    transitivity (t ^ 4 * x * (t ^ (n ^ 2 - 1)) ^ 2 * f0 ^ 2 - 4 * (x ^ 3 + a * x + b) * (t ^ 4 * g) * (t ^ 4 * h)); [ring|]. rewrite W1, W2. clear W1 W2.
    transitivity (x * t ^ (4 + 2 * (n ^ 2 - 1)) * f0 ^ 2 - 4 * (x ^ 3 + a * x + b) * (t ^ ((n + 1) ^ 2 + (n - 1) ^ 2)) * g0 * h0).
    { rewrite (pw t 4), (pw t ((n + 1) ^ 2)), (Z.mul_comm 2 (n ^ 2 - 1)), Z.pow_mul_r by nia. ring. }
    replace (4 + 2 * (n ^ 2 - 1)) with (2 + 2 * n ^ 2) by ring. replace ((n + 1) ^ 2 + (n - 1) ^ 2) with (2 + 2 * n ^ 2) by ring. rewrite (pw t 2) by nia. ring.
  - assert (O1 : Z.odd (n + 1) = true) by (rewrite Z.odd_add, O; reflexivity). assert (O2 : Z.odd (n - 1) = true) by (rewrite Z.odd_sub, O; reflexivity).
    assert (2 <= n) by (destruct (Z.eq_dec n 1) as [-> |]; [discriminate|lia]).
    rewrite (uw_odd a b x t Ht (n + 1)), (uw_odd a b x t Ht (n - 1)) by (assumption || lia). pose proof (uw_even a b x t n ltac:(lia) ltac:(lia) O) as W1.
    set (f := uv _ _ _ n) in *. set (g0 := uv a b x (n + 1)) in *. set (h0 := uv a b x (n - 1)) in *. set (f0 := uv a b x n) in *.
    transitivity (4 * (x ^ 3 + a * x + b) * x * (t ^ 4 * f) ^ 2 - t ^ ((n + 1) ^ 2 - 1) * t ^ ((n - 1) ^ 2 - 1) * g0 * h0); [ring|]. rewrite W1, <- pw by nia.
    replace ((n + 1) ^ 2 - 1 + ((n - 1) ^ 2 - 1)) with (2 * n ^ 2) by ring. replace (t ^ (2 * n ^ 2)) with ((t ^ (n ^ 2)) ^ 2) by (rewrite <- Z.pow_mul_r by nia; f_equal; ring). ring.
Qed.
(** C115: omega(n) is isobaric of weight 3 n^2. *)
Lemma c115_omega : forall a b x y t n, t <> 0 -> 1 <= n <= 37837 -> exists r r' v, omega a b n = Ok r /\ omega (t ^ 4 * a) (t ^ 6 * b) n = Ok r' /\
  eval_xy r x y = Ok v /\ eval_xy r' (t ^ 2 * x) (t ^ 3 * y) = Ok (t ^ (3 * n ^ 2) * v).
Proof.
  intros a b x y t n Ht Hn. destruct (Z.eq_dec n 1) as [-> | N1].
  { exists (fmono 1 0 1 0), (fmono 1 0 1 0), y. rewrite !c50_omega_one. assert (N : nonneg_xy (fmono 1 0 1 0)) by (intros m c [H|[]]; injection H; intros; subst; cbn; lia).
    rewrite !eval_xy_spec by exact N. rewrite !fval_Y. repeat (split; [reflexivity|]). reflexivity. }
  assert (Hn' : 2 <= n <= 37837) by lia.
  destruct (c50_omega a b n Hn') as (r & _ & _ & _ & _ & E & _), (c50_omega (t ^ 4 * a) (t ^ 6 * b) n Hn') as (r' & _ & _ & _ & _ & E' & _).
  destruct (omega_uval a b x y n r Hn' E) as (N & F), (omega_uval _ _ (t ^ 2 * x) (t ^ 3 * y) n r' Hn' E') as (N' & F').
  exists r, r', (fval x y r). rewrite !eval_xy_spec by assumption. repeat (split; [assumption || reflexivity|]). f_equal.
  destruct (Z.odd n) eqn:O.
  - assert (O1 : Z.odd (n + 2) = true) by (rewrite Z.odd_add, O; reflexivity). assert (O2 : Z.odd (n - 2) = true) by (rewrite Z.odd_sub, O; reflexivity).
    assert (O3 : Z.odd (n + 1) = false) by (rewrite Z.odd_add, O; reflexivity). assert (O4 : Z.odd (n - 1) = false) by (rewrite Z.odd_sub, O; reflexivity).
    assert (3 <= n) by (destruct (Z.eq_dec n 2) as [-> |]; [discriminate|lia]).
    rewrite (uw_odd a b x t Ht (n + 2)), (uw_odd a b x t Ht (n - 2)) in F' by (assumption || lia).
    pose proof (uw_even a b x t (n + 1) ltac:(lia) ltac:(lia) O3) as W1. pose proof (uw_even a b x t (n - 1) ltac:(lia) ltac:(lia) O4) as W2.
    set (g := uv _ _ (t ^ 2 * x) (n + 1)) in *. set (h := uv _ _ (t ^ 2 * x) (n - 1)) in *. set (g0 := uv a b x (n + 1)) in *. set (h0 := uv a b x (n - 1)) in *. set (e0 := uv a b x (n + 2)) in *. set (f0 := uv a b x (n - 2)) in *.
    apply (Z.mul_reg_l _ _ (t ^ 8)); [apply Z.pow_nonzero; [exact Ht|discriminate]|]. rewrite Z.mul_1_l in F, F'. rewrite F, F'. clear F F' N N'.
    transitivity (t ^ 3 * y * (t ^ ((n + 2) ^ 2 - 1) * e0 * (t ^ 4 * h) ^ 2 - t ^ ((n - 2) ^ 2 - 1) * f0 * (t ^ 4 * g) ^ 2)); [ring|]. rewrite W1, W2. clear W1 W2.
    transitivity (y * (t ^ (3 + ((n + 2) ^ 2 - 1) + 2 * (n - 1) ^ 2) * e0 * h0 ^ 2 - t ^ (3 + ((n - 2) ^ 2 - 1) + 2 * (n + 1) ^ 2) * f0 * g0 ^ 2)).
    { rewrite !(pw t) by nia. rewrite (Z.mul_comm 2 ((n - 1) ^ 2)), (Z.mul_comm 2 ((n + 1) ^ 2)), !(Z.pow_mul_r t) by nia. ring. }
    replace (3 + ((n + 2) ^ 2 - 1) + 2 * (n - 1) ^ 2) with (8 + 3 * n ^ 2) by ring. replace (3 + ((n - 2) ^ 2 - 1) + 2 * (n + 1) ^ 2) with (8 + 3 * n ^ 2) by ring. rewrite (pw t 8) by nia. ring.
  - assert (O1 : Z.odd (n + 2) = false) by (rewrite Z.odd_add, O; reflexivity). assert (O2 : Z.odd (n - 2) = false) by (rewrite Z.odd_sub, O; reflexivity).
    assert (O3 : Z.odd (n + 1) = true) by (rewrite Z.odd_add, O; reflexivity). assert (O4 : Z.odd (n - 1) = true) by (rewrite Z.odd_sub, O; reflexivity).
    rewrite (uw_odd a b x t Ht (n + 1)), (uw_odd a b x t Ht (n - 1)) in F' by (assumption || lia).
    pose proof (uw_even a b x t (n + 2) ltac:(lia) ltac:(lia) O1) as W1. pose proof (uw_even a b x t (n - 2) ltac:(lia) ltac:(lia) O2) as W2.
    set (g0 := uv a b x (n + 1)) in *. set (h0 := uv a b x (n - 1)) in *. set (e := uv _ _ (t ^ 2 * x) (n + 2)) in *. set (f := uv _ _ (t ^ 2 * x) (n - 2)) in *. set (e0 := uv a b x (n + 2)) in *. set (f0 := uv a b x (n - 2)) in *.
    apply (Z.mul_reg_l _ _ (2 * t ^ 4)); [apply Z.neq_mul_0; split; [discriminate|apply Z.pow_nonzero; [exact Ht|discriminate]]|]. rewrite Z.mul_1_l in F, F'.
    transitivity (t ^ 4 * (2 * fval (t ^ 2 * x) (t ^ 3 * y) r')); [ring|]. transitivity (t ^ 4 * t ^ (3 * n ^ 2) * (2 * fval x y r)); [|ring]. rewrite F, F'. clear F F' N N'.
    transitivity ((t ^ 4 * e) * (t ^ ((n - 1) ^ 2 - 1) * h0) ^ 2 - (t ^ 4 * f) * (t ^ ((n + 1) ^ 2 - 1) * g0) ^ 2); [ring|]. rewrite W1, W2. clear W1 W2.
    transitivity (t ^ ((n + 2) ^ 2 + 2 * ((n - 1) ^ 2 - 1)) * e0 * h0 ^ 2 - t ^ ((n - 2) ^ 2 + 2 * ((n + 1) ^ 2 - 1)) * f0 * g0 ^ 2).
    { rewrite !(pw t) by nia. rewrite (Z.mul_comm 2 ((n - 1) ^ 2 - 1)), (Z.mul_comm 2 ((n + 1) ^ 2 - 1)), !(Z.pow_mul_r t) by nia. ring. }
    replace ((n + 2) ^ 2 + 2 * ((n - 1) ^ 2 - 1)) with (4 + 3 * n ^ 2) by ring. replace ((n - 2) ^ 2 + 2 * ((n + 1) ^ 2 - 1)) with (4 + 3 * n ^ 2) by ring. rewrite (pw t 4) by nia. ring.
Qed.
Example c115_case : exists r r', psi 2 3 3 = Ok r /\ psi 32 192 3 = Ok r' /\ eval_xy r 5 0 = Ok 2351 /\ eval_xy r' 20 0 = Ok (2 ^ 8 * 2351).
Proof.
  destruct (c115_psi 2 3 5 0 2 3 ltac:(lia) ltac:(lia)) as (r & r' & v & E & E' & F & F'). exists r, r'. split; [exact E|]. split; [exact E'|].
  assert (v = 2351) as <-; [|split; [exact F|exact F']]. pose proof (c48_psi_base 2 3) as (_ & _ & _ & (s & Es & Q) & _). rewrite E in Es. assert (s = r) as -> by congruence.
  destruct (psi_Ok 2 3 3 ltac:(lia)) as (r0 & E0 & N0). assert (r0 = r) as -> by congruence. rewrite eval_xy_spec in F by exact N0. rewrite (fval_feq 5 0 _ _ Q) in F. assert (Ok v = Ok 2351) by (rewrite <- F; reflexivity). congruence.
Qed.
