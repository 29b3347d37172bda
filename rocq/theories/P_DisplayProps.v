(** Proofs of C72-C74, C79: Display, and Monomial::eval_q. *)
From Coq Require Import String Ascii ZifyBool.
From Verif Require Import Prelude M_Bigint M_Variable M_Term M_Poly M_Curve M_Display Spec SpecDisplay P_Bigint P_Variable P_Poly P_Display.
Local Open Scope string_scope.
Local Open Scope Z_scope.

Lemma no_zero_rev l : no_zero l -> no_zero (rev l).
Proof. intros H m c I. apply (H m c). apply in_rev. exact I. Qed.
Lemma toks_nonnil l first : l <> [] -> toks l first <> [].
Proof.
  destruct l as [|e l]; [congruence|]. intros _ E. cbn [toks] in E. apply app_eq_nil in E as [E _]. apply app_eq_nil in E as [_ E]. exact (btoks_nonnil _ E).
Qed.
Lemma poly_text p : no_zero p -> p <> [] -> poly_to_string p ++ " " = spaced (toks (rev p) true).
Proof.
  intros Hz Hn. unfold poly_to_string, is_zero. destruct p as [|e p]; [congruence|]. cbn [length Nat.eqb].
  rewrite body_text by (apply no_zero_rev; exact Hz). apply trim_spaced; [|intros; eapply toks_good; eassumption].
  apply toks_nonnil. intros E. apply (f_equal (@length _)) in E. rewrite rev_length in E. discriminate.
Qed.

Lemma concat_spaced ts : ts <> [] -> String.concat " " ts ++ " " = spaced ts.
Proof.
  induction ts as [|t ts IH]; [congruence|]. intros _. destruct ts as [|u ts]; [reflexivity|].
  change (String.concat " " (t :: u :: ts)) with (t ++ " " ++ String.concat " " (u :: ts)). rewrite !app_assoc_s, IH by discriminate. reflexivity.
Qed.
Lemma app_space_inj a b : a ++ " " = b ++ " " -> a = b.
Proof.
  revert b. induction a as [|c a IH]; intros [|d b] E; cbn in E.
  - reflexivity.
  - injection E as _ E. destruct b; discriminate.
  - injection E as _ E. destruct a; discriminate.
  - injection E as -> E. f_equal. apply IH, E.
Qed.
(** C72: the text of a nonzero polynomial in normal form: its words, from the highest term to the lowest, joined by single spaces. *)
Lemma c72_text : forall p : poly, no_zero p -> p <> [] -> poly_to_string p = String.concat " " (toks (rev p) true).
Proof.
  intros p Hz Hn. apply app_space_inj. rewrite poly_text by assumption. symmetry. apply concat_spaced, toks_nonnil.
  intros E. apply (f_equal (@length _)) in E. rewrite rev_length in E. destruct p; [congruence|discriminate].
Qed.
(** C72: the text of a term with nonzero coefficient. *)
Lemma c72_term_text : forall c m, c <> 0 -> term_to_string (mkTerm c m) = String.concat " " (toks [(m, c)] true).
Proof.
  intros c m Hc. apply app_space_inj. rewrite term_text by exact Hc. rewrite concat_spaced by (apply toks_nonnil; discriminate).
  cbn [toks snd]. rewrite app_nil_r. reflexivity.
Qed.
(** C72: a nonzero polynomial in normal form never prints as "0". *)
Lemma c72_zero : forall p : poly, no_zero p -> (poly_to_string p = "0" <-> p = []).
Proof.
  intros p Hz. split; [|intros ->; reflexivity]. intros E. destruct p as [|e p]; [reflexivity|]. exfalso.
  assert (T : poly_to_string (e :: p) ++ " " = spaced (toks (rev (e :: p)) true)) by (apply poly_text; [exact Hz|discriminate]).
  rewrite E in T. change ("0" ++ " ") with (spaced ["0"]) in T. apply spaced_inj in T;
    [|intros t [<-|[]]; split; cbn; congruence|intros; eapply toks_good; eassumption].
  assert (Hr := no_zero_rev _ Hz). destruct (rev (e :: p)) as [|[m c] l] eqn:R; [discriminate|]. cbn [toks snd] in T.
  assert (Hc : c <> 0) by (apply (Hr m); left; reflexivity).
  assert (I : In (z_to_string 0) (toks ((m, c) :: l) true)) by (cbn [toks snd]; rewrite <- T; left; reflexivity).
  clear Hr. unfold stok in T. destruct (c <? 0) eqn:S; [discriminate|]. cbn [List.app] in T.
  assert (B : btoks (m, c) = ["0"]). { destruct (btoks (m, c)) as [|t ts] eqn:B; [exfalso; exact (btoks_nonnil _ B)|]. cbn in T. injection T as -> T. symmetry in T. apply app_eq_nil in T as [-> _]. reflexivity. }
  change ["0"] with (btoks (mone, 0)) in B. apply btoks_inj in B. lia.
Qed.
(** C72: two polynomials in normal form with the same text are equal. *)
Lemma c72_injective : forall p q : poly, no_zero p -> no_zero q -> poly_to_string p = poly_to_string q -> p = q.
Proof.
  intros p q Hp Hq E. destruct (list_eq_dec (fun a b : mono * Z => ltac:(repeat decide equality)) p []) as [->|Np].
  - symmetry. apply c72_zero; [exact Hq|]. rewrite <- E. reflexivity.
  - destruct (list_eq_dec (fun a b : mono * Z => ltac:(repeat decide equality)) q []) as [->|Nq].
    + apply c72_zero; [exact Hp|]. rewrite E. reflexivity.
    + assert (T : spaced (toks (rev p) true) = spaced (toks (rev q) true)) by (rewrite <- !poly_text by assumption; rewrite E; reflexivity).
      apply spaced_inj in T; [|intros; eapply toks_good; eassumption|intros; eapply toks_good; eassumption].
      apply toks_inj in T; [|apply no_zero_rev; assumption|apply no_zero_rev; assumption].
      rewrite <- (rev_involutive p), <- (rev_involutive q), T. reflexivity.
Qed.
(** C72: the same for single terms with nonzero coefficient. *)
Lemma c72_term : forall s t : term, tc s <> 0 -> tc t <> 0 -> term_to_string s = term_to_string t -> s = t.
Proof.
  intros [c m] [c' m'] H H' E. cbn [tc] in *. assert (T : term_to_string (mkTerm c m) ++ " " = term_to_string (mkTerm c' m') ++ " ") by (rewrite E; reflexivity).
  rewrite !term_text in T by assumption.
  assert (G : forall d k t, In t ((if d <? 0 then ["-"] else []) ++ btoks (k, d))%list -> good t).
  { intros d k t. rewrite in_app_iff. intros [I|I]; [|eapply btoks_good; exact I]. destruct (d <? 0); cbn in I; [|destruct I]. destruct I as [<-|[]]. split; cbn; congruence. }
  apply spaced_inj in T; [|intros t I; exact (G _ _ _ I)|intros t I; exact (G _ _ _ I)].
  assert (X : [(m, c)] = [(m', c')]).
  { apply toks_inj with (first := true).
    - intros k d [I|[]]. injection I as _ <-. exact H.
    - intros k d [I|[]]. injection I as _ <-. exact H'.
    - cbn [toks snd]. rewrite !app_nil_r. unfold stok. exact T. }
  injection X as -> ->. reflexivity.
Qed.
Example c72_case : let p := [(mkMono 0 0 2 (Some (1, 2)), -1); (mkMono 1 3 (-1) None, 12); (mkMono 2 0 0 None, 1)] in
  no_zero p /\ poly_to_string p = "x^2 + 12 x y^3 q^-1 - q^2 c_1_2" /\ poly_to_string [(mone, 12)] = "12".
Proof. split; [|split; reflexivity]. intros m c [I|[I|[I|[]]]]; injection I as _ <-; discriminate. Qed.

(** ** Explicit zero coefficients *)
Definition drop_zeros (l : list (mono * Z)) : list (mono * Z) := filter (fun e => negb (snd e =? 0)) l.
Lemma drop_no_zero l : no_zero (drop_zeros l).
Proof. intros m c I. apply filter_In in I as [_ I]. cbn in I. lia. Qed.
Lemma body_zeros_false l : poly_body l false = poly_body (drop_zeros l) false.
Proof.
  induction l as [|[m c] l IH]; [reflexivity|]. unfold drop_zeros. cbn [filter snd]. destruct (Z.eqb_spec c 0) as [->|N]; cbn [negb].
  - cbn [poly_body]. cbn [Z.eqb Z.ltb Z.compare andb negb String.append]. exact IH.
  - cbn [poly_body]. fold (drop_zeros l). rewrite IH. reflexivity.
Qed.
Lemma drop_zeros_rev l : drop_zeros (rev l) = rev (drop_zeros l).
Proof.
  induction l as [|e l IH]; [reflexivity|]. cbn [rev]. unfold drop_zeros in *. rewrite filter_app, IH. cbn [filter]. destruct (negb _); cbn [rev]; [reflexivity|]. rewrite app_nil_r. reflexivity.
Qed.
Lemma toks_first_false l : no_zero l -> l <> [] -> toks l false = ((if 0 <? snd (hd (mone, 0) l) then ["+"] else []) ++ toks l true)%list.
Proof.
  destruct l as [|[m c] l]; [congruence|]. intros Hz _. assert (c <> 0) by (apply (Hz m); left; reflexivity). cbn [toks hd snd]. unfold stok.
  destruct (Z.ltb_spec c 0), (Z.ltb_spec 0 c); try lia; reflexivity.
Qed.

(** C73 is false: with the terms t = x and s = 1, the library's t - t has only zero coefficients and prints as the empty string,
    and (t - t) + s prints as "+ 1". *)
Lemma c73_zero_text_refuted : exists s t : term, tc s <> 0 /\ tc t <> 0 /\
  (forall m c, In (m, c) (term_sub t t) -> c = 0) /\ poly_to_string (term_sub t t) = "" /\
  poly_to_string (p_add_t (term_sub t t) s) = "+ 1".
Proof.
  exists (mkTerm 1 mone), (mkTerm 1 (mkMono 1 0 0 None)). split; [discriminate|]. split; [discriminate|]. split; [|split; reflexivity].
  intros m c [E|[]]. injection E as _ <-. reflexivity.
Qed.
(** C73, what holds: in normal form the text never starts with '+' and is "0" exactly for the zero polynomial; an explicit zero anywhere but
    in the highest position does not show; with a zero in the highest position the text is that of the normal form, except that
    a positive leading coefficient is preceded by "+ ", and that a value of zero prints as the empty string. *)
Lemma c73_zero_text_partial : forall p : poly,
  (no_zero p -> (poly_to_string p = "0" <-> p = []) /\ forall s, poly_to_string p <> String "+" s) /\
  (forall l m c, p = (l ++ [(m, c)])%list -> c <> 0 -> poly_to_string p = poly_to_string (drop_zeros p)) /\
  (forall l m, p = (l ++ [(m, 0)])%list -> poly_to_string p =
     if Nat.eqb (length (drop_zeros p)) 0 then ""
     else (if 0 <? snd (last (drop_zeros p) (mone, 0)) then "+ " else "") ++ poly_to_string (drop_zeros p)).
Proof.
  intros p. split; [|split].
  - intros Hz. split; [apply c72_zero; exact Hz|]. intros s E. destruct p as [|e p]; [discriminate|].
    assert (T : poly_to_string (e :: p) ++ " " = spaced (toks (rev (e :: p)) true)) by (apply poly_text; [exact Hz|discriminate]).
    rewrite E in T. assert (Hr := no_zero_rev _ Hz). destruct (rev (e :: p)) as [|[m c] l] eqn:R.
    { apply (f_equal (@length _)) in R. rewrite rev_length in R. discriminate. }
    cbn [toks snd] in T. assert (c <> 0) by (apply (Hr m); left; reflexivity). unfold stok in T. destruct (c <? 0) eqn:S; [discriminate|].
    cbn [List.app] in T. destruct (btoks (m, c)) as [|t ts] eqn:B; [exact (btoks_nonnil _ B)|].
    assert (It : In t (btoks (m, c))) by (rewrite B; left; reflexivity).
    assert (Gt : good t) by (eapply btoks_good; exact It). cbn [List.app spaced fold_right] in T.
    destruct t as [|d t]; [destruct Gt; congruence|]. cbn in T. injection T as <- _.
    unfold btoks in It. apply in_app_or in It as [It|It].
    + unfold ntok in It. destruct (_ && _)%bool; [destruct It|]. destruct It as [It|[]]. destruct (z_head_nonneg (Z.abs (snd (m, c)))) as (d & r & E1 & E2 & E3); [lia|].
      change decimal with z_to_string in It. rewrite E1 in It. injection It as -> _. discriminate.
    + apply mtoks_cls in It as [It _]. discriminate.
  - intros l m c -> Hc. assert (D : drop_zeros (l ++ [(m, c)]) = (drop_zeros l ++ [(m, c)])%list).
    { unfold drop_zeros. rewrite filter_app. cbn [filter snd]. replace (negb (c =? 0)) with true by lia. reflexivity. }
    rewrite D. unfold poly_to_string, is_zero. rewrite !app_length. cbn [length]. rewrite !Nat.add_1_r. cbn [Nat.eqb]. f_equal.
    rewrite !rev_app_distr. cbn [rev List.app poly_body]. do 2 f_equal. rewrite body_zeros_false, drop_zeros_rev. reflexivity.
  - intros l m ->. assert (D : drop_zeros (l ++ [(m, 0)]) = drop_zeros l).
    { unfold drop_zeros. rewrite filter_app. cbn. apply app_nil_r. }
    rewrite D. unfold poly_to_string at 1, is_zero. rewrite app_length. cbn [length]. rewrite Nat.add_1_r. cbn [Nat.eqb].
    rewrite rev_app_distr. cbn [rev List.app poly_body Z.eqb Z.ltb Z.compare andb negb String.append].
    rewrite body_zeros_false, drop_zeros_rev.
    assert (Hz := drop_no_zero l). set (d := drop_zeros l) in *. clearbody d. destruct d as [|e d']; [reflexivity|]. set (d := e :: d') in *.
    assert (Nd : d <> []) by discriminate. change (Nat.eqb (length d) 0) with false. cbv iota.
    assert (Nr : rev d <> []). { intros E. apply (f_equal (@length _)) in E. rewrite rev_length in E. discriminate. }
    rewrite body_text by (apply no_zero_rev; exact Hz).
    rewrite toks_first_false by (try apply no_zero_rev; assumption).
    replace (hd (mone, 0) (rev d)) with (last d (mone, 0)).
    2:{ destruct (exists_last Nd) as (u & v & ->). rewrite last_last, rev_app_distr. reflexivity. }
    rewrite spaced_app. rewrite <- (poly_text d Hz Nd). rewrite <- app_assoc_s, trim_snoc_space.
    assert (TT : trim_end (poly_to_string d) = poly_to_string d).
    { rewrite <- trim_snoc_space, (poly_text d Hz Nd). unfold poly_to_string, is_zero. change (Nat.eqb (length d) 0) with false. cbv iota. rewrite body_text by (apply no_zero_rev; exact Hz). reflexivity. }
    destruct (0 <? _); [|exact TT]. cbn [spaced fold_right].
    assert (G : poly_to_string d <> ""). { intros E. assert (T := poly_text d Hz Nd). rewrite E in T.
       destruct (toks (rev d) true) as [|t ts] eqn:B; [exact (toks_nonnil _ true Nr B)|].
       assert (Gt : good t) by (apply (toks_good (rev d) true); rewrite B; left; reflexivity). destruct Gt as [G1 G2]. cbn [spaced fold_right] in T.
       destruct t as [|x t]; [congruence|]. cbn in T. injection T as <- _. cbn in G2. discriminate. }
    change ("+" ++ " " ++ "") with "+ ". generalize TT G. generalize (poly_to_string d). intros s E N. cbn [String.append trim_end]. rewrite E. destruct s; [congruence|]. reflexivity.
Qed.
Example c73_case : poly_to_string [(mone, 1); (mkMono 1 0 0 None, 0); (mkMono 2 0 0 None, -3)] = "- 3 x^2 + 1" /\
  poly_to_string [(mone, 1); (mkMono 1 0 0 None, -2); (mkMono 2 0 0 None, 0)] = "- 2 x + 1".
Proof. split; reflexivity. Qed.

(** ** Monomial::eval_q *)
Lemma halv_step e : 1 < e -> halvings e = S (halvings (e / 2)).
Proof. intros H. destruct (halvings_step e H) as (k & E & ->). rewrite E. rewrite Z.quot_div_nonneg by lia. reflexivity. Qed.
Lemma pow_half b e : 1 < e -> b ^ e = (if Z.odd e then b else 1) * (b * b) ^ (e / 2).
Proof.
  intros H. assert (0 <= e / 2) by (apply Z.div_pos; lia). rewrite <- Z.pow_2_r, <- Z.pow_mul_r by lia.
  assert (E := Z.div_mod e 2 ltac:(lia)). rewrite Zmod_odd in E. destruct (Z.odd e).
  - rewrite E at 1. rewrite Z.pow_add_r, Z.pow_1_r by lia. ring.
  - rewrite E at 1. rewrite Z.add_0_r. ring.
Qed.
Lemma i32_fits z : i32_range z -> i32 z = Ok z.
Proof. intros H. unfold i32, in_i32, i32_range in *. replace ((i32_min <=? z) && (z <=? i32_max))%bool with true by lia. reflexivity. Qed.
Lemma i32_Ok_inv z v : i32 z = Ok v -> v = z /\ i32_range z.
Proof. unfold i32, in_i32, i32_range. destruct (_ && _)%bool eqn:E; [|discriminate]. intros H. injection H as <-. split; [reflexivity|lia]. Qed.
Lemma i32_cases z : i32 z = Ok z \/ i32 z = Panic.
Proof. unfold i32. destruct (in_i32 z); auto. Qed.
Lemma pow_loop_sound fuel : forall e b a, 1 <= e -> (halvings e <= fuel)%nat ->
  i32_pow_loop fuel e b a = Panic \/ (i32_pow_loop fuel e b a = Ok (a * b ^ e) /\ i32_range (a * b ^ e)).
Proof.
  induction fuel as [|f IH]; intros e b a He Hf; [unfold halvings in Hf; lia|]. cbn [i32_pow_loop]. destruct (Z.ltb_spec 1 e).
  - rewrite (pow_half b e) by lia. rewrite halv_step in Hf by lia.
    assert (H2 : 1 <= e / 2) by (apply Z.div_le_lower_bound; lia).
    destruct (Z.odd e).
    + destruct (i32_cases (a * b)) as [E|E]; rewrite E; cbn [bind]; [|left; reflexivity].
      destruct (i32_cases (b * b)) as [E'|E']; rewrite E'; cbn [bind]; [|left; reflexivity].
      rewrite Z.mul_assoc. apply IH; lia.
    + cbn [bind]. destruct (i32_cases (b * b)) as [E'|E']; rewrite E'; cbn [bind]; [|left; reflexivity].
      rewrite Z.mul_1_l. apply IH; lia.
  - replace e with 1 by lia. rewrite Z.pow_1_r. destruct (i32_cases (a * b)) as [E|E]; rewrite E; [|left; reflexivity].
    right. split; [reflexivity|]. apply i32_Ok_inv in E. tauto.
Qed.
Lemma pow_ge b n : 2 <= Z.abs b -> 1 <= n -> Z.abs b <= Z.abs (b ^ n).
Proof.
  intros H Hn. replace n with (1 + (n - 1)) by lia. rewrite Z.pow_add_r, Z.pow_1_r, Z.abs_mul, Z.abs_pow by lia.
  assert (0 < Z.abs b ^ (n - 1)) by (apply Z.pow_pos_nonneg; lia). nia.
Qed.
Lemma pow_loop_complete fuel : forall e b a, 1 <= e -> (halvings e <= fuel)%nat -> a <> 0 -> 2 <= Z.abs b -> i32_range (a * b ^ e) ->
  i32_pow_loop fuel e b a = Ok (a * b ^ e).
Proof.
  induction fuel as [|f IH]; intros e b a He Hf Ha Hb HR; [unfold halvings in Hf; lia|]. cbn [i32_pow_loop]. destruct (Z.ltb_spec 1 e).
  - rewrite (pow_half b e) in * by lia. rewrite halv_step in Hf by lia.
    assert (H2 : 1 <= e / 2) by (apply Z.div_le_lower_bound; lia).
    assert (G : Z.abs (b * b) <= Z.abs ((b * b) ^ (e / 2))) by (apply pow_ge; [rewrite Z.abs_mul; nia|lia]).
    unfold i32_range, i32_min, i32_max in HR.
    assert (BB : i32_range (b * b)).
    { unfold i32_range, i32_min, i32_max. assert (Z.abs (b * b) <= 2147483648).
      { assert (1 <= Z.abs (a * (if Z.odd e then b else 1))) by (destruct (Z.odd e); nia).
        assert (Z.abs (a * ((if Z.odd e then b else 1) * (b * b) ^ (e / 2))) <= 2147483648) by lia.
        rewrite Z.mul_assoc, Z.abs_mul in H1. nia. }
      assert (b * b <> 2147483648). { intros E. assert (46340 < Z.abs b < 46341) by nia. lia. } nia. }
    destruct (Z.odd e).
    + assert (AB : i32_range (a * b)).
      { unfold i32_range, i32_min, i32_max. rewrite Z.mul_assoc in HR. assert (Z.abs (a * b * (b * b) ^ (e / 2)) <= 2147483648) by lia.
        rewrite Z.abs_mul in H0. assert (Z.abs (a * b) * 4 <= 2147483648); [|lia].
        assert (4 <= Z.abs ((b * b) ^ (e / 2))) by nia. nia. }
      rewrite (i32_fits _ AB). cbn [bind]. rewrite (i32_fits _ BB). cbn [bind]. rewrite Z.mul_assoc in *. apply IH; [lia|lia|nia|rewrite Z.abs_mul; nia|].
      unfold i32_range, i32_min, i32_max. lia.
    + cbn [bind]. rewrite (i32_fits _ BB). cbn [bind]. rewrite Z.mul_1_l in *. apply IH; [lia|lia|nia|rewrite Z.abs_mul; nia|].
      unfold i32_range, i32_min, i32_max. lia.
  - replace e with 1 in * by lia. rewrite Z.pow_1_r in *. apply i32_fits, HR.
Qed.
Lemma pow_loop_small fuel : forall e b a, 1 <= e -> (halvings e <= fuel)%nat -> Z.abs a <= 1 -> Z.abs b <= 1 ->
  i32_pow_loop fuel e b a = Ok (a * b ^ e).
Proof.
  induction fuel as [|f IH]; intros e b a He Hf Ha Hb; [unfold halvings in Hf; lia|]. cbn [i32_pow_loop]. destruct (Z.ltb_spec 1 e).
  - rewrite (pow_half b e) by lia. rewrite halv_step in Hf by lia.
    assert (H2 : 1 <= e / 2) by (apply Z.div_le_lower_bound; lia).
    assert (R : forall u v, Z.abs u <= 1 -> Z.abs v <= 1 -> i32_range (u * v)) by (intros; unfold i32_range, i32_min, i32_max; nia).
    destruct (Z.odd e).
    + rewrite i32_fits by (apply R; assumption). cbn [bind]. rewrite i32_fits by (apply R; assumption). cbn [bind]. rewrite Z.mul_assoc. apply IH; try lia; nia.
    + cbn [bind]. rewrite i32_fits by (apply R; assumption). cbn [bind]. rewrite Z.mul_1_l. apply IH; try lia; nia.
  - replace e with 1 by lia. rewrite Z.pow_1_r. apply i32_fits. unfold i32_range, i32_min, i32_max. nia.
Qed.
(** C74: for a non-negative power the result is q^qpow, exactly when that fits i32; otherwise the call panics. *)
Lemma c74_nonneg : forall m q, 0 <= mq m <= i32_max -> i32_range q ->
  (i32_range (q ^ mq m) -> mono_eval_q m q = Ok (q ^ mq m)) /\ (~ i32_range (q ^ mq m) -> mono_eval_q m q = Panic).
Proof.
  intros m q Hm Hq. unfold mono_eval_q, i32_pow, as_u32. unfold i32_max in Hm. rewrite Z.mod_small by lia.
  destruct (Z.eqb_spec (mq m) 0) as [E|N]; [rewrite E; split; [reflexivity|]; intros H; exfalso; apply H; cbn; unfold i32_range, i32_min, i32_max; lia|].
  split; intros HR.
  - rewrite <- (Z.mul_1_l (q ^ mq m)). destruct (Z_le_gt_dec 2 (Z.abs q)).
    + apply pow_loop_complete; try lia. rewrite Z.mul_1_l. exact HR.
    + apply pow_loop_small; lia.
  - destruct (pow_loop_sound (halvings (mq m)) (mq m) q 1 ltac:(lia) (le_n _)) as [H|[_ H]]; [exact H|]. rewrite Z.mul_1_l in H. contradiction.
Qed.
(** C74: for a negative power (cast to u32) and |q| >= 2 it always panics; for q = 1, -1, 0 it returns 1, (-1)^qpow, 0. *)
Lemma c74_negative : forall m q, i32_min <= mq m < 0 ->
  (2 <= Z.abs q -> mono_eval_q m q = Panic) /\
  (q = 1 -> mono_eval_q m q = Ok 1) /\ (q = -1 -> mono_eval_q m q = Ok (if Z.even (mq m) then 1 else -1)) /\ (q = 0 -> mono_eval_q m q = Ok 0).
Proof.
  intros m q Hm. unfold mono_eval_q, i32_pow, as_u32. unfold i32_min in Hm.
  assert (E : mq m mod 4294967296 = 4294967296 + mq m). { symmetry. apply Z.mod_unique with (q := -1); lia. }
  rewrite E. set (e := 4294967296 + mq m). assert (He : 2147483648 <= e < 4294967296) by (unfold e; lia). replace (e =? 0) with false by lia.
  split; [|repeat split].
  - intros Hq. destruct (pow_loop_sound (halvings e) e q 1 ltac:(lia) (le_n _)) as [H|[_ H]]; [exact H|]. exfalso. rewrite Z.mul_1_l in H.
    assert (G : 2 ^ 40 <= Z.abs (q ^ e)).
    { rewrite Z.abs_pow. transitivity (2 ^ e); [apply Z.pow_le_mono_r; lia|apply Z.pow_le_mono_l; lia]. }
    unfold i32_range, i32_min, i32_max in H. change (2 ^ 40) with 1099511627776 in G. lia.
  - intros ->. rewrite pow_loop_small by (try apply le_n; try (clearbody e; lia); change (Z.abs 1) with 1; change (Z.abs (-1)) with 1; change (Z.abs 0) with 0; lia). rewrite Z.pow_1_l by lia. reflexivity.
  - intros ->. rewrite pow_loop_small by (try apply le_n; try (clearbody e; lia); change (Z.abs 1) with 1; change (Z.abs (-1)) with 1; change (Z.abs 0) with 0; lia). f_equal. rewrite Z.mul_1_l.
    assert (Ev : Z.even e = Z.even (mq m)) by (unfold e; rewrite Z.even_add; destruct (Z.even (mq m)); reflexivity). rewrite <- Ev.
    destruct (Z.even e) eqn:P.
    + apply Z.even_spec in P. rewrite (Z.pow_opp_even 1) by exact P. apply Z.pow_1_l. lia.
    + assert (O : Z.Odd e) by (apply Z.odd_spec; rewrite <- Z.negb_even, P; reflexivity). rewrite (Z.pow_opp_odd 1) by exact O. rewrite Z.pow_1_l by lia. reflexivity.
  - intros ->. rewrite pow_loop_small by (try apply le_n; try (clearbody e; lia); change (Z.abs 1) with 1; change (Z.abs (-1)) with 1; change (Z.abs 0) with 0; lia). rewrite Z.pow_0_l by lia. reflexivity.
Qed.
Example c74_case : mono_eval_q (qmono 31) (-2) = Ok (-2147483648) /\ mono_eval_q (qmono 31) 2 = Panic /\ mono_eval_q (qmono 5) 7 = Ok 16807 /\ mono_eval_q (qmono (-1)) 2 = Panic.
Proof. repeat split. Qed.
