(** Lemmas about the Display impls (model: M_Display.v): the printed text is the list of tokens
    separated by spaces, and the tokens determine the polynomial. *)
From Coq Require Import String Ascii DecimalString DecimalZ DecimalPos DecimalFacts ZifyBool.
From Verif Require Import Prelude M_Bigint M_Variable M_Term M_Poly M_Curve M_Display Spec SpecDisplay P_Variable P_Poly.
Local Open Scope string_scope.
Local Open Scope Z_scope.

(** ** Characters *)
Fixpoint all_chars (P : ascii -> bool) (s : string) : bool :=
  match s with EmptyString => true | String c r => P c && all_chars P r end.
Definition digit_or_minus (c : ascii) : bool :=
  (Ascii.eqb c "0" || Ascii.eqb c "1" || Ascii.eqb c "2" || Ascii.eqb c "3" || Ascii.eqb c "4" ||
   Ascii.eqb c "5" || Ascii.eqb c "6" || Ascii.eqb c "7" || Ascii.eqb c "8" || Ascii.eqb c "9" || Ascii.eqb c "-")%bool.
Definition not_space (c : ascii) : bool := negb (Ascii.eqb c " ").

Lemma all_chars_app P a b : all_chars P (a ++ b) = (all_chars P a && all_chars P b)%bool.
Proof. induction a as [|c a IH]; cbn; [reflexivity|]. rewrite IH. apply Bool.andb_assoc. Qed.
Lemma all_chars_impl (P Q : ascii -> bool) s : (forall c, P c = true -> Q c = true) -> all_chars P s = true -> all_chars Q s = true.
Proof. intros H; induction s as [|c s IH]; cbn; [auto|]. intros E. apply andb_prop in E as [E1 E2]. rewrite (H _ E1), (IH E2). reflexivity. Qed.

Lemma uint_chars u : all_chars digit_or_minus (NilEmpty.string_of_uint u) = true.
Proof. induction u; cbn [NilEmpty.string_of_uint all_chars]; try rewrite IHu; reflexivity. Qed.
Lemma uint_chars' u : all_chars digit_or_minus (NilZero.string_of_uint u) = true.
Proof. destruct u; cbn [NilZero.string_of_uint]; try apply uint_chars; reflexivity. Qed.
Lemma z_chars z : all_chars digit_or_minus (z_to_string z) = true.
Proof.
  unfold z_to_string. destruct (Z.to_int z); cbn [NilZero.string_of_int all_chars]; [apply uint_chars'|].
  rewrite uint_chars'. reflexivity.
Qed.
Lemma z_nospace z : all_chars not_space (z_to_string z) = true.
Proof.
  eapply all_chars_impl; [|apply z_chars]. intros c H. unfold digit_or_minus in H. unfold not_space.
  destruct (Ascii.eqb_spec c " "); [|reflexivity]. subst. discriminate.
Qed.
Lemma z_inj a b : z_to_string a = z_to_string b -> a = b.
Proof.
  unfold z_to_string. intros E.
  assert (H : forall z, NilZero.int_of_string (NilZero.string_of_int (Z.to_int z)) = Some (Z.to_int z)).
  { intros z. apply NilZero.isi; destruct z; cbn; try discriminate; intros X; injection X;
      apply Unsigned.to_uint_nonnil. }
  assert (Z.to_int a = Z.to_int b) by (generalize (H a) (H b); rewrite E; congruence).
  rewrite <- (of_to a), <- (of_to b). congruence.
Qed.
Lemma z_head_nonneg z : 0 <= z -> exists c r, z_to_string z = String c r /\ c <> "-"%char /\ digit_or_minus c = true.
Proof.
  intros Hz. unfold z_to_string. assert (exists u, Z.to_int z = Decimal.Pos u) as [u ->] by (destruct z; cbn; eauto; lia).
  cbn [NilZero.string_of_int]. destruct u; cbn; eexists; eexists; (split; [reflexivity|]); (split; [discriminate|reflexivity]).
Qed.

(** ** Tokens *)
Definition good (t : string) : Prop := t <> "" /\ all_chars not_space t = true.
Definition spaced (ts : list string) : string := fold_right (fun t s => t ++ " " ++ s) "" ts.

Lemma app_assoc_s (a b c : string) : (a ++ b) ++ c = a ++ b ++ c.
Proof. induction a as [|x a IH]; cbn; [reflexivity|]. rewrite IH. reflexivity. Qed.
Lemma app_nil_s (a : string) : a ++ "" = a.
Proof. induction a as [|x a IH]; cbn; [reflexivity|]. rewrite IH. reflexivity. Qed.
Lemma spaced_app a b : spaced (a ++ b) = spaced a ++ spaced b.
Proof. induction a as [|x a IH]; cbn [spaced fold_right List.app]; [reflexivity|]. fold (spaced (a ++ b)) (spaced a). rewrite IH, !app_assoc_s. reflexivity. Qed.
Lemma spaced_one t : spaced [t] = t ++ " ".
Proof. cbn. reflexivity. Qed.

Lemma trim_snoc_space s : trim_end (s ++ " ") = trim_end s.
Proof. induction s as [|c s IH]; [reflexivity|]. cbn [String.append trim_end]. rewrite IH. reflexivity. Qed.
Lemma trim_good_end s c : not_space c = true -> trim_end (s ++ String c "") = s ++ String c "".
Proof.
  intros H. unfold not_space in H. induction s as [|d s IH].
  - cbn. destruct (Ascii.eqb c " "); [discriminate|reflexivity].
  - cbn [String.append trim_end]. rewrite IH. destruct s; reflexivity.
Qed.
Lemma snoc_exists t : t <> "" -> exists s c, t = s ++ String c "".
Proof.
  induction t as [|c t IH]; [congruence|]. intros _. destruct t as [|d t].
  - exists "", c. reflexivity.
  - destruct IH as (s & c' & E); [discriminate|]. exists (String c s), c'. cbn. rewrite E. reflexivity.
Qed.
Lemma trim_good s t : good t -> trim_end (s ++ t) = s ++ t.
Proof.
  intros [Hn Ha]. destruct (snoc_exists t Hn) as (u & c & ->). rewrite <- app_assoc_s.
  apply trim_good_end. rewrite all_chars_app in Ha. cbn in Ha. apply andb_prop in Ha as [_ Ha]. apply andb_prop in Ha as [Ha _]. exact Ha.
Qed.
Lemma trim_spaced ts : ts <> [] -> (forall t, In t ts -> good t) -> trim_end (spaced ts) ++ " " = spaced ts.
Proof.
  intros Hn Hg. destruct (exists_last Hn) as (l & t & ->). rewrite spaced_app, spaced_one, <- app_assoc_s, trim_snoc_space, trim_good; [reflexivity|].
  apply Hg, in_or_app. right. left. reflexivity.
Qed.

Lemma split_space a b r s : all_chars not_space a = true -> all_chars not_space b = true ->
  a ++ String " " r = b ++ String " " s -> a = b /\ r = s.
Proof.
  revert b. induction a as [|c a IH]; intros [|d b] Ha Hb E; cbn in *.
  - injection E as E. auto.
  - injection E as E1 E2. subst d. discriminate.
  - injection E as E1 E2. subst c. discriminate.
  - injection E as E1 E2. subst d. apply andb_prop in Ha as [_ Ha]. apply andb_prop in Hb as [_ Hb].
    destruct (IH b Ha Hb E2) as [-> ->]. auto.
Qed.
Lemma spaced_inj a b : (forall t, In t a -> good t) -> (forall t, In t b -> good t) -> spaced a = spaced b -> a = b.
Proof.
  revert b. induction a as [|t a IH]; intros [|u b] Ga Gb E.
  - reflexivity.
  - exfalso. cbn in E. destruct (Gb u (or_introl eq_refl)) as [N _]. destruct u; [congruence|discriminate].
  - exfalso. cbn in E. destruct (Ga t (or_introl eq_refl)) as [N _]. destruct t; [congruence|discriminate].
  - cbn [spaced fold_right] in E. destruct (Ga t (or_introl eq_refl)) as [_ N]. destruct (Gb u (or_introl eq_refl)) as [_ N'].
    destruct (split_space _ _ _ _ N N' E) as [-> E']. f_equal. apply IH; [| |exact E']; intros; [apply Ga|apply Gb]; right; assumption.
Qed.

(** ** The tokens of a term and of a polynomial *)
Lemma const_eqb m : mono_eqb m (mkMono 0 0 0 None) = (mono_is_const m && vempty (mv m))%bool.
Proof. destruct m as [x y q [[i j]|]]; unfold mono_eqb, mono_is_const; cbn; reflexivity. Qed.
Lemma good_letter c s : not_space c = true -> all_chars not_space s = true -> good (String c s).
Proof. intros H H'. split; [discriminate|]. cbn [all_chars]. rewrite H, H'. reflexivity. Qed.
Lemma ptok_good c n t : not_space c = true -> In t (ptok (String c "") n) -> good t.
Proof.
  intros Hc. unfold ptok. destruct (n =? 0); [intros []|]. destruct (n =? 1); intros [<-|[]]; cbn [String.append].
  - apply good_letter; auto.
  - apply good_letter; auto. cbn [all_chars]. rewrite z_nospace. reflexivity.
Qed.
Lemma var_good i j : good (var_to_string (Some (i, j))).
Proof.
  cbn [var_to_string String.append]. apply good_letter; [reflexivity|]. cbn [all_chars]. rewrite all_chars_app. cbn [String.append all_chars].
  rewrite !z_nospace. reflexivity.
Qed.
Lemma z_good z : good (z_to_string z).
Proof.
  split; [|apply z_nospace]. unfold z_to_string. destruct (Z.to_int z) as [u|u]; [destruct u|]; cbn; discriminate.
Qed.
Lemma mtoks_good m t : In t (mtoks m) -> good t.
Proof.
  unfold mtoks. rewrite !in_app_iff. intros [[H|[H|H]]|H]; try (eapply ptok_good; [|exact H]; reflexivity).
  destruct (mv m) as [[i j]|]; cbn [vtok] in H; [|destruct H]. destruct H as [<-|[]]. apply var_good.
Qed.
Lemma btoks_good e t : In t (btoks e) -> good t.
Proof.
  unfold btoks. rewrite in_app_iff. intros [H|H]; [|eapply mtoks_good; exact H].
  unfold ntok in H. destruct (_ && _)%bool; [destruct H|]. destruct H as [<-|[]]. apply z_good.
Qed.
Lemma toks_good l first t : In t (toks l first) -> good t.
Proof.
  revert first. induction l as [|e l IH]; intros first; cbn [toks]; [intros []|]. rewrite !in_app_iff. intros [[H|H]|H].
  - unfold stok in H. destruct (_ <? _); [|destruct first]; cbn in H; destruct H as [<-|[]] || destruct H; split; cbn; congruence.
  - eapply btoks_good; exact H.
  - eapply IH; exact H.
Qed.
Lemma mtoks_nil m : mtoks m = [] <-> mono_is_const m = true /\ vempty (mv m) = true.
Proof.
  unfold mtoks, mono_is_const, ptok. destruct (mx m =? 0), (my m =? 0), (mq m =? 0), (mx m =? 1), (my m =? 1), (mq m =? 1), (mv m) as [[? ?]|]; cbn;
    split; try tauto; try discriminate; intros []; discriminate.
Qed.
Lemma btoks_nonnil e : btoks e <> [].
Proof.
  unfold btoks, ntok. destruct (_ && _)%bool eqn:E; [|discriminate]. cbn [List.app]. rewrite mtoks_nil. intros [A B].
  rewrite const_eqb, A, B in E. cbn in E. rewrite Bool.andb_false_r in E. discriminate.
Qed.

(** ** The printed text is the tokens separated by spaces *)
Lemma pow_str_spaced l n : pow_str l n = spaced (ptok l n).
Proof.
  unfold pow_str, ptok. destruct (n =? 0); [reflexivity|]. destruct (n =? 1); rewrite spaced_one; [reflexivity|].
  rewrite !app_assoc_s. reflexivity.
Qed.
Lemma mono_body_spaced m : trim_end (mono_body m) = trim_end (spaced (mtoks m)).
Proof.
  unfold mono_body, mtoks. rewrite !pow_str_spaced, !spaced_app. destruct (mv m) as [[i j]|]; cbn [vempty vtok].
  - change ("c_" ++ decimal i ++ "_" ++ decimal j) with (var_to_string (Some (i, j))). rewrite spaced_one. rewrite <- (app_assoc_s (spaced _ ++ _)), trim_snoc_space, !app_assoc_s. reflexivity.
  - cbn [spaced fold_right]. rewrite !app_nil_s. reflexivity.
Qed.
Lemma pre_mono_body s m : trim_end (s ++ mono_body m) = trim_end (s ++ spaced (mtoks m)).
Proof.
  unfold mono_body, mtoks. rewrite !pow_str_spaced, !spaced_app. destruct (mv m) as [[i j]|]; cbn [vempty vtok].
  - change ("c_" ++ decimal i ++ "_" ++ decimal j) with (var_to_string (Some (i, j))). rewrite spaced_one. rewrite <- !app_assoc_s. rewrite trim_snoc_space. reflexivity.
  - cbn [spaced fold_right]. rewrite !app_nil_s. reflexivity.
Qed.
Lemma term_text c m : c <> 0 -> term_to_string (mkTerm c m) ++ " " = spaced ((if c <? 0 then ["-"] else []) ++ btoks (m, c)).
Proof.
  intros Hc. set (ts := (_ ++ btoks _)%list).
  assert (Hn : ts <> []). { unfold ts. intros E. apply app_eq_nil in E as [_ E]. exact (btoks_nonnil _ E). }
  assert (Hg : forall t, In t ts -> good t).
  { unfold ts. intros t. rewrite in_app_iff. intros [H|H]; [|eapply btoks_good; exact H]. destruct (c <? 0); cbn in H; [|destruct H]. destruct H as [<-|[]]. split; cbn; congruence. }
  rewrite <- (trim_spaced ts Hn Hg). f_equal. unfold ts, term_to_string, btoks, ntok. cbn [tc tm fst snd]. change decimal with z_to_string. rewrite const_eqb.
  destruct (Z.eqb_spec c 1) as [->|N1]; [|destruct (Z.eqb_spec c (-1)) as [->|N2]].
  - change (Z.abs 1 =? 1) with true. change (1 <? 0) with false. cbn [andb List.app].
    destruct (mono_is_const m) eqn:E; [|cbn [negb andb List.app]; apply mono_body_spaced].
    destruct (mv m) as [[i j]|] eqn:V.
    + cbn [vempty negb andb List.app]. rewrite <- mono_body_spaced. unfold mono_is_const in E. apply andb_prop in E as [E E3]. apply andb_prop in E as [E1 E2].
      unfold mono_body, pow_str. rewrite E1, E2, E3, V. cbn [String.append vempty]. change (var_to_string _) with ("" ++ var_to_string (Some (i, j))).
      rewrite trim_good by apply var_good. reflexivity.
    + cbn [vempty negb andb]. assert (M : mtoks m = []) by (apply mtoks_nil; rewrite V; auto). rewrite M. reflexivity.
  - change (Z.abs (-1) =? 1) with true. change (-1 <? 0) with true. cbn [andb].
    destruct (mono_is_const m) eqn:E.
    + destruct (mv m) as [[i j]|] eqn:V.
      * cbn [vempty negb andb List.app]. cbn [spaced fold_right]. rewrite <- (app_assoc_s "-" " "). change ("-" ++ " ") with "- ". rewrite <- pre_mono_body.
        unfold mono_is_const in E. apply andb_prop in E as [E E3]. apply andb_prop in E as [E1 E2].
        unfold mono_body, pow_str. rewrite E1, E2, E3, V. cbn [vempty]. change ("" ++ "" ++ "" ++ var_to_string (Some (i, j))) with (var_to_string (Some (i, j))).
        rewrite trim_good by apply var_good. reflexivity.
      * cbn [vempty negb andb]. assert (M : mtoks m = []) by (apply mtoks_nil; rewrite V; auto). rewrite M. reflexivity.
    + cbn [negb andb List.app spaced fold_right]. rewrite pre_mono_body, <- (app_assoc_s "-" " "). reflexivity.
  - replace (Z.abs c =? 1) with false by lia. cbn [andb]. rewrite <- app_assoc_s, pre_mono_body. f_equal.
    destruct (Z.leb_spec 0 c).
    + replace (c <? 0) with false by lia. cbn [List.app spaced fold_right]. rewrite Z.abs_eq by lia. rewrite app_assoc_s. reflexivity.
    + replace (c <? 0) with true by lia. cbn [List.app spaced fold_right]. replace (Z.abs c) with (c * -1) by lia. rewrite !app_assoc_s. reflexivity.
Qed.
Lemma body_text l first : no_zero l -> poly_body l first = spaced (toks l first).
Proof.
  revert first. induction l as [|[m c] l IH]; intros first Hz; [reflexivity|]. cbn [poly_body toks].
  assert (Hc : c <> 0) by (apply (Hz m); left; reflexivity).
  replace (negb (c =? 0)) with true by lia. rewrite term_text by exact Hc. rewrite IH by (intros m' c' H; apply (Hz m'); right; exact H).
  rewrite <- app_assoc_s, spaced_app. f_equal. rewrite !spaced_app. rewrite <- app_assoc_s. f_equal. cbn [snd]. unfold stok.
  destruct (Z.ltb_spec c 0), (Z.ltb_spec 0 c), first; try lia; reflexivity.
Qed.

(** ** The tokens determine the polynomial *)
Definition is_sign (t : string) : Prop := t = "+" \/ t = "-".
Definition cls (c : ascii) (t : string) : bool := match t with EmptyString => false | String d _ => Ascii.eqb c d end.
Definition num_cls (t : string) : bool := negb (cls "x" t || cls "y" t || cls "q" t || cls "c" t).

Lemma mtoks_cls m t : In t (mtoks m) -> num_cls t = false /\ ~ is_sign t.
Proof.
  unfold mtoks, ptok, is_sign. rewrite !in_app_iff.
  assert (forall c l, (c = "x" \/ c = "y" \/ c = "q" \/ c = "c")%char -> num_cls (String c l) = false /\ ~ (String c l = "+" \/ String c l = "-")) as H.
  { intros c l [-> | [-> | [-> | ->]]]; (split; [reflexivity|]); intros [E|E]; discriminate. }
  intros [[X|[X|X]]|X]; try (destruct (_ =? 0); [destruct X|]; destruct (_ =? 1); destruct X as [<-|[]]; cbn [String.append]; apply H; tauto).
  destruct (mv m) as [[i j]|]; cbn [vtok] in X; [|destruct X]; destruct X as [<-|[]]. cbn [var_to_string String.append]. apply H. tauto.
Qed.
Lemma z_num z : 0 <= z -> num_cls (z_to_string z) = true /\ ~ is_sign (z_to_string z).
Proof.
  intros Hz. destruct (z_head_nonneg z Hz) as (c & r & -> & Hc & Hd). split.
  - unfold num_cls, cls. destruct (Ascii.eqb_spec "x" c); [subst; discriminate|]. destruct (Ascii.eqb_spec "y" c); [subst; discriminate|].
    destruct (Ascii.eqb_spec "q" c); [subst; discriminate|]. destruct (Ascii.eqb_spec "c" c); [subst; discriminate|]. reflexivity.
  - intros [E|E]; injection E as E _; subst; [discriminate|congruence].
Qed.
Lemma btoks_nosign e t : In t (btoks e) -> ~ is_sign t.
Proof.
  unfold btoks. rewrite in_app_iff. intros [H|H]; [|eapply mtoks_cls; exact H]. unfold ntok in H.
  destruct (_ && _)%bool; [destruct H|]. destruct H as [<-|[]]. apply z_num. lia.
Qed.
Lemma filter_none {A} (f : A -> bool) l : (forall t, In t l -> f t = false) -> filter f l = [].
Proof. induction l as [|a l IH]; intros H; cbn; [reflexivity|]. rewrite (H a) by (left; reflexivity). apply IH. intros; apply H; right; assumption. Qed.
Lemma filter_allb {A} (f : A -> bool) l : (forall t, In t l -> f t = true) -> filter f l = l.
Proof. induction l as [|a l IH]; intros H; cbn; [reflexivity|]. rewrite (H a) by (left; reflexivity). f_equal. apply IH. intros; apply H; right; assumption. Qed.
Lemma ptok_cls c l n t : In t (ptok (String l "") n) -> cls c t = Ascii.eqb c l.
Proof. unfold ptok. destruct (_ =? 0); [intros []|]. destruct (_ =? 1); intros [<-|[]]; reflexivity. Qed.
Lemma vtok_cls c v t : In t (vtok v) -> cls c t = Ascii.eqb c "c".
Proof. destruct v as [[i j]|]; cbn [vtok]; [intros [<-|[]]; reflexivity | intros []]. Qed.
Lemma ptok_inj l n n' : ptok (String l "") n = ptok (String l "") n' -> n = n'.
Proof.
  unfold ptok. destruct (Z.eqb_spec n 0) as [->|N0]; destruct (Z.eqb_spec n' 0) as [->|N0'].
  - reflexivity.
  - destruct (n' =? 1); discriminate.
  - destruct (n =? 1); discriminate.
  - destruct (Z.eqb_spec n 1) as [->|N1]; destruct (Z.eqb_spec n' 1) as [->|N1']; cbn [String.append]; try discriminate; [reflexivity|].
    intros E. injection E as E. apply z_inj. exact E.
Qed.
Lemma split_char c a b r s : all_chars (fun d => negb (Ascii.eqb d c)) a = true -> all_chars (fun d => negb (Ascii.eqb d c)) b = true ->
  a ++ String c r = b ++ String c s -> a = b /\ r = s.
Proof.
  revert b. induction a as [|x a IH]; intros [|y b] Ha Hb E; cbn in *.
  - injection E as E. auto.
  - injection E as E1 E2. subst y. rewrite Ascii.eqb_refl in Hb. discriminate.
  - injection E as E1 E2. subst x. rewrite Ascii.eqb_refl in Ha. discriminate.
  - injection E as E1 E2. subst y. apply andb_prop in Ha as [_ Ha]. apply andb_prop in Hb as [_ Hb].
    destruct (IH b Ha Hb E2) as [-> ->]. auto.
Qed.
Lemma z_no_char c z : digit_or_minus c = false -> all_chars (fun d => negb (Ascii.eqb d c)) (z_to_string z) = true.
Proof.
  intros Hc. eapply all_chars_impl; [|apply z_chars]. intros d Hd. cbn beta. destruct (Ascii.eqb_spec d c); [subst; congruence|reflexivity].
Qed.
Lemma var_inj i j i' j' : var_to_string (Some (i, j)) = var_to_string (Some (i', j')) -> i = i' /\ j = j'.
Proof.
  cbn [var_to_string String.append]. intros E. injection E as E.
  destruct (split_char "_" _ _ _ _ (z_no_char "_" i eq_refl) (z_no_char "_" i' eq_refl) E) as [E1 E2].
  split; apply z_inj; assumption.
Qed.
Lemma vtok_inj v v' : vtok v = vtok v' -> v = v'.
Proof.
  destruct v as [[i j]|], v' as [[i' j']|]; cbn [vtok]; try discriminate; [|reflexivity]. intros E.
  assert (E' : var_to_string (Some (i, j)) = var_to_string (Some (i', j'))) by (injection E as E; cbn [var_to_string String.append]; do 2 f_equal; exact E).
  destruct (var_inj _ _ _ _ E') as [-> ->]. reflexivity.
Qed.
Lemma mtoks_inj m m' : mtoks m = mtoks m' -> m = m'.
Proof.
  intros E.
  assert (X : forall k, filter (cls "x") (mtoks k) = ptok "x" (mx k)).
  { intros k. unfold mtoks. rewrite !filter_app. rewrite (filter_allb _ (ptok "x" _)) by (intros; erewrite ptok_cls by eassumption; reflexivity).
    rewrite !filter_none by (intros; (erewrite ptok_cls by eassumption; reflexivity) || (erewrite vtok_cls by eassumption; reflexivity)). rewrite !app_nil_r. reflexivity. }
  assert (Y : forall k, filter (cls "y") (mtoks k) = ptok "y" (my k)).
  { intros k. unfold mtoks. rewrite !filter_app. rewrite (filter_allb _ (ptok "y" _)) by (intros; erewrite ptok_cls by eassumption; reflexivity).
    rewrite !filter_none by (intros; (erewrite ptok_cls by eassumption; reflexivity) || (erewrite vtok_cls by eassumption; reflexivity)). rewrite !app_nil_r. reflexivity. }
  assert (Q : forall k, filter (cls "q") (mtoks k) = ptok "q" (mq k)).
  { intros k. unfold mtoks. rewrite !filter_app. rewrite (filter_allb _ (ptok "q" _)) by (intros; erewrite ptok_cls by eassumption; reflexivity).
    rewrite !filter_none by (intros; (erewrite ptok_cls by eassumption; reflexivity) || (erewrite vtok_cls by eassumption; reflexivity)). rewrite !app_nil_r. reflexivity. }
  assert (V : forall k, filter (cls "c") (mtoks k) = vtok (mv k)).
  { intros k. unfold mtoks. rewrite !filter_app. rewrite (filter_allb _ (vtok _)) by (intros; erewrite vtok_cls by eassumption; reflexivity).
    rewrite !filter_none by (intros; erewrite ptok_cls by eassumption; reflexivity). reflexivity. }
  assert (mx m = mx m') by (apply (ptok_inj "x"); rewrite <- !X, E; reflexivity).
  assert (my m = my m') by (apply (ptok_inj "y"); rewrite <- !Y, E; reflexivity).
  assert (mq m = mq m') by (apply (ptok_inj "q"); rewrite <- !Q, E; reflexivity).
  assert (mv m = mv m') by (apply vtok_inj; rewrite <- !V, E; reflexivity).
  destruct m, m'; cbn in *; congruence.
Qed.
Lemma btoks_inj m c m' c' : btoks (m, c) = btoks (m', c') -> m = m' /\ Z.abs c = Z.abs c'.
Proof.
  intros E. unfold btoks in E. cbn [fst snd] in E.
  assert (N : forall k d, filter num_cls (ntok d k ++ mtoks k) = ntok d k).
  { intros k d. rewrite filter_app, (filter_none _ (mtoks k)) by (intros; eapply mtoks_cls; eassumption). rewrite app_nil_r. apply filter_allb.
    unfold ntok. destruct (_ && _)%bool; [intros t []|]. intros t [<-|[]]. apply z_num. lia. }
  assert (EN : ntok c m = ntok c' m') by (rewrite <- (N m c), <- (N m' c'), E; reflexivity).
  rewrite EN in E. apply app_inv_head in E. split; [apply mtoks_inj; exact E|].
  unfold ntok in EN. destruct (_ && _)%bool eqn:A in EN; destruct (_ && _)%bool eqn:B in EN; try discriminate.
  - apply andb_prop in A as [A _]. apply andb_prop in B as [B _]. lia.
  - apply z_inj. injection EN as EN. exact EN.
Qed.
Lemma sign_split (a b r s : list string) : (forall t, In t a -> ~ is_sign t) -> (forall t, In t b -> ~ is_sign t) ->
  match r with [] => True | t :: _ => is_sign t end -> match s with [] => True | t :: _ => is_sign t end ->
  (a ++ r = b ++ s -> a = b /\ r = s)%list.
Proof.
  revert b. induction a as [|x a IH]; intros [|y b] Ha Hb Hr Hs E; cbn in E.
  - auto.
  - subst r. exfalso. exact (Hb y (or_introl eq_refl) Hr).
  - subst s. exfalso. exact (Ha x (or_introl eq_refl) Hs).
  - injection E as -> E. destruct (IH b) as [-> ->]; auto; intros; [apply Ha|apply Hb]; right; assumption.
Qed.
Lemma toks_rest_sign l : match toks l false with [] => True | t :: _ => is_sign t end.
Proof.
  destruct l as [|[m c] l]; cbn [toks]; [exact I|]. cbn [snd]. unfold stok, is_sign. destruct (c <? 0); cbn; tauto.
Qed.
Lemma toks_inj l l' first : no_zero l -> no_zero l' -> toks l first = toks l' first -> l = l'.
Proof.
  revert l' first. induction l as [|[m c] l IH]; intros [|[m' c'] l'] first Hz Hz' E.
  - reflexivity.
  - exfalso. cbn [toks] in E. symmetry in E. apply app_eq_nil in E as [E _]. apply app_eq_nil in E as [_ E]. exact (btoks_nonnil _ E).
  - exfalso. cbn [toks] in E. apply app_eq_nil in E as [E _]. apply app_eq_nil in E as [_ E]. exact (btoks_nonnil _ E).
  - cbn [toks snd] in E. rewrite <- !app_assoc in E.
    assert (S1 : stok first c = stok first c').
    { unfold stok in *. destruct (btoks (m, c)) as [|u us] eqn:B; [exfalso; exact (btoks_nonnil _ B)|].
      destruct (btoks (m', c')) as [|u' us'] eqn:B'; [exfalso; exact (btoks_nonnil _ B')|].
      assert (Hu : ~ is_sign u) by (apply (btoks_nosign (m, c)); rewrite B; left; reflexivity).
      assert (Hu' : ~ is_sign u') by (apply (btoks_nosign (m', c')); rewrite B'; left; reflexivity).
      unfold is_sign in *. destruct (c <? 0), (c' <? 0), first; cbn in E |- *; try reflexivity; exfalso; injection E as E; try discriminate; subst; tauto. }
    rewrite S1 in E. apply app_inv_head in E.
    apply sign_split in E as [E1 E2]; [|intros; eapply btoks_nosign; eassumption|intros; eapply btoks_nosign; eassumption|apply toks_rest_sign|apply toks_rest_sign].
    apply btoks_inj in E1 as [-> EA].
    assert (c <> 0) by (apply (Hz m'); left; reflexivity). assert (c' <> 0) by (apply (Hz' m'); left; reflexivity).
    assert (c = c'). { unfold stok in S1. destruct (Z.ltb_spec c 0), (Z.ltb_spec c' 0); try lia; destruct first; discriminate. }
    subst c'. f_equal. apply IH with (first := false); [| |exact E2]; intros a b H'; [apply (Hz a)|apply (Hz' a)]; right; exact H'.
Qed.
