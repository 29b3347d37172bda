(** The map induced by a point of the twisted curve, and the Frobenius endomorphism. *)
From Coq Require Import ZArith Field_theory Ring Field.
From mathcomp Require Import all_ssreflect all_algebra zify.
From Verif Require Import P_Group P_HasseId P_HasseGcd P_HasseStep P_HasseDeg P_EK P_Smap P_FrobW P_FrobComp.
Set Implicit Arguments. Unset Strict Implicit. Unset Printing Implicit Defensive.
Import GRing.Theory.
Local Open Scope ring_scope.

Section Ids.
Variable K : Type.
Variables (k0 k1 : K) (kadd kmul ksub : K -> K -> K) (kopp : K -> K) (kdiv : K -> K -> K) (kinv : K -> K).
Variable Kf : field_theory k0 k1 kadd kmul ksub kopp kdiv kinv (@eq K).
Add Field Kfield_tau : Kf.
Notation "0" := k0. Notation "1" := k1.
Infix "+" := kadd. Infix "*" := kmul. Infix "-" := ksub. Infix "/" := kdiv. Notation "- x" := (kopp x).
Lemma lam_id (l x y a b : K) : l <> 0 -> y * y = x * x * x + a * (l * l) * x + b * (l * l * l) ->
  (x / l) * (x / l) * (x / l) + a * (x / l) + b = l * ((y / (l * l)) * (y / (l * l))).
Proof. intros l0 e. transitivity (y * y / (l * l * l)); [rewrite e; field; exact l0|field; exact l0]. Qed.
Lemma a_id (a l m : K) : a * (l * (m * m) * (l * (m * m))) = a * (l * l) * (m * m * (m * m)). Proof. ring. Qed.
Lemma b_id (b l m : K) : b * (l * (m * m) * (l * (m * m)) * (l * (m * m))) = b * (l * l * l) * (m * m * m * (m * m * m)). Proof. ring. Qed.
Lemma g_id (l x y : K) : l <> 0 -> y <> 0 -> let m := y / (l * l) in l * (m * m) * (x / l) / (m * m) = x /\ l * (m * m) * (l * (m * m)) / (m * m * m) = y.
Proof. intros l0 y0 m. unfold m. split; field; auto. Qed.
Lemma sq_zero (l m : K) : l <> 0 -> (l * (m * m) <> 0) -> m <> 0.
Proof. intros l0 h e. apply h. rewrite e. ring. Qed.
End Ids.

Section Comp.
Variable F : fieldType.
Variables a b : F.
Hypothesis c2 : 1 + 1 != 0 :> F.
Hypothesis disc : (1 + 1) * (1 + 1) * (a * a * a) + (1 + 1 + 1) * (1 + 1 + 1) * (1 + 1 + 1) * (b * b) != 0.
Variable K : fieldType.
Variable io : {rmorphism {poly F} -> K}.
Hypothesis io_inj : injective io.
Hypothesis io_frac : forall x : K, exists n d, d != 0 /\ x = io n / io d.
Notation kl := (kl a b io). Notation kt := (kt io). Notation ka := (ka a io). Notation kb := (kb b io).
Notation kA := (kA a b io). Notation kB := (kB a b io).
Notation W := (W c2 disc io_inj).
Notation dg := (@dg F a b c2 disc K io io_inj).
Notation g := (g c2 disc io_inj : W).
Notation ft := (field_ft K).
Lemma kln : kl <> 0. Proof. exact: kl0. Qed.
Lemma klb : kl != 0. Proof. exact/eqP/kln. Qed.

Section Point.
Variables (w : W) (x y : K) (X Z : {poly F}).
Hypothesis ew : ev w = Some (x, y).
Hypothesis rx : rep io (x / kl) X Z.
Hypothesis sx : (size Z < size X)%N.
Lemma rZ : Z != 0. Proof. by case: rx. Qed.
Lemma rc : coprimep X Z. Proof. by case: rx. Qed.
Lemma rR : x / kl = R X Z io. Proof. by case: rx. Qed.
Notation h := (hR X Z io).
Definition sg : {rmorphism K -> K} := liftr io_inj io_frac (hR_inj sx rZ io_inj).
Lemma sgE p : sg (io p) = h p. Proof. exact: liftrE. Qed.
Definition mw : K := y / (kl * kl).
Lemma hC c : h c%:P = io c%:P. Proof. by rewrite hRE map_polyC hornerC. Qed.
Lemma hX : h 'X = x / kl. Proof. by rewrite hRE map_polyX hornerX rR. Qed.
Lemma sg_kl : sg kl = kl * (mw * mw).
Proof.
rewrite {1}/P_HasseDeg.kl sgE /lam !(rmorphD, rmorphM) hX !hC.
have on : y * y = x * x * x + ka * (kl * kl) * x + kb * (kl * kl * kl) by have := ev_on w; rewrite ew.
exact: (lam_id ft kln on).
Qed.
Lemma mw0 : mw <> 0.
Proof.
apply: (sq_zero ft kln); rewrite -sg_kl => /eqP; rewrite fmorph_eq0; exact/negP/klb.
Qed.
Lemma y0 : y <> 0. Proof. by move=> e; apply: mw0; rewrite /mw e mul0r. Qed.
Lemma sg_A : sg kA = kA * (mw * mw * (mw * mw)).
Proof. rewrite /P_HasseDeg.kA !rmorphM sg_kl /P_HasseDeg.ka sgE hC; exact: (a_id ft). Qed.
Lemma sg_B : sg kB = kB * (mw * mw * mw * (mw * mw * mw)).
Proof. rewrite /P_HasseDeg.kB !rmorphM sg_kl /P_HasseDeg.kb sgE hC; exact: (b_id ft). Qed.
Definition iw : {additive W -> W} := smap_additive (k2w c2 io_inj) (@nsw F a b disc K io io_inj) (k2w c2 io_inj) (@nsw F a b disc K io io_inj) mw0 sg_A sg_B.
Lemma ev_iw P : ev (iw P) = spt sg mw (ev P). Proof. by []. Qed.
Lemma iw_g : iw g = w.
Proof.
apply: ev_inj; rewrite ev_iw ew. have -> : ev g = Some (kl * kt, kl * kl) by []. rewrite /spt !rmorphM sg_kl /P_HasseDeg.kt sgE hX.
by have [-> ->] := g_id ft x kln y0.
Qed.
Lemma dg_iw P d : dg P d -> dg (iw P) (d * (size X).-1)%N.
Proof.
rewrite /P_FrobW.dg ev_iw; case: (ev P) => [[xp yp]|] /=; last by move=> ->.
move=> [U [V [[V0 cUV e] s sU]]]; have [A [B [B0 cAB eAB sB sA]]] := comp_rep rc sx rZ io_inj cUV V0 s.
exists A, B; split=> //; last by rewrite sA sU.
split=> //; rewrite -eAB -mulrA -invfM [mw * mw * _]mulrC -sg_kl -fmorphV -rmorphM e -[RHS]/(h U / h V) -!sgE -fmorphV -rmorphM //.
Qed.
End Point.
(** Composition with an arbitrary nonzero point of known degree. *)
Lemma compose (w : W) d : dg w d -> w != 0 -> exists f : {additive W -> W}, [/\ f g = w, forall P e, dg P e -> dg (f P) (e * d)%N &
  exists (s : {rmorphism K -> K}) m, [/\ m <> 0, s kl = kl * (m * m) & forall P, ev (f P) = spt s m (ev P)]].
Proof.
move=> hd w0; have := hd; rewrite /P_FrobW.dg; case E : (ev w) => [[x y]|]; last by case/negP: w0; apply/eqP; apply: ev_inj.
move=> /= [X [Z [rx sx dx]]]; exists (iw E rx sx); split.
- exact: iw_g.
- by move=> P e hP; have := dg_iw E rx sx hP; rewrite dx.
- exists (sg rx sx), (mw y); split; [exact: (mw0 E rx sx)|exact: (sg_kl E rx sx)|by []].
Qed.
End Comp.

Section FrobIds.
Variable K : Type.
Variables (k0 k1 : K) (kadd kmul ksub : K -> K -> K) (kopp : K -> K) (kdiv : K -> K -> K) (kinv : K -> K).
Variable Kf : field_theory k0 k1 kadd kmul ksub kopp kdiv kinv (@eq K).
Add Field Kfield_tau2 : Kf.
Notation "0" := k0. Notation "1" := k1.
Infix "+" := kadd. Infix "*" := kmul. Infix "-" := ksub. Infix "/" := kdiv. Notation "- x" := (kopp x).
(** L = l^h, M = m^h, so that l^p = l L L and m^p = m M M. *)
Lemma tA (a l L : K) : a * (l * (L * L) * (l * (L * L))) = a * (l * l) * (L * L * (L * L)). Proof. ring. Qed.
Lemma tB (b l L : K) : b * (l * (L * L) * (l * (L * L)) * (l * (L * L))) = b * (l * l * l) * (L * L * L * (L * L * L)). Proof. ring. Qed.
Lemma t_x (x l L : K) : l <> 0 -> L <> 0 -> x / (L * L) / l = x / (l * (L * L)). Proof. intros. field. auto. Qed.
Lemma t_comm (x y L m M : K) : L <> 0 -> m <> 0 -> M <> 0 ->
  x / ((L * (M * M)) * (L * (M * M))) / (m * m) = (x / (m * (M * M) * (m * (M * M)))) / (L * L) /\
  y / ((L * (M * M)) * (L * (M * M)) * (L * (M * M))) / (m * m * m) = (y / (m * (M * M) * (m * (M * M)) * (m * (M * M)))) / (L * L * L).
Proof. intros. split; field; auto. Qed.
End FrobIds.

Section Tau.
Variable F : fieldType.
Variables a b : F.
Hypothesis c2 : 1 + 1 != 0 :> F.
Hypothesis disc : (1 + 1) * (1 + 1) * (a * a * a) + (1 + 1 + 1) * (1 + 1 + 1) * (1 + 1 + 1) * (b * b) != 0.
Variable K : fieldType.
Variable io : {rmorphism {poly F} -> K}.
Hypothesis io_inj : injective io.
Hypothesis io_frac : forall x : K, exists n d, d != 0 /\ x = io n / io d.
Variables p h : nat.
Hypothesis cp : p \in [char K].
Hypothesis ph : p = (2 * h).+1.
Hypothesis Fp : forall x : F, x ^+ p = x.
Notation kl := (kl a b io). Notation kt := (kt io). Notation ka := (ka a io). Notation kb := (kb b io).
Notation kA := (kA a b io). Notation kB := (kB a b io).
Notation W := (W c2 disc io_inj).
Notation dg := (@dg F a b c2 disc K io io_inj).
Notation g := (g c2 disc io_inj : W).
Notation ft := (field_ft K).
Notation fr := [rmorphism of Frobenius_aut cp].
Notation Lh := (kl ^+ h).
Lemma kfrE (x : K) : fr x = x ^+ p. Proof. exact: Frobenius_autE. Qed.
Lemma frC c : fr (io c%:P) = io c%:P. Proof. by rewrite kfrE -rmorphX -polyC_exp Fp. Qed.
Lemma pow_p (x : K) : x ^+ p = x * (x ^+ h * x ^+ h). Proof. by rewrite ph exprS mul2n -addnn exprD. Qed.
Lemma L0 : Lh <> 0. Proof. by apply/eqP; rewrite expf_neq0 // klb. Qed.
Lemma fr_A : fr kA = kA * (Lh * Lh * (Lh * Lh)).
Proof. rewrite /P_HasseDeg.kA !rmorphM /P_HasseDeg.ka frC kfrE pow_p; exact: (tA ft). Qed.
Lemma fr_B : fr kB = kB * (Lh * Lh * Lh * (Lh * Lh * Lh)).
Proof. rewrite /P_HasseDeg.kB !rmorphM /P_HasseDeg.kb frC kfrE pow_p; exact: (tB ft). Qed.
Definition tau : {additive W -> W} := smap_additive (k2w c2 io_inj) (@nsw F a b disc K io io_inj) (k2w c2 io_inj) (@nsw F a b disc K io io_inj) L0 fr_A fr_B.
Lemma ev_tau P : ev (tau P) = spt fr Lh (ev P). Proof. by []. Qed.
Lemma tau_inj : injective tau. Proof. exact: smap_inj. Qed.
Lemma dg_tau P d : dg P d -> dg (tau P) (p * d)%N.
Proof.
rewrite /P_FrobW.dg ev_tau; case: (ev P) => [[x y]|] /=; last by move=> ->; rewrite muln0.
move=> [X [Z [[Z0 cXZ e] s sX]]].
have X0 : X != 0 by rewrite -size_poly_gt0 sX.
have p0 : (0 < p)%N by rewrite ph.
have sXp : size (X ^+ p) = (p * d).+1.
  by have := size_exp X p; have := polySpred (expf_neq0 p X0); rewrite sX mulnC /= => -> /= ->.
exists (X ^+ p), (Z ^+ p); split=> //.
- split; [exact: expf_neq0|by rewrite coprimep_expl // coprimep_expr|].
  rewrite !rmorphX -expr_div_n -e kfrE expr_div_n [kl ^+ p]pow_p; exact: (t_x ft _ (kln io_inj) L0).
- rewrite sXp; have := size_exp Z p; have := polySpred (expf_neq0 p Z0) => -> /= ->.
  have : (0 < size Z)%N by rewrite size_poly_gt0.
  move: s; rewrite sX mulnC !ltnS ltn_mul2l p0 /=; move: (size Z); by case.
Qed.
Lemma tau_comm (f : {additive W -> W}) (s : {rmorphism K -> K}) m : m <> 0 -> s kl = kl * (m * m) -> (forall P, ev (f P) = spt s m (ev P)) ->
  forall P, f (tau P) = tau (f P).
Proof.
move=> m0 hs hf P; apply: ev_inj; rewrite hf !ev_tau hf; case: (ev P) => [[x y]|] //.
have M0 : m ^+ h <> 0 by apply/eqP; rewrite expf_neq0 //; apply/eqP.
rewrite /spt !rmorphM !fmorphV !rmorphM !kfrE !rmorphX hs.
rewrite [(kl * (m * m)) ^+ h]exprMn [(m * m) ^+ h]exprMn [m ^+ p]pow_p.
by have [-> ->] := t_comm ft (s x ^+ p) (s y ^+ p) L0 m0 M0.
Qed.
End Tau.
