(** Composition: the degree of w |-> P(w) on the twisted curve is multiplicative. *)
From Coq Require Import ZArith Field_theory Ring Field.
From mathcomp Require Import all_ssreflect all_algebra zify.
From Verif Require Import P_Group P_HasseId P_HasseGcd P_HasseStep P_HasseDeg P_EK P_Smap P_FrobW.
Set Implicit Arguments. Unset Strict Implicit. Unset Printing Implicit Defensive.
Import GRing.Theory.
Local Open Scope ring_scope.

Section Rearr.
Variable K : Type.
Variables (k0 k1 : K) (kadd kmul ksub : K -> K -> K) (kopp : K -> K).
Variable Kr : ring_theory k0 k1 kadd kmul ksub kopp (@eq K).
Add Ring Kring_rearr : Kr.
Infix "+" := kadd. Infix "*" := kmul.
Lemma rearr u U v V k n m : u * U + v * V = k1 -> k * n * m = (u * k) * m * (U * n) + (v * k) * n * (V * m).
Proof. intros e. transitivity ((u * U + v * V) * (k * n * m)); [rewrite e; ring|ring]. Qed.
End Rearr.

Section Hom.
Variable F : fieldType.
Variables X Z : {poly F}.
Hypothesis cXZ : coprimep X Z.
Hypothesis sXZ : (size Z < size X)%N.
Hypothesis Z0 : Z != 0.
Definition hom (k : nat) (p : {poly F}) : {poly F} := \sum_(i < k.+1) p`_i *: (X ^+ i * Z ^+ (k - i)).
Lemma homS k p : hom k.+1 p = p`_k.+1 *: X ^+ k.+1 + Z * hom k p.
Proof.
rewrite /hom big_ord_recr /= subnn expr0 mulr1 addrC; congr (_ + _).
rewrite mulr_sumr; apply: eq_bigr => -[i li] _ /=; rewrite -scalerAr; congr (_ *: _).
by rewrite mulrCA -exprS subSn.
Qed.
Lemma hom0 p : hom 0 p = (p`_0)%:P.
Proof. by rewrite /hom big_ord_recl big_ord0 addr0 subnn !expr0 mulr1 -alg_polyC. Qed.
Notation e := (size X).-1.
Lemma e_X : size X = e.+1. Proof. by rewrite prednK //; exact: leq_ltn_trans sXZ. Qed.
Lemma X0 : X != 0. Proof. by rewrite -size_poly_gt0; exact: leq_ltn_trans sXZ. Qed.
Lemma size_Xn k : size (X ^+ k) = (k * e).+1.
Proof.
have := size_exp X k; have s : (0 < size (X ^+ k))%N by rewrite size_poly_gt0 expf_neq0 // X0.
by rewrite mulnC => <-; rewrite prednK.
Qed.
Lemma size_hom_le k p : (size (hom k p) <= (k * e).+1)%N.
Proof.
elim: k => [|k IH]; first by rewrite hom0 mul0n size_polyC; case: (_ != 0).
rewrite homS; apply: leq_trans (size_add _ _) _; rewrite geq_max; apply/andP; split.
  by apply: leq_trans (size_scale_leq _ _) _; rewrite size_Xn.
apply: leq_trans (size_mul_leq _ _) _.
have := e_X; move: sXZ IH; rewrite mulSn; move: (size (hom k p)) (size Z) (size X) => u v w; clear; lia.
Qed.
Lemma size_Zhom k p : (size (Z * hom k p)%R < (k.+1 * e).+1)%N.
Proof.
apply: leq_ltn_trans (size_mul_leq _ _) _.
have := size_hom_le k p; have := e_X; move: sXZ; rewrite mulSn; move: (size (hom k p)) (size Z) (size X) => u v w; clear; lia.
Qed.
Lemma size_hom k (p : {poly F}) : p`_k != 0 -> size (hom k p) = (k * e).+1.
Proof.
case: k => [|k] pk; first by rewrite hom0 mul0n size_polyC pk.
have s1 : size (p`_k.+1 *: X ^+ k.+1) = (k.+1 * e).+1 by rewrite size_scale // size_Xn.
by rewrite homS size_addl // s1 size_Zhom.
Qed.
Lemma hom_copZ k (p : {poly F}) : p`_k.+1 != 0 -> coprimep (hom k.+1 p) Z.
Proof.
move=> pk; rewrite homS coprimep_sym addrC mulrC coprimep_addl_mul coprimepZr // coprimep_expr //.
by rewrite coprimep_sym.
Qed.

Variable K : fieldType.
Variable io : {rmorphism {poly F} -> K}.
Hypothesis io_inj : injective io.
Definition ioc : {rmorphism F -> K} := [rmorphism of io \o polyC].
Definition R : K := io X / io Z.
Lemma comm_R : commr_rmorph ioc R. Proof. by move=> x; exact: mulrC. Qed.
Definition hR : {rmorphism {poly F} -> K} := horner_rmorphism comm_R.
Lemma hRE p : hR p = (map_poly ioc p).[R]. Proof. by []. Qed.
Lemma iZ0 : io Z != 0. Proof. by apply/eqP => h; move/eqP: Z0; apply; apply: io_inj; rewrite h rmorph0. Qed.
Lemma homE k (p : {poly F}) : (size p <= k.+1)%N -> io (hom k p) = hR p * io Z ^+ k.
Proof.
move=> sp; rewrite hRE (@horner_coef_wide _ k.+1); last by rewrite size_map_poly.
rewrite mulr_suml /hom rmorph_sum; apply: eq_bigr => -[i li] _ /=.
rewrite coef_map -mul_polyC !rmorphM /= -!mulrA; congr (_ * _).
rewrite /R !rmorphX expr_div_n mulrAC -mulrA; congr (_ * _).
by rewrite -[in RHS](@subnK i k) // exprD mulfK // expf_neq0 // iZ0.
Qed.
Lemma hR_inj : injective hR.
Proof.
apply: raddf_inj => p h; have {}h : hR p = 0 := h; apply/eqP/negPn/negP => p0.
have sp : size p = (size p).-1.+1 by rewrite prednK // size_poly_gt0.
have h1 := @homE (size p).-1 p; rewrite -sp leqnn h mul0r in h1.
have h2 : hom (size p).-1 p = 0 by apply: io_inj; rewrite h1 // rmorph0.
have := @size_hom (size p).-1 p; rewrite h2 size_poly0 => h3.
by have := h3; rewrite -/(lead_coef p) lead_coef_eq0 p0 => /(_ isT).
Qed.
(** The reduced fraction of P(R) for a reduced fraction P = U / V. *)
Lemma comp_rep (U V : {poly F}) : coprimep U V -> V != 0 -> (size V < size U)%N ->
  exists A B : {poly F}, [/\ B != 0, coprimep A B, hR U / hR V = io A / io B, (size B < size A)%N & size A = ((size U).-1 * e).+1].
Proof.
move=> cUV V0 sVU; have U0 : U != 0 by rewrite -size_poly_gt0; exact: leq_ltn_trans sVU.
set n := (size U).-1; set m := (size V).-1.
have sV : size V = m.+1 by rewrite prednK // size_poly_gt0.
have sU : size U = n.+1 by rewrite prednK // size_poly_gt0.
have mn : (m < n)%N by move: sVU; rewrite sV sU.
have Un : U`_n != 0 by rewrite -/(lead_coef U) lead_coef_eq0.
have Vm : V`_m != 0 by rewrite -/(lead_coef V) lead_coef_eq0.
have n0 : n = n.-1.+1 by rewrite prednK //; exact: leq_ltn_trans mn.
have eA := homE (eq_leq sU). have eB := homE (eq_leq sV).
have sA := size_hom Un. have sB := size_hom Vm.
have A0 : hom n U != 0 by rewrite -size_poly_gt0 sA.
have B0 : hom m V != 0 by rewrite -size_poly_gt0 sB.
have cAZ : coprimep (hom n U) Z by rewrite n0; apply: hom_copZ; rewrite -n0.
exists (hom n U), (Z ^+ (n - m) * hom m V); split=> //.
- by rewrite mulf_neq0 ?expf_neq0.
- rewrite coprimepMr coprimep_expr //=; apply/coprimepP => d dA dB.
  have [[u v] /= e1] := Bezout_eq1_coprimepP _ _ cUV.
  have dZ : d %| Z ^+ (size u + size v + n + m).
    set k := (size u + size v)%N.
    have eu : io (hom k u) = hR u * io Z ^+ k by apply: homE; rewrite /k; apply: leqW; exact: leq_addr.
    have ev : io (hom k v) = hR v * io Z ^+ k by apply: homE; rewrite /k; apply: leqW; exact: leq_addl.
    have e2 : hR u * hR U + hR v * hR V = 1 by rewrite -!rmorphM -rmorphD e1 rmorph1.
    have -> : Z ^+ (k + n + m) = hom k u * Z ^+ m * hom n U + hom k v * Z ^+ n * hom m V.
      apply: io_inj; rewrite rmorphD !rmorphM eA eB eu ev !rmorphX !exprD.
      exact: (rearr (ring_rt K) _ _ _ e2).
    by rewrite dvdp_add ?dvdp_mull.
  have : d %| 1; last by rewrite dvdp1 size_poly_eq1.
  have cd : coprimep d (Z ^+ (size u + size v + n + m)) by apply: coprimep_expr; exact: (coprimep_dvdr dA cAZ).
  by rewrite -(Gauss_dvdpr 1 cd) mulr1.
- rewrite rmorphM eA eB rmorphX.
  have z0 j : io Z ^+ j != 0 by rewrite expf_neq0 // iZ0.
  have hV : hR V != 0 by apply/eqP => h; move/eqP: V0; apply; apply: hR_inj; rewrite h rmorph0.
  rewrite mulrCA -exprD subnK; last exact: ltnW.
  by rewrite -mulf_div mulfV // mulr1.
- rewrite size_mulF ?expf_neq0 // sA sB addnS /=.
  have sz : (size (Z ^+ (n - m)) <= (n - m) * e)%N.
    have := size_exp Z (n - m); have := sXZ; have := e_X; have : (0 < size Z)%N by rewrite size_poly_gt0.
    have : (0 < n - m)%N by rewrite subn_gt0.
    move: (n - m)%N (size (Z ^+ _)) (size Z) (size X) => r u v w; clear; nia.
  have e0 : (n * e = (n - m) * e + m * e)%N by rewrite -mulnDl subnK // ltnW.
  by rewrite e0 ltnS leq_add2r.
Qed.
End Hom.
