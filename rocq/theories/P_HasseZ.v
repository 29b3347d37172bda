(** Hasse's bound, part 5: the theorem for solutions modulo p in Z. *)
From Coq Require Import ZArith Znumtheory List FinFun.
From mathcomp Require Import all_ssreflect all_algebra zify.
From Verif Require Import P_HasseFrob P_HasseFin.
Set Implicit Arguments. Unset Strict Implicit. Unset Printing Implicit Defensive.
Import GRing.Theory.
Delimit Scope Z_scope with ZZ.

Lemma prime_nat (p : Z) : Znumtheory.prime p -> prime.prime (Z.to_nat p).
Proof.
move=> pp; have p2 := prime_ge_2 _ pp.
apply/primeP; split; first lia.
move=> d /dvdnP [k e].
have dp : (Z.of_nat d | p)%ZZ by exists (Z.of_nat k); lia.
case: (prime_divisors _ pp _ dp) => [|[|[|]]] h; lia.
Qed.

Section Bridge.
Variable p : Z.
Hypothesis pp : Znumtheory.prime p.
Let n := Z.to_nat p.
Let pn : prime.prime n := prime_nat pp.
Let p0 : (0 < p)%ZZ. Proof. have := prime_ge_2 _ pp; lia. Qed.
Local Open Scope ring_scope.
Notation F := 'F_n.
Definition red (z : Z) : F := (Z.to_nat (z mod p))%:R.
Definition back (x : F) : Z := Z.of_nat (nat_of_ord x).


Lemma nF : n%:R = 0 :> F. Proof. exact: (char_Fp_0 pn). Qed.
Lemma natr_eq (u v : nat) : (p | Z.of_nat u - Z.of_nat v)%ZZ -> u%:R = v%:R :> F.
Proof.
wlog h : u v / (v <= u)%N => [H d|[k e]].
  case: (leqP v u) => [h|/ltnW h]; first exact: H.
  apply/esym/H => //; have -> : (Z.of_nat v - Z.of_nat u = - (Z.of_nat u - Z.of_nat v))%ZZ by lia.
  by apply Z.divide_opp_r.
have k0 : (0 <= k)%ZZ by nia.
have -> : u = (v + Z.to_nat k * n)%N by rewrite /n; nia.
by rewrite natrD natrM nF mulr0 addr0.
Qed.
Lemma modp z : (p | z - z mod p)%ZZ.
Proof. exists (z / p)%ZZ; have := Z.div_mod z p; lia. Qed.
Lemma modp0 z : (0 <= z mod p < p)%ZZ. Proof. exact: Z.mod_pos_bound. Qed.
Lemma red_add x y : red (x + y)%ZZ = red x + red y.
Proof.
rewrite /red -natrD; apply: natr_eq; rewrite Nat2Z.inj_add !Z2Nat.id; try by apply modp0.
have [k1 e1] := modp x; have [k2 e2] := modp y; have [k3 e3] := modp (x + y).
exists (k1 + k2 - k3)%ZZ; lia.
Qed.
Lemma red_mul x y : red (x * y)%ZZ = red x * red y.
Proof.
rewrite /red -natrM; apply: natr_eq; rewrite Nat2Z.inj_mul !Z2Nat.id; try by apply modp0.
have [k1 e1] := modp x; have [k2 e2] := modp y; have [k3 e3] := modp (x * y).
exists (k1 * y + (x mod p) * k2 - k3)%ZZ; nia.
Qed.
Lemma red_eq0 z : red z = 0 <-> (p | z)%ZZ.
Proof.
split=> h.
- have := congr1 (fun x : F => nat_of_ord x) h; rewrite /red (val_Fp_nat pn) /= => e.
  have b0 := modp0 z; have [k ek] := modp z.
  have lt : (Z.to_nat (z mod p) < n)%N by rewrite /n; lia.
  rewrite (modn_small lt) in e; exists k; lia.
- rewrite /red; apply: (@natr_eq _ 0%N); rewrite Z2Nat.id; last by apply modp0.
  have [k1 e1] := modp z; have [k2 e2] := h; exists (k2 - k1)%ZZ; lia.
Qed.
Lemma red_0 : red 0 = 0. Proof. by apply/red_eq0; exists 0%ZZ. Qed.
Lemma red_opp x : red (- x)%ZZ = - red x.
Proof. by apply/eqP; rewrite -addr_eq0 -red_add; apply/eqP/red_eq0; exists 0%ZZ; lia. Qed.
Lemma red_1 : red 1 = 1.
Proof. rewrite /red -[RHS]/(1%:R); apply: natr_eq; rewrite Z2Nat.id; [|by apply modp0]; have [k e] := modp 1; exists (- k)%ZZ; lia. Qed.
Lemma back_bound x : (0 <= back x < p)%ZZ.
Proof. rewrite /back; have := ltn_ord x; rewrite [X in (_ < X)%N](Fp_cast pn) /n; lia. Qed.
Lemma red_back x : red (back x) = x.
Proof.
rewrite -[RHS]natr_Zp /red; apply: natr_eq; rewrite Z2Nat.id; last by apply modp0.
have [k e] := modp (back x); exists (- k)%ZZ; rewrite /back in e *; lia.
Qed.
Lemma back_red z : (0 <= z < p)%ZZ -> back (red z) = z.
Proof. move=> h; rewrite /back /red (val_Fp_nat pn) Z.mod_small // modn_small; lia. Qed.
Lemma red_eq x y : red x = red y <-> (p | x - y)%ZZ.
Proof. by rewrite -red_eq0 red_add red_opp; split=> [->|/eqP]; [exact: subrr|rewrite subr_eq0 => /eqP]. Qed.
End Bridge.

Section HasseZ.
Variables a b p : Z.
Hypothesis pp : Znumtheory.prime p.
Hypothesis p2 : p <> 2%ZZ.
Hypothesis disc : ~ (p | 4 * (a * a * a) + 27 * (b * b))%ZZ.
Let n := Z.to_nat p.
Let pn : prime.prime n := prime_nat pp.
Local Open Scope ring_scope.
Notation F := 'F_n.
Notation rd := (@red p).
Definition sols : {set F * F} := [set xy : F * F | xy.2 * xy.2 == f (rd a) (rd b) xy.1].
Definition zsols : list (Z * Z) := [seq (back xy.1, back xy.2) | xy <- enum sols].

Let po : odd n.
Proof. case: (even_prime pn) => // h; exfalso; apply: p2; have := prime_ge_2 _ pp; rewrite /n in h; lia. Qed.
Let p3 : (2 < n)%N. Proof. by apply: odd_prime_gt2. Qed.
Let h := n./2.
Let nh : n = (2 * h).+1. Proof. by rewrite -{1}(odd_double_half n) po /h; lia. Qed.
Let qh : #|F| = (2 * h).+1. Proof. by rewrite (card_Fp pn) -nh. Qed.
Let h0 : (0 < h)%N. Proof. by move: p3; rewrite nh; lia. Qed.
Let qc : [char F].-nat #|F|. Proof. by rewrite (card_Fp pn) pnatE // char_Fp. Qed.
Let rD := red_add pp. Let rM := red_mul pp. Let r1 := red_1 pp.
Let c2 : 1 + 1 != 0 :> F.
Proof.
rewrite -r1 -rD; apply/eqP => /(red_eq0 pp) /Zdivide_le; have := prime_ge_2 _ pp; lia.
Qed.
Let dd : (1 + 1) * (1 + 1) * (rd a * rd a * rd a) + (1 + 1 + 1) * (1 + 1 + 1) * (1 + 1 + 1) * (rd b * rd b) != 0.
Proof. by rewrite -r1 -!(rD, rM); apply/eqP => /(red_eq0 pp); exact: disc. Qed.
Lemma f_red x : f (rd a) (rd b) (rd x) = rd (x * x * x + a * x + b)%ZZ.
Proof. by rewrite /f -!(rD, rM). Qed.
Lemma mem_sols x y : ((rd x, rd y) \in sols) <-> (p | y * y - (x * x * x + a * x + b))%ZZ.
Proof. by rewrite inE /= f_red -rM -(red_eq pp); split=> [/eqP|->]. Qed.
Lemma In_mem (T : eqType) (x : T) (s : seq T) : List.In x s <-> x \in s.
Proof.
elim: s => //= y s IH; rewrite inE; split.
  by case=> [->|/IH ->]; rewrite ?eqxx ?orbT.
by case/orP=> [/eqP ->|/IH]; [left|right].
Qed.
Lemma uniq_NoDup (T : eqType) (s : seq T) : uniq s -> List.NoDup s.
Proof.
elim: s => [|x s IH] /=; first by constructor.
by case/andP=> h1 /IH; constructor=> // /In_mem; apply/negP.
Qed.
Lemma zsols_in x y : List.In (x, y) zsols <-> (0 <= x < p)%ZZ /\ (0 <= y < p)%ZZ /\ (p | y * y - (x * x * x + a * x + b))%ZZ.
Proof.
rewrite /zsols List.in_map_iff; split.
- case=> -[u v] [[<- <-]] /In_mem; rewrite mem_enum => h1; do !split; try by apply (back_bound pp).
  by apply/mem_sols; rewrite !(red_back pp).
- case=> hx [hy /mem_sols e]; exists (rd x, rd y); rewrite !(back_red pp) //; split=> //.
  by apply/In_mem; rewrite mem_enum.
Qed.
Lemma zsols_NoDup : List.NoDup zsols.
Proof.
apply: FinFun.Injective_map_NoDup; last by apply: uniq_NoDup; exact: enum_uniq.
move=> [u v] [u' v'] /= e; have e1 := congr1 fst e; have e2 := congr1 snd e; rewrite /= in e1 e2.
by rewrite -(red_back pp u) -(red_back pp v) e1 e2 !(red_back pp).
Qed.
Lemma zsols_length : length zsols = #|sols|.
Proof. by rewrite /zsols List.map_length cardE. Qed.
Local Open Scope Z_scope.
Lemma hasse_Z : (Z.of_nat (length zsols) - p) * (Z.of_nat (length zsols) - p) <= 4 * p.
Proof.
have := hasse_fin qh h0 qc c2 dd; rewrite zsols_length /sols (card_Fp pn) /n Z2Nat.id //; have := prime_ge_2 _ pp; lia.
Qed.
(** Without a root of the cubic, the affine points come in pairs. *)
Lemma noroot_even : (forall x, 0 <= x < p -> ~ (p | x * x * x + a * x + b)) -> (2 | Z.of_nat (length zsols)).
Proof.
move=> nr; rewrite zsols_length /sols (card_curve qh h0 _ _ c2).
have -> : n0 (rd a) (rd b) = 0%N.
  apply/eqP; rewrite /n0 /rs size_eq0; apply/eqP/eqP; rewrite -(negbK (_ == _)) -has_filter; apply/hasPn => x _.
  apply/eqP; rewrite -(red_back pp x) f_red => /(red_eq0 pp); apply: nr; exact: back_bound.
by move: (np _ _ _) => m; exists (Z.of_nat m); lia.
Qed.
End HasseZ.
