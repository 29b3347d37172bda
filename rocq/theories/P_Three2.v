(** Schoof's comparison for l = 3 in terms of integers: points of order 3 on the curve and on its quadratic twist. *)
From Coq Require Import ZArith Znumtheory List ZifyBool.
From mathcomp Require Import all_ssreflect all_algebra closed_field.
From mathcomp Require Import zify.
From Verif Require Import Prelude M_Term M_DivPoly Spec SpecSchoof SpecTwist P_HasseZ P_EK P_Clos P_Three.
Set Implicit Arguments. Unset Strict Implicit. Unset Printing Implicit Defensive.
Import GRing.Theory.

Definition psi3z (a b x : Z) : Z := (3 * (x * x * x * x) + 6 * a * (x * x) + 12 * b * x - a * a)%Z.
Definition z1 (a b q : Z) : Prop := exists x y : Z, (q | y * y - (x * x * x + a * x + b))%Z /\ (q | psi3z a b x)%Z.
Definition zN (a b q : Z) : Prop := exists x : Z, (q | psi3z a b x)%Z /\ non_residue q (x * x * x + a * x + b).

Section Three2.
Variable q : Z.
Hypothesis pq : Znumtheory.prime q.
Hypothesis q3 : (3 < q)%Z.
Let n := Z.to_nat q.
Notation F := 'F_n.
Notation rd := (@red q).
Variables a b : Z.
Hypothesis disc : ~ (q | 4 * (a * a * a) + 27 * (b * b))%Z.
Local Open Scope ring_scope.
Let rD := red_add pq. Let rM := red_mul pq. Let r1 := red_1 pq.
Lemma psi_red x : psi3K (rd a) (rd b) (rd x) = rd (psi3z a b x).
Proof.
rewrite /psi3z (_ : 3 = 1 + 1 + 1)%Z // (_ : 6 * a = (1 + 1) * (1 + 1 + 1) * a)%Z; last lia.
rewrite (_ : 12 * b = (1 + 1) * (1 + 1) * (1 + 1 + 1) * b)%Z; last lia.
rewrite -Z.add_opp_r !(rD, rM, r1, red_opp pq) /psi3K /P_Tors3.psi3 -!mulrA //.
Qed.
Lemma f_rd x : rd x * rd x * rd x + rd a * rd x + rd b = rd (x * x * x + a * x + b)%Z.
Proof. by rewrite !(rD, rM). Qed.
Lemma h1z : has1 (rd a) (rd b) <-> z1 a b q.
Proof.
split.
- case=> x [y []]; rewrite -(red_back pq x) -(red_back pq y) f_rd -rM psi_red => /(red_eq pq) h1 /(red_eq0 pq) h2.
  by exists (back x), (back y).
- case=> x [y [h1 h2]]; exists (rd x), (rd y); rewrite f_rd psi_red -rM; split; [exact/(red_eq pq)|exact/(red_eq0 pq)].
Qed.
Lemma hNz : hasN (rd a) (rd b) <-> zN a b q.
Proof.
split.
- case=> x []; rewrite -(red_back pq x) psi_red => /(red_eq0 pq) h2 h; exists (back x); split=> // -[y hy].
  apply: (h (rd y)); rewrite f_rd -rM; exact/(red_eq pq).
- case=> x [h1 h2]; exists (rd x); rewrite f_rd psi_red; split; first exact/(red_eq0 pq).
  move=> y; rewrite -(red_back pq y) -rM => /(red_eq pq) h; apply: h2; by exists (back y).
Qed.
Lemma three_one_yes : (q mod 3 = 1)%Z -> z1 a b q \/ zN a b q -> ~ (z1 a b q /\ zN a b q) -> x_matches a b q 3 1.
Proof.
move=> qm; rewrite -h1z -hNz => h1 h2; have [K [i _]] := countable_algebraic_closure [countFieldType of F].
apply/(xs_one pq q3 disc i qm); exact: (@all1_yes [finFieldType of F] K i (rd a) (rd b) (t_c2 pq q3) (t_c3 pq q3) (t_dd pq disc) n (t_cp pq i) (t_card pq) h1 h2).
Qed.
Lemma three_one_no : (q mod 3 = 1)%Z -> ~ z1 a b q -> ~ zN a b q -> ~ x_matches a b q 3 1.
Proof.
move=> qm; rewrite -h1z -hNz => h1 h2; have [K [i _]] := countable_algebraic_closure [countFieldType of F].
move=> /(xs_one pq q3 disc i qm); exact: (@all1_no [finFieldType of F] K i (rd a) (rd b) (t_c2 pq q3) (t_c3 pq q3) (t_dd pq disc) n (t_cp pq i) (t_card pq) h1 h2).
Qed.
Lemma three_two_yes : (q mod 3 = 2)%Z -> ~ z1 a b q -> ~ zN a b q -> x_matches a b q 3 1.
Proof.
move=> qm; rewrite -h1z -hNz => h1 h2; have [K [i _]] := countable_algebraic_closure [countFieldType of F].
apply/(xs_two pq q3 disc i qm); exact: (@all2_yes [finFieldType of F] K i (rd a) (rd b) (t_c2 pq q3) (t_c3 pq q3) (t_dd pq disc) n (t_cp pq i) (t_card pq) h1 h2).
Qed.
Lemma three_two_no : (q mod 3 = 2)%Z -> z1 a b q -> ~ x_matches a b q 3 1.
Proof.
move=> qm; rewrite -h1z => h1; have [K [i _]] := countable_algebraic_closure [countFieldType of F].
move=> /(xs_two pq q3 disc i qm); exact: (@all2_no [finFieldType of F] K i (rd a) (rd b) (t_c2 pq q3) (t_dd pq disc) n (t_cp pq i) (t_card pq) h1).
Qed.
End Three2.
