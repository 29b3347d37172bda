(** The number of roots of x^3 + a x + b modulo p, the points of order 2 and the discriminant. *)
From Coq Require Import Znumtheory ZifyBool Permutation.
From Verif Require Import Prelude M_Bigint M_Variable M_Term M_Poly M_DivPoly M_Curve Spec SpecCurve SpecTwist P_Bigint P_Variable P_FSum P_Poly P_Subst P_Subst2 P_Subst3 P_Group P_Fp P_Curve P_Curve2 P_Curve3 P_Curve4 P_CurveProps P_HasseProps P_Euler P_TwistProps P_DivUni P_DivUni2 P_AbGroup P_Torsion P_TorsionProps P_TorsCount P_Cubic.
Open Scope Z_scope.

(** ** Lagrange for subgroups given as lists *)
Section Lagrange.
Variables (T : Type) (op : T -> T -> T) (e : T) (inv : T -> T) (on : T -> Prop) (dec : forall x y : T, {x = y} + {x <> y}) (G : list T).
Hypothesis on_e : on e.
Hypothesis on_op : forall x y, on x -> on y -> on (op x y).
Hypothesis on_inv : forall x, on x -> on (inv x).
Hypothesis comm : forall x y, on x -> on y -> op x y = op y x.
Hypothesis assoc : forall x y z, on x -> on y -> on z -> op (op x y) z = op x (op y z).
Hypothesis e_l : forall x, on x -> op e x = x.
Hypothesis inv_l : forall x, on x -> op (inv x) x = e.
Hypothesis G_nodup : NoDup G.
Hypothesis G_in : forall x, In x G <-> on x.
Notation subgroup := (subgroup T op e on).
Lemma sub_extend (xs : list T) : (forall x, In x xs -> on x) -> forall H, subgroup H -> exists H' k, subgroup H' /\ length H' = (k * length H)%nat /\ (forall x, In x H \/ In x xs -> In x H').
Proof.
  induction xs as [|x xs IH]; intros Hxs H SH.
  - exists H, 1%nat. split; [exact SH|]. split; [lia|]. intros y [I|[]]. exact I.
  - destruct (IH (fun y I => Hxs y (or_intror I)) H SH) as (H1 & k1 & S1 & L1 & I1).
    destruct (extend T op e inv on dec G on_e on_op on_inv comm assoc e_l inv_l G_in H1 x S1 (Hxs x (or_introl eq_refl))) as (H2 & k2 & S2 & L2 & I2 & Ix & _).
    exists H2, (k2 * k1)%nat. split; [exact S2|]. split; [rewrite L2, L1; lia|]. intros y [I|[<-|I]]; auto.
Qed.
Lemma sub_divides H : subgroup H -> Nat.divide (length H) (length G).
Proof.
  intros SH. destruct (sub_extend G (fun x I => proj1 (G_in x) I) H SH) as (H' & k & (N & _ & O & _) & L & I).
  exists k. rewrite <- L. apply same_length; [exact G_nodup|exact N|]. intros x. rewrite G_in. split; [intros Hx; apply I; right; apply G_in, Hx|apply O].
Qed.
End Lagrange.

(** The number of n-torsion points divides the number of points. *)
Lemma tors_divides a b p E n L : elliptic a b p -> ec_new a b p = Ok E -> 1 <= n -> NoDup L ->
  (forall P, In P L <-> In P (ec_points E) /\ ec_mult a p (affine p P) (Z.to_nat n) None) -> (Z.of_nat (length L) | cardinality E).
Proof.
  intros HEl HE Hn NL HL. rewrite (tors_list a b p E HEl HE (Z.to_nat n) L NL HL), (i_card p E). apply divide_Z.
  apply (sub_divides apoint (esum a p (proj1 HEl)) None (ec_neg p) (on_curve a b p) apdec (map (affine p) (ec_points E)) I (i_op a b p HEl) (i_inv a b p HEl) (i_comm a b p HEl) (i_assoc a b p HEl) (i_el a b p HEl) (i_inv_l a b p HEl) (i_nodup a b p E HE) (i_in a b p E HE)).
  split; [apply (i_tors_nodup a b p E HEl HE)|]. split; [|split].
  - apply (i_tors a b p E HEl HE). split; [exact I|]. apply (i_mult a b p HEl); [exact I|]. apply (mul_e apoint (esum a p (proj1 HEl)) None (on_curve a b p) I (i_el a b p HEl)).
  - intros x Ix. apply (i_tors a b p E HEl HE) in Ix. tauto.
  - intros x y Ix Iy. apply (i_tors a b p E HEl HE) in Ix. apply (i_tors a b p E HEl HE) in Iy. destruct Ix as (Ox & Mx), Iy as (Oy & My). apply (i_tors a b p E HEl HE).
    split; [apply (i_op a b p HEl); assumption|]. apply (i_mult a b p HEl); [apply (i_op a b p HEl); assumption|]. apply (i_mult a b p HEl) in Mx; [|exact Ox]. apply (i_mult a b p HEl) in My; [|exact Oy].
    rewrite (mul_op apoint (esum a p (proj1 HEl)) None (on_curve a b p) I (i_op a b p HEl) (i_comm a b p HEl) (i_assoc a b p HEl) (i_el a b p HEl)) by assumption.
    rewrite Mx, My. apply (i_el a b p HEl). exact I.
Qed.

(** ** Points of order 2 and roots of the cubic *)
Lemma tc_2 a b x : tc_n a b 2 x = x * x * x + a * x + b.
Proof. unfold tc_n, uv. change (psi a b 2) with (Ok [(mkMono 0 1 0 None, 2)]). change (Z.odd 2) with false. cbv iota. replace (fval x 1 [(mkMono 0 1 0 None, 2)]) with 2 by (cbn [fval]; unfold mval; cbn [mx my]; ring). rewrite Z.div_same by discriminate. ring. Qed.
Lemma two_len a b p E L R : elliptic a b p -> ec_new a b p = Ok E -> NoDup L ->
  (forall P, In P L <-> In P (ec_points E) /\ ec_mult a p (affine p P) 2 None) ->
  NoDup R -> (forall x, In x R <-> 0 <= x < p /\ (p | x * x * x + a * x + b)) -> Z.of_nat (length L) = 1 + Z.of_nat (length R).
Proof.
  intros HEl HE NL HL NR HR. pose proof HEl as (Pp & P2 & NS). pose proof (prime_ge_2 p Pp).
  rewrite (tors_len a b p E 2 L HEl HE ltac:(lia) NL HL). f_equal.
  rewrite <- (rsum_list a b p 2 R); [|lia|exact NR|intros x; rewrite HR, tc_2; reflexivity].
  unfold rsum. apply sumZ_ext. intros x _. unfold tsum. rewrite tc_2. destruct (_ =? 0) eqn:D; [|reflexivity].
  apply (nsq_0 p Pp P2). apply Z.mod_divide; [lia|]. apply Z.eqb_eq, D.
Qed.

(** ** The roots and the discriminant *)
Section Roots.
Variables a b p : Z.
Hypothesis HEl : elliptic a b p.
Let Pp : prime p := proj1 HEl.
Let P2 : p <> 2 := proj1 (proj2 HEl).
Let NS : nonsingular a b p := proj2 (proj2 HEl).
Definition discsq : Prop := exists s, (p | s * s + (4 * (a * a * a) + 27 * (b * b))).
Lemma two_inv z : (p | 2 * z) -> (p | z).
Proof. intros D. apply prime_mult in D; [|exact Pp]. destruct D as [D|D]; [|exact D]. exfalso. apply P2. apply prime_div_prime in D; [exact D|exact Pp|exact prime_2]. Qed.
Lemma disc_root r : (p | r * r * r + a * r + b) -> (p | (4 * (a * a * a) + 27 * (b * b)) - (3 * r * r + 4 * a) * ((3 * r * r + a) * (3 * r * r + a))).
Proof.
  intros (k & Hk). replace b with (k * p - r * r * r - a * r) by lia. exists (27 * k * (k * p - 2 * (r * r * r + a * r))). ring.
Qed.
Lemma deriv_nz r : (p | r * r * r + a * r + b) -> ~ (p | 3 * r * r + a).
Proof.
  intros D D1. apply NS. replace (4 * (a * a * a) + 27 * (b * b)) with (((4 * (a * a * a) + 27 * (b * b)) - (3 * r * r + 4 * a) * ((3 * r * r + a) * (3 * r * r + a))) + (3 * r * r + 4 * a) * ((3 * r * r + a) * (3 * r * r + a))) by ring.
  apply Z.divide_add_r; [apply disc_root, D|]. apply Z.divide_mul_r, Z.divide_mul_r, D1.
Qed.
(** With a root r the discriminant is a square iff the discriminant of the quotient is. *)
Lemma disc_quad r : (p | r * r * r + a * r + b) -> (discsq <-> exists t, (p | t * t + (3 * r * r + 4 * a))).
Proof.
  intros D. pose proof (deriv_nz r D) as N. pose proof (disc_root r D) as DR. split.
  - intros (s & Hs). destruct (rel_prime_bezout (3 * r * r + a) p) as [e k Ek]; [apply rel_prime_sym, prime_rel_prime; [exact Pp|exact N]|].
    exists (s * e). assert (D1 : (p | s * s + (3 * r * r + 4 * a) * ((3 * r * r + a) * (3 * r * r + a)))).
    { replace (s * s + (3 * r * r + 4 * a) * ((3 * r * r + a) * (3 * r * r + a))) with ((s * s + (4 * (a * a * a) + 27 * (b * b))) - (4 * (a * a * a) + 27 * (b * b) - (3 * r * r + 4 * a) * ((3 * r * r + a) * (3 * r * r + a)))) by ring. apply Z.divide_sub_r; assumption. }
    replace (s * e * (s * e) + (3 * r * r + 4 * a)) with ((s * s + (3 * r * r + 4 * a) * ((3 * r * r + a) * (3 * r * r + a))) * (e * e) + (3 * r * r + 4 * a) * (1 - (e * (3 * r * r + a)) * (e * (3 * r * r + a)))) by ring.
    apply Z.divide_add_r; [apply Z.divide_mul_l, D1|]. apply Z.divide_mul_r. replace (e * (3 * r * r + a)) with (1 - k * p) by lia. exists (k * (2 - k * p)). ring.
  - intros (t & Ht). exists (t * (3 * r * r + a)).
    replace (t * (3 * r * r + a) * (t * (3 * r * r + a)) + (4 * (a * a * a) + 27 * (b * b))) with ((t * t + (3 * r * r + 4 * a)) * ((3 * r * r + a) * (3 * r * r + a)) + ((4 * (a * a * a) + 27 * (b * b)) - (3 * r * r + 4 * a) * ((3 * r * r + a) * (3 * r * r + a)))) by ring.
    apply Z.divide_add_r; [apply Z.divide_mul_l, Ht|exact DR].
Qed.
(** A second root makes the discriminant of the quotient a square. *)
Lemma other_root r x : (p | r * r * r + a * r + b) -> (p | x * x * x + a * x + b) -> ~ (p | x - r) -> (p | (2 * x + r) * (2 * x + r) + (3 * r * r + 4 * a)).
Proof.
  intros D Dx N. assert (K : (p | (x - r) * ((2 * x + r) * (2 * x + r) + (3 * r * r + 4 * a)))).
  { replace ((x - r) * ((2 * x + r) * (2 * x + r) + (3 * r * r + 4 * a))) with (4 * (x * x * x + a * x + b) - 4 * (r * r * r + a * r + b)) by ring.
    apply Z.divide_sub_r; apply Z.divide_mul_r; assumption. }
  apply prime_mult in K; [|exact Pp]. tauto.
Qed.
Lemma mod_sub z : (p | z - z mod p).
Proof. pose proof (prime_ge_2 p Pp). exists (z / p). pose proof (Z.div_mod z p). lia. Qed.
Lemma root_count R : NoDup R -> (forall x, In x R <-> 0 <= x < p /\ (p | x * x * x + a * x + b)) ->
  (discsq /\ (length R = 0%nat \/ length R = 3%nat)) \/ (~ discsq /\ length R = 1%nat).
Proof.
  intros NR HR. pose proof (prime_ge_2 p Pp) as G. destruct R as [|r R'] eqn:ER.
  - left. split; [|left; reflexivity]. apply (cubic_square Pp). intros x D. apply (HR (x mod p)). split; [apply Z.mod_pos_bound; lia|].
    destruct (mod_sub x) as (k & Hk). replace (x mod p) with (x - k * p) by lia. destruct D as (m & Hm). exists (m - k * (3 * x * x - 3 * x * (k * p) + k * p * (k * p) + a)). replace b with (m * p - x * x * x - a * x) by lia. ring.
  - assert (Ir : 0 <= r < p /\ (p | r * r * r + a * r + b)) by (apply HR; left; reflexivity). destruct Ir as (Br & Dr).
    destruct (residue_or p (- (3 * r * r + 4 * a)) Pp P2) as [(t & Ht)|NT].
    + left. replace (t * t - - (3 * r * r + 4 * a)) with (t * t + (3 * r * r + 4 * a)) in Ht by ring.
      split; [apply (disc_quad r Dr); exists t; exact Ht|right].
      assert (Nt : ~ (p | t)).
      { intros D. apply NS. assert (D4 : (p | 3 * r * r + 4 * a)) by (replace (3 * r * r + 4 * a) with ((t * t + (3 * r * r + 4 * a)) - t * t) by ring; apply Z.divide_sub_r; [exact Ht|apply Z.divide_mul_l, D]).
        replace (4 * (a * a * a) + 27 * (b * b)) with (((4 * (a * a * a) + 27 * (b * b)) - (3 * r * r + 4 * a) * ((3 * r * r + a) * (3 * r * r + a))) + (3 * r * r + 4 * a) * ((3 * r * r + a) * (3 * r * r + a))) by ring.
        apply Z.divide_add_r; [apply disc_root, Dr|apply Z.divide_mul_l, D4]. }
      destruct (rel_prime_bezout 2 p) as [h k Eh]; [apply rel_prime_sym, prime_rel_prime; [exact Pp|intros D; apply P2; apply prime_div_prime in D; [exact D|exact Pp|exact prime_2]]|].
      set (s1 := (h * (t - r)) mod p). set (s2 := (h * (- t - r)) mod p).
      assert (C1 : (p | 2 * s1 + r - t)).
      { destruct (mod_sub (h * (t - r))) as (m & Hm). fold s1 in Hm. replace s1 with (h * (t - r) - m * p) by lia. replace (2 * (h * (t - r) - m * p) + r - t) with ((h * 2 - 1) * (t - r) - 2 * m * p) by ring. replace (h * 2 - 1) with (- (k * p)) by lia. exists (- k * (t - r) - 2 * m). ring. }
      assert (C2 : (p | 2 * s2 + r + t)).
      { destruct (mod_sub (h * (- t - r))) as (m & Hm). fold s2 in Hm. replace s2 with (h * (- t - r) - m * p) by lia. replace (2 * (h * (- t - r) - m * p) + r + t) with ((h * 2 - 1) * (- t - r) - 2 * m * p) by ring. replace (h * 2 - 1) with (- (k * p)) by lia. exists (- k * (- t - r) - 2 * m). ring. }
      assert (B1 : 0 <= s1 < p) by (apply Z.mod_pos_bound; lia). assert (B2 : 0 <= s2 < p) by (apply Z.mod_pos_bound; lia).
      assert (RT : forall x, (p | (2 * x + r) * (2 * x + r) - t * t) -> (p | x * x * x + a * x + b)).
      { intros x D. apply two_inv, two_inv. replace (2 * (2 * (x * x * x + a * x + b))) with (4 * (r * r * r + a * r + b) + (x - r) * (((2 * x + r) * (2 * x + r) - t * t) + (t * t + (3 * r * r + 4 * a)))) by ring.
        apply Z.divide_add_r; [apply Z.divide_mul_r, Dr|]. apply Z.divide_mul_r, Z.divide_add_r; assumption. }
      assert (D1 : (p | s1 * s1 * s1 + a * s1 + b)) by (apply RT; replace ((2 * s1 + r) * (2 * s1 + r) - t * t) with ((2 * s1 + r - t) * (2 * s1 + r + t)) by ring; apply Z.divide_mul_l, C1).
      assert (D2 : (p | s2 * s2 * s2 + a * s2 + b)) by (apply RT; replace ((2 * s2 + r) * (2 * s2 + r) - t * t) with ((2 * s2 + r + t) * (2 * s2 + r - t)) by ring; apply Z.divide_mul_l, C2).
      assert (N12 : s1 <> s2).
      { intros Q. apply Nt, two_inv. replace (2 * t) with ((2 * s2 + r + t) - (2 * s1 + r - t)) by (rewrite Q; ring). apply Z.divide_sub_r; assumption. }
      assert (NQ : forall x, (p | (2 * x + r) * (2 * x + r) - t * t) -> x <> r).
      { intros x D ->. apply (deriv_nz r Dr). apply two_inv, two_inv. replace (2 * (2 * (3 * r * r + a))) with (((2 * r + r) * (2 * r + r) - t * t) + (t * t + (3 * r * r + 4 * a))) by ring. apply Z.divide_add_r; assumption. }
      assert (N1 : s1 <> r) by (apply NQ; replace ((2 * s1 + r) * (2 * s1 + r) - t * t) with ((2 * s1 + r - t) * (2 * s1 + r + t)) by ring; apply Z.divide_mul_l, C1).
      assert (N2 : s2 <> r) by (apply NQ; replace ((2 * s2 + r) * (2 * s2 + r) - t * t) with ((2 * s2 + r + t) * (2 * s2 + r - t)) by ring; apply Z.divide_mul_l, C2).
      change 3%nat with (length [r; s1; s2]). apply Permutation_length, NoDup_Permutation; [exact NR|repeat constructor; cbn; intuition congruence|].
      intros x. rewrite HR. cbn [In]. split; [|intros [<-|[<-|[<-|[]]]]; tauto]. intros (Bx & Dx).
      destruct (Zdivide_dec p (x - r)) as [E|N]; [left; apply near_zero in E; lia|].
      pose proof (other_root r x Dr Dx N) as O. right.
      assert (K : (p | (2 * x + r - t) * (2 * x + r + t))) by (replace ((2 * x + r - t) * (2 * x + r + t)) with (((2 * x + r) * (2 * x + r) + (3 * r * r + 4 * a)) - (t * t + (3 * r * r + 4 * a))) by ring; apply Z.divide_sub_r; assumption).
      apply prime_mult in K; [|exact Pp]. destruct K as [K|K]; [left|right; left].
      * assert (Q : (p | s1 - x)) by (apply two_inv; replace (2 * (s1 - x)) with ((2 * s1 + r - t) - (2 * x + r - t)) by ring; apply Z.divide_sub_r; assumption). apply near_zero in Q; lia.
      * assert (Q : (p | s2 - x)) by (apply two_inv; replace (2 * (s2 - x)) with ((2 * s2 + r + t) - (2 * x + r + t)) by ring; apply Z.divide_sub_r; assumption). apply near_zero in Q; lia.
    + right. assert (NQ : ~ exists t, (p | t * t + (3 * r * r + 4 * a))).
      { intros (t & Ht). apply NT. exists t. replace (t * t - - (3 * r * r + 4 * a)) with (t * t + (3 * r * r + 4 * a)) by ring. exact Ht. }
      split; [intros S0; apply NQ, (disc_quad r Dr), S0|]. destruct R' as [|x R'']; [reflexivity|]. exfalso.
      assert (Ix : 0 <= x < p /\ (p | x * x * x + a * x + b)) by (apply HR; right; left; reflexivity). destruct Ix as (Bx & Dx).
      assert (N : ~ (p | x - r)). { intros D. apply near_zero in D; [|lia|lia]. inversion NR as [|? ? NI _]; subst. apply NI. left. lia. }
      apply NQ. exists (2 * x + r). apply (other_root r x Dr Dx N).
Qed.
End Roots.
