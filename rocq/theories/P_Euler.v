(** Squares modulo an odd prime: Euler's criterion, sums over residues, the number of points as a sum of root counts. *)
From Coq Require Import Znumtheory ZifyBool Permutation.
From Verif Require Import Prelude M_Bigint M_Variable M_Term M_Poly M_Curve Spec SpecCurve P_Bigint P_FSum P_Poly P_Rem P_Subst2 P_Gcd P_Gcd2 P_Roots P_CurveProps.
Open Scope Z_scope.

(** x^n - 1 has at most n roots. *)
Definition unity_poly (n : Z) : fsum := [(mone, -1); (mkMono n 0 0 None, 1)].
Lemma unity_val n x : fval x 0 (unity_poly n) = x ^ n - 1.
Proof. unfold unity_poly. cbn [fval]. unfold mval, mone. cbn [mx my]. rewrite !Z.pow_0_r. ring. Qed.
Lemma unity_roots p n l : prime p -> 1 <= n -> NoDup l -> (forall x, In x l -> 0 <= x < p /\ (p | x ^ n - 1)) -> Z.of_nat (length l) <= n.
Proof.
  intros Hp Hn Nd H. pose proof (prime_ge_2 p Hp). change n with (mx (tm (highest_term_x (unity_poly n)))). apply (root_count p); try assumption.
  - split; [|split; [intros ? ? []|exact I]]. intros m c [E|[]]. injection E; intros; subst. unfold mono_cmp, mone. cbn [mx]. replace (0 <? n) with true by lia. reflexivity.
  - intros m c [E|[E|[]]]; injection E; intros; subst; cbn; intuition lia.
  - discriminate.
  - right. change (highest_term_x (unity_poly n)) with (mkTerm 1 (mkMono n 0 0 None)). cbn. intros D. apply Z.divide_pos_le in D; lia.
  - intros x Hx. rewrite unity_val. apply H, Hx.
Qed.

(** Divisibility helpers. *)
Lemma div_pow p x y n : (p | x - y) -> 0 <= n -> (p | x ^ n - y ^ n).
Proof.
  intros D Hn. pattern n. apply natlike_ind; [exists 0; reflexivity| |exact Hn]. intros k Hk IH. rewrite !Z.pow_succ_r by exact Hk.
  replace (x * x ^ k - y * y ^ k) with (x * (x ^ k - y ^ k) + (x - y) * y ^ k) by ring. apply Z.divide_add_r; [apply Z.divide_mul_r, IH|apply Z.divide_mul_l, D].
Qed.
Lemma near_zero p x : 0 < p -> - p < x < p -> (p | x) -> x = 0.
Proof. intros Hp B (k & ->). assert (k = 0) by nia. subst k. reflexivity. Qed.

Definition sqb (p c y : Z) : bool := (y * y - c) mod p =? 0.
Lemma sqb_true p c y : p <> 0 -> sqb p c y = true <-> (p | y * y - c).
Proof. intros Hp. unfold sqb. rewrite Z.eqb_eq. apply Z.mod_divide, Hp. Qed.
(** The number of y modulo p with y^2 = c. *)
Definition nsq (p c : Z) : Z := Z.of_nat (length (filter (sqb p c) (zrange 0 p))).
Lemma nsq_mod p c d : p <> 0 -> (p | c - d) -> nsq p c = nsq p d.
Proof.
  intros Hp D. unfold nsq. do 2 f_equal. apply filter_ext. intros y. apply eq_true_iff_eq. rewrite !sqb_true by exact Hp.
  split; intros H.
  - replace (y * y - d) with (y * y - c + (c - d)) by ring. apply Z.divide_add_r; assumption.
  - replace (y * y - c) with (y * y - d - (c - d)) by ring. apply Z.divide_sub_r; assumption.
Qed.
Lemma nsq_perm p c l : NoDup l -> p <> 0 -> (forall y, In y l <-> 0 <= y < p /\ (p | y * y - c)) -> nsq p c = Z.of_nat (length l).
Proof.
  intros Nd Hp H. unfold nsq. f_equal. apply Permutation_length, NoDup_Permutation; [apply NoDup_filter, NoDup_zrange|exact Nd|].
  intros y. rewrite filter_In, in_zrange, sqb_true by exact Hp. rewrite H. reflexivity.
Qed.

Section Euler.
Variable p : Z.
Hypothesis Pp : prime p.
Hypothesis P2 : p <> 2.
Let h := (p - 1) / 2.
Lemma p_odd : p = 2 * h + 1.
Proof.
  pose proof (prime_ge_2 p Pp). unfold h. pose proof (Z.div_mod (p - 1) 2 ltac:(lia)). pose proof (Z.mod_pos_bound (p - 1) 2 ltac:(lia)).
  destruct (Z.eq_dec ((p - 1) mod 2) 0); [lia|]. exfalso. assert (D: (2 | p)) by (exists ((p - 1) / 2 + 1); lia).
  apply (prime_divisors p Pp) in D. lia.
Qed.
Lemma h_pos : 1 <= h. Proof. pose proof p_odd. pose proof (prime_ge_2 p Pp). lia. Qed.
Lemma nsq_0 c : (p | c) -> nsq p c = 1.
Proof.
  pose proof (prime_ge_2 p Pp). intros D. apply (nsq_perm p c [0]); [repeat constructor; intros []|lia|]. intros y. cbn [In]. split.
  - intros [<-|[]]. split; [lia|]. replace (0 * 0 - c) with (- c) by ring. apply Z.divide_opp_r, D.
  - intros (B & E). left. assert (D2: (p | y * y)) by (replace (y * y) with (y * y - c + c) by ring; apply Z.divide_add_r; assumption).
    symmetry. apply (near_zero p); [lia|lia|]. apply prime_mult in D2; tauto.
Qed.
(** Euler's criterion, with the number of square roots. *)
Lemma euler c : ~ (p | c) -> (nsq p c = 2 /\ (p | c ^ h - 1)) \/ (nsq p c = 0 /\ (p | c ^ h + 1)).
Proof.
  intros Hc. pose proof (prime_ge_2 p Pp) as G. pose proof p_odd as PO. pose proof h_pos as H1.
  destruct (filter (sqb p c) (zrange 0 p)) as [|y r] eqn:Ef.
  - right. assert (No: forall y, 0 <= y < p -> ~ (p | y * y - c)).
    { intros y B D. assert (I: In y (filter (sqb p c) (zrange 0 p))) by (rewrite filter_In, in_zrange, sqb_true by lia; tauto). rewrite Ef in I. exact I. }
    split; [unfold nsq; rewrite Ef; reflexivity|].
    assert (D: (p | (c ^ h - 1) * (c ^ h + 1))).
    { replace ((c ^ h - 1) * (c ^ h + 1)) with (c ^ (p - 1) - 1); [apply fermat_little; assumption|]. replace (p - 1) with (h + h) by lia. rewrite Z.pow_add_r by lia. ring. }
    apply prime_mult in D; [|exact Pp]. destruct D as [D|D]; [exfalso|exact D].
    set (l := c mod p :: map (fun y => (y * y) mod p) (zrange 1 (h + 1))).
    assert (NR: forall y, 1 <= y < h + 1 -> ~ (p | y)) by (intros y B X; apply Z.divide_pos_le in X; lia).
    assert (L: Z.of_nat (length l) <= h).
    { apply (unity_roots p h l Pp H1).
      - constructor.
        + rewrite in_map_iff. intros (y & E & I). rewrite in_zrange in I. apply mod_eq_divide in E; [|lia]. apply (No y); [lia|exact E].
        + apply NoDup_map_inj_in; [|apply NoDup_zrange]. intros x y Hx Hy E. rewrite in_zrange in Hx, Hy. apply mod_eq_divide in E; [|lia].
          replace (x * x - y * y) with ((x - y) * (x + y)) in E by ring. apply prime_mult in E; [|exact Pp]. destruct E as [E|E].
          * apply near_zero in E; lia.
          * apply Z.divide_pos_le in E; lia.
      - intros x [<-|I].
        + split; [apply Z.mod_pos_bound; lia|]. replace ((c mod p) ^ h - 1) with ((c mod p) ^ h - c ^ h + (c ^ h - 1)) by ring. apply Z.divide_add_r; [|exact D].
          apply div_pow; [|lia]. apply mod_eq_divide; [lia|]. apply Z.mod_mod. lia.
        + apply in_map_iff in I. destruct I as (y & <- & I). rewrite in_zrange in I. split; [apply Z.mod_pos_bound; lia|].
          replace (((y * y) mod p) ^ h - 1) with (((y * y) mod p) ^ h - (y * y) ^ h + ((y * y) ^ h - 1)) by ring. apply Z.divide_add_r.
          * apply div_pow; [|lia]. apply mod_eq_divide; [lia|]. apply Z.mod_mod. lia.
          * rewrite Z.pow_mul_l, <- Z.pow_add_r by lia. replace (h + h) with (p - 1) by lia. apply fermat_little; [exact Pp|]. apply NR, I. }
    unfold l in L. cbn [length] in L. rewrite map_length, length_zrange in L. lia.
  - left. assert (I: In y (filter (sqb p c) (zrange 0 p))) by (rewrite Ef; left; reflexivity). rewrite filter_In, in_zrange, sqb_true in I by lia. destruct I as (B & D).
    assert (Ny: ~ (p | y)). { intros X. apply Hc. replace c with (y * y - (y * y - c)) by ring. apply Z.divide_sub_r; [apply Z.divide_mul_l, X|exact D]. }
    assert (y <> 0) by (intros ->; apply Ny, Z.divide_0_r). split.
    + apply (nsq_perm p c [y; p - y]).
      * constructor; [intros [E|[]]; lia|]. repeat constructor. intros [].
      * lia.
      * intros z. cbn [In]. split.
        -- intros [<-|[<-|[]]]; [tauto|]. split; [lia|]. replace ((p - y) * (p - y) - c) with (y * y - c + (p - 2 * y) * p) by ring. apply Z.divide_add_r; [exact D|]. apply Z.divide_factor_r.
        -- intros (Bz & Dz). assert (X: (p | (z - y) * (z + y))) by (replace ((z - y) * (z + y)) with (z * z - c - (y * y - c)) by ring; apply Z.divide_sub_r; assumption).
           apply prime_mult in X; [|exact Pp]. destruct X as [X|X]; [left; apply near_zero in X; lia|right; left].
           assert (X2: (p | z + y - p)) by (apply Z.divide_sub_r; [exact X|apply Z.divide_refl]). apply near_zero in X2; lia.
    + replace (c ^ h - 1) with (((y * y) ^ h - 1) - ((y * y) ^ h - c ^ h)) by ring. apply Z.divide_sub_r; [|apply div_pow; [exact D|lia]].
      rewrite Z.pow_mul_l, <- Z.pow_add_r by lia. replace (h + h) with (p - 1) by lia. apply fermat_little; assumption.
Qed.
Lemma not_both c : (p | c ^ h - 1) -> (p | c ^ h + 1) -> False.
Proof.
  intros A B. assert (D: (p | 2)) by (replace 2 with (c ^ h + 1 - (c ^ h - 1)) by ring; apply Z.divide_sub_r; assumption).
  apply Z.divide_pos_le in D; pose proof (prime_ge_2 p Pp); lia.
Qed.
Lemma nsq_cases c : nsq p c = 0 \/ nsq p c = 1 \/ nsq p c = 2.
Proof. destruct (Zdivide_dec p c) as [D|D]; [rewrite nsq_0 by exact D; tauto|]. destruct (euler c D) as [(-> & _)|(-> & _)]; tauto. Qed.
Lemma nsq_pow c : (p | nsq p c - 1 - c ^ h).
Proof.
  pose proof h_pos. destruct (Zdivide_dec p c) as [D|D].
  - rewrite nsq_0 by exact D. replace (1 - 1 - c ^ h) with (- c ^ h) by ring. apply Z.divide_opp_r. replace h with (Z.succ (h - 1)) by lia. rewrite Z.pow_succ_r by lia. apply Z.divide_mul_l, D.
  - destruct (euler c D) as [(-> & X)|(-> & X)]; [replace (2 - 1 - c ^ h) with (- (c ^ h - 1)) by ring|replace (0 - 1 - c ^ h) with (- (c ^ h + 1)) by ring]; apply Z.divide_opp_r, X.
Qed.
Lemma nsq_square c : nsq p c = 0 <-> ~ exists y, (p | y * y - c).
Proof.
  pose proof (prime_ge_2 p Pp) as G. unfold nsq. split.
  - intros E (y & D). destruct (filter (sqb p c) (zrange 0 p)) eqn:Ef; [|discriminate]. assert (I: In (y mod p) (filter (sqb p c) (zrange 0 p))).
    { rewrite filter_In, in_zrange, sqb_true by lia. split; [apply Z.mod_pos_bound; lia|]. replace (y mod p * (y mod p) - c) with ((y mod p - y) * (y mod p + y) + (y * y - c)) by ring.
      apply Z.divide_add_r; [|exact D]. apply Z.divide_mul_l. apply mod_eq_divide; [lia|]. apply Z.mod_mod. lia. }
    rewrite Ef in I. exact I.
  - intros N. destruct (filter (sqb p c) (zrange 0 p)) as [|y r] eqn:Ef; [reflexivity|]. exfalso. apply N. exists y.
    assert (I: In y (filter (sqb p c) (zrange 0 p))) by (rewrite Ef; left; reflexivity). rewrite filter_In, sqb_true in I by lia. tauto.
Qed.
(** Multiplying by a non-residue exchanges two roots with none. *)
Lemma nsq_twist d c : ~ (p | d) -> nsq p d = 0 -> nsq p c + nsq p (d * c) = 2.
Proof.
  intros Nd Hd. destruct (Zdivide_dec p c) as [D|D]; [rewrite !nsq_0; [reflexivity|apply Z.divide_mul_r, D|exact D]|].
  assert (Ndc: ~ (p | d * c)) by (intros X; apply prime_mult in X; tauto).
  destruct (euler d Nd) as [(E & _)|(_ & Xd)]; [rewrite E in Hd; discriminate|]. pose proof h_pos as H1.
  destruct (euler c D) as [(-> & Xc)|(-> & Xc)], (euler _ Ndc) as [(-> & Xdc)|(-> & Xdc)]; try reflexivity; exfalso; rewrite Z.pow_mul_l in Xdc.
  - apply (not_both d); [|exact Xd]. replace (d ^ h - 1) with (d ^ h * c ^ h - 1 - d ^ h * (c ^ h - 1)) by ring. apply Z.divide_sub_r; [exact Xdc|apply Z.divide_mul_r, Xc].
  - apply (not_both d); [|exact Xd]. replace (d ^ h - 1) with (d ^ h * (c ^ h + 1) - (d ^ h * c ^ h + 1)) by ring. apply Z.divide_sub_r; [apply Z.divide_mul_r, Xc|exact Xdc].
Qed.
Lemma nsq_square_mult d c u : ~ (p | u) -> (p | u * u - d) -> nsq p (d * c) = nsq p c.
Proof.
  intros Nu Du. assert (Nd: ~ (p | d)) by (intros X; assert (Y: (p | u * u)) by (replace (u * u) with (u * u - d + d) by ring; apply Z.divide_add_r; assumption); apply prime_mult in Y; tauto).
  destruct (Zdivide_dec p c) as [D|D]; [rewrite !nsq_0; [reflexivity|exact D|apply Z.divide_mul_r, D]|].
  assert (Ndc: ~ (p | d * c)) by (intros X; apply prime_mult in X; tauto).
  destruct (euler d Nd) as [(_ & Xd)|(E & _)]; [|exfalso; apply nsq_square in E; apply E; exists u; exact Du]. pose proof h_pos as H1.
  destruct (euler c D) as [(-> & Xc)|(-> & Xc)], (euler _ Ndc) as [(-> & Xdc)|(-> & Xdc)]; try reflexivity; exfalso; rewrite Z.pow_mul_l in Xdc.
  - apply (not_both c); [exact Xc|]. replace (c ^ h + 1) with (d ^ h * c ^ h + 1 - (d ^ h - 1) * c ^ h) by ring. apply Z.divide_sub_r; [exact Xdc|apply Z.divide_mul_l, Xd].
  - apply (not_both c); [|exact Xc]. replace (c ^ h - 1) with (d ^ h * c ^ h - 1 - (d ^ h - 1) * c ^ h) by ring. apply Z.divide_sub_r; [exact Xdc|apply Z.divide_mul_l, Xd].
Qed.
End Euler.

(** Sums over lists. *)
Definition sumZ (f : Z -> Z) (l : list Z) : Z := fold_right (fun x s => f x + s) 0 l.
Lemma sumZ_perm f l l' : Permutation l l' -> sumZ f l = sumZ f l'.
Proof. unfold sumZ. induction 1; cbn [fold_right]; lia. Qed.
Lemma sumZ_map f g l : sumZ f (map g l) = sumZ (fun x => f (g x)) l.
Proof. induction l as [|x l IH]; [reflexivity|]. cbn [map sumZ fold_right]. fold (sumZ f (map g l)). rewrite IH. reflexivity. Qed.
Lemma sumZ_ext f g l : (forall x, In x l -> f x = g x) -> sumZ f l = sumZ g l.
Proof.
  induction l as [|x l IH]; intros H; [reflexivity|]. cbn [sumZ fold_right]. fold (sumZ f l) (sumZ g l). rewrite H by (left; reflexivity). rewrite IH; [reflexivity|]. intros y Hy. apply H. right. exact Hy.
Qed.
Lemma sumZ_add f g l : sumZ (fun x => f x + g x) l = sumZ f l + sumZ g l.
Proof. induction l as [|x l IH]; [reflexivity|]. cbn [sumZ fold_right]. fold (sumZ f l) (sumZ g l) (sumZ (fun x => f x + g x) l). rewrite IH. ring. Qed.
Lemma sumZ_scale c f l : sumZ (fun x => c * f x) l = c * sumZ f l.
Proof. induction l as [|x l IH]; [cbn; ring|]. cbn [sumZ fold_right]. fold (sumZ f l) (sumZ (fun x => c * f x) l). rewrite IH. ring. Qed.
Lemma sumZ_const c l : sumZ (fun _ => c) l = c * Z.of_nat (length l).
Proof. induction l as [|x l IH]; [cbn; ring|]. cbn [sumZ fold_right length]. fold (sumZ (fun _ => c) l). rewrite IH. lia. Qed.
Lemma sumZ_divide p f g l : (forall x, In x l -> (p | f x - g x)) -> (p | sumZ f l - sumZ g l).
Proof.
  induction l as [|x l IH]; intros H; [exists 0; reflexivity|]. cbn [sumZ fold_right]. fold (sumZ f l) (sumZ g l).
  replace (f x + sumZ f l - (g x + sumZ g l)) with (f x - g x + (sumZ f l - sumZ g l)) by ring. apply Z.divide_add_r; [apply H; left; reflexivity|]. apply IH. intros y Hy. apply H. right. exact Hy.
Qed.

(** The residues are permuted by any injection. *)
Lemma residues_perm p g : 0 < p -> (forall x y, 0 <= x < p -> 0 <= y < p -> (p | g x - g y) -> x = y) -> Permutation (map (fun x => g x mod p) (zrange 0 p)) (zrange 0 p).
Proof.
  intros Hp H. apply NoDup_Permutation_bis.
  - apply NoDup_map_inj_in; [|apply NoDup_zrange]. intros x y Hx Hy E. rewrite in_zrange in Hx, Hy. apply mod_eq_divide in E; [|lia]. apply H; assumption.
  - rewrite map_length. lia.
  - intros y Hy. apply in_map_iff in Hy. destruct Hy as (x & <- & _). apply in_zrange. apply Z.mod_pos_bound. lia.
Qed.
Lemma residues_sum p g F : 0 < p -> (forall x y, 0 <= x < p -> 0 <= y < p -> (p | g x - g y) -> x = y) -> (forall x y, (p | x - y) -> F x = F y) ->
  sumZ (fun x => F (g x)) (zrange 0 p) = sumZ F (zrange 0 p).
Proof.
  intros Hp Hg HF. rewrite <- (sumZ_perm F _ _ (residues_perm p g Hp Hg)), sumZ_map. apply sumZ_ext. intros x _. apply HF. apply mod_eq_divide; [lia|]. symmetry. apply Z.mod_mod. lia.
Qed.
Lemma scale_inj p d : prime p -> ~ (p | d) -> forall x y, 0 <= x < p -> 0 <= y < p -> (p | d * x - d * y) -> x = y.
Proof. intros Pp Nd x y Bx By D. apply prime_mul_cancel in D; [|assumption..]. apply near_zero in D; lia. Qed.

(** cardinality() as a sum. *)
Definition curve_list (a b p : Z) : list (Z * Z) := flat_map (fun x => map (pair x) (filter (sqb p (x * x * x + a * x + b)) (zrange 0 p))) (zrange 0 p).
Lemma curve_list_in a b p x y : p <> 0 -> In (x, y) (curve_list a b p) <-> 0 <= x < p /\ 0 <= y < p /\ curve_eqn a b p x y.
Proof.
  intros Hp. unfold curve_list. rewrite in_flat_map. split.
  - intros (x' & Hx & I). apply in_map_iff in I. destruct I as (y' & E & I). injection E as -> ->. rewrite in_zrange in Hx. rewrite filter_In, in_zrange, sqb_true in I by exact Hp. unfold curve_eqn. tauto.
  - intros (Bx & By & E). exists x. split; [apply in_zrange, Bx|]. apply in_map. rewrite filter_In, in_zrange, sqb_true by exact Hp. unfold curve_eqn in E. tauto.
Qed.
Lemma flat_map_NoDup {A B} (f : A -> list (A * B)) l : NoDup l -> (forall x, NoDup (f x)) -> (forall x e, In e (f x) -> fst e = x) -> NoDup (flat_map f l).
Proof.
  intros Nd Hf Hk. induction Nd as [|x l Hx Nd IH]; cbn [flat_map]; [constructor|].
  assert (X: forall u v : list (A * B), NoDup u -> NoDup v -> (forall e, In e u -> ~ In e v) -> NoDup (u ++ v)).
  { induction u as [|e u IHu]; intros v Hu Hv D; [exact Hv|]. inversion Hu; subst. cbn [app]. constructor.
    - rewrite in_app_iff. intros [I|I]; [contradiction|]. apply (D e); [left; reflexivity|exact I].
    - apply IHu; [assumption|assumption|]. intros e' I. apply D. right. exact I. }
  apply X; [apply Hf|exact IH|]. intros e I J. apply in_flat_map in J. destruct J as (x' & I' & J). apply Hk in I, J. subst x'. subst x. contradiction.
Qed.
Lemma curve_list_nodup a b p : NoDup (curve_list a b p).
Proof.
  apply flat_map_NoDup; [apply NoDup_zrange| |].
  - intros x. apply FinFun.Injective_map_NoDup; [intros u v E; congruence|]. apply NoDup_filter, NoDup_zrange.
  - intros x e I. apply in_map_iff in I. destruct I as (y & <- & _). reflexivity.
Qed.
Lemma flat_map_length {A B} (f : Z -> list A) (g : Z -> A -> B) l : Z.of_nat (length (flat_map (fun x => map (g x) (f x)) l)) = sumZ (fun x => Z.of_nat (length (f x))) l.
Proof.
  unfold sumZ. induction l as [|x l IH]; [reflexivity|]. cbn [flat_map fold_right]. rewrite app_length, map_length, Nat2Z.inj_add, IH. reflexivity.
Qed.
Lemma curve_list_length a b p : Z.of_nat (length (curve_list a b p)) = sumZ (fun x => nsq p (x * x * x + a * x + b)) (zrange 0 p).
Proof. unfold curve_list. apply (flat_map_length _ pair). Qed.
Lemma card_sum a b p E : ec_new a b p = Ok E -> cardinality E = 1 + sumZ (fun x => nsq p (x * x * x + a * x + b)) (zrange 0 p).
Proof.
  intros HE. assert (Hp: p <> 0). { destruct (proj2 (proj1 (c61_new_returns a b p)) (ex_intro _ E HE)) as (Pp & _). apply prime_ge_2 in Pp. lia. }
  destruct (c61_cardinality a b p E (curve_list a b p) HE (curve_list_nodup a b p) (fun x y => curve_list_in a b p x y Hp)) as (-> & _). rewrite curve_list_length. ring.
Qed.
