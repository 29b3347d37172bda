(** Pocklington's criterion, and the primality of the secp256k1 field modulus. *)
From Coq Require Import Znumtheory Zpow_facts ZifyBool.
From Verif Require Import Prelude M_Bigint M_Variable P_Bigint P_Variable.
Open Scope Z_scope.

Lemma prime_factor n : 1 < n -> exists r, prime r /\ (r | n).
Proof.
  intros Hn. assert (G: forall m, 0 <= m -> 1 < m -> exists r, prime r /\ (r | m)); [|apply G; lia].
  apply (Z_lt_induction (fun m => 1 < m -> exists r, prime r /\ (r | m))). clear n Hn. intros n IH Hn.
  destruct (prime_dec n) as [P|N]; [exists n; split; [exact P|apply Z.divide_refl]|].
  destruct (not_prime_divide n Hn N) as (d & Hd & D). destruct (IH d ltac:(lia) ltac:(lia)) as (r & Pr & Dr). exists r. split; [exact Pr|apply Z.divide_trans with d; assumption].
Qed.
Lemma small_factor n : 1 < n -> ~ prime n -> exists r, prime r /\ (r | n) /\ r * r <= n.
Proof.
  intros Hn N. destruct (not_prime_divide n Hn N) as (d & Hd & e & He).
  assert (He': 1 < e < n) by nia.
  destruct (Z_le_gt_dec d e).
  - destruct (prime_factor d ltac:(lia)) as (r & Pr & Dr). exists r. split; [exact Pr|]. split; [apply Z.divide_trans with d; [exact Dr|exists e; lia]|]. apply Z.divide_pos_le in Dr; [|lia]. destruct Pr. nia.
  - destruct (prime_factor e ltac:(lia)) as (r & Pr & Dr). exists r. split; [exact Pr|]. split; [apply Z.divide_trans with e; [exact Dr|exists d; lia]|]. apply Z.divide_pos_le in Dr; [|lia]. destruct Pr. nia.
Qed.
Lemma pow_1_mod r a k : (r | a - 1) -> 0 <= k -> (r | a ^ k - 1).
Proof.
  intros H. revert k. apply natlike_ind; [exists 0; reflexivity|]. intros k Hk IH. rewrite Z.pow_succ_r by exact Hk.
  replace (a * a ^ k - 1) with (a * (a ^ k - 1) + (a - 1)) by ring. apply Z.divide_add_r; [apply Z.divide_mul_r, IH|exact H].
Qed.
(** The step: a prime q of n - 1 divides r - 1 for every prime divisor r of n. *)
Lemma pock_step n a q r : prime r -> prime q -> 1 < n -> (r | n) -> (q | n - 1) -> (n | a ^ (n - 1) - 1) -> rel_prime (a ^ ((n - 1) / q) - 1) n -> (q | r - 1).
Proof.
  intros Pr Pq Hn Dr (R & HR) HA HG. pose proof (prime_ge_2 _ Pr) as R2. pose proof (prime_ge_2 _ Pq) as Q2.
  assert (HR0: 0 < R) by nia. rewrite HR in HG. rewrite Z.div_mul in HG by lia.
  assert (A1: (r | a ^ (n - 1) - 1)) by (apply Z.divide_trans with n; assumption).
  destruct (Zdivide_dec q (r - 1)) as [D|ND]; [exact D|]. exfalso.
  assert (RP: rel_prime q (r - 1)) by (apply prime_rel_prime; assumption).
  (* u q = 1 + v (r-1) with u, v >= 0 *)
  assert (B: exists u v, 0 <= u /\ 0 <= v /\ u * q = 1 + v * (r - 1)).
  { apply rel_prime_bezout in RP. destruct RP as [u v H]. destruct (Z.eq_dec r 2) as [->|N2].
    - exists 1, (q - 1). lia.
    - set (k := Z.abs u + Z.abs v). exists (u + k * (r - 1)), (k * q - v). assert (0 <= k) by lia. split; [nia|]. split; [nia|]. ring_simplify. ring_simplify in H. lia. }
  destruct B as (u & v & Hu & Hv & B).
  assert (NA: ~ (r | a)).
  { intros D. apply (prime_ge_2 r) in Pr as _. assert (X: (r | a ^ (n - 1))). { replace (n - 1) with (Z.succ (n - 2)) by lia. rewrite Z.pow_succ_r by lia. apply Z.divide_mul_l, D. }
    assert (Y: (r | 1)) by (replace 1 with (a ^ (n - 1) - (a ^ (n - 1) - 1)) by ring; apply Z.divide_sub_r; assumption). apply Z.divide_1_r_nonneg in Y; lia. }
  assert (X1: (r | (a ^ R) ^ (u * q) - 1)).
  { rewrite <- Z.pow_mul_r by nia. replace (R * (u * q)) with ((n - 1) * u) by (rewrite HR; ring). rewrite Z.pow_mul_r by lia. apply pow_1_mod; assumption. }
  assert (X2: (r | (a ^ R) ^ (v * (r - 1)) - 1)).
  { rewrite <- Z.pow_mul_r by nia. replace (R * (v * (r - 1))) with ((r - 1) * (R * v)) by ring. rewrite Z.pow_mul_r by nia. apply pow_1_mod; [|nia]. apply fermat_little; assumption. }
  assert (X3: (r | a ^ R - 1)).
  { rewrite B in X1. rewrite Z.pow_add_r, Z.pow_1_r in X1 by nia. set (w := (a ^ R) ^ (v * (r - 1))) in *. 
    replace (a ^ R - 1) with ((a ^ R * w - 1) - a ^ R * (w - 1)) by ring. apply Z.divide_sub_r; [exact X1|apply Z.divide_mul_r, X2]. }
  destruct HG as [_ _ G]. specialize (G r X3 Dr). apply Z.divide_1_r_nonneg in G; lia.
Qed.
Lemma prod_divides (qs : list Z) m : (forall q, In q qs -> prime q /\ (q | m)) -> NoDup qs -> (fold_right Z.mul 1 qs | m).
Proof.
  induction qs as [|q qs IH]; intros H ND; cbn [fold_right]; [exists m; ring|]. apply NoDup_cons_iff in ND as (Nq & ND).
  assert (D1: (fold_right Z.mul 1 qs | m)) by (apply IH; [intros; apply H; right; assumption|exact ND]).
  destruct (H q (or_introl eq_refl)) as (Pq & Dq). destruct D1 as (k & Hk). rewrite Hk in Dq.
  assert (RP: rel_prime q (fold_right Z.mul 1 qs)).
  { apply prime_rel_prime; [exact Pq|]. intros D. clear - Nq Pq D H. induction qs as [|s qs IH]; cbn [fold_right] in D.
    - apply Z.divide_1_r_nonneg in D; destruct Pq; lia.
    - apply prime_mult in D; [|exact Pq]. destruct D as [D|D].
      + apply prime_div_prime in D; [|exact Pq|apply H; right; left; reflexivity]. apply Nq. left. congruence.
      + apply IH; [intros x [X|X]; apply H; [left; exact X|right; right; exact X]|intros X; apply Nq; right; exact X|exact D]. }
  rewrite Z.mul_comm in Dq. apply Gauss in Dq; [|exact RP]. destruct Dq as (j & ->). exists j. rewrite Hk. ring.
Qed.
Lemma pocklington n a qs : 1 < n -> (forall q, In q qs -> prime q /\ (q | n - 1)) -> NoDup qs -> n <= fold_right Z.mul 1 qs * fold_right Z.mul 1 qs ->
  0 < fold_right Z.mul 1 qs -> (n | a ^ (n - 1) - 1) -> (forall q, In q qs -> rel_prime (a ^ ((n - 1) / q) - 1) n) -> prime n.
Proof.
  intros Hn Hq ND HF F0 HA HG. destruct (prime_dec n) as [P|N]; [exact P|]. exfalso. destruct (small_factor n Hn N) as (r & Pr & Dr & Hr). pose proof (prime_ge_2 _ Pr).
  assert (D: (fold_right Z.mul 1 qs | r - 1)).
  { apply prod_divides; [|exact ND]. intros q Hi. destruct (Hq q Hi) as (Pq & Dq). split; [exact Pq|]. apply (pock_step n a q r); try assumption. apply HG, Hi. }
  apply Z.divide_pos_le in D; [|lia]. nia.
Qed.
(** Modular powers for the certificates. *)
Fixpoint pmod (a : Z) (e : positive) (n : Z) : Z :=
  match e with xH => a mod n | xO f => let r := pmod a f n in (r * r) mod n | xI f => let r := pmod a f n in (a * (r * r)) mod n end.
Lemma pmod_spec a e n : n <> 0 -> pmod a e n = (a ^ Zpos e) mod n.
Proof.
  intros Hn. induction e as [e IH|e IH|]; cbn [pmod].
  - rewrite IH. rewrite <- Z.mul_mod_idemp_r by exact Hn. rewrite Z.mul_mod_idemp_l, (Z.mul_mod_idemp_r (a ^ Z.pos e) (a ^ Z.pos e)) by exact Hn. rewrite Z.mul_mod_idemp_r by exact Hn.
    f_equal. rewrite Pos2Z.inj_xI, Z.pow_add_r, Z.pow_1_r, (Z.mul_comm 2), Z.pow_mul_r, Z.pow_2_r by lia. ring.
  - rewrite IH. rewrite Pos2Z.inj_xO, (Z.mul_comm 2), Z.pow_mul_r, Z.pow_2_r by lia. symmetry. apply Z.mul_mod, Hn.
  - rewrite Z.pow_1_r. reflexivity.
Qed.
Lemma pmod_one a e n : 1 < n -> pmod a e n = 1 -> (n | a ^ Zpos e - 1).
Proof. intros Hn H. rewrite pmod_spec in H by lia. apply mod_eq_divide; [lia|]. rewrite (Z.mod_small 1) by lia. exact H. Qed.
Lemma gcd_mod_rel z w n : 1 < n -> w = z mod n -> Z.gcd (w - 1) n = 1 -> rel_prime (z - 1) n.
Proof.
  intros Hn -> H. apply Zgcd_1_rel_prime. rewrite Z.gcd_comm in H |- *. transitivity (Z.gcd n (z mod n - 1)); [|exact H]. pose proof (Z.div_mod z n ltac:(lia)) as D.
  replace (z - 1) with (z mod n - 1 + (z / n) * n) by lia. apply Z.gcd_add_mult_diag_r.
Qed.
Lemma cert1 n a q R w : 1 < n -> n - 1 = q * Zpos R -> prime q -> n <= q * q -> pmod a R n = w -> Z.gcd (w - 1) n = 1 -> pmod w (Z.to_pos q) n = 1 -> prime n.
Proof.
  intros Hn HR Pq HF HW HG H1. pose proof (prime_ge_2 q Pq). rewrite pmod_spec in HW by lia. apply (pocklington n a [q]); cbn [fold_right In].
  - exact Hn.
  - intros x [<-|[]]. split; [exact Pq|]. exists (Zpos R). lia.
  - constructor; [intros []|constructor].
  - lia.
  - lia.
  - apply pmod_one in H1; [|exact Hn]. rewrite Z2Pos.id in H1 by lia. apply mod_eq_divide; [lia|]. apply mod_eq_divide in H1; [|lia].
    rewrite HR, Z.mul_comm, Z.pow_mul_r by lia. rewrite Zpower_mod by lia. rewrite HW. exact H1.
  - intros x [<-|[]]. rewrite HR, Z.mul_comm, Z.div_mul by lia. apply (gcd_mod_rel _ w); [exact Hn|congruence|exact HG].
Qed.
Lemma small_prime n : is_prime n = true -> prime n.
Proof. apply is_prime_spec. Qed.
Lemma prime_1206781 : prime 1206781.
Proof. apply (cert1 1206781 2 20113 60 (pmod 2 60 1206781)); [lia|reflexivity|apply small_prime; vm_compute; reflexivity|lia|reflexivity|vm_compute; reflexivity|vm_compute; reflexivity]. Qed.
Lemma prime_7240687 : prime 7240687.
Proof. apply (cert1 7240687 2 1206781 6 64); [lia|reflexivity|exact prime_1206781|lia|reflexivity|vm_compute; reflexivity|vm_compute; reflexivity]. Qed.
Lemma pock_pmod n a q e : 1 < n -> (n - 1) / q = Zpos e -> Z.gcd (pmod a e n - 1) n = 1 -> rel_prime (a ^ ((n - 1) / q) - 1) n.
Proof. intros Hn He H. apply (gcd_mod_rel _ (pmod a e n)); [exact Hn|rewrite He; apply pmod_spec; lia|exact H]. Qed.
Ltac dvd := match goal with |- (?q | ?m) => apply Z.mod_divide; [lia|vm_compute; reflexivity] end.
Lemma prime_107590001 : prime 107590001.
Proof.
  apply (pocklington 107590001 2 [53; 29; 7]).
  - lia.
  - intros q [<-|[<-|[<-|[]]]]; (split; [apply small_prime; vm_compute; reflexivity|dvd]).
  - repeat constructor; cbn; lia.
  - vm_compute. discriminate.
  - reflexivity.
  - apply (pmod_one 2 107590000); [lia|vm_compute; reflexivity].
  - intros q [<-|[<-|[<-|[]]]].
    + apply (pock_pmod _ _ _ 2030000); [lia|vm_compute; reflexivity|vm_compute; reflexivity].
    + apply (pock_pmod _ _ _ 3710000); [lia|vm_compute; reflexivity|vm_compute; reflexivity].
    + apply (pock_pmod _ _ _ 15370000); [lia|vm_compute; reflexivity|vm_compute; reflexivity].
Qed.
Definition q2 : Z := 255515944373312847190720520512484175977.
Lemma prime_q2 : prime q2.
Proof.
  apply (pocklington q2 2 [107590001; 7240687; 96557]).
  - reflexivity.
  - intros q [<-|[<-|[<-|[]]]]; (split; [|dvd]); [exact prime_107590001|exact prime_7240687|apply small_prime; vm_compute; reflexivity].
  - repeat constructor; cbn; lia.
  - vm_compute. discriminate.
  - reflexivity.
  - apply (pmod_one 2 255515944373312847190720520512484175976); [reflexivity|vm_compute; reflexivity].
  - intros q [<-|[<-|[<-|[]]]].
    + apply (pock_pmod _ _ _ (Z.to_pos ((q2 - 1) / 107590001))); [reflexivity|vm_compute; reflexivity|vm_compute; reflexivity].
    + apply (pock_pmod _ _ _ (Z.to_pos ((q2 - 1) / 7240687))); [reflexivity|vm_compute; reflexivity|vm_compute; reflexivity].
    + apply (pock_pmod _ _ _ (Z.to_pos ((q2 - 1) / 96557))); [reflexivity|vm_compute; reflexivity|vm_compute; reflexivity].
Qed.
Definition q1 : Z := 205115282021455665897114700593932402728804164701536103180137503955397371.
Definition qw : Z := Eval vm_compute in pmod 2 802749442992798076634733441528810 q1.
Lemma prime_q1 : prime q1.
Proof. apply (cert1 q1 2 q2 802749442992798076634733441528810 qw); [reflexivity|reflexivity|exact prime_q2|vm_compute; discriminate|vm_compute; reflexivity|vm_compute; reflexivity|vm_compute; reflexivity]. Qed.
(** The field modulus of secp256k1. *)
Definition sp : Z := 115792089237316195423570985008687907853269984665640564039457584007908834671663.
(** A primitive cube root of unity: (-7)^((p-1)/3). *)
Definition sw : Z := Eval vm_compute in pmod (-7) (Z.to_pos ((sp - 1) / 3)) sp.
Lemma sw_eq : pmod (-7) (Z.to_pos ((sp - 1) / 3)) sp = sw.
Proof. vm_compute. reflexivity. Qed.
Lemma sw_ne : sw <> 1 mod sp.
Proof. apply Z.eqb_neq. vm_compute. reflexivity. Qed.
Lemma fermat_m7 : (sp | (-7) ^ (sp - 1) - 1).
Proof.
  assert (H: (sp | sw * sw * sw - 1)) by (apply Z.mod_divide; [discriminate|vm_compute; reflexivity]).
  pose proof sw_eq as E. rewrite pmod_spec in E by discriminate. 
  replace (sp - 1) with ((sp - 1) / 3 * 3) by (vm_compute; reflexivity). rewrite Z.pow_mul_r; [|vm_compute; discriminate|lia].
  change (Z.pos (Z.to_pos ((sp - 1) / 3))) with ((sp - 1) / 3) in E.
  apply mod_eq_divide; [discriminate|]. rewrite Zpower_mod by reflexivity. rewrite E. apply mod_eq_divide; [discriminate|]. replace (sw ^ 3) with (sw * sw * sw) by ring. exact H.
Qed.
Lemma prime_sp : prime sp.
Proof.
  apply (pocklington sp (-7) [q1]).
  - reflexivity.
  - intros q [<-|[]]. split; [exact prime_q1|apply Z.mod_divide; [discriminate|vm_compute; reflexivity]].
  - constructor; [intros []|constructor].
  - vm_compute. discriminate.
  - reflexivity.
  - exact fermat_m7.
  - intros q [<-|[]]. apply (pock_pmod _ _ _ 564522); [reflexivity|vm_compute; reflexivity|vm_compute; reflexivity].
Qed.
(** -7 is not a cube modulo p: x^3 + 7 has no root. *)
Lemma no_root_secp x : ~ (sp | x * x * x + 7).
Proof.
  intros D. assert (Nx: ~ (sp | x)).
  { intros Dx. assert (D7: (sp | 7)) by (replace 7 with (x * x * x + 7 - x * (x * x)) by ring; apply Z.divide_sub_r; [exact D|apply Z.divide_mul_l, Dx]). apply Z.divide_pos_le in D7; [|lia]. apply D7. reflexivity. }
  pose proof (fermat_little sp x prime_sp Nx) as F. 
  replace (sp - 1) with (3 * ((sp - 1) / 3)) in F by (vm_compute; reflexivity). rewrite Z.pow_mul_r in F; [|lia|vm_compute; discriminate].
  pose proof sw_eq as E. rewrite pmod_spec in E by discriminate. change (Z.pos (Z.to_pos ((sp - 1) / 3))) with ((sp - 1) / 3) in E.
  assert (C: (x ^ 3) mod sp = (-7) mod sp). { apply mod_eq_divide; [discriminate|]. replace (x ^ 3 - -7) with (x * x * x + 7) by ring. exact D. }
  apply mod_eq_divide in F; [|discriminate]. rewrite Zpower_mod in F by reflexivity. rewrite C in F. rewrite <- Zpower_mod in F by reflexivity. rewrite E in F. exact (sw_ne F).
Qed.
