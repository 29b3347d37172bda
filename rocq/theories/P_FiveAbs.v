(** A Frobenius endomorphism with a characteristic equation, at points of order 5. *)
From Coq Require Import ZArith.
From mathcomp Require Import all_ssreflect all_algebra zify.
Set Implicit Arguments. Unset Strict Implicit. Unset Printing Implicit Defensive.
Import GRing.Theory.
Local Open Scope ring_scope.
Definition d5 (m : int) : Prop := exists k : int, m = k * 5.
Lemma d5_dec m : d5 m \/ exists u k : int, m * u = k * 5 + 1.
Proof.
have [k [r [e h]]] : exists k r : int, m = k * 5 + r /\ (0 <= r < 5) by exists (divz m 5), (modz m 5); split; [exact: divz_eq|lia].
have [r0|[r0|[r0|[r0|r0]]]] : r = 0 \/ r = 1 \/ r = 2 \/ r = 3 \/ r = 4 by lia.
- by left; exists k; lia.
- by right; exists 1, k; lia.
- by right; exists 3, (3 * k + 1); lia.
- by right; exists 2, (2 * k + 1); lia.
- by right; exists 4, (4 * k + 3); lia.
Qed.
Lemma d5_no m u k : d5 m -> m * u = k * 5 + 1 -> False.
Proof. case=> r -> e. have : 5 * (r * u - k) = 1 by lia. lia. Qed.
Section Abs.
Variables (V : zmodType) (phi : {additive V -> V}) (S5 : V -> Prop).
Hypothesis phi_inj : injective phi.
Hypothesis S50 : forall P, S5 P -> P <> 0.
Hypothesis S55 : forall P, S5 P -> P *+ 5 = 0.
Hypothesis S5ex : exists P, S5 P.
Variables (t q n : int).
Hypothesis char : forall P, S5 P -> phi (phi P) - phi P *~ t + P *~ q = 0.
Hypothesis qn : exists k : int, q = k * 5 + n.
Hypothesis n14 : 1 <= n <= 4.
Lemma mz5 P k : S5 P -> P *~ (k * 5) = 0.
Proof. by move=> h; rewrite mulrC mulrzA (_ : (5 : int) = 5%:Z) // -pmulrn (S55 h) mul0rz. Qed.
Lemma mz5' P k m : S5 P -> P *~ (k * 5 + m) = P *~ m.
Proof. by move=> h; rewrite mulrzDl mz5 // add0r. Qed.
Lemma ord P m : S5 P -> P *~ m = 0 -> d5 m.
Proof.
move=> h e; case: (d5_dec m) => [//|[u [k ek]]]; exfalso; apply: (S50 h).
by rewrite -[P]mulr1z -(mz5' k 1 h) -ek mulrzA e mul0rz.
Qed.
Lemma pmz P m : phi (P *~ m) = phi P *~ m. Proof. exact: raddfMz. Qed.
Lemma ordphi P m : S5 P -> phi P *~ m = 0 -> d5 m.
Proof. by move=> h; rewrite -pmz -(raddf0 phi) => /phi_inj; exact: ord. Qed.
Lemma ordphi' P m : S5 P -> d5 m -> phi P *~ m = 0.
Proof. by move=> h [k ->]; rewrite -pmz mz5 // raddf0. Qed.
Lemma char' P : S5 P -> P *~ n + phi (phi P) = phi P *~ t.
Proof.
move=> h; have := char h; case: qn => k ->; rewrite mz5' // => e; apply/eqP; rewrite addrC -subr_eq0 -e; apply/eqP.
by rewrite addrAC.
Qed.
Definition scal := forall P, S5 P -> P *~ n = phi (phi P).
Lemma abs_match j : (forall P, S5 P -> P *~ n = phi (phi P) \/ P *~ n + phi (phi P) = phi (P *~ j) \/ P *~ n + phi (phi P) = - phi (P *~ j)) <->
  (d5 (t - j) \/ d5 (t + j)) \/ scal.
Proof.
have e1 P : S5 P -> (P *~ n + phi (phi P) = phi (P *~ j) <-> d5 (t - j)).
  move=> h; rewrite char' // pmz; split=> [e|d]; first by apply: (ordphi h); rewrite mulrzBr e subrr.
  by apply/eqP; rewrite -subr_eq0 -mulrzBr ordphi'.
have e2 P : S5 P -> (P *~ n + phi (phi P) = - phi (P *~ j) <-> d5 (t + j)).
  move=> h; rewrite char' // pmz; split=> [e|d]; first by apply: (ordphi h); rewrite mulrzDl e addNr.
  by apply/eqP; rewrite -addr_eq0 -mulrzDl ordphi'.
split=> [H|[[d|d]|s] P h].
- case: (d5_dec (t - j)) => [d|[u [k ek]]]; first by left; left.
  case: (d5_dec (t + j)) => [d|[u' [k' ek']]]; first by left; right.
  right=> P h; case: (H P h) => [//|[/(e1 P h) d|/(e2 P h) d]]; [case: (d5_no d ek)|case: (d5_no d ek')].
- by right; left; apply/(e1 P h).
- by right; right; apply/(e2 P h).
- by left; apply: s.
Qed.
Lemma abs_scalar : scal -> exists c : int, [/\ forall P, S5 P -> phi P = P *~ c, d5 (c * c - n) & d5 (t * c - 2 * n)].
Proof.
move=> s; case: (d5_dec t) => [d|[u [k ek]]].
  exfalso; have [P h] := S5ex; have := char' h; rewrite -(s P h) (ordphi' h d) -mulrzDl => /(ord h) [k ek]; lia.
have H P : S5 P -> phi P = P *~ (2 * n * u).
  move=> h; have e := char' h; rewrite -(s P h) -mulrzDl in e.
  rewrite -[LHS]mulr1z; have -> : phi P *~ 1 = phi P *~ (k * 5 + 1) by rewrite -!pmz mz5'.
  by rewrite -ek mulrzA -e -mulrzA; congr (P *~ _); lia.
exists (2 * n * u); split=> //.
  have [P h] := S5ex; apply: (ord h); rewrite mulrzBr (s P h) (H P h) pmz (H P h) -mulrzA subrr //.
exists (2 * n * k); nia.
Qed.
Lemma abs_cases : scal -> (n = 1 /\ (d5 (t - 2) \/ d5 (t + 2))) \/ (n = 4 /\ (d5 (t - 1) \/ d5 (t + 1))).
Proof.
move=> /abs_scalar [c [_ [k ek] [m em]]].
have [k' [r [e h]]] : exists k r : int, c = k * 5 + r /\ (0 <= r < 5) by exists (divz c 5), (modz c 5); split; [exact: divz_eq|lia].
have [k2 [r2 [e2 h2]]] : exists k r : int, t = k * 5 + r /\ (0 <= r < 5) by exists (divz t 5), (modz t 5); split; [exact: divz_eq|lia].
have [ek' em'] : r * r - n = (k - k' * k' * 5 - 2 * k' * r) * 5 /\ r2 * r - 2 * n = (m - k2 * k' * 5 - k2 * r - k' * r2) * 5 by subst; split; lia.
move: ek' em'; move: (_ - _ - 2 * k' * r) (_ - _ - k' * r2) => z1 z2 ek' em'.
have hr : r = 0 \/ r = 1 \/ r = 2 \/ r = 3 \/ r = 4 by lia.
have hn : n = 1 \/ n = 4 by case: hr => [?|[?|[?|[?|?]]]]; subst r; lia.
have T : (n = 1 /\ (r2 = 2 \/ r2 = 3)) \/ (n = 4 /\ (r2 = 1 \/ r2 = 4)).
  by case: hn => ?; subst n; case: hr => [?|[?|[?|[?|?]]]]; subst r; lia.
case: T => [[-> [?|?]]|[-> [?|?]]]; subst r2; [left; split=> //; left; exists k2|left; split=> //; right; exists (k2 + 1)|right; split=> //; left; exists k2|right; split=> //; right; exists (k2 + 1)]; lia.
Qed.
Lemma abs_w w : d5 (w * w - n) -> ((forall P, S5 P -> phi P = P *~ w \/ phi P = - (P *~ w)) <-> scal).
Proof.
move=> [k ek]; split=> [H P h|s P h].
  have e : P *~ n = P *~ w *~ w by rewrite -mulrzA (_ : w * w = k * 5 + n) ?mz5' //; lia.
  case: (H P h) => e1; rewrite e e1 ?raddfN pmz e1 // mulNrz opprK //.
have [c [H [m em] _]] := abs_scalar s; rewrite (H P h).
have D : d5 (c - w) \/ d5 (c + w).
  have [k' [r [e hr]]] : exists k r : int, c = k * 5 + r /\ (0 <= r < 5) by exists (divz c 5), (modz c 5); split; [exact: divz_eq|lia].
  have [k2 [r2 [e2 h2]]] : exists k r : int, w = k * 5 + r /\ (0 <= r < 5) by exists (divz w 5), (modz w 5); split; [exact: divz_eq|lia].
  have e3 : r * r - r2 * r2 = (m - k - k' * k' * 5 - 2 * k' * r + k2 * k2 * 5 + 2 * k2 * r2) * 5 by subst; lia.
  move: e3; move: (_ + _ + _) => z e3.
  have T : r = r2 \/ r + r2 = 5 \/ r + r2 = 0.
    have hr' : r = 0 \/ r = 1 \/ r = 2 \/ r = 3 \/ r = 4 by lia.
    have hr2' : r2 = 0 \/ r2 = 1 \/ r2 = 2 \/ r2 = 3 \/ r2 = 4 by lia.
    by case: hr' => [?|[?|[?|[?|?]]]]; case: hr2' => [?|[?|[?|[?|?]]]]; subst; lia.
  by case: T => [?|[?|?]]; [left; exists (k' - k2)|right; exists (k' + k2 + 1)|right; exists (k' + k2)]; lia.
case: D => -[z ez]; [left|right].
  by rewrite (_ : c = z * 5 + w) ?mz5' //; lia.
by rewrite -mulrNz (_ : c = z * 5 + - w) ?mz5' //; lia.
Qed.
End Abs.
