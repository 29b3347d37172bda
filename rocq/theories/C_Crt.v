(** C129: laws of chinese_remainder *)
From Coq Require Import Znumtheory ZifyBool Permutation.
From Verif Require Import Prelude M_Bigint Spec SpecCrt P_Bigint.
From Verif Require Import P_CrtProps.
Open Scope Z_scope.

(** C129: the order of the system is irrelevant: same modulus, congruent residue. *)
Theorem C129_permutation : forall v w x y, positive_moduli v -> coprime_moduli v -> Permutation v w -> chinese_remainder v = Ok x -> chinese_remainder w = Ok y ->
  mr_l y = mr_l x /\ (mr_l x | mr_r y - mr_r x).
Proof. exact c129_permutation. Qed.
Print Assumptions C129_permutation.
(** C129: a system may be solved in two parts and the two results combined. *)
Theorem C129_merge : forall v w x y z, positive_moduli (v ++ w) -> coprime_moduli (v ++ w) ->
  chinese_remainder v = Ok x -> chinese_remainder w = Ok y -> chinese_remainder (v ++ w) = Ok z ->
  exists u, chinese_remainder [x; y] = Ok u /\ mr_l u = mr_l z /\ (mr_l z | mr_r u - mr_r z).
Proof. exact c129_merge. Qed.
Print Assumptions C129_merge.
(** C129: over fixed moduli the result is a ring homomorphism from the residues: congruent residues give congruent results, and sums and products of residues give
    the sum and the product of the results. *)
Theorem C129_ring : forall (moduli : list Z) (r s t : Z -> Z) x y z, Forall (fun l => 0 < l) moduli -> ForallOrdPairs rel_prime moduli ->
  chinese_remainder (map (fun l => mkMod l (r l)) moduli) = Ok x -> chinese_remainder (map (fun l => mkMod l (s l)) moduli) = Ok y ->
  chinese_remainder (map (fun l => mkMod l (t l)) moduli) = Ok z ->
  mr_l y = mr_l x /\ mr_l z = mr_l x /\
  ((forall l, In l moduli -> (l | s l - r l)) -> (mr_l x | mr_r y - mr_r x)) /\
  ((forall l, In l moduli -> (l | t l - (r l + s l))) -> (mr_l x | mr_r z - (mr_r x + mr_r y))) /\
  ((forall l, In l moduli -> (l | t l - r l * s l)) -> (mr_l x | mr_r z - mr_r x * mr_r y)).
Proof. exact c129_ring. Qed.
Print Assumptions C129_ring.
(** C129: a range is enough: an integer known to lie in an interval as long as the product of the moduli is determined by the result. *)
Theorem C129_window : forall v x c s t, positive_moduli v -> coprime_moduli v -> chinese_remainder v = Ok x ->
  c <= s < c + mr_l x -> c <= t < c + mr_l x -> (forall m, In m v -> (mr_l m | s - mr_r m)) -> (forall m, In m v -> (mr_l m | t - mr_r m)) ->
  s = t /\ s = c + (mr_r x - c) mod mr_l x.
Proof. exact c129_window. Qed.
Print Assumptions C129_window.
Example C129_case : let v := [mkMod 3 2; mkMod 5 3; mkMod 7 2] in positive_moduli v /\ coprime_moduli v /\ chinese_remainder v = Ok (mkMod 105 (-82)) /\
  chinese_remainder [mkMod 7 2; mkMod 3 2; mkMod 5 3] = Ok (mkMod 105 23) /\ chinese_remainder [mkMod 15 8; mkMod 7 2] = Ok (mkMod 105 (-82)).
Proof. exact c129_case. Qed.
