(** Properties C68-C71, C78: schoof and sea *)
From Coq Require Import Znumtheory ZifyBool Setoid Morphisms Ring.
From Verif Require Import Prelude M_Bigint M_Variable M_Term M_Poly M_Curve M_DivPoly M_Modular M_Schoof Spec SpecCurve P_Bigint P_Variable P_FSum P_Poly P_Rem P_PolyProps P_Subst P_Subst2 P_Subst3 P_Mod P_Gcd P_Gcd2 P_Roots P_Modular P_Modular2 P_ModularProps P_Curve2 P_CurveProps P_Sea.
From Verif Require Import P_SeaProps.
Open Scope Z_scope.

(** C68: whenever schoof returns, it reports the moduli 2, then 3 if q > 3, then 5 if q > 5, each with a residue in range;
    so chinese_remainder applies to the result and gives the one residue class with these residues. *)
Theorem C68_residues : forall fuel a b q L, schoof fuel a b q = Ok L ->
  map mr_l L = (if q <=? 3 then [2] else if q <=? 5 then [2; 3] else [2; 3; 5]) /\
  (forall m, In m L -> 0 <= mr_r m < mr_l m) /\
  exists r, chinese_remainder L = Ok (mkMod (fold_right Z.mul 1 (map mr_l L)) r) /\ forall m, In m L -> (mr_l m | r - mr_r m).
Proof. exact c68_residues. Qed.
Print Assumptions C68_residues.
Example C68_case : schoof 40 1 0 5 = Ok [mkMod 2 1; mkMod 3 2].
Proof. exact c68_case. Qed.
(** C69 is false: y^2 = x^3 + x over GF(5) has 4 points, hence even trace 2, but the residue for l = 2 is 1. *)
Theorem C69_parity_refuted : exists a b q fuel L E, elliptic a b q /\ schoof fuel a b q = Ok L /\ In (mkMod 2 1) L /\
  ec_new a b q = Ok E /\ (2 | q + 1 - cardinality E) /\ exists x, (q | x ^ 3 + a * x + b).
Proof. exact c69_parity_refuted. Qed.
Print Assumptions C69_parity_refuted.
(** C69 is false also because schoof never returns on curves of odd order, e.g. the one of the (ignored) unit test for q = 7. *)
Theorem C69_returns_refuted : exists a b q, elliptic a b q /\ forall fuel, schoof fuel a b q = NoFuel.
Proof. exact c69_returns_refuted. Qed.
Print Assumptions C69_returns_refuted.
(** C69, exact behaviour: if x^3 + a x + b has no root in GF(q), schoof runs forever; if it returns, there is a root (so on an elliptic
    curve the number of points, and the trace, are even) and the residue reported for l = 2 is 1 - wrong on every elliptic curve.
    The l = 2 stage returns whenever there is a root, so for q = 3 schoof then returns. *)
Theorem C69_parity_partial : forall a b q, prime q -> q <= i32_max ->
  (~ (exists x, 0 <= x < q /\ (q | x ^ 3 + a * x + b)) -> forall fuel, schoof fuel a b q = NoFuel) /\
  (forall fuel L, schoof fuel a b q = Ok L -> (exists L', L = mkMod 2 1 :: L') /\
     forall E, elliptic a b q -> ec_new a b q = Ok E -> (2 | cardinality E) /\ (2 | q + 1 - cardinality E)) /\
  ((exists x, 0 <= x < q /\ (q | x ^ 3 + a * x + b)) -> q <= 3 -> exists fuel, schoof fuel a b q = Ok [mkMod 2 1]).
Proof. exact c69_parity_partial. Qed.
Print Assumptions C69_parity_partial.
(** C78 is false: y^2 = x^3 + 2 x over GF(5) has 2 points, trace 4 = 1 (mod 3), but the residue reported for l = 3 is 2. *)
Theorem C78_residue3_refuted : exists a b q fuel L E, elliptic a b q /\ schoof fuel a b q = Ok L /\ In (mkMod 3 2) L /\
  ec_new a b q = Ok E /\ (q + 1 - cardinality E) mod 3 = 1.
Proof. exact c78_residue3_refuted. Qed.
Print Assumptions C78_residue3_refuted.
(** C70: whenever sea returns, with Phi the modular polynomial it computed and j the j-invariant: its gcd is monic and divides x^p - x and
    Phi(x, j) modulo p, and every common divisor divides it; degree_of_gcd is its degree and at the same time the number of
    roots of Phi(x, j) in GF(p); is_elkies_prime is true and the degree positive; the reported j-invariants are the first one or two roots in ascending order (all of them
    when there are at most two). *)
Theorem C70_sea : forall fuel a b p E l R, prime p -> curve_of a b p E -> sea fuel E l = Ok R ->
  exists Phi j, modular_polynomial l = Ok Phi /\ ec_j_invariant E = Ok j /\
    let g := sea_gcd R in let roots_of_Phi := filter (fun x => fval x j Phi mod p =? 0) (zrange 0 p) in
    sorted g /\ reduced p g /\ only_x g /\ tc (highest_term_x g) = 1 /\
    fdivides p g (x_pow_p_minus_x p) /\ fdivides p g (fsubst_y Phi (fconst j)) /\
    (forall h, fdivides p h (x_pow_p_minus_x p) -> fdivides p h (fsubst_y Phi (fconst j)) -> fdivides p h g) /\
    sea_degree R = mx (tm (highest_term_x g)) /\ sea_degree R = Z.of_nat (length roots_of_Phi) /\ 1 <= sea_degree R /\ sea_is_elkies R = true /\
    sea_js R = firstn (Z.to_nat (Z.min 2 (sea_degree R))) roots_of_Phi.
Proof. exact c70_sea. Qed.
Print Assumptions C70_sea.
(** C70: in particular every reported j' is a root of Phi(x, j) modulo p in [0, p); they are distinct. *)
Theorem C70_roots : forall fuel a b p E l R, prime p -> curve_of a b p E -> sea fuel E l = Ok R ->
  exists Phi j, modular_polynomial l = Ok Phi /\ ec_j_invariant E = Ok j /\ NoDup (sea_js R) /\
    Z.of_nat (length (sea_js R)) = Z.min 2 (sea_degree R) /\
    (forall j', In j' (sea_js R) -> 0 <= j' < p /\ (p | fval j' j Phi)) /\
    (sea_degree R <= 2 -> forall j', 0 <= j' < p -> (p | fval j' j Phi) -> In j' (sea_js R)).
Proof. exact c70_roots. Qed.
Print Assumptions C70_roots.
Example C70_case : exists R, sea_with 20 (new_raw 1 0 5) c46_phi2 = Ok R /\ modular_polynomial 2 = Ok c46_phi2 /\ sea_js R = [1; 3] /\ sea_degree R = 2.
Proof. exact c70_case. Qed.
(** C71 is false: for l = 2 and y^2 = x^3 + x + 1 over GF(5) the modular polynomial has no root, and sea runs forever. *)
Theorem C71_atkin_refuted : exists a b p E l Phi j, elliptic a b p /\ curve_of a b p E /\ modular_polynomial l = Ok Phi /\ ec_j_invariant E = Ok j /\
  (forall x, 0 <= x < p -> ~ (p | fval x j Phi)) /\ forall fuel, sea fuel E l = NoFuel.
Proof. exact c71_atkin_refuted. Qed.
Print Assumptions C71_atkin_refuted.
(** C71, exact behaviour on elliptic curves: sea returns iff Phi_l(x, j) has a root in GF(p), and runs forever otherwise
    (for a modular polynomial that could be computed). *)
Theorem C71_atkin_partial : forall a b p E l Phi j, prime p -> nonsingular a b p -> p <= i32_max -> curve_of a b p E -> modular_polynomial l = Ok Phi -> ec_j_invariant E = Ok j ->
  ((exists x, 0 <= x < p /\ (p | fval x j Phi)) <-> (exists fuel R, sea fuel E l = Ok R)) /\
  (~ (exists x, 0 <= x < p /\ (p | fval x j Phi)) -> forall fuel, sea fuel E l = NoFuel).
Proof. exact c71_atkin_partial. Qed.
Print Assumptions C71_atkin_partial.
