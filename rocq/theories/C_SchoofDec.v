(** C116 and C117: what schoof decides for l = 3 and 5 *)
From Coq Require Import Znumtheory ZifyBool Setoid Morphisms Ring.
From Verif Require Import Prelude M_Bigint M_Variable M_Term M_Poly M_DivPoly M_Schoof Spec P_Bigint P_Variable P_FSum P_Poly P_Rem P_PolyProps P_Subst P_Subst2 P_Subst3 P_SubstProps P_DivPoly P_DivPoly5 P_DivProps P_Binom P_NormalProps P_Mod P_Gcd P_MulProps P_DisplayProps P_SchoofVal P_XQuotProps SpecSchoof P_SchoofId P_SchoofId2 P_SchoofId3.
From Verif Require Import P_SchoofDecProps.
Open Scope Z_scope.

(** C116: for l = 3 and 5 the residue is j or l - j for the least j whose x-coordinate matches. *)
Theorem C116_least : forall fuel a b q L l r j, prime q -> schoof fuel a b q = Ok L -> In (mkMod l r) L -> 3 <= l ->
  1 <= j <= (l - 1) / 2 -> x_matches a b q l j -> (forall k, 1 <= k < j -> ~ x_matches a b q l k) -> r = j \/ r = l - j.
Proof. exact c116_least. Qed.
Print Assumptions C116_least.
(** C116: if no x-coordinate matches, the residue is 0 or a square root of 4 q modulo l. *)
Theorem C116_none : forall fuel a b q L l r, prime q -> schoof fuel a b q = Ok L -> In (mkMod l r) L -> 3 <= l ->
  (forall j, 1 <= j <= (l - 1) / 2 -> ~ x_matches a b q l j) -> r = 0 \/ (l | r ^ 2 - 4 * q).
Proof. exact c116_none. Qed.
Print Assumptions C116_none.
(** C116: the residue is 0 exactly when no x-coordinate matches and q is not a square modulo l or the test of its least square root w fails;
    that test uses the division polynomial of y^2 = x^3 + q x + b instead of the curve's. *)
Theorem C116_zero : forall fuel a b q L l r, prime q -> schoof fuel a b q = Ok L -> In (mkMod l r) L -> 3 <= l ->
  (r = 0 <-> (forall j, 1 <= j <= (l - 1) / 2 -> ~ x_matches a b q l j) /\
    forall w, 1 <= w < l -> (l | w ^ 2 - q) -> (forall v, 1 <= v < w -> ~ (l | v ^ 2 - q)) -> ~ w_matches q a b q l w).
Proof. exact c116_zero. Qed.
Print Assumptions C116_zero.
(** What the polynomials compared mean: if [n](x, y) = (X, Y), i.e. ph = X ps^2 and om = Y ps^3 at (x, y), then sum_xnum and sum_xden are the numerator and the
    denominator of slope^2 - X - x^(q^2), and sum_ynum (s = 1) and sum_yden those of slope (x^(q^2) - x3) - y^(q^2), all scaled by the same power of ps. *)
Theorem C116_meaning : forall q ps ph om x y X Y, 0 <= q -> nonneg_xy ps -> nonneg_xy ph -> nonneg_xy om ->
  fval x y ph = X * fval x y ps ^ 2 -> fval x y om = Y * fval x y ps ^ 3 ->
  let u := x ^ (q ^ 2) in let v := y ^ (q ^ 2) in let c := fval x y ps in
  fval x y (sum_xnum q ps ph om) = c ^ 6 * ((Y - v) ^ 2 - (X + u) * (X - u) ^ 2) /\
  fval x y (sum_xden q ps ph) = c ^ 6 * (X - u) ^ 2 /\
  fval x y (sum_ynum 1 q ps ph om) = c ^ 9 * ((Y - v) * ((X + 2 * u) * (X - u) ^ 2 - (Y - v) ^ 2) - v * (X - u) ^ 3) /\
  fval x y (sum_yden q ps ph) = c ^ 9 * (X - u) ^ 3.
Proof. exact c116_meaning. Qed.
Print Assumptions C116_meaning.
Example C116_case : exists L, schoof 80 2 0 5 = Ok L /\ In (mkMod 3 2) L /\ x_matches 2 0 5 3 1.
Proof. exact c116_case. Qed.
(** C117 is false: for y^2 = x^3 + 2 x over GF(5) and l = 3 the y-coordinates of the sum and of the Frobenius image agree for j = 1 (addition law, s = 1), but the residue is 2 = l - j. *)
Theorem C117_sign_refuted : exists fuel a b q L l r j, prime q /\ schoof fuel a b q = Ok L /\ In (mkMod l r) L /\ 3 <= l /\
  1 <= j <= (l - 1) / 2 /\ x_matches a b q l j /\ y_matches 1 a b q l j /\ r = l - j.
Proof. exact c117_sign_refuted. Qed.
Print Assumptions C117_sign_refuted.
(** C117, the exact rule: the sign is decided by the y-coordinate computed with -x(Q1) instead of +x(Q1) (s = -1) in slope (x(Q1) + 2 x(Q2) - slope^2) - y(Q2). *)
Theorem C117_sign_partial : forall fuel a b q L l r j, prime q -> schoof fuel a b q = Ok L -> In (mkMod l r) L -> 3 <= l ->
  1 <= j <= (l - 1) / 2 -> x_matches a b q l j -> (forall k, 1 <= k < j -> ~ x_matches a b q l k) ->
  (r = j <-> y_matches (-1) a b q l j) /\ (r = l - j <-> ~ y_matches (-1) a b q l j).
Proof. exact c117_sign_partial. Qed.
Print Assumptions C117_sign_partial.
Example C117_case : exists L, schoof 80 2 0 5 = Ok L /\ In (mkMod 3 2) L /\ x_matches 2 0 5 3 1 /\ ~ y_matches (-1) 2 0 5 3 1.
Proof. exact c117_case. Qed.
