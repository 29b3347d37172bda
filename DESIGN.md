# Formal model of pebble8888/ellipticcurve in Rocq (Coq 8.16.1)

Status of this file: design first, kept current as the development grows.

## 1. What is modelled

The whole crate (`/repo/src/*.rs`) is a pure computation over `num_bigint::BigInt`, `i32`
and `BTreeMap<Monomial, BigInt>`.  It is modelled function by function in
`rocq/theories/M_*.v` (no proofs in those files); every definition cites file and lines.

* **Panics / overflow / divergence.** `res A := Ok a | Panic | NoFuel` (`Prelude.v`).
  `assert!`, `panic!`, `unwrap()` on `None`, division by zero and out-of-bounds indexing are `Panic`.
  `i32` exponent arithmetic is checked: leaving `[-2^31, 2^31-1]` is `Panic`
  (the dev/test profile; in a release build the same expressions wrap.  A theorem that a call
  returns `Ok v` therefore also says no overflow happened, so release gives the same `v`).
* **Loops** with a data-dependent exit take an explicit `fuel : nat`; running out is `NoFuel`.
  Loops which provably terminate (`power`, `extended_gcd`, `multiply_scalar`, `psi`) compute their own fuel
  and theorems show `NoFuel` never comes out.  Loops which may diverge in the code
  (`polynomial_modular`, `gcd`, `point_order`, and their callers) have `fuel` as an argument:
  "the call returns v" is `exists fuel, f fuel .. = Ok v`, "the call never returns" is
  `forall fuel, f fuel .. = NoFuel`.
* **BigInt** is `Z` (unbounded); `/ %` are `Z.quot Z.rem`, `div_floor mod_floor` are `Z.div Z.modulo`
  guarded against a zero divisor.
* **BTreeMap** is a strictly sorted association list with `get / insert / remove / split_off / iterate`.
  Sortedness is an invariant (`wf`) proved preserved by every operation.
* **SubscriptedVariable** is modelled literally (`i`, `j`, `empty`) with its `eq`/`cmp` in `M_Variable.v`.
  Inside monomials the variable is stored canonically as `option (Z*Z)`; theorem `C08_*` shows
  `eq`, `cmp` and `Display` only depend on that canonical form.
* `println!` output is not modelled. `primes::is_prime` is an external crate: it is modelled by trial
  division, proved equal to primality (`prime` of the standard library).
* `impl_op_ex!` generates owned/borrowed variants of one body; one model function stands for all of them.

## 2. Specification layer (`Spec.v`)

Small and independent of the model's helpers: formal integer combinations of monomials
(`D`, coefficient function, sum, all-pairs product), congruence modulo `m` coefficientwise
(`m = 0` is equality), power series prefixes, affine points over `Z/p` and the chord-tangent law,
`Znumtheory.prime`, `Z.pow`, `Z.gcd`.

## 3. Properties and how each is (to be) proved

| id | model | method |
|----|-------|--------|
| C01 C02 | `M_Bigint` power, power_modulo | loop invariant `r*b^e` |
| C03 | inverse | Fermat's little theorem (proved from `Znumtheory` by a permutation argument) |
| C04 | inverse, composite modulus | expected false: refutation by witness |
| C05 | extended_gcd | induction on fuel, fuel bound by halving |
| C06 C07 | chinese_remainder | fold invariant; C07 refuted by witness |
| C08 C09 | orders | case analysis; C09 refuted |
| C10 C11 | converter | induction on the nested ranges; C11 refuted (cast wraps) |
| C12 | Term ops | computation |
| C13 C14 C15 C16 | Polynomial + - * | fold invariants on coefficients, canonicity of sorted zero-free lists |
| C17 C18 | normal form of products / term sums | refuted by witness; `_partial` positive versions |
| C19 C20 C21 C22 | power, %, modular_assign, power_modulo | invariants in the monoid ring; C22 refuted |
| C23-C28 | polynomial_modular, gcd, is_gcd_one, to_monic | measure on the leading monomial; Bezout invariant; C24 C26 C27 refuted (divergence proved for every fuel) |
| C29 | derivatives | coefficient formula, linearity, Leibniz via monoid ring |
| C30 C31 | power substitutions | injectivity of the monomial map for n>=1; C31 refuted |
| C32 C33 | reduction(_modular) | ideal membership in the monoid ring, then evaluation |
| C34 C35 C36 | eval_* | linear functionals on the monoid ring; C35 refuted |
| C37 C38 | truncation, extraction | list lemmas on sorted maps |
| C39-C43 | divisor, eisenstein, delta, j_invariant | Cauchy-product congruences modulo q^(N+1) |
| C44 C45 | solve | row-operation invariants; C45 refuted |
| C46 C47 | modular_polynomial | symmetry invariant of the final accumulation loop |
| C48-C50 | psi, phi, omega | strong induction on n; parity argument for exactness |
| C51-C56 | curve basics | modular arithmetic; C56 refuted |
| C57 | associativity | chord-tangent associativity over an abstract field (`field` with curve equations), instantiated at Z/p |
| C58-C60 | multiply_scalar | group law + loop invariant; C59, C60 refuted |
| C61 | create_points | at most two square roots modulo a prime |
| C62 C63 | point_order | pigeonhole, orbit counting |
| C64 C65 | division_points, isogeny | refuted by witness; `_partial` positive |
| C66 | j_invariant | modular arithmetic |
| C67 | secp256k1 | primality certificate checked in Coq, order of g by computation, C58 |
| C68-C71 | schoof, sea | control flow + C25; C69, C71 refuted (divergence) |
| C72 C73 | Display | injectivity of printing; C73 refuted |
| C74 | eval_q | computation |
| C75 | modular polynomial of a non-prime index | control flow |
| C76 | characteristic 2 | refuted by witness; closed otherwise |
| C77 | division by a Term (`p_div_t` and friends) | list lemmas, exactness from coefficientwise products |
| C78 | schoof, l >= 3 | refuted by witness |
| C79 | Display of monomials/terms | injectivity of printing (`SpecDisplay.v`) |
| C80 | TermBuilder | computation |
| C81 | Term methods agree with the Polynomial methods on the one-term polynomial | computation |
| C82 C83 | values of psi, phi, omega at points vs. the group law | elliptic-divisibility relation over an abstract field (P_Eds1), over Z by deformation to (0,1,1) where the n-th term is n (P_Eds2), multiplication-by-n by induction in the group of P_Group (P_Eds3), values of the model's polynomials satisfy the recurrences (P_DivVal), y = 0 separately (P_Mul) |
| C84 C85 | point_order, division_points vs. psi | C62, C64 and C82 |
| C86 C87 C88 | cardinality, trace, point_order bounded by Hasse | Manin's elementary proof over F_p(t) with mathcomp polynomials and fractions: P_HasseId (field identities), P_HasseGcd, P_HasseStep, P_HasseDeg (degree recurrence d_(n-1) + d_(n+1) = 2 d_n + 2), P_HasseFrob (Frobenius point), P_HasseFin (over 'F_p), P_HasseZ (bridge to integers mod p), P_HasseProps (the model's functions) |
| C89 | secp256k1: Secp256k1::new, multiply_scalar, plus, point_order | P_SecpN: n is prime (Pocklington certificate) and n g = O (a chain of slopes checked by the kernel); P_Secp2Props: Hasse's bound leaves n as the only possible number of points, so the group is cyclic of prime order |
| C90 C91 C92 | is_on_curve, plus, multiply_scalar, point_order, cardinality, j_invariant of related curves (`SpecTwist.v`) | P_Euler (Euler's criterion, cardinality as a sum of square-root counts), P_TwistProps (the change of variables respects the chord-tangent law; reindexing of sums) |
| C93 | cardinality vs. power_modulo | power sums over the residues, value sum of a polynomial of degree < 2(p-1), Hasse's bound |
| C94 C95 C96 | canonicalize, plus, negate, multiply_scalar, point_order on arbitrary representatives and moduli; create_points called repeatedly or with any modulus (`SpecRepr.v`) | P_ReprProps: each step of the code only sees residues of x, y and whether z = 0; the list one call appends does not depend on the list already there |
| C97 C98 | reduction, reduction_modular, to_frob, power_modulo | P_NormalProps: a multiple of y^2 - f whose y-exponents lie in {0,1} vanishes (extreme y-degrees of the multiplier); P_Binom: binomial theorem for formal sums, p divides the middle binomials, Fermat |
| C99 | gcd, x^p - x as built in schoof_elkies_atkins | P_RootProps: P_Gcd2 (Bezout for inputs with unit leading coefficient), P_Roots (a divisor of x^p - x has as many roots as its degree) |
| C100 C101 | points, plus, point_order, cardinality, division_points, psi | P_AbGroup: finite abelian groups from scratch (exponent, Cauchy, torsion of prime powers and of coprime products); P_Torsion: at most two points above each root of psi_n, degree from C49, C82; P_TorsionProps instantiates the group with the points; the restriction p < 2^47 comes from psi being computable (i32 exponents) only up to 65536 |
| C102 | schoof (l = 3, 5: num1/den1, the search for j, the sign test), psi, phi, omega, to_frob, reduction_modular, polynomial_modular | P_SchoofVal: every polynomial the code computes is followed through its value at a fixed rational point of order l (substitution, Frobenius, reduction by the curve and by psi_l keep that value); P_SchoofProps: C83/C84 turn the values into the coordinates of q P and j P, the match of x forces j, and the sign test evaluated at P and 2 P is contradictory unless the sign is the right one; existence of the point from Cauchy (C101) |
| C103 | modular_polynomial and everything it calls | P_ModRet: exponent bounds carried through template, substitution of j(q), j(q^p), so every i32 stays in range when p^2(p+1)^2 <= i32::MAX; P_ModRet2: the equations are triangular (leading exponent -(i+pj) of j(q)^i j(q^p)^j), so the system has only the trivial homogeneous solution and C44 makes solve return; P_ModRet3: conversely j(q^p)^(p+1) is computed, its coefficients are positive (C104), so the top exponent must fit an i32 |
| C104 | j_invariant, j_invariant1, delta1_inverse, eisenstein4 | P_JPos: 1/Delta is a product of geometric series, E4 has positive coefficients; P_ModRet3: the cube of E4 is computed in full, so 3N must fit |
| C105 | sea | C103 with C66 (j is computed) and C71 |
| C106 | psi, phi, omega outside their range | partial-correctness version of the degree invariant: a product that returns contains the product of the top terms, whose exponent must fit i32 |
| C107 | polynomial_modular as normal form | the loop invariant with an x-nonnegative quotient; a multiple of d of smaller x-degree vanishes mod p (top coefficient of a product, y and q carried along) |
| C108 | laws of gcd | mutual divisibility of monic polynomials (degree of a product) |
| C109 | gcd(f, f') and repeated factors | Bezout by induction on the degree; Euclid's lemma; zero derivative = p-th power (Frobenius); discriminant of the cubic |
| C110 | cardinality as a sum of square-root counts (P_Euler): at a double root e, x^3+ax+b = (x-e)^2(x+2e) and multiplying by a square does not change the count; cusp: the parametrisation (u^2, u^3) and the chord/tangent relation of C52, induction on the point_order loop |
| C111 | j(q^p) = j(q)^p mod p (binomial theorem), so Phi(j(q), j(q^p)) is Phi(x, x^p) at x = j(q); j(q)^d has leading term q^-d, so descending induction makes every coefficient of Phi(x, x^p) vanish mod p; comparing coefficients with symmetry leaves (x^p-y)(x-y^p). The existence of an integer solution (the theory of modular functions) is a hypothesis, met for p = 2 in the example |
| C112 | symmetry of the polynomial (C46) and the exact return condition of sea (C70, C71) |
| C113 | psi is split into its univariate part (P_DivUni); the recurrences over the integers hold exactly for the parts; the elliptic relation holds at every integral point (C83's sequence argument) and therefore, by density in b, as a polynomial identity; divisibility by strong induction on n/m; the remainder by uniqueness of division (C23, C107) |
| C114 | induction on n over the recurrences of the univariate parts, as congruences of coefficients modulo p; phi and omega expressed by univariate parts |
| C115 | induction on n of the values of the univariate parts at scaled arguments |
| C116 | every polynomial of the l-stage is tracked by its class modulo q and the curve equation (cl); remainders of y-degree <= 1 vanish iff the class is a multiple of psi(l) (C107 + reduction of the cofactor); least index by induction on the search list. Specification: SpecSchoof.v |
| C117 | refuted by a computed witness (the multiple is exhibited through the same decision lemma); exact rule (s = -1) by the same tracking |
| C118 | Euler operator q d/dq as a derivation of formal sums; the logarithmic derivative of (1-q^n)^24 up to order N, added up over the product; inverse from i d = 1 |
| C119 | divisors of a b as a permutation of the products of divisors (Gauss); divisors of p^e by induction on e; strict lower bound for composites |
| C120 | E4 = 1 + 240 X, cube expanded in the formal-sum ring modulo 720; the 24-divisibility through C118 |
| C121 | E(K) over an algebraic closure K of GF(q) as a mathcomp group; psi(3) is separable, so a multiple of psi(3) is a sum vanishing at the points of order 3; Frobenius is linear on the at most 9 points of order 3 and its eigenvalues 1, -1 are detected by point counts of the curve and its twist (Cauchy, Lagrange); the w-test factors as x (x^3 + 4 b) against x^q - x |
| C122 | characteristic equation of Frobenius on E(K), K an algebraic closure of GF(q) (P_FrobW, P_FrobComp, P_FrobTau, P_FrobChar, P_FrobAll: composition with Frobenius as a degree computation on the function field; P_TrClos); psi(5) is separable with 12 roots (P_FiveSep), so a multiple of psi(5) is a sum vanishing at the points of order 5; there the comparison says that the two values F^2 P + q P and +-j F P have the same x (P_XMatch, P_PsiVal, P_FiveVal, P_FiveAbs, P_FiveMatch), which the characteristic equation decides (P_Five, P_FiveZ); the w-test is kept in the code's form (w_matches of SpecSchoof); for w = 1, i.e. q = 1 (mod 5), it is shown to say that the fifth division polynomial (SpecFive) splits into 12 distinct linear factors modulo q (P_FiveW, C_FiveOne: division of x^q - x) |
| C123 | same model; the comparison of y-coordinates (sign formula of the code, s = -1 in SpecSchoof) is evaluated at the points P of order 3 over an algebraic closure (P_YMatch); Frobenius F satisfies F^2 P + q P = t F P there (characteristic equation); with the chord law the test becomes an equation between the four x-coordinates, which are distinct and sum to 0 (P_ThreeAbs, P_ThreeSign); splitting of psi(3) is F fixing them (P_ThreeSign2; SpecThree.v is the specification) |
| C124 | same model; univariate part u_n of psi(n) (P_DivUni2) satisfies u_n(d^2 a, d^3 b, d x) = d^k u_n(a, b, x) for every integer d (proved for squares d by weights, extended as a polynomial identity in d); the torsion points over x number nsq(x^3+ax+b), those of the twist nsq(d(x^3+ax+b)), together 2; summation over x. The prime case by Cauchy and Lagrange, the gcd by C99. |
| C125 | same model. Stickelberger for the cubic: with no root modulo p, a root in an algebraic closure has three Frobenius conjugates, the product of their differences is fixed by Frobenius, hence in GF(p), and its square is the discriminant (P_Cubic); with a root r the discriminant is (3r^2+a)^2 times that of the quotient, whose roots are counted (P_TwoTors). The 2-torsion is one point per root (C124's count). Lagrange for subgroups as lists: extend a subgroup by all points. |
| C126 | same model. From C66 the value is the only residue j with j (4a^3+27b^2) = 1728*4a^3; the curve a = 3j(1728-j), b = 2j(1728-j)^2 realises j, and j = 0, 1728 separately; same j gives a^3 b'^2 = a'^3 b^2, hence a' = d^2 a, b' = d^3 b with d = b' a/(b a'), a square (isomorphism) or not (twist). |
| C127 | same model. Equates the specification's `ec_order` with the order in the abstract finite-exponent group of P_AbGroup (least positive k with kP = O, dividing every annihilator), then Gauss's lemma for n/gcd(n,k), coprime orders multiply, -P annihilated by the same integers; transferred to the API by C59, C58, C62, C52, C54. |
| C128 | create_points, division_points; spec `SpecEnum.v` (the order). The y-loop stops at the least root, whose negative is the other one, hence larger; the x-loop ascends; division_points is a filter that keeps infinity. A strictly sorted list is determined by its elements. |
| C129 | chinese_remainder; spec `SpecCrt.v` (the hypotheses on the moduli). From C06 (solves the system, and every solution is congruent to it): permutations keep pairwise coprimality, products of coprime blocks are coprime, and the residue class is unique. |
| C130 | Polynomial *, power, +, derivative_x, %; spec `SpecLead.v` (polynomial in x whose highest_term_x is c x^d, c <> 0). The coefficient at the sum of the degrees of a convolution is the product of the leading coefficients and no key exceeds it; the power loop keeps this invariant; the other operations by their coefficient formulas (C13, C20, C29). |
| C131 | eval_x_polynomial. The loop over all terms but the last keeps every exponent below d d'; the last term contributes c s^d (C130 for powers and products), which dominates. |
| C132 | polynomial_modular, eval_xy. Evaluate a = d k + s (mod p) at a root of d; a remainder of degree < 1 that is reduced and without zero coefficients is empty or one constant. |
| C133 | square, polynomial_modular, derivative_x, eval_xy. Factor a = (x - r) k (mod p); a'(r) = k(r) by Leibniz; the zero remainder is divisibility (C107). |

Where a property is marked *refuted*, the English sentence is false of the code: the theorem `_refuted` gives a
witness inside the model (with the hypotheses of the English sentence met) and the `_partial` theorem states
the exact or strongest behaviour found, for all inputs.  MANIFEST.json says in a note what is missing in each case.

### Layout

`Prelude` (results, i32, maps) - `M_*` (models, no proofs) - `Spec`, `SpecCurve`, `SpecDisplay` (specification
vocabulary) - `P_*` (lemmas) - `C_*` (property theorems, each closed by `exact`, followed by concrete cases and
`Print Assumptions`) - `Tests` (the repository's own unit tests re-run on the model, as evidence that the model
computes what the code computes).

Nothing was found that cannot be expressed in a model.  Not modelled: stdout, memory exhaustion, stack overflow, running time.

## 4. Trusted base

Coq 8.16.1's kernel (including `vm_compute`), the reading of the Rust sources recorded in the comments of
`M_*.v`, the contracts of `num-bigint`, `num-integer`, `num-iter`, `BTreeMap`, `primes` listed above.
The Hasse files use mathcomp (ssreflect, algebra: polynomials, fractions, prime fields) as a proved library, without axioms.
`Print Assumptions` for every property theorem is printed by the build (see section 5).

## 5. Axioms

`Print Assumptions` answers "Closed under the global context" for every theorem named in MANIFEST.json: no axiom is
used.  (`vcheck`, through coqchk, also lists constants such as `Coq.ssr.ssrunder.Under_rel.*` and
`mathcomp.ssreflect.*.XxxDef.*`: these are the parameters of module types of the standard library's `ssrunder` and of
mathcomp's sealed modules (`finset`, `bigop`, `fintype`, ...), whose implementations are in the same files.  They are loaded
with the files that mention mathcomp and none is an axiom; no theorem here depends on an axiom.)

## 6. Mutation tests

`seeded/LOG.jsonl`: one line per edited model definition, with the theorems whose proofs broke.  The harness copies
`rocq/` elsewhere, applies the edit, rebuilds, replaces every lemma that no longer compiles by `Admitted` and reports
which property theorems depend on one of those.
