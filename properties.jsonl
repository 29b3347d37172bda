{"id": "C01", "title": "Integer power is exponentiation", "statement": "For every BigInt b and every exponent n >= 0, b.power(n) (both the BigInt and the i32 overload) returns exactly b^n; for a negative exponent it returns b itself.", "quantifier": "every base in Z, every exponent in Z (BigInt overload) or i32 (i32 overload)", "why_tests_cant": "square-and-multiply depends on every bit of the exponent; a test samples a few exponents, and the two overloads are separate copies of the loop", "anchors": ["src/bigint.rs: impl Power<&BigInt> for BigInt", "src/bigint.rs: impl Power<i32> for BigInt"]}
{"id": "C02", "title": "Modular power is the canonical residue of the power", "statement": "For every b, n >= 0 and p >= 2, b.power_modulo(n,p) = b^n mod p with 0 <= result < p; p = 0 panics as soon as n >= 1.", "quantifier": "every b, every n >= 0, every modulus p >= 2", "why_tests_cant": "the reduction is interleaved with squaring; only a loop invariant over all exponents shows no step is lost", "anchors": ["src/bigint.rs: impl PowerModulo for BigInt"]}
{"id": "C03", "title": "inverse is the modular inverse for every prime modulus", "statement": "For every prime p and every a not divisible by p, a.inverse(p) is the unique r in [0,p) with a*r = 1 (mod p); for p < 2 it panics; for a divisible by an odd prime p it returns 0.", "quantifier": "every prime p, every integer a", "why_tests_cant": "relies on Fermat's little theorem, a statement about all primes and all residues", "anchors": ["src/bigint.rs: impl Inverse for BigInt"]}
{"id": "C04", "title": "inverse works for every modulus coprime to the argument", "statement": "For every modulus m >= 2 and a coprime to m, a*a.inverse(m) = 1 (mod m). (The signature promises '1/T (mod p)' without requiring p prime.)", "quantifier": "every modulus m >= 2 and every a coprime to m", "why_tests_cant": "tests only use the prime 19", "anchors": ["src/bigint.rs: impl Inverse for BigInt"]}
{"id": "C05", "title": "extended_gcd returns a Bezout triple", "statement": "extended_gcd(a,b) terminates for all integers and returns (g,x,y) with a*x + b*y = g and |g| = gcd(a,b); for non-negative arguments g = gcd(a,b).", "quantifier": "every pair of integers, including negative and zero", "why_tests_cant": "recursion depth is unbounded and truncated division of negatives behaves differently from floor division", "anchors": ["src/bigint.rs: extended_gcd"]}
{"id": "C06", "title": "chinese_remainder solves every coprime system", "statement": "For every list of (l_i, r_i) with pairwise coprime positive moduli, chinese_remainder returns l = product of the l_i and r with r = r_i (mod l_i) for every i; and any other solution of the system differs from r by a multiple of l.", "quantifier": "every list length, every pairwise coprime positive moduli, every residues", "why_tests_cant": "the loop invariant ranges over all lists and all moduli", "anchors": ["src/bigint.rs: chinese_remainder, ModResult"]}
{"id": "C07", "title": "chinese_remainder returns the canonical residue", "statement": "The r returned by chinese_remainder lies in [0, l).", "quantifier": "every pairwise coprime system", "why_tests_cant": "the sign of the result depends on the Bezout coefficients; the one unit test already shows a negative result hard-coded", "anchors": ["src/bigint.rs: chinese_remainder"]}
{"id": "C08", "title": "Variables and monomials are totally ordered, consistently with ==", "statement": "cmp on SubscriptedVariable and on Monomial is a total order whose Equal case coincides with ==, so a BTreeMap keyed by monomials never holds two == keys and never loses one. The default variable is the empty one: it equals exactly the empty variables and is least.", "quantifier": "every triple of variables / monomials (including empty variables with arbitrary i,j)", "why_tests_cant": "transitivity and antisymmetry quantify over triples; BTreeMap's correctness rests on them for every key set", "anchors": ["src/subscripted_variable.rs: impl PartialEq/Ord for SubscriptedVariable", "src/term.rs: impl Ord for Monomial"]}
{"id": "C09", "title": "Term ordering agrees with Term equality", "statement": "For Terms s and t, s.cmp(t) = Equal exactly when s == t (the contract of Ord together with the derived Eq).", "quantifier": "every pair of terms", "why_tests_cant": "requires a statement about all pairs", "anchors": ["src/term.rs: impl Ord for Term, derive(PartialEq, Eq)"]}
{"id": "C10", "title": "Subscripted-variable indexing is a bijection", "statement": "For a converter of prime p: count() = (p+1)(p+2)/2; variable_from_index is defined on every index below count() and yields a variable c_i_j with 0 <= i <= j <= p; index_from_variable inverts it in both directions; every such variable has an index below count().", "quantifier": "every prime p <= 65534 (beyond that the internal i32 counters overflow), every index below count(), every pair (i, j)", "why_tests_cant": "nested loops with an early return; the tests check p = 3 only", "anchors": ["src/subscripted_variable.rs: SubscriptedVariableConverter::{count,index_from_variable,variable_from_index}"]}
{"id": "C11", "title": "variable_from_index rejects every out-of-range index", "statement": "variable_from_index(k) panics for every u64 k >= count().", "quantifier": "every prime p, every u64 index", "why_tests_cant": "the index is cast 'as i32', which wraps only for indices no test uses", "anchors": ["src/subscripted_variable.rs: SubscriptedVariableConverter::variable_from_index"]}
{"id": "C12", "title": "Term multiplication, division, negation and power act as monomial arithmetic", "statement": "t*u multiplies coefficients and adds exponents and keeps the one subscripted variable, panicking iff both have one (or an exponent leaves i32); t/u floors the coefficient quotient and subtracts exponents and (t*u)/u = t for u without variable and non-zero coefficient; power(n) for n >= 0 is n-fold multiplication; power_modulo(n,p) is its reduction mod p.", "quantifier": "every pair of terms, every n >= 0, every p >= 2", "why_tests_cant": "overflow, variables and coefficient signs give infinitely many cases", "anchors": ["src/term.rs: impl_op_ex * / -, Power for Term, Term::power_modulo, Term::modulo"]}
{"id": "C13", "title": "Polynomial addition and subtraction are coefficientwise", "statement": "For all polynomials a, b and every monomial m, the coefficient of m in a+b (a-b, -a) is the sum (difference, negation) of the coefficients; the += and -= forms and the Term-mixed forms give the same polynomial as the value forms; if a and b have no explicit zero coefficients neither has a+b, a-b.", "quantifier": "every pair of polynomials, every monomial", "why_tests_cant": "polynomials have unbounded support and the update loop mutates the map it looks up in", "anchors": ["src/polynomial.rs: impl_op_ex + - += -= neg", "src/term.rs: impl_op_ex + - for Term"]}
{"id": "C14", "title": "Polynomial addition is a commutative group for ==", "statement": "On polynomials without explicit zero coefficients, a+b == b+a, (a+b)+c == a+(b+c), a+0 == a, a-a == 0 and a+(-a) == 0 with respect to the derived structural ==.", "quantifier": "all polynomials in normal form", "why_tests_cant": "structural equality of maps for arbitrary supports", "anchors": ["src/polynomial.rs: impl_op_ex + - , derive(PartialEq)"]}
{"id": "C15", "title": "Polynomial multiplication is the convolution product", "statement": "Whenever a*b returns, the coefficient of every monomial m in a*b is the sum over all pairs (m1 in a, m2 in b) with m1*m2 = m of the products of coefficients; a*b returns unless two non-empty variables meet or an exponent sum leaves i32; *= and Term-mixed products agree.", "quantifier": "every pair of polynomials, every monomial", "why_tests_cant": "sum over arbitrary many colliding monomials", "anchors": ["src/polynomial.rs: impl_op_ex * *="]}
{"id": "C16", "title": "Polynomial multiplication is a commutative, associative, distributive ring product", "statement": "a*b, b*a; (a*b)*c, a*(b*c); a*(b+c), a*b+a*c agree on every coefficient whenever they are defined; 1*a = a; 0*a = 0.", "quantifier": "all triples of polynomials", "why_tests_cant": "ring laws range over all triples", "anchors": ["src/polynomial.rs: impl_op_ex * +, One, Zero"]}
{"id": "C17", "title": "Products are in normal form, so == and is_zero decide polynomial equality", "statement": "a*b contains no explicit zero coefficient when a and b contain none; therefore (a*b - c).is_zero() and a*b == c decide equality of polynomials.", "quantifier": "all normal-form a, b", "why_tests_cant": "only products with cancellation expose it", "anchors": ["src/polynomial.rs: impl_op_ex *, Zero::is_zero, derive(PartialEq)"]}
{"id": "C18", "title": "Term sums and differences are in normal form", "statement": "For Terms s, t the polynomials s+t and s-t contain no explicit zero coefficient (in particular (t-t).is_zero()).", "quantifier": "all pairs of terms", "why_tests_cant": "only cancelling or zero terms expose it", "anchors": ["src/term.rs: impl_op_ex + - for Term", "src/polynomial.rs: impl_op_ex += for Term"]}
{"id": "C19", "title": "Polynomial power is iterated multiplication", "statement": "For n >= 0, p.power(n) (BigInt and i32 overloads) has the coefficients of the n-fold product p*...*p (1 for n = 0); square() and cube() are the 2nd and 3rd powers; negative n panics.", "quantifier": "every polynomial, every n", "why_tests_cant": "square-and-multiply over all exponents", "anchors": ["src/polynomial.rs: Power<&BigInt>, Power<i32>, square, cube"]}
{"id": "C20", "title": "Reduction modulo an integer is canonical", "statement": "For p > 0, a % p and a.modular_assign(p) give the same polynomial: every coefficient is the residue in [0,p) of a's, zero residues are removed, nothing else changes; the operation is idempotent, and two polynomials reduce to == results iff they are congruent mod p; for p <= 0 it panics unless a has no terms.", "quantifier": "every polynomial and every p", "why_tests_cant": "ranges over all polynomials and signs", "anchors": ["src/polynomial.rs: impl Rem<&BigInt>, Rem<i32>, modular_assign"]}
{"id": "C21", "title": "Polynomial power_modulo equals power followed by reduction", "statement": "For n >= 1 and p > 0, a.power_modulo(n,p) == a.power(n) % p.", "quantifier": "every polynomial, n >= 1, p > 0", "why_tests_cant": "reductions interleaved with squaring for every exponent", "anchors": ["src/polynomial.rs: power_modulo"]}
{"id": "C22", "title": "Polynomial power_modulo is right for exponent zero", "statement": "a.power_modulo(0,p) is the constant 1 (mod p).", "quantifier": "every polynomial, every p >= 2", "why_tests_cant": "a missing special case which the integer version has", "anchors": ["src/polynomial.rs: power_modulo"]}
{"id": "C23", "title": "polynomial_modular returns a remainder", "statement": "For prime p and a divisor d of positive x-degree without y and q whose leading coefficient is not divisible by p, a.polynomial_modular(d,p) terminates and returns r with canonical coefficients, x-degree below that of d, and a = d*k + r (mod p) for some polynomial k.", "quantifier": "every dividend (bivariate in x,y allowed, non-negative exponents, no subscripted variables), every such divisor, every prime p", "why_tests_cant": "termination and the division identity for every degree", "anchors": ["src/polynomial.rs: polynomial_modular"]}
{"id": "C24", "title": "polynomial_modular terminates for every non-zero divisor", "statement": "a.polynomial_modular(d,p) terminates for every divisor d that is non-zero modulo the prime p, including non-zero constants.", "quantifier": "every dividend, every divisor non-zero mod p, every prime p", "why_tests_cant": "divergence cannot be observed by a test that finishes", "anchors": ["src/polynomial.rs: polynomial_modular"]}
{"id": "C25", "title": "gcd returns the monic greatest common divisor modulo p", "statement": "For prime p and polynomials in x reduced mod p: whenever a.gcd(b,p) returns g, g divides a and b mod p, g = u*a + v*b (mod p) for some u, v (so every common divisor divides g), g is monic with canonical coefficients.", "quantifier": "every prime p, all univariate a, b", "why_tests_cant": "Euclid's algorithm has unboundedly many steps", "anchors": ["src/polynomial.rs: gcd, to_monic, polynomial_modular"]}
{"id": "C26", "title": "gcd terminates for every pair of non-zero polynomials", "statement": "For prime p and non-zero a, b reduced mod p, a.gcd(b,p) returns.", "quantifier": "every prime p, all non-zero univariate a, b", "why_tests_cant": "divergence cannot be observed by a finite test", "anchors": ["src/polynomial.rs: gcd, polynomial_modular"]}
{"id": "C27", "title": "is_gcd_one decides coprimality", "statement": "For prime p and non-zero a, b reduced mod p, a.is_gcd_one(b,p) returns true iff a and b have no common factor of positive degree mod p.", "quantifier": "every prime p, all non-zero univariate a, b", "why_tests_cant": "needs all pairs", "anchors": ["src/polynomial.rs: is_gcd_one, gcd"]}
{"id": "C28", "title": "to_monic divides by the leading coefficient", "statement": "For prime p and a non-zero polynomial with leading coefficient c not divisible by p, to_monic(p) is monic, canonical, and c*to_monic = a (mod p).", "quantifier": "every prime p, every such polynomial", "why_tests_cant": "all degrees and coefficients", "anchors": ["src/polynomial.rs: to_monic"]}
{"id": "C29", "title": "Formal derivatives are correct", "statement": "derivative_x / derivative_y of a polynomial with non-negative exponents has coefficient (k+1)*coef at each shifted monomial, contains no explicit zeros if the input has none, is additive, and satisfies the Leibniz rule on products.", "quantifier": "all polynomials (pairs for the product rule)", "why_tests_cant": "product rule quantifies over pairs of polynomials", "anchors": ["src/polynomial.rs: derivative_x, derivative_y", "src/term.rs: derivative_x, derivative_y"]}
{"id": "C30", "title": "Power substitutions x->x^n, y->y^n, q->q^n", "statement": "For n >= 1 to_frob(n), to_y_power(n), to_q_power(n) move each coefficient to the monomial with the multiplied exponents, lose no term, and commute with + and *.", "quantifier": "every polynomial, every n >= 1", "why_tests_cant": "the map insert silently overwrites if two monomials collide", "anchors": ["src/polynomial.rs: to_frob, to_y_power, to_q_power"]}
{"id": "C31", "title": "Power substitution preserves the value for exponent 0", "statement": "to_frob(0) substitutes x -> 1, y -> 1, i.e. sums the coefficients of colliding monomials.", "quantifier": "every polynomial", "why_tests_cant": "collisions only occur for n = 0", "anchors": ["src/polynomial.rs: to_frob, to_y_power, to_q_power"]}
{"id": "C32", "title": "reduction rewrites y^2 without changing the function on the curve", "statement": "For every polynomial with non-negative exponents, reduction(a,b) has no y-power above 1, equals the input modulo the ideal (y^2 - x^3 - a x - b), hence takes the same value at every integer point with y^2 = x^3+ax+b and the same residue at every point of the curve mod any m.", "quantifier": "all polynomials, all a, b, all points", "why_tests_cant": "all y-exponents and all points", "anchors": ["src/polynomial.rs: reduction"]}
{"id": "C33", "title": "reduction_modular is reduction modulo p", "statement": "For p >= 1 and non-negative exponents, reduction_modular(a,b,p) == reduction(a,b) % p, and has no y-power above 1.", "quantifier": "all polynomials, a, b, p", "why_tests_cant": "nested recursion through power_modulo", "anchors": ["src/polynomial.rs: reduction_modular"]}
{"id": "C34", "title": "Evaluation is a ring homomorphism", "statement": "For non-negative exponents, eval_xy(x,y) of a+b, a-b, a*b, power(n) is the sum, difference, product, power of the values; eval_x then eval_y then to_scalar gives eval_xy.", "quantifier": "all polynomials without q and variables, all integers x, y", "why_tests_cant": "homomorphism laws range over all pairs", "anchors": ["src/polynomial.rs: eval_xy, eval_x, eval_y, to_scalar", "src/term.rs: Monomial::eval_xy"]}
{"id": "C35", "title": "Evaluation results are in normal form", "statement": "eval_x(v) and eval_y(v) contain no explicit zero coefficient, so p.eval_x(v).is_zero() decides whether v is a root.", "quantifier": "all polynomials, all v", "why_tests_cant": "only exposed when a coefficient vanishes, e.g. v = 0", "anchors": ["src/polynomial.rs: eval_x, eval_y, impl_op_ex += Term"]}
{"id": "C36", "title": "Polynomial substitution", "statement": "eval_x_polynomial(s) (eval_y_polynomial) replaces x (y) by s: each term c*x^i*m contributes c*s^i*m, for Polynomial, Term and Monomial alike; evaluating the result equals evaluating with x := value of s.", "quantifier": "all polynomials with non-negative substituted exponent, all s", "why_tests_cant": "all degrees and supports", "anchors": ["src/polynomial.rs: eval_x_polynomial, eval_y_polynomial", "src/term.rs: eval_x_polynomial, eval_y_polynomial"]}
{"id": "C37", "title": "q-truncation keeps exactly the low orders", "statement": "omit_high_order_q(k) keeps every term with q-exponent <= k unchanged and drops all others; it panics iff x or y occurs (or k+1 overflows); power_omit_high_order_q(n,k) agrees with power(n) on all q-orders <= k (series without negative q powers) and has no higher order.", "quantifier": "every q-series, every n, k", "why_tests_cant": "split_off at a key which may be absent; truncation error propagation over all n", "anchors": ["src/polynomial.rs: omit_high_order_q, power_omit_high_order_q"]}
{"id": "C38", "title": "Coefficient extraction", "statement": "to_q_power_coef(k) returns the coefficient of q^k as a polynomial in the variables; to_variable_coef(v) returns the coefficient of v; highest_term_x returns the greatest monomial; degree_x is the largest x-exponent; has_x/has_y/has_q report occurrence; to_scalar returns the value of the empty polynomial or of a single term free of x, y, q and panics on everything else; each panics exactly under its documented assertion.", "quantifier": "every polynomial", "why_tests_cant": "all supports", "anchors": ["src/polynomial.rs: to_q_power_coef, to_variable_coef, highest_term_x, degree_x, has_x, has_y, has_q, to_scalar"]}
{"id": "C39", "title": "sigma_divisor is the divisor power sum", "statement": "sigma_divisor(n,k) = sum of d^k over positive divisors d of n, for n >= 1, k >= 0; 0 for negative arguments.", "quantifier": "every n with 0 <= n < i32::MAX", "why_tests_cant": "table tests stop at 13", "anchors": ["src/divisor.rs: sigma_divisor"]}
{"id": "C40", "title": "eisenstein4 is the E4 q-expansion", "statement": "eisenstein4(N) has coefficient 1 at q^0, 240*sigma_3(n) at q^n for 1 <= n <= N and nothing else.", "quantifier": "every N >= 0", "why_tests_cant": "all orders", "anchors": ["src/eisenstein.rs: eisenstein4"]}
{"id": "C41", "title": "delta1 is the truncated product", "statement": "delta1(N) agrees with prod_{n=1..N} (1-q^n)^24 on every order <= N and has no term of higher order.", "quantifier": "every N >= 0 with 2N+1 <= i32::MAX (exponents are i32)", "why_tests_cant": "truncation inside the loop for every N", "anchors": ["src/delta.rs: delta1"]}
{"id": "C42", "title": "delta1_inverse inverts delta1 as a power series", "statement": "delta1_inverse(N) * delta1(N) = 1 up to O(q^(N+1)).", "quantifier": "every N >= 0 with 2N+1 <= i32::MAX (exponents are i32)", "why_tests_cant": "geometric series argument for every order", "anchors": ["src/delta.rs: delta1_inverse"]}
{"id": "C43", "title": "j_invariant is E4^3/Delta", "statement": "j_invariant1(N)*delta1(N) = eisenstein4(N)^3 up to O(q^(N+1)); j_invariant(N) is j_invariant1(N+1) shifted by q^-1, with leading term q^-1; raising N never changes a coefficient already computed.", "quantifier": "every N >= 0 with 3N+1 <= i32::MAX (exponents are i32)", "why_tests_cant": "tests check N <= 6", "anchors": ["src/j_invariant.rs: j_invariant1, j_invariant"]}
{"id": "C44", "title": "solve preserves the solution set", "statement": "Whenever solve(M) returns, with n = columns-1 unknowns, every integer solution x of the linear system M satisfies result[i][i]*x_i = result[i][n] for each i < n, with result[i][i] = 1 for 1 <= i < n and zeros off the diagonal.", "quantifier": "every rectangular integer matrix, every integer solution", "why_tests_cant": "elimination with pivoting over all matrices", "anchors": ["src/simultaneous_equation.rs: solve"]}
{"id": "C45", "title": "solve normalises every pivot", "statement": "result[i][i] = 1 for every unknown i including i = 0, so the last column is the solution.", "quantifier": "every solvable system", "why_tests_cant": "the back-substitution loop starts at 1; the only in-repo systems have pivot 1 in row 0", "anchors": ["src/simultaneous_equation.rs: solve"]}
{"id": "C46", "title": "The modular polynomial is symmetric and monic of the right shape", "statement": "Whenever modular_polynomial(p) returns, the coefficient of x^i y^j equals that of x^j y^i for all i, j; the coefficients of x^(p+1) and y^(p+1) are 1; all other terms have both exponents <= p; there are no q's or variables. The generic template has the same symmetry.", "quantifier": "every prime p", "why_tests_cant": "tests cover p = 2, 3", "anchors": ["src/modular_polynomial.rs: modular_polynomial, subscripted_variable_modular_polynomial"]}
{"id": "C47", "title": "The modular equation system comes from substituting j(q), j(q^p)", "statement": "subscripted_variable_modular_polynomial_list(p) lists, for k = -p^2-p .. 0, the coefficient of q^k of the template with x := j(q), y := j(q^p).", "quantifier": "every prime p with 3(p^2+p+1)+1 <= i32::MAX", "why_tests_cant": "all p and all orders", "anchors": ["src/modular_polynomial.rs: subscripted_variable_modular_polynomial_list, subscripted_variable_modular_polynomial_q"]}
{"id": "C48", "title": "psi computes the division polynomials", "statement": "For every a, b and n >= 0, psi(a,b,n) satisfies the division-polynomial recurrences modulo the curve equation; its floor divisions by 2y are always exact; for odd n it is free of y, for even n it is 2y times a polynomial in x; psi(n) never has y-power above 1.", "quantifier": "every a, b, every n with 0 <= n <= 65536 (beyond that an exponent could overflow i32)", "why_tests_cant": "recursion over n; an inexact floor division would silently corrupt coefficients", "anchors": ["src/division_polynomial.rs: psi"]}
{"id": "C49", "title": "Division polynomials have the classical degree and leading coefficient", "statement": "psi(n) for odd n has x-degree (n^2-1)/2 and leading coefficient n; for even n, psi(n)/y has x-degree (n^2-4)/2 and leading coefficient n.", "quantifier": "every a, b, every n >= 1", "why_tests_cant": "induction on n", "anchors": ["src/division_polynomial.rs: psi"]}
{"id": "C50", "title": "phi and omega satisfy their defining identities exactly", "statement": "phi(n) = x psi(n)^2 - psi(n+1) psi(n-1) and 4y omega(n) = psi(n+2) psi(n-1)^2 - psi(n-2) psi(n+1)^2 modulo the curve equation, the division by 4y being exact for every n; the leading terms are x^(n^2) for phi and x^(3n^2/2) (n even) or y x^(3(n^2-1)/2) (n odd) for omega.", "quantifier": "every a, b, every n >= 1 (n <= 46340 for phi, n <= 37837 for omega, beyond which an exponent overflows i32)", "why_tests_cant": "exactness of the division by 4 is a parity fact valid for all n", "anchors": ["src/division_polynomial.rs: phi, omega"]}
{"id": "C51", "title": "is_on_curve decides the curve equation", "statement": "For p > 0 and a finite point, is_on_curve is true iff y^2 = x^3 + a x + b (mod p), for arbitrary (also non-canonical, negative) coordinates; every point with z = 0 is accepted; it depends only on residues.", "quantifier": "every a, b, p > 0, every point", "why_tests_cant": "all coordinates", "anchors": ["src/elliptic_curve.rs: is_on_curve, new_raw, canonicalize"]}
{"id": "C52", "title": "Point addition is closed", "statement": "For odd prime p, plus of two points on the curve returns a point on the curve, namely the chord-and-tangent sum (for finite arguments, in canonical form), and plus panics exactly when an argument is off the curve.", "quantifier": "every odd prime p, every a, b (also singular), all pairs of points", "why_tests_cant": "the addition formula must satisfy the curve equation for all points", "anchors": ["src/elliptic_curve.rs: plus"]}
{"id": "C53", "title": "Point addition is commutative", "statement": "For prime p and finite points P, Q on the curve, plus(P,Q) = plus(Q,P).", "quantifier": "every prime p (2 included), every a, b, all pairs of finite points, on the curve or not", "why_tests_cant": "all pairs", "anchors": ["src/elliptic_curve.rs: plus"]}
{"id": "C54", "title": "Negation and inverses", "statement": "For odd prime p, negate maps the curve to itself, is an involution modulo p, and plus(P, negate(P)) is infinity for every point on the curve; plus(P,Q) is infinity for finite P, Q only if Q = -P modulo p.", "quantifier": "every curve over an odd prime, all points", "why_tests_cant": "all points", "anchors": ["src/elliptic_curve.rs: negate, plus"]}
{"id": "C55", "title": "Infinity is a left identity", "statement": "plus(O, Q) = Q for every point Q on the curve and every representation of O with z = 0.", "quantifier": "every curve, every point Q", "why_tests_cant": "all points", "anchors": ["src/elliptic_curve.rs: plus"]}
{"id": "C56", "title": "Infinity is a right identity", "statement": "plus(P, O) = P for every finite point P on the curve.", "quantifier": "every curve, every point P", "why_tests_cant": "no unit test adds infinity on the right", "anchors": ["src/elliptic_curve.rs: plus"]}
{"id": "C57", "title": "Point addition is associative", "statement": "For prime p > 2 and a non-singular curve, (P+Q)+R = P+(Q+R) for all points on the curve for which no right addend is infinity.", "quantifier": "every odd prime p, every non-singular a, b, all triples of points", "why_tests_cant": "the group law's associativity is a polynomial identity in nine variables with many degenerate cases", "anchors": ["src/elliptic_curve.rs: plus"]}
{"id": "C58", "title": "multiply_scalar is iterated addition", "statement": "For odd prime p, a non-singular curve, a point P on it and n >= 0, multiply_scalar(P,n) represents P+...+P (n times) whenever 2^floor(log2 n) P is finite; in particular for every point of odd order and every n.", "quantifier": "every curve, point and n >= 0", "why_tests_cant": "double-and-add over all scalars needs associativity", "anchors": ["src/elliptic_curve.rs: multiply_scalar"]}
{"id": "C59", "title": "multiply_scalar is correct for every point and every n >= 0", "statement": "multiply_scalar(P,n) = P+...+P (n times) for every point on the curve and n >= 0, including points of order 2^k.", "quantifier": "every curve, point and n >= 0", "why_tests_cant": "fails only when an intermediate doubling hits infinity", "anchors": ["src/elliptic_curve.rs: multiply_scalar, plus"]}
{"id": "C60", "title": "multiply_scalar by a negative scalar negates", "statement": "multiply_scalar(P,-n) = negate(multiply_scalar(P,n)).", "quantifier": "every point, every n > 0", "why_tests_cant": "no test uses a negative scalar", "anchors": ["src/elliptic_curve.rs: multiply_scalar"]}
{"id": "C61", "title": "Point enumeration is sound, complete and duplicate-free", "statement": "For prime p, EllipticCurve::new(a,b,p).points() contains every (x,y,1) with 0 <= x,y < p and y^2 = x^3+ax+b (mod p) exactly once, plus infinity exactly once, and nothing else; cardinality() is their number; new panics for p < 2 or composite p.", "quantifier": "every prime p (below 2^64), every a, b", "why_tests_cant": "completeness rests on there being at most two square roots modulo every prime", "anchors": ["src/elliptic_curve.rs: new, create_points, points, cardinality"]}
{"id": "C62", "title": "point_order is the order of the point", "statement": "For odd prime p, a non-singular curve and a point P on it, point_order(P) terminates and returns the least n >= 1 with nP = infinity.", "quantifier": "every curve and point", "why_tests_cant": "termination needs finiteness of the group; minimality needs all smaller n", "anchors": ["src/elliptic_curve.rs: point_order"]}
{"id": "C63", "title": "Lagrange: point orders divide the cardinality", "statement": "For odd prime p and a non-singular curve, point_order(P) divides cardinality() and multiply_scalar(P, cardinality()) is infinity, for every P in points().", "quantifier": "every non-singular curve over every odd prime, every point", "why_tests_cant": "relates two independent computations on every curve", "anchors": ["src/elliptic_curve.rs: point_order, cardinality, multiply_scalar"]}
{"id": "C64", "title": "division_points lists exactly the n-torsion", "statement": "division_points(n), n >= 1, lists exactly the points P of points() with nP = infinity.", "quantifier": "every curve, every n >= 1", "why_tests_cant": "goes wrong only for curves with points of 2-power order", "anchors": ["src/elliptic_curve.rs: division_points, multiply_scalar"]}
{"id": "C65", "title": "isogeny preserves the number of points", "statement": "isogeny(l) returns the codomain of the isogeny with kernel division_points(l); isogenous curves over GF(p) have equal cardinality().", "quantifier": "every curve and l for which the l-torsion is a cyclic group of order l", "why_tests_cant": "the tests only print the result", "anchors": ["src/elliptic_curve.rs: isogeny"]}
{"id": "C66", "title": "j_invariant is the j-invariant and is an isomorphism invariant", "statement": "For prime p not dividing 4a^3+27b^2, j = j_invariant() satisfies 0 <= j < p and j*(4a^3+27b^2) = 1728*4a^3 (mod p); and the curve (a u^4, b u^6) has the same j for every u not divisible by p.", "quantifier": "every prime p, a, b, u", "why_tests_cant": "all curves and all twists", "anchors": ["src/elliptic_curve.rs: j_invariant"]}
{"id": "C67", "title": "secp256k1 scalar multiplication is a homomorphism from the scalars", "statement": "For Secp256k1::new(): p is prime, g is on the curve, multiply_scalar(g,n) is on the curve for every n >= 0, equals the n-fold sum of g for every n >= 0, and multiply_scalar(g,n) + multiply_scalar(g,m) = multiply_scalar(g,n+m) whenever multiply_scalar(g,m) is finite.", "quantifier": "every scalar n, m >= 0", "why_tests_cant": "2^256 scalars", "anchors": ["src/secp256k1.rs: Secp256k1::new", "src/elliptic_curve.rs: multiply_scalar"]}
{"id": "C68", "title": "schoof reports residues of the trace for distinct small primes", "statement": "Whenever schoof(a,b,q) returns, the moduli are a prefix of [2,3,5] containing 2, and every residue r satisfies 0 <= r < l, so chinese_remainder applies to the result.", "quantifier": "every a, b, q", "why_tests_cant": "control flow over all inputs", "anchors": ["src/schoof.rs: schoof"]}
{"id": "C69", "title": "schoof determines the parity of the trace", "statement": "The residue for l = 2 returned by schoof is 0 iff x^3+ax+b has a root in GF(q) (iff the number of points is even), and schoof returns for every non-singular curve over a prime q.", "quantifier": "every curve over every odd prime q", "why_tests_cant": "needs all curves", "anchors": ["src/schoof.rs: schoof", "src/polynomial.rs: is_gcd_one"]}
{"id": "C70", "title": "sea's isogeny j-invariants are roots of the modular polynomial", "statement": "Whenever sea(ec,l) returns, gcd is monic, divides x^p - x and Phi_l(x, j(ec)) mod p, and is their greatest common divisor; its degree is the number of roots of Phi_l(x, j(ec)) in GF(p); the reported j' are the first min(2, degree) of these roots in ascending order, distinct and in 0..p-1; is_elkies_prime is true.", "quantifier": "every curve and l", "why_tests_cant": "all curves", "anchors": ["src/schoof_elkies_atkins.rs: sea"]}
{"id": "C71", "title": "sea recognises Atkin primes", "statement": "sea(ec,l) returns with is_elkies_prime = false when Phi_l(x, j(ec)) has no root mod p.", "quantifier": "every curve and l", "why_tests_cant": "the non-returning branch cannot be observed by a finishing test", "anchors": ["src/schoof_elkies_atkins.rs: sea", "src/polynomial.rs: gcd"]}
{"id": "C72", "title": "Display of a polynomial determines it", "statement": "to_string is injective on polynomials in normal form (no explicit zero coefficient) and on terms with nonzero coefficient: equal strings mean equal values; a polynomial in normal form prints as \"0\" exactly when it is the zero polynomial.", "quantifier": "all pairs of polynomials in normal form, all pairs of terms with nonzero coefficient, any exponents and subscripts", "why_tests_cant": "all strings", "anchors": ["src/polynomial.rs: impl Display", "src/term.rs: impl Display", "src/subscripted_variable.rs: impl Display"]}
{"id": "C73", "title": "Display of every polynomial with value zero is \"0\"", "statement": "Every polynomial all of whose coefficients are zero prints as \"0\", and no printed polynomial starts with '+'.", "quantifier": "all polynomials constructible through the API", "why_tests_cant": "needs explicit zero coefficients, which only some operations create", "anchors": ["src/polynomial.rs: impl Display, Zero::is_zero"]}
{"id": "C74", "title": "Monomial::eval_q is the integer power", "statement": "eval_q(q) returns q^qpow when qpow >= 0 and the value fits i32, and panics when it does not fit; for negative qpow it panics for |q| >= 2 and returns q^|qpow| for q = -1, 0, 1.", "quantifier": "every i32 q and qpow", "why_tests_cant": "cast of negative exponents to u32", "anchors": ["src/term.rs: Monomial::eval_q"]}
{"id": "C75", "title": "The modular polynomial is determined by the q-expansion equations", "statement": "If some symmetric integer polynomial of the shape x^(p+1)+y^(p+1)+sum_{i,j<=p} c_ij x^i y^j vanishes at (j(q), j(q^p)) in all orders -p^2-p..0 (the classical modular polynomial does), then modular_polynomial(p), whenever it returns, equals it.", "quantifier": "every prime p with 3(p^2+p+1)+1 <= i32::MAX, every such polynomial", "why_tests_cant": "tests compare p = 2, 3 with tabulated values", "anchors": ["src/modular_polynomial.rs: modular_polynomial", "src/simultaneous_equation.rs: solve"]}
{"id": "C76", "title": "Point addition is closed over GF(2)", "statement": "EllipticCurve::new accepts p = 2; plus of two points on such a curve is on the curve.", "quantifier": "every a, b, all pairs of points, p = 2", "why_tests_cant": "A claim about all curves and points; the failing doubling case only shows for odd y.", "anchors": ["src/elliptic_curve.rs: plus, new"]}
{"id": "C77", "title": "Division of a polynomial by a term", "statement": "a / t by a single variable-free term t (all five forms of / and /= agree) divides every coefficient with floor and subtracts exponents: coefficient of m is floor(coefficient of m*t in a / coefficient of t); (a*t)/t = a; if every coefficient is divisible the quotient times t is a; division by zero, by several terms, by a term with a variable or with i32 exponent overflow panics.", "quantifier": "all polynomials and terms", "why_tests_cant": "floor semantics for all signs and all exponents", "anchors": ["src/polynomial.rs: impl Div, DivAssign", "src/term.rs: impl Div"]}
{"id": "C78", "title": "schoof's residues are the trace of Frobenius modulo l", "statement": "Every (l, r) reported by schoof(a,b,q) satisfies r = q + 1 - #E(F_q) (mod l).", "quantifier": "every elliptic curve over every prime field on which schoof returns", "why_tests_cant": "the repository has one (ignored) test of schoof; a claim about all curves", "anchors": ["src/schoof.rs: schoof"]}
{"id": "C79", "title": "Display of points, point lists and curves identifies them", "statement": "Two points print alike exactly when both are infinity or both are affine with equal coordinates; two lists of points print alike exactly when they agree point by point; two curves (new or new_raw) with the same text have the same a, b, p, cardinality and j-invariant. Two subscripted variables print alike exactly when they are ==.", "quantifier": "all points, all lists of points, all curves whose Display does not panic, all subscripted variables", "why_tests_cant": "injectivity is a statement about all pairs of values", "anchors": ["src/elliptic_curve.rs: impl Display for ECPoint, ECPointVec, EllipticCurve"]}
{"id": "C80", "title": "TermBuilder sets exactly the named field", "statement": "Each setter of TermBuilder changes its own field of the built term and no other, in any order and whatever was set before; the default is the term 1; variable_ij panics on negative subscripts; every term can be built.", "quantifier": "all builder states and arguments", "why_tests_cant": "tests use a handful of chains", "anchors": ["src/term_builder.rs: TermBuilder"]}
{"id": "C81", "title": "Term methods agree with the Polynomial methods on one-term polynomials", "statement": "For a term t with nonzero coefficient: to_frob, to_y_power, to_q_power, derivative_x, derivative_y, modulo, negation, has_x/y/q, highest_term_x, eval and polynomial substitution of t correspond to the same operation on t.to_pol() (same panics); is_equal_order compares exactly the three exponents; modular_assign equals modulo.", "quantifier": "all terms with nonzero coefficient, all arguments", "why_tests_cant": "agreement of two implementations on all inputs", "anchors": ["src/term.rs: Term::{to_frob,to_y_power,to_q_power,derivative_x,derivative_y,modulo,modular_assign,has_x,has_y,has_q,is_equal_order,eval_x_polynomial,eval_y_polynomial}", "src/polynomial.rs"]}
{"id": "C82", "title": "Division polynomials detect torsion", "statement": "For every finite point P of an elliptic curve over GF(p) (p odd prime, non-zero discriminant) and every n from 1 to 65534, psi(n) returns and its value at P is divisible by p exactly when n\u00b7P is the point at infinity.", "quantifier": "all a, b, odd primes p with non-singular curve, all finite points in any representation, all n in 1..65534", "why_tests_cant": "It ties a recursively computed polynomial family of degree n^2 to the group law for every curve and point; tests can only sample curves and n.", "anchors": ["src/division_polynomial.rs: psi", "src/elliptic_curve.rs: plus, multiply_scalar"]}
{"id": "C83", "title": "phi, psi, omega give the coordinates of multiples", "statement": "For every finite point P of an elliptic curve over GF(p) and every n from 1 to 37837 with n\u00b7P finite, psi_n(P) is invertible modulo p and n\u00b7P = (phi_n(P)/psi_n(P)^2, omega_n(P)/psi_n(P)^3); the same holds for every finite result of multiply_scalar.", "quantifier": "all a, b, odd primes p with non-singular curve, all finite points, all n in 1..37837", "why_tests_cant": "An identity between two independent computations (polynomial recurrences and double-and-add) over all curves, points and multipliers.", "anchors": ["src/division_polynomial.rs: psi, phi, omega", "src/elliptic_curve.rs: multiply_scalar"]}
{"id": "C84", "title": "point_order is the first vanishing division polynomial", "statement": "For every finite point P and every n from 1 to 65534, point_order(P) returns n exactly when psi_n vanishes at P modulo p and psi_k does not for 1 <= k < n.", "quantifier": "all elliptic curves over GF(p), p odd, all finite points, all n in 1..65534", "why_tests_cant": "Quantifies over all curves, points and orders, and includes termination of the order loop.", "anchors": ["src/elliptic_curve.rs: point_order", "src/division_polynomial.rs: psi"]}
{"id": "C85", "title": "division_points are the roots of the division polynomial", "statement": "division_points(n) lists the point at infinity and every point of points() at which psi_n vanishes modulo p; when the curve has no point of order 2, or n is a power of two, it lists nothing else and no point twice.", "quantifier": "all elliptic curves over GF(p), p odd, all n in 1..65534, all listed points", "why_tests_cant": "Completeness and soundness of an enumeration over every curve and n.", "anchors": ["src/elliptic_curve.rs: division_points, points", "src/division_polynomial.rs: psi"]}
{"id": "C86", "title": "cardinality satisfies Hasse's bound", "statement": "For every elliptic curve over GF(p), p an odd prime below 2^64, the value of cardinality() satisfies (p + 1 - cardinality())^2 <= 4 p; hence for p >= 5 points() contains a point other than the one at infinity.", "quantifier": "all a, b, all odd primes p with non-singular curve for which new returns", "why_tests_cant": "A bound over all curves over all prime fields; each test checks one curve.", "anchors": ["src/elliptic_curve.rs: EllipticCurve::new, points, cardinality"]}
{"id": "C87", "title": "cardinality is determined by trace residues or by one point of large order", "statement": "If the residues given for pairwise coprime moduli l are those of p + 1 - cardinality() and the product of the moduli exceeds 4 sqrt p, the class returned by chinese_remainder contains exactly one integer t with t^2 <= 4 p and cardinality() = p + 1 - t. Likewise, if point_order returns n > 4 sqrt p for some point, cardinality() is the only multiple of n within Hasse's bound; every order returned is at most p + 1 + 2 sqrt p.", "quantifier": "all elliptic curves over GF(p), p odd, all lists of moduli and residues, all points", "why_tests_cant": "Correctness of the final step of Schoof's algorithm for every curve and every system of moduli.", "anchors": ["src/bigint.rs: chinese_remainder", "src/elliptic_curve.rs: cardinality, point_order", "src/schoof.rs: schoof"]}
{"id": "C88", "title": "parity of cardinality", "statement": "On an elliptic curve over GF(p), p odd, cardinality() is even exactly when x^3 + a x + b has a root modulo p.", "quantifier": "all a, b, all odd primes p with non-singular curve for which new returns", "why_tests_cant": "An equivalence over all curves.", "anchors": ["src/elliptic_curve.rs: cardinality, create_points"]}
{"id": "C89", "title": "secp256k1 is a cyclic group of prime order", "statement": "Let n = 0xFFFFFFFFFFFFFFFFFFFFFFFFFFFFFFFEBAAEDCE6AF48A03BBFD25E8CD0364141. n is prime and the curve of Secp256k1::new() has exactly n points including infinity. Every finite point on it has order n (point_order would return n, multiply_scalar by n gives infinity, by 0 < k < n it does not); every point is a unique multiple k P, 0 <= k < n, of any finite P; two multiples j P, k P agree exactly when n divides j - k; and the ECDSA check computed with inverse, multiply_scalar and plus recovers the nonce point for every key, nonce and message with s k = z + r d mod n.", "quantifier": "all points of secp256k1 and all non-negative scalars, all keys, nonces and messages", "why_tests_cant": "There are about 2^256 points and scalars; none of the counts can be enumerated.", "anchors": ["src/secp256k1.rs: Secp256k1::new", "src/elliptic_curve.rs: multiply_scalar, plus, point_order, is_on_curve", "src/bigint.rs: inverse"]}
{"id": "C90", "title": "isomorphic curves behave identically", "statement": "If a' = u^4 a and b' = u^6 b modulo p with u invertible (u = 1: coefficients that agree modulo p), the map (x, y) -> (u^2 x, u^3 y) carries the points accepted by is_on_curve for (a, b) exactly to those for (a', b'), commutes with plus and multiply_scalar (panicking on the same inputs), preserves the value of point_order, and the two curves have the same cardinality().", "quantifier": "all odd primes p, all u not divisible by p, all a, b, a', b' so related, all points and scalars", "why_tests_cant": "Relates two runs on infinitely many pairs of curves.", "anchors": ["src/elliptic_curve.rs: is_on_curve, plus, multiply_scalar, point_order, cardinality"]}
{"id": "C91", "title": "quadratic twists have complementary cardinalities", "statement": "If d is a non-residue modulo p and a' = d^2 a, b' = d^3 b, then cardinality() of the two curves adds up to 2 p + 2. Every elliptic curve over GF(p), p odd, has such a twist, with the same j_invariant(). Two elliptic curves with the same j_invariant() other than 0 and 1728 have the same cardinality() or cardinalities adding up to 2 p + 2.", "quantifier": "all odd primes p below 2^64, all non-residues d, all coefficients", "why_tests_cant": "A relation between all pairs of curves over all primes.", "anchors": ["src/elliptic_curve.rs: new, cardinality, j_invariant"]}
{"id": "C92", "title": "curves with known number of points", "statement": "cardinality() is exactly p + 1 for y^2 = x^3 + a x when p = 3 mod 4, and for y^2 = x^3 + b when p = 2 mod 3, p odd (coefficients taken modulo p).", "quantifier": "all such primes p below 2^64 and all a, b", "why_tests_cant": "Infinitely many primes and coefficients.", "anchors": ["src/elliptic_curve.rs: new, cardinality, create_points"]}
{"id": "C93", "title": "cardinality modulo p is read off power_modulo", "statement": "For every curve over GF(p), p odd, cardinality() is congruent modulo p to 1 minus the coefficient of x^(p-1) in (x^3 + a x + b).power_modulo((p-1)/2, p), and that call returns whenever 3 (p-1)/2 < 2^31. For p >= 17 and an elliptic curve the coefficient determines cardinality(): t = p + 1 - cardinality() is the only integer with t^2 <= 4 p congruent to it. For p >= 5 the coefficient is 0 exactly when cardinality() = p + 1.", "quantifier": "all odd primes p, all a, b", "why_tests_cant": "Connects two independent computations for infinitely many curves.", "anchors": ["src/elliptic_curve.rs: new, cardinality", "src/polynomial.rs: power_modulo"]}
{"id": "C94", "title": "canonicalize keeps the point", "statement": "canonicalize replaces the coordinates by their residues modulo p without changing which point is meant: the result is on the curve exactly when the argument is, is the point at infinity exactly when the argument is, and applying it again changes nothing. (False when z is a non-zero multiple of p; proved for all other representatives.)", "quantifier": "all integers x, y, z, all curves, all moduli p > 0", "why_tests_cant": "Infinitely many representatives of each point.", "anchors": ["src/elliptic_curve.rs: canonicalize, is_on_curve"]}
{"id": "C95", "title": "results depend only on the affine point", "statement": "Two representatives of the same affine point (same z = 0 status, same x and y modulo p) are interchangeable: is_on_curve answers the same, plus panics for the same arguments and otherwise gives representatives of the same point (literally the same one for finite arguments), likewise negate and multiply_scalar, and point_order returns literally the same number. For every modulus p > 0, prime or not.", "quantifier": "all representatives, all scalars, all moduli p > 0, all a, b", "why_tests_cant": "Infinitely many representatives of each point and all scalars.", "anchors": ["src/elliptic_curve.rs: is_on_curve, plus, negate, multiply_scalar, point_order"]}
{"id": "C96", "title": "create_points may be called on any curve, and again", "statement": "create_points makes points() the list of the solutions, each once, followed by (0,1,0), whatever the history: calling it again has no effect, and it works for a curve from new_raw with any modulus. (False: every further call lists all points once more, so that cardinality() grows to k+1 times the number of points; and for composite moduli solutions are missing. Proved: new = new_raw + create_points for prime p; the exact contents after k further calls; for every modulus create_points returns and lists only solutions.)", "quantifier": "all histories of k calls, all curves, all integer moduli", "why_tests_cant": "All histories and all moduli.", "anchors": ["src/elliptic_curve.rs: new_raw, new, create_points, points, cardinality"]}
{"id": "C97", "title": "reduction_modular decides equality of functions on the curve", "statement": "Two polynomials have the same reduction_modular(a, b, p) exactly when their difference is a multiple of y^2 - (x^3 + a x + b) modulo p; the result is the only polynomial with coefficients in [1, p) and y-degree at most 1 congruent to the argument. The same for reduction with integer coefficients.", "quantifier": "all polynomials (non-negative exponents, result in i32), all a, b, all p > 0", "why_tests_cant": "Uniqueness over all multipliers and all polynomials.", "anchors": ["src/polynomial.rs: reduction, reduction_modular"]}
{"id": "C98", "title": "to_frob is the Frobenius map", "statement": "For a polynomial f in x and y and q a power of the prime p: f.power_modulo(q, p) == f.to_frob(q) % p; to_frob(q) does not change any value modulo p; and on the curve reducing before to_frob(q) makes no difference after a final reduction_modular. Both calls return whenever q times the exponents fits i32.", "quantifier": "all polynomials in x and y, all primes p, all exponents k (q = p^k), all points, all a, b", "why_tests_cant": "Identity of polynomials of unbounded degree for infinitely many primes.", "anchors": ["src/polynomial.rs: to_frob, power_modulo, reduction_modular, eval_xy"]}
{"id": "C99", "title": "gcd with x^p - x counts the roots", "statement": "For a polynomial f in x whose leading coefficient is prime to p, f.gcd(x^p - x, p) (in either order) returns exactly when f has a root modulo p and runs forever otherwise; what it returns is monic, has exactly the roots of f modulo p, and its degree is their number in [0, p).", "quantifier": "all primes p <= 2^31-1, all polynomials f in x", "why_tests_cant": "All polynomials and primes; the number of roots is not computed by the code.", "anchors": ["src/polynomial.rs: gcd", "src/schoof_elkies_atkins.rs: schoof_elkies_atkins"]}
{"id": "C100", "title": "At most n^2 torsion points", "statement": "On an elliptic curve at most n^2 of the points() satisfy n P = O (n <= 65534 prime to p), and their number divides n^2 (any n >= 1 if p < 2^47 or if n has only prime factors up to 65534); for prime l it is 1, l or l^2, and 1 or p for l = p. Hence division_points(n) has at most n^2 elements where it is exact and never more than n^2 + (2^floor(log2 n))^2.", "quantifier": "all elliptic curves over all primes, all n", "why_tests_cant": "Bound for every curve and every n, by the degree of the division polynomial.", "anchors": ["src/elliptic_curve.rs: division_points, points, plus, multiply_scalar", "src/division_polynomial.rs: psi"]}
{"id": "C101", "title": "Structure of the group of points", "statement": "Some listed point has an order m that is a multiple of every point_order; every prime factor of cardinality() is the point_order of a listed point; for p < 2^47 cardinality() is m d with d dividing m.", "quantifier": "all elliptic curves over all primes", "why_tests_cant": "Structure theorem for every curve.", "anchors": ["src/elliptic_curve.rs: point_order, cardinality, points"]}
{"id": "C102", "title": "schoof on curves with rational 3- or 5-torsion", "statement": "If cardinality() is a multiple of 3, q > 3 and q = 2 mod 3, then whenever schoof returns it reports residue 0 for the modulus 3, which is the trace q + 1 - cardinality() mod 3. If cardinality() is a multiple of 5, q > 5 and q = 2 or 3 mod 5, then whenever schoof returns the residue it reports for 5 is either the trace mod 5 or 0 (the code's answer when no match is found).", "quantifier": "all elliptic curves over all primes q with a rational point of order 3 (5), all runs of schoof that return", "why_tests_cant": "Soundness of an algebraic algorithm for every curve of a class; tests fix a few curves, and a run takes minutes already for small q.", "anchors": ["src/schoof.rs: schoof", "src/division_polynomial.rs: psi, phi, omega", "src/polynomial.rs: reduction_modular, to_frob, polynomial_modular", "src/elliptic_curve.rs: cardinality"]}
{"id": "C103", "title": "Exactly when modular_polynomial returns", "statement": "modular_polynomial(p) returns for every prime p <= 211 and panics for every other p; the same holds for subscripted_variable_modular_polynomial_list(p). In particular the calls of the example program (p = 2, 3, 5) return.", "quantifier": "every integer p", "why_tests_cant": "tests run p = 2, 3; p = 211 would take far too long to run, and the linear system must be solvable for every prime in the range", "anchors": ["src/modular_polynomial.rs: modular_polynomial, subscripted_variable_modular_polynomial_list", "src/simultaneous_equation.rs: solve", "examples/hello_world.rs: main"]}
{"id": "C104", "title": "Range and positivity of the q-series of j", "statement": "j_invariant1(N), N >= 0, returns exactly when 3N fits an i32 and panics otherwise; j_invariant(N), N >= -1, returns exactly when 3(N+1) fits. Every coefficient of j (q^-1 .. q^N), of q j (q^0 .. q^N) and of delta1_inverse (q^0 .. q^N) is a positive integer.", "quantifier": "every order N", "why_tests_cant": "orders in the millions cannot be run; positivity is for every coefficient", "anchors": ["src/j_invariant.rs: j_invariant, j_invariant1", "src/delta.rs: delta1_inverse", "src/eisenstein.rs: eisenstein4"]}
{"id": "C105", "title": "What sea does for every l", "statement": "On an elliptic curve over a prime p that fits an i32, sea(ec, l) panics for every l that is not a prime up to 211; for a prime l <= 211 it returns if Phi_l(x, j(ec)) has a root modulo p, and never returns if it has none.", "quantifier": "all elliptic curves, all l", "why_tests_cant": "all l, and a run that never ends cannot be observed", "anchors": ["src/schoof_elkies_atkins.rs: sea", "src/modular_polynomial.rs: modular_polynomial"]}
{"id": "C106", "title": "Exactly when psi, phi and omega return", "statement": "For all curve coefficients a, b: psi(a,b,n) returns exactly for 0 <= n <= 65536, phi(a,b,n) exactly for 1 <= n <= 46340 and omega(a,b,n) exactly for 1 <= n <= 37837; for every other n the call panics (checked arithmetic), it never loops and never returns a wrapped result.", "quantifier": "all integers a, b and all n", "why_tests_cant": "all n and all coefficients; the limits are far beyond what can be computed", "anchors": ["src/division_polynomial.rs: psi, phi, omega"]}
{"id": "C107", "title": "polynomial_modular decides congruence modulo a polynomial", "statement": "For a prime p and a divisor d(x) of positive degree whose leading coefficient is a unit modulo p, two polynomials without negative powers of x (they may contain y and q) get the same remainder from polynomial_modular exactly when they differ by a multiple of d modulo p (for polynomials in x: exactly when d divides the difference; the remainder is zero exactly when d divides the dividend). Taking remainders before adding, subtracting or multiplying does not change the remainder of the result, and a remainder is its own remainder.", "quantifier": "all primes p, all divisors with unit leading coefficient, all dividends", "why_tests_cant": "an equivalence over all pairs of polynomials", "anchors": ["src/polynomial.rs: polynomial_modular, Add, Sub, Mul, is_zero"]}
{"id": "C108", "title": "The laws of gcd", "statement": "For a prime p and polynomials in x with coefficients in [1,p): whatever gcd(a,b,p) returns is the only monic polynomial that divides both and is a multiple of every common divisor; gcd(b,a,p) then returns the same; gcd(a,a,p) is to_monic(a); adding a multiple of b to a does not change gcd(a,b); gcd is associative where it returns; gcd(ac,bc) is gcd(a,b) times c made monic.", "quantifier": "all primes p, all polynomials in x", "why_tests_cant": "laws over all pairs and triples of polynomials", "anchors": ["src/polynomial.rs: gcd, to_monic"]}
{"id": "C109", "title": "gcd with the derivative finds repeated factors", "statement": "For a prime p and a polynomial f in x whose derivative does not vanish modulo p, gcd(f, derivative_x(f) mod p, p) returns exactly when the square of a polynomial of positive degree divides f modulo p, and never returns for square-free f; the roots of the result are exactly the multiple roots of f. If the derivative vanishes modulo p, f has a repeated factor but the call never returns. For the cubic x^3+ax+b and p > 3 it returns exactly when p divides 4a^3+27b^2 (the curve is singular).", "quantifier": "all primes p, all polynomials f in x, all a, b", "why_tests_cant": "an equivalence over all polynomials; a call that never returns cannot be observed", "anchors": ["src/polynomial.rs: derivative_x, modular_assign, gcd", "src/term.rs: derivative_x"]}
{"id": "C110", "title": "Singular curves: what the constructor accepts and how many points it lists", "statement": "EllipticCurve::new accepts every a, b for a prime p, also when p divides 4a^3+27b^2. For such a singular curve cardinality() is p+1 if p divides a (p odd), and otherwise (p > 3) p if -2ab is a square modulo p and p+2 if not; over GF(2) every curve has 3 points. For every a the cardinalities over all b = 0..p-1 add up to p(p+1). On y^2 = x^3, plus of two finite points with x <> 0 adds the quotients x/y (infinity when they cancel), and point_order of each of them is p.", "quantifier": "all primes p, all a and b (singular or not, as stated), all points of the cusp", "why_tests_cant": "ranges over all primes, all singular curves and all pairs of points", "anchors": ["src/elliptic_curve.rs: EllipticCurve::new, create_points, cardinality, plus, point_order"]}
{"id": "C111", "title": "Kronecker's congruence for the modular polynomial", "statement": "A symmetric polynomial of the shape x^(p+1)+y^(p+1)+sum c_ij x^i y^j (i,j <= p) satisfies the q-expansion equations from which modular_polynomial(p) is computed modulo p exactly when it is congruent to (x^p-y)(x-y^p) modulo p. So whenever the integer equations have a solution (the classical modular polynomial is one), modular_polynomial(p) is congruent to (x^p-y)(x-y^p) modulo p; and then on every elliptic curve over GF(p), sea(ec,p) returns and reports exactly [j(ec)].", "quantifier": "all primes p for which modular_polynomial returns, all symmetric polynomials of that shape, all elliptic curves over GF(p)", "why_tests_cant": "a congruence of all coefficients for all primes and all curves", "anchors": ["src/modular_polynomial.rs: modular_polynomial, subscripted_variable_modular_polynomial_list", "src/schoof_elkies_atkins.rs: sea", "src/j_invariant.rs: j_invariant"]}
{"id": "C112", "title": "The isogeny relation reported by sea is symmetric and depends only on j", "statement": "If sea(ec,l) reports j' and ec' is an elliptic curve over the same field with j_invariant() = j', then sea(ec',l) returns, and reports j(ec) unless its degree exceeds 2 (only two roots are reported). What sea(ec,l) does depends only on the field and on j_invariant().", "quantifier": "all odd primes p that fit an i32, all pairs of elliptic curves over GF(p), all l", "why_tests_cant": "relates the results on all pairs of curves; termination", "anchors": ["src/schoof_elkies_atkins.rs: sea", "src/modular_polynomial.rs: modular_polynomial"]}
{"id": "C113", "title": "Division polynomials form an elliptic divisibility sequence", "statement": "For all M >= N >= 1 with M+N <= 65536, psi(M+N) psi(M-N) = psi(M+1) psi(M-1) psi(N)^2 - psi(N+1) psi(N-1) psi(M)^2 modulo the curve equation over the integers. If m divides n then psi(m) divides psi(n) as integer polynomials with a quotient of y-degree at most 1, and for odd m >= 3 and a prime p not dividing m, psi(n).polynomial_modular(psi(m), p) returns and is zero.", "quantifier": "all integers a, b, all M >= N >= 1 with M+N <= 65536, all divisors m of n, all primes p not dividing m", "why_tests_cant": "polynomial identities in a, b, x, y for all index pairs", "anchors": ["src/division_polynomial.rs: psi", "src/polynomial.rs: polynomial_modular"]}
{"id": "C114", "title": "Division polynomials modulo p depend only on the curve modulo p", "statement": "If a = a' and b = b' modulo p then psi(a,b,n) % p and psi(a',b',n) % p are the same polynomial; likewise phi, and (for odd p) omega.", "quantifier": "all p > 0 (omega: odd), all a, b, a', b' congruent modulo p, all n in the supported range", "why_tests_cant": "all representatives of all residues, all n", "anchors": ["src/division_polynomial.rs: psi, phi, omega", "src/polynomial.rs: Rem"]}
{"id": "C115", "title": "Division polynomials respect isomorphisms of curves", "statement": "For t <> 0, evaluating psi(t^4 a, t^6 b, n), phi and omega at (t^2 x, t^3 y) gives t^(n^2-1), t^(2n^2) and t^(3n^2) times the value of psi(a,b,n), phi and omega at (x,y).", "quantifier": "all integers a, b, x, y, t <> 0 and all n in the supported range", "why_tests_cant": "all curves, points, scalings and indices", "anchors": ["src/division_polynomial.rs: psi, phi, omega", "src/polynomial.rs: eval_xy"]}
{"id": "C116", "title": "schoof's search for the residue of an odd prime", "statement": "For every (l, r) with l >= 3 reported by schoof(a,b,q), q prime: let j be the least index in 1..(l-1)/2 such that, modulo psi(l), q and the curve equation, the x-coordinate of [q mod l](x,y) + (x^(q^2), y^(q^2)) (given by the division polynomials and the chord formula) equals that of the Frobenius image of [j](x,y); then r = j or r = l - j. If there is no such j then r = 0 or r^2 = 4q mod l. r = 0 exactly when there is no such j and q is not a square mod l or its least root w fails the test x^q psi(w)^2 = phi(w) modulo the division polynomial used there.", "quantifier": "all a, b, all primes q and all runs of schoof that return", "why_tests_cant": "divisibility statements about polynomials of degree about q^2 for every curve and prime", "anchors": ["src/schoof.rs: schoof", "src/division_polynomial.rs: psi, phi, omega", "src/polynomial.rs: polynomial_modular, reduction_modular, to_frob"]}
{"id": "C117", "title": "schoof decides the sign of the residue by the y-coordinate of the sum", "statement": "For j as in C116 the reported residue is j if the y-coordinate of [q mod l](x,y) + (x^(q^2), y^(q^2)) equals that of the Frobenius image of [j](x,y) modulo psi(l), q and the curve equation, and l - j otherwise.", "quantifier": "all a, b, all primes q and all runs of schoof that return", "why_tests_cant": "divisibility statements about polynomials for every curve and prime", "anchors": ["src/schoof.rs: schoof"]}
{"id": "C118", "title": "The coefficients of delta1 and delta1_inverse obey Euler-type recurrences", "statement": "For every order N (within i32), the coefficients d(0..N) of delta1(N) start with d(0) = 1 and satisfy n d(n) = -24 (sigma(1) d(n-1) + ... + sigma(n) d(0)) where sigma is the sum of divisors; they are the only sequence that does. The coefficients i(0..N) of delta1_inverse(N) start with 1 and satisfy the same recurrence with +24. In particular 24 divides n d(n) and n i(n).", "quantifier": "all orders N >= 0 with 2N+1 <= i32::MAX and all n <= N", "why_tests_cant": "the recurrence ties every coefficient to all earlier ones for unboundedly many orders; tests only compare a few literal series", "anchors": ["src/delta.rs: delta1, delta1_inverse", "src/divisor.rs: sigma_divisor"]}
{"id": "C119", "title": "sigma_divisor is multiplicative, geometric on prime powers, and recognises primes", "statement": "For coprime positive a, b with a b < i32::MAX, sigma_divisor(a b, k) = sigma_divisor(a, k) sigma_divisor(b, k). For prime p, sigma_divisor(p^e, k) = 1 + p^k + ... + p^(e k). For 2 <= n < i32::MAX, sigma_divisor(n, k) = 1 + n^k exactly when n is prime.", "quantifier": "all coprime pairs, all prime powers, all n, all exponents k >= 0", "why_tests_cant": "ranges over all coprime pairs and all primes", "anchors": ["src/divisor.rs: sigma_divisor"]}
{"id": "C120", "title": "Congruences of eisenstein4 and the j-invariant", "statement": "At every order, eisenstein4 is congruent to 1 modulo 240, j_invariant1 is congruent to delta1_inverse modulo 720 coefficient by coefficient, and (n+1) times the coefficient of q^n in j_invariant is a multiple of 24.", "quantifier": "all orders N (within i32) and all exponents n", "why_tests_cant": "holds for every coefficient of series of unbounded length", "anchors": ["src/eisenstein.rs: eisenstein4", "src/j_invariant.rs: j_invariant1, j_invariant", "src/delta.rs: delta1_inverse"]}
{"id": "C121", "title": "Schoof's residue for l = 3 is the trace of Frobenius up to sign, with one exactly described exception", "statement": "Let E: y^2 = x^3 + a x + b be an elliptic curve over GF(q), q > 3, with trace t = q + 1 - #E(GF(q)) counted by EllipticCurve. The comparison of x-coordinates that schoof makes for l = 3 succeeds exactly when 3 does not divide t. Hence, whenever schoof(a,b,q) returns, the pair (3, r) it reports has 0 <= r < 3 and r = t or r = -t (mod 3), except exactly when q = 1 (mod 3), 3 divides t and -4b is a nonzero cube modulo q (the last test uses the division polynomial of the wrong curve y^2 = x^3 + q x + b); then r is 1 or 2 although t = 0 (mod 3).", "quantifier": "every elliptic curve over every prime field with q > 3 on which schoof returns", "why_tests_cant": "relates a symbolic computation modulo the third division polynomial to a point count, for all curves and all primes", "anchors": ["src/schoof.rs: schoof", "src/division_polynomial.rs: psi, phi, omega", "src/elliptic_curve.rs: EllipticCurve::new, cardinality"]}
{"id": "C122", "title": "Schoof's residue for l = 5 is the trace of Frobenius up to sign, with exactly described exceptions", "statement": "Let E: y^2 = x^3 + a x + b be an elliptic curve over GF(q), q > 5, with trace t = q + 1 - #E(GF(q)) counted by EllipticCurve. For j = 1, 2 the comparison of x-coordinates that schoof makes for l = 5 succeeds exactly when t = j or t = -j (mod 5), or when Frobenius acts on the points of order 5 as multiplication by w or -w for a square root w of q modulo 5 (then q = 1, t = +-2 or q = 4, t = +-1 modulo 5). Hence, whenever schoof(a,b,q) returns, the pair (5, r) it reports has r = t or r = -t (mod 5), except exactly when q = 1 (mod 5) and Frobenius is 1 or -1 on the points of order 5, or 5 divides t, q = w^2 (mod 5) and the last test, made with the division polynomial of the wrong curve y^2 = x^3 + q x + b, succeeds. In particular the residue is right up to sign for q = 2, 3 (mod 5), and for q = 4 (mod 5) unless 5 divides t; and if it is 0 then 5 divides t.", "quantifier": "every elliptic curve over every prime field with q > 5 on which schoof returns", "why_tests_cant": "relates a symbolic computation modulo the fifth division polynomial to a point count, for all curves and all primes", "anchors": ["src/schoof.rs: schoof", "src/division_polynomial.rs: psi, phi, omega", "src/elliptic_curve.rs: EllipticCurve::new, cardinality"]}
{"id": "C123", "title": "The exact residue of schoof for l = 3, including its sign", "statement": "Let E: y^2 = x^3 + a x + b be an elliptic curve over GF(q), q > 3, with trace t = q + 1 - #E(GF(q)) not divisible by 3, counted by EllipticCurve. Whenever schoof(a,b,q) returns, the residue it reports for 3 is 1 exactly if q = 1 (mod 3) and either the third division polynomial 3x^4 + 6ax^2 + 12bx - a^2 splits into four distinct linear factors modulo q or t = 1 (mod 3) and q divides a; otherwise it is 2, whatever t is. Together with C121 this says for every curve exactly whether the residue reported for 3 is t modulo 3: for q = 2 (mod 3) it is wrong exactly when t = 1 (mod 3).", "quantifier": "every elliptic curve over every prime field with q > 3 on which schoof returns", "why_tests_cant": "relates a symbolic computation with omega polynomials modulo the third division polynomial, whose sign formula in the code is not the addition law, to a point count, for all curves and primes", "anchors": ["src/schoof.rs: schoof"]}
{"id": "C124", "title": "The roots of a division polynomial modulo p count torsion points on the curve and its twist", "statement": "Let E be an elliptic curve over GF(p), E' its quadratic twist by any non-residue, n <= 65534. For odd n, twice the number of roots of psi(n) modulo p is the number of finite n-torsion points listed for E plus that for E'; for even n the same holds for the common roots of psi(n)(x,1) and the cubic taken together. For an odd prime l, psi(l) has a root modulo p exactly if l divides cardinality(E) or 2p + 2 - cardinality(E). Consequently gcd(psi(l), x^p - x) returns, and is_gcd_one answers true, exactly in that case, and the gcd is monic of degree half the number of those torsion points.", "quantifier": "all curves over all prime fields, all twists, all n up to 65534, all odd primes l", "why_tests_cant": "ranges over all curves, fields and n; the count involves points of two curves and the roots of a polynomial of degree (n^2-1)/2", "anchors": ["src/division_polynomial.rs: psi", "src/elliptic_curve.rs: cardinality, points", "src/polynomial.rs: gcd, is_gcd_one, eval_xy"]}
{"id": "C125", "title": "Points of order 2 are read off the discriminant, and torsion counts divide the cardinality", "statement": "On an elliptic curve over GF(p), p odd, division_points(2) lists the point at infinity and one point for every root of x^3 + a x + b; it has exactly 2 entries iff -(4 a^3 + 27 b^2) is not a square modulo p, and 1 or 4 entries iff it is. Hence cardinality() is even when that discriminant is not a square, and odd or divisible by 4 when it is. For every n >= 1 the number of n-torsion points divides cardinality(), and so does the length of division_points(n) when cardinality() is odd or n is a power of two.", "quantifier": "every odd prime p, all non-singular a, b, every n >= 1", "why_tests_cant": "It ranges over all curves and primes; the case without a root needs the cubic's splitting field, not a finite table.", "anchors": ["src/elliptic_curve.rs: EllipticCurve::new, division_points, cardinality, points"]}
{"id": "C126", "title": "j_invariant() takes every value and determines the curve up to twist", "statement": "For every prime p > 3 every residue modulo p is the j_invariant() of some elliptic curve over GF(p). The value is 0 exactly when a = 0 and 1728 exactly when b = 0 modulo p; over GF(3) it is always 0. Two curves with a, b, a', b' all non-zero modulo p have the same j_invariant() exactly when one is the image of the other under (x, y) -> (u^2 x, u^3 y) or is a quadratic twist of it.", "quantifier": "every prime p > 3 (and p = 3), every residue j, all pairs of elliptic curves over GF(p)", "why_tests_cant": "existence for every residue of every prime field and an equivalence over all pairs of curves", "anchors": ["src/elliptic_curve.rs: EllipticCurve::j_invariant, new_raw, new"]}
{"id": "C127", "title": "orders of multiples, sums and negatives", "statement": "Let n be point_order(P) for a point P of an elliptic curve. For k >= 1, multiply_scalar(P, k) is the point at infinity exactly when n divides k or 2^floor(log2 k) (the second is the case in which multiply_scalar is wrong); outside that case point_order(multiply_scalar(P, k)) is n / gcd(n, k). If n is odd, multiply_scalar(P, k) and multiply_scalar(P, l) are the same point exactly when n divides k - l. If point_order(P) = m and point_order(Q) = n are coprime and Q is finite (or P infinite), point_order(plus(P, Q)) is m n. negate(P) has the same order as P.", "quantifier": "every prime p > 2, every elliptic curve over GF(p), all points and scalars", "why_tests_cant": "all curves over all prime fields, all points and unbounded scalars", "anchors": ["src/elliptic_curve.rs: EllipticCurve::multiply_scalar, point_order, plus, negate"]}
{"id": "C128", "title": "points() and division_points() list the points in lexicographic order", "statement": "EllipticCurve::new(a, b, p).points() is the list of the finite points in strictly increasing lexicographic order of (x, y) followed by the point at infinity; so it is determined by the set of solutions, and coefficients congruent modulo p give the same list. division_points(n), n >= 1, keeps that order and also ends with the point at infinity.", "quantifier": "every prime p below 2^64, all a, b; every elliptic curve with p > 2 and every n >= 1 for division_points", "why_tests_cant": "all primes and all coefficients", "anchors": ["src/elliptic_curve.rs: EllipticCurve::new, create_points, points, division_points"]}
{"id": "C129", "title": "Laws of chinese_remainder", "statement": "For systems with pairwise coprime positive moduli: permuting the system does not change the modulus or the residue class returned; a system can be split, its parts solved and the two results combined by chinese_remainder again; over fixed moduli the residue class returned is a ring homomorphism of the residues (congruent residues, sums and products); and an integer satisfying the system and known to lie in a given interval of length the product of the moduli is determined by the result (r shifted into the interval).", "quantifier": "all finite systems of congruences with pairwise coprime positive moduli, all residues, all intervals", "why_tests_cant": "unbounded lists of unbounded integers", "anchors": ["src/bigint.rs: chinese_remainder, ModResult"]}
{"id": "C130", "title": "Leading terms and degrees of sums, products, powers, derivatives and reductions", "statement": "For polynomials in x with non-zero leading coefficient: highest_term_x of a product is the product of the highest terms, so degree_x is additive and a product is never zero; power(n) has leading coefficient c^n and degree n d; a sum of different degrees leads with the larger, one of equal degrees with the sum of the leading coefficients unless it vanishes, and never exceeds the maximum; derivative_x leads with d c x^(d-1) for d >= 1; % p keeps the degree when p does not divide the leading coefficient, so modulo a prime the degree of a product is the sum of the degrees.", "quantifier": "all polynomials in x, all exponents, all primes", "why_tests_cant": "unbounded polynomials, degrees and coefficients", "anchors": ["src/polynomial.rs: highest_term_x, degree_x, power, derivative_x, Mul, Add, Rem"]}
{"id": "C131", "title": "Degree and leading coefficient of a composition", "statement": "For polynomials a(x) of degree d and s(x) of degree d' >= 1 with leading coefficients c and c', a.eval_x_polynomial(s), whenever it returns, has degree_x d d' and leading coefficient c c'^d.", "quantifier": "all polynomials a, s in x with non-zero leading coefficients", "why_tests_cant": "unbounded degrees and coefficients", "anchors": ["src/polynomial.rs: eval_x_polynomial, highest_term_x, degree_x", "src/term.rs: Monomial::eval_x_polynomial"]}
{"id": "C132", "title": "Remainder and factor theorems for polynomial_modular", "statement": "If r is a root modulo p of a divisor d(x), the remainder polynomial_modular(a, d, p) takes at r the value of a modulo p. If d is linear with unit leading coefficient modulo the prime p and root r (such as x - r), the division always returns and the remainder is the constant a(r) mod p, so it is the zero polynomial exactly when r is a root of a modulo p.", "quantifier": "all polynomials a(x), d(x), all roots, all p > 0 (all primes for the linear case)", "why_tests_cant": "unbounded polynomials and moduli", "anchors": ["src/polynomial.rs: polynomial_modular, eval_xy"]}
{"id": "C133", "title": "polynomial_modular by (x - r)^2 detects double roots", "statement": "For a prime p, a polynomial a(x) and d = (x - r).square(): whenever the calls return, polynomial_modular(a, d, p) is the zero polynomial exactly when p divides both a(r) and a'(r), where a' = a.derivative_x().", "quantifier": "all primes p, all integers r, all polynomials a in x", "why_tests_cant": "unbounded polynomials, primes and roots", "anchors": ["src/polynomial.rs: square, polynomial_modular, derivative_x, eval_xy"]}
