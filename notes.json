{
 "C04": "False of the code: inverse computes a^(m-2), so it fails for composite m (witness in _refuted). Proved for every m >= 2: the call returns a residue, and it is an inverse iff m | a^(m-1)-1.",
 "C07": "False of the code: the residue can be negative (witness). Proved: r mod l is the unique canonical solution.",
 "C09": "False of the code: Term::cmp ignores the coefficient (witness). Proved: == implies Equal; Equal iff same monomial.",
 "C11": "False of the code: the u64 index is cast to i32, so 2^32 is accepted as 0 (witness). Proved: every out-of-range index below 2^32 panics.",
 "C17": "False of the code: (x+1)(x-1) keeps an explicit 0*x (witness). Proved: == and is_zero have no false positives, and after % p they decide congruence modulo p.",
 "C18": "False of the code: x - x keeps an explicit zero (witness). Proved: coefficients are right for all terms, normal form when the monomials differ.",
 "C22": "False of the code: power_modulo(0,p) is self % p (witness). Proved for every polynomial and p > 0.",
 "C24": "False of the code: a constant divisor loops forever (proved for all constant divisors, all a and every fuel). Proved: termination for every reduced divisor of positive degree.",
 "C26": "False of the code: gcd loops forever when the inputs are coprime (witness). Proved: gcd returns iff the gcd has positive degree (C26_gcd_iff).",
 "C27": "False of the code: is_gcd_one answers true exactly on polynomials that are NOT coprime, never answers false, and never returns on coprime ones; all three proved for every input.",
 "C31": "False of the code: colliding monomials overwrite each other for exponent 0 (witness). Proved: right when no two monomials collide.",
 "C35": "False of the code: explicit zeros survive (witness). Proved: coefficients and to_scalar are right, is_zero never reports a non-root.",
 "C45": "False of the code: row 0 is never divided by its pivot (witness). Proved: every other unknown is normalised, unknown 0 is the exact quotient, and which input entry that pivot is.",
 "C56": "False of the code: plus(P, O) is infinity (witness). Proved: the exact result for every finite P.",
 "C59": "False of the code for points of order 2^k (witness). Proved for every point and n >= 1: the result is nP iff 2^(log2 n) P is finite, infinity otherwise.",
 "C60": "False of the code: the sign is ignored (witness). Proved: multiply_scalar(P,-n) = multiply_scalar(P,n).",
 "C64": "False of the code (consequence of C59; witness). Proved: complete for n-torsion, the only wrong entries have order 2^k <= n; exact without 2-torsion or for n a power of two.",
 "C65": "False of the code: cardinalities differ (witness). Proved: isogeny always returns a curve over the same field, and exactly which one (C65_formula_partial: Velu's formulas with floor division by p in place of reduction modulo p); the trivial kernel gives y^2 = x^3.",
 "C69": "False of the code in both halves (witnesses). Proved: schoof diverges for every curve whose cubic has no root, and whenever it returns the residue for l = 2 is 1 although the trace is even.",
 "C71": "False of the code: sea diverges for Atkin primes (witness). Proved: sea returns iff Phi_l(x,j) has a root.",
 "C73": "False of the code: polynomials with explicit zeros print as the empty string or with a leading + (witness). Proved: the exact text in all cases.",
 "C76": "False of the code: doubling over GF(2) leaves the curve (witness). Proved: every other sum over GF(2) is closed.",
 "C78": "False of the code: residue 2 is reported for l = 3 where the trace is 1 (witness). Proved: for l = 3 the residue is the trace up to sign, except exactly when q = 1 (mod 3), 3 divides the trace and -4b is a nonzero cube (C78_three_partial, see C121), and it is the trace itself exactly in the cases listed in C78_three_exact_partial (see C123); for l = 5 it is the trace up to sign with the exceptions described exactly in C122 (C78_five_partial), none for q = 2, 3 (mod 5); on curves with rational 3-torsion (q = 2 mod 3) the residue for 3 is right, with rational 5-torsion (q = 2, 3 mod 5) the residue for 5 is right or 0. The sign reported can be wrong: the l >= 3 stage uses formulas that are not the ones of Schoof's algorithm.",
 "C94": "False of the code: canonicalize turns a finite point whose z is a non-zero multiple of p into the point at infinity (witness). Proved: for all other representatives, every modulus p > 0.",
 "C96": "False of the code: a second call lists every point twice, and composite moduli lose solutions (witnesses). Proved: new = new_raw; create_points, exact multiplicities after k further calls, soundness of the list for every modulus.",
 "C117": "False of the code: schoof.rs computes e = -phi + 2 x^(q^2) psi^2 where the addition law has +phi, so for y^2 = x^3 + 2x over GF(5), l = 3, the y-coordinates agree for j = 1 but 2 is reported (witness). Proved: the exact rule the code follows (the same comparison with the sign of phi flipped)."
}