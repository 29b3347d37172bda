{
 "claims": [
  {
   "property": "C01",
   "status": "proved",
   "theorems": [
    "C01_power"
   ],
   "note": ""
  },
  {
   "property": "C02",
   "status": "proved",
   "theorems": [
    "C02_power_modulo",
    "C02_power_modulo_zero_modulus"
   ],
   "note": ""
  },
  {
   "property": "C03",
   "status": "proved",
   "theorems": [
    "C03_inverse",
    "C03_inverse_small_modulus",
    "C03_inverse_of_zero"
   ],
   "note": ""
  },
  {
   "property": "C04",
   "status": "partial",
   "theorems": [
    "C04_inverse_any_modulus_refuted",
    "C04_inverse_any_modulus_partial"
   ],
   "note": "False of the code: inverse computes a^(m-2), so it fails for composite m (witness in _refuted). Proved for every m >= 2: the call returns a residue, and it is an inverse iff m | a^(m-1)-1."
  },
  {
   "property": "C05",
   "status": "proved",
   "theorems": [
    "C05_extended_gcd"
   ],
   "note": ""
  },
  {
   "property": "C06",
   "status": "proved",
   "theorems": [
    "C06_chinese_remainder"
   ],
   "note": ""
  },
  {
   "property": "C07",
   "status": "partial",
   "theorems": [
    "C07_crt_canonical_refuted",
    "C07_crt_canonical_partial"
   ],
   "note": "False of the code: the residue can be negative (witness). Proved: r mod l is the unique canonical solution."
  },
  {
   "property": "C08",
   "status": "proved",
   "theorems": [
    "C08_variable_order",
    "C08_monomial_order",
    "C08_variable_canonical",
    "C08_new"
   ],
   "note": ""
  },
  {
   "property": "C09",
   "status": "partial",
   "theorems": [
    "C09_term_order_refuted",
    "C09_term_order_partial"
   ],
   "note": "False of the code: Term::cmp ignores the coefficient (witness). Proved: == implies Equal; Equal iff same monomial."
  },
  {
   "property": "C10",
   "status": "proved",
   "theorems": [
    "C10_converter_new",
    "C10_count",
    "C10_variable_from_index",
    "C10_index_from_variable",
    "C10_index_from_variable_out",
    "C10_index_from_variable_empty"
   ],
   "note": ""
  },
  {
   "property": "C11",
   "status": "partial",
   "theorems": [
    "C11_out_of_range_refuted",
    "C11_out_of_range_partial"
   ],
   "note": "False of the code: the u64 index is cast to i32, so 2^32 is accepted as 0 (witness). Proved: every out-of-range index below 2^32 panics."
  },
  {
   "property": "C12",
   "status": "proved",
   "theorems": [
    "C12_term_mul",
    "C12_term_div",
    "C12_term_div_panics",
    "C12_mul_div",
    "C12_term_neg",
    "C12_term_power",
    "C12_term_power_iterated",
    "C12_term_power_modulo"
   ],
   "note": ""
  },
  {
   "property": "C13",
   "status": "proved",
   "theorems": [
    "C13_add",
    "C13_sub",
    "C13_neg",
    "C13_assign_forms",
    "C13_add_assign_t",
    "C13_to_pol"
   ],
   "note": ""
  },
  {
   "property": "C14",
   "status": "proved",
   "theorems": [
    "C14_group"
   ],
   "note": ""
  },
  {
   "property": "C15",
   "status": "proved",
   "theorems": [
    "C15_mul",
    "C15_mul_returns",
    "C15_mul_forms"
   ],
   "note": ""
  },
  {
   "property": "C16",
   "status": "proved",
   "theorems": [
    "C16_ring",
    "C16_comm_returns",
    "C16_distr_returns"
   ],
   "note": ""
  },
  {
   "property": "C17",
   "status": "partial",
   "theorems": [
    "C17_product_normal_form_refuted",
    "C17_product_normal_form_partial"
   ],
   "note": "False of the code: (x+1)(x-1) keeps an explicit 0*x (witness). Proved: == and is_zero have no false positives, and after % p they decide congruence modulo p."
  },
  {
   "property": "C18",
   "status": "partial",
   "theorems": [
    "C18_term_sum_refuted",
    "C18_term_sum_partial"
   ],
   "note": "False of the code: x - x keeps an explicit zero (witness). Proved: coefficients are right for all terms, normal form when the monomials differ."
  },
  {
   "property": "C19",
   "status": "proved",
   "theorems": [
    "C19_power",
    "C19_power_total",
    "C19_square_cube",
    "C19_power_returns"
   ],
   "note": ""
  },
  {
   "property": "C20",
   "status": "proved",
   "theorems": [
    "C20_rem",
    "C20_rem_decides",
    "C20_rem_nonpos",
    "C20_rem_empty"
   ],
   "note": ""
  },
  {
   "property": "C21",
   "status": "proved",
   "theorems": [
    "C21_power_modulo",
    "C21_power_modulo_coef"
   ],
   "note": ""
  },
  {
   "property": "C22",
   "status": "partial",
   "theorems": [
    "C22_power_modulo_zero_refuted",
    "C22_power_modulo_zero_partial"
   ],
   "note": "False of the code: power_modulo(0,p) is self % p (witness). Proved for every polynomial and p > 0."
  },
  {
   "property": "C23",
   "status": "proved",
   "theorems": [
    "C23_polynomial_modular",
    "C23_fuel",
    "C23_unique"
   ],
   "note": ""
  },
  {
   "property": "C24",
   "status": "partial",
   "theorems": [
    "C24_constant_divisor",
    "C24_terminates_refuted",
    "C24_terminates_partial"
   ],
   "note": "False of the code: a constant divisor loops forever (proved for all constant divisors, all a and every fuel). Proved: termination for every reduced divisor of positive degree."
  },
  {
   "property": "C25",
   "status": "proved",
   "theorems": [
    "C25_gcd"
   ],
   "note": ""
  },
  {
   "property": "C26",
   "status": "partial",
   "theorems": [
    "C26_gcd_iff",
    "C26_gcd_terminates_refuted",
    "C26_gcd_terminates_partial"
   ],
   "note": "False of the code: gcd loops forever when the inputs are coprime (witness). Proved: gcd returns iff the gcd has positive degree (C26_gcd_iff)."
  },
  {
   "property": "C27",
   "status": "partial",
   "theorems": [
    "C27_is_gcd_one_refuted",
    "C27_is_gcd_one_partial"
   ],
   "note": "False of the code: is_gcd_one answers true exactly on polynomials that are NOT coprime, never answers false, and never returns on coprime ones; all three proved for every input."
  },
  {
   "property": "C28",
   "status": "proved",
   "theorems": [
    "C28_to_monic",
    "C28_zero"
   ],
   "note": ""
  },
  {
   "property": "C29",
   "status": "proved",
   "theorems": [
    "C29_derivative_x",
    "C29_derivative_y",
    "C29_add",
    "C29_leibniz",
    "C29_panics"
   ],
   "note": ""
  },
  {
   "property": "C30",
   "status": "proved",
   "theorems": [
    "C30_to_frob",
    "C30_to_y_power",
    "C30_to_q_power",
    "C30_frob_add_mul",
    "C30_y_power_add_mul",
    "C30_q_power_add_mul"
   ],
   "note": ""
  },
  {
   "property": "C31",
   "status": "partial",
   "theorems": [
    "C31_frob_zero_refuted",
    "C31_frob_zero_partial"
   ],
   "note": "False of the code: colliding monomials overwrite each other for exponent 0 (witness). Proved: right when no two monomials collide."
  },
  {
   "property": "C32",
   "status": "proved",
   "theorems": [
    "C32_reduction",
    "C32_reduction_ideal",
    "C32_reduction_value"
   ],
   "note": ""
  },
  {
   "property": "C33",
   "status": "proved",
   "theorems": [
    "C33_reduction_modular",
    "C33_no_y"
   ],
   "note": ""
  },
  {
   "property": "C34",
   "status": "proved",
   "theorems": [
    "C34_eval_xy",
    "C34_hom",
    "C34_chain"
   ],
   "note": ""
  },
  {
   "property": "C35",
   "status": "partial",
   "theorems": [
    "C35_eval_refuted",
    "C35_eval_partial",
    "C35_eval_value_partial"
   ],
   "note": "False of the code: explicit zeros survive (witness). Proved: coefficients and to_scalar are right, is_zero never reports a non-root."
  },
  {
   "property": "C36",
   "status": "proved",
   "theorems": [
    "C36_subst_x",
    "C36_subst_y",
    "C36_term",
    "C36_mono",
    "C36_value",
    "C36_returns"
   ],
   "note": ""
  },
  {
   "property": "C37",
   "status": "proved",
   "theorems": [
    "C37_omit",
    "C37_omit_panics",
    "C37_power_omit",
    "C37_power_omit_returns"
   ],
   "note": ""
  },
  {
   "property": "C38",
   "status": "proved",
   "theorems": [
    "C38_q_coef",
    "C38_variable_coef",
    "C38_highest",
    "C38_degree",
    "C38_has",
    "C38_panics",
    "C38_to_scalar"
   ],
   "note": ""
  },
  {
   "property": "C39",
   "status": "proved",
   "theorems": [
    "C39_sigma",
    "C39_negative",
    "C39_divisors"
   ],
   "note": ""
  },
  {
   "property": "C40",
   "status": "proved",
   "theorems": [
    "C40_eisenstein"
   ],
   "note": ""
  },
  {
   "property": "C41",
   "status": "proved",
   "theorems": [
    "C41_delta",
    "C41_stable"
   ],
   "note": ""
  },
  {
   "property": "C42",
   "status": "proved",
   "theorems": [
    "C42_inverse"
   ],
   "note": ""
  },
  {
   "property": "C43",
   "status": "proved",
   "theorems": [
    "C43_j1",
    "C43_j",
    "C43_stable",
    "C43_j_stable"
   ],
   "note": ""
  },
  {
   "property": "C44",
   "status": "proved",
   "theorems": [
    "C44_solve",
    "C44_returns",
    "C44_unique"
   ],
   "note": ""
  },
  {
   "property": "C45",
   "status": "partial",
   "theorems": [
    "C45_normalises_refuted",
    "C45_normalises_partial",
    "C45_first_pivot_partial"
   ],
   "note": "False of the code: row 0 is never divided by its pivot (witness). Proved: every other unknown is normalised, unknown 0 is the exact quotient, and which input entry that pivot is."
  },
  {
   "property": "C46",
   "status": "proved",
   "theorems": [
    "C46_shape",
    "C46_template",
    "C46_template_panics"
   ],
   "note": ""
  },
  {
   "property": "C47",
   "status": "proved",
   "theorems": [
    "C47_list",
    "C47_lowest"
   ],
   "note": ""
  },
  {
   "property": "C48",
   "status": "proved",
   "theorems": [
    "C48_psi_odd",
    "C48_psi_even",
    "C48_psi_base",
    "C48_psi_negative",
    "C48_psi_rec_odd",
    "C48_psi_rec_even",
    "C48_psi_rec_odd_values",
    "C48_psi_rec_even_values"
   ],
   "note": ""
  },
  {
   "property": "C49",
   "status": "proved",
   "theorems": [
    "C49_odd",
    "C49_even"
   ],
   "note": ""
  },
  {
   "property": "C50",
   "status": "proved",
   "theorems": [
    "C50_phi",
    "C50_omega",
    "C50_omega_one",
    "C50_panics",
    "C50_phi_values",
    "C50_omega_values"
   ],
   "note": ""
  },
  {
   "property": "C51",
   "status": "proved",
   "theorems": [
    "C51_decides",
    "C51_residues",
    "C51_zero_modulus"
   ],
   "note": ""
  },
  {
   "property": "C52",
   "status": "proved",
   "theorems": [
    "C52_panics",
    "C52_closed",
    "C52_chord_tangent"
   ],
   "note": ""
  },
  {
   "property": "C53",
   "status": "proved",
   "theorems": [
    "C53_commutative"
   ],
   "note": ""
  },
  {
   "property": "C54",
   "status": "proved",
   "theorems": [
    "C54_negate",
    "C54_inverse",
    "C54_only_inverse"
   ],
   "note": ""
  },
  {
   "property": "C55",
   "status": "proved",
   "theorems": [
    "C55_left_identity"
   ],
   "note": ""
  },
  {
   "property": "C56",
   "status": "partial",
   "theorems": [
    "C56_right_identity_refuted",
    "C56_right_identity_partial"
   ],
   "note": "False of the code: plus(P, O) is infinity (witness). Proved: the exact result for every finite P."
  },
  {
   "property": "C57",
   "status": "proved",
   "theorems": [
    "C57_associative",
    "C57_finite"
   ],
   "note": ""
  },
  {
   "property": "C58",
   "status": "proved",
   "theorems": [
    "C58_iterated_addition",
    "C58_odd_order"
   ],
   "note": ""
  },
  {
   "property": "C59",
   "status": "partial",
   "theorems": [
    "C59_all_points_refuted",
    "C59_all_points_partial",
    "C59_zero_multiple"
   ],
   "note": "False of the code for points of order 2^k (witness). Proved for every point and n >= 1: the result is nP iff 2^(log2 n) P is finite, infinity otherwise."
  },
  {
   "property": "C60",
   "status": "partial",
   "theorems": [
    "C60_negative_refuted",
    "C60_negative_partial"
   ],
   "note": "False of the code: the sign is ignored (witness). Proved: multiply_scalar(P,-n) = multiply_scalar(P,n)."
  },
  {
   "property": "C61",
   "status": "proved",
   "theorems": [
    "C61_new_returns",
    "C61_points",
    "C61_cardinality"
   ],
   "note": ""
  },
  {
   "property": "C62",
   "status": "proved",
   "theorems": [
    "C62_point_order"
   ],
   "note": ""
  },
  {
   "property": "C63",
   "status": "proved",
   "theorems": [
    "C63_lagrange"
   ],
   "note": ""
  },
  {
   "property": "C64",
   "status": "partial",
   "theorems": [
    "C64_torsion_refuted",
    "C64_torsion_partial",
    "C64_exact"
   ],
   "note": "False of the code (consequence of C59; witness). Proved: complete for n-torsion, the only wrong entries have order 2^k <= n; exact without 2-torsion or for n a power of two."
  },
  {
   "property": "C65",
   "status": "partial",
   "theorems": [
    "C65_isogeny_refuted",
    "C65_isogeny_partial",
    "C65_trivial_kernel",
    "C65_formula_partial"
   ],
   "note": "False of the code: cardinalities differ (witness). Proved: isogeny always returns a curve over the same field, and exactly which one (C65_formula_partial: Velu's formulas with floor division by p in place of reduction modulo p); the trivial kernel gives y^2 = x^3."
  },
  {
   "property": "C66",
   "status": "proved",
   "theorems": [
    "C66_j_value",
    "C66_isomorphism"
   ],
   "note": ""
  },
  {
   "property": "C67",
   "status": "proved",
   "theorems": [
    "C67_parameters",
    "C67_multiply",
    "C67_homomorphism",
    "C67_diffie_hellman"
   ],
   "note": ""
  },
  {
   "property": "C68",
   "status": "proved",
   "theorems": [
    "C68_residues"
   ],
   "note": ""
  },
  {
   "property": "C69",
   "status": "partial",
   "theorems": [
    "C69_parity_refuted",
    "C69_returns_refuted",
    "C69_parity_partial"
   ],
   "note": "False of the code in both halves (witnesses). Proved: schoof diverges for every curve whose cubic has no root, and whenever it returns the residue for l = 2 is 1 although the trace is even."
  },
  {
   "property": "C70",
   "status": "proved",
   "theorems": [
    "C70_sea",
    "C70_roots"
   ],
   "note": ""
  },
  {
   "property": "C71",
   "status": "partial",
   "theorems": [
    "C71_atkin_refuted",
    "C71_atkin_partial"
   ],
   "note": "False of the code: sea diverges for Atkin primes (witness). Proved: sea returns iff Phi_l(x,j) has a root."
  },
  {
   "property": "C72",
   "status": "proved",
   "theorems": [
    "C72_text",
    "C72_term_text",
    "C72_zero",
    "C72_injective",
    "C72_term"
   ],
   "note": ""
  },
  {
   "property": "C73",
   "status": "partial",
   "theorems": [
    "C73_zero_text_refuted",
    "C73_zero_text_partial"
   ],
   "note": "False of the code: polynomials with explicit zeros print as the empty string or with a leading + (witness). Proved: the exact text in all cases."
  },
  {
   "property": "C74",
   "status": "proved",
   "theorems": [
    "C74_nonneg",
    "C74_negative"
   ],
   "note": ""
  },
  {
   "property": "C75",
   "status": "proved",
   "theorems": [
    "C75_unique"
   ],
   "note": ""
  },
  {
   "property": "C76",
   "status": "partial",
   "theorems": [
    "C76_characteristic_two_refuted",
    "C76_characteristic_two_partial"
   ],
   "note": "False of the code: doubling over GF(2) leaves the curve (witness). Proved: every other sum over GF(2) is closed."
  },
  {
   "property": "C77",
   "status": "proved",
   "theorems": [
    "C77_quotient",
    "C77_remainder",
    "C77_exact",
    "C77_panics",
    "C77_forms"
   ],
   "note": ""
  },
  {
   "property": "C78",
   "status": "partial",
   "theorems": [
    "C78_five_partial",
    "C78_residue_partial",
    "C78_residue3_refuted",
    "C78_three_partial",
    "C78_three_exact_partial"
   ],
   "note": "False of the code: residue 2 is reported for l = 3 where the trace is 1 (witness). Proved: for l = 3 the residue is the trace up to sign, except exactly when q = 1 (mod 3), 3 divides the trace and -4b is a nonzero cube (C78_three_partial, see C121), and it is the trace itself exactly in the cases listed in C78_three_exact_partial (see C123); for l = 5 it is the trace up to sign with the exceptions described exactly in C122 (C78_five_partial), none for q = 2, 3 (mod 5); on curves with rational 3-torsion (q = 2 mod 3) the residue for 3 is right, with rational 5-torsion (q = 2, 3 mod 5) the residue for 5 is right or 0. The sign reported can be wrong: the l >= 3 stage uses formulas that are not the ones of Schoof's algorithm."
  },
  {
   "property": "C79",
   "status": "proved",
   "theorems": [
    "C79_point",
    "C79_points",
    "C79_curve",
    "C79_variable"
   ],
   "note": ""
  },
  {
   "property": "C80",
   "status": "proved",
   "theorems": [
    "C80_setters",
    "C80_variable_ij",
    "C80_complete"
   ],
   "note": ""
  },
  {
   "property": "C81",
   "status": "proved",
   "theorems": [
    "C81_agree",
    "C81_equal_order",
    "C81_modular",
    "C81_eval",
    "C81_substitute"
   ],
   "note": ""
  },
  {
   "property": "C82",
   "status": "proved",
   "theorems": [
    "C82_torsion"
   ],
   "note": ""
  },
  {
   "property": "C83",
   "status": "proved",
   "theorems": [
    "C83_coordinates",
    "C83_multiply_scalar"
   ],
   "note": ""
  },
  {
   "property": "C84",
   "status": "proved",
   "theorems": [
    "C84_point_order"
   ],
   "note": ""
  },
  {
   "property": "C85",
   "status": "proved",
   "theorems": [
    "C85_contains_roots",
    "C85_exactly_roots"
   ],
   "note": ""
  },
  {
   "property": "C86",
   "status": "proved",
   "theorems": [
    "C86_hasse",
    "C86_interval",
    "C86_finite_point"
   ],
   "note": ""
  },
  {
   "property": "C87",
   "status": "proved",
   "theorems": [
    "C87_residues",
    "C87_large_order",
    "C87_order_bound"
   ],
   "note": ""
  },
  {
   "property": "C88",
   "status": "proved",
   "theorems": [
    "C88_parity"
   ],
   "note": ""
  },
  {
   "property": "C89",
   "status": "proved",
   "theorems": [
    "C89_count",
    "C89_order",
    "C89_generator",
    "C89_scalars",
    "C89_signature"
   ],
   "note": ""
  },
  {
   "property": "C90",
   "status": "proved",
   "theorems": [
    "C90_on_curve",
    "C90_plus",
    "C90_multiply",
    "C90_order",
    "C90_cardinality"
   ],
   "note": ""
  },
  {
   "property": "C91",
   "status": "proved",
   "theorems": [
    "C91_twist",
    "C91_same_j",
    "C91_exists"
   ],
   "note": ""
  },
  {
   "property": "C92",
   "status": "proved",
   "theorems": [
    "C92_b_zero",
    "C92_a_zero"
   ],
   "note": ""
  },
  {
   "property": "C93",
   "status": "proved",
   "theorems": [
    "C93_congruence",
    "C93_returns",
    "C93_determines",
    "C93_supersingular"
   ],
   "note": ""
  },
  {
   "property": "C94",
   "status": "partial",
   "theorems": [
    "C94_canonicalize_refuted",
    "C94_canonicalize_partial"
   ],
   "note": "False of the code: canonicalize turns a finite point whose z is a non-zero multiple of p into the point at infinity (witness). Proved: for all other representatives, every modulus p > 0."
  },
  {
   "property": "C95",
   "status": "proved",
   "theorems": [
    "C95_on_curve",
    "C95_plus",
    "C95_negate",
    "C95_multiply",
    "C95_order"
   ],
   "note": ""
  },
  {
   "property": "C96",
   "status": "partial",
   "theorems": [
    "C96_again_refuted",
    "C96_new_partial",
    "C96_again_partial",
    "C96_any_modulus_partial",
    "C96_composite_refuted"
   ],
   "note": "False of the code: a second call lists every point twice, and composite moduli lose solutions (witnesses). Proved: new = new_raw; create_points, exact multiplicities after k further calls, soundness of the list for every modulus."
  },
  {
   "property": "C97",
   "status": "proved",
   "theorems": [
    "C97_decides",
    "C97_unique",
    "C97_exact"
   ],
   "note": ""
  },
  {
   "property": "C98",
   "status": "proved",
   "theorems": [
    "C98_frobenius",
    "C98_returns",
    "C98_value",
    "C98_on_curve"
   ],
   "note": ""
  },
  {
   "property": "C99",
   "status": "proved",
   "theorems": [
    "C99_count",
    "C99_returns"
   ],
   "note": ""
  },
  {
   "property": "C100",
   "status": "proved",
   "theorems": [
    "C100_bound",
    "C100_divides",
    "C100_prime",
    "C100_division_points"
   ],
   "note": ""
  },
  {
   "property": "C101",
   "status": "proved",
   "theorems": [
    "C101_exponent",
    "C101_cauchy",
    "C101_structure"
   ],
   "note": ""
  },
  {
   "property": "C102",
   "status": "proved",
   "theorems": [
    "C102_three",
    "C102_five"
   ],
   "note": ""
  },
  {
   "property": "C103",
   "status": "proved",
   "theorems": [
    "C103_returns",
    "C103_list"
   ],
   "note": ""
  },
  {
   "property": "C104",
   "status": "proved",
   "theorems": [
    "C104_j1_returns",
    "C104_j_returns",
    "C104_j_positive",
    "C104_j1_positive",
    "C104_inverse_positive"
   ],
   "note": ""
  },
  {
   "property": "C105",
   "status": "proved",
   "theorems": [
    "C105_sea"
   ],
   "note": ""
  },
  {
   "property": "C106",
   "status": "proved",
   "theorems": [
    "C106_psi",
    "C106_phi",
    "C106_omega"
   ],
   "note": ""
  },
  {
   "property": "C107",
   "status": "proved",
   "theorems": [
    "C107_decides",
    "C107_divides",
    "C107_zero",
    "C107_add",
    "C107_sub",
    "C107_mul",
    "C107_idempotent"
   ],
   "note": ""
  },
  {
   "property": "C108",
   "status": "proved",
   "theorems": [
    "C108_unique",
    "C108_commutative",
    "C108_self",
    "C108_add_multiple",
    "C108_associative",
    "C108_common_factor"
   ],
   "note": ""
  },
  {
   "property": "C109",
   "status": "proved",
   "theorems": [
    "C109_repeated",
    "C109_zero_derivative",
    "C109_multiple_roots",
    "C109_cubic"
   ],
   "note": ""
  },
  {
   "property": "C110",
   "status": "proved",
   "theorems": [
    "C110_cusp",
    "C110_node",
    "C110_two",
    "C110_average",
    "C110_cusp_plus",
    "C110_cusp_order"
   ],
   "note": ""
  },
  {
   "property": "C111",
   "status": "proved",
   "theorems": [
    "C111_equations",
    "C111_kronecker",
    "C111_sea"
   ],
   "note": ""
  },
  {
   "property": "C112",
   "status": "proved",
   "theorems": [
    "C112_symmetric",
    "C112_j_only"
   ],
   "note": ""
  },
  {
   "property": "C113",
   "status": "proved",
   "theorems": [
    "C113_eds",
    "C113_divides",
    "C113_remainder"
   ],
   "note": ""
  },
  {
   "property": "C114",
   "status": "proved",
   "theorems": [
    "C114_psi",
    "C114_phi",
    "C114_omega"
   ],
   "note": ""
  },
  {
   "property": "C115",
   "status": "proved",
   "theorems": [
    "C115_psi",
    "C115_phi",
    "C115_omega"
   ],
   "note": ""
  },
  {
   "property": "C116",
   "status": "proved",
   "theorems": [
    "C116_least",
    "C116_none",
    "C116_zero",
    "C116_meaning"
   ],
   "note": ""
  },
  {
   "property": "C117",
   "status": "partial",
   "theorems": [
    "C117_sign_refuted",
    "C117_sign_partial"
   ],
   "note": "False of the code: schoof.rs computes e = -phi + 2 x^(q^2) psi^2 where the addition law has +phi, so for y^2 = x^3 + 2x over GF(5), l = 3, the y-coordinates agree for j = 1 but 2 is reported (witness). Proved: the exact rule the code follows (the same comparison with the sign of phi flipped)."
  },
  {
   "property": "C118",
   "status": "proved",
   "theorems": [
    "C118_delta",
    "C118_inverse",
    "C118_unique"
   ],
   "note": ""
  },
  {
   "property": "C119",
   "status": "proved",
   "theorems": [
    "C119_multiplicative",
    "C119_prime_power",
    "C119_prime_test"
   ],
   "note": ""
  },
  {
   "property": "C120",
   "status": "proved",
   "theorems": [
    "C120_mod720",
    "C120_j24"
   ],
   "note": ""
  },
  {
   "property": "C121",
   "status": "proved",
   "theorems": [
    "C121_match",
    "C121_residue",
    "C121_up_to_sign",
    "C121_two_mod_three"
   ],
   "note": ""
  },
  {
   "property": "C122",
   "status": "proved",
   "theorems": [
    "C122_match",
    "C122_scalar",
    "C122_up_to_sign",
    "C122_nonresidue",
    "C122_four",
    "C122_zero",
    "C122_both",
    "C122_split",
    "C122_one_mod_five",
    "C122_split_residue"
   ],
   "note": ""
  },
  {
   "property": "C123",
   "status": "proved",
   "theorems": [
    "C123_match",
    "C123_residue",
    "C123_exact",
    "C123_two_mod_three"
   ],
   "note": ""
  },
  {
   "property": "C124",
   "status": "proved",
   "theorems": [
    "C124_count_odd",
    "C124_count_even",
    "C124_root",
    "C124_gcd",
    "C124_degree",
    "C124_is_gcd_one"
   ],
   "note": ""
  },
  {
   "property": "C125",
   "status": "proved",
   "theorems": [
    "C125_roots",
    "C125_discriminant",
    "C125_cardinality",
    "C125_torsion_divides",
    "C125_division_points"
   ],
   "note": ""
  },
  {
   "property": "C126",
   "status": "proved",
   "theorems": [
    "C126_surjective",
    "C126_zero",
    "C126_1728",
    "C126_three",
    "C126_classification"
   ],
   "note": ""
  },
  {
   "property": "C127",
   "status": "proved",
   "theorems": [
    "C127_infinite",
    "C127_multiple",
    "C127_equal",
    "C127_sum",
    "C127_negate"
   ],
   "note": ""
  },
  {
   "property": "C128",
   "status": "proved",
   "theorems": [
    "C128_points",
    "C128_congruent",
    "C128_division"
   ],
   "note": ""
  },
  {
   "property": "C129",
   "status": "proved",
   "theorems": [
    "C129_permutation",
    "C129_merge",
    "C129_ring",
    "C129_window"
   ],
   "note": ""
  },
  {
   "property": "C130",
   "status": "proved",
   "theorems": [
    "C130_mul",
    "C130_power",
    "C130_add",
    "C130_derivative",
    "C130_modulo",
    "C130_modulo_mul"
   ],
   "note": ""
  },
  {
   "property": "C131",
   "status": "proved",
   "theorems": [
    "C131_compose"
   ],
   "note": ""
  },
  {
   "property": "C132",
   "status": "proved",
   "theorems": [
    "C132_root",
    "C132_linear",
    "C132_returns"
   ],
   "note": ""
  },
  {
   "property": "C133",
   "status": "proved",
   "theorems": [
    "C133_double_root",
    "C133_returns"
   ],
   "note": ""
  }
 ]
}