{
 "claims": [
  {
   "property": "C01",
   "status": "proved",
   "theorems": [
    "C01_canonical_unique",
    "C01_constructors",
    "C01_add",
    "C01_sub",
    "C01_mul",
    "C01_neg_abs",
    "C01_pow_shift",
    "C01_compare",
    "C01_in_place"
   ],
   "note": "GMP big-integer functions are modelled by exact integer arithmetic"
  },
  {
   "property": "C02",
   "status": "partial",
   "theorems": [
    "C02_no_ub_refuted",
    "C02_no_ub_partial"
   ],
   "note": "the full claim is false of the code (INT64_MIN negation); the partial theorem proves the absence of undefined behaviour when no operand is INT64_MIN"
  },
  {
   "property": "C03",
   "status": "proved",
   "theorems": [
    "C03_truncated_division",
    "C03_floor_division",
    "C03_floor_division_by_zero",
    "C03_gcd",
    "C03_lcm",
    "C03_residue"
   ],
   "note": ""
  },
  {
   "property": "C04",
   "status": "proved",
   "theorems": [
    "C04_field_operations",
    "C04_division",
    "C04_construction",
    "C04_comparison",
    "C04_field"
   ],
   "note": ""
  },
  {
   "property": "C05",
   "status": "proved",
   "theorems": [
    "C05_ring_operations",
    "C05_barrett",
    "C05_construction",
    "C05_power",
    "C05_inverse",
    "C05_division",
    "C05_field"
   ],
   "note": ""
  },
  {
   "property": "C06",
   "status": "partial",
   "theorems": [
    "C06_registry_partial",
    "C06_deletion",
    "C06_fresh_never_live",
    "C06_registry_refuted"
   ],
   "note": "the full claim is false of the code when the user names a variable #var_N; proved for every history without such names; freshness for every history"
  },
  {
   "property": "C07",
   "status": "proved",
   "theorems": [
    "C07_orders_admissible",
    "C07_lex_is_lex",
    "C07_grlex_is_grlex",
    "C07_variable_orders"
   ],
   "note": "all library orders and variable orders; exponents are unbounded integers in the model"
  },
  {
   "property": "C08",
   "status": "proved",
   "theorems": [
    "C08_product",
    "C08_divisibility_and_quotient",
    "C08_lcm",
    "C08_power",
    "C08_equality_and_degree"
   ],
   "note": "exponents are unbounded integers in the model"
  },
  {
   "property": "C09",
   "status": "proved",
   "theorems": [
    "C09_add",
    "C09_sub",
    "C09_neg"
   ],
   "note": "every coefficient ring"
  },
  {
   "property": "C10",
   "status": "proved",
   "theorems": [
    "C10_equality_decides",
    "C10_zero_is_empty",
    "C10_greater_total_order"
   ],
   "note": ""
  },
  {
   "property": "C11",
   "status": "partial",
   "theorems": [
    "C11_normalization_partial",
    "C11_normal_form_refuted",
    "C11_normal_form_fixed"
   ],
   "note": "the full claim is false of the code: C11_normal_form_refuted; the partial theorem proves denotation and sortedness for every list, and full normal form when no monomial's coefficients cancel"
  },
  {
   "property": "C12",
   "status": "proved",
   "theorems": [
    "C12_multiplication",
    "C12_heap_loop"
   ],
   "note": "the packed shortcut is C13/C14"
  },
  {
   "property": "C13",
   "status": "proved",
   "theorems": [
    "C13_packed_product_lex",
    "C13_packed_product_grlex"
   ],
   "note": "the hook the library installs; strict=true is standard C++ (no shift by 64 happens for these variable counts), strict=false is x86-64"
  },
  {
   "property": "C14",
   "status": "partial",
   "theorems": [
    "C14_no_overflow_refuted",
    "C14_no_overflow_grlex_refuted",
    "C13_packed_product_lex",
    "C13_packed_product_grlex"
   ],
   "note": "the full claim is false of the code: multiplication makes no range check (dangling else, monomial_order.hh 226/448)"
  },
  {
   "property": "C15",
   "status": "proved",
   "theorems": [
    "C15_power"
   ],
   "note": "without the packed shortcut"
  },
  {
   "property": "C16",
   "status": "proved",
   "theorems": [
    "C16_exact_division",
    "C16_product_then_quotient",
    "C16_division_by_zero",
    "C16_terminates",
    "C18_divisibility_test_partial",
    "C16_inexact_quotient_normal_refuted"
   ],
   "note": "without the packed shortcut"
  },
  {
   "property": "C17",
   "status": "proved",
   "theorems": [
    "C17_division",
    "C17_unique"
   ],
   "note": "without the packed shortcut"
  },
  {
   "property": "C18",
   "status": "partial",
   "theorems": [
    "C18_division_refuted",
    "C18_single_term_divisor_refuted",
    "C18_divisibility_test_partial",
    "C18_complete_partial"
   ],
   "note": "the full claim is false of the code"
  },
  {
   "property": "C19",
   "status": "partial",
   "theorems": [
    "C19_add_scalar_partial",
    "C19_sub_scalar_partial",
    "C19_add_scalar_refuted",
    "C19_add_monomial"
   ],
   "note": "the full claim is false of the code: p=0 is undefined behaviour and a cancelling constant leaves a zero term"
  },
  {
   "property": "C20",
   "status": "proved",
   "theorems": [
    "C20_scale",
    "C20_mono_mul"
   ],
   "note": ""
  },
  {
   "property": "C21",
   "status": "proved",
   "theorems": [
    "C21_prem_generic",
    "C21_prem_lex"
   ],
   "note": "for every multiplication hook whose answers are products (the packed shortcut is such a hook within the range of C13); degrees below 2^63"
  },
  {
   "property": "C22",
   "status": "proved",
   "theorems": [
    "C22_pquo_generic",
    "C22_pquo_lex",
    "C22_same_remainder_generic",
    "C22_same_remainder_lex"
   ],
   "note": "as C21"
  },
  {
   "property": "C23",
   "status": "partial",
   "theorems": [
    "C23_assign_partial",
    "C23_substitution_specification",
    "C23_assign_lex_trailing",
    "C23_assign_normal_refuted",
    "C23_univariate_evaluation"
   ],
   "note": "value proved for all inputs; normal form is false in general (refuted) and proved for lex orders with trailing substituted variables"
  },
  {
   "property": "C24",
   "status": "partial",
   "theorems": [
    "C24_derivative_partial",
    "C24_derivative_specification",
    "C24_leibniz",
    "C24_derivative_lex",
    "C24_univariate",
    "C24_normal_refuted"
   ],
   "note": "normal form is false over Z/p (refuted), proved in characteristic 0 and for univariate polynomials"
  },
  {
   "property": "C25",
   "status": "partial",
   "theorems": [
    "C25_degree",
    "C25_degree_lex",
    "C25_leadcoeff",
    "C25_coefficients",
    "C25_get_variables",
    "C25_leadcoeff_lex_partial",
    "C25_leadcoeff_lex_constant_refuted"
   ],
   "note": "the one-argument leadcoeff of a constant is wrong (refuted); everything else proved"
  },
  {
   "property": "C26",
   "status": "proved",
   "theorems": [
    "C26_convert",
    "C26_roundtrip",
    "C26_mod",
    "C26_univariate_roundtrip",
    "C26_rational_to_integer"
   ],
   "note": ""
  },
  {
   "property": "C27",
   "status": "proved",
   "theorems": [
    "C27_gcd",
    "C27_gcd_other_orders",
    "C27_gcd_univariate",
    "C27_gcd_univariate_mod_p"
   ],
   "note": "every value returned is a greatest common divisor, for every sequence of primes and evaluation points; univariate over ZZ (single terms, GCDHEU, modular) and over Z/p (with termination)"
  },
  {
   "property": "C28",
   "status": "proved",
   "theorems": [
    "C28_ext_gcd_mod_p",
    "C28_bezout_zz_univariate",
    "C28_bezout_zz_multivariate",
    "C28_zz_gcd_univariate_refuted",
    "C28_zz_gcd_multivariate_refuted"
   ],
   "note": "The claim (over Z/p) is proved in full; the ZZ overloads satisfy Bezout's identity but do not return a gcd (refuted)."
  },
  {
   "property": "C29",
   "status": "proved",
   "theorems": [
    "C29_content",
    "C29_primitive_part",
    "C29_content_univariate"
   ],
   "note": "multivariate cont and pp, univariate cont"
  },
  {
   "property": "C30",
   "status": "proved",
   "theorems": [
    "C30_squarefree_factorization",
    "C30_is_squarefree",
    "C30_squarefree_factorization_other_orders",
    "C30_is_squarefree_other_orders"
   ],
   "note": "product, squarefreeness and coprimality of the factors, for every value returned"
  },
  {
   "property": "C31",
   "status": "proved",
   "theorems": [
    "C31_normal_form",
    "C31_zero_divisor_ub"
   ],
   "note": "a zero polynomial among the divisors is undefined behaviour (C31_zero_divisor_ub)"
  },
  {
   "property": "C32",
   "status": "partial",
   "theorems": [
    "C32_ideal_ZZ_terminates_refuted",
    "C32_contains_sound_partial",
    "C32_normal_form_ZZ_partial"
   ],
   "note": "the full claim is false of the code: Ideal<ZZ>({2x+1}).contains(x) never returns; whenever a call returns its answer is membership in the ideal over QQ"
  },
  {
   "property": "C33",
   "status": "proved",
   "theorems": [
    "C33_s_polynomial",
    "C33_in_ideal",
    "C33_s_polynomial_ZZ_refuted"
   ],
   "note": "over a field, as claimed; over ZZ the result need not be in the ideal (refuted)"
  },
  {
   "property": "C34",
   "status": "proved",
   "theorems": [
    "C34_groebner_basis",
    "C34_canonical",
    "C34_ideal_contains",
    "C34_ideal_reduce",
    "C34_groebner_basis_ZZ"
   ],
   "note": "termination included; every permutation the sort of critical pairs may return; canonical reduced basis; Ideal class; ZZ entry point"
  },
  {
   "property": "C35",
   "status": "proved",
   "theorems": [
    "C35_root_bound",
    "C35_scaling",
    "C35_left_half",
    "C35_right_half",
    "C35_unit_to_infinity",
    "C35_interval_to_infinity",
    "C35_no_sign_change",
    "C35_one_sign_change"
   ],
   "note": "RealRootBound and the transformations _upolynomial_Bto1, 01to012, 01to121, 1toinf and Rtoab, over every real closed field; exponents below 2^63."
  },
  {
   "property": "C36",
   "status": "partial",
   "theorems": [
    "C36_isolates_all_roots",
    "C36_terminates",
    "C36_single_isolates_nonzero_roots_partial",
    "C36_single_terminates",
    "C36_single_zero_root_refuted"
   ],
   "note": "The overload for several polynomials (the one realroot() calls) is proved in full: termination for squarefree pairwise coprime polynomials and isolation of all real roots including 0.  The single-polynomial overload isolates exactly the non-zero roots; it does not return the root 0 (refuted by the polynomial x)."
  },
  {
   "property": "C37",
   "status": "proved",
   "theorems": [
    "C37_resultant",
    "C37_resultant_properties",
    "C37_zero_argument",
    "C37_det_free",
    "C37_det_ideal",
    "C37_det_zero",
    "C37_integers",
    "C37_rationals",
    "C37_mod_p"
   ],
   "note": "Both algorithms of the code (subresultant chain up to 3 variables, Bezout determinant beyond).  The packed-monomial shortcuts of multiplication and division are assumed correct when they answer, as in C21."
  },
  {
   "property": "C38",
   "status": "proved",
   "theorems": [
    "C38_intersection",
    "C38_hull",
    "C38_power",
    "C38_power_huge_refuted"
   ],
   "note": "Points of any totally ordered set in which Q embeds (Q, the reals); endpoints finite, infinite or NaN. The interval product and square are the external library mpria: pow is proved for every product/square that contains the products/squares of points, n < 2^63; above 2^63 the loop of pow does not end (refuted). interval.hh is marked deprecated in the source."
  },
  {
   "property": "C39",
   "status": "proved",
   "theorems": [
    "C39_graph_api",
    "C39_associated_graph",
    "C39_chordal_completion",
    "C39_perfect_elimination_ordering",
    "C39_elimination_game",
    "C39_connected_branch",
    "C39_connected_branch_isolated_refuted"
   ],
   "note": "Every graph built by add_node/add_edge, every random choice of the searches. The completion (MCS-M) terminates with a supergraph and a perfect elimination ordering; perfect_elimination_ordering (MCS) is perfect on every chordal graph; the elimination game is the least closed supergraph; connected_branch gives the connected components, but an isolated node is in none of them (refuted). Not modelled: graph_diff_score, elimination_height, the DFV/peo heuristics, printing."
  },
  {
   "property": "C40",
   "status": "proved",
   "theorems": [
    "C40_canonical",
    "C40_add",
    "C40_sub",
    "C40_scalar_mul",
    "C40_mul",
    "C40_divrem",
    "C40_divrem_unique",
    "C40_gcd",
    "C40_convert"
   ],
   "note": "dense_upoly_zp.hh: word-level reduction, classical and Karatsuba multiplication, division, Euclid and half-gcd; scratch-buffer layout not modelled"
  },
  {
   "property": "C41",
   "status": "partial",
   "theorems": [
    "C41_up_to_sign_partial",
    "C41_several_variables",
    "C41_squarefree",
    "C41_univariate_partial",
    "C41_other_orders_partial",
    "C41_rational_partial",
    "C41_refuted"
   ],
   "note": "factorize for integer polynomials (univariate, lex, other orders) and rational ones.  The product is exactly p if two variables occur in p or p is squarefree; for other univariate p it is p or -p, and C41_refuted exhibits a p for which a release build returns a factorization of -p (the constant squarefree factor -1 of multiplicity 2 is counted once; a debug build stops at an assertion).  The modular factorization, Hensel lifting, LLL and Wang's evaluation/lifting are arbitrary oracles: the theorems hold whatever they answer, because the code checks every candidate by trial division.  Irreducibility of the factors is not claimed."
  },
  {
   "property": "C42",
   "status": "proved",
   "theorems": [
    "C42_charset",
    "C42_zeros",
    "C42_zero_member_refuted"
   ],
   "note": "charset (rankcompare, is_reduced, basset, the std::set and the loop), every finite list of non-zero polynomials, every variable order: termination, membership in the ideal, ascending chain, pseudo-reduction of every input to 0, and the consequence for zeros.  A list containing the zero polynomial makes charset loop forever (refuted).  wrsd, rsd, ZDtoRC, Wucharset and the other decompositions of charset.hh are not modelled."
  },
  {
   "property": "C43",
   "status": "partial",
   "theorems": [
    "C43_read_partial",
    "C43_read_refuted"
   ],
   "note": "the full claim is false of the code: reading 1/0 yields a QQ with denominator 0"
  },
  {
   "property": "C44",
   "status": "partial",
   "theorems": [
    "C44_multiplication_UB_refuted",
    "C44_lex_one_variable_always",
    "C13_packed_product_lex",
    "C13_packed_product_grlex"
   ],
   "note": "the full claim is false of the code: shifts by 64; the C13 theorems with strict=true prove the absence of undefined behaviour for the other variable counts"
  },
  {
   "property": "C45",
   "status": "partial",
   "theorems": [
    "C45_compare_partial",
    "C45_compare_irrational",
    "C45_compare_point",
    "C45_terminates",
    "C45_compare_infinite",
    "C45_compare_with_rational",
    "C45_infinite_with_rational",
    "C45_shrink",
    "C45_isolation_gives_roots",
    "C45_order_refuted"
   ],
   "note": "Comparison with a rational, the infinities and refinement are exact.  The comparison of two roots is exact if a root is irrational or has a point interval, and equality is always decided correctly; for two roots with equal intervals, a rational one hit by the bisection may be reported as larger (the final test uses <= on left ends): C45_order_refuted shows 7/8 and 3/4, isolated by the library, each reported smaller than the other.  Termination assumes that polynomial_GCD and the exact divisions return."
  },
  {
   "property": "C46",
   "status": "proved",
   "theorems": [
    "C46_squarefree_basis",
    "C46_squarefree_basis_other_orders",
    "C46_nonconstant_refuted"
   ],
   "note": "About every value returned, for every sequence of primes and evaluation points.  Non-constancy of the elements, which a user might also expect, is not part of the property and false: C46_nonconstant_refuted (the basis of 1-x, x-1 contains the constant -1)."
  },
  {
   "property": "C47",
   "status": "proved",
   "theorems": [
    "C47_realroot",
    "C47_terminates",
    "C47_two_variables",
    "C47_realroot_other_orders",
    "C47_terminates_other_orders",
    "C47_two_variables_other_orders"
   ],
   "note": "Total degrees below 2^62-1.  Termination: the call returns as soon as squarefreebasis returns."
  },
  {
   "property": "C48",
   "status": "proved",
   "theorems": [
    "C48_discriminant",
    "C48_free"
   ],
   "note": "Degrees below 2^31, where the int64 product m*(m-1) of the code does not overflow.  Packed shortcuts assumed correct when they answer."
  },
  {
   "property": "C49",
   "status": "proved",
   "theorems": [
    "C49_factorization",
    "C49_deterministic"
   ],
   "note": "The factorization of a univariate polynomial over Z/p: model of polynomial_factorize_zp.hh in full (squarefree decomposition with p-th roots, distinct-degree, equal-degree with an arbitrary stream of random residues). Partial correctness for every fuel (the equal-degree step need not stop for an unlucky stream)."
  },
  {
   "property": "C50",
   "status": "proved",
   "theorems": [
    "C50_distinct_degree"
   ],
   "note": "The same model as C49; the converse direction uses that an irreducible divisor of X^(p^d)-X has degree at most d (FzpDdf.v)."
  },
  {
   "property": "C51",
   "status": "proved",
   "theorems": [
    "C51_squarefree"
   ],
   "note": "The same model as C49, including the p-th-root recursion."
  },
  {
   "property": "C52",
   "status": "proved",
   "theorems": [
    "C52_hensel_lift",
    "C52_example_hypotheses",
    "C52_example"
   ],
   "note": "mpz_invert is a parameter with its documentation as premise (ex_inv_ok: the premise is satisfiable). The precision target is arbitrary: its computation (Mignotte bound) is not modelled. poly_convert's final normalization is omitted."
  },
  {
   "property": "C53",
   "status": "proved",
   "theorems": [
    "C53_recombination",
    "C53_factor_not_missed",
    "C53_missed_example_hypotheses",
    "C53_example_hypotheses",
    "C53_example",
    "C53_example_pairs",
    "C53_primitive_sign_refuted"
   ],
   "note": "Total correctness: every run returns, for any lifted factors. Uses the model of Factor.v (zassenhaus). Irreducibility of all returned factors is not claimed: C53_factor_not_missed gives it for a one-element result, relative to the Mignotte bound and to the factors of f being visible in the lifted factors. C53_primitive_sign_refuted: __upoly_primitive keeps a negative leading coefficient on a one-term polynomial; the recombination does not reach that case."
  }
 ]
}