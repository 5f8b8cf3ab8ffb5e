{
 "claims": [
  {
   "property": "C01",
   "status": "proved",
   "theorems": [
    "C01_from_int64",
    "C01_int64_min_undefined"
   ],
   "note": "INT64_MIN is undefined behaviour (proved separately)."
  },
  {
   "property": "C02",
   "status": "proved",
   "theorems": [
    "C02_shift_int64",
    "C02_shift_Int",
    "C02_shift_zero_not_canonical"
   ],
   "note": ""
  },
  {
   "property": "C03",
   "status": "proved",
   "theorems": [
    "C03_text_unique",
    "C03_from_string"
   ],
   "note": ""
  },
  {
   "property": "C04",
   "status": "proved",
   "theorems": [
    "C04_canonical_text_unique",
    "C04_print",
    "C04_print_any",
    "C04_print_negative_zero"
   ],
   "note": ""
  },
  {
   "property": "C05",
   "status": "proved",
   "theorems": [
    "C05_print_parse",
    "C05_parse_print",
    "C05_print_injective"
   ],
   "note": ""
  },
  {
   "property": "C06",
   "status": "proved",
   "theorems": [
    "C06_extract",
    "C06_extract_not_good",
    "C06_extract_two"
   ],
   "note": ""
  },
  {
   "property": "C07",
   "status": "proved",
   "theorems": [
    "C07_comparisons",
    "C07_canonical_eq"
   ],
   "note": ""
  },
  {
   "property": "C08",
   "status": "proved",
   "theorems": [
    "C08_add",
    "C08_C09_any"
   ],
   "note": ""
  },
  {
   "property": "C09",
   "status": "proved",
   "theorems": [
    "C09_sub",
    "C08_C09_any"
   ],
   "note": ""
  },
  {
   "property": "C10",
   "status": "proved",
   "theorems": [
    "C10_mul",
    "C10_mul_any"
   ],
   "note": ""
  },
  {
   "property": "C11",
   "status": "proved",
   "theorems": [
    "C11_assign_agrees",
    "C11_self"
   ],
   "note": ""
  },
  {
   "property": "C12",
   "status": "partial",
   "theorems": [
    "C12_division_refuted",
    "C12_division_partial"
   ],
   "note": "False of the code: 10^18 / 10^9 stops at an assertion (C12_division_refuted). The partial theorem gives the value whenever division returns; C13 gives the exact domain."
  },
  {
   "property": "C13",
   "status": "proved",
   "theorems": [
    "C13_division_exact",
    "C13_small_dividends",
    "C13_every_divisor_can_abort"
   ],
   "note": ""
  },
  {
   "property": "C14",
   "status": "proved",
   "theorems": [
    "C14_divide_by_zero",
    "C14_in_place"
   ],
   "note": ""
  },
  {
   "property": "C15",
   "status": "proved",
   "theorems": [
    "C15_modulus"
   ],
   "note": ""
  },
  {
   "property": "C16",
   "status": "proved",
   "theorems": [
    "C16_quotient_remainder"
   ],
   "note": ""
  },
  {
   "property": "C17",
   "status": "partial",
   "theorems": [
    "C17_pow_refuted_wrong",
    "C17_pow_refuted_abort",
    "C17_pow_partial",
    "C17_pow_iff"
   ],
   "note": "False of the code: (-1)^(10^9) is -1, and x^(2^30) aborts for every x. C17_pow_iff says for exactly which exponents it holds; C88 what happens at the others."
  },
  {
   "property": "C18",
   "status": "proved",
   "theorems": [
    "C18_pow_below_radix",
    "C18_pow_radix"
   ],
   "note": ""
  },
  {
   "property": "C19",
   "status": "proved",
   "theorems": [
    "C19_negative_exponent"
   ],
   "note": ""
  },
  {
   "property": "C20",
   "status": "partial",
   "theorems": [
    "C20_scale_up_partial",
    "C20_scale_down_partial",
    "C20_scale_down_by_bins",
    "C20_scale_refuted"
   ],
   "note": "Scaling up is exact; scaling down aborts on the inputs characterised by C20_scale_down_partial, e.g. 10^18 by 10^-1."
  },
  {
   "property": "C21",
   "status": "partial",
   "theorems": [
    "C21_equals_refuted",
    "C21_equals_refuted_neg"
   ],
   "note": "False of the code: the top bin is compared, so Int(10^9).equals_int32(1) is true and Int(10^9).equals_int32(10^9) is false. C22 gives the exact meaning."
  },
  {
   "property": "C22",
   "status": "proved",
   "theorems": [
    "C22_equals_exact",
    "C22_equals_zero",
    "C22_equals_single",
    "C22_int_min_undefined"
   ],
   "note": ""
  },
  {
   "property": "C23",
   "status": "proved",
   "theorems": [
    "C23_set_value"
   ],
   "note": ""
  },
  {
   "property": "C24",
   "status": "proved",
   "theorems": [
    "C24_negation",
    "C24_negate_any"
   ],
   "note": ""
  },
  {
   "property": "C25",
   "status": "proved",
   "theorems": [
    "C25_canonical_histories",
    "C25_history_values",
    "C25_history_values_strict"
   ],
   "note": "Values are compared for the exponents at which powers are right (C17_pow_iff); programs may use *= when the product is not a zero that breaks canonical form (C26)."
  },
  {
   "property": "C26",
   "status": "partial",
   "theorems": [
    "C26_mul_assign_refuted",
    "C26_mul_assign_refuted_bins",
    "C26_mul_assign_partial"
   ],
   "note": "False of the code: 0 *= -5 is a negative zero and 0 *= 10^9 has two zero bins. The partial theorem says exactly when the result is canonical."
  },
  {
   "property": "C27",
   "status": "proved",
   "theorems": [
    "C27_defined"
   ],
   "note": ""
  },
  {
   "property": "C28",
   "status": "proved",
   "theorems": [
    "C28_eq_iff_same_text",
    "C28_ring_laws"
   ],
   "note": ""
  },
  {
   "property": "C29",
   "status": "proved",
   "theorems": [
    "C29_multiply_by_int",
    "C29_divide_by_int",
    "C29_quotient_and_remainder"
   ],
   "note": ""
  },
  {
   "property": "C30",
   "status": "partial",
   "theorems": [
    "C30_fill_refuted",
    "C30_width_refuted",
    "C30_width_multi_bin_refuted",
    "C30_format_partial",
    "C30_fill_exact_partial",
    "C30_format_exact_partial",
    "C30_format_iff"
   ],
   "note": "False of the code: multi-bin Ints leave '0' as fill character, and the width pads only the first inserted piece (the sign, or the leading bin). C30_format_exact_partial gives the exact text and final fill for every Int, width and fill; C30_format_iff says exactly when that is what a built-in integer would do."
  },
  {
   "property": "C31",
   "status": "proved",
   "theorems": [
    "C31_gcd",
    "C31_gcd_returns",
    "C31_gcd_small"
   ],
   "note": "GCD aborts exactly when one of Euclid's divisions does (gcd_safe); below 10^18 it always returns. The statement allows this."
  },
  {
   "property": "C32",
   "status": "proved",
   "theorems": [
    "C32_construct",
    "C32_construct_small",
    "C32_of_int",
    "C32_of_Int",
    "C32_unique"
   ],
   "note": ""
  },
  {
   "property": "C33",
   "status": "proved",
   "theorems": [
    "C33_frac_frac",
    "C33_int_frac",
    "C33_frac_int",
    "C33_small"
   ],
   "note": "Aborts exactly when the normalising divisions abort (norm_safe of the unreduced numerator and denominator); components up to 7*10^8 never abort."
  },
  {
   "property": "C34",
   "status": "proved",
   "theorems": [
    "C34_comparisons",
    "C34_eq_identity"
   ],
   "note": ""
  },
  {
   "property": "C35",
   "status": "partial",
   "theorems": [
    "C35_assign_partial",
    "C35_assign_int_partial",
    "C35_div_assign_zero",
    "C35_div_assign_int_zero",
    "C35_div_assign_zero_refuted"
   ],
   "note": "False of the code for /= by zero, which silently leaves 1/0 or -1/0 (C35_div_assign_zero gives the exact behaviour). The partial theorems cover everything else, with aliasing."
  },
  {
   "property": "C36",
   "status": "partial",
   "theorems": [
    "C36_pow",
    "C36_pow_assign_partial",
    "C36_pow_assign_negative",
    "C36_pow_assign_refuted",
    "C36_small_exponents"
   ],
   "note": "False of the code: f ^= n ignores the sign of n (C36_pow_assign_negative). f ^ n and f ^= n with n >= 0 are right for every exponent at which powers of Int are; every other exponent is in C88."
  },
  {
   "property": "C37",
   "status": "proved",
   "theorems": [
    "C37_string",
    "C37_string_value",
    "C37_string_small"
   ],
   "note": "A string whose normalisation meets an aborting division aborts; exact."
  },
  {
   "property": "C38",
   "status": "partial",
   "theorems": [
    "C38_round_trip_partial",
    "C38_round_trip_small",
    "C38_round_trip_aborts",
    "C38_round_trip_refuted"
   ],
   "note": "False of the code: a fraction such as 1000000000000000138/3 can be built, but reading its text aborts. Exact domain proved."
  },
  {
   "property": "C39",
   "status": "partial",
   "theorems": [
    "C39_read_value",
    "C39_read_zero_denominator",
    "C39_read_no_numerator",
    "C39_read_no_denominator",
    "C39_read_not_good",
    "C39_cases",
    "C39_read_partial",
    "C39_read_refuted"
   ],
   "note": "False of the code: \"1/0\" is read as 1/0, \"0/0\" throws out of operator>>, \"5/x\" fails but changes the numerator. Every possible input is classified exactly."
  },
  {
   "property": "C40",
   "status": "proved",
   "theorems": [
    "C40_reciprocal",
    "C40_involution"
   ],
   "note": ""
  },
  {
   "property": "C41",
   "status": "partial",
   "theorems": [
    "C41_from_double_partial",
    "C41_error",
    "C41_not_finite",
    "C41_from_double_small",
    "C41_precision_negative",
    "C41_precision_zero",
    "C41_from_double_refuted"
   ],
   "note": "False of the code: precision 0 is undefined behaviour for every finite double, and 1000.0 at 15 decimals aborts."
  },
  {
   "property": "C42",
   "status": "partial",
   "theorems": [
    "C42_history_values_partial",
    "C42_reduced_histories",
    "C42_history_refuted"
   ],
   "note": "Runs can stop at an assertion (C42_history_refuted); otherwise values and reduced form are preserved."
  },
  {
   "property": "C43",
   "status": "proved",
   "theorems": [
    "C43_add",
    "C43_sub",
    "C43_scale",
    "C43_divide",
    "C43_int_add_sub",
    "C43_int_scale",
    "C43_int_divide",
    "C43_frac",
    "C43_int32_add_sub"
   ],
   "note": "Generic in the element type (operators related to exact functions by a representation relation), with Int, Frac and int (no overflow) instances. Vec<Int> scaling gives zeros that need not be canonical (C26); Vec<Frac> and Vec<Int> division may abort as in C13/C33."
  },
  {
   "property": "C44",
   "status": "partial",
   "theorems": [
    "C44_refuted",
    "C44_div_refuted",
    "C44_scale_partial",
    "C44_divide_partial",
    "C44_frac_divide_partial"
   ],
   "note": "False of the code: the scalar is a reference, so elements after the k-th are scaled by the new k-th element. The partial theorems give the exact result."
  },
  {
   "property": "C45",
   "status": "proved",
   "theorems": [
    "C45_value",
    "C45_int",
    "C45_dot",
    "C45_symmetric",
    "C45_additive",
    "C45_homogeneous"
   ],
   "note": ""
  },
  {
   "property": "C46",
   "status": "proved",
   "theorems": [
    "C46_anticommutative",
    "C46_orthogonal",
    "C46_lagrange",
    "C46_vector_triple_product",
    "C46_scalar_triple_product",
    "C46_rotation",
    "C46_size",
    "C46_value",
    "C46_int"
   ],
   "note": ""
  },
  {
   "property": "C47",
   "status": "proved",
   "theorems": [
    "C47_constantVec",
    "C47_concatenate",
    "C47_equal",
    "C47_equal_int",
    "C47_setEntries",
    "C47_setEntries_val",
    "C47_construct",
    "C47_print",
    "C47_print_int"
   ],
   "note": ""
  },
  {
   "property": "C48",
   "status": "partial",
   "theorems": [
    "C48_add",
    "C48_sub",
    "C48_neg",
    "C48_scale",
    "C48_divide",
    "C48_scale_by_entry_refuted",
    "C48_scale_by_entry_partial",
    "C48_divide_by_entry_partial",
    "C48_product",
    "C48_transpose",
    "C48_trace",
    "C48_int",
    "C48_int_product",
    "C48_product_ring",
    "C48_trace_ring"
   ],
   "note": "Generic in the element type, with Int and int instances; the ring laws of the product and trace over any commutative ring. Scaling or dividing a matrix by one of its own entries is false (the scalar is a reference, C48_scale_by_entry_refuted); the partial theorems give the exact result."
  },
  {
   "property": "C49",
   "status": "proved",
   "theorems": [
    "C49_ring",
    "C49_value",
    "C49_int",
    "C49_not_square"
   ],
   "note": "Over every commutative ring, for at least one row; the expansions of a 0x0 matrix give 0."
  },
  {
   "property": "C50",
   "status": "proved",
   "theorems": [
    "C50_field",
    "C50_not_square",
    "C50_value",
    "C50_rat"
   ],
   "note": "For exact field element types; double is not a field. Integer types: C53."
  },
  {
   "property": "C51",
   "status": "proved",
   "theorems": [
    "C51_field",
    "C51_inplace_field",
    "C51_value"
   ],
   "note": "For exact field element types; includes uniqueness of the reduced form and equality of row spaces."
  },
  {
   "property": "C52",
   "status": "proved",
   "theorems": [
    "C52_field",
    "C52_not_square",
    "C52_value",
    "C52_rat"
   ],
   "note": "For exact field element types."
  },
  {
   "property": "C53",
   "status": "partial",
   "theorems": [
    "C53_lower_partial",
    "C53_int32_refuted",
    "C53_refuted",
    "C53_small_partial",
    "C53_exact_partial",
    "C53_exact_small_partial",
    "C53_exact_int32_partial",
    "C53_triangular_partial",
    "C53_triangular_int32_partial"
   ],
   "note": "False of the code: elimination divides, so determinant() of [[2,1,0],[1,2,1],[0,1,2]] over Int is 8, not 4 (also over int). The partial theorems: sizes 1 and 2; upper triangular matrices without zeros on the diagonal (for int exactly when the products along the diagonal fit); lower triangular ones (Int may abort); and every matrix whose elimination in rational arithmetic meets only integers (which also fit, for int; Int may abort when one reaches 10^18). Missing: which integer matrices give a right result although an intermediate quotient is truncated."
  },
  {
   "property": "C54",
   "status": "proved",
   "theorems": [
    "C54_factor_times_factor",
    "C54_term_times_factor",
    "C54_term_times_term",
    "C54_term_squared",
    "C54_small_coefficients",
    "C54_commutes",
    "C54_construct",
    "C54_construct_single"
   ],
   "note": "t*u aborts exactly when normalising the product of the coefficients does (not mul_safe); coefficients with small products never do. A variable whose exponents cancel stays, with exponent 0."
  },
  {
   "property": "C55",
   "status": "partial",
   "theorems": [
    "C55_add_refuted",
    "C55_append_partial",
    "C55_factors_partial",
    "C55_terms_partial",
    "C55_term_sub_partial",
    "C55_assign_partial"
   ],
   "note": "False of the code: appendTerm dereferences end() whenever every present term is less than the new one, e.g. x + y or any append to the empty polynomial. The partial theorems give the exact domain (undefined iff all terms are less; abort only for coefficients that cannot be added) and the value everywhere else."
  },
  {
   "property": "C56",
   "status": "partial",
   "theorems": [
    "C56_asymmetry_refuted",
    "C56_transitivity_refuted",
    "C56_decides",
    "C56_order_partial",
    "C56_one_variable_partial"
   ],
   "note": "False of the code: x y^2 < x^2 y and conversely, and it is not transitive. It is irreflexive, 'not less' is transitive, neither-less means equal factors, and it is a strict weak ordering on terms with at most one variable."
  },
  {
   "property": "C57",
   "status": "proved",
   "theorems": [
    "C57_decides",
    "C57_strict_total",
    "C57_names"
   ],
   "note": ""
  },
  {
   "property": "C58",
   "status": "partial",
   "theorems": [
    "C58_epsilon",
    "C58_cmp_refuted",
    "C58_cmp_partial",
    "C58_hairline_refuted",
    "C58_antisymmetric",
    "C58_not_finite",
    "C58_isFinite"
   ],
   "note": "False of the code: the sign is reversed (float_cmp(1,2) = 1), and a difference less than half a unit above EPSILON counts as 0. The partial theorem gives the exact answer for all finite doubles; isFinite is right. The finite cases use the standard library's axioms of the reals (through Flocq)."
  },
  {
   "property": "C59",
   "status": "proved",
   "theorems": [
    "C59_pow_abort"
   ],
   "note": ""
  },
  {
   "property": "C60",
   "status": "proved",
   "theorems": [
    "C60_construct",
    "C60_setEntries",
    "C60_special",
    "C60_augmented",
    "C60_minor",
    "C60_equal"
   ],
   "note": ""
  },
  {
   "property": "C61",
   "status": "proved",
   "theorems": [
    "C61_print",
    "C61_print_int"
   ],
   "note": ""
  },
  {
   "property": "C62",
   "status": "partial",
   "theorems": [
    "C62_print_refuted",
    "C62_print_partial",
    "C62_print_text",
    "C62_small_power"
   ],
   "note": "False of the code for powers 10^9, 10^18, ..., printed as if they were 1 (equals_int32 compares the top bin). Exact text for every power proved."
  },
  {
   "property": "C63",
   "status": "partial",
   "theorems": [
    "C63_print_refuted",
    "C63_print_partial",
    "C63_print_text"
   ],
   "note": "False of the code for exponents 10^9, 10^18, ... (C62). Exact text for all terms proved; the documented text for all other exponents."
  },
  {
   "property": "C64",
   "status": "proved",
   "theorems": [
    "C64_print",
    "C64_print_any"
   ],
   "note": ""
  },
  {
   "property": "C65",
   "status": "proved",
   "theorems": [
    "C65_equality",
    "C65_neither_less"
   ],
   "note": ""
  },
  {
   "property": "C66",
   "status": "partial",
   "theorems": [
    "C66_built_refuted",
    "C66_sorted_refuted",
    "C66_merge_partial",
    "C66_stays_sorted_partial"
   ],
   "note": "False of the code: a polynomial appendTerm built may be unsorted, so appendTerms on it is undefined, and merging two sorted lists may give an unsorted one. The partial theorems: undefined exactly when a list is unsorted, otherwise a permutation with the value of the sum, sorted when no two terms are mutually less."
  },
  {
   "property": "C67",
   "status": "proved",
   "theorems": [
    "C67_history",
    "C67_like_term",
    "C67_count"
   ],
   "note": ""
  },
  {
   "property": "C68",
   "status": "partial",
   "theorems": [
    "C68_vector_refuted",
    "C68_factor_vector_refuted",
    "C68_others_partial"
   ],
   "note": "False of the code: every non-empty vector runs into the dereference of end() in appendTerm. The other constructors are right."
  },
  {
   "property": "C69",
   "status": "proved",
   "theorems": [
    "C69_float_equals",
    "C69_apart",
    "C69_symmetric",
    "C69_equal_compare",
    "C69_not_finite"
   ],
   "note": "Uses the standard library's axioms of the reals (through Flocq)."
  },
  {
   "property": "C70",
   "status": "proved",
   "theorems": [
    "C70_add",
    "C70_sub",
    "C70_scale",
    "C70_divide",
    "C70_dot",
    "C70_cross"
   ],
   "note": ""
  },
  {
   "property": "C71",
   "status": "proved",
   "theorems": [
    "C71_add",
    "C71_sub",
    "C71_neg",
    "C71_scale",
    "C71_divide",
    "C71_product",
    "C71_product_small",
    "C71_trace",
    "C71_determinant_small"
   ],
   "note": ""
  },
  {
   "property": "C72",
   "status": "proved",
   "theorems": [
    "C72_cofactor",
    "C72_cofactor_small",
    "C72_ten"
   ],
   "note": ""
  },
  {
   "property": "C73",
   "status": "proved",
   "theorems": [
    "C73_norm",
    "C73_norm_double"
   ],
   "note": "Uses the standard library's axioms of the reals (through Flocq)."
  },
  {
   "property": "C74",
   "status": "proved",
   "theorems": [
    "C74_unit"
   ],
   "note": "The result is a vector of zeros unless one element dominates: (3, 4) becomes (0, 0). Uses the standard library's axioms of the reals (through Flocq)."
  },
  {
   "property": "C75",
   "status": "proved",
   "theorems": [
    "C75_convert"
   ],
   "note": "Uses the standard library's axioms of the reals (through Flocq)."
  },
  {
   "property": "C76",
   "status": "proved",
   "theorems": [
    "C76_dot"
   ],
   "note": "Uses the standard library's axioms of the reals (through Flocq)."
  },
  {
   "property": "C77",
   "status": "proved",
   "theorems": [
    "C77_norm",
    "C77_longest"
   ],
   "note": "Uses the standard library's axioms of the reals (through Flocq)."
  },
  {
   "property": "C78",
   "status": "partial",
   "theorems": [
    "C78_positive_refuted",
    "C78_finite_refuted",
    "C78_positive_partial",
    "C78_zero",
    "C78_finite_partial",
    "C78_infinite",
    "C78_huge",
    "C78_one"
   ],
   "note": "False of the code: the squares underflow or overflow, norm((2^-548)) = 0 and norm((2^652)) = infinity. What holds: it is zero exactly when no square is above 2^-1075 (C78_zero); it is infinite as soon as one element is 2^512 or more (C78_huge), exactly then for a single element (C78_one); for more elements finiteness is decided up to the rounding error of the sum of squares (C78_finite_partial, C78_infinite). Uses the standard library's axioms of the reals (through Flocq)."
  },
  {
   "property": "C79",
   "status": "proved",
   "theorems": [
    "C79_unit"
   ],
   "note": "The zero vector becomes NaN, and elements below 2^-511 may give infinities. Uses the standard library's axioms of the reals (through Flocq)."
  },
  {
   "property": "C80",
   "status": "proved",
   "theorems": [
    "C80_sum",
    "C80_scale",
    "C80_products"
   ],
   "note": "The rational run stops (as UB) at a result the test rejects and at a division by zero. Uses the standard library's axioms of the reals (through Flocq)."
  },
  {
   "property": "C81",
   "status": "proved",
   "theorems": [
    "C81_sum",
    "C81_scale",
    "C81_products",
    "C81_elimination"
   ],
   "note": "The rational run stops (as UB) at a result the test rejects and at a division by zero. Uses the standard library's axioms of the reals (through Flocq)."
  },
  {
   "property": "C82",
   "status": "proved",
   "theorems": [
    "C82_sum",
    "C82_dot",
    "C82_product",
    "C82_limit",
    "C82_cofactor"
   ],
   "note": "Uses the standard library's axioms of the reals (through Flocq)."
  },
  {
   "property": "C83",
   "status": "proved",
   "theorems": [
    "C83_determinant",
    "C83_rref",
    "C83_inverse",
    "C83_triangular"
   ],
   "note": "Uses the standard library's axioms of the reals (through Flocq)."
  },
  {
   "property": "C84",
   "status": "proved",
   "theorems": [
    "C84_deque_text",
    "C84_deque_determines"
   ],
   "note": ""
  },
  {
   "property": "C85",
   "status": "proved",
   "theorems": [
    "C85_shift",
    "C85_from_back",
    "C85_set_get",
    "C85_max"
   ],
   "note": ""
  },
  {
   "property": "C86",
   "status": "proved",
   "theorems": [
    "C86_testOutput",
    "C86_testOutput_Int",
    "C86_testOutput_Frac"
   ],
   "note": ""
  },
  {
   "property": "C87",
   "status": "proved",
   "theorems": [
    "C87_vec_Int",
    "C87_vec_int",
    "C87_vec_Frac",
    "C87_mat_Int",
    "C87_mat_int",
    "C87_mat_Frac"
   ],
   "note": ""
  },
  {
   "property": "C88",
   "status": "proved",
   "theorems": [
    "C88_pow_exact",
    "C88_pow_negative_exact",
    "C88_taken_unique",
    "C88_frac_pow_exact",
    "C88_frac_pow_assign_exact"
   ],
   "note": ""
  },
  {
   "property": "C89",
   "status": "partial",
   "theorems": [
    "C89_rref_refuted",
    "C89_inverse_refuted",
    "C89_exact_partial",
    "C89_exact_small_partial",
    "C89_exact_int32_partial",
    "C89_units_partial",
    "C89_triangular_partial"
   ],
   "note": "False of the code: quotients are truncated, so rref((2 1)) = (1 0) and inverse(2 1; 1 1) = (0 0; 0 1). Exact when the elimination in rational arithmetic meets integers only (Int, with aborts of the division; without them below 10^18; int if everything fits), when it divides by 1 and -1 only, and so for every upper triangular Mat<Int> with 1 or -1 along the diagonal."
  },
  {
   "property": "C90",
   "status": "proved",
   "theorems": [
    "C90_vec",
    "C90_vec_assign",
    "C90_mat",
    "C90_mat_assign",
    "C90_product",
    "C90_trace",
    "C90_cross"
   ],
   "note": ""
  },
  {
   "property": "C91",
   "status": "partial",
   "theorems": [
    "C91_commute",
    "C91_mat_commute",
    "C91_transpose",
    "C91_opposite",
    "C91_cross_self",
    "C91_equal_self",
    "C91_add_refuted",
    "C91_product_refuted",
    "C91_trace_refuted",
    "C91_orthogonal_refuted"
   ],
   "note": "Bit for bit, + commutes, dot is symmetric and (ab)^T = b^T a^T, on all doubles; a - b == -(b - a) on finite ones; x cross x is zero unless a product overflows (then NaN); x == x exactly when no element is NaN. False: + and the matrix product are not associative, trace(ab) may differ from trace(ba), x . (x cross y) need not be zero; each has a witness."
  },
  {
   "property": "C92",
   "status": "partial",
   "theorems": [
    "C92_det2_partial",
    "C92_triangular_partial",
    "C92_diagonal_partial",
    "C92_inverse_refuted",
    "C92_singular_refuted",
    "C92_throws_refuted",
    "C92_determinant_refuted",
    "C92_nonzero_refuted"
   ],
   "note": "False of the code: the first pivot that is not zero is taken, however small. inverse() of [[2^-60,1],[1,1]] has 0 where the inverse is below -1; inverse() of the singular [[49,1],[49,1]] returns, of the regular [[3,1],[1,0.333...]] throws; determinant() of [[2^-60,1,1],[1,1,2],[1,2,1]] is 0 although it should be about 2 (cofactor expansion finds 2), and of the singular [[3,1,2],[2,5,3],[5,6,5]] is not 0. The partial theorems: 2 by 2 determinants have the error of a difference of two products; triangular ones (upper or lower, no zero on the diagonal) have relative error (1+u)^(n-1)-1 unless a partial product leaves the normal range; the inverse of a diagonal matrix is correctly rounded entry by entry unless a reciprocal overflows. When no result is rounded see C83."
  },
  {
   "property": "C93",
   "status": "proved",
   "theorems": [
    "C93_size",
    "C93_large",
    "C93_row",
    "C93_col"
   ],
   "note": "Rdet/Rperm (DoubleSpec) expand along the first row, Rdet_col/Rperm_col along the first column; C93_row and C93_col say that the value compared with is \\det of the matrix. Without the condition on entries products can underflow: the expansion of diag(2^-600, 2^-600) is 0 (C93_ex)."
  },
  {
   "property": "C94",
   "status": "proved",
   "theorems": [
    "C94_mat",
    "C94_product",
    "C94_vec",
    "C94_vec_small",
    "C94_mat_small"
   ],
   "note": "determinant, rref, inverse, cofactor expansion and unary minus of Mat<Frac> do not compile (Frac's constructors are explicit, no unary minus), so they are not claimed."
  },
  {
   "property": "C95",
   "status": "partial",
   "theorems": [
    "C95_int",
    "C95_frac_matrix",
    "C95_frac_refuted",
    "C95_frac_partial"
   ],
   "note": "Proved for Int, and for operator/ of Mat<Frac>. False for Vec<Frac> / and /= and Mat<Frac> /=, which use Frac's /= (see C35): C95_frac_refuted; what they return instead is C95_frac_partial."
  },
  {
   "property": "C96",
   "status": "partial",
   "theorems": [
    "C96_default",
    "C96_spec_dec",
    "C96_one_bin_partial",
    "C96_dec_partial",
    "C96_showpos_partial",
    "C96_hex_partial",
    "C96_oct_partial",
    "C96_appends",
    "C96_refuted"
   ],
   "note": "False from ten digits on in base 16, base 8 and under showpos, for negative Ints under showpos, and for some Ints on a left-aligned stream: C96_refuted. For each base the _partial theorems say exactly when the text is right (base 8: up to 18 digits only)."
  },
  {
   "property": "C97",
   "status": "proved",
   "theorems": [
    "C97_unique",
    "C97_rounding_unique",
    "C97_double",
    "C97_integer",
    "C97_as_int",
    "C97_order",
    "C97_vec",
    "C97_mat"
   ],
   "note": ""
  },
  {
   "property": "C98",
   "status": "proved",
   "theorems": [
    "C98_exact_ring",
    "C98_exact_field",
    "C98_exact_Int",
    "C98_assoc",
    "C98_distr",
    "C98_distr_right",
    "C98_identity",
    "C98_group",
    "C98_scale",
    "C98_transpose",
    "C98_trace",
    "C98_trace_sum",
    "C98_cofactor",
    "C98_determinant",
    "C98_inverse",
    "C98_inverse_product",
    "C98_solve",
    "C98_rref_rows",
    "C98_rref_idempotent",
    "C98_rref_product",
    "C98_rref_identity",
    "C98_rref_rank",
    "C98_int"
   ],
   "note": ""
  },
  {
   "property": "C99",
   "status": "partial",
   "theorems": [
    "C99_separated_refuted",
    "C99_separated_fails",
    "C99_any_text",
    "C99_adjacent",
    "C99_ws_takes",
    "C99_ws_partial"
   ],
   "note": "operator>> does not skip white space, so separated numbers are not read back (refuted, for every separator but a minus sign); what does happen for every text is C99_any_text, and C99_adjacent, C99_ws_partial say when a sequence is read back"
  },
  {
   "property": "C100",
   "status": "partial",
   "theorems": [
    "C100_in_bounds",
    "C100_distinct",
    "C100_faithful",
    "C100_overflow_refuted",
    "C100_witness_refuted",
    "C100_outside_refuted",
    "C100_augmented",
    "C100_minor",
    "C100_minor_refuted",
    "C100_minor_empty"
   ],
   "note": "exact below 2^64 entries (and 2^31 rows and columns for first_minor); beyond that refuted"
  },
  {
   "property": "C101",
   "status": "partial",
   "theorems": [
    "C101_commute",
    "C101_add_partial",
    "C101_mul_partial",
    "C101_div_partial",
    "C101_pow_partial",
    "C101_zero_partial",
    "C101_self_partial",
    "C101_small",
    "C101_order",
    "C101_assoc_refuted",
    "C101_mul_assoc_refuted",
    "C101_identities_refuted"
   ],
   "note": "commutativity, the order and all laws on small fractions hold outright; the other laws hold unless one side aborts, and there are fractions where exactly one side does (refuted)"
  },
  {
   "property": "C102",
   "status": "partial",
   "theorems": [
    "C102_frac_pieces",
    "C102_vec_pieces",
    "C102_mat_pieces",
    "C102_deque_pieces",
    "C102_factor_pieces",
    "C102_term_pieces",
    "C102_poly_pieces",
    "C102_default",
    "C102_width",
    "C102_frac_dec",
    "C102_frac_showpos_partial",
    "C102_frac_hex_partial",
    "C102_frac_small_partial",
    "C102_vec_int_partial",
    "C102_vec_hex_partial",
    "C102_vec_frac_partial",
    "C102_vec_int32",
    "C102_mat_int32",
    "C102_mat_layout",
    "C102_refuted"
   ],
   "note": "each container is shown as the flags ask if and only if each number in it is (which C96 decides); ints in Vec<int> and Mat<int> always are; refuted for Frac and Vec<Int> by -1/2 under showpos and 1000000001 in base 16"
  },
  {
   "property": "C103",
   "status": "proved",
   "theorems": [
    "C103_owned",
    "C103_count",
    "C103_destructor",
    "C103_constructors",
    "C103_assign",
    "C103_entries",
    "C103_arithmetic",
    "C103_compound",
    "C103_compare",
    "C103_determinants",
    "C103_matrices",
    "C103_made",
    "C103_print"
   ],
   "note": "also shows that treating a Mat as a value in MatModel is sound: the results agree function by function, with an operand that is the object itself where the C++ permits one"
  },
  {
   "property": "C104",
   "status": "proved",
   "theorems": [
    "C104_call",
    "C104_program",
    "C104_zero",
    "C104_pow_base"
   ],
   "note": "a negative exponent, or one with a halving equal to a power of the radix or its successor, is only claimed to give some power (C17-C19, C88 say which); the calls that may assert are listed by may_assert"
  },
  {
   "property": "C105",
   "status": "proved",
   "theorems": [
    "C105_parse_int",
    "C105_run_unique",
    "C105_in_read"
   ],
   "note": "the characters consumed before invalid_argument is thrown are not modelled"
  },
  {
   "property": "C106",
   "status": "proved",
   "theorems": [
    "C106_bins",
    "C106_sum",
    "C106_product",
    "C106_quotient",
    "C106_remainder",
    "C106_power",
    "C106_gcd_rounds",
    "C106_power_depth",
    "C106_search"
   ],
   "note": "all bounds are reached (examples)"
  },
  {
   "property": "C107",
   "status": "proved",
   "theorems": [
    "C107_same",
    "C107_product",
    "C107_determinant",
    "C107_rref",
    "C107_inverse",
    "C107_expansion",
    "C107_expansion_exact",
    "C107_factorial"
   ],
   "note": "copies and moves of elements are not counted"
  },
  {
   "property": "C108",
   "status": "proved",
   "theorems": [
    "C108_zero",
    "C108_unset",
    "C108_writes",
    "C108_unset_used",
    "C108_filled"
   ],
   "note": "int and double have no default constructor; new T[n] leaves their values indeterminate"
  },
  {
   "property": "C109",
   "status": "proved",
   "theorems": [
    "C109_call",
    "C109_program",
    "C109_finishes"
   ],
   "note": "outcomes other than success are part of the statement; which sums are undefined is C55"
  },
  {
   "property": "C110",
   "status": "partial",
   "theorems": [
    "C110_assign",
    "C110_assign_int",
    "C110_binary",
    "C110_order",
    "C110_small",
    "C110_infinities_refuted"
   ],
   "note": "0/0 itself (left in the object that threw) as an operand is not covered; C110_infinities_refuted shows -1/0 < 1/0 is false and 1/0 <= -1/0 is true, so the order is not the one of the extended line"
  },
  {
   "property": "C111",
   "status": "proved",
   "theorems": [
    "C111_same",
    "C111_rows",
    "C111_elementwise",
    "C111_scalar",
    "C111_own",
    "C111_zero"
   ],
   "note": "the operators of Int leave the element as it was when they throw, so only Frac differs from VecModel and MatModel"
  },
  {
   "property": "C112",
   "status": "proved",
   "theorems": [
    "C112_double",
    "C112_unique",
    "C112_default",
    "C112_fixed",
    "C112_vec",
    "C112_mat"
   ],
   "note": "insertion as libstdc++ and glibc do it (printf %f, %e, %g, %a); negative zero has a sign, NaN has none"
  },
  {
   "property": "C113",
   "status": "proved",
   "theorems": [
    "C113_programs",
    "C113_meaning",
    "C113_closed",
    "C113_nan_stays",
    "C113_one_value"
   ],
   "note": "each statement in its own try block; a failed assertion ends the program; exponents for which Int::operator^ is wrong (C18, C59) are excluded"
  },
  {
   "property": "C114",
   "status": "proved",
   "theorems": [
    "C114_denotes",
    "C114_closest",
    "C114_bits53",
    "C114_injective",
    "C114_vec",
    "C114_mat",
    "C114_sharp"
   ],
   "note": "reading is specified, not modelled: the library never parses a double; insertion as in C112"
  },
  {
   "property": "C115",
   "status": "proved",
   "theorems": [
    "C115_backward"
   ],
   "note": "results that are zero, infinite or NaN are not covered (C92 shows that zero may be wrong)"
  },
  {
   "property": "C116",
   "status": "proved",
   "theorems": [
    "C116_rref",
    "C116_inverse",
    "C116_residual"
   ],
   "note": "Proved for every n and c. The multipliers in B may grow, as without a choice of the largest pivot they must; the bound is in terms of them."
  },
  {
   "property": "C117",
   "status": "proved",
   "theorems": [
    "C117_int",
    "C117_int_plain",
    "C117_int32",
    "C117_frac",
    "C117_field",
    "C117_exclusive",
    "C117_start"
   ],
   "note": "Proved for all programs. Printing, conversions between element types, /= on fractions, and Vec and Mat of double are not among the calls."
  },
  {
   "property": "C118",
   "status": "proved",
   "theorems": [
    "C118_factor",
    "C118_term",
    "C118_poly",
    "C118_exact"
   ],
   "note": "Proved, both directions."
  },
  {
   "property": "C119",
   "status": "proved",
   "theorems": [
    "C119_same",
    "C119_linear",
    "C119_product",
    "C119_product_assign",
    "C119_dearer_order",
    "C119_quotient",
    "C119_quotient_assign",
    "C119_remainder"
   ],
   "note": "Proved. The rounds counted are those of the loops written in Int.cpp and Int.hpp, copy constructor included; work inside std::deque and std::swap is not counted."
  },
  {
   "property": "C120",
   "status": "partial",
   "theorems": [
    "C120_same",
    "C120_throws",
    "C120_left",
    "C120_left_self",
    "C120_kept",
    "C120_left_refuted",
    "C120_redundant_sub",
    "C120_redundant_add"
   ],
   "note": "Partial because the statement that x /= y keeps x, or leaves a normal form, is false of the code (C120_left_refuted). The object left behind by an exception is modelled for /= and times_power_ten; += and -= on well-formed Ints with redundant bins are compared only where they return."
  },
  {
   "property": "C121",
   "status": "partial",
   "theorems": [
    "C121_same",
    "C121_same_in_place",
    "C121_throws",
    "C121_throws_in_place",
    "C121_left",
    "C121_left_Int",
    "C121_left_pow",
    "C121_left_refuted"
   ],
   "note": "Partial because a compound assignment that throws can leave a zero denominator (C121_left_refuted). What is left is described for reduced fractions; for others only how the call ends."
  },
  {
   "property": "C122",
   "status": "partial",
   "theorems": [
    "C122_enough",
    "C122_owned",
    "C122_in_place",
    "C122_strong",
    "C122_copying",
    "C122_basic",
    "C122_retry",
    "C122_leak_refuted"
   ],
   "note": "Partial because with elements that allocate the constructors that copy elements lose their array when a copy fails (C122_leak_refuted)."
  },
  {
   "property": "C123",
   "status": "proved",
   "theorems": [
    "C123_limit",
    "C123_runs",
    "C123_constructors",
    "C123_unary",
    "C123_binary",
    "C123_minors",
    "C123_square",
    "C123_expansions",
    "C123_in_place"
   ],
   "note": "Memory is counted in elements of arrays, without overhead; copies that C++11 may elide are elided, as in HeapModel."
  },
  {
   "property": "C124",
   "status": "partial",
   "theorems": [
    "C124_sum",
    "C124_difference",
    "C124_product",
    "C124_remainder",
    "C124_power",
    "C124_quotient",
    "C124_kept",
    "C124_number",
    "C124_sum_refuted",
    "C124_product_refuted",
    "C124_quotient_refuted"
   ],
   "note": "Requests are placed wherever memory may be needed, so the model has more failing runs than a library that allocates in blocks. Computations with local objects count as one request each. What a failed std::deque assignment leaves is a parameter; half_gnu is read off libstdc++, which is not part of the repository."
  },
  {
   "property": "C125",
   "status": "partial",
   "theorems": [
    "C125_sum",
    "C125_difference",
    "C125_product",
    "C125_quotient",
    "C125_int_sum",
    "C125_int_difference",
    "C125_int_product",
    "C125_int_quotient",
    "C125_power",
    "C125_number",
    "C125_product_refuted",
    "C125_sum_refuted"
   ],
   "note": "Requests and deques as in C124. The denominator of the operands is not assumed to be positive."
  },
  {
   "property": "C126",
   "status": "proved",
   "theorems": [
    "C126_same_powers",
    "C126_same_operators",
    "C126_same_assignments",
    "C126_quotient",
    "C126_remainder",
    "C126_power",
    "C126_gcd",
    "C126_reduction",
    "C126_frac",
    "C126_int",
    "C126_assignments",
    "C126_int_assignments",
    "C126_frac_power"
   ],
   "note": "Rounds as in C119: what one round or one deque operation costs in machine time is not modelled."
  },
  {
   "property": "C127",
   "status": "proved",
   "theorems": [
    "C127_narrow_is_to_int32",
    "C127_read_below",
    "C127_string_below",
    "C127_compare_below",
    "C127_print_below",
    "C127_divide_below",
    "C127_read_any",
    "C127_string_any",
    "C127_string_refuses",
    "C127_string_32",
    "C127_compare_lengths",
    "C127_compare_zero",
    "C127_compare_bins",
    "C127_compare_32",
    "C127_print_long",
    "C127_divide_long",
    "C127_divide_32",
    "C127_frac_far"
   ],
   "note": "The numbers inside the division loop other than the dividend are compared with unbounded integers; the theorem on long dividends asks for a divisor of fewer than 2^31 bins."
  },
  {
   "property": "C128",
   "status": "proved",
   "theorems": [
    "C128_vec",
    "C128_mat",
    "C128_elimination",
    "C128_vec_frac",
    "C128_mat_frac",
    "C128_same",
    "C128_loop",
    "C128_left",
    "C128_zero",
    "C128_rows"
   ],
   "note": "Determinant, rref and inverse of Mat<Frac> do not compile and are left out. Entries with redundant zeros in front (left by *=) are covered by the clause on results only; an example shows the general claim fails for them."
  },
  {
   "property": "C129",
   "status": "proved",
   "theorems": [
    "C129_same",
    "C129_same_in_place",
    "C129_exponents",
    "C129_throws",
    "C129_throws_in_place",
    "C129_negate",
    "C129_mul",
    "C129_append"
   ],
   "note": "Comparisons, printing and std::list::merge meet no assertion and are those of PolyModel."
  },
  {
   "property": "C130",
   "status": "partial",
   "theorems": [
    "C130_programs",
    "C130_call",
    "C130_same",
    "C130_zero",
    "C130_sum_throws",
    "C130_kept_refuted"
   ],
   "note": "C130_kept_refuted: an exception can lose the sign of an Int. Running out of memory is C124."
  },
  {
   "property": "C131",
   "status": "partial",
   "theorems": [
    "C131_programs",
    "C131_call",
    "C131_same",
    "C131_text",
    "C131_value",
    "C131_unique",
    "C131_kept_refuted"
   ],
   "note": "C131_kept_refuted: an exception can change the value of a Frac. Reading from streams and doubles is C121."
  },
  {
   "property": "C132",
   "status": "partial",
   "theorems": [
    "C132_possible",
    "C132_unique",
    "C132_binary",
    "C132_with_Int",
    "C132_less",
    "C132_power",
    "C132_in_place",
    "C132_cross_Int",
    "C132_cross_Frac",
    "C132_cross_Frac_nd",
    "C132_cross_model",
    "C132_det2_model",
    "C132_cross_refuted"
   ],
   "note": "C132_cross_refuted: with elements 1/0 (made by /= 0) the order of the two products of a cross product's element is visible. Element orders inside dot and the matrix product have one product each and leave nothing open."
  },
  {
   "property": "C133",
   "status": "proved",
   "theorems": [
    "C133_same",
    "C133_print",
    "C133_print_frac",
    "C133_read",
    "C133_read_nothing",
    "C133_read_any",
    "C133_scale_up",
    "C133_scale_up_quadratic",
    "C133_scale_up_nine",
    "C133_scale_down",
    "C133_frac_text",
    "C133_frac_read",
    "C133_double"
   ],
   "note": "A round is one iteration of a loop of the library's own code; stringstream's work inside peek, get and operator<< is not counted."
  },
  {
   "property": "C134",
   "status": "partial",
   "theorems": [
    "C134_int_sum",
    "C134_int_difference",
    "C134_int_scaled",
    "C134_int_divided",
    "C134_frac_sum",
    "C134_frac_difference",
    "C134_frac_scaled",
    "C134_frac_divided",
    "C134_rows",
    "C134_length",
    "C134_factor",
    "C134_product",
    "C134_negate",
    "C134_append",
    "C134_poly_sum",
    "C134_poly_difference",
    "C134_merge",
    "C134_kept_refuted"
   ],
   "note": "The strong guarantee is refuted (C134_kept_refuted: 2/3 x *= 5/7 x^2 y can leave 2/3 x^3). Division of Frac elements is for nonzero divisors."
  },
  {
   "property": "C135",
   "status": "partial",
   "theorems": [
    "C135_programs",
    "C135_call",
    "C135_thrown",
    "C135_zero",
    "C135_same",
    "C135_start_ok",
    "C135_kept_refuted"
   ],
   "note": "Undefined behaviour of calls that look for a place among terms remains (C55, C109). That a caught exception leaves values alone is refuted (C135_kept_refuted)."
  },
  {
   "property": "C136",
   "status": "partial",
   "theorems": [
    "C136_call",
    "C136_programs",
    "C136_clean",
    "C136_safe",
    "C136_kept_refuted"
   ],
   "note": "determinant(), rref() and inverse() are left out: over Int they do not mean what their names say (C89). That a caught exception leaves the vector alone is refuted (C136_kept_refuted)."
  },
  {
   "property": "C137",
   "status": "partial",
   "theorems": [
    "C137_call",
    "C137_programs",
    "C137_until",
    "C137_converse_refuted"
   ],
   "note": "inplace_rref() in both builds is that of MatModel.v, which leaves the element whose operator throws as it was. The converse is refuted (C137_converse_refuted)."
  },
  {
   "property": "C138",
   "status": "proved",
   "theorems": [
    "C138_call",
    "C138_programs",
    "C138_until",
    "C138_usual"
   ],
   "note": "Compound assignments leave the element whose operator throws as that operator leaves it, in both builds."
  },
  {
   "property": "C139",
   "status": "partial",
   "theorems": [
    "C139_statement",
    "C139_programs",
    "C139_until",
    "C139_big_ok",
    "C139_converse_refuted"
   ],
   "note": "The converse is refuted (C139_converse_refuted). C131_same said this only for statements that return."
  },
  {
   "property": "C140",
   "status": "proved",
   "theorems": [
    "C140_call",
    "C140_programs",
    "C140_until",
    "C140_first",
    "C140_usual"
   ],
   "note": "C135_same said this only for calls that return."
  }
 ]
}