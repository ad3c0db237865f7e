{
 "claims": [
  {
   "property": "C01",
   "status": "proved",
   "theorems": [
    "C01_v64_forgets_only_zero_sign",
    "C01_add_sub_correctly_rounded"
   ],
   "note": ""
  },
  {
   "property": "C02",
   "status": "proved",
   "theorems": [
    "C02_mul_correctly_rounded"
   ],
   "note": ""
  },
  {
   "property": "C03",
   "status": "proved",
   "theorems": [
    "C03_div_correctly_rounded"
   ],
   "note": ""
  },
  {
   "property": "C04",
   "status": "proved",
   "theorems": [
    "C04_sqrt_correctly_rounded"
   ],
   "note": ""
  },
  {
   "property": "C05",
   "status": "proved",
   "theorems": [
    "C05_hw_calls",
    "C05_hw_scalar_laws",
    "C05_avx_scalar_laws"
   ],
   "note": ""
  },
  {
   "property": "C06",
   "status": "proved",
   "theorems": [
    "C06_elementary",
    "C06_pow_atan2",
    "C06_expressions",
    "C06_scalar_laws",
    "C06_arithmetic_expressions",
    "C06_operations"
   ],
   "note": "Operands are intervals (no NaN, lower end not above the upper end). pow and atan2 need no condition."
  },
  {
   "property": "C07",
   "status": "proved",
   "theorems": [
    "C07_add_sub_neg_enclose",
    "C07_add_sub_scalar_enclose"
   ],
   "note": ""
  },
  {
   "property": "C08",
   "status": "proved",
   "theorems": [
    "C08_mul_encloses",
    "C08_mul_scalar_encloses"
   ],
   "note": ""
  },
  {
   "property": "C09",
   "status": "proved",
   "theorems": [
    "C09_div_throws_iff",
    "C09_div_encloses",
    "C09_div_by_scalar",
    "C09_div_of_scalar"
   ],
   "note": ""
  },
  {
   "property": "C10",
   "status": "proved",
   "theorems": [
    "C10_division_parts_cover",
    "C10_throws_iff_zero_divisor",
    "C10_otherwise_returns",
    "C10_parted_iff"
   ],
   "note": ""
  },
  {
   "property": "C11",
   "status": "proved",
   "theorems": [
    "C11_sqrt_throws_iff",
    "C11_sqrt_encloses"
   ],
   "note": ""
  },
  {
   "property": "C12",
   "status": "proved",
   "theorems": [
    "C12_closed_arith",
    "C12_closed_sets",
    "C12_closed_scalar_forms"
   ],
   "note": ""
  },
  {
   "property": "C13",
   "status": "proved",
   "theorems": [
    "C13_add_sub_mul_tightest",
    "C13_div_tightest",
    "C13_sqrt_tightest"
   ],
   "note": ""
  },
  {
   "property": "C14",
   "status": "proved",
   "theorems": [
    "C14_isotone_operations",
    "C14_isotone_expressions"
   ],
   "note": ""
  },
  {
   "property": "C15",
   "status": "proved",
   "theorems": [
    "C15_order_means_certainly",
    "C15_order_with_scalar",
    "C15_order_scalar_first",
    "C15_equality_with_scalar",
    "C15_equality"
   ],
   "note": ""
  },
  {
   "property": "C16",
   "status": "proved",
   "theorems": [
    "C16_membership",
    "C16_relations",
    "C16_intersection",
    "C16_hull",
    "C16_hull_scalars"
   ],
   "note": ""
  },
  {
   "property": "C17",
   "status": "proved",
   "theorems": [
    "C17_mid_in",
    "C17_rad_width",
    "C17_midrad_covers"
   ],
   "note": ""
  },
  {
   "property": "C18",
   "status": "proved",
   "theorems": [
    "C18_mag_mig_exact",
    "C18_abs_max_min_exact",
    "C18_floor_ceil_enclose",
    "C18_floor_ceil_attained"
   ],
   "note": ""
  },
  {
   "property": "C19",
   "status": "proved",
   "theorems": [
    "C19_pow_encloses",
    "C19_pow_nonneg_returns",
    "C19_pow_negative_throws"
   ],
   "note": ""
  },
  {
   "property": "C20",
   "status": "proved",
   "theorems": [
    "C20_fundamental"
   ],
   "note": ""
  },
  {
   "property": "C21",
   "status": "proved",
   "theorems": [
    "C21_exp_encloses",
    "C21_expm1_encloses"
   ],
   "note": ""
  },
  {
   "property": "C22",
   "status": "proved",
   "theorems": [
    "C22_log_encloses",
    "C22_log1p_encloses",
    "C22_log_domain",
    "C22_log1p_domain"
   ],
   "note": ""
  },
  {
   "property": "C23",
   "status": "partial",
   "theorems": [
    "C23_log_terminates_refuted",
    "C23_log_subnormal_refuted"
   ],
   "note": "The property is false of the code: C23_log_terminates_refuted and C23_log_subnormal_refuted give witnesses at both ends of the double range. Termination inside the range is not proved."
  },
  {
   "property": "C24",
   "status": "proved",
   "theorems": [
    "C24_sin_encloses",
    "C24_cos_encloses",
    "C24_range"
   ],
   "note": ""
  },
  {
   "property": "C25",
   "status": "proved",
   "theorems": [
    "C25_tan_encloses",
    "C25_tan_pole_whole"
   ],
   "note": ""
  },
  {
   "property": "C26",
   "status": "proved",
   "theorems": [
    "C26_atan_encloses",
    "C26_asin_encloses",
    "C26_acos_encloses",
    "C26_atan2_encloses",
    "C26_atan2_principal",
    "C26_atan2_origin"
   ],
   "note": ""
  },
  {
   "property": "C27",
   "status": "proved",
   "theorems": [
    "C27_sinh_encloses",
    "C27_cosh_encloses",
    "C27_tanh_encloses",
    "C27_asinh_encloses",
    "C27_acosh_encloses",
    "C27_atanh_encloses",
    "C27_atanh_domain"
   ],
   "note": ""
  },
  {
   "property": "C28",
   "status": "proved",
   "theorems": [
    "C28_table_constants",
    "C28_series_pi",
    "C28_series_e",
    "C28_series_ln2"
   ],
   "note": ""
  },
  {
   "property": "C29",
   "status": "proved",
   "theorems": [
    "C29_pow_encloses"
   ],
   "note": ""
  },
  {
   "property": "C30",
   "status": "proved",
   "theorems": [
    "C30_reading_outward",
    "C30_interval_contains",
    "C30_interval_two_texts",
    "C30_compare_text"
   ],
   "note": "For every well-formed numeral that the code reads without undefined behaviour (C32 says which)."
  },
  {
   "property": "C31",
   "status": "partial",
   "theorems": [
    "C31_printing_outward_partial",
    "C31_precision0_refuted"
   ],
   "note": "Proved for e and f with any precision, g with precision >= 1 and the full format, with an error bound. For g with precision 0 the code reads outside its digit array: C31_precision0_refuted."
  },
  {
   "property": "C32",
   "status": "partial",
   "theorems": [
    "C32_defined_partial",
    "C32_zero_refuted",
    "C32_exponent_refuted"
   ],
   "note": "The property is false of the code: C32_zero_refuted (0e-5 reads the front of an empty list) and C32_exponent_refuted (atoi overflow). All other numerals are proved to be read without error."
  },
  {
   "property": "C33",
   "status": "proved",
   "theorems": [
    "C33_print_read"
   ],
   "note": ""
  },
  {
   "property": "C34",
   "status": "proved",
   "theorems": [
    "C34_twosum_exact",
    "C34_twoproduct_exact",
    "C34_twoproduct_exact_granular",
    "C34_split_exact"
   ],
   "note": ""
  },
  {
   "property": "C35",
   "status": "partial",
   "theorems": [
    "C35_add",
    "C35_sub",
    "C35_mul",
    "C35_sqrt",
    "C35_div_partial",
    "C35_div_refuted",
    "C35_avx512_add_down_refuted",
    "C35_avx512_sub_down_refuted",
    "C35_avx512_add_up_refuted"
   ],
   "note": "Hardware-rounding and emulated back ends, with and without fma: add, sub, mul and sqrt proved for all normalised operands; div proved when the dividend is at most 2^1022 or both low parts can be halved exactly. Outside that div_up is too small in every back end (C35_div_refuted). The AVX-512 back end is wrong at overflow and infinity (C35_avx512_*_refuted)."
  },
  {
   "property": "C36",
   "status": "proved",
   "theorems": [
    "C36_compare",
    "C36_compare_double",
    "C36_nan_less"
   ],
   "note": "For normalised values, infinities included. A NaN first part makes the comparison fall through to the second part (C36_nan_less)."
  },
  {
   "property": "C37",
   "status": "proved",
   "theorems": [
    "C37_dd_to_double",
    "C37_dd_to_double_rounded",
    "C37_double_to_dd"
   ],
   "note": ""
  },
  {
   "property": "C38",
   "status": "proved",
   "theorems": [
    "C38_value_and_gradient",
    "C38_constants"
   ],
   "note": ""
  },
  {
   "property": "C39",
   "status": "proved",
   "theorems": [
    "C39_value_and_gradient",
    "C39_defined_on_box"
   ],
   "note": ""
  },
  {
   "property": "C40",
   "status": "proved",
   "theorems": [
    "C40_split_init",
    "C40_split_init_identity",
    "C40_chain_rule_exact",
    "C40_chain_rule",
    "C40_compress"
   ],
   "note": ""
  },
  {
   "property": "C41",
   "status": "proved",
   "theorems": [
    "C41_exact",
    "C41_unique",
    "C41_taylor",
    "C41_interval"
   ],
   "note": ""
  },
  {
   "property": "C42",
   "status": "proved",
   "theorems": [
    "C42_enclosure",
    "C42_domain_without_zero_refuted"
   ],
   "note": "C42_domain_without_zero_refuted shows that the condition 0 in domain() cannot be dropped."
  },
  {
   "property": "C43",
   "status": "proved",
   "theorems": [
    "C43_integrate",
    "C43_eval",
    "C43_evalrange",
    "C43_setorder"
   ],
   "note": ""
  },
  {
   "property": "C44",
   "status": "partial",
   "theorems": [
    "C44_highderiv_mode_refuted",
    "C44_highderiv_exception_refuted",
    "C44_defint_mode_refuted",
    "C44_highderiv_restores_partial",
    "C44_defint_restores_partial"
   ],
   "note": "False of the code: mode() is saved in a bool, so mode 2 comes back as 1 (C44_highderiv_mode_refuted, C44_defint_mode_refuted), and nothing is restored on an exception (C44_highderiv_exception_refuted). Proved for a normal return from mode 0 or 1."
  },
  {
   "property": "C45",
   "status": "proved",
   "theorems": [
    "C45_linear",
    "C45_mul",
    "C45_div",
    "C45_scalar_div",
    "C45_functions",
    "C45_pow",
    "C45_from_interval",
    "C45_to_interval",
    "C45_program",
    "C45_pow_affine",
    "C45_split"
   ],
   "note": "Single operations and whole programs over shared noise symbols, any function in place of std::exp and std::log (they only choose slopes), any order of columns in epsilon_reduce. Hypotheses: ranges of operands and results are finite (no overflow)."
  },
  {
   "property": "C46",
   "status": "partial",
   "theorems": [
    "C46_atan_refuted"
   ],
   "note": "False of the code: the slope is 1/sqrt(1+X^2) instead of 1/(1+X^2). C46_atan_refuted gives 5+4 eps_1 as witness."
  },
  {
   "property": "C47",
   "status": "proved",
   "theorems": [
    "C47_epsilon_reduce",
    "C47_size",
    "C47_epsilon_reduce2"
   ],
   "note": "epsilon_reduce and epsilon_reduce2, any column order; results without overflow. Affine forms that are not passed to the call keep stale symbols and are outside the claim."
  },
  {
   "property": "C48",
   "status": "partial",
   "theorems": [
    "C48_vleq_matrix_partial",
    "C48_vleq_vector_partial",
    "C48_infinite_inverse_refuted"
   ],
   "note": "Proved for every finite approximate inverse and NaN-free result. The unrestricted claim is false: C48_infinite_inverse_refuted."
  },
  {
   "property": "C49",
   "status": "partial",
   "theorems": [
    "C49_krawczyk_partial",
    "C49_krawczyk_jacobian_partial",
    "C49_unbounded_box_refuted"
   ],
   "note": "Proved for bounded result boxes. The unrestricted claim is false: C49_unbounded_box_refuted."
  },
  {
   "property": "C50",
   "status": "partial",
   "theorems": [
    "C50_allsol_partial",
    "C50_allsol_zero_lost_refuted",
    "C50_allsol_overflow_refuted",
    "C50_allsol_simple_partial",
    "C50_infinite_inverse_refuted"
   ],
   "note": "allsol_simple: bounded boxes and finite approximate inverses (without the latter false: C50_infinite_inverse_refuted). allsol: the boxes made by shrinking stay bounded and no box is discarded by the shrinking step at line 715 with 0 in the constant term; both conditions are necessary: C50_allsol_overflow_refuted, C50_allsol_zero_lost_refuted. For one equation the second holds always (C77)."
  },
  {
   "property": "C51",
   "status": "partial",
   "theorems": [
    "C51_allsol_simple_partial"
   ],
   "note": "Proved when every processed box is bounded and invert returns no infinite entry."
  },
  {
   "property": "C52",
   "status": "proved",
   "theorems": [
    "C52_minimisers",
    "C52_boxes_inside",
    "C52_minimum",
    "C52_maximisers",
    "C52_maximum",
    "C52_nd"
   ],
   "note": "Functions given as expressions (automatic differentiation supplies the gradient); OPTIMIZE_TRIM = 0, the default. Upper bound of minimize_value and optimize_nd: for boxes inside the domain of the expression."
  },
  {
   "property": "C53",
   "status": "proved",
   "theorems": [
    "C53_lower_bound",
    "C53_long_constraint_refuted"
   ],
   "note": "Proved for runs whose tableaux stay finite and constraints no longer than the objective; longer ones are silently cut off (C53_long_constraint_refuted). Termination of the pivot loop is not claimed."
  },
  {
   "property": "C54",
   "status": "partial",
   "theorems": [
    "C54_smith_unify_refuted"
   ],
   "note": "The property is false of the code: C54_smith_unify_refuted gives three boxes of which two still overlap and differ. What does hold is C71 (termination, boxes only grow) and C70 (no zero lost)."
  },
  {
   "property": "C55",
   "status": "proved",
   "theorems": [
    "C55_geoseries_encloses"
   ],
   "note": ""
  },
  {
   "property": "C56",
   "status": "proved",
   "theorems": [
    "C56_hypergeom_encloses"
   ],
   "note": ""
  },
  {
   "property": "C57",
   "status": "proved",
   "theorems": [
    "C57_add_encloses",
    "C57_sub_encloses",
    "C57_mul_encloses",
    "C57_neg_encloses",
    "C57_conj_encloses",
    "C57_div_encloses",
    "C57_mixed_enclose",
    "C57_mixed_div_enclose",
    "C57_abs_encloses",
    "C57_powi_encloses",
    "C57_arg_principal",
    "C57_arg_encloses",
    "C57_exp_encloses",
    "C57_log_encloses",
    "C57_log_principal",
    "C57_sqrt_encloses",
    "C57_sqrt_principal",
    "C57_pow_encloses",
    "C57_sin_encloses",
    "C57_cos_encloses",
    "C57_sinh_encloses",
    "C57_cosh_encloses",
    "C57_tan_encloses",
    "C57_tanh_encloses",
    "C57_asin_encloses",
    "C57_acos_encloses",
    "C57_asinh_encloses",
    "C57_acosh_encloses",
    "C57_atanh_encloses",
    "C57_atan_encloses"
   ],
   "note": ""
  },
  {
   "property": "C58",
   "status": "partial",
   "theorems": [
    "C58_cardano_rejects",
    "C58_ferrari_rejects_refuted"
   ],
   "note": "Proved for cardano. False for ferrari, which tests in(4).real() and in(3).imag(): C58_ferrari_rejects_refuted."
  },
  {
   "property": "C59",
   "status": "proved",
   "theorems": [
    "C59_cardano_encloses",
    "C59_cardano_roots"
   ],
   "note": ""
  },
  {
   "property": "C60",
   "status": "partial",
   "theorems": [
    "C60_encloses_partial",
    "C60_order_zero_refuted"
   ],
   "note": "defint for order >= 1 and expressions without inverse functions (wrong in mode 2, see C72). Order 0 is unsound: C60_order_zero_refuted.."
  },
  {
   "property": "C61",
   "status": "partial",
   "theorems": [
    "C61_mm_mult_generic_partial",
    "C61_mm_mult_exact_partial",
    "C61_lapack_refuted"
   ],
   "note": "False of the LAPACK/ATLAS specialisation (C61_lapack_refuted); the generic version is proved exact when no operation rounds."
  },
  {
   "property": "C62",
   "status": "proved",
   "theorems": [
    "C62_sets",
    "C62_mid_mag_mig",
    "C62_rad",
    "C62_matrix_entries",
    "C62_mag_numbers",
    "C62_max_norm"
   ],
   "note": ""
  },
  {
   "property": "C63",
   "status": "proved",
   "theorems": [
    "C63_alpha_plus_encloses",
    "C63_alpha_minus_encloses",
    "C63_alpha_plus_derivative",
    "C63_alpha_minus_derivative"
   ],
   "note": ""
  },
  {
   "property": "C64",
   "status": "partial",
   "theorems": [
    "C64_ode",
    "C64_every_solution",
    "C64_return",
    "C64_odelong",
    "C64_odelong_return",
    "C64_unbounded_refuted",
    "C64_reversed_refuted"
   ],
   "note": "ode and odelong proved (existence, uniqueness, enclosure), for both values of ODE_FAST, for order >= 1, start not after end (odelong: start a point), bounded result boxes and right-hand sides without inverse functions. Without bounded boxes and with overlapping reversed times the claim is false: C64_unbounded_refuted, C64_reversed_refuted. Missing: right-hand sides with inverse functions (mode 2 is wrong for them, C72) and order 0."
  },
  {
   "property": "C65",
   "status": "proved",
   "theorems": [
    "C65_vleq_finite_inverse"
   ],
   "note": ""
  },
  {
   "property": "C66",
   "status": "proved",
   "theorems": [
    "C66_krawczyk_expressions"
   ],
   "note": ""
  },
  {
   "property": "C67",
   "status": "proved",
   "theorems": [
    "C67_allsol_complete"
   ],
   "note": ""
  },
  {
   "property": "C68",
   "status": "proved",
   "theorems": [
    "C68_allsol_exact"
   ],
   "note": ""
  },
  {
   "property": "C69",
   "status": "proved",
   "theorems": [
    "C69_ferrari_encloses"
   ],
   "note": ""
  },
  {
   "property": "C70",
   "status": "proved",
   "theorems": [
    "C70_smith_encloses",
    "C70_vdka_encloses"
   ],
   "note": ""
  },
  {
   "property": "C71",
   "status": "proved",
   "theorems": [
    "C71_unify_terminates",
    "C71_unify_covers"
   ],
   "note": ""
  },
  {
   "property": "C72",
   "status": "partial",
   "theorems": [
    "C72_constant_refuted",
    "C72_atan_mode2_refuted"
   ],
   "note": "False of the code: C72_atan_mode2_refuted (wrong slope), C72_constant_refuted (access outside a vector)."
  },
  {
   "property": "C73",
   "status": "proved",
   "theorems": [
    "C73_highderiv",
    "C73_defined"
   ],
   "note": ""
  },
  {
   "property": "C74",
   "status": "partial",
   "theorems": [
    "C74_abs_one_sign",
    "C74_abs_refuted"
   ],
   "note": "False of the code when the range has both signs: the range ends are computed in round to nearest (C74_abs_refuted, witness 8+57 eps_1). Proved when the range has one sign (C74_abs_one_sign)."
  },
  {
   "property": "C75",
   "status": "proved",
   "theorems": [
    "C75_allsol_exact",
    "C75_allsol_exact_expressions"
   ],
   "note": ""
  },
  {
   "property": "C76",
   "status": "proved",
   "theorems": [
    "C76_point_box_never_ends"
   ],
   "note": ""
  },
  {
   "property": "C77",
   "status": "proved",
   "theorems": [
    "C77_allsol_one_equation"
   ],
   "note": ""
  },
  {
   "property": "C78",
   "status": "proved",
   "theorems": [
    "C78_recording",
    "C78_flags",
    "C78_mode",
    "C78_exception_domain_refuted"
   ],
   "note": ""
  },
  {
   "property": "C79",
   "status": "proved",
   "theorems": [
    "C79_mode1",
    "C79_mode2"
   ],
   "note": ""
  },
  {
   "property": "C80",
   "status": "proved",
   "theorems": [
    "C80_return",
    "C80_mode_refuted",
    "C80_domain_refuted",
    "C80_exception_refuted"
   ],
   "note": ""
  },
  {
   "property": "C81",
   "status": "proved",
   "theorems": [
    "C81_ode",
    "C81_odelong"
   ],
   "note": ""
  },
  {
   "property": "C82",
   "status": "proved",
   "theorems": [
    "C82_encloses",
    "C82_order_zero_refuted",
    "C82_inner_bound"
   ],
   "note": "Orders >= 1 and functions without inverse functions (see C72); order 0 is false of the code: C82_order_zero_refuted."
  },
  {
   "property": "C83",
   "status": "proved",
   "theorems": [
    "C83_return",
    "C83_independent",
    "C83_mode_refuted",
    "C83_exception_refuted"
   ],
   "note": ""
  },
  {
   "property": "C84",
   "status": "proved",
   "theorems": [
    "C84_autodif",
    "C84_encloses",
    "C84_zero_is_kkt",
    "C84_kkt_is_zero",
    "C84_constant_objective_refuted"
   ],
   "note": ""
  },
  {
   "property": "C85",
   "status": "partial",
   "theorems": [
    "C85_exact_vectors_partial",
    "C85_exact_vectors_interval_partial",
    "C85_row_sums_refuted",
    "C85_failed_solve_refuted",
    "C85_zero_matrix_refuted",
    "C85_size_one_refuted"
   ],
   "note": "The full claim is false of the code: C85_row_sums_refuted, C85_failed_solve_refuted, C85_zero_matrix_refuted, C85_size_one_refuted. Proved when the computed vectors are exact eigenvectors and the verified solve succeeds with bounded results."
  },
  {
   "property": "C86",
   "status": "partial",
   "theorems": [
    "C86_encloses_partial",
    "C86_corrected_partial",
    "C86_odd_rules_refuted",
    "C86_negative_steps_refuted",
    "C86_degenerate_refuted",
    "C86_range"
   ],
   "note": "n = 1, 2, 4, 6, with the evaluation of the derivative on autodif<interval> (used by minimize_value) assumed right. n = 3, 5, 7 are false of the code (C86_odd_rules_refuted) and true with corrected constants (C86_corrected_partial); negative m and start = end: C86_negative_steps_refuted, C86_degenerate_refuted."
  },
  {
   "property": "C87",
   "status": "proved",
   "theorems": [
    "C87_power3",
    "C87_power",
    "C87_power2",
    "C87_power3_r",
    "C87_power_r",
    "C87_power2_r",
    "C87_divergent_refuted"
   ],
   "note": "power*m > -1 is needed: C87_divergent_refuted. f and g without inverse functions (see C72)."
  },
  {
   "property": "C88",
   "status": "partial",
   "theorems": [
    "C88_log3_partial",
    "C88_log_partial",
    "C88_log2_partial",
    "C88_log3_r_partial",
    "C88_log_r_partial",
    "C88_log2_r_partial",
    "C88_long_step_refuted"
   ],
   "note": "Intervals of length at most 1; longer ones are false of the code: C88_long_step_refuted."
  },
  {
   "property": "C89",
   "status": "proved",
   "theorems": [
    "C89_singular",
    "C89_div_tn",
    "C89_div_reduce",
    "C89_div_reduce_r",
    "C89_singular_r",
    "C89_state",
    "C89_mode_refuted"
   ],
   "note": "f without inverse functions (see C72); mode 2 is not restored: C89_mode_refuted."
  },
  {
   "property": "C90",
   "status": "proved",
   "theorems": [
    "C90_power3_autostep",
    "C90_power_autostep",
    "C90_power2_autostep",
    "C90_fast_refuted"
   ],
   "note": "DEFINT_FAST == 0. With the default DEFINT_FAST == 1 false of the code for power2 and power3: C90_fast_refuted; defint_power_autostep with DEFINT_FAST == 1 is not covered."
  },
  {
   "property": "C91",
   "status": "proved",
   "theorems": [
    "C91_singular_autostep",
    "C91_div_tn",
    "C91_div_reduce",
    "C91_div_tn_mul",
    "C91_fast_refuted"
   ],
   "note": "Both settings of DEFINT_FAST for an expression and div_tn of one; DEFINT_FAST == 0 for div_reduce and div_tn(f)*g; the latter is false of the code with DEFINT_FAST == 1: C91_fast_refuted."
  },
  {
   "property": "C92",
   "status": "partial",
   "theorems": [
    "C92_log3_autostep_partial",
    "C92_log_autostep_partial",
    "C92_log2_autostep_partial",
    "C92_fast_refuted",
    "C92_long_step_refuted"
   ],
   "note": "DEFINT_FAST == 0 and a first step of length at most 1. False of the code otherwise: C92_fast_refuted, C92_long_step_refuted."
  },
  {
   "property": "C93",
   "status": "partial",
   "theorems": [
    "C93_power3_autostep_r",
    "C93_power_autostep_r",
    "C93_power2_autostep_r",
    "C93_log3_autostep_r_partial",
    "C93_log_autostep_r_partial",
    "C93_log2_autostep_r_partial",
    "C93_singular_autostep_r",
    "C93_div_tn_r",
    "C93_div_reduce_r",
    "C93_div_tn_mul_r"
   ],
   "note": "DEFINT_FAST == 0 (both settings for defint_singular_autostep_r of an expression and of div_tn of one); the log versions with a first step of length at most 1."
  },
  {
   "property": "C94",
   "status": "partial",
   "theorems": [
    "C94_encloses_partial",
    "C94_reversed_refuted",
    "C94_order_zero_refuted",
    "C94_modes",
    "C94_independent",
    "C94_mode_refuted",
    "C94_exception_refuted"
   ],
   "note": "Without the inverse functions (C72) in f; orders from 1. False of the code for start > end (C94_reversed_refuted) and order 0 (C94_order_zero_refuted); the modes come back as bools and not at all after an exception: C94_mode_refuted, C94_exception_refuted."
  },
  {
   "property": "C95",
   "status": "partial",
   "theorems": [
    "C95_encloses_partial"
   ],
   "note": "Without the inverse functions (C72) in f; orders from 1. The integral over the triangle is the one in its affine coordinates; that it is the integral in x and y is not proved."
  },
  {
   "property": "C96",
   "status": "proved",
   "theorems": [
    "C96_encloses"
   ],
   "note": "Without the inverse functions (C72); the lines printed name ends that contain a point."
  },
  {
   "property": "C97",
   "status": "proved",
   "theorems": [
    "C97_besselj"
   ],
   "note": "The lines printed name ends that contain a point. J_n is defined by Bessel's integral."
  },
  {
   "property": "C98",
   "status": "proved",
   "theorems": [
    "C98_power_autostep"
   ],
   "note": "Without the inverse functions (C72)."
  },
  {
   "property": "C99",
   "status": "proved",
   "theorems": [
    "C99_gamma_r",
    "C99_gamma_point",
    "C99_lgamma_point"
   ],
   "note": "The lines printed name ends in (0, th]. The conversion of double to int is a parameter with its law; th is the C library's 53*log(2)."
  },
  {
   "property": "C100",
   "status": "proved",
   "theorems": [
    "C100_gamma"
   ],
   "note": "digamma_zero and the constant m2 are parameters with the stated contract; a lowest point on the positive axis is proved to exist (gamma_lowest)."
  },
  {
   "property": "C101",
   "status": "partial",
   "theorems": [
    "C101_lgamma_partial",
    "C101_integer_end_refuted",
    "C101_across_refuted"
   ],
   "note": "Proved for intervals of positive numbers and intervals strictly between two poles. False of the code for an interval whose lower end is 0 or a negative integer (C101_integer_end_refuted), and for an interval across a pole (C101_across_refuted: the lowest value of the first cell is lost)."
  },
  {
   "property": "C102",
   "status": "proved",
   "theorems": [
    "C102_beta_r"
   ],
   "note": "For every end of a step in (0, 1/2], and in [-1, -1/2] reflected."
  },
  {
   "property": "C103",
   "status": "proved",
   "theorems": [
    "C103_beta"
   ],
   "note": "The conversion of double to int is a parameter with its law. The case beta(-1/2, 5/2) is computed in C103_case."
  },
  {
   "property": "C104",
   "status": "proved",
   "theorems": [
    "C104_singular_par",
    "C104_fast_refuted"
   ],
   "note": "DEFINT_FAST == 1 is refuted for the integrand of trigamma (C104_fast_refuted). C104_case is the same run with DEFINT_FAST == 0."
  },
  {
   "property": "C105",
   "status": "partial",
   "theorems": [
    "C105_trigamma_plus",
    "C105_trigamma_point",
    "C105_trigamma_partial",
    "C105_integer_end_refuted"
   ],
   "note": "Proved with DEFINT_FAST == 0 for intervals that do not start at 0 or a negative integer, and for those that start there and reach the next integer. An interval that starts there and does not reach the next integer gives [max, inf]: C105_integer_end_refuted."
  },
  {
   "property": "C106",
   "status": "proved",
   "theorems": [
    "C106_meaning",
    "C106_period",
    "C106_euler",
    "C106_origin",
    "C106_point",
    "C106_total",
    "C106_fast_refuted"
   ],
   "note": "DEFINT_FAST == 1, the default, is refuted for the integrand log(2 sin t) over (0,1), order 1 (C106_fast_refuted). C106_total, C106_meaning, C106_period: the function has exactly one value everywhere, it is odd and has period pi. Cases: lobachevsky_origin(1), lobachevsky_point(4)."
  },
  {
   "property": "C107",
   "status": "partial",
   "theorems": [
    "C107_lobachevsky_partial",
    "C107_extremal"
   ],
   "note": "Proved for every argument whose reduction does not end exactly at 5895198126690367*2^-51 or 8253277377366514*2^-51: the one double between 5 pi/6 (7 pi/6) and the upper end of the enclosure the code uses for it. Missing: those two ends, where the subset test fails although the extremal point is inside, and the result is the hull of the values at the ends. C107_case: [7/2,4], which contains 7 pi/6."
  },
  {
   "property": "C108",
   "status": "proved",
   "theorems": [
    "C108_direction_unique",
    "C108_direction_exists",
    "C108_odescale",
    "C108_total",
    "C108_throws"
   ],
   "note": "T = interval<double>; psa and autodif arguments are not modelled. C108_throws: with a component of f in [-2,2] ty(i)*ty(i) has the lower end -4 and sqrt throws, although every value has a direction. C108_case: x' = x on [1/2,3/4]."
  },
  {
   "property": "C109",
   "status": "partial",
   "theorems": [
    "C109_encloses_partial",
    "C109_optimised_partial",
    "C109_corrected_partial",
    "C109_range",
    "C109_odd_rules_refuted"
   ],
   "note": "Proved for n = 1, 2, 4, 6; false for n = 3, 5, 7 (C109_odd_rules_refuted: the constants of the error term are those of defint_newtoncotes and wrong; C109_corrected_partial: with -1/80, -55/12096, -1169/518400 these rules enclose). C109_encloses_partial takes right ranges of the two partial derivatives; C109_optimised_partial has them computed by minimize_value and maximize_value from function objects for PartialDeriv and its gradient, which are assumed right, and assumes that the derivatives have extremes on the box. The estimated numbers of steps are parameters. C109_case, C109_optimised_case: x^4*y over [0,2]x[0,2]."
  },
  {
   "property": "C110",
   "status": "partial",
   "theorems": [
    "C110_curvededge_partial",
    "C110_curvededge_s_partial",
    "C110_range",
    "C110_odd_rules_refuted"
   ],
   "note": "As C109: proved for n = 1, 2, 4, 6, false for n = 3, 5, 7 (C110_odd_rules_refuted); the ranges of the partial derivatives of the converted integrand are assumed right. C110_case, C110_case_s: y (x) over a triangle."
  }
 ]
}