{
 "C23": {
  "status": "partial",
  "note": "The property is false of the code: C23_log_terminates_refuted and C23_log_subnormal_refuted give witnesses at both ends of the double range. Termination inside the range is not proved."
 },
 "C48": {
  "note": "Proved for every finite approximate inverse and NaN-free result. The unrestricted claim is false: C48_infinite_inverse_refuted."
 },
 "C49": {
  "note": "Proved for bounded result boxes. The unrestricted claim is false: C49_unbounded_box_refuted."
 },
 "C50": {
  "note": "allsol_simple: bounded boxes and finite approximate inverses (without the latter false: C50_infinite_inverse_refuted). allsol: the boxes made by shrinking stay bounded and no box is discarded by the shrinking step at line 715 with 0 in the constant term; both conditions are necessary: C50_allsol_overflow_refuted, C50_allsol_zero_lost_refuted. For one equation the second holds always (C77)."
 },
 "C51": {
  "note": "Proved when every processed box is bounded and invert returns no infinite entry."
 },
 "C61": {
  "note": "False of the LAPACK/ATLAS specialisation (C61_lapack_refuted); the generic version is proved exact when no operation rounds."
 },
 "C54": {
  "status": "partial",
  "note": "The property is false of the code: C54_smith_unify_refuted gives three boxes of which two still overlap and differ. What does hold is C71 (termination, boxes only grow) and C70 (no zero lost)."
 },
 "C58": {
  "status": "partial",
  "note": "Proved for cardano. False for ferrari, which tests in(4).real() and in(3).imag(): C58_ferrari_rejects_refuted."
 },
 "C44": {
  "status": "partial",
  "note": "False of the code: mode() is saved in a bool, so mode 2 comes back as 1 (C44_highderiv_mode_refuted, C44_defint_mode_refuted), and nothing is restored on an exception (C44_highderiv_exception_refuted). Proved for a normal return from mode 0 or 1."
 },
 "C60": {
  "note": "defint for order >= 1 and expressions without inverse functions (wrong in mode 2, see C72). Order 0 is unsound: C60_order_zero_refuted.."
 },
 "C72": {
  "status": "partial",
  "note": "False of the code: C72_atan_mode2_refuted (wrong slope), C72_constant_refuted (access outside a vector)."
 },
 "C42": {
  "note": "C42_domain_without_zero_refuted shows that the condition 0 in domain() cannot be dropped."
 },
 "C45": {
  "note": "Single operations and whole programs over shared noise symbols, any function in place of std::exp and std::log (they only choose slopes), any order of columns in epsilon_reduce. Hypotheses: ranges of operands and results are finite (no overflow)."
 },
 "C46": {
  "status": "partial",
  "note": "False of the code: the slope is 1/sqrt(1+X^2) instead of 1/(1+X^2). C46_atan_refuted gives 5+4 eps_1 as witness."
 },
 "C47": {
  "note": "epsilon_reduce and epsilon_reduce2, any column order; results without overflow. Affine forms that are not passed to the call keep stale symbols and are outside the claim."
 },
 "C74": {
  "status": "partial",
  "note": "False of the code when the range has both signs: the range ends are computed in round to nearest (C74_abs_refuted, witness 8+57 eps_1). Proved when the range has one sign (C74_abs_one_sign)."
 },
 "C53": {
  "note": "Proved for runs whose tableaux stay finite and constraints no longer than the objective; longer ones are silently cut off (C53_long_constraint_refuted). Termination of the pivot loop is not claimed."
 },
 "C52": {
  "note": "Functions given as expressions (automatic differentiation supplies the gradient); OPTIMIZE_TRIM = 0, the default. Upper bound of minimize_value and optimize_nd: for boxes inside the domain of the expression."
 },
 "C31": {
  "status": "partial",
  "note": "Proved for e and f with any precision, g with precision >= 1 and the full format, with an error bound. For g with precision 0 the code reads outside its digit array: C31_precision0_refuted."
 },
 "C32": {
  "status": "partial",
  "note": "The property is false of the code: C32_zero_refuted (0e-5 reads the front of an empty list) and C32_exponent_refuted (atoi overflow). All other numerals are proved to be read without error."
 },
 "C30": {
  "note": "For every well-formed numeral that the code reads without undefined behaviour (C32 says which)."
 },
 "C35": {
  "status": "partial",
  "note": "Hardware-rounding and emulated back ends, with and without fma: add, sub, mul and sqrt proved for all normalised operands; div proved when the dividend is at most 2^1022 or both low parts can be halved exactly. Outside that div_up is too small in every back end (C35_div_refuted). The AVX-512 back end is wrong at overflow and infinity (C35_avx512_*_refuted)."
 },
 "C36": {
  "note": "For normalised values, infinities included. A NaN first part makes the comparison fall through to the second part (C36_nan_less)."
 },
 "C64": {
  "status": "partial",
  "note": "ode and odelong proved (existence, uniqueness, enclosure), for both values of ODE_FAST, for order >= 1, start not after end (odelong: start a point), bounded result boxes and right-hand sides without inverse functions. Without bounded boxes and with overlapping reversed times the claim is false: C64_unbounded_refuted, C64_reversed_refuted. Missing: right-hand sides with inverse functions (mode 2 is wrong for them, C72) and order 0."
 },
 "C06": {
  "note": "Operands are intervals (no NaN, lower end not above the upper end). pow and atan2 need no condition."
 },
 "C82": {
  "note": "Orders >= 1 and functions without inverse functions (see C72); order 0 is false of the code: C82_order_zero_refuted."
 },
 "C85": {
  "status": "partial",
  "note": "The full claim is false of the code: C85_row_sums_refuted, C85_failed_solve_refuted, C85_zero_matrix_refuted, C85_size_one_refuted. Proved when the computed vectors are exact eigenvectors and the verified solve succeeds with bounded results."
 },
 "C86": {
  "status": "partial",
  "note": "n = 1, 2, 4, 6, with the evaluation of the derivative on autodif<interval> (used by minimize_value) assumed right. n = 3, 5, 7 are false of the code (C86_odd_rules_refuted) and true with corrected constants (C86_corrected_partial); negative m and start = end: C86_negative_steps_refuted, C86_degenerate_refuted."
 },
 "C87": {
  "note": "power*m > -1 is needed: C87_divergent_refuted. f and g without inverse functions (see C72)."
 },
 "C88": {
  "status": "partial",
  "note": "Intervals of length at most 1; longer ones are false of the code: C88_long_step_refuted."
 },
 "C89": {
  "note": "f without inverse functions (see C72); mode 2 is not restored: C89_mode_refuted."
 },
 "C90": {
  "note": "DEFINT_FAST == 0. With the default DEFINT_FAST == 1 false of the code for power2 and power3: C90_fast_refuted; defint_power_autostep with DEFINT_FAST == 1 is not covered."
 },
 "C91": {
  "note": "Both settings of DEFINT_FAST for an expression and div_tn of one; DEFINT_FAST == 0 for div_reduce and div_tn(f)*g; the latter is false of the code with DEFINT_FAST == 1: C91_fast_refuted."
 },
 "C92": {
  "note": "DEFINT_FAST == 0 and a first step of length at most 1. False of the code otherwise: C92_fast_refuted, C92_long_step_refuted."
 },
 "C93": {
  "note": "DEFINT_FAST == 0 (both settings for defint_singular_autostep_r of an expression and of div_tn of one); the log versions with a first step of length at most 1."
 },
 "C94": {
  "note": "Without the inverse functions (C72) in f; orders from 1. False of the code for start > end (C94_reversed_refuted) and order 0 (C94_order_zero_refuted); the modes come back as bools and not at all after an exception: C94_mode_refuted, C94_exception_refuted."
 },
 "C95": {
  "note": "Without the inverse functions (C72) in f; orders from 1. The integral over the triangle is the one in its affine coordinates; that it is the integral in x and y is not proved."
 },
 "C96": {
  "note": "Without the inverse functions (C72); the lines printed name ends that contain a point."
 },
 "C97": {
  "note": "The lines printed name ends that contain a point. J_n is defined by Bessel's integral."
 },
 "C98": {
  "note": "Without the inverse functions (C72)."
 },
 "C99": {
  "note": "The lines printed name ends in (0, th]. The conversion of double to int is a parameter with its law; th is the C library's 53*log(2)."
 },
 "C100": {
  "note": "digamma_zero and the constant m2 are parameters with the stated contract; a lowest point on the positive axis is proved to exist (gamma_lowest)."
 },
 "C101": {
  "status": "partial",
  "note": "Proved for intervals of positive numbers and intervals strictly between two poles. False of the code for an interval whose lower end is 0 or a negative integer (C101_integer_end_refuted), and for an interval across a pole (C101_across_refuted: the lowest value of the first cell is lost)."
 },
 "C102": {
  "note": "For every end of a step in (0, 1/2], and in [-1, -1/2] reflected."
 },
 "C103": {
  "note": "The conversion of double to int is a parameter with its law. The case beta(-1/2, 5/2) is computed in C103_case."
 },
 "C104": {
  "note": "DEFINT_FAST == 1 is refuted for the integrand of trigamma (C104_fast_refuted). C104_case is the same run with DEFINT_FAST == 0."
 },
 "C105": {
  "status": "partial",
  "note": "Proved with DEFINT_FAST == 0 for intervals that do not start at 0 or a negative integer, and for those that start there and reach the next integer. An interval that starts there and does not reach the next integer gives [max, inf]: C105_integer_end_refuted."
 },
 "C106": {
  "note": "DEFINT_FAST == 1, the default, is refuted for the integrand log(2 sin t) over (0,1), order 1 (C106_fast_refuted). C106_total, C106_meaning, C106_period: the function has exactly one value everywhere, it is odd and has period pi. Cases: lobachevsky_origin(1), lobachevsky_point(4)."
 },
 "C107": {
  "status": "partial",
  "note": "Proved for every argument whose reduction does not end exactly at 5895198126690367*2^-51 or 8253277377366514*2^-51: the one double between 5 pi/6 (7 pi/6) and the upper end of the enclosure the code uses for it. Missing: those two ends, where the subset test fails although the extremal point is inside, and the result is the hull of the values at the ends. C107_case: [7/2,4], which contains 7 pi/6."
 },
 "C108": {
  "note": "T = interval<double>; psa and autodif arguments are not modelled. C108_throws: with a component of f in [-2,2] ty(i)*ty(i) has the lower end -4 and sqrt throws, although every value has a direction. C108_case: x' = x on [1/2,3/4]."
 },
 "C109": {
  "status": "partial",
  "note": "Proved for n = 1, 2, 4, 6; false for n = 3, 5, 7 (C109_odd_rules_refuted: the constants of the error term are those of defint_newtoncotes and wrong; C109_corrected_partial: with -1/80, -55/12096, -1169/518400 these rules enclose). C109_encloses_partial takes right ranges of the two partial derivatives; C109_optimised_partial has them computed by minimize_value and maximize_value from function objects for PartialDeriv and its gradient, which are assumed right, and assumes that the derivatives have extremes on the box. The estimated numbers of steps are parameters. C109_case, C109_optimised_case: x^4*y over [0,2]x[0,2]."
 },
 "C110": {
  "status": "partial",
  "note": "As C109: proved for n = 1, 2, 4, 6, false for n = 3, 5, 7 (C110_odd_rules_refuted); the ranges of the partial derivatives of the converted integrand are assumed right. C110_case, C110_case_s: y (x) over a triangle."
 }
}