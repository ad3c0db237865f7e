# Formal model of mskashi/kv in Rocq (Coq 8.16.1)

The source is /repo (C++ headers under /repo/kv). It was read as text, never built or run.
The model and the proofs are under `rocq/theories`. `properties.jsonl` lists the properties,
`MANIFEST.json` maps them to theorems, `seeded/LOG.jsonl` records the wrong-program tests.

## 1. Trusted base

* Coq 8.16.1's kernel (and `coqchk`), run without disabling any check.
* Axioms: only those of the standard library. `Print Assumptions` is placed under every property
  theorem (files `Props*.v`). The expected list is
  `ClassicalDedekindReals.sig_forall_dec`, `ClassicalDedekindReals.sig_not_dec`,
  `FunctionalExtensionality.functional_extensionality_dep` (classical reals),
  `Classical_Prop.classic` (Flocq, Coquelicot), and possibly
  `ProofIrrelevance`/`Eqdep`/`Epsilon` where a library proof needs them.
  The per-theorem list is in section 4.
* The reading of the C++ text into Gallina. Every definition cites file and lines.
* IEEE-754: `double` is Flocq's `binary_float 53 1024`
  (`BinarySingleNaN`): one NaN, signed zeros, subnormals, infinities. C++ `+ - * / sqrt` on
  `double` outside begin()/end() are rounding to nearest-even; no extended precision, no FMA
  contraction, no fast-math (the code itself relies on this).
* `int` is modelled by `Z`; where the code could overflow `int` this is stated at the definition.
* ublas vectors and matrices are modelled by lists or functions on indices with a size; allocation
  never fails. Out-of-range accesses are a distinct outcome (`UB`) where they can happen.
* Functions passed as template parameters (`F f`) are section variables with explicit hypotheses
  (they have a correct interval / autodif / psa extension). These are arguments of the theorems,
  not axioms.

## 2. Shape of the model

* `res A := Ok a | Err e` with `e` one of `EDomain` (std::domain_error thrown), `EFuel` (loop bound of the
  model exhausted; no claim is made), `EUB` (undefined behaviour of the C++ code).
* Scalars: a record `scal` of the operations that `interval<T>` takes from `T` and `rop<T>`, a value map to
  extended reals and a record of laws (`scal_ok`). The laws are proved for
  `double` with hardware rounding, for `double` with the software emulation, and as far as possible for `dd`.
* Intervals are pairs of scalars; all of `interval.hpp` is modelled over an arbitrary `scal`.
* A real `r` is in an interval when the lower end is `-inf` or a number `<= r` and the upper end is `+inf` or a number `>= r`.

## 3. Plan per property

Each line says what is modelled and how the property is proved, or why it is not.

* C01-C04 Model `rdouble-nohwround.hpp` operation by operation on binary64; prove equality with Flocq's directed
  rounding, using TwoSum/Veltkamp/Dekker exactness (Flocq.Pff) and scaling arguments.
* C05 Model the FPU rounding mode as state; prove each operation and the negation trick, and the state after begin/op*/end.
* C06 Corollary of C01-C05 on the generic interval model.
* C07-C12, C14-C16, C18 Generic interval model, sign-case proofs over the extended-real laws.
* C13 For binary64: endpoints are exact roundings of attained values.
* C17 For binary64: monotonicity of rounding.
* C19 Induction on the binary exponent.
* C20 Induction on an expression syntax.
* C21-C29 Model the argument reductions, the Taylor loops (with fuel) and the endpoint logic; prove by Taylor-Lagrange
  remainders and functional equations (Coquelicot).
* C23 Refutation by a concrete double for which the model loop can never exit.
* C30-C33 Model the digit-list algorithms of conv-double.hpp exactly, on lists of digits; prove against rationals; refute UB-freedom.
* C34-C37 Model dd.hpp/rdd-*.hpp on binary64.
* C38-C40 Deep expression syntax; induction; Coquelicot derivatives.
* C41-C43 psa as lists of coefficients; Type-II semantics as a set of functions on the domain.
* C44 Global state record; refuted for mode 2 (bool used to save an int) and for exceptions.
* C45-C47 Affine forms as coefficient lists; joint semantics by noise assignments; atan refuted.
* C48, C62 Matrices as functions; norm bounds.
* C49-C51 Krawczyk operator on boxes; Banach fixed point in a weighted norm; worklist invariants.
* C52 Worklist invariant.
* C53 Simplex tableau invariant (relaxation of the feasible set).
* C54, C58, C61 Small models; refuted by witnesses.
* C55, C56 Series.
* C57, C59 Complex boxes; algebraic identities.
* C60 Type-II psa semantics and the fundamental theorem of calculus.
* C63 Monotone pieces.
* C64 Needs an existence theorem for ODEs; attempted last (a contraction argument on C([0,h])); if only the
  "every solution that stays in the candidate set" part is proved it is marked partial.

## 4. Status, assumptions and findings

Every theorem name below is in a file `Props*.v`; `MANIFEST.json` gives the list per property. A name that ends in
`_partial` proves less than the property says (the note in the manifest says what is missing); a name that ends in
`_refuted` exhibits an input for which the property is false of the code as modelled.

### 4.1 What is modelled

| code (under /repo/kv) | model | proofs |
|---|---|---|
| rdouble-hwround.hpp, hwround.hpp, rdouble-avx512.hpp | RDoubleHw.v | RDoubleHw.v |
| rdouble-nohwround.hpp (with and without fma) | NohwModel.v | Nohw*.v |
| interval.hpp 60-1016 (arithmetic, sets, comparisons, mid, rad, pow, sqrt, division_part) | IntervalModel.v | Interval*.v |
| interval.hpp 1017-1936 (elementary functions, constants) | ElemModel.v | Elem*.v, Real*.v (ElemParam.v: the back ends agree) |
| interval-vector.hpp, vleq.hpp, matrix-inversion.hpp (mm_mult), kraw (krawczyk), allsol-simple.hpp | VecModel.v | VecProofs.v, KrawProofs.v, VecMore.v |
| allsol.hpp (default switches, without OpenMP) | AllsolModel.v | AllsolRec.v, AllsolProofs.v |
| autodif.hpp | ADModel.v, ADSys.v | AD*.v |
| complex.hpp | CplxModel.v | Cplx*.v |
| geoseries.hpp, hypergeom.hpp, gamma.hpp (alpha functions) | SeriesModel.v | Series*.v |
| cardano-ferrari.hpp, dka.hpp | PolyModel.v | Poly*.v, DkaProofs.v |
| psa.hpp, highderiv.hpp, defint.hpp (defint) | PsaModel.v, PsaHist.v (the static members and the history list), PsaUse.v | Psa*.v |
| kkt.hpp | SeriesModel.v (interval alpha functions), KktModel.v (autodif alpha functions, KKT_equation on intervals) | SeriesProofs.v, KktProofs.v |
| eig.hpp | EigModel.v (house, hess, francisQR, the eigenvector computation, eig, both veig; the C library's pow, atan2, cos, sin and boost's LU in invert are parameters; not invert_comp) | EigProofs.v, EigCases.v |
| defint-newtoncotes.hpp | NcModel.v (defint_newtoncotes; the estimate of m is a parameter, as are the limit computed by pow and the evaluation of HighDeriv on autodif) | NcReal.v (Peano kernels), NcRule.v, NcProofs.v |
| defint-singular.hpp 20-324, 751-791 | SingModel.v (div_tn, div_reduce, defint_power3/power/power2, defint_log3/log/log2, defint_singular and their _r versions; autostep versions: next row) | SingReal.v (improper integrals, weights t^q and log t), SingProofs.v |
| defint-singular.hpp 330-468, 624-744 | SingAuto.v (defint_power3/power/power2_autostep, defint_singular_autostep; DEFINT_FAST 0 and 1, without DEFINT_STEPSIZE_MAG; power_autostep: defint_power_autostep on any function objects) | SingAutoProofs.v, PowEnv.v (with data members and history lists) |
| defint-singular.hpp 471-621, 793-838 | SingLog.v (defint_log3/log/log2_autostep and all the _autostep_r versions; the integrand h is an expression, Defint_Reverse of it is arev h) | SingLogProofs.v |
| doubleintegral.hpp 14-122 | DblModel.v (psa< psa<T> > is PsaModel.v over the base Pbase, psa<T> in mode 2; the inverse functions are left out of Pbase; of the static members only the two mode()) | DblBase.v, DblInt.v, DblProofs.v, DblFun.v |
| defint.hpp (defint_autostep, DEFINT_FAST 0 and 1, without DEFINT_STEPSIZE_MAG) | DefintAuto.v (defint_autostep_par: integrands with interval data members) | DefintAutoProofs.v |
| bessel.hpp 17-34 (besselj of an int) | BesselModel.v | PropsBessel.v |
| gamma.hpp 15-215 (gamma_r, gamma_point, gamma, lgamma_point, lgamma; digamma_zero, m2, the C library's 53*log(2) and the conversion to int are parameters) | GammaModel.v | GammaReal.v (Euler's integral, functional equation, convexity), GammaNeg.v (negative arguments, log-convexity, the minimum), GammaMin.v (estimates of the minimum in a cell), GammaProofs.v |
| gamma.hpp 444-531 (trigamma_plus, trigamma_point, trigamma; th and the conversion to int are parameters) | TriModel.v | TriReal.v (the integral, functional equation, monotonicity), TriProofs.v |
| lobachevsky.hpp | LobModel.v | LobReal.v (Euler's integral, reflection, period, extremal values), LobProofs.v |
| odescale.hpp (T = interval) | OdescaleModel.v | PropsOdescale.v |
| double-newtoncotes.hpp (T = double; PartialDeriv and the estimated steps are parameters) | DncModel.v | DncProofs.v, DncRange.v, PropsDnc.v |
| doubleint-curvededge.hpp (T = double, as double-newtoncotes.hpp) | CurvedModel.v | PropsCurved.v |
| beta.hpp 13-81 (beta_r, beta; the conversion to int is a parameter) | BetaModel.v | BetaReal.v (Euler's integral, functional equation, continuation), BetaProofs.v |
| affine.hpp | AffModel.v, AffLang.v | Aff*.v |
| lp.hpp | LpModel.v | LpProofs.v |
| optimize.hpp (without TRIM) | OptModel.v | Opt*.v |
| conv-double.hpp | ConvModel.v | Conv*.v |
| dd.hpp (arithmetic, comparison), rdd-hwround.hpp, rdd-nohwround.hpp, parts of rdd-avx512.hpp, interval-conv.hpp | DdModel.v | Dd*.v |
| ode.hpp (ODE_FAST 0 and 1, the other switches at their defaults), make-candidate.hpp, ode-param.hpp | OdeModel.v | Ode*.v |

Not modelled: allsol-affine.hpp, the ODE integrators other than ode/odelong, the other integration headers,
dd/mpfr/float64x elementary functions, conv-dd.hpp, ddx.hpp, the plotting and
non-validated headers (rk.hpp, rkf45.hpp, newton.hpp, ...).

Simplifications that hold everywhere: `int` is `Z` (places where it can overflow are named at the definition), output to
streams is left out, exceptions are the outcome `Err EDomain`, reading outside a vector is `Err EUB`, loops without a
static bound take fuel and running out of it is `Err EFuel` (theorems say nothing about such a run).
The static caches of constants are not modelled. Each file states its own simplifications in its first comment.

### 4.2 Findings (behaviour of the code that contradicts its contract)

Each item is backed by the named theorem, or, where no theorem is named, follows from reading the cited lines.

* interval.hpp log: the reduction loops never end for a lower end of 2^1023 (`C23_log_terminates_refuted`) and for an upper
  end of 2^-1074 (`C23_log_subnormal_refuted`).
* interval.hpp: scalar times interval with a NaN scalar gives [0,0]; `intersect` of disjoint intervals does not throw.
* conv-double.hpp: "0e-5" reads the front of an empty list (`C32_zero_refuted`); exponents of 2^31 and more overflow
  `atoi` (`C32_exponent_refuted`); 'g' with precision 0 reads outside the digits (`C31_precision0_refuted`).
  "inf" and "nan" are read as 0.
* dd directed division is wrong when the quotient overflows an intermediate product (`C35_div_refuted`). In
  rdd-avx512.hpp add_down and sub_down return +inf or -max where they must return a lower bound
  (`C35_avx512_add_down_refuted`, `C35_avx512_sub_down_refuted`) and add_up can return a pair that is not normalised
  (`C35_avx512_add_up_refuted`). dd comparison of NaN falls through to the low parts (`C36_nan_less`).
* vleq.hpp: the test max_norm(...) < 1 ignores NaN rows; with an infinite approximate inverse a wrong enclosure is
  returned (`C48_infinite_inverse_refuted`). krawczyk accepts an unbounded box (`C49_unbounded_box_refuted`).
  allsol-simple.hpp loses zeros when `invert` returns infinities (`C50_infinite_inverse_refuted`).
* allsol.hpp can lose a zero: in the shrinking step (590-780) a row whose slope interval contains 0 and whose constant term
  touches 0 gives J = J2, a set that need not contain the zero; if the variable was cut before by an earlier row the meet is
  empty and line 715 discards the box (`C50_allsol_zero_lost_refuted`, two equations).  It cannot happen for one equation (C77).
* allsol.hpp loses a zero on a huge box: recovery_inflation overflows, the shrunk box is unbounded, its midpoint is infinite
  or NaN and the mean value form drops the box (`C50_allsol_overflow_refuted`).
* allsol and allsol_simple never end on a box that is one point and a zero: widthratio_max ignores 0/0 (`C76`).
* allsol with rest == NULL drops boxes that cannot be divided further without a trace (951, 1117); the model always has a rest list.
* matrix-inversion.hpp, LAPACK/ATLAS variant: mm_mult multiplies a by a (`C61_lapack_refuted`).
* autodif.hpp: `split` of a constant reads d(0) of an empty vector; `expand` of a constant has a size mismatch.
* psa.hpp: the inverse functions are wrong in mode 2 (`C72_atan_mode2_refuted`), size-1 arguments read outside the vector
  (`C72_constant_refuted`); `mode()` is saved in a bool, so 2 comes back as 1, and is not restored on exceptions
  (`C44_*_refuted`); Type-II arithmetic needs 0 in the domain (`C42_domain_without_zero_refuted`).
* defint.hpp: order 0 is not an enclosure (`C60_order_zero_refuted`).
* affine.hpp: atan uses the slope 1/sqrt(1+x^2) (`C46_atan_refuted`); abs computes range ends in round to nearest
  (`C74_abs_refuted`); sqrt of the zero range gives NaN.
* lp.hpp: constraints longer than the objective are cut silently (`C53_long_constraint_refuted`).
* optimize.hpp: the midpoint value `mi` can be used before it is set (outcome EUB of the model); boxes on which f throws are
  bisected for ever.
* cardano-ferrari.hpp: ferrari tests the wrong coefficients for being real (`C58_ferrari_rejects_refuted`).
* dka.hpp: vdka's unification can leave overlapping different boxes (`C54_smith_unify_refuted`).
* gamma.hpp: lgamma of an interval whose lower end is 0 or a negative integer returns [max, inf] although the interval has other points: lgamma([0, 1/2]) does not contain log Gamma(1/2) = 0.57... (`C101_integer_end_refuted`).
* gamma.hpp: lgamma of an interval across a pole sets tmp again after the visit of the first cell, so the lowest value of log|Gamma| in that cell is lost: the result for [-6+2^-6, -4-2^-6] does not contain log|Gamma(-5.5)| (`C101_across_refuted`; the witness gives lgamma_point and digamma_zero wide results that keep their contracts).
* ode.hpp: an unbounded candidate set passes the inclusion test, so a nonzero return value does not mean existence
  (`C64_unbounded_refuted`); overlapping start and end intervals give a box that misses solutions running backwards
  (`C64_reversed_refuted`).  Mode 2 of psa comes back as mode 1 (`C80_mode_refuted`), the domain is not put back
  (`C80_domain_refuted`) and an exception leaves mode 1 and record_history() on (`C80_exception_refuted`).
  defint_autostep does the same (`C83_mode_refuted`, `C83_exception_refuted`); with order 0 its result misses the integral
  (`C82_order_zero_refuted`).
* eig.hpp: veig adds the off-diagonal entries of a row with their signs, so they can cancel or shift one way only; eigenvalue 1 + 2^-30 of [[1,1],[2^-60,1]] is in neither component (`C85_row_sums_refuted`). veig ignores a failed vleq and returns true (`C85_failed_solve_refuted`). francisQR does not terminate for the zero matrix of size 3 (`C85_zero_matrix_refuted`). eig reads an uninitialised index for every 1x1 matrix (`C85_size_one_refuted`).
* defint-newtoncotes.hpp: the constants of the error terms for n = 3, 5, 7 (-3/80, -275/12096, -8183/518400) belong to one panel, not to the composite rule: they are n times too large, and the result for x^4 over [0,3] with n = 3 is near 46.8 instead of 48.6 (`C86_odd_rules_refuted`; `C86_corrected_partial` for the right constants). A negative m sums no node (`C86_negative_steps_refuted`). start = end: minimize uses the index mi without setting it (`C86_degenerate_refuted`). The estimate of m tests i == m instead of i == tm, which affects only the choice of m.
* defint-singular.hpp: defint_log3/log/log2 multiply the last coefficient (an interval over the domain) by the integral of log t * t^n over [0,h]; for h > 1 the weight changes its sign and the mean value argument fails: log(x)x^2 over [0,13/8] with order 1 gives an upper bound below 1/32, the integral is above 1/20 (`C88_long_step_refuted`). defint_power returns a bounded interval for divergent integrals (power*multiplicity < -1, `C87_divergent_refuted`).
* defint-singular.hpp with DEFINT_FAST == 1 (the default): in the second evaluation the history list replaces all coefficients below the last by those of the first evaluation. After div_tn the interval holding the remainder is not the last coefficient any more, so a product with a longer psa overwrites it. defint_power2_autostep for (x+x^3)^2 over [0,1/2] with order 2 gives at most 3/64, the integral is 0.0552... (`C90_fast_refuted`); defint_singular_autostep for div_tn(x+x^3,1)*(1+2x) with order 3 gives at most 13/16, the integral is 79/96 (`C91_fast_refuted`). With DEFINT_FAST == 0 both calls are right (`C90_case`, `C91_case`). gamma.hpp uses such function objects (Digamma2r, Trigamma_0). The integrand of trigamma itself: over [0,1] at x = 2^-10 with order 3 the result is at least 1.2792, the integral is at most 23/18 (`C104_fast_refuted`).
* gamma.hpp trigamma: like lgamma, an interval that starts at 0 or a negative integer and does not reach the next integer gives [max, inf]; trigamma([0,1/2]) misses trigamma(1/2) <= 14 (`C105_integer_end_refuted`).
* lobachevsky.hpp with DEFINT_FAST == 1 (the default): log(div_tn(2 sin x, 1)) loses the remainder, as in C92; lobachevsky_origin(1) with LOBACHEVSKY_ORDER 1 gives at most 5/16, the value is above 313/1000 (`C106_fast_refuted`). With DEFINT_FAST == 0 an argument of lobachevsky_point with 0 inside gives [-inf, inf] in the runs tried: the end [0,c] of the step goes into a logarithm.
* lobachevsky tests whether an extremal point lies in the reduced argument with subset(enclosure of the point, argument). For -pi/6 and pi/6 the enclosure has adjacent doubles as ends, so the test is exact. For 5 pi/6 and 7 pi/6 one double lies between the point and the upper end of its enclosure; an argument that ends there contains the point and fails the test (C107 leaves out these two upper ends; 5895198126690367*2^-51 and 8253277377366514*2^-51).
* odescale.hpp squares a component of f with ty(i) * ty(i); when the component has both signs the lower end is negative and sqrt throws although 1 + |f|^2 >= 1 (`C108_throws`).
* double-newtoncotes.hpp repeats the wrong error constants of newtoncotes for n = 3, 5, 7 (`C109_odd_rules_refuted`), and with it doubleint-curvededge.hpp (`C110_odd_rules_refuted`). Its estimation loop compares i with m1 and j with m2 (0 there) where tm1, tm2 are meant; this changes only the choice of m1, m2 and is outside the model.
* defint_log3_autostep has both defects: with DEFINT_FAST == 1 defint_log2_autostep for log(x+x^3) over [0,1] with order 1 returns [-1,-1], the integral is log 2 + pi/2 - 3 = -0.736... (`C92_fast_refuted`); with DEFINT_FAST == 0 a first step longer than 1 is wrong as in defint_log3 (`C92_long_step_refuted`).
* doubleintegral with start1 > end1 or start2 > end2 sets domain() to interval(-r.upper(), r.upper()) with a negative r: the ends are exchanged. For x^2 from x = 1 to 0 and y = 0 to 1 with order 1 and n = 1 it returns an interval with lower end -1/8 and upper end -3/8, the integral is -1/3 (`C94_reversed_refuted`). With order 0 it writes outside a vector (`C94_order_zero_refuted`). Both mode() are saved in bools, so mode 2 comes back as 1, and an exception leaves both at 2 (`C94_mode_refuted`, `C94_exception_refuted`).
* kkt.hpp: a constant objective has an empty gradient and KKT_equation reads outside it (`C84_constant_objective_refuted`).
* psa.hpp: an exception inside an inverse function leaves the domain changed (`C78_exception_domain_refuted`).
* hwround.hpp 183-185 (MSVC): roundchop sets round-up.

### 4.3 Assumptions of the property theorems

No theorem uses an axiom outside Coq's standard library. `tools/assumptions.py` prints the following table from a build
(short names: `ClassicalDedekindReals.sig_not_dec`, `ClassicalDedekindReals.sig_forall_dec`,
`FunctionalExtensionality.functional_extensionality_dep`, `Classical_Prop.classic`).

* no axioms:
  C19_pow_nonneg_returns, C40_compress, C40_split_init, C44_defint_restores_partial, C44_highderiv_restores_partial, C78_flags, C78_mode, C78_recording, C85_size_one_refuted, C89_state

* `ClassicalDedekindReals.sig_forall_dec`, `ClassicalDedekindReals.sig_not_dec`, `Classical_Prop.classic`, `FunctionalExtensionality.functional_extensionality_dep`:
  C01_add_sub_correctly_rounded, C01_v64_forgets_only_zero_sign, C02_mul_correctly_rounded, C03_div_correctly_rounded, C04_sqrt_correctly_rounded, C05_avx_scalar_laws, C05_hw_calls, C05_hw_scalar_laws, C06_arithmetic_expressions, C06_elementary, C06_expressions, C06_operations, C06_pow_atan2, C06_scalar_laws, C100_gamma, C101_across_refuted, C101_integer_end_refuted, C101_lgamma_partial, C102_beta_r, C103_beta, C104_fast_refuted, C104_singular_par, C105_integer_end_refuted, C105_trigamma_partial, C105_trigamma_plus, C105_trigamma_point, C106_euler, C106_fast_refuted, C106_meaning, C106_origin, C106_period, C106_point, C106_total, C107_extremal, C107_lobachevsky_partial, C108_odescale, C108_throws, C108_total, C109_corrected_partial, C109_encloses_partial, C109_odd_rules_refuted, C109_optimised_partial, C109_range, C110_curvededge_partial, C110_curvededge_s_partial, C110_odd_rules_refuted, C110_range, C13_add_sub_mul_tightest, C13_div_tightest, C13_sqrt_tightest, C14_isotone_expressions, C14_isotone_operations, C16_relations, C17_mid_in, C17_midrad_covers, C17_rad_width, C18_floor_ceil_attained, C18_floor_ceil_enclose, C20_fundamental, C21_exp_encloses, C21_expm1_encloses, C22_log1p_domain, C22_log1p_encloses, C22_log_domain, C22_log_encloses, C23_log_subnormal_refuted, C23_log_terminates_refuted, C24_cos_encloses, C24_range, C24_sin_encloses, C25_tan_encloses, C25_tan_pole_whole, C26_acos_encloses, C26_asin_encloses, C26_atan2_encloses, C26_atan2_origin, C26_atan2_principal, C26_atan_encloses, C27_acosh_encloses, C27_asinh_encloses, C27_atanh_domain, C27_atanh_encloses, C27_cosh_encloses, C27_sinh_encloses, C27_tanh_encloses, C28_series_e, C28_series_ln2, C28_series_pi, C28_table_constants, C29_pow_encloses, C30_compare_text, C30_interval_contains, C30_interval_two_texts, C30_reading_outward, C31_precision0_refuted, C31_printing_outward_partial, C32_defined_partial, C32_exponent_refuted, C32_zero_refuted, C33_print_read, C34_split_exact, C34_twoproduct_exact, C34_twoproduct_exact_granular, C34_twosum_exact, C35_add, C35_avx512_add_down_refuted, C35_avx512_add_up_refuted, C35_avx512_sub_down_refuted, C35_div_partial, C35_div_refuted, C35_mul, C35_sqrt, C35_sub, C36_compare, C36_compare_double, C36_nan_less, C37_dd_to_double, C37_dd_to_double_rounded, C37_double_to_dd, C38_constants, C38_value_and_gradient, C39_defined_on_box, C39_value_and_gradient, C40_chain_rule, C40_chain_rule_exact, C40_split_init_identity, C41_exact, C41_interval, C41_taylor, C42_domain_without_zero_refuted, C42_enclosure, C43_eval, C43_evalrange, C43_integrate, C43_setorder, C44_defint_mode_refuted, C44_highderiv_exception_refuted, C44_highderiv_mode_refuted, C45_div, C45_from_interval, C45_functions, C45_linear, C45_mul, C45_pow, C45_pow_affine, C45_program, C45_scalar_div, C45_split, C45_to_interval, C46_atan_refuted, C47_epsilon_reduce, C47_epsilon_reduce2, C47_size, C48_infinite_inverse_refuted, C48_vleq_matrix_partial, C48_vleq_vector_partial, C49_krawczyk_jacobian_partial, C49_krawczyk_partial, C49_unbounded_box_refuted, C50_allsol_overflow_refuted, C50_allsol_partial, C50_allsol_simple_partial, C50_allsol_zero_lost_refuted, C50_infinite_inverse_refuted, C51_allsol_simple_partial, C52_boxes_inside, C52_maximisers, C52_maximum, C52_minimisers, C52_minimum, C52_nd, C53_long_constraint_refuted, C53_lower_bound, C54_smith_unify_refuted, C55_geoseries_encloses, C56_hypergeom_encloses, C57_abs_encloses, C57_acos_encloses, C57_acosh_encloses, C57_add_encloses, C57_arg_encloses, C57_arg_principal, C57_asin_encloses, C57_asinh_encloses, C57_atan_encloses, C57_atanh_encloses, C57_conj_encloses, C57_cos_encloses, C57_cosh_encloses, C57_div_encloses, C57_exp_encloses, C57_log_encloses, C57_log_principal, C57_mixed_div_enclose, C57_mixed_enclose, C57_mul_encloses, C57_neg_encloses, C57_pow_encloses, C57_powi_encloses, C57_sin_encloses, C57_sinh_encloses, C57_sqrt_encloses, C57_sqrt_principal, C57_sub_encloses, C57_tan_encloses, C57_tanh_encloses, C58_cardano_rejects, C58_ferrari_rejects_refuted, C59_cardano_encloses, C59_cardano_roots, C60_encloses_partial, C60_order_zero_refuted, C61_lapack_refuted, C61_mm_mult_exact_partial, C61_mm_mult_generic_partial, C62_mag_numbers, C62_matrix_entries, C62_max_norm, C62_mid_mag_mig, C62_rad, C62_sets, C63_alpha_minus_derivative, C63_alpha_minus_encloses, C63_alpha_plus_derivative, C63_alpha_plus_encloses, C64_every_solution, C64_ode, C64_odelong, C64_odelong_return, C64_return, C64_reversed_refuted, C64_unbounded_refuted, C65_vleq_finite_inverse, C66_krawczyk_expressions, C67_allsol_complete, C68_allsol_exact, C69_ferrari_encloses, C70_smith_encloses, C70_vdka_encloses, C71_unify_covers, C71_unify_terminates, C72_atan_mode2_refuted, C72_constant_refuted, C73_defined, C73_highderiv, C74_abs_one_sign, C74_abs_refuted, C75_allsol_exact, C75_allsol_exact_expressions, C76_point_box_never_ends, C77_allsol_one_equation, C78_exception_domain_refuted, C79_mode1, C79_mode2, C80_domain_refuted, C80_exception_refuted, C80_mode_refuted, C80_return, C81_ode, C81_odelong, C82_encloses, C82_inner_bound, C82_order_zero_refuted, C83_exception_refuted, C83_independent, C83_mode_refuted, C83_return, C84_autodif, C84_constant_objective_refuted, C84_encloses, C84_kkt_is_zero, C85_exact_vectors_interval_partial, C85_exact_vectors_partial, C85_failed_solve_refuted, C85_row_sums_refuted, C85_zero_matrix_refuted, C86_corrected_partial, C86_degenerate_refuted, C86_encloses_partial, C86_negative_steps_refuted, C86_odd_rules_refuted, C86_range, C87_divergent_refuted, C87_power, C87_power2, C87_power2_r, C87_power3, C87_power3_r, C87_power_r, C88_log2_partial, C88_log2_r_partial, C88_log3_partial, C88_log3_r_partial, C88_log_partial, C88_log_r_partial, C88_long_step_refuted, C89_div_reduce, C89_div_reduce_r, C89_div_tn, C89_mode_refuted, C89_singular, C89_singular_r, C90_fast_refuted, C90_power2_autostep, C90_power3_autostep, C90_power_autostep, C91_div_reduce, C91_div_tn, C91_div_tn_mul, C91_fast_refuted, C91_singular_autostep, C92_fast_refuted, C92_log2_autostep_partial, C92_log3_autostep_partial, C92_log_autostep_partial, C92_long_step_refuted, C93_div_reduce_r, C93_div_tn_mul_r, C93_div_tn_r, C93_log2_autostep_r_partial, C93_log3_autostep_r_partial, C93_log_autostep_r_partial, C93_power2_autostep_r, C93_power3_autostep_r, C93_power_autostep_r, C93_singular_autostep_r, C94_encloses_partial, C94_exception_refuted, C94_independent, C94_mode_refuted, C94_modes, C94_order_zero_refuted, C94_reversed_refuted, C95_encloses_partial, C96_encloses, C97_besselj, C98_power_autostep, C99_gamma_point, C99_gamma_r, C99_lgamma_point

* `ClassicalDedekindReals.sig_forall_dec`, `ClassicalDedekindReals.sig_not_dec`, `FunctionalExtensionality.functional_extensionality_dep`:
  C07_add_sub_neg_enclose, C07_add_sub_scalar_enclose, C08_mul_encloses, C08_mul_scalar_encloses, C09_div_by_scalar, C09_div_encloses, C09_div_of_scalar, C09_div_throws_iff, C108_direction_exists, C10_division_parts_cover, C10_otherwise_returns, C10_parted_iff, C10_throws_iff_zero_divisor, C11_sqrt_encloses, C11_sqrt_throws_iff, C12_closed_arith, C12_closed_scalar_forms, C12_closed_sets, C15_equality, C15_equality_with_scalar, C15_order_means_certainly, C15_order_scalar_first, C15_order_with_scalar, C16_hull, C16_hull_scalars, C16_intersection, C16_membership, C18_abs_max_min_exact, C18_mag_mig_exact, C19_pow_encloses, C19_pow_negative_throws

* `ClassicalDedekindReals.sig_forall_dec`, `FunctionalExtensionality.functional_extensionality_dep`:
  C108_direction_unique, C41_unique, C84_zero_is_kkt
