{"id": "C01", "title": "Emulated directed addition/subtraction is correctly rounded", "statement": "With software rounding emulation (KV_NOHWROUND), rop<double>::add_up/add_down/sub_up/sub_down return exactly the IEEE-754 binary64 sum/difference rounded toward +inf / -inf, up to the sign of a zero result, including subnormal, overflowing, infinite and NaN operands.", "quantifier": "all pairs of binary64 values", "why_tests_cant": "2^128 operand pairs; the failures a wrong emulation makes (off by one ulp at binade edges, overflow, subnormals) are rare and a directed-rounding oracle is needed for each.", "anchors": ["kv/rdouble-nohwround.hpp:add_up,add_down,sub_up,sub_down,twosum,succ,pred"]}
{"id": "C02", "title": "Emulated directed multiplication is correctly rounded", "statement": "With software rounding emulation, rop<double>::mul_up/mul_down return exactly the binary64 product rounded toward +inf / -inf (up to the sign of zero), including products that overflow, underflow or are subnormal.", "quantifier": "all pairs of binary64 values", "why_tests_cant": "same size of input space; the underflow and overflow scaling branches are reached by tiny parts of it.", "anchors": ["kv/rdouble-nohwround.hpp:mul_up,mul_down,twoproduct,split"]}
{"id": "C03", "title": "Emulated directed division is correctly rounded", "statement": "With software rounding emulation, rop<double>::div_up/div_down return exactly the binary64 quotient rounded toward +inf / -inf (up to the sign of zero), for every divisor including tiny, huge and zero ones.", "quantifier": "all pairs of binary64 values", "why_tests_cant": "same; the branch that rescales by 2^105 and the branch that answers 0 or the smallest subnormal are practically never hit by random tests.", "anchors": ["kv/rdouble-nohwround.hpp:div_up,div_down"]}
{"id": "C04", "title": "Emulated directed square root is correctly rounded", "statement": "With software rounding emulation, rop<double>::sqrt_up/sqrt_down return exactly the binary64 square root rounded toward +inf / -inf.", "quantifier": "all binary64 values", "why_tests_cant": "2^64 inputs, with a subnormal branch that needs separate reasoning.", "anchors": ["kv/rdouble-nohwround.hpp:sqrt_up,sqrt_down"]}
{"id": "C05", "title": "Hardware back end: operations computed with one rounding mode agree with both directed roundings", "statement": "With the FPU left in round-up mode between begin() and end(), every rop<double> *_up operation returns the round-up result and every *_down operation (computed by negating operands and result, or by switching the mode for sqrt) returns the round-down result; after the operation the mode is what the next operation relies on.", "quantifier": "all operands and all sequences of rop operations between begin() and end()", "why_tests_cant": "depends on the machine state threaded through every operation; tests see only a few sequences.", "anchors": ["kv/rdouble-hwround.hpp:add_down,mul_down,div_down,sqrt_down,begin,end", "kv/hwround.hpp"]}
{"id": "C06", "title": "All double back ends give the same interval results", "statement": "For every interval operation built from rop<double>, the hardware, emulated and AVX-512 back ends return intervals whose endpoints are equal as extended real numbers.", "quantifier": "all operands and all interval operations", "why_tests_cant": "equality over the whole input space of three independent implementations.", "anchors": ["kv/rdouble-nohwround.hpp", "kv/rdouble-hwround.hpp", "kv/rdouble-avx512.hpp"]}
{"id": "C07", "title": "Interval addition, subtraction and negation enclose", "statement": "If x is in X and y in Y then x+y is in X+Y, x-y in X-Y, -x in -X, and the same for the mixed interval/scalar forms; endpoints may be infinite.", "quantifier": "all valid intervals (possibly unbounded) over any scalar type with sound directed operations, all reals in them", "why_tests_cant": "universally quantified over the reals in the intervals, which are not even representable.", "anchors": ["kv/interval.hpp:operator+,operator-"]}
{"id": "C08", "title": "Interval multiplication encloses", "statement": "If x is in X and y in Y then x*y is in X*Y, in all nine sign cases, also for unbounded intervals whose endpoints would give 0*inf, and for the scalar forms with a finite scalar.", "quantifier": "all valid intervals, all reals in them", "why_tests_cant": "nine sign branches with directed roundings and infinite endpoints; enclosure is a statement about uncountably many points.", "anchors": ["kv/interval.hpp:operator*"]}
{"id": "C09", "title": "Interval division encloses and rejects exactly the divisors containing zero", "statement": "X/Y throws domain_error if and only if 0 is in Y; otherwise x/y is in X/Y for all x in X, y in Y; same for scalar forms.", "quantifier": "all valid intervals, all reals in them", "why_tests_cant": "universal over reals; the throw condition is an iff.", "anchors": ["kv/interval.hpp:operator/"]}
{"id": "C10", "title": "Extended division covers the solution set", "statement": "division_part1(X,Y) and division_part2(X,Y) together contain every quotient x/y with x in X, y in Y, y nonzero, when 0 is in Y; the 'parted' flag is true exactly when a second part is needed; Y=[0,0] throws.", "quantifier": "all valid intervals", "why_tests_cant": "the solution set is unbounded and has two components.", "anchors": ["kv/interval.hpp:division_part1,division_part2"]}
{"id": "C11", "title": "Interval square root encloses", "statement": "sqrt(X) throws exactly when X has a negative lower endpoint; otherwise it contains the square root of every x in X.", "quantifier": "all valid intervals", "why_tests_cant": "universal over reals.", "anchors": ["kv/interval.hpp:sqrt"]}
{"id": "C12", "title": "Interval operations never leave the set of valid intervals", "statement": "Starting from valid intervals (no NaN, lower <= upper, lower < +inf, upper > -inf), +, -, *, /, sqrt, hull, pow(int), abs, scalar forms return valid intervals.", "quantifier": "all valid intervals", "why_tests_cant": "NaN contamination only shows for special operand combinations.", "anchors": ["kv/interval.hpp:operator+,operator-,operator*,operator/,sqrt,hull,abs"]}
{"id": "C13", "title": "Interval arithmetic on double is tightest", "statement": "For interval<double>, the endpoints of X+Y, X-Y, X*Y, X/Y and sqrt(X) are the best possible: no interval with binary64 endpoints strictly inside the returned one still encloses the exact range.", "quantifier": "all valid bounded intervals of doubles", "why_tests_cant": "optimality quantifies over all other intervals and all reals in the range.", "anchors": ["kv/interval.hpp:operator+,operator-,operator*,operator/,sqrt", "kv/rdouble-nohwround.hpp"]}
{"id": "C14", "title": "Inclusion isotonicity", "statement": "If X1 is a subset of X2 and Y1 of Y2 then X1 op Y1 is a subset of X2 op Y2 for op in +,-,*,/ (where defined), hence for every composed expression.", "quantifier": "all valid intervals and all expressions", "why_tests_cant": "a relation between two runs over all inputs.", "anchors": ["kv/interval.hpp:operator+,operator-,operator*,operator/"]}
{"id": "C15", "title": "Interval comparisons mean 'certainly'", "statement": "X<Y (likewise <=,>,>=) is true exactly when x<y for all x in X, y in Y; X==Y exactly when both are the same point; X!=Y exactly when X and Y are disjoint; so a comparison and its C++ negation can both be false.", "quantifier": "all valid intervals", "why_tests_cant": "an iff with universal quantification over reals.", "anchors": ["kv/interval.hpp:operator<,operator<=,operator>,operator>=,operator==,operator!="]}
{"id": "C16", "title": "Set predicates and set operations are exact", "statement": "in, zero_in, subset, proper_subset, overlap decide exactly the set relations of the intervals as sets of reals; intersect returns exactly the intersection when the operands overlap and an interval with lower > upper exactly when they do not; hull is the smallest interval containing its operands.", "quantifier": "all valid intervals", "why_tests_cant": "iff statements over sets of reals.", "anchors": ["kv/interval.hpp:in,zero_in,subset,proper_subset,overlap,intersect,hull"]}
{"id": "C17", "title": "Midpoint and radius cover the interval", "statement": "For a bounded interval, mid(X) is in X, rad(X) >= the distance from the exact midpoint to both ends and width(X) >= upper-lower; midrad(X,m,r) gives m,r with X inside [m-r,m+r].", "quantifier": "all bounded valid intervals of doubles", "why_tests_cant": "rounding of the midpoint at extreme exponents is easy to get wrong and rarely sampled.", "anchors": ["kv/interval.hpp:mid,rad,width,midrad"]}
{"id": "C18", "title": "Magnitude, mignitude, abs, max, min, floor, ceil", "statement": "mag(X) and norm(X) are the exact maximum of |x| on X, mig(X) the exact minimum; abs, max, min are the exact ranges.", "quantifier": "all valid intervals", "why_tests_cant": "optimality and enclosure over reals.", "anchors": ["kv/interval.hpp:mag,norm,mig,abs,max,min"]}
{"id": "C19", "title": "Integer power encloses", "statement": "pow(X,n) contains x^n for all x in X and every int n (n<0 throws when 0 is in the power), also for even n with X containing 0.", "quantifier": "all valid intervals, all exponents", "why_tests_cant": "unbounded in n and over reals.", "anchors": ["kv/interval.hpp:pow,pow_point,ipower"]}
{"id": "C20", "title": "Fundamental theorem: any expression evaluated in interval arithmetic encloses its range", "statement": "For every expression built from variables, constants, + - * / sqrt, pow(int), exp, log, sin, cos, atan,..., evaluating it with intervals either throws, or returns an interval containing the value of the real expression at every point of the box.", "quantifier": "all expressions of any depth, all boxes, all points", "why_tests_cant": "infinitely many programs.", "anchors": ["kv/interval.hpp"]}
{"id": "C21", "title": "exp and expm1 enclose", "statement": "Whenever exp(X) (expm1(X)) returns, the result contains exp(x) (exp(x)-1) for every x in X, including unbounded X.", "quantifier": "all valid intervals", "why_tests_cant": "transcendental values cannot be checked exactly by tests.", "anchors": ["kv/interval.hpp:exp,exp_point,expm1,expm1_origin"]}
{"id": "C22", "title": "log and log1p enclose", "statement": "Whenever log(X) (log1p(X)) returns, the result contains log(x) for every positive x in X; a negative lower endpoint throws.", "quantifier": "all valid intervals", "why_tests_cant": "transcendental values; argument reduction over 2000 binades.", "anchors": ["kv/interval.hpp:log,log_point,log1p,log1p_origin"]}
{"id": "C23", "title": "log terminates on every positive double (false: it hangs at both ends of the range)", "statement": "log(X) returns for every interval of positive doubles. (Refuted: log(interval<double>(2^1023)) never returns, because the scaling factor 2^-1024 is computed as 1/[DBL_MAX, inf] and its lower end is 0.)", "quantifier": "all positive doubles", "why_tests_cant": "non-termination at the extreme binades only: a test that hits it hangs.", "anchors": ["kv/interval.hpp:log_point"]}
{"id": "C24", "title": "sin and cos enclose", "statement": "Whenever sin(X), cos(X) return, the result contains sin x, cos x for every x in X, and lies in [-1,1].", "quantifier": "all valid intervals", "why_tests_cant": "argument reduction and extremum detection over all reals.", "anchors": ["kv/interval.hpp:sin,cos,sin_point,cos_point,sin_origin,cos_origin"]}
{"id": "C25", "title": "tan encloses; a pole gives the whole line", "statement": "Whenever tan(X) returns, the result contains tan x for all x in X; if X contains a pole the result is the whole real line.", "quantifier": "all valid intervals", "why_tests_cant": "poles are irrational.", "anchors": ["kv/interval.hpp:tan,tan_point"]}
{"id": "C26", "title": "Inverse trigonometric functions enclose", "statement": "asin, acos, atan (and atan2 up to a multiple of 2 pi) of intervals contain the function values at every point; asin/acos throw outside [-1,1].", "quantifier": "all valid intervals", "why_tests_cant": "transcendental values over reals.", "anchors": ["kv/interval.hpp:atan,atan_point,asin,acos,atan2"]}
{"id": "C27", "title": "Hyperbolic functions and their inverses enclose", "statement": "sinh, cosh, tanh, asinh, acosh, atanh of intervals contain the function values at every point, and throw outside the domain.", "quantifier": "all valid intervals", "why_tests_cant": "transcendental values over reals.", "anchors": ["kv/interval.hpp:sinh,cosh,tanh,asinh,acosh,atanh"]}
{"id": "C28", "title": "Mathematical constants are enclosed", "statement": "constants<interval<double>>::pi(), e(), ln2() and constants<interval<T>> computed by series contain pi, e, ln 2.", "quantifier": "every back end", "why_tests_cant": "the exact constants are irrational.", "anchors": ["kv/constants.hpp:pi,e,ln2", "kv/rdouble.hpp"]}
{"id": "C29", "title": "General power encloses", "statement": "pow(X,Y) = exp(Y log X) contains x^y for all positive x in X, y in Y.", "quantifier": "all valid intervals", "why_tests_cant": "transcendental.", "anchors": ["kv/interval.hpp:pow"]}
{"id": "C30", "title": "Decimal text to double is outward", "statement": "stringtod(s,+1) >= the exact rational denoted by s and stringtod(s,-1) <= it, for every well-formed decimal string; so interval(s) contains the number written.", "quantifier": "all decimal strings of any length and exponent", "why_tests_cant": "unbounded inputs; exactness needs big rationals.", "anchors": ["kv/conv-double.hpp:stringtod", "kv/rdouble.hpp"]}
{"id": "C31", "title": "Double to decimal text is outward", "statement": "dtostring(x,prec,fmt,+1) denotes a number >= x and with -1 a number <= x, in e, f and g formats for every precision.", "quantifier": "all finite doubles, precisions and formats", "why_tests_cant": "2^64 values times unbounded precision.", "anchors": ["kv/conv-double.hpp:dtostring"]}
{"id": "C32", "title": "Parsing is defined for every numeric string", "statement": "stringtod has no undefined behaviour on well-formed decimal numerals.", "quantifier": "all decimal strings", "why_tests_cant": "UB is invisible to tests without sanitizers and needs the right string.", "anchors": ["kv/conv-double.hpp:stringtod"]}
{"id": "C33", "title": "Printing and reading an interval back encloses it", "statement": "Reading the text of a printed bounded interval gives an interval containing the original.", "quantifier": "all bounded intervals, precisions >= 1", "why_tests_cant": "composition of two unbounded conversions.", "anchors": ["kv/conv-double.hpp", "kv/interval.hpp:operator<<"]}
{"id": "C34", "title": "Error-free transformations are exact", "statement": "twosum(a,b) yields s+e = a+b exactly with s = fl(a+b); twoproduct yields p+e = a*b exactly, within the stated exponent range.", "quantifier": "all finite doubles in range", "why_tests_cant": "exactness over 2^128 inputs.", "anchors": ["kv/dd.hpp:twosum,twoproduct,split"]}
{"id": "C35", "title": "Directed double-double operations are sound bounds", "statement": "rop<dd>::add_up/sub_up/mul_up/div_up/sqrt_up return a normalized dd >= the exact result and the _down versions one <= it.", "quantifier": "all normalized dd operands in range", "why_tests_cant": "106-bit results, no oracle type; error terms rarely matter on random inputs.", "anchors": ["kv/rdd-nohwround.hpp", "kv/rdd-hwround.hpp"]}
{"id": "C36", "title": "Ordering of dd is the ordering of the represented reals", "statement": "dd comparison operators on normalized values decide the real order of a1+a2.", "quantifier": "all normalized dd", "why_tests_cant": "lexicographic vs real order differ only in edge cases.", "anchors": ["kv/dd.hpp:operator<"]}
{"id": "C37", "title": "Conversions between interval<dd> and interval<double> enclose", "statement": "iddtoidouble and idoubletoidd return intervals containing their argument.", "quantifier": "all valid intervals", "why_tests_cant": "universal over inputs.", "anchors": ["kv/interval-conv.hpp:iddtoidouble,idoubletoidd,ddtodouble"]}
{"id": "C38", "title": "Automatic differentiation computes value and gradient", "statement": "Evaluating an expression on autodif<T>::init(x) over exact arithmetic yields f(x) and the exact gradient of f at x; constants (empty gradient) behave as zero gradient.", "quantifier": "all expressions, dimensions, points of differentiability", "why_tests_cant": "infinitely many programs and points.", "anchors": ["kv/autodif.hpp:operator+,operator*,operator/,pow,sqrt,exp,log,sin,cos"]}
{"id": "C39", "title": "Interval automatic differentiation encloses value and gradient", "statement": "Over interval<T>, the value contains f(x) and the gradient intervals contain every partial derivative at every x in the box.", "quantifier": "all expressions, boxes, points", "why_tests_cant": "universal over reals and programs.", "anchors": ["kv/autodif.hpp"]}
{"id": "C40", "title": "init/split and compress/expand are consistent", "statement": "split(init(x)) returns x and the identity Jacobian; expand(compress(f)) obeys the chain rule: the value is unchanged and the gradient of the composition is the product of Jacobians.", "quantifier": "all vectors of any dimension", "why_tests_cant": "unbounded dimension.", "anchors": ["kv/autodif.hpp:init,split,compress,expand"]}
{"id": "C41", "title": "Type-I power series arithmetic is arithmetic of truncated power series", "statement": "psa +,-,*,/ and exp, log, sqrt, ... in mode 1 return the Taylor coefficients of the result up to the order.", "quantifier": "all orders and coefficient values", "why_tests_cant": "unbounded order.", "anchors": ["kv/psa.hpp"]}
{"id": "C42", "title": "Type-II power series arithmetic encloses", "statement": "In mode 2 over interval<T>, if functions are represented by psa values on domain(), an interval containing the expansion point 0, then +, -, *, /, pow, exp, log, sqrt, sin, cos, tan, sinh, cosh, tanh of them return psa values that represent the results on domain(), and a normal return implies that the result is defined on the whole domain. (Inverse functions: C72.)", "quantifier": "all orders, domains, functions and points", "why_tests_cant": "functions are infinite objects.", "anchors": ["kv/psa.hpp:operator*,inv,exp,log,sin,cos,sqrt,sinh,cosh,pow"]}
{"id": "C43", "title": "Series integration and evaluation enclose", "statement": "integrate(x) represents the integral from 0 of the represented function and eval(x,t), polyrange enclose its values on the domain.", "quantifier": "all orders, domains", "why_tests_cant": "functions are infinite objects.", "anchors": ["kv/psa.hpp:integrate,eval,evalrange,polyrange"]}
{"id": "C44", "title": "Higher-derivative utilities leave the global psa mode unchanged", "statement": "After highderiv (and ode, defint) returns or throws, psa<T>::mode(), use_history(), record_history() have the values they had before the call.", "quantifier": "all prior global states, all executions including exceptions", "why_tests_cant": "hidden global state; only histories of several calls reveal it.", "anchors": ["kv/highderiv.hpp", "kv/ode.hpp:ode", "kv/defint.hpp:defint", "kv/psa.hpp:asin"]}
{"id": "C45", "title": "Affine arithmetic encloses jointly", "statement": "If x and y are represented by affine forms under one assignment of the noise symbols, then x op y is represented by the result under an extension of the same assignment, for + - * / sqrt exp log and scalar forms.", "quantifier": "all affine forms of any length, all assignments", "why_tests_cant": "joint (correlated) enclosure cannot be seen from ranges alone.", "anchors": ["kv/affine.hpp:operator+,operator*,inv,sqrt,exp,log"]}
{"id": "C46", "title": "Affine atan encloses jointly", "statement": "atan of an affine form represents atan x under an extension of every assignment representing x.", "quantifier": "all affine forms and assignments", "why_tests_cant": "the hull of the result looks right, only the correlation is wrong.", "anchors": ["kv/affine.hpp:atan"]}
{"id": "C47", "title": "Noise-symbol reduction keeps joint enclosure", "statement": "epsilon_reduce returns affine forms over fewer symbols that represent every vector represented before.", "quantifier": "all vectors of affine forms, all target sizes", "why_tests_cant": "a statement about all joint assignments.", "anchors": ["kv/affine.hpp:epsilon_reduce"]}
{"id": "C48", "title": "Verified linear solver encloses", "statement": "If vleq(A,b,x) returns true then for every real matrix in A and vector in b the system has exactly one solution and it lies in x.", "quantifier": "all dimensions, interval matrices, right-hand sides, and any approximate inverse", "why_tests_cant": "universal over a continuum of matrices.", "anchors": ["kv/vleq.hpp:vleq", "kv/interval-vector.hpp:max_norm"]}
{"id": "C49", "title": "Krawczyk test proves existence and uniqueness", "statement": "If krawczyk_approx returns true with box K, then the function has a zero in K, and it is the only zero in the candidate box.", "quantifier": "all dimensions, functions with a correct interval extension of f and f'", "why_tests_cant": "existence of a real zero cannot be observed by running.", "anchors": ["kv/kraw-approx.hpp:krawczyk_approx"]}
{"id": "C50", "title": "All-solution search loses no solution", "statement": "When allsol_simple / allsol returns, every zero of f in the initial box lies in a returned box or in a box reported as too small / in rest.", "quantifier": "all functions with correct interval extension, boxes, dimensions, subdivision histories", "why_tests_cant": "completeness is a negative statement about unexplored points.", "anchors": ["kv/allsol-simple.hpp:allsol_list_simple", "kv/allsol.hpp:allsol_list"]}
{"id": "C51", "title": "All-solution search reports only boxes with exactly one solution", "statement": "Each box returned by allsol_simple contains exactly one zero of f and different returned boxes contain different zeros.", "quantifier": "all functions, boxes, dimensions", "why_tests_cant": "existence of real zeros.", "anchors": ["kv/allsol-simple.hpp:allsol_list_simple"]}
{"id": "C52", "title": "Global minimisation keeps every minimiser", "statement": "Every global minimiser of f over the initial box is contained in some box returned by optimize, and minimize_value contains the minimum.", "quantifier": "all functions with correct extensions, boxes", "why_tests_cant": "universal over points.", "anchors": ["kv/optimize.hpp:optimize,minimize_value"]}
{"id": "C53", "title": "Verified linear programming gives a valid bound", "statement": "lp_minimize_verified(obj,cons,-1) returns a number <= the objective at every feasible point.", "quantifier": "all linear programs of any size", "why_tests_cant": "universal over the feasible polytope.", "anchors": ["kv/lp.hpp:lp_minimize_verified"]}
{"id": "C54", "title": "Polynomial root boxes: overlapping boxes are unified", "statement": "Any two boxes returned by smith_error that overlap are equal, so that each connected group is one box.", "quantifier": "all polynomials and approximations", "why_tests_cant": "needs three specially arranged boxes.", "anchors": ["kv/dka.hpp:smith_error"]}
{"id": "C55", "title": "Geometric series bound", "statement": "geoseries(I) contains every sum 1 + r1 + r1 r2 + ... with all ri in I, when I is inside (-1,1).", "quantifier": "all intervals inside (-1,1), all sequences", "why_tests_cant": "infinitely many infinite series.", "anchors": ["kv/geoseries.hpp:geoseries"]}
{"id": "C56", "title": "Hypergeometric series enclosure", "statement": "Whenever hypergeom(a,b,c,z) returns, the result contains the sum of the Gauss hypergeometric series for all parameters in the intervals.", "quantifier": "all parameter intervals", "why_tests_cant": "infinite series.", "anchors": ["kv/hypergeom.hpp:hypergeom"]}
{"id": "C57", "title": "Complex interval arithmetic encloses", "statement": "complex<interval<T>> +,-,*,/,pow(int),exp,... contain the exact complex results.", "quantifier": "all complex boxes", "why_tests_cant": "universal over complex numbers.", "anchors": ["kv/complex.hpp"]}
{"id": "C58", "title": "Cubic and quartic solvers reject exactly a possibly-zero leading coefficient", "statement": "cardano (ferrari) returns false if and only if the size is wrong or the leading coefficient box contains zero.", "quantifier": "all coefficient boxes", "why_tests_cant": "a one-character index slip is invisible unless real and imaginary parts are chosen specially.", "anchors": ["kv/cardano-ferrari.hpp:cardano,ferrari"]}
{"id": "C59", "title": "Cubic solver encloses all roots", "statement": "If cardano returns true, every cubic with coefficients in the boxes has its three roots, with multiplicity, in the three returned boxes.", "quantifier": "all coefficient boxes", "why_tests_cant": "universal over complex coefficients.", "anchors": ["kv/cardano-ferrari.hpp:cardano"]}
{"id": "C60", "title": "Definite integration encloses", "statement": "defint(f,a,b,order,n) contains the integral of f over [a,b] for all endpoints in the intervals, for f with a correct series extension.", "quantifier": "all functions, orders, subdivisions", "why_tests_cant": "integrals of arbitrary functions.", "anchors": ["kv/defint.hpp:defint"]}
{"id": "C61", "title": "Matrix product gives the product", "statement": "mm_mult(a,b,c) sets c = a*b in every build configuration.", "quantifier": "all matrices", "why_tests_cant": "only the LAPACK/ATLAS configuration is affected and square test matrices with a=b hide it.", "anchors": ["kv/matrix-inversion.hpp:mm_mult"]}
{"id": "C62", "title": "Interval-vector utilities", "statement": "mid, rad, mag, mig, subset, overlap, intersect, hull, max_norm on vectors and matrices are the componentwise lift; max_norm of a vector/matrix is an upper bound of the max norm of every member.", "quantifier": "all sizes", "why_tests_cant": "unbounded dimension and universal over members.", "anchors": ["kv/interval-vector.hpp"]}
{"id": "C63", "title": "KKT complementarity functions enclose", "statement": "alpha_plus, alpha_minus and their derivatives on intervals enclose max(x,0)^3, max(-x,0)^3 and derivatives.", "quantifier": "all intervals", "why_tests_cant": "universal over reals.", "anchors": ["kv/kkt.hpp:alpha_plus,alpha_minus"]}
{"id": "C64", "title": "ODE step encloses the solution", "statement": "If ode(f,init,start,end) returns nonzero, every solution of x'=f(x,t) with initial value in init at start exists up to end and its value there lies in the updated init.", "quantifier": "all right-hand sides with correct series extension, all initial boxes", "why_tests_cant": "solutions are infinite objects; existence is not observable.", "anchors": ["kv/ode.hpp:ode,odelong"]}
{"id": "C65", "title": "Verified linear solver encloses, finite approximate inverse", "statement": "If vleq(A,b,x) returns true with a finite approximate inverse and an x without NaN bounds, every real system in (A,b) has exactly one solution and it lies in x.", "quantifier": "all dimensions, interval matrices, right-hand sides, finite approximate inverses, all double back ends", "why_tests_cant": "universal over a continuum of matrices.", "anchors": ["kv/vleq.hpp:vleq"]}
{"id": "C66", "title": "Krawczyk test with automatic differentiation proves a zero of the expression", "statement": "If krawczyk_approx on a system of expressions (Jacobian by autodif) returns true with a bounded box K, the expressions are defined and have a common zero in K, the only one in the candidate box.", "quantifier": "all systems of expressions, dimensions, starting points, approximate inverses (any invert), all double back ends", "why_tests_cant": "existence of a real zero cannot be observed by running.", "anchors": ["kv/kraw-approx.hpp:krawczyk_approx", "kv/autodif.hpp:init,split"]}
{"id": "C67", "title": "All-solution search on expressions loses no zero", "statement": "If allsol_simple on a system of expressions returns, processed bounded boxes only and invert returned no infinite entry, every common zero in the initial boxes lies in a returned box or in a box reported as too small; points where an expression is undefined are no obstacle.", "quantifier": "all systems of expressions, dimensions, lists of boxes, histories, all double back ends", "why_tests_cant": "completeness is a negative statement about unexplored points.", "anchors": ["kv/allsol-simple.hpp:allsol_list_simple"]}
{"id": "C68", "title": "All-solution search on expressions reports boxes with exactly one zero", "statement": "Under the conditions of C67, each returned box holds exactly one common zero of the expressions and different boxes hold different zeros.", "quantifier": "all systems of expressions, dimensions, lists of boxes, all double back ends", "why_tests_cant": "existence of real zeros.", "anchors": ["kv/allsol-simple.hpp:allsol_list_simple"]}
{"id": "C69", "title": "Quartic solver encloses all roots", "statement": "If ferrari returns true, the leading coefficient is nonzero for every choice in the boxes and every such quartic has its four roots, with multiplicity, in the four returned boxes.", "quantifier": "all coefficient boxes, all double back ends", "why_tests_cant": "universal over complex coefficients and over the choice of branch of square and cube roots.", "anchors": ["kv/cardano-ferrari.hpp:ferrari"]}
{"id": "C70", "title": "Polynomial root boxes: no zero is missed", "statement": "For finite approximations, if smith_error (or vdka) returns, every complex zero of every polynomial with coefficients in the given boxes lies in one of the returned boxes, there are as many boxes as approximations, and the k-th contains the k-th approximation.", "quantifier": "all degrees, coefficient boxes, approximations, all double back ends", "why_tests_cant": "completeness over an uncountable set of polynomials.", "anchors": ["kv/dka.hpp:smith_error,vdka"]}
{"id": "C71", "title": "Box unification terminates and only enlarges", "statement": "The unification loop of smith_error stops after at most two passes, for any list of boxes, and each unified box contains the box it came from.", "quantifier": "all lists of boxes", "why_tests_cant": "a do-while loop with no counter.", "anchors": ["kv/dka.hpp:smith_error"]}
{"id": "C72", "title": "Inverse functions of a type-II series enclose", "statement": "In mode 2, asin, acos, atan, asinh, acosh, atanh of a psa representing f on domain() return a psa representing asin f, ... on domain(); a constant (a psa of size 1) is accepted.", "quantifier": "all orders, domains, represented functions", "why_tests_cant": "The remainder coefficient is wrong only by a factor that tests of wide intervals hide; the constant case is undefined behaviour which may go unnoticed.", "anchors": ["kv/psa.hpp:asin,acos,atan,asinh,acosh,atanh"]}
{"id": "C73", "title": "highderiv encloses all derivatives", "statement": "highderiv(f,X,n) returns n+1 intervals the i-th of which contains f^(i)(x) (divided by i! when divfact is set) for every x in X, for every f written with psa operations.", "quantifier": "all expressions, all intervals X, all points x in X, all n >= 1", "why_tests_cant": "Infinitely many functions, points and orders; a wrong coefficient rule shows only at some order.", "anchors": ["kv/highderiv.hpp:highderiv", "kv/psa.hpp"]}
{"id": "C74", "title": "abs of an affine form encloses jointly", "statement": "abs of an affine form represents |x| under an extension of every assignment representing x.", "quantifier": "all affine forms and assignments", "why_tests_cant": "a violation is one unit in the last place for particular coefficients.", "anchors": ["kv/affine.hpp:abs"]}
{"id": "C75", "title": "allsol returns boxes with exactly one zero", "statement": "When allsol returns, the invert calls produced no infinite entry and the boxes produced by shrinking stayed bounded, every box in the result holds exactly one common zero of f, it is the only one in the larger box proved around it, and different boxes hold different zeros.", "quantifier": "all functions with correct interval and slope extensions and all systems of expressions, dimensions, lists of boxes, histories, all double back ends", "why_tests_cant": "existence and uniqueness of real zeros, over all functions and subdivision histories.", "anchors": ["kv/allsol.hpp:allsol_list"]}
{"id": "C76", "title": "The searches do not end on a box that is a single zero", "statement": "There is a linear equation x-1=0 and the box [1,1] for which allsol and allsol_simple examine the box for ever: after every number of steps the list of targets is again [1,1].", "quantifier": "all numbers of iterations", "why_tests_cant": "a test run cannot tell an endless loop from a long one.", "anchors": ["kv/allsol.hpp:allsol_list", "kv/allsol-simple.hpp:allsol_list_simple"]}
{"id": "C77", "title": "allsol for one equation loses no zero", "statement": "For a single equation given by an expression: when allsol returns, invert produced no infinite entry and the boxes produced by shrinking stayed bounded, every zero in an initial box or in a box of the list passed as rest lies in a returned box or in a box of rest.", "quantifier": "all expressions in one variable, lists of boxes, histories, all double back ends", "why_tests_cant": "completeness is a negative statement about unexplored points.", "anchors": ["kv/allsol.hpp:allsol_list"]}
{"id": "C78", "title": "Recording the psa history does not change results", "statement": "With use_history() off, evaluating a function written with psa gives the same coefficients, or the same exception, whether record_history() is on or off and whatever is in the history; if it does not throw, mode(), domain() and both flags are as before; mode() is never changed. (An exception inside an inverse function leaves domain() changed.)", "quantifier": "all expressions, sizes, modes, domains, histories, base types", "why_tests_cant": "a recorded list is only read by a later evaluation, so a wrong push or a flag left off shows up far from its cause.", "anchors": ["kv/psa.hpp:operator*", "kv/psa.hpp:inv", "kv/psa.hpp:asin"]}
{"id": "C79", "title": "Reusing the psa history keeps the enclosures", "statement": "Evaluate the same function (without inverse functions) first with record_history() on, then with use_history() on with the size increased by one each time, and finally in mode 2 on a domain that contains 0: every mode-1 result contains the Taylor coefficients of the function, the mode-2 result represents the function on the whole domain, and the function is defined there.", "quantifier": "all expressions, numbers of rounds, sizes, arguments, domains, all double back ends", "why_tests_cant": "the history is matched with the operators by position only; one operator that pushes or pops once too often spoils every later one, for some expressions only.", "anchors": ["kv/psa.hpp:operator+", "kv/psa.hpp:operator*", "kv/psa.hpp:inv", "kv/psa.hpp:exp", "kv/psa.hpp:pow"]}
{"id": "C80", "title": "Static state of psa after ode", "statement": "When ode returns, use_history() and record_history() have their values from before the call and mode() is 0 if it was 0 and 1 otherwise. So mode 2 comes back as 1; the domain is not put back; and an exception leaves mode 1 and record_history() on.", "quantifier": "all right-hand sides, parameters, states, all double back ends, both values of ODE_FAST", "why_tests_cant": "the effect is on later, unrelated computations with psa.", "anchors": ["kv/ode.hpp:ode"]}
{"id": "C81", "title": "ode and odelong do not depend on the state left in psa", "statement": "The return value, the boxes, the end time and the series (or the exception) of ode and odelong are the same for any two values of mode(), domain(), use_history(), record_history() and history() before the call, including those an exception left behind.", "quantifier": "all pairs of states, right-hand sides, parameters, all double back ends, both values of ODE_FAST", "why_tests_cant": "the earlier computations that could leave a bad state are unbounded in number and kind.", "anchors": ["kv/ode.hpp:ode", "kv/ode.hpp:odelong", "kv/psa.hpp:mode"]}
{"id": "C82", "title": "defint_autostep encloses the integral", "statement": "If defint_autostep(f, start, end, order, epsilon) with order >= 1 returns and every intermediate point t1 it prints is a real number, then for all a in start and b in end f is defined between a and b and the result contains the integral of f from a to b; with the history list (DEFINT_FAST 1) and without. One step needs at most twelve evaluations. With order 0 the result can miss the integral.", "quantifier": "all expressions without inverse functions, end points, orders >= 1, epsilons, states of psa, results of the C library's pow, all double back ends", "why_tests_cant": "the steps come from unverified pow values and from caught domain errors; a wrong enclosure of one step is hidden in a sum of many, and depends on what the history list held.", "anchors": ["kv/defint.hpp:defint_autostep"]}
{"id": "C83", "title": "Static state of psa and defint_autostep", "statement": "The result of defint_autostep (or its exception) is the same for any two values of mode(), domain(), use_history(), record_history() and history() before the call. When it returns, use_history() and record_history() have their values from before the call and mode() is 0 if it was 0 and 1 otherwise: mode 2 comes back as 1, and an exception leaves mode 1 and record_history() on.", "quantifier": "all expressions, end points, orders >= 1 (for the first part), all pairs of states, all double back ends, both values of DEFINT_FAST", "why_tests_cant": "the effect is on later, unrelated computations with psa, and the earlier ones that could leave a bad state are unbounded in number and kind.", "anchors": ["kv/defint.hpp:defint_autostep", "kv/psa.hpp:mode"]}
{"id": "C84", "title": "KKT_equation encloses the KKT map", "statement": "If KKT_equation(f,g,h)(x) on interval vectors returns, then f, g and h are defined at every point of the box and the result contains the KKT map: gradient of f plus sum of max(z_j,0)^3 grad g_j plus sum of mu_j grad h_j, g_j + max(-z_j,0)^3, h_j. Zeros of that map are exactly the points satisfying the first-order optimality conditions (with multipliers max(z_j,0)^3). The autodif versions of alpha_plus and alpha_minus enclose the derivative. A constant objective (empty gradient) is out-of-range access.", "quantifier": "all numbers of variables and constraints, all expressions, boxes (bounded or not), all double back ends", "why_tests_cant": "universal over points of the box and over the functions; the equivalence with optimality conditions is about all real points.", "anchors": ["kv/kkt.hpp:KKT_equation", "kv/kkt.hpp:alpha_plus,alpha_minus"]}
{"id": "C85", "title": "veig encloses the eigenvalues", "statement": "veig(A, v) should return complex intervals v such that every eigenvalue of A is in some v(i). This is false of the code: the entries of a row of the approximate diagonalisation are added with their signs instead of as radii (eigenvalue 1+2^-30 of [[1,1],[2^-60,1]] is in no component), a failed linear solve is ignored ([[1,2^600],[0,2]]), eig does not terminate for the zero matrix of size 3 and reads an uninitialised index for every 1x1 matrix. It holds when eig's vectors are exact eigenvectors and the verified linear solve succeeds with bounded results: then v(i) contains the eigenvalue of column i and every eigenvalue is in some component.", "quantifier": "all matrix sizes, double and interval matrices, all double back ends; the counterexamples for every C library that follows Annex F at 0 and 1", "why_tests_cant": "the guarantee concerns all real matrices in an interval matrix and all their complex eigenvalues; non-termination cannot be tested.", "anchors": ["kv/eig.hpp:veig", "kv/eig.hpp:eig", "kv/eig.hpp:francisQR"]}
{"id": "C86", "title": "defint_newtoncotes encloses the integral", "statement": "For every function, every rule 1 <= n <= 7 and every number of steps, the interval returned by defint_newtoncotes contains the integral from every point of start to every point of end. True for n = 1, 2, 4, 6 and a positive number of steps (given a correct evaluation of the derivative on autodif). False for n = 3, 5, 7: their error constants are n times too large (x^4 over [0,3] with n = 3); with the constants -1/80, -55/12096, -1169/518400 they would be right. False for negative m (no node is summed). start and end the same point: an uninitialised index is used.", "quantifier": "all double back ends, expressions, intervals start and end in either order, numbers of steps", "why_tests_cant": "the error term is a statement about all functions with d derivatives; sample integrands can hide a wrong constant because the enclosure is usually far wider than the error.", "anchors": ["kv/defint-newtoncotes.hpp:defint_newtoncotes", "kv/highderiv.hpp:HighDeriv", "kv/optimize.hpp:minimize_value"]}
{"id": "C87", "title": "defint_power, defint_power2, defint_power3 enclose integrals with an algebraic end-point singularity", "statement": "If defint_power3(f, g, start, end, order, power, m) returns v, f vanishes at start to order m, f > 0 on (start, end] and power*m > -1, then f and g are defined on [start, end], the improper integral of f(x)^power*g(x) from start to end exists and is in v; likewise defint_power ((x-start)^power*g(x)), defint_power2 (f(x)^power) and the _r versions with the singularity at end. Without power*m > -1 the statement is false: a bounded interval is returned for a divergent integral (x^(-3/2) over [0,1]).", "quantifier": "all double back ends, expressions f and g, points a < c of the intervals start and end, every point of the interval power, orders 1 <= order < 2^52, multiplicities 0 <= m < order", "why_tests_cant": "existence and enclosure of an improper integral for every function and every real in the interval arguments.", "anchors": ["kv/defint-singular.hpp:defint_power3", "kv/defint-singular.hpp:defint_power", "kv/defint-singular.hpp:defint_power2", "kv/defint-singular.hpp:defint_power3_r", "kv/defint-singular.hpp:div_tn"]}
{"id": "C88", "title": "defint_log, defint_log2, defint_log3 enclose integrals with a logarithmic end-point singularity", "statement": "If defint_log3(f, g, start, end, order, m) returns v, f vanishes at start to order m and f > 0 on (start, end], then f and g are defined on [start, end], the improper integral of log(f(x))*g(x) exists and is in v; likewise defint_log (log(x-start)*g(x)), defint_log2 (log f(x)) and the _r versions. True when end - start <= 1; false for longer intervals, where log(x-start) changes its sign and the last coefficient is not bounded by a mean value: log(x)*x^2 over [0,13/8] with order 1.", "quantifier": "all double back ends, expressions f and g, points a < c <= a+1 of the intervals start and end, orders 1 <= order < 2^25, multiplicities 0 <= m <= 2^50", "why_tests_cant": "the enclosure holds or fails by the sign of the weight over a continuum; wide results at high orders hide the error.", "anchors": ["kv/defint-singular.hpp:defint_log3", "kv/defint-singular.hpp:defint_log", "kv/defint-singular.hpp:defint_log2", "kv/defint-singular.hpp:defint_log3_r"]}
{"id": "C89", "title": "defint_singular encloses integrals of functions with a removable singularity", "statement": "If defint_singular(f, start, end, order) returns v then the integral of f from start to end exists and is in v, also when f is div_tn(h(x), m) (integrand h(x)/(x-start)^m) or div_reduce(h(x), k(x), m) (integrand h(x)/k(x), and k is nonzero on (start, end]) with h and k vanishing at start to order m; likewise the _r versions. The result of all the singular integrators does not depend on the psa state; on return the history flags and the modes 0 and 1 are restored; mode 2 comes back as 1; an exception leaves mode 2 and no history.", "quantifier": "all double back ends, expressions, points a < c of start and end, orders 1 <= order < 2^52, 0 <= m < order, all psa states", "why_tests_cant": "universal over functions and real end points; state leaks show only in later calls.", "anchors": ["kv/defint-singular.hpp:defint_singular", "kv/defint-singular.hpp:div_tn", "kv/defint-singular.hpp:div_reduce", "kv/defint-singular.hpp:defint_singular_r"]}
{"id": "C90", "title": "defint_power3/power/power2_autostep enclose integrals with an algebraic singularity", "statement": "Compiled with DEFINT_FAST == 0: if defint_power3_autostep(h, f, g, start, end, order, power, m, eps) returns v, f > 0 on (a, c] with a zero of order m at a, power*m > -1, h = f^power*g on (a, c], and the ends of the printed steps contain points of (a, c], then the integral of f(x)^power*g(x) from a to c exists and is in v; likewise defint_power_autostep ((x-a)^power*g) and defint_power2_autostep (f^power). With DEFINT_FAST == 1, the default, this is false.", "quantifier": "all double back ends, expressions f, g, h, points a < c of start and end and p of power, orders 1 <= order < 2^52, tolerances, numbers of steps, results of the C library's pow, psa states", "why_tests_cant": "universal over functions and real end points; the missing remainder is small for the high orders used in tests.", "anchors": ["kv/defint-singular.hpp:defint_power3_autostep", "kv/defint-singular.hpp:defint_power_autostep", "kv/defint-singular.hpp:defint_power2_autostep"]}
{"id": "C91", "title": "defint_singular_autostep encloses integrals of functions with a removable singularity", "statement": "If defint_singular_autostep(h, f, start, end, order, eps) returns v then the integral of f from start to end exists and is in v, with DEFINT_FAST == 0 and 1 if f is an expression or div_tn of an expression vanishing to order m at start, and with DEFINT_FAST == 0 if f is div_reduce of two such expressions or div_tn of one times another expression (as in digamma and trigamma). With DEFINT_FAST == 1, the default, div_tn times an expression loses the remainder and the result misses the integral.", "quantifier": "all double back ends, expressions, points a < c of start and end, orders 2 <= order < 2^52, 0 <= m < order - 1, tolerances, numbers of steps, results of the C library's pow, psa states", "why_tests_cant": "universal over functions and real end points; the lost remainder is small for the high orders used in tests.", "anchors": ["kv/defint-singular.hpp:defint_singular_autostep", "kv/psa.hpp:use_history", "kv/gamma.hpp:Digamma2r"]}
{"id": "C92", "title": "defint_log3/log/log2_autostep enclose integrals with a logarithmic singularity", "statement": "Compiled with DEFINT_FAST == 0: if defint_log3_autostep(h, f, g, start, end, order, m, eps) returns v, f > 0 on (a, c] with a zero of order m at a, h = log(f)*g on (a, c], and the ends of the printed steps contain points of (a, c], then the integral of log(f(x))*g(x) from a to c exists and is in v; likewise defint_log_autostep (log(x-a)*g) and defint_log2_autostep (log(f)). This holds when the first step is at most 1 long and is false for longer first steps. With DEFINT_FAST == 1, the default, it is false.", "quantifier": "all double back ends, expressions f, g, h, points a < c of start and end, orders 1 <= order < 2^25, 0 <= m <= 2^50, tolerances, numbers of steps, results of the C library's pow and log, psa states", "why_tests_cant": "universal over functions and real end points; the missing remainder is small for the high orders used in tests, and the step is seldom longer than 1.", "anchors": ["kv/defint-singular.hpp:defint_log3_autostep", "kv/defint-singular.hpp:defint_log_autostep", "kv/defint-singular.hpp:defint_log2_autostep"]}
{"id": "C93", "title": "the right-hand singular integrators with step size control enclose the integral", "statement": "defint_power3_autostep_r, defint_power_autostep_r, defint_power2_autostep_r, defint_log3_autostep_r, defint_log_autostep_r, defint_log2_autostep_r and defint_singular_autostep_r satisfy C90, C92 and C91 with the singularity at the right end c: the integral as a limit at c exists and is in the returned interval (the log versions when the first step is at most 1 long).", "quantifier": "as C90, C91 and C92", "why_tests_cant": "universal over functions and real end points.", "anchors": ["kv/defint-singular.hpp:defint_power3_autostep_r", "kv/defint-singular.hpp:defint_log3_autostep_r", "kv/defint-singular.hpp:defint_singular_autostep_r", "kv/defint-singular.hpp:Defint_Reverse"]}
{"id": "C94", "title": "doubleintegral encloses the double integral", "statement": "When doubleintegral(f, start1, end1, start2, end2, order, n, triangle) returns v, then f is defined on the whole region of integration and the iterated integral of f, over start2 <= y <= end2 and start1 <= x <= end1 (triangle = false) or start1 <= x <= the line from (end1, start2) to (start1, end2) (triangle = true), exists and lies in v, for all real end points in the given intervals. The result does not depend on the modes of the two series types, and a return leaves them as they were.", "quantifier": "for all expressions f in two variables, all intervals as ends, all orders, all numbers of steps, all three ways of rounding", "why_tests_cant": "universal over functions, orders and real end points; a test knows the integral of few functions.", "anchors": ["kv/doubleintegral.hpp:doubleintegral"]}
{"id": "C95", "title": "doubleintegral_triangle encloses the integral over a triangle", "statement": "When doubleintegral_triangle(f, x1, y1, x2, y2, x3, y3, order, n) returns v, then f is defined on the triangle with these corners and the integral of f over it, in the affine coordinates of the triangle with the absolute value of their determinant as weight, exists and lies in v, whatever the orientation of the corners.", "quantifier": "for all expressions f in two variables, all real corners in the given intervals, all orders, all numbers of steps, all three ways of rounding", "why_tests_cant": "universal over functions, orders and real corners.", "anchors": ["kv/doubleintegral.hpp:doubleintegral_triangle", "kv/doubleintegral.hpp:DoubleIntegralTriangleConv"]}
{"id": "C96", "title": "defint_autostep with interval data members in the integrand", "statement": "If the integrand of defint_autostep is a function object holding intervals as data members, and the call returns v, then for all real values of the members in these intervals and all real ends a, c in start and end, the integrand is defined between a and c, its integral from a to c exists and lies in v, for both values of DEFINT_FAST.", "quantifier": "all double back ends, expressions, numbers and values of data members, orders 1 <= order < 2^52, tolerances, numbers of steps, results of the C library's pow, psa states", "why_tests_cant": "universal over functions, parameters and real end points.", "anchors": ["kv/defint.hpp:defint_autostep", "kv/bessel.hpp:Besselj_i"]}
{"id": "C97", "title": "besselj encloses the Bessel function of integer order", "statement": "If besselj(n, x) with an int n returns v, then J_n(y), given by Bessel's integral, lies in v for every real y in x.", "quantifier": "all double back ends, |n| <= 2^31, intervals x, both values of DEFINT_FAST, psa states, results of the C library's pow", "why_tests_cant": "universal over orders and real arguments.", "anchors": ["kv/bessel.hpp:besselj", "kv/bessel.hpp:Besselj_i"]}
{"id": "C98", "title": "defint_power_autostep with data members, and with history lists", "statement": "If defint_power_autostep(h, g, start, end, order, power, eps), where the function objects h and g hold intervals as data members, returns v, and h = (y-a)^p * g on (a, c] for the real values of the members, p in power and a < c in start and end, and the ends of the printed steps contain points of (a, c], then the integral of (y-a)^p * g from a to c exists as a limit and lies in v. Unlike for defint_power3_autostep (C90) this holds for both values of DEFINT_FAST.", "quantifier": "all double back ends, expressions h and g, data members, p > -1, orders 1 <= order < 2^52, tolerances, numbers of steps, results of the C library's pow, psa states", "why_tests_cant": "universal over functions, parameters and real end points; whether the history list drops a remainder shows only for particular integrands.", "anchors": ["kv/defint-singular.hpp:defint_power_autostep", "kv/defint-singular.hpp:defint_power3_autostep"]}
{"id": "C99", "title": "gamma_point and lgamma_point enclose the gamma function", "statement": "If gamma_r(x) returns v, then Gamma(y), Euler's integral of t^(y-1) exp(-t) over (0, oo), lies in v for every real y in x with 1 <= y <= 2. If gamma_point(x) (lgamma_point(x)) returns v, then Gamma(y) (log |Gamma(y)|) lies in v for every real y in x with y <= floor(x.lower()) + 1 that is not 0, -1, -2, ...; gamma_point does not return if there is such a pole.", "quantifier": "all double back ends, intervals x with |floor(x.lower())| < 2^31 - 1, GAMMA_ORDER, cut-off points th >= 1, both values of DEFINT_FAST, psa states, results of the C library's pow", "why_tests_cant": "universal over real arguments; the cut-off of the integral at th is only covered by the term added for the tail.", "anchors": ["kv/gamma.hpp:gamma_r", "kv/gamma.hpp:gamma_point", "kv/gamma.hpp:lgamma_point"]}
{"id": "C100", "title": "gamma encloses the gamma function on an interval", "statement": "If gamma(x) returns v, then Gamma(y) lies in v for every real y in x that is not 0, -1, -2, ..., provided digamma_zero returns an interval that contains 0 or the point between two poles where |Gamma| is lowest.", "quantifier": "all double back ends, intervals x with finite ends of absolute value below 2^31 - 1, and everything in C99", "why_tests_cant": "universal over intervals; the minimum inside the interval is only found through digamma_zero.", "anchors": ["kv/gamma.hpp:gamma"]}
{"id": "C101", "title": "lgamma encloses log |Gamma| on an interval", "statement": "If lgamma(x) returns v, then log |Gamma(y)| lies in v for every real y in x that is not 0, -1, -2, ..., provided digamma_zero returns an interval that contains 0 or the point between two poles where |Gamma| is lowest.", "quantifier": "all double back ends, intervals x with finite ends of absolute value below 2^31 - 1, and everything in C99", "why_tests_cant": "universal over intervals; wrong only for intervals that touch or cross a pole.", "anchors": ["kv/gamma.hpp:lgamma"]}
{"id": "C102", "title": "beta_r encloses Euler's beta integral", "statement": "If beta_r(x, y) returns v, then for all positive reals a in x and c in y the improper integral of t^(a-1) (1-t)^(c-1) over (0,1) exists and lies in v, provided the end of each step the two integrators print lies in the range of integration.", "quantifier": "all double back ends, intervals x and y, integration orders, step-size controls (for any values of the C library's pow), both values of DEFINT_FAST, all numbers of steps", "why_tests_cant": "universal over intervals and over the pow of the C library; a wrong sign in the reflected half or a dropped factor changes only part of the integral.", "anchors": ["kv/beta.hpp:beta_r", "kv/defint-singular.hpp:defint_power_autostep_r"]}
{"id": "C103", "title": "beta encloses the beta function, also for negative arguments", "statement": "If beta(x, y) returns v, then for all reals a in x and c in y, neither 0 nor a negative integer, the value B(a,c) lies in v, where B is Euler's integral for positive arguments and is continued by B(a,c) = (a+c)/a B(a+1,c) and B(a,c) = (a+c)/c B(a,c+1).", "quantifier": "all double back ends, intervals x and y whose lower ends have absolute value below 2^30 - 1, and everything in C102", "why_tests_cant": "the six shift loops depend on the signs of floor(x)-1, floor(y)-1 and of their sum; all combinations and numbers of turns are covered, also those where a + c is 0 or a negative integer.", "anchors": ["kv/beta.hpp:beta"]}
{"id": "C104", "title": "defint_singular_autostep encloses the integral of a quotient whose function objects have interval data members", "statement": "If defint_singular_autostep(h, f, start, end, order, eps), f(t) = p(t) / div_tn(q(t), m), returns v, where h, p and q are function objects with interval data members, q(t) = O((t-a)^m) at the start a and h = p / (q / (t-a)^m) on (a,c], then for all values of the data members in their intervals the integral of h from a to c exists and lies in v. With DEFINT_FAST == 0; with DEFINT_FAST == 1, the default, the integrand of trigamma over [0,1] at x = 2^-10 is missed.", "quantifier": "all double back ends, expressions, data members, points a < c of start and end, orders 2 <= order < 2^52, 0 <= m < order - 1, tolerances, numbers of steps, results of the C library's pow, psa states", "why_tests_cant": "universal over integrands and real parameters; the lost remainder is small for the high orders used in tests.", "anchors": ["kv/defint-singular.hpp:defint_singular_autostep", "kv/gamma.hpp:Trigamma_0"]}
{"id": "C105", "title": "trigamma encloses the trigamma function", "statement": "If trigamma(x) returns v, then for every real y in x, neither 0 nor a negative integer, psi'(y) lies in v, where psi'(y) is the integral of t exp(-yt)/(1-exp(-t)) over (0,oo) for y > 0 and psi'(y) = psi'(y+1) + 1/y^2 for y < 0. With DEFINT_FAST == 0.", "quantifier": "all double back ends, intervals x with finite ends of absolute value below 2^31 - 1, orders 3 <= order < 2^52, numbers of steps, results of the C library's pow, psa states", "why_tests_cant": "universal over intervals and numbers of shift steps; wrong only for intervals that start at a pole.", "anchors": ["kv/gamma.hpp:trigamma_plus", "kv/gamma.hpp:trigamma_point", "kv/gamma.hpp:trigamma"]}
{"id": "C106", "title": "lobachevsky_origin and lobachevsky_point enclose the Lobachevsky function", "statement": "If lobachevsky_origin(x) returns v, then for every real c in x, 0 < c < pi, minus the integral of log(2 sin t) over (0,c) lies in v. If lobachevsky_point(x) returns v, then for every real y in x the value L(y) lies in v, where L is minus that integral on (0,pi), L(0) = 0, odd and of period pi. With DEFINT_FAST == 0, when the end of every step lies in the range of integration and the first step is at most 1 long.", "quantifier": "all double back ends, intervals x, orders 1 <= order < 2^25, numbers of subtractions of pi, numbers of steps, results of the C library's pow and log, psa states", "why_tests_cant": "universal over intervals, orders and numbers of reductions; the loss of the remainder with DEFINT_FAST == 1 shows only against the exact integral.", "anchors": ["kv/lobachevsky.hpp:lobachevsky_origin", "kv/lobachevsky.hpp:lobachevsky_point"]}
{"id": "C107", "title": "lobachevsky encloses the range of the Lobachevsky function", "statement": "If lobachevsky(x) returns v, then L(y) lies in v for every real y in x (L as in C106). With DEFINT_FAST == 0, when the three calls of lobachevsky_point meet the conditions of C106.", "quantifier": "all double back ends, intervals x with a finite lower end, numbers of turns of the reduction, orders 1 <= order < 2^25, psa states", "why_tests_cant": "universal over intervals; needs the exact extremal points, the period and the largest value of the function.", "anchors": ["kv/lobachevsky.hpp:lobachevsky"]}
{"id": "C108", "title": "Odescale encloses the unit direction of the extended system", "statement": "Let Odescale be built from f, whose value encloses F. If operator()(x, t) returns v, then for every real point (y, s) in x the vector of length 1 that is a positive multiple of (F(y,s), 1) exists, is unique and lies in v. If f returns a vector in which no component has values of both signs, no exception is thrown and v has the size of x.", "quantifier": "all double back ends, function objects f, vectors x, dimensions", "why_tests_cant": "universal over the function object and all points of the interval vector; a rounding error in one component is not visible in the solution of the ODE.", "anchors": ["kv/odescale.hpp:Odescale::operator()"]}
{"id": "C109", "title": "double_newtoncotes encloses the iterated integral", "statement": "If double_newtoncotes(f, start1, end1, start2, end2, n, m1, m2) returns r, f encloses a function F that has partial derivatives of every order on the rectangle and the ranges of the derivatives of order errord[n] are right, then for all real limits in start1, end1, start2, end2 the iterated integral of F lies in r. n outside 1..7 throws.", "quantifier": "all double back ends, function objects, rectangles in any orientation, rules n, numbers of steps", "why_tests_cant": "universal over the integrand and the real limits; a wrong error constant shows only on integrands with a large derivative of that order.", "anchors": ["kv/double-newtoncotes.hpp:double_newtoncotes"]}
{"id": "C110", "title": "doubleint_curvededge encloses the integral between two curves", "statement": "If doubleint_curvededge(f, el, eh, start, end, n, m1, m2) returns r, f encloses F on the region between the curves, el and eh enclose L and H, and the ranges of the derivatives of the converted integrand are right, then for all real a in start and c in end the integral from a to c of the integral of F(x, .) from L(x) to H(x) lies in r, also where H < L. The same for doubleint_curvededge_s with x and y exchanged.", "quantifier": "all double back ends, function objects f, el, eh, limits in any orientation, rules n, numbers of steps", "why_tests_cant": "universal over the integrand, the two curves and the real limits.", "anchors": ["kv/doubleint-curvededge.hpp:doubleint_curvededge", "kv/doubleint-curvededge.hpp:doubleint_curvededge_s", "kv/doubleint-curvededge.hpp:Convert_Curved_Edge"]}
