{"id": "C01", "title": "gcd is the greatest common divisor", "statement": "gcem::gcd(a,b) of integral arguments returns the mathematical greatest common divisor of a and b (0 for two zeros), with no undefined behaviour and a bounded recursion depth, whenever |a| and |b| are representable in their types and in the common type.", "quantifier": "all integral types accepted by the template, all pairs of values", "why_tests_cant": "the argument space is 2^128 pairs and the claim includes termination and absence of overflow", "anchors": ["include/gcem_incl/gcd.hpp: gcd, gcd_recur", "include/gcem_incl/abs.hpp: abs"]}
{"id": "C02", "title": "lcm is the least common multiple", "statement": "gcem::lcm(a,b) returns the least common multiple of a and b whenever not both are zero and the true result fits the common type; no intermediate overflow occurs in that case.", "quantifier": "all integral types accepted by the template, all pairs of values", "why_tests_cant": "overflow of the intermediate product depends on the pair and cannot be sampled exhaustively", "anchors": ["include/gcem_incl/lcm.hpp: lcm, lcm_compute"]}
{"id": "C03", "title": "lcm handles zero arguments", "statement": "The least common multiple of 0 and 0 is 0, so gcem::lcm(0,0) should be 0. It is not: for every pair of integral types gcem::lcm(0,0) divides by zero (undefined behaviour). With exactly one zero argument the result is 0 (C02).", "quantifier": "all pairs including zeros", "why_tests_cant": "a missing guard is visible only at one point of the domain; undefined behaviour may look fine in a run", "anchors": ["include/gcem_incl/lcm.hpp: lcm_compute"]}
{"id": "C04", "title": "factorial of integers is exact", "statement": "gcem::factorial(x) of an integral argument x >= 0 returns x! exactly whenever x! fits the argument type, with recursion depth bounded by x.", "quantifier": "all integral types and all x >= 0 with x! representable", "why_tests_cant": "type-dependent conversion of the table entries has to be right for each of the eight types", "anchors": ["include/gcem_incl/factorial.hpp: factorial, factorial_table, factorial_recur"]}
{"id": "C05", "title": "factorial never returns a wrong number silently", "statement": "For an integral argument gcem::factorial should return x! or no value. It does return wrong values: for 0 <= x <= 20 the result is x! reduced to the argument type (so factorial(13) is wrong for int), and for every negative x it is 20! reduced to the argument type.", "quantifier": "all integral types and all values of the type", "why_tests_cant": "the failing inputs (negative values, 13..20 for int) are outside the domain a unit test covers", "anchors": ["include/gcem_incl/factorial.hpp: factorial_table"]}
{"id": "C06", "title": "binomial coefficient is exact", "statement": "gcem::binomial_coef(n,k) of integral arguments 0 <= n, 0 <= k returns n choose k exactly (0 when k > n) whenever n choose k fits the common type; every intermediate sum then fits as well, and the recursion depth is at most n+1.", "quantifier": "all integral types accepted by the template, all 0 <= n, 0 <= k", "why_tests_cant": "the recursion is exponential, so large arguments cannot be run; overflow freedom is a claim on all intermediate sums", "anchors": ["include/gcem_incl/binomial_coef.hpp: binomial_coef_recur"]}
{"id": "C07", "title": "integer power is exact", "statement": "gcem::pow(b,n) with integral base and integral exponent n >= 0 equals b^n whenever b^n fits the base type; no intermediate product overflows in that case.", "quantifier": "all integral base and exponent types accepted by the template, all bases and all n >= 0", "why_tests_cant": "square-and-multiply may compute squares larger than the final result; only a proof shows it never does", "anchors": ["include/gcem_incl/pow_integral.hpp: pow_integral_compute, pow_integral_compute_recur", "include/gcem_incl/pow.hpp: pow"]}
{"id": "C08", "title": "integer power with a negative exponent truncates toward zero", "statement": "gcem::pow(b,n) with integral base b and n < 0 is the quotient 1/b^|n| truncated toward zero, for b <> 0 whenever b^|n| fits the base type.", "quantifier": "all integral types, all b <> 0 and n < 0", "why_tests_cant": "the claim covers all exponents of the type including its extreme values", "anchors": ["include/gcem_incl/pow_integral.hpp: pow_integral_sgn_check"]}
{"id": "C09", "title": "floating power with integral exponent is well conditioned", "statement": "gcem::pow(x,n) with floating-point base and integral exponent n >= 0 has relative error at most 2n units of rounding (n 2^(1-p)) when x^n lies between 2^(3-emax) and 2^(emax-1) in magnitude, and for n < 0 relative error at most (4|n|+2) 2^-p when x^|n| is in that range, for |n| up to about 2^(p-3).", "quantifier": "all finite bases, all exponents of all integral types", "why_tests_cant": "rounding errors accumulate along the recursion; tests sample a few (x,n) pairs", "anchors": ["include/gcem_incl/pow_integral.hpp: pow_integral_compute_recur"]}
{"id": "C10", "title": "x to the power 0, 1, 2, 3", "statement": "gcem::pow(x,0)=1 for every x including NaN and infinities, pow(x,1)=x, pow(x,2)=x*x, pow(x,3)=x*x*x, for every integral exponent type.", "quantifier": "all floating-point values and integral exponent types", "why_tests_cant": "must hold for all 2^64 doubles", "anchors": ["include/gcem_incl/pow_integral.hpp: pow_integral_compute"]}
{"id": "C11", "title": "extreme exponents are ordinary exponents", "statement": "gcem::pow(x,n) with n the largest or smallest value of the exponent type should still be x^n. It is not: for n the largest value the result is +infinity for every floating-point base and 0 for every integral base; for n the smallest value of a signed type the result is 0 for every base (so pow(1.0, INT_MAX) = inf).", "quantifier": "all bases, exponents n = max or min of the exponent type", "why_tests_cant": "unit tests do not use INT_MAX or an int8_t exponent", "anchors": ["include/gcem_incl/pow_integral.hpp: pow_integral_compute"]}
{"id": "C12", "title": "abs and sgn on integers", "statement": "gcem::abs(x) of an integral x is |x| whenever that is representable, and gcem::sgn(x) is the sign of x. For the most negative value of a signed type, abs is undefined (overflow) if the type is at least as wide as int and returns the argument itself, a negative number, for narrower types.", "quantifier": "all integral types, all values", "why_tests_cant": "all values of all types, including the undefined one", "anchors": ["include/gcem_incl/abs.hpp: abs", "include/gcem_incl/sgn.hpp: sgn"]}
{"id": "C13", "title": "max and min on integers of one signedness", "statement": "gcem::max(a,b) and gcem::min(a,b) return the larger and the smaller value whenever both values are representable in the common type.", "quantifier": "all pairs of integral types and values", "why_tests_cant": "type promotion for all 64 pairs of types", "anchors": ["include/gcem_incl/max.hpp: max", "include/gcem_incl/min.hpp: min"]}
{"id": "C14", "title": "max and min on mixed signedness", "statement": "gcem::max and gcem::min of integers of different signedness should compare the mathematical values. They do not: for a negative int a and an unsigned b, a is replaced by a + 2^32 both in the comparison and in the result, so max(-1, 1u) = 4294967295.", "quantifier": "all pairs of integral types and values", "why_tests_cant": "needs the pair of types and a negative value", "anchors": ["include/gcem_incl/max.hpp: max", "include/gcem_incl/min.hpp: min"]}
{"id": "C15", "title": "floor is the exact integer floor", "statement": "gcem::floor(x) of a finite floating-point x that is zero or normal returns exactly the largest integer not above x, in every format, without undefined integer conversions; NaN and infinities are returned as such.", "quantifier": "float, double, long double; all finite zero or normal values", "why_tests_cant": "thresholds and integer casts must be right for all values of three formats", "anchors": ["include/gcem_incl/floor.hpp: floor, floor_check, floor_check_internal, floor_int"]}
{"id": "C16", "title": "ceil is the exact integer ceiling", "statement": "gcem::ceil(x) of a finite floating-point x that is zero or normal returns exactly the smallest integer not below x; NaN and infinities are returned as such.", "quantifier": "float, double, long double; all finite zero or normal values", "why_tests_cant": "as for floor", "anchors": ["include/gcem_incl/ceil.hpp: ceil, ceil_check, ceil_int"]}
{"id": "C17", "title": "trunc is exact truncation toward zero", "statement": "gcem::trunc(x) of a finite floating-point x that is zero or normal returns exactly x truncated toward zero; NaN and infinities are returned as such.", "quantifier": "float, double, long double; all finite zero or normal values", "why_tests_cant": "as for floor", "anchors": ["include/gcem_incl/trunc.hpp: trunc, trunc_check, trunc_int"]}
{"id": "C18", "title": "round is exact rounding, halves away from zero", "statement": "gcem::round(x) of a finite floating-point x that is zero or normal returns exactly the nearest integer to x, halves away from zero; NaN and infinities are returned as such.", "quantifier": "float, double, long double; all finite zero or normal values", "why_tests_cant": "0.49999999999999994-type inputs break the naive algorithm; all values must be covered", "anchors": ["include/gcem_incl/round.hpp: round, round_check, round_int"]}
{"id": "C19", "title": "rounding functions return integers", "statement": "gcem::floor, ceil, trunc and round of a finite argument should return an integer. They do not for subnormal arguments: every non-zero x with |x| below the smallest normal number is returned unchanged by all four functions. For all other finite arguments the result is an integer (C15-C18).", "quantifier": "all finite values of all formats, including subnormals", "why_tests_cant": "the failing values are the subnormals", "anchors": ["include/gcem_incl/floor.hpp: floor_check", "include/gcem_incl/ceil.hpp: ceil_check", "include/gcem_incl/trunc.hpp: trunc_check", "include/gcem_incl/round.hpp: round_check"]}
{"id": "C20", "title": "rounding of integral arguments is the identity", "statement": "For an argument of integral type, floor, ceil, trunc and round return the argument converted to double.", "quantifier": "all integral types and values", "why_tests_cant": "64-bit values are rounded by the conversion first; all of them must be fixpoints", "anchors": ["include/gcem_incl/floor.hpp: floor", "include/gcem_incl/ceil.hpp: ceil", "include/gcem_incl/trunc.hpp: trunc", "include/gcem_incl/round.hpp: round"]}
{"id": "C21", "title": "fmod is exact for integer-valued operands", "statement": "gcem::fmod(x,y) with integer-valued x, y of magnitude below 2^p (p the precision), y <> 0, returns exactly the remainder x - y*trunc(x/y), which has the sign of x and magnitude below |y|.", "quantifier": "all formats, all integer-valued operands below 2^p, in particular all 32-bit integral arguments", "why_tests_cant": "the quotient is rounded before truncation; whether that can cross an integer is a claim on all pairs", "anchors": ["include/gcem_incl/fmod.hpp: fmod, fmod_check"]}
{"id": "C22", "title": "fmod result is smaller than the divisor", "statement": "gcem::fmod(x,y) of finite operands, y <> 0, should have magnitude below |y|. It does not: there are finite doubles for which the result has magnitude at least |y|. For integer-valued operands below 2^p the bound holds (C21).", "quantifier": "all finite operands", "why_tests_cant": "the failing quotients exceed 2^p", "anchors": ["include/gcem_incl/fmod.hpp: fmod_check"]}
{"id": "C23", "title": "sign functions on floating-point values", "statement": "gcem::abs clears the sign, gcem::sgn is -1, 0, 1 by the sign of the value (0 for both zeros and NaN), gcem::signbit is the sign bit, and gcem::copysign(x,y) has the magnitude of x and the sign bit of y.", "quantifier": "all floating-point values (including signed zeros, infinities, NaN)", "why_tests_cant": "all 2^64 values", "anchors": ["include/gcem_incl/abs.hpp: abs", "include/gcem_incl/sgn.hpp: sgn", "include/gcem_incl/signbit.hpp: signbit", "include/gcem_incl/copysign.hpp: copysign"]}
{"id": "C24", "title": "max and min on floating-point values", "statement": "gcem::max(x,y) of non-NaN operands is one of them and not below either (dually min); operands of different floating-point types are compared in the wider type.", "quantifier": "all non-NaN operands of all formats", "why_tests_cant": "all pairs of values", "anchors": ["include/gcem_incl/max.hpp: max", "include/gcem_incl/min.hpp: min"]}
{"id": "C25", "title": "max and min treat NaN symmetrically", "statement": "gcem::max(x,y) and gcem::max(y,x) should agree when one operand is NaN. They do not: max and min return the second operand whenever either operand is NaN, for every x.", "quantifier": "all pairs with one NaN", "why_tests_cant": "NaN comparisons are asymmetric in the code", "anchors": ["include/gcem_incl/max.hpp: max", "include/gcem_incl/min.hpp: min"]}
{"id": "C26", "title": "NaN propagates", "statement": "Each function of floating-point arguments (rounding functions, sqrt, inv_sqrt, hypot, fmod, exp, expm1, log family, pow with floating exponent, trigonometric and hyperbolic functions and inverses, gamma, beta, erf and incomplete families) returns NaN when an argument is NaN.", "quantifier": "all formats, all values of the remaining arguments", "why_tests_cant": "every comparison branch must be excluded for NaN and all co-arguments", "anchors": ["include/gcem_incl/is_nan.hpp: is_nan, any_nan", "all *_check functions"]}
{"id": "C27", "title": "domain errors give NaN", "statement": "Arguments outside the domain yield NaN: sqrt, inv_sqrt and log of negative values, asin, acos, atanh and erf_inv outside [-1,1], acosh below 1, pow of a negative base with floating exponent, incomplete_gamma with a < 0, incomplete_gamma_inv with p > 1, lmgamma with p < 1, tgamma at negative integers.", "quantifier": "all formats, all arguments outside the domain", "why_tests_cant": "unbounded input ranges", "anchors": ["include/gcem_incl/sqrt.hpp: sqrt_check", "include/gcem_incl/log.hpp: log_check", "include/gcem_incl/asin.hpp: asin_check", "include/gcem_incl/acos.hpp: acos_check", "include/gcem_incl/pow.hpp: pow_check", "include/gcem_incl/tgamma.hpp: tgamma_check"]}
{"id": "C28", "title": "limits at infinity, zero and one", "statement": "exp(-inf)=0, exp(+inf)=+inf, exp(0)=1, log(0)=-inf, log(1)=0, log(+inf)=+inf, sqrt(0)=0, sqrt(+inf)=+inf, inv_sqrt(+inf)=0, hypot with an infinity=+inf, atan(+-inf)=+-pi/2, erf(+-inf)=+-1, erf_inv(+-1)=+-inf, atanh(+-1)=+-inf, acosh(1)=0, lgamma(1)=0, tgamma(1)=1, tgamma(0)=inf, and the incomplete functions return 0 at 0.", "quantifier": "all formats, both zeros, subnormal arguments, both language standards", "why_tests_cant": "the branch order decides, for every format and every other argument", "anchors": ["include/gcem_incl/exp.hpp: exp_check", "include/gcem_incl/log.hpp: log_check", "include/gcem_incl/erf.hpp: erf_check", "include/gcem_incl/hypot.hpp: hypot_vals_check"]}
{"id": "C29", "title": "evaluation is total and free of undefined behaviour", "statement": "floor, ceil, trunc, round, fmod, sqrt, inv_sqrt, hypot, log, log1p, log2, log10, tan, sin, cos, atan, atan2, asin, acos, tanh, asinh, acosh, atanh, lgamma, log_binomial_coef, and lbeta with at least one floating-point argument, return a value, without undefined behaviour and with bounded recursion, for every argument including NaN, infinities, zeros and subnormals. lbeta of two integral arguments does not: lbeta(INT_MAX, 1) overflows.", "quantifier": "all formats, both language standards, all values", "why_tests_cant": "one undefined cast in 2^64 inputs is enough; runs cannot show its absence", "anchors": ["all *_check functions", "include/gcem_incl/find_exponent.hpp: find_exponent", "include/gcem_incl/mantissa.hpp: mantissa", "include/gcem_incl/sqrt.hpp: sqrt_recur, sqrt_simplify"]}
{"id": "C30", "title": "exp is total", "statement": "gcem::exp(x) returns a value without undefined behaviour for NaN, the infinities and every finite x with |x| <= 2^63 - 1. For every finite x >= 2^63 or x < -2^63 it is undefined behaviour (conversion of a too large value to an integer), in every format and language version, although exp(+-inf) is handled.", "quantifier": "all formats, all values", "why_tests_cant": "the failing arguments exceed 2^63", "anchors": ["include/gcem_incl/exp.hpp: exp_split", "include/gcem_incl/find_whole.hpp: find_whole"]}
{"id": "C31", "title": "bounded recursion depth of the scaling loops", "statement": "The scaling recursions used by log and sqrt end after a bounded number of calls for every positive finite argument: at most 340 for double, well below the 512 levels compilers allow in constant evaluation.", "quantifier": "all positive finite values of each format", "why_tests_cant": "depth depends on the exponent of the argument; the extreme values decide", "anchors": ["include/gcem_incl/mantissa.hpp: mantissa", "include/gcem_incl/find_exponent.hpp: find_exponent", "include/gcem_incl/sqrt.hpp: sqrt_simplify, sqrt_recur"]}
{"id": "C32", "title": "|sin| and |cos| never exceed 1", "statement": "gcem::sin(x) and gcem::cos(x) are NaN or lie in [-1,1], bit-exactly, for every argument and format.", "quantifier": "all formats, all values", "why_tests_cant": "rounding in 2t/(1+t^2) could exceed 1 for some t; all t must be covered", "anchors": ["include/gcem_incl/sin.hpp: sin_compute", "include/gcem_incl/cos.hpp: cos_compute"]}
{"id": "C33", "title": "odd functions are odd", "statement": "tan, sin, atan, asin, tanh, erf and sinh satisfy f(-x) = -f(x) exactly (up to the sign of zero) for every x.", "quantifier": "all formats, both language standards, all values", "why_tests_cant": "bit equality on all 2^64 inputs", "anchors": ["include/gcem_incl/tan.hpp: tan_check", "include/gcem_incl/sin.hpp: sin_check", "include/gcem_incl/atan.hpp: atan_check", "include/gcem_incl/tanh.hpp: tanh_check", "include/gcem_incl/erf.hpp: erf_check", "include/gcem_incl/sinh.hpp: sinh_check"]}
{"id": "C34", "title": "even functions are even", "statement": "cos and cosh satisfy f(-x) = f(x) exactly for every x.", "quantifier": "all formats, both language standards, all values", "why_tests_cant": "bit equality on all inputs", "anchors": ["include/gcem_incl/cos.hpp: cos_check", "include/gcem_incl/cosh.hpp: cosh_compute"]}
{"id": "C35", "title": "asinh is odd", "statement": "asinh is an odd function, so gcem::asinh(-x) should equal -gcem::asinh(x). It does not: in every format there is a finite x (2^40) for which asinh(x) is finite and asinh(-x) is -infinity.", "quantifier": "all formats, all values", "why_tests_cant": "fails only for large |x| where x + sqrt(x^2+1) cancels", "anchors": ["include/gcem_incl/asinh.hpp: asinh_compute"]}
{"id": "C36", "title": "beta functions are symmetric", "statement": "gcem::beta(a,b)=gcem::beta(b,a) and gcem::lbeta(a,b)=gcem::lbeta(b,a) exactly, for every pair of arguments of any arithmetic types.", "quantifier": "all pairs of arguments", "why_tests_cant": "commutativity must hold through conversions for all type pairs and values", "anchors": ["include/gcem_incl/lbeta.hpp: lbeta", "include/gcem_incl/beta.hpp: beta"]}
{"id": "C37", "title": "hypot is symmetric", "statement": "gcem::hypot(x,y) should equal gcem::hypot(y,x). It does not: whenever |y| >= 2^(emax/2) |x| with x, y finite and x not below the normal range, hypot(x,y) = +infinity and hypot(y,x) = |y|.", "quantifier": "all pairs of values", "why_tests_cant": "fails when y/x overflows", "anchors": ["include/gcem_incl/hypot.hpp: hypot_compute"]}
{"id": "C38", "title": "C++11 and C++14 builds agree", "statement": "The header compiled as C++11 (recursions) and as C++14 or later (loops) returns the same bits, for every function that does not go through the large-argument series of atan.", "quantifier": "all functions with two implementations, all formats, all values", "why_tests_cant": "two builds must agree on all inputs", "anchors": ["include/gcem_incl/exp.hpp: exp_cf_recur", "include/gcem_incl/log.hpp: log_cf_main", "include/gcem_incl/tanh.hpp: tanh_cf", "include/gcem_incl/erf.hpp: erf_cf_large_recur, erf_cf_small_recur", "include/gcem_incl/atan.hpp: atan_cf_recur"]}
{"id": "C39", "title": "C++11 and C++14 builds agree on atan", "statement": "gcem::atan should return the same bits under C++11 and C++14. It does not: there is a finite double (about 3.046648) for which the two builds return different numbers.", "quantifier": "all values", "why_tests_cant": "the two variants sum a series in different orders; the difference shows on particular inputs only", "anchors": ["include/gcem_incl/atan.hpp: atan_series_order"]}
{"id": "C40", "title": "sqrt is accurate", "statement": "gcem::sqrt(x) has relative error at most 1.7 * 2^-p for every normal x with 2^-170 <= x <= 100 and at most (4 + ln(x)/10) * 2^-p for every finite x > 100, in every format of precision p.", "quantifier": "all formats, all normal x >= 2^-170", "why_tests_cant": "Newton iteration with an iteration cap; convergence for every start value is a universal claim", "anchors": ["include/gcem_incl/sqrt.hpp: sqrt_check, sqrt_simplify, sqrt_recur"]}
{"id": "C41", "title": "sqrt is accurate for tiny arguments", "statement": "gcem::sqrt(x) should be accurate for every positive normal x. It is not: for every normal x <= 2^-210 (about 6e-64) the iteration limit is reached first and the result is more than 32 times the square root.", "quantifier": "all formats, all normal x <= 2^-210", "why_tests_cant": "fails only below about 2^-190, where the iteration cap is hit", "anchors": ["include/gcem_incl/sqrt.hpp: sqrt_recur"]}
{"id": "C42", "title": "exp is accurate", "statement": "gcem::exp(x) agrees with the real exponential in every format, with u = 2^-p: relative error at most 8u + 2^-55 for |x| <= 1/2, 106u + 2^-55 for |x| < 2, 10u + 2^-54 + (x+3) 2^-61 for x >= 2, and 108u + 2^-54 + (3-x) 2^-61 for x <= -2, up to the point where e^|x| comes within e^2 2^9 of overflow (|x| <= 701 in double).", "quantifier": "all formats, both language standards, all x in the stated ranges", "why_tests_cant": "the continued fraction is truncated and rounded at every level; accuracy for all x is a claim on a continuum", "anchors": ["include/gcem_incl/exp.hpp: exp_cf, exp_cf_recur, exp_split"]}
{"id": "C43", "title": "exp is never negative or NaN", "statement": "gcem::exp(x) of a finite x with |x| <= 2^63 - 1 is never NaN and never negative; it is +infinity once e^x exceeds 2^(emax+4), and for x < 0 it is finite and at most 5 e^x plus a few subnormal units (so it goes to 0).", "quantifier": "all formats, all x", "why_tests_cant": "must hold for all values", "anchors": ["include/gcem_incl/exp.hpp: exp_check"]}
{"id": "C44", "title": "log is accurate for arguments not below 1/2", "statement": "gcem::log(x) has relative error at most 5.6 * 2^-p for every finite x >= 1/2, in every format of precision p and both language versions; for an integral argument n >= 1 of any type the relative error is at most 5.8 * 2^-53.", "quantifier": "all formats, all finite x >= 1/2; all integral types, all n >= 1", "why_tests_cant": "mantissa and exponent extraction by repeated division accumulates rounding; 2^62 inputs", "anchors": ["include/gcem_incl/log.hpp: log_check, log_breakup, log_main"]}
{"id": "C45", "title": "log is accurate for small arguments", "statement": "gcem::log(x) should agree with the real logarithm for every normal x in (0,1/2). It does not: in every format there is such an x, next to a power of ten (0.01f, 1e-12, 0.1L), where the result is off by at least 2. Away from the powers of ten (1.00001 <= x 10^k <= 9.9999) the relative error is at most 22 * 2^-p, and 12 * 2^-p for x < 1/10.", "quantifier": "all formats, all normal x in (0,1/2), both language versions", "why_tests_cant": "wrong by ln 10 at isolated points next to powers of ten", "anchors": ["include/gcem_incl/log.hpp: log_breakup", "include/gcem_incl/mantissa.hpp: mantissa", "include/gcem_incl/find_exponent.hpp: find_exponent"]}
{"id": "C46", "title": "log of an integral argument", "statement": "gcem::log(n) of an integral n should equal gcem::log of n converted to double. It does for every n >= 0 of every integral type. For every negative n it does not: the integral version returns 0, the double version NaN.", "quantifier": "all integral types and values", "why_tests_cant": "the failing values are negative, outside tests", "anchors": ["include/gcem_incl/log.hpp: log_integral_check"]}
{"id": "C47", "title": "functions of integral arguments equal the double version", "statement": "For integral arguments, the functions returning return_t give exactly the value of the double overload at the converted argument.", "quantifier": "all unary functions, all integral types and values", "why_tests_cant": "all overload/type combinations", "anchors": ["include/gcem_incl/gcem_options.hpp: return_t"]}
{"id": "C48", "title": "atan is accurate and bounded", "statement": "gcem::atan(x) agrees with the real arctangent for every finite x that is not below the normal range (|x| >= 2^(2-emax)), in every format and both language versions, with u = 2^-p: relative error at most 8u + 2^-54, and at most 8u + 2^-57 for |x| < 2. Its magnitude never exceeds pi/2 + u, for every finite x.", "quantifier": "all formats, all finite x not below the normal range, both language standards", "why_tests_cant": "argument ranges with different term counts; accuracy on a continuum", "anchors": ["include/gcem_incl/atan.hpp: atan_check, atan_cf_main, atan_series_main"]}
{"id": "C49", "title": "tan, sin and cos are accurate near the origin", "statement": "In every format, with u = 2^-p, the relative error of gcem::tan(x) is at most 4u + 2^-80 for |x| <= 1 and 36u + 2^-80 for |x| <= 3/2; that of gcem::sin(x) is at most 10u + 2^-79 for |x| <= 2 and 42u + 2^-79 for |x| <= 3 (x not below the normal range); the absolute error of gcem::cos(x) is at most 11u + 2^-79 for |x| <= 2 and 43u + 2^-79 for |x| <= 3.", "quantifier": "all formats, all x in the stated ranges", "why_tests_cant": "continued fraction truncated at fixed depth, rounding at each level", "anchors": ["include/gcem_incl/tan.hpp: tan_cf_main, tan_cf_recur", "include/gcem_incl/sin.hpp: sin_compute", "include/gcem_incl/cos.hpp: cos_compute"]}
{"id": "C50", "title": "tanh stays within [-1,1]", "statement": "tanh is bounded by 1, so gcem::tanh(x) should lie in [-1,1]. It does not: gcem::tanh(100) is a finite number above 1 in every format and language version.", "quantifier": "all values", "why_tests_cant": "fails for large |x| only", "anchors": ["include/gcem_incl/tanh.hpp: tanh_begin, tanh_cf"]}
{"id": "C51", "title": "tanh is accurate for moderate arguments", "statement": "In every format and both language versions, with u = 2^-p, the relative error of gcem::tanh(x) is at most 3u + 2^-96 for |x| <= 1, 14u + 2^-66 for |x| <= 20 and 16u + 2^-54 for |x| <= 25 (x not below the normal range).", "quantifier": "all formats, all x in the stated ranges, both language standards", "why_tests_cant": "continued fraction truncated at depth 35", "anchors": ["include/gcem_incl/tanh.hpp: tanh_cf"]}
{"id": "C52", "title": "hypot does not overflow", "statement": "gcem::hypot(x,y) should be finite whenever sqrt(x^2+y^2) is representable. It is not: whenever |y| >= 2^(emax/2) |x| with x, y finite and x not below the normal range, hypot(x,y) = +infinity.", "quantifier": "all finite operands", "why_tests_cant": "fails only for extreme ratios", "anchors": ["include/gcem_incl/hypot.hpp: hypot_compute"]}
{"id": "C53", "title": "atan2 follows the documented quadrant table", "statement": "gcem::atan2(y,x) returns the documented values at the origin (for each combination of signed zeros) and on the y-axis; off the axis it is atan(y/x) for x > 0, atan(y/x) - pi for x < 0, y < 0, and atan(y/x) + pi for x < 0 and y not below zero. The documented sign for a negative zero y is not respected: atan2(-0, x) = +pi for x < 0.", "quantifier": "all pairs of values, all formats", "why_tests_cant": "sixteen sign/zero combinations times all magnitudes", "anchors": ["include/gcem_incl/atan2.hpp: atan2_compute"]}
{"id": "C54", "title": "acos reflects", "statement": "gcem::acos(-x) = pi - gcem::acos(x), computed in the argument type, for every x in (0,1].", "quantifier": "all formats, all x in (0,1]", "why_tests_cant": "bit equality on all inputs", "anchors": ["include/gcem_incl/acos.hpp: acos_check, acos_compute"]}
{"id": "C55", "title": "inv_sqrt accuracy", "statement": "gcem::inv_sqrt(x) has relative error at most 2.2 * 2^-p for every x with 2^-58 <= x <= 2^58, in every format of precision p.", "quantifier": "all formats, all x in [2^-58, 2^58]", "why_tests_cant": "an error bound over all values in a range", "anchors": ["include/gcem_incl/inv_sqrt.hpp: inv_sqrt_recur"]}
{"id": "C56", "title": "inv_sqrt is accurate for extreme arguments", "statement": "gcem::inv_sqrt(x) should be accurate for every positive normal x. It is not: for every normal x <= 2^-80 and every finite x >= 2^80 the result is +infinity or at least 2^19 times the inverse square root.", "quantifier": "all formats, all normal x outside (2^-80, 2^80)", "why_tests_cant": "fails only where the iteration cap is hit", "anchors": ["include/gcem_incl/inv_sqrt.hpp: inv_sqrt_recur"]}
{"id": "C57", "title": "hypot accuracy", "statement": "gcem::hypot(x,y) of normal operands has relative error at most 4.8 * 2^-p when |y| <= 9|x|, and at most (7.1 + ln(1+(y/x)^2)/10) * 2^-p when |y| <= 2^(emax/2-2) |x|, whenever sqrt(x^2+y^2) <= 2^(emax-1).", "quantifier": "all formats, all pairs of normal operands in those ranges", "why_tests_cant": "an error bound over all pairs", "anchors": ["include/gcem_incl/hypot.hpp: hypot_compute"]}
{"id": "C58", "title": "log2 and log10 accuracy", "statement": "gcem::log2(x) and gcem::log10(x) have relative error at most 7.7 * 2^-p for every finite x >= 1/2, in every format of precision p and both language versions.", "quantifier": "all formats, all finite x >= 1/2", "why_tests_cant": "an error bound over all values in a range", "anchors": ["include/gcem_incl/log2.hpp: log2_check", "include/gcem_incl/log10.hpp: log10_check", "include/gcem_incl/log.hpp: log_check"]}
{"id": "C59", "title": "log10 is accurate for small arguments", "statement": "gcem::log10(x) should agree with the decimal logarithm for 0 < x < 1/2. It does not: in every format there is a normal x in (0,1/2) whose computed decimal logarithm is off by at least 0.999; gcem::log10(0.01f) = -1.", "quantifier": "all formats, both language versions", "why_tests_cant": "wrong only at isolated values next to powers of ten", "anchors": ["include/gcem_incl/log10.hpp: log10_check", "include/gcem_incl/log.hpp: log_breakup", "include/gcem_incl/find_exponent.hpp: find_exponent"]}
{"id": "C60", "title": "log1p accuracy", "statement": "In every format of precision p, gcem::log1p(x) has relative error at most 2.3 * 2^-p for every normal x with |x| <= 9.999e-5, and absolute error at most (1.1 + 5.7 |ln(1+x)|) * 2^-p for every finite x >= -1/2.", "quantifier": "all formats, all x in the stated ranges", "why_tests_cant": "an error bound over all values in a range", "anchors": ["include/gcem_incl/log1p.hpp: log1p_check, log1p_compute"]}
{"id": "C61", "title": "log1p keeps relative accuracy beyond the series range", "statement": "gcem::log1p(x) should keep a small relative error for x just above 1e-4, since that is what log1p is for. It does not: in every format there is an x in [1e-4, 1.25e-4] with relative error at least 8000 * 2^-p.", "quantifier": "all formats, both language versions", "why_tests_cant": "needs knowledge of the exact value to more digits than the format has", "anchors": ["include/gcem_incl/log1p.hpp: log1p_check"]}
{"id": "C62", "title": "expm1 accuracy", "statement": "In every format of precision p with u = 2^-p, gcem::expm1(x) has relative error at most 2.3u for every normal x with |x| <= 9.999e-5, absolute error at most (8u + 2^-55) e^x for |x| <= 1/2, and relative error at most 13u + 2^-53 + (x+3) 2^-60 for x >= 2 and 19u + 2^-56 + (3-x) 2^-63 for x <= -2, up to the point where e^|x| comes within e^2 2^9 of overflow.", "quantifier": "all formats, all x in the stated ranges", "why_tests_cant": "an error bound over all values in a range", "anchors": ["include/gcem_incl/expm1.hpp: expm1_check, expm1_compute"]}
{"id": "C63", "title": "expm1 keeps relative accuracy beyond the series range", "statement": "gcem::expm1(x) should keep a small relative error for x just above 1e-4. It does not: in every format there is an x in [1e-4, 1.25e-4] with relative error at least 8000 * 2^-p.", "quantifier": "all formats, both language versions", "why_tests_cant": "needs knowledge of the exact value to more digits than the format has", "anchors": ["include/gcem_incl/expm1.hpp: expm1_check"]}
{"id": "C64", "title": "pow with a real exponent is accurate", "statement": "gcem::pow(x,y) with a floating-point exponent y and base x >= 1/2 (floating-point of any format, or an integer n with 1 <= n <= 2^p) agrees with the real power x^y. With T = y ln x and u = 2^-p for the wider of the two formats, the relative error is at most (108 + 7|T|)u + 2^-54 + (|T|+4) 2^-61, with 10 instead of 108 when |T| <= 0.49 or T >= 2.01, up to the point where e^|T| comes within e^3 2^9 of overflow.", "quantifier": "all formats and mixed argument types, all x >= 1/2, all finite y in the range", "why_tests_cant": "an error bound over all pairs in a range", "anchors": ["include/gcem_incl/pow.hpp: pow_dbl, pow_check"]}
{"id": "C65", "title": "pow with a small base is accurate", "statement": "gcem::pow(x,y) should agree with x^y for 0 < x < 1/2. It does not: in every format there are a normal x in (0,1/2) and y = 1/2 or y = -1/2 with a relative error of at least 200% (pow(0.01f,0.5f), pow(1e-12,0.5), pow(0.1L,-0.5L)).", "quantifier": "all formats, both language versions", "why_tests_cant": "wrong only at isolated values next to powers of ten", "anchors": ["include/gcem_incl/pow.hpp: pow_dbl", "include/gcem_incl/log.hpp: log_breakup", "include/gcem_incl/find_exponent.hpp: find_exponent"]}
{"id": "C66", "title": "cosh is accurate", "statement": "In every format with u = 2^-p, the relative error of gcem::cosh(x) is at most 10u + 2^-55 for |x| <= 1/2, 108u + 2^-53 + (|x|+3) 2^-60 for |x| < 2 and 14u + 2^-53 + (|x|+3) 2^-60 for |x| >= 2, up to the point where e^|x| comes within e^2 2^9 of overflow.", "quantifier": "all formats, all x in the range, both language versions", "why_tests_cant": "an error bound over all values in a range", "anchors": ["include/gcem_incl/cosh.hpp: cosh_compute"]}
{"id": "C67", "title": "sinh is accurate away from zero", "statement": "In every format with u = 2^-p, the error of gcem::sinh(x) is at most (11u + 2^-55) cosh(x) for |x| <= 1/2 and (109u + 2^-55) cosh(x) for |x| < 2; its relative error is at most 15u + 2^-53 + (|x|+3) 2^-60 for |x| >= 2, up to the point where e^|x| comes within e^2 2^9 of overflow.", "quantifier": "all formats, all x in the ranges, both language versions", "why_tests_cant": "an error bound over all values in a range", "anchors": ["include/gcem_incl/sinh.hpp: sinh_check"]}
{"id": "C68", "title": "sinh is accurate near zero", "statement": "gcem::sinh(x) should be close to x for small x. It is not: for every x with |x| <= 2^-(p+2) (about 2.8e-17 in double), gcem::sinh(x) is zero, in every format and both language versions.", "quantifier": "all formats, all |x| <= 2^-(p+2)", "why_tests_cant": "needs tiny arguments; the absolute error is small", "anchors": ["include/gcem_incl/sinh.hpp: sinh_check"]}
{"id": "C69", "title": "asin is accurate", "statement": "In every format with u = 2^-p, the relative error of gcem::asin(x) is at most (12 + 0.6/sqrt(1-x^2))u + 2^-54 for 2^(3-emax) <= |x| < 1.", "quantifier": "all formats, all x in the range, both language versions", "why_tests_cant": "an error bound over all values in a range", "anchors": ["include/gcem_incl/asin.hpp: asin_compute, asin_check"]}
{"id": "C70", "title": "acos is accurate", "statement": "In every format with u = 2^-p, the relative error of gcem::acos(x) is at most (12 + 0.6/(1-x^2))u + 2^-54 for 2^(2-emax) <= x < 1, and its absolute error is at most (21 + 0.6/sqrt(1-x^2))u + 2^-53 for every x with |x| < 1.", "quantifier": "all formats, all x in the ranges, both language versions", "why_tests_cant": "an error bound over all values in a range", "anchors": ["include/gcem_incl/acos.hpp: acos_compute, acos_check"]}
{"id": "C71", "title": "acos is accurate to working precision next to 1", "statement": "gcem::acos(x) should keep a relative error of a few units of rounding for x close to 1. It does not: in every format there is an x in [0.999,1) where the relative error is at least 2^-(p/2+4), so about half of the digits are lost.", "quantifier": "all formats, both language versions", "why_tests_cant": "needs specific values next to 1", "anchors": ["include/gcem_incl/acos.hpp: acos_compute"]}
{"id": "C72", "title": "atan2 is accurate off the y-axis", "statement": "In every format with u = 2^-p, for finite x not below the normal range and finite y with |y/x| <= 2^(emax-1): for x > 0 the relative error of gcem::atan2(y,x) against atan(y/x) is at most 10u + 2^-54 (quotient not below the normal range); for x < 0 the relative error against atan(y/x) + pi (y >= 0) or atan(y/x) - pi (y < 0) is at most 13u + 2^-54.", "quantifier": "all formats, all pairs in the stated ranges, both language versions", "why_tests_cant": "an error bound over all pairs in a range", "anchors": ["include/gcem_incl/atan2.hpp: atan2_compute"]}
{"id": "C73", "title": "asinh is accurate for non-negative arguments", "statement": "In every format with u = 2^-p, the error of gcem::asinh(x) is at most (7 + 6 asinh(x))u for 0 <= x <= 2^(emax/2-1), and its relative error is at most 14u for x >= 1 in that range.", "quantifier": "all formats, all x in the range, both language versions", "why_tests_cant": "an error bound over all values in a range", "anchors": ["include/gcem_incl/asinh.hpp: asinh_compute"]}
{"id": "C74", "title": "asinh is accurate near zero", "statement": "gcem::asinh(x) should be close to x for small x. It is not: for every x with |x| <= 2^-(p+2), gcem::asinh(x) is zero, in every format and both language versions.", "quantifier": "all formats, all |x| <= 2^-(p+2)", "why_tests_cant": "needs tiny arguments; the absolute error is small", "anchors": ["include/gcem_incl/asinh.hpp: asinh_compute"]}
{"id": "C75", "title": "acosh is accurate", "statement": "In every format with u = 2^-p, the error of gcem::acosh(x) is at most (0.6/sqrt(x^2-1) + 4 + 6 acosh(x))u for 1 < x <= 2^(emax/2-1), and its relative error is at most 10u for x >= 2 in that range.", "quantifier": "all formats, all x in the range, both language versions", "why_tests_cant": "an error bound over all values in a range", "anchors": ["include/gcem_incl/acosh.hpp: acosh_compute"]}
{"id": "C76", "title": "acosh is accurate to working precision next to 1", "statement": "gcem::acosh(x) should keep a relative error of a few units of rounding for x close to 1. It does not: in every format there is an x in (1,1.001] where the relative error is at least 2^-(p/2+2), so half of the digits are lost.", "quantifier": "all formats, both language versions", "why_tests_cant": "needs specific values next to 1", "anchors": ["include/gcem_incl/acosh.hpp: acosh_compute"]}
{"id": "C77", "title": "atanh is accurate", "statement": "In every format with u = 2^-p, the error of gcem::atanh(x) is at most (2 + 7|atanh(x)|)u for -0.3 <= x < 1, and at most (2 + 24|atanh(x)|)u for -1 < x <= -0.35 when (1+x)/(1-x) is away from the powers of ten (1.00002 <= 10^k (1+x)/(1-x) <= 9.9998).", "quantifier": "all formats, all x in the ranges, both language versions", "why_tests_cant": "an error bound over all values in a range", "anchors": ["include/gcem_incl/atanh.hpp: atanh_compute, atanh_check"]}
{"id": "C78", "title": "atanh is accurate near zero", "statement": "gcem::atanh(x) should be close to x for small x. It is not: for every x with |x| <= 2^-(p+2), gcem::atanh(x) is zero, in every format and both language versions.", "quantifier": "all formats, all |x| <= 2^-(p+2)", "why_tests_cant": "needs tiny arguments; the absolute error is small", "anchors": ["include/gcem_incl/atanh.hpp: atanh_compute"]}
{"id": "C79", "title": "erf is accurate", "statement": "In every format with u = 2^-p, the relative error of gcem::erf(x) is at most 18u + 2^-54 for |x| <= 1/2, 139u + 2^-54 for |x| <= 1, 566u + 2^-53 for |x| <= 3/2 and 45700u + 2^-53 up to |x| <= 3e9 (x not below the normal range); for 2.11 <= |x| <= 3e9 the absolute error is at most 2u + 2^-60.", "quantifier": "all formats, all x in the ranges, both language versions", "why_tests_cant": "an error bound over all values in a range", "anchors": ["include/gcem_incl/erf.hpp: erf_cf_large_main, erf_cf_small_main, erf_begin, erf_check"]}
{"id": "C80", "title": "erf stays in [-1,1]", "statement": "For every finite x with |x| <= 3e9, gcem::erf(x) returns a finite number in [-1,1], in every format and both language versions.", "quantifier": "all formats, all finite |x| <= 3e9, both language versions", "why_tests_cant": "a bound over all values in a range", "anchors": ["include/gcem_incl/erf.hpp: erf_begin, erf_check"]}
{"id": "C81", "title": "erf is accurate to working precision around 2", "statement": "gcem::erf(x) should keep a relative error of a few units of rounding for 2 <= x <= 2.5. It does not: in every format there is such an x (2.1) where the relative error exceeds 1000 * 2^-p; in float the fourth digit is wrong.", "quantifier": "all formats, both language versions", "why_tests_cant": "needs an independent reference value", "anchors": ["include/gcem_incl/erf.hpp: erf_cf_small_recur, erf_begin"]}
{"id": "C82", "title": "erf is monotone", "statement": "erf is increasing, so x < y should give gcem::erf(x) <= gcem::erf(y). It does not: in every format there are adjacent x < y (2.1 and its successor) with erf(x) larger than erf(y) by more than 1000 * 2^-p.", "quantifier": "all formats, both language versions", "why_tests_cant": "needs the right pair of neighbours", "anchors": ["include/gcem_incl/erf.hpp: erf_begin"]}
{"id": "C83", "title": "erf is defined for every finite argument", "statement": "gcem::erf(x) should return +-1 for large x. It does not: for every finite x with 3.1e9 <= |x| <= 9e18 the call is undefined behaviour (conversion of a too large value to an integer), in every format and both language versions.", "quantifier": "all formats, all x in the range", "why_tests_cant": "the result looks right on common machines", "anchors": ["include/gcem_incl/erf.hpp: erf_cf_large_main", "include/gcem_incl/exp.hpp: exp_check"]}
{"id": "C84", "title": "lgamma is accurate", "statement": "In every format with u = 2^-p, the absolute error of gcem::lgamma(x) against ln of the gamma integral is at most (14 x ln(x+5) + 54) u + (x+3) 2^-54 for 1/2 <= x <= 2^55, and at most (60 + 8 ln(1/x) + 2/x) u + 2^-48 for max(4u, 2^-54) <= x < 1/2.", "quantifier": "all formats, all x in the ranges, both language versions", "why_tests_cant": "an error bound over all values in a range", "anchors": ["include/gcem_incl/lgamma.hpp: lgamma_coef_term, lgamma_term_1, lgamma_term_2, lgamma_begin, lgamma_check"]}
{"id": "C85", "title": "lgamma of a positive number is finite", "statement": "ln Gamma(x) is about -ln x for small positive x, so gcem::lgamma(x) should be finite. It is not: for every normal x < 2^-(p+1) (1.1e-16 / 2 in double) the result is +infinity, in every format and language version.", "quantifier": "all formats, all normal x < 2^-(p+1), both language versions", "why_tests_cant": "needs arguments far below the tested range", "anchors": ["include/gcem_incl/lgamma.hpp: lgamma_coef_term, lgamma_check"]}
{"id": "C86", "title": "lgamma and tgamma of infinity", "statement": "gcem::lgamma and gcem::tgamma of +infinity should be +infinity. They are not: both return NaN, in every format and language version.", "quantifier": "all formats, both language versions", "why_tests_cant": "a special value", "anchors": ["include/gcem_incl/lgamma.hpp: lgamma_term_1, lgamma_begin", "include/gcem_incl/tgamma.hpp: tgamma_check"]}
{"id": "C87", "title": "tgamma is accurate", "statement": "In every format with u = 2^-p, the relative error of gcem::tgamma(x) against the gamma integral is at most (15 x ln(x+5) + 165) u + (2x+5) 2^-54 for 1/2 <= x <= 32 (float), 170 (double), 1754 (long double), and at most (170 + 9 ln(1/x) + 3/x) u + 2^-47 for 4096u <= x < 1/2.", "quantifier": "all formats, all x in the ranges, both language versions", "why_tests_cant": "an error bound over all values in a range", "anchors": ["include/gcem_incl/tgamma.hpp: tgamma_check", "include/gcem_incl/lgamma.hpp: lgamma_check"]}
{"id": "C88", "title": "tgamma of small positive numbers", "statement": "Gamma(x) is about 1/x for small positive x, so gcem::tgamma(x) should be close to 1/x, which is representable. It is not: for every normal x < 2^-(p+1) the result is +infinity, in every format and language version.", "quantifier": "all formats, all normal x < 2^-(p+1), both language versions", "why_tests_cant": "needs arguments far below the tested range", "anchors": ["include/gcem_incl/tgamma.hpp: tgamma_check", "include/gcem_incl/lgamma.hpp: lgamma_coef_term"]}
{"id": "C89", "title": "factorial of integer-valued floating-point arguments is accurate", "statement": "For an integer-valued floating-point k >= 0 with k <= 31 (float), 169 (double), 1753 (long double), the relative error of gcem::factorial(k) against k! is at most (15 (k+1) ln(k+6) + 165) u + (2k+7) 2^-54.", "quantifier": "all formats, all such k, both language versions", "why_tests_cant": "an error bound over all arguments, including very large factorials", "anchors": ["include/gcem_incl/factorial.hpp: factorial", "include/gcem_incl/tgamma.hpp: tgamma_check"]}
{"id": "C90", "title": "factorial of integer-valued floating-point arguments is exact", "statement": "gcem::factorial(2.0) should be 2. It is not: factorial(2.0) < 2, factorial(3.0f) < 6 and factorial(4.0L) < 24, so truncating the result gives a wrong integer.", "quantifier": "both language versions", "why_tests_cant": "tests compare with a tolerance", "anchors": ["include/gcem_incl/factorial.hpp: factorial", "include/gcem_incl/tgamma.hpp: tgamma_check"]}
{"id": "C91", "title": "lbeta is accurate", "statement": "For a, b >= 1/2 in one floating-point format with u = 2^-p and s = a + b <= 2^54, the absolute error of gcem::lbeta(a,b) against ln(Gamma(a) Gamma(b) / Gamma(a+b)) is at most (34 s ln(s+5) + 170) u + (2s+10) 2^-54.", "quantifier": "all formats, all a, b in the range, both language versions", "why_tests_cant": "an error bound over all pairs", "anchors": ["include/gcem_incl/lbeta.hpp: lbeta", "include/gcem_incl/lgamma.hpp: lgamma_check"]}
{"id": "C92", "title": "beta is accurate", "statement": "For a, b >= 1/2 in one floating-point format with s = a + b at most 32 (float), 170 (double), 1754 (long double), the relative error of gcem::beta(a,b) against Gamma(a) Gamma(b) / Gamma(a+b) is at most (35 s ln(s+5) + 280) u + (3s+15) 2^-54.", "quantifier": "all formats, all a, b in the range, both language versions", "why_tests_cant": "an error bound over all pairs", "anchors": ["include/gcem_incl/beta.hpp: beta", "include/gcem_incl/lbeta.hpp: lbeta"]}
{"id": "C93", "title": "beta of positive integers", "statement": "For integral x, y >= 1 of any integer types with s = x + y <= 170 representable, gcem::beta(x,y) is within relative error 40 (s ln(s+5) + 8) 2^-53 of (x-1)! (y-1)! / (x+y-1)!.", "quantifier": "all integer types and pairs in the range, both language versions", "why_tests_cant": "all pairs of arguments and types", "anchors": ["include/gcem_incl/beta.hpp: beta", "include/gcem_incl/lbeta.hpp: lbeta"]}
{"id": "C94", "title": "beta of positive integers is defined", "statement": "gcem::lbeta and gcem::beta of positive int arguments should be defined: they return double. They are not: whenever x + y exceeds INT_MAX the sum overflows, which is undefined behaviour.", "quantifier": "all int x, y >= 1 with x + y > INT_MAX, both language versions", "why_tests_cant": "undefined behaviour is invisible in a passing run", "anchors": ["include/gcem_incl/lbeta.hpp: lbeta"]}
{"id": "C95", "title": "log_binomial_coef is accurate and symmetric", "statement": "For integer-valued 0 <= k <= n < 2^min(p,54), gcem::log_binomial_coef(n,k) differs from ln of the binomial coefficient by at most (32 (n+2) ln(n+6) + 170) u + (2n+12) 2^-54, and equals log_binomial_coef(n,n-k) exactly; for integral arguments the bound is 34 ((n+2) ln(n+6) + 6) 2^-53.", "quantifier": "all formats and integer types, all n, k in the range, both language versions", "why_tests_cant": "an error bound over all pairs; binomials far beyond machine range", "anchors": ["include/gcem_incl/log_binomial_coef.hpp: log_binomial_coef_compute"]}
{"id": "C96", "title": "lmgamma is accurate", "statement": "For 1 <= p <= 4096 and p/2 <= a <= 2^22, gcem::lmgamma(a,p) differs from ln of the multivariate gamma function Gamma_p(a) by at most p ((17 + 4p) (a ln(a+5) + 4) u + (a+3) 2^-54).", "quantifier": "all formats, all a, p in the range, both language versions", "why_tests_cant": "an error bound over all arguments", "anchors": ["include/gcem_incl/lmgamma.hpp: lmgamma_recur"]}
{"id": "C97", "title": "incomplete_gamma stays in [0,1]", "statement": "The regularised incomplete gamma function lies between 0 and 1, so gcem::incomplete_gamma(a,z) should not exceed 1. It does: incomplete_gamma(1000.0, 1300.0) is a finite double above 1.", "quantifier": "all a, z > 0, both language versions", "why_tests_cant": "a range property over all pairs of arguments", "anchors": ["include/gcem_incl/incomplete_gamma.hpp: incomplete_gamma_quad_fn", "include/gcem_incl/incomplete_gamma.hpp: incomplete_gamma_check"]}
{"id": "C98", "title": "incomplete_gamma is monotone", "statement": "gcem::incomplete_gamma(a,z) should not decrease when z grows. It does: incomplete_gamma(1000.0, 4000.0) is smaller than incomplete_gamma(1000.0, 1300.0).", "quantifier": "all a > 0 and z <= z', both language versions", "why_tests_cant": "compares the results of all pairs of arguments", "anchors": ["include/gcem_incl/incomplete_gamma.hpp: incomplete_gamma_quad_ub", "include/gcem_incl/incomplete_gamma.hpp: incomplete_gamma_check"]}
{"id": "C99", "title": "incomplete_gamma is accurate", "statement": "gcem::incomplete_gamma(a,z) should agree with the regularised lower incomplete gamma function P(a,z). It does not: incomplete_gamma(10.0, 30.0) is below 1 - 1/8000 although P(10,30) > 1 - 1e-5. In every format, for 10 <= a <= 50 the result does not depend on z at all as long as a + 6 sqrt(a) <= z <= 3a.", "quantifier": "all formats, all a, z in the stated ranges, both language versions", "why_tests_cant": "an error bound over all pairs, and a whole region where the argument is ignored", "anchors": ["include/gcem_incl/incomplete_gamma.hpp: incomplete_gamma_quad_lb", "include/gcem_incl/incomplete_gamma.hpp: incomplete_gamma_quad_ub"]}
{"id": "C100", "title": "incomplete_gamma_inv has a value for every probability", "statement": "For a > 0 and 0 < p < 1 there is a z with P(a,z) = p, so gcem::incomplete_gamma_inv(a,p) should return a finite number. It does not: incomplete_gamma_inv(2.0, 1e-5) is NaN, and incomplete_gamma_inv(0.5f, 0.99999f) is undefined behaviour (conversion of a too large value to an integer).", "quantifier": "all a > 0, 0 < p < 1, both language versions", "why_tests_cant": "convergence of an iteration for all arguments; undefined behaviour is invisible in a passing run", "anchors": ["include/gcem_incl/incomplete_gamma_inv.hpp: incomplete_gamma_inv_decision", "include/gcem_incl/incomplete_gamma_inv.hpp: incomplete_gamma_inv_initial_val"]}
{"id": "C101", "title": "incomplete_beta_inv has a value for every probability", "statement": "For a, b > 0 and 0 < p < 1 there is an x in (0,1) with I_x(a,b) = p, so gcem::incomplete_beta_inv(a,b,p) should return a finite number. It does not: incomplete_beta_inv(2.0, 2.0, 0.999999999999) is NaN.", "quantifier": "all a, b > 0, 0 < p < 1, both language versions", "why_tests_cant": "convergence of an iteration for all arguments", "anchors": ["include/gcem_incl/incomplete_beta_inv.hpp: incomplete_beta_inv_decision", "include/gcem_incl/incomplete_beta_inv.hpp: incomplete_beta_inv_initial_val"]}
{"id": "C102", "title": "incomplete_beta rejects arguments outside its domain", "statement": "I_z(a,b) is defined for a, b > 0 only, so a negative a should give NaN (as tgamma or log do outside their domain). It does not: incomplete_beta(-1.5, 2, 0.5) is exactly 1 in every format.", "quantifier": "all formats, all a, b <= 0, both language versions", "why_tests_cant": "the library gives a plausible value instead of an error", "anchors": ["include/gcem_incl/incomplete_beta.hpp: incomplete_beta_check", "include/gcem_incl/incomplete_beta.hpp: incomplete_beta_begin"]}
{"id": "C103", "title": "tgamma is accurate below zero", "statement": "For finite x in (-n, -n+1) with n >= 1 up to 31 (float), 169 (double), 1753 (long double), x not below the normal range and y = x + n >= 4096u, the relative error of gcem::tgamma(x) against Gamma(x) (defined below zero by Gamma(x) = Gamma(x+1)/x) is at most (206 + 9 ln(1/y) + 3/y + 1.1 n) u + 2^-47.", "quantifier": "all formats, all x in the range, both language versions", "why_tests_cant": "an error bound over all arguments and recursion depths", "anchors": ["include/gcem_incl/tgamma.hpp: tgamma_check", "include/gcem_incl/lgamma.hpp: lgamma_check"]}
{"id": "C104", "title": "erf_inv inverts erf", "statement": "For |p| <= 0.94 (and at least twice the smallest normal number) gcem::erf_inv(p) returns a finite w with erf(w) = p up to a relative error of 28u (|p| <= 0.52), 188u (|p| <= 0.84), 751u, u = 2^-p of the format (plus at most 2^-52 from the double constants), and w is within 36u, 512u, 4650u relative of the true inverse; erf_inv of a signed zero is that zero.", "quantifier": "all formats, all p in the range, both language versions", "why_tests_cant": "convergence of the iteration and an error bound at every argument", "anchors": ["include/gcem_incl/erf_inv.hpp: erf_inv_begin, erf_inv_recur", "include/gcem_incl/erf.hpp: erf_check"]}
{"id": "C105", "title": "incomplete_gamma agrees with the regularised integral", "statement": "For 1/2 <= a < 10 and 1/2 <= z <= a + 1/2, gcem::incomplete_gamma(a,z) is a finite number that agrees with P(a,z), the integral of t^(a-1) e^-t over (0,z) divided by Gamma(a), with relative error at most 1600u + 2^-49, u = 2^-p of the format.", "quantifier": "all formats, all a and z in the range, both language versions", "why_tests_cant": "an error bound at every pair of arguments of a truncated continued fraction", "anchors": ["include/gcem_incl/incomplete_gamma.hpp: incomplete_gamma_cf_1, incomplete_gamma_check", "include/gcem_incl/lgamma.hpp: lgamma_check"]}
{"id": "C106", "title": "incomplete_gamma agrees with the regularised integral in the upper tail", "statement": "For 1/2 <= a < 10 and a + 10 <= z <= 100000, gcem::incomplete_gamma(a,z) is a finite number that agrees with P(a,z), the integral of t^(a-1) e^-t over (0,z) divided by Gamma(a), with absolute error at most 26u + 2^-55, u = 2^-p of the format.", "quantifier": "all formats, all a and z in the range, both language versions", "why_tests_cant": "an error bound at every pair of arguments of a truncated continued fraction", "anchors": ["include/gcem_incl/incomplete_gamma.hpp: incomplete_gamma_cf_2, incomplete_gamma_check", "include/gcem_incl/lgamma.hpp: lgamma_check"]}
{"id": "C107", "title": "incomplete_gamma with small shape parameter is a probability", "statement": "P(a,z) is a probability, so gcem::incomplete_gamma(a,z) should not exceed 1 where the continued fractions are used (a < 10). It does: between z = a + 1/2 and z = a + 10 the lower continued fraction cancels, and gcem::incomplete_gamma(1.f, 10.9f) is a finite number above 1.0001.", "quantifier": "all formats, a < 10, both language versions", "why_tests_cant": "the failing arguments form a narrow strip between the two branches that a table of sample values does not hit", "anchors": ["include/gcem_incl/incomplete_gamma.hpp: incomplete_gamma_cf_1, incomplete_gamma_check"]}
{"id": "C108", "title": "incomplete_beta agrees with the regularised integral", "statement": "For a, b in [1/2, 10] and z in [1/8, 7/8] with z (a+b+2) <= (a+1)(1 - 5u), gcem::incomplete_beta(a,b,z) is a finite number that agrees with I_z(a,b), the integral of t^(a-1) (1-t)^(b-1) over (0,z) divided by Gamma(a) Gamma(b) / Gamma(a+b), with relative error at most 84000u + 2^-43, u = 2^-p of the format.", "quantifier": "all formats, all a, b and z in the range, both language versions", "why_tests_cant": "an error bound at every triple of arguments of a truncated continued fraction that stops on a computed tolerance", "anchors": ["include/gcem_incl/incomplete_beta.hpp: incomplete_beta_cf, incomplete_beta_begin, incomplete_beta_check", "include/gcem_incl/lbeta.hpp: lbeta"]}
{"id": "C109", "title": "incomplete_beta is accurate for small z", "statement": "One would expect gcem::incomplete_beta(2,2,z) to agree with z^2 (3 - 2z) for every z in (0,1/2). It does not: at one positive argument of each format (near 0.01 for float, 1e-12 for double, 0.1 for long double, where gcem::log is wrong) the finite result differs from the true value by at least 98 percent of it.", "quantifier": "all formats, both language versions", "why_tests_cant": "the failing argument is a single value in each format", "anchors": ["include/gcem_incl/incomplete_beta.hpp: incomplete_beta_begin", "include/gcem_incl/log.hpp: log_mantissa"]}
{"id": "C110", "title": "incomplete_beta agrees with the regularised integral on both branches", "statement": "For a, b in [1/2, 10] and z in [1/8, 7/8], whichever side of the mean z lies on, gcem::incomplete_beta(a,b,z) is a finite number within 84500u + 2^-43 (absolute) of I_z(a,b), u = 2^-p of the format.", "quantifier": "all formats, all a, b and z in the range, both language versions", "why_tests_cant": "an error bound at every triple of arguments, including those where the branch test itself is decided by rounding", "anchors": ["include/gcem_incl/incomplete_beta.hpp: incomplete_beta_begin, incomplete_beta_check"]}
{"id": "C111", "title": "incomplete_beta does not decrease by more than its error", "statement": "For a, b in [1/2, 10] and 1/8 <= z <= z' <= 7/8, gcem::incomplete_beta(a,b,z) exceeds gcem::incomplete_beta(a,b,z') by at most 169000u + 2^-42, also across the switch of branches.", "quantifier": "all formats, all a, b and pairs z <= z' in the range, both language versions", "why_tests_cant": "a relation between all pairs of arguments", "anchors": ["include/gcem_incl/incomplete_beta.hpp: incomplete_beta_check"]}
{"id": "C112", "title": "sin and cos follow the real functions over many periods", "statement": "For every finite |x| <= 2^(p-5), gcem::sin(x) and gcem::cos(x) are finite and within (70 + 1.7|x|)u + 2^-52 (absolute) of the real sine and cosine, u = 2^-p of the format; for integral arguments |n| <= 2^48 within (72 + 1.7|n|) * 2^-53. The loss grows linearly with |x|, through every multiple of pi/2.", "quantifier": "all formats, all finite |x| <= 2^(p-5); all integral types", "why_tests_cant": "a bound at every argument, including those next to the poles of the tangent and to the switches of its branches, over 2^48/pi periods", "anchors": ["include/gcem_incl/sin.hpp, cos.hpp, tan.hpp: tan_begin, tan_series_exp, tan_cf_main"]}
{"id": "C113", "title": "tan is the exact tangent of a nearby angle", "statement": "For every finite |x| <= 2^(p-6), gcem::tan(x) is finite and equals the real tangent of some y with |y - x| <= (32 + 1.7|x|)u + 2^-52 at which the tangent is defined, also next to the poles.", "quantifier": "all formats, all finite |x| <= 2^(p-6)", "why_tests_cant": "the result is unbounded near the poles; a backward error at every argument", "anchors": ["include/gcem_incl/tan.hpp: tan_check, tan_begin, tan_series_exp_long, tan_cf_recur"]}
{"id": "C114", "title": "sin and cos of the same argument lie on the unit circle", "statement": "For every finite |x| <= 2^(p-5), gcem::sin(x)^2 + gcem::cos(x)^2 differs from 1 by at most 16u, however large x is in this range.", "quantifier": "all formats, all finite |x| <= 2^(p-5)", "why_tests_cant": "a relation between two functions at every argument", "anchors": ["include/gcem_incl/sin.hpp, cos.hpp"]}
{"id": "C115", "title": "sin and cos of larger arguments", "statement": "gcem::cos(x) and gcem::sin(x) should follow the real functions for every finite x. They do not: in every format there is a finite x <= 2^(p+5) (1e8f, 1e17, 4e20L) with gcem::cos(x) = 1 and gcem::sin(x) = 0 although the cosine is at most -1/3.", "quantifier": "all formats", "why_tests_cant": "the argument reduction has lost every digit only beyond 2^p; sampled tests use small angles", "anchors": ["include/gcem_incl/tan.hpp: tan_begin; cos.hpp; sin.hpp"]}
{"id": "C116", "title": "sqrt of a perfect square is exact", "statement": "gcem::sqrt(n*n) should be n, so that floor(sqrt(n)) is the integer square root. It is not: in every format there is n <= 16 with gcem::sqrt(n*n) < n and gcem::floor of it n - 1; for every integral type gcem::sqrt(169) < 13 and its floor is 12.", "quantifier": "all formats, all integral types", "why_tests_cant": "a tolerance-based comparison accepts 12.999999999999998", "anchors": ["include/gcem_incl/sqrt.hpp: sqrt_recur, sqrt_simplify"]}
{"id": "C117", "title": "log2, log10 and pow are exact on exact powers", "statement": "gcem::log2(2^k) should be k, gcem::log10(10^k) should be k and gcem::pow(x, 1.0) should be x. They are not: in every format there is k <= 15 with log2(2^k) < k (log2(8) < 3 for double and every integral type, floor 2), k <= 15 with log10(10^k) != k, an integer n <= 6 with pow(n, 1.0) < n and floor n - 1; pow(2.0, 2.0) < 4.", "quantifier": "all formats, both language standards", "why_tests_cant": "a tolerance-based comparison hides the missing unit in the last place, and a truncation then loses a whole unit", "anchors": ["include/gcem_incl/log2.hpp: log2_check; log10.hpp: log10_check; pow.hpp: pow_dbl"]}
{"id": "C118", "title": "atan, sin and tanh are monotone", "statement": "gcem::atan, gcem::sin on [0,1] and gcem::tanh should be monotone. They are not: in every format there are 0 < x < y < 1 whose results decrease.", "quantifier": "all formats, both language standards", "why_tests_cant": "needs a pair of neighbouring arguments with opposite rounding errors", "anchors": ["include/gcem_incl/atan.hpp: atan_begin, atan_cf_main; sin.hpp: sin_compute; tanh.hpp: tanh_begin"]}
{"id": "C119", "title": "exp and log undo each other", "statement": "For every finite 1/2 <= x <= 2^(emax-13), gcem::exp(gcem::log(x)) is finite and within a relative (107 + 5.8|ln x|)u + 2^-53 + |ln x| 2^-60 of x (11 instead of 107 for x >= 8). For every x >= -1/2 with exp(x+2) <= 2^(emax-9), gcem::log(gcem::exp(x)) is within the absolute (108 + 5.8|x|)u + 2^-53 + |x| 2^-60 of x (11 instead of 108 for x >= 2).", "quantifier": "all formats, both language standards, all such x", "why_tests_cant": "the composition of two approximations at every argument, with the error of the logarithm magnified by |ln x|", "anchors": ["include/gcem_incl/exp.hpp; log.hpp"]}
{"id": "C120", "title": "sin undoes asin", "statement": "For every 2^(4-emax) <= |x| < 1, gcem::sin(gcem::asin(x)) is finite and within a relative 24u + 2^-53 of x, however close |x| is to 1 or to 0.", "quantifier": "all formats, both language standards, all such x", "why_tests_cant": "asin is ill-conditioned at 1 and loses half of the digits there; the composition does not", "anchors": ["include/gcem_incl/asin.hpp: asin_compute; sin.hpp: sin_compute"]}
{"id": "C121", "title": "erf undoes erf_inv", "statement": "For every 2^(3-emax) <= |p| <= 0.94, gcem::erf(gcem::erf_inv(p)) is finite and within a relative 47u + 2^-52 of p for |p| <= 0.52, 328u + 2^-52 for |p| <= 0.84 and 1319u + 2^-51 otherwise.", "quantifier": "all formats, both language standards, all such p", "why_tests_cant": "the composition of an iteration with the function it inverts, at every argument", "anchors": ["include/gcem_incl/erf_inv.hpp: erf_inv_begin, erf_inv_recur; erf.hpp: erf_begin"]}
{"id": "C122", "title": "tgamma satisfies its functional equation", "statement": "For all x >= 1/2 and y = x + 1 (exactly) up to 32, 170 or 1754 in float, double, long double, gcem::tgamma(y) is within a relative (31 y ln(y+5) + 331)u + (5y+11) 2^-54 of x * gcem::tgamma(x).", "quantifier": "all formats, both language standards, all such x", "why_tests_cant": "a relation between the values at two arguments for every argument", "anchors": ["include/gcem_incl/tgamma.hpp: tgamma_check; lgamma.hpp: lgamma_coef_term, lgamma_begin"]}
{"id": "C123", "title": "pow agrees for integral and floating-point exponents", "statement": "For x >= 1/2 and 0 <= n <= 2^(p-10) with exp(|n ln x| + 3) <= 2^(emax-9), gcem::pow(x, n) with n of an integral type and gcem::pow(x, y) with y = n of floating-point type are finite and differ by a relative (109 + 8|n ln x| + 3n)u + 2^-53 + |n ln x| 2^-60 at most.", "quantifier": "all formats, all integral types, all such x and n", "why_tests_cant": "two different algorithms selected by the type of the exponent, at every argument", "anchors": ["include/gcem_incl/pow.hpp: pow_check, pow_dbl; pow_integral.hpp: pow_integral_compute_recur"]}
{"id": "C124", "title": "special values follow the standard library", "statement": "tanh(+-inf) should be +-1, asinh(-inf) -inf, atan2(+-inf, +-inf) an odd multiple of pi/4, fmod(x, +-inf) x, and pow(0.0, 0.0), pow(inf, 0.0), pow(1.0, +-inf) should be 1. In gcem all of them are NaN, in every format and language version, fmod(x, +-inf) for every x of any type.", "quantifier": "all formats, both language standards, all x", "why_tests_cant": "special values are rarely among sampled arguments", "anchors": ["include/gcem_incl/tanh.hpp: tanh_cf; asinh.hpp: asinh_compute; atan2.hpp: atan2_compute; fmod.hpp: fmod_check; pow.hpp: pow_dbl"]}
{"id": "C125", "title": "sinh, cosh, expm1 and pow are total", "statement": "gcem::sinh, gcem::cosh and gcem::expm1 return a value without undefined behaviour for NaN, the infinities and every finite |x| <= 2^63 - 1. For every finite x >= 2^63 or x < -2^63 they are undefined behaviour, and so is gcem::pow(x, y) for every finite x >= 2 and 2^64 <= |y| <= 2^(emax-16), instead of overflowing to infinity or underflowing to 0.", "quantifier": "all formats, both language standards, all values", "why_tests_cant": "the failing arguments exceed 2^63", "anchors": ["include/gcem_incl/sinh.hpp: sinh_check; cosh.hpp: cosh_compute; expm1.hpp: expm1_check; pow.hpp: pow_dbl; find_whole.hpp: find_whole"]}
{"id": "C126", "title": "gcd of integer-valued floating-point arguments is exact", "statement": "For floating-point arguments of any two formats holding integers a, b below 2^64 in magnitude, gcem::gcd returns exactly gcd(a, b), never negative, in the wider format. For a first argument of magnitude 2^64 or more it should still be gcd(a, b); it is undefined behaviour (a conversion out of range).", "quantifier": "all pairs of formats, all integers a, b", "why_tests_cant": "the failing arguments exceed 2^64 and the result must be exact for every pair", "anchors": ["include/gcem_incl/gcd.hpp: gcd_int_check, gcd_type_check"]}
{"id": "C127", "title": "lcm of integer-valued floating-point arguments is correctly rounded", "statement": "For floating-point arguments holding integers a, b below 2^64 in magnitude, not both 0, gcem::lcm returns lcm(a, b) exactly if it is at most 2^p and within a relative u otherwise, up to 2^(emax-1). lcm(0.0, 0.0) should be 0; it is NaN for all signs of zero and all formats.", "quantifier": "all pairs of formats, all integers a, b", "why_tests_cant": "the product a*b need not be representable although the result is; every pair has to be looked at", "anchors": ["include/gcem_incl/lcm.hpp: lcm_compute, lcm_type_check"]}
{"id": "C128", "title": "lcm of mixed signedness", "statement": "gcem::lcm(-6, 4u) should be 12. It is 4294967284, and lcm(-6LL, 4ULL) is 18446744073709551604: the conversion of the negative argument comes before its absolute value.", "quantifier": "the arguments named", "why_tests_cant": "needs operands of different signedness with a negative value", "anchors": ["include/gcem_incl/lcm.hpp: lcm_type_check"]}
{"id": "C129", "title": "binomial_coef of integer-valued floating-point arguments", "statement": "For floating-point arguments holding integers n, k with C(n,k) < 2^64, gcem::binomial_coef returns C(n,k) exactly if it is at most 2^p and within a relative u otherwise. For larger C(n,k) the result should still be close to C(n,k), as the type has the range; it is C(n,k) mod 2^64, rounded: binomial_coef(68.0, 34.0) is about 1.0e19 instead of 2.8e19.", "quantifier": "all pairs of formats, all n, k", "why_tests_cant": "the smallest failing arguments take an exponential number of steps to evaluate", "anchors": ["include/gcem_incl/binomial_coef.hpp: binomial_coef_check, binomial_coef_recur"]}
{"id": "C130", "title": "binomial_coef never returns a wrong value silently", "statement": "With a common type signed and at least as wide as int, gcem::binomial_coef returns C(n,k) if it fits and is undefined behaviour (a compile-time error in a constant expression) if not. With an unsigned type at least as wide as int it is C(n,k) mod 2^w, and with a type narrower than int it is C(n,k) converted to that type, silently: binomial_coef((signed char)10, (signed char)5) = -4.", "quantifier": "all integral types, all n, k >= 0", "why_tests_cant": "the failing arguments take an exponential number of steps to evaluate, or need a narrow type", "anchors": ["include/gcem_incl/binomial_coef.hpp: binomial_coef_recur, binomial_coef_check"]}
{"id": "C131", "title": "binomial_coef of negative arguments", "statement": "For n >= 0 and k < 0, gcem::binomial_coef(n,k) is 0. For n < 0 < k, C(n,k) = (-1)^k C(k-n-1,k) is expected; gcem::binomial_coef never returns a value: the recursion ends only in signed overflow, whatever depth is available.", "quantifier": "all signed types, all such n, k", "why_tests_cant": "the failure is the absence of a result", "anchors": ["include/gcem_incl/binomial_coef.hpp: binomial_coef_recur"]}
{"id": "C132", "title": "incomplete_gamma_inv solves P(a, x) = p for integral shape", "statement": "For a shape a in {2,...,9} and 0.16 <= p <= 1/2 in any format, gcem::incomplete_gamma_inv(a, p) returns a finite w with 1/2 <= w <= a + 1/2 and |P(a,w) - p| <= 1400u + 2^-49, and w is within 15000u + 2^-45 of any exact solution. (With w doubled, these are chi-square quantiles for 4 to 18 degrees of freedom.)", "quantifier": "all three formats, both standards, every p in the range", "why_tests_cant": "37 evaluations of a continued fraction feed a clipped iteration whose derivative lags one step behind; only a bound on every step covers every p", "anchors": ["include/gcem_incl/incomplete_gamma_inv.hpp: incomplete_gamma_inv_initial_val_1, incomplete_gamma_inv_recur, incomplete_gamma_inv_decision"]}
{"id": "C133", "title": "incomplete_gamma and incomplete_gamma_inv are inverse to each other", "statement": "For a shape a in {2,...,9} and 0.16 <= p <= 1/2, gcem::incomplete_gamma(a, gcem::incomplete_gamma_inv(a, p)) differs from p by at most 2250u + 2^-48.", "quantifier": "all three formats, both standards, every p in the range", "why_tests_cant": "tests sample single p with loose tolerances", "anchors": ["include/gcem_incl/incomplete_gamma_inv.hpp, incomplete_gamma.hpp: incomplete_gamma_cf_1_recur"]}
{"id": "C134", "title": "floor, ceil, trunc and round are consistent with each other, with negation and with order", "statement": "For every x that is zero or normal: floor(x) <= round(x) <= ceil(x) <= floor(x) + 1, trunc(x) is floor(x) for x >= 0 and ceil(x) for x < 0, floor(-x) = -ceil(x), ceil(-x) = -floor(x), trunc(-x) = -trunc(x), round(-x) = -round(x), and none of the four decreases when x grows.", "quantifier": "all formats, every zero or normal argument", "why_tests_cant": "the four functions have separate implementations; a relation between them over all pairs of arguments is not sampled by tests", "anchors": ["include/gcem_incl/floor.hpp, ceil.hpp, trunc.hpp, round.hpp"]}
{"id": "C135", "title": "sqrt squared gives the argument back, and sqrt times inv_sqrt is one", "statement": "For x in the normal range with 2^-170 <= x <= 100: gcem::sqrt(x)^2 is within 3.5u relative of x. For 2^-58 <= x <= 100: gcem::sqrt(x) * gcem::inv_sqrt(x) is within 4u of 1 (products taken exactly).", "quantifier": "all formats, every argument in the ranges", "why_tests_cant": "two Newton-type iterations with different stopping rules; tests compare each with std:: on a few points", "anchors": ["include/gcem_incl/sqrt.hpp: sqrt_recur, sqrt_simplify; inv_sqrt.hpp"]}
{"id": "C136", "title": "tan and atan are inverse to each other", "statement": "For 2^(4-emax) <= |x| <= 1: gcem::tan(gcem::atan(x)) is within 21u + 2^-55 relative of x, and gcem::atan(gcem::tan(x)) within 16u + 2^-56.", "quantifier": "all formats, both standards, every argument in the range", "why_tests_cant": "the composition of two continued fractions/series; tests never compose", "anchors": ["include/gcem_incl/tan.hpp: tan_begin, tan_cf_recur; atan.hpp: atan_cf_recur, atan_series_order"]}
{"id": "C137", "title": "cosh^2 - sinh^2 = 1", "statement": "For |x| <= 1/2: |cosh(x)^2 - sinh(x)^2 - 1| <= 54u + 2^-52 for the values returned by gcem::cosh and gcem::sinh; for |x| < 2 it is at most (437u + 2^-51) cosh(x)^2.", "quantifier": "all formats, both standards, every argument in the range", "why_tests_cant": "both functions call exp twice; the relation binds their errors for every argument", "anchors": ["include/gcem_incl/cosh.hpp: cosh_compute; sinh.hpp: sinh_check; exp.hpp"]}
{"id": "C138", "title": "lmgamma with a floating-point order", "statement": "gcem::lmgamma(a, p) with p a floating-point value equal to an integer k in 1..2^24 (and p no wider than a) returns exactly what lmgamma(a, k) returns; for finite p that is below 1 or not an integer it returns NaN. Refuted for NaN and +infinity: with p NaN or +infinity, and a not NaN, evaluation has no result at any recursion depth.", "quantifier": "all formats of a and p, every a, every recursion depth", "why_tests_cant": "tests use small integer orders only; unbounded recursion cannot be tested", "anchors": ["include/gcem_incl/lmgamma.hpp: lmgamma_recur, lmgamma"]}
{"id": "C139", "title": "incomplete_beta_inv of integral arguments", "statement": "gcem::incomplete_beta_inv(a, b, p) with integral arguments should return 0 for p = 0 and 1 for p = 1, as with floating-point arguments. Refuted: with all three of type int (or a 64-bit signed type), a, b >= 1 and p = 0 or 1, evaluation has undefined behaviour (a conversion of infinity to an integer, or an integer division 0/0), because the common type stays integral.", "quantifier": "every pair a, b >= 1 of the type, both standards", "why_tests_cant": "undefined behaviour is not observable by a test", "anchors": ["include/gcem_incl/incomplete_beta_inv.hpp: incomplete_beta_inv_type_check, incomplete_beta_inv_check, incomplete_beta_inv_initial_val"]}
{"id": "C140", "title": "incomplete_beta_inv inverts the uniform distribution", "statement": "For 0.15 <= p <= 0.85 gcem::incomplete_beta_inv(1, 1, p) returns a finite w in (0,1) with |I_w(1,1) - p| = |w - p| <= 84508u + 2^-43 (about 1e-11 in double).", "quantifier": "all three formats, both standards, every p in the range", "why_tests_cant": "37 steps each evaluating a continued fraction; tests check a few p with other parameters", "anchors": ["include/gcem_incl/incomplete_beta_inv.hpp: incomplete_beta_inv_initial_val_2, incomplete_beta_inv_deriv_1, incomplete_beta_inv_recur, incomplete_beta_inv_decision"]}
{"id": "C141", "title": "The hyperbolic functions undo their inverses", "statement": "gcem::cosh(gcem::acosh(x)) is x within (185u + 2^-52)|x| for 2 <= x <= 1000, gcem::sinh(gcem::asinh(x)) is x within (231u + 2^-52)|x| for 1 <= x <= 1000, and gcem::tanh(gcem::atanh(x)) is x within 35u + 2^-66 for -0.3 <= x <= 0.99, |x| >= 0.01 (u half an ulp of 1).", "quantifier": "all three formats, both standards, every x in the ranges", "why_tests_cant": "each composition passes through two independent approximations with amplification; tests never compose them", "anchors": ["include/gcem_incl/acosh.hpp, asinh.hpp, atanh.hpp, cosh.hpp, sinh.hpp, tanh.hpp: the *_compute and *_check functions"]}
{"id": "C142", "title": "log1p and expm1 undo each other", "statement": "For 2^(4-emax) <= |x| <= 9e-5 both gcem::expm1(gcem::log1p(x)) and gcem::log1p(gcem::expm1(x)) are x within 5u|x|; in absolute terms the first is x within 19u + 2^-54 for -0.39 <= x <= 0.5 and the second within 12u + 2^-54 for |x| <= 0.4 (u half an ulp of 1).", "quantifier": "all three formats, both standards, every x in the ranges", "why_tests_cant": "the functions switch formula at 1e-4 and the round trip must keep relative precision down to the smallest normal numbers; tests never compose them", "anchors": ["include/gcem_incl/log1p.hpp: log1p_compute, log1p_check; expm1.hpp: expm1_compute, expm1_check"]}
{"id": "C143", "title": "log of a product is the sum of the logarithms", "statement": "For finite x, y >= 1 with xy <= 2^(emax-1), gcem::log(x*y) differs from gcem::log(x) + gcem::log(y) (exact sum) by at most (2 + 11.3 ln(xy))u, u half an ulp of 1.", "quantifier": "all three formats, both standards, every pair in the range", "why_tests_cant": "the three calls take different reduction paths (mantissa and power of ten); unit tests compare single values", "anchors": ["include/gcem_incl/log.hpp: log_mantissa, log_breakup, log_check; mantissa.hpp; find_exponent.hpp"]}
{"id": "C144", "title": "beta and tgamma agree", "statement": "For a, b >= 1/2 whose sum c = a + b is exact and at most 32 (float), 170 (double) or 1754 (long double), gcem::beta(a,b) * gcem::tgamma(c) equals gcem::tgamma(a) * gcem::tgamma(b) (products of the returned values taken exactly) up to a relative error (66 c ln(c+5) + 780)u + (8c + 35)2^-54.", "quantifier": "all three formats, both standards, every pair in the range", "why_tests_cant": "beta goes through lgamma and exp, tgamma through another path; unit tests compare each with tables only", "anchors": ["include/gcem_incl/beta.hpp: beta; lbeta.hpp: lbeta; tgamma.hpp: tgamma_check; lgamma.hpp"]}
{"id": "C145", "title": "incomplete_beta and incomplete_beta_inv undo each other for the uniform distribution", "statement": "With a = b = 1, gcem::incomplete_beta(1,1,gcem::incomplete_beta_inv(1,1,p)) is p within 169008u + 2^-42 for 0.15 <= p <= 0.85, and gcem::incomplete_beta_inv(1,1,gcem::incomplete_beta(1,1,z)) is z within the same bound for 0.16 <= z <= 0.84.", "quantifier": "all three formats, both standards, every p and z in the ranges", "why_tests_cant": "both functions iterate (continued fraction, 37 correction steps); tests never compose them", "anchors": ["include/gcem_incl/incomplete_beta.hpp: incomplete_beta_check; incomplete_beta_inv.hpp: incomplete_beta_inv_check"]}
{"id": "C146", "title": "incomplete_gamma at infinity is one", "statement": "gcem::incomplete_gamma(a, +infinity) is 1, the limit of the distribution function, so the value returned by gcem::incomplete_gamma_inv(a, 1) is mapped back to 1. (False: the result is NaN for every finite normal a > 0.)", "quantifier": "all three formats, both standards, every finite normal a > 0", "why_tests_cant": "tests use finite arguments only; the failure comes from infinity minus infinity in an intermediate exponent", "anchors": ["include/gcem_incl/incomplete_gamma.hpp: incomplete_gamma_cf_2, incomplete_gamma_check; incomplete_gamma_inv.hpp: incomplete_gamma_inv_check"]}
{"id": "C147", "title": "incomplete_gamma is defined for every finite argument", "statement": "gcem::incomplete_gamma(a, z) is free of undefined behaviour for finite a > 0 and z > 0 and tends to 1. (False: for 1/2 <= a <= 9 and 1e19 <= z <= 1.8e19 the exponential of about -z converts an out-of-range value to an integer type.)", "quantifier": "all three formats, both standards, every pair in the range", "why_tests_cant": "tests stay below 1e3; the conversion is undefined behaviour, not an observable wrong value", "anchors": ["include/gcem_incl/incomplete_gamma.hpp: incomplete_gamma_cf_2; exp.hpp: exp_split; find_whole.hpp"]}
{"id": "C148", "title": "tgamma overflows to infinity", "statement": "For 40 (float), 200 (double) or 2000 (long double) <= x <= 2^50, gcem::tgamma(x) is +infinity. The same is expected of every larger finite x (false: gcem::tgamma(1e18) has undefined behaviour).", "quantifier": "all three formats, both standards, every x in the range", "why_tests_cant": "tests stop below the overflow threshold; the result depends on the size of lgamma and the overflow of exp", "anchors": ["include/gcem_incl/tgamma.hpp: tgamma_check; lgamma.hpp; exp.hpp"]}
{"id": "C149", "title": "the tails of the exponential distribution add up to one", "statement": "gcem::incomplete_gamma(1, z) + gcem::exp(-z) is 1 up to 1320u + 2^-49 for 1/2 <= z <= 3/2 and up to 27u + 2^-54 for 11 <= z <= 60, where u = 2^-precision; both results are finite.", "quantifier": "all three formats, both standards, every z in the two ranges", "why_tests_cant": "relates two functions computed by unrelated algorithms at every argument; tests compare single points with a table", "anchors": ["include/gcem_incl/incomplete_gamma.hpp: incomplete_gamma_cf_1, incomplete_gamma_cf_2; exp.hpp"]}
{"id": "C150", "title": "asinh, acosh and atanh undo sinh, cosh and tanh", "statement": "With u = 2^-precision, gcem::asinh(gcem::sinh(x)) is x up to 129u + 2^-54 for 1/100 <= x < 2 and up to (23 + 6x)u + 2^-52 for 2 <= x <= 40; gcem::acosh(gcem::cosh(x)) is x up to (16 + 10x)u + 2^-52 for 2 <= x <= 40; gcem::atanh(gcem::tanh(x)) is x up to 217u + 2^-62 for 1/100 <= x <= 2.", "quantifier": "all three formats, both standards, every x in the ranges", "why_tests_cant": "a statement about composed roundings at every argument; tests evaluate each function at isolated points", "anchors": ["include/gcem_incl/sinh.hpp; cosh.hpp; tanh.hpp; asinh.hpp: asinh_compute; acosh.hpp: acosh_compute; atanh.hpp: atanh_check"]}
{"id": "C151", "title": "asin and acos add up to half pi", "statement": "With u = 2^-precision, gcem::asin(x) + gcem::acos(x) is pi/2 up to (40 + 1.6/sqrt(1 - x^2))u + 2^-52 for every x with |x| < 1 whose size is at least twice the smallest normal number; both results are finite.", "quantifier": "all three formats, both standards, every such x of either sign", "why_tests_cant": "asin goes through atan of a quotient and acos through another quotient; tests check each at a few points, not their sum everywhere", "anchors": ["include/gcem_incl/asin.hpp: asin_compute; acos.hpp: acos_compute; atan.hpp: atan_check"]}
{"id": "C152", "title": "exp(x) times exp(-x) is one", "statement": "With u = 2^-precision, gcem::exp(x) * gcem::exp(-x) as real numbers is 1 up to 213u + 2^-53 for |x| < 2 and up to 119u + 2^-52 + (x+3)2^-59 for 2 <= x <= 10000 as long as exp(x+2) is below 2^(emax-9).", "quantifier": "all three formats, both standards, every x in the ranges", "why_tests_cant": "negative and positive arguments take different paths through the integer split; tests do not relate them", "anchors": ["include/gcem_incl/exp.hpp: exp_cf, exp_split; pow_integral.hpp"]}
{"id": "C153", "title": "pow with exponent one half is sqrt", "statement": "gcem::pow(x, 0.5) and gcem::sqrt(x) agree up to a relative difference of 127u + 2^-53 for 1/2 <= x <= 100, with u = 2^-precision.", "quantifier": "all three formats, both standards, every x in the range", "why_tests_cant": "compares Newton iteration with exp(log(x)/2) at every argument", "anchors": ["include/gcem_incl/pow.hpp: pow_dbl; sqrt.hpp: sqrt_recur; exp.hpp; log.hpp"]}
{"id": "C154", "title": "lgamma is the logarithm of tgamma", "statement": "With u = 2^-precision, gcem::log(gcem::tgamma(x)) and gcem::lgamma(x) differ by at most (35 x ln(x+5) + 226)u + (4x+9)2^-54 for 2 <= x <= 32 (float), 170 (double), 1754 (long double); all results are finite.", "quantifier": "all three formats, both standards, every x in the range", "why_tests_cant": "tests compare each function with a table at a few points; the agreement at every argument needs the error of three functions", "anchors": ["include/gcem_incl/lgamma.hpp: lgamma_check; tgamma.hpp: tgamma_check; log.hpp: log_check"]}
{"id": "C155", "title": "erf is incomplete_gamma with shape one half", "statement": "With u = 2^-precision and the square x*x computed in the format of x, gcem::incomplete_gamma(0.5, x*x) and gcem::erf(x) differ by at most 1741u + 2^-48 for 0.71 <= x <= 0.99 and by at most 29u + 2^-54 for 3.25 <= x <= 300; gcem::tgamma(0.5), the normalising constant of both, is sqrt(pi) up to a relative error of 178u + 2^-51.", "quantifier": "all three formats, both standards, every x in the two ranges", "why_tests_cant": "two unrelated algorithms compared at every argument; the identity needs the substitution in the integral and the value of Gamma(1/2)", "anchors": ["include/gcem_incl/erf.hpp: erf_begin, erf_cf_large_recur, erf_cf_small_recur; incomplete_gamma.hpp: incomplete_gamma_cf_1, incomplete_gamma_cf_2; tgamma.hpp"]}
{"id": "C156", "title": "incomplete_beta reflects", "statement": "With u = 2^-precision, gcem::incomplete_beta(a, b, z) + gcem::incomplete_beta(b, a, 1 - z) is 1 up to 169400u + 2^-42 for 1/2 <= a, b <= 10 and 0.13 <= z <= 0.87, the difference 1 - z being rounded in the format of the arguments.", "quantifier": "all three formats, both standards, every triple in the range", "why_tests_cant": "the two calls may take the same or different branches of the algorithm; tests do not relate them", "anchors": ["include/gcem_incl/incomplete_beta.hpp: incomplete_beta_begin, incomplete_beta_check"]}
{"id": "C157", "title": "sin and cos satisfy the double angle formulas", "statement": "With u = 2^-precision, gcem::sin(2x) is 2 sin(x) cos(x) and gcem::cos(2x) is 2 cos(x)^2 - 1, computed from the returned values, up to (350 + 11|x|)u + 2^-49 for every finite x with |x| <= 2^(precision-6).", "quantifier": "all three formats, every x in the range and its exact double", "why_tests_cant": "x and 2x fall into different periods and quadrants of the argument reduction; tests check isolated points", "anchors": ["include/gcem_incl/sin.hpp: sin_check; cos.hpp: cos_check; tan.hpp: tan_begin"]}
{"id": "C158", "title": "tan is the quotient of sin and cos", "statement": "With u = 2^-precision, the product of the returned gcem::tan(x) and gcem::cos(x) is the returned gcem::sin(x) up to 32u + 2^-76 for 8 * 2^-emax <= |x| <= 1, and up to 203u + 2^-74 for |x| <= 3/2.", "quantifier": "all three formats, every finite x in the range", "why_tests_cant": "sin and cos are computed from tan(x/2), not from tan(x), so the three results come from different continued fractions; tests compare each to a reference", "anchors": ["include/gcem_incl/tan.hpp: tan_check, tan_cf_main; sin.hpp: sin_check; cos.hpp: cos_check"]}
{"id": "C159", "title": "exp of a sum is the product of the exponentials", "statement": "With u = 2^-precision, and x + y exact, the product of the returned gcem::exp(x) and gcem::exp(y) is the returned gcem::exp(x + y) up to a relative error of 319u + 2^-53 when all three arguments are below 2 in absolute value, and of 31u + 2^-52 + (x + y + 5) 2^-59 when x and y are at least 2 and exp(x + y) stays a factor of about 4000 below the overflow threshold.", "quantifier": "all three formats, both standards, every pair in the range", "why_tests_cant": "x, y and x + y are split differently into an integral power of e and a continued fraction; tests check one argument at a time", "anchors": ["include/gcem_incl/exp.hpp: exp_cf, exp_split, exp_check"]}
{"id": "C160", "title": "tanh is the quotient of sinh and cosh", "statement": "With u = 2^-precision, the product of the returned gcem::tanh(x) and gcem::cosh(x) is the returned gcem::sinh(x) up to a relative error of 46u + 2^-51 for 2 <= |x| <= 25.", "quantifier": "all three formats, both standards, every x in the range", "why_tests_cant": "tanh uses a continued fraction while sinh and cosh use exp, so the three results come from different algorithms; tests compare each to a reference", "anchors": ["include/gcem_incl/tanh.hpp: tanh_begin, tanh_check; sinh.hpp: sinh_check; cosh.hpp: cosh_compute"]}
{"id": "C161", "title": "pow turns sums of exponents into products", "statement": "With u = 2^-precision, for x >= 1/2 and floating-point exponents: if a + b is exact and |a ln x| + |b ln x| <= 50, the product of the returned gcem::pow(x, a) and gcem::pow(x, b) is the returned gcem::pow(x, a + b) up to a relative error of (325 + 15(|a ln x| + |b ln x|))u + 2^-51; and if |a ln x| <= 50, gcem::pow(x, a) gcem::pow(x, -a) is 1 up to (217 + 15|a ln x|)u + 2^-52.", "quantifier": "all three formats, both standards, every base and exponents in the range", "why_tests_cant": "each call goes through log and exp with different splittings; tests check one pair of arguments at a time", "anchors": ["include/gcem_incl/pow.hpp: pow_dbl, pow_check"]}
{"id": "C162", "title": "atan2 respects exchange and reflection", "statement": "With u = 2^-precision, for positive x and y whose quotient y/x neither underflows nor overflows, gcem::atan2(y, x) + gcem::atan2(x, y) is pi/2 up to 16u + 2^-53, and gcem::atan2(y, x) + gcem::atan2(y, -x) is pi up to 57u + 2^-51.", "quantifier": "all three formats, both standards, every pair in the range", "why_tests_cant": "the two calls divide in opposite directions, so they use different branches of atan, and the second quadrant adds pi; tests check each quadrant separately", "anchors": ["include/gcem_incl/atan2.hpp: atan2_compute; atan.hpp: atan_check"]}
{"id": "C163", "title": "log_binomial_coef is the logarithm of binomial_coef", "statement": "For integral n and k with 0 <= k <= n < 2^53 whose binomial coefficient c fits the common type of the arguments, gcem::binomial_coef(n, k) is c and gcem::log_binomial_coef(n, k) differs from gcem::log(c) by at most (34((n + 2) ln(n + 6) + 6) + 5.8 ln c) 2^-53.", "quantifier": "all integral types, both standards, every such pair", "why_tests_cant": "one function recurses on Pascal's rule over integers, the other combines three lgamma values; tests check each alone", "anchors": ["include/gcem_incl/binomial_coef.hpp: binomial_coef_check; log_binomial_coef.hpp: log_binomial_coef_compute; log.hpp: log_integral_check"]}
{"id": "C164", "title": "tgamma at integers is the factorial", "statement": "For every integral n >= 0 whose factorial fits its type, gcem::factorial(n) is n! exactly and gcem::tgamma(n + 1), a double, is n! up to a relative error of (15(n + 1) ln(n + 6) + 165 + n + 4) 2^-53.", "quantifier": "all integral types, both standards, every n whose factorial fits", "why_tests_cant": "one function is a table lookup on integers, the other goes through lgamma and exp in floating point; tests check each alone", "anchors": ["include/gcem_incl/factorial.hpp: factorial_recur; tgamma.hpp: tgamma_check"]}
