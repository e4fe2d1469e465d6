# Formal model of gcem: design

Target: kthohr/gcem (header-only constexpr math), source read in /repo.
Prover: Coq 8.16.1 with Flocq 4.1 (IEEE-754), Coquelicot and Interval (real analysis).

## 1. Model

| file | contents |
|---|---|
| `Base.v` | IEEE formats float/double/x87 long double (Flocq `BinarySingleNaN`, round to nearest even), C++ integer types with promotion, signed overflow and casts as undefined behaviour, result monad `Ok / Ub / NoFuel`, loop combinators |
| `ModelBasic.v` | is_nan/is_inf/is_finite, signbit, copysign, neg_zero, sgn, abs, max, min, floor, ceil, trunc, round, find_whole/fraction/exponent, mantissa, fmod, sqrt, inv_sqrt, hypot |
| `ModelInt.v` | abs, sgn, max, min, is_odd, gcd, lcm, factorial, binomial_coef, pow on integral types |
| `ModelElem.v` | pow_integral, pow, exp, expm1, log, log1p, log2, log10, tan, sin, cos, atan, atan2, asin, acos, sinh, cosh, tanh, asinh, acosh, atanh |
| `ModelSpecial.v` | lgamma, tgamma, lbeta, beta, lmgamma, log_binomial_coef, erf, erf_inv, incomplete_beta(_inv), incomplete_gamma(_inv), quadrature tables |
| `ModelApi.v` | the public functions on arguments of any arithmetic type (`arg`), with return_t / common_t / common_return_t |
| `ModelMore.v` | lmgamma with a floating-point second argument; incomplete_beta_inv of three integers up to its starting value |

Every definition cites the file and lines it models. Both language variants
(`#if __cplusplus >= 201402L`) are modelled: parameter `v : cxx`.

Modelling decisions:
* Floating-point expressions are evaluated in the C++ type of the expression
  (FLT_EVAL_METHOD 0), no fused multiply-add, round to nearest even, no
  -ffast-math. Sub-expressions with `L` literals are long double (x87, 64-bit
  precision) as in the source; literals are correctly rounded.
* Undefined behaviour (signed overflow, float-to-integer cast out of range,
  integer division by zero) is the distinct outcome `Ub`.
* C++ recursion without a bound of its own carries fuel; running out is the
  distinct outcome `NoFuel`. For gcd, pow, mantissa, find_exponent, sqrt the
  fuel is a constant shown sufficient; for factorial, binomial_coef, tgamma,
  lmgamma it is a parameter of the API function (recursion depth).
* One NaN (no payload). Sign of NaN is not tracked.

Not modelled: MSVC branch of signbit, compile errors (calls whose template
deduction fails, e.g. gcd on two `short`s), bool/char arguments, `long` as a type
distinct from `long long`, incomplete_beta_inv on three integral arguments
beyond its starting value (the code then computes in integers; C139), user-overridden GCEM_* macros, non-x87 long double, compile-time cost.

Proof files: `FltLemmas`, `ConvLemmas`, `SignBits`, `SymLemmas` (facts about the
IEEE operations and conversions), `IntProofs`, `BasicProofs`, `FmodProofs`,
`ScaleProofs` (scaling recursions), `CxxProofs` (C++11 against C++14),
`TotalProofs`, `ExpTotal` (absence of undefined behaviour), `EdgeProofs`,
`DomainProofs`, `LimitProofs` (NaN, domain errors, limits), `SymProofs`,
`RangeProofs`, `MiscProofs`; accuracy: `PF` (directed
bounds in primitive floats), `FPErr` (running error analysis over intervals,
executed inside Coq), `PowAcc`, `ExpReal` (truncation of the exponential
continued fraction), `ExpAcc`; `CFReal`, `CFBound`, `CFTrunc` (truncation of the
atan, tan and tanh continued fractions over the reals), `CFAcc`, `TanAcc`, `SinAcc`,
`TanhAcc`, `AtanAcc` (rounding errors added), `TrigApi`; `SqrtAcc`, `SqrtSimp`
(Newton iteration with rounding, argument reduction), `InvSqrtAcc`, `HypotAcc`; `LogAcc`, `LogApi`, `LogMore`, `LogBad`
(scaling by powers of ten, log continued fraction), `Log1pAcc`, `Expm1Acc`,
`PowReal` (pow through exp and log), `SinhAcc` (sinh and cosh), `InvTrig` (asin and acos), `Atan2Acc`, `InvHyp`
(asinh, acosh and atanh); erf: `ErfReal` (Gaussian integral, truncation of both
continued fractions), `ErfBound`, `ErfRuns`, `ErfSmall`, `ErfAcc` (|x| <= 2.1), `ErfLarge`, `ErfApi`,
`ErfInvReal`, `ErfInvAcc` (erf_inv);
gamma functions: `PolyPos` (sign of integer polynomials by coefficients),
`PolyBig` (the same test on machine words, Bignums),
`Lanczos` (the exact Lanczos sum as a rational function), `GammaInt` (the gamma
integral: recurrence, convexity inequalities), `GammaReal` (distance between the
Lanczos formula and ln Gamma), `GammaCoef`, `GammaRnd` (rounding), `GammaAcc`,
`TgammaAcc`, `GammaApi`, `BetaAcc`, `LmgammaAcc`, `BetaApi`, `TgammaNeg`
(the recursion below zero); incomplete functions: `IncBeta` (closed forms), `IncBad`
(witnesses), `IncFlat`, `IncGamReal`, `IncGamAcc`, `IncGamUp`, `IncGamUpAcc`, `IncGamApi`, `IncBetaCF`, `IncBetaReal`, `IncBetaAcc`, `IncBetaApi`, `IncBetaBad`, `BetaEuler` (Euler's beta integral), `IncBetaAbs`, `TrigReal`, `TrigAng`, `TrigWide`, `TrigPole`, `TrigRed`, `TrigLarge`, `Exact`, `RoundTrip`, `Special`, `IntFlt`, `IncInvReal`, `IncInvAcc`, `IncInvApi`, `RoundTrip2`, `LmgammaFlt`, `IntBetaInv`,
`BetaInvUnif`, `RoundTrip3`, `LogExpLaws`, `BetaLaws`, `BetaTrip`, `IncLimits`, `ExpDist`, `RoundTrip4`,
`Identities`, `LogGam`, `ErfGamma`, `Reflect`, `TanLaw`, `ExpSum`, `PowSum`, `Atan2Sum`, `LogChoose`, `FactGamma`
(accuracy of the continued fractions of incomplete_gamma and incomplete_beta). The `Props*.v` files contain only the property
theorems with their examples.

## 2. Specification

`Spec.v` contains only mathematical definitions over Z and R (divisibility,
factorial, binomial, integer rounding, sign, intervals, exp/ln/atan/... from
the standard library), independent of the model. `SpecErf.v` adds the error
function as 2/sqrt(pi) times the Riemann integral of e^(-t^2) (Coquelicot `RInt`).
`SpecGamma.v` adds the gamma function as the improper integral of t^(x-1) e^(-t).
Beta and the multivariate gamma function are defined from it.
`SpecInc.v` adds the regularised incomplete gamma and beta functions and gamma at
negative arguments (by the functional equation).

## 3. Plan per property

Properties are numbered as in properties.jsonl.

* C01, C02, C04, C06, C07, C08 (gcd, lcm, factorial, binomial, integer power):
  induction on the fuel / Euclid / binary exponent; overflow freedom by
  monotonicity of intermediate values. C03, C05 are false of the code: refuted by
  witnesses (lcm(0,0), factorial(-1), factorial(13) in int).
* C09: relative error induction over square-and-multiply with Flocq's relative
  error lemmas. C10 by case analysis. C11 false: refuted (exponent max/min).
* C12, C13: case analysis and range lemmas. C14 false: refuted.
* C15-C18, C20: the cast is exact below the threshold, every value above is an
  integer; Flocq `Btrunc`/`Zfloor` lemmas. C19 false for subnormals: refuted,
  with the positive statement for the other values in C15-C18.
* C21: quotient-crossing argument: rounding is monotone and integers below 2^p
  are fixpoints. C22 false: refuted with a large quotient.
* C23, C24: case analysis on the IEEE comparison. C25 false: refuted.
* C26, C27, C28: symbolic evaluation with NaN / sign / infinity case analysis.
* C29: each function shown `Ok` for all inputs: cast ranges from comparison
  guards, fuel from scaling bounds. C30 false beyond 2^63: refuted, positive for
  |x| < 2^63. C31: scaling bounds with explicit depth.
* C32: monotone rounding: 2|t| <= 1+t^2 survives correct rounding.
* C33, C34, C36, C54: rounding to nearest commutes with negation; case analysis.
  C35, C37 false: refuted.
* C38: loop = recursion by induction. C39: witness for a difference.
* C40: real Newton analysis plus rounding error; C41 refuted by witness.
* C42, C44, C48, C49, C51: running error analysis of the continued fractions plus
  truncation error of the continued fraction from differential/polynomial
  identities; Interval for the final numeric inequalities. C45 refuted.
* C43: sign analysis of the continued fraction.
* C46 refuted, positive part for n >= 0; C47 by definitional unfolding of overloads
  (stated against the double function applied to the exactly converted value).
* C50, C52 false: refuted. C53: case analysis.
* C55-C58 (sqrt, inv_sqrt, hypot), C59-C64 (log family, expm1), C65-C68 (pow,
  cosh, sinh), C69-C78 (inverse functions): error propagation through the
  functions already bounded; refuted where cancellation or an early limit of the
  iteration destroys the digits.
* C79, C80: the truncated continued fraction satisfies a Riccati equation with a
  small residual, so its distance to the Gaussian integral follows from the mean
  value theorem (the tail needs the exact value of the Gaussian integral);
  rounding errors by running error analysis (x <= 2.1) and induction (x > 2.1).
  C81, C82 refuted at the switch between the two expansions, C83 by C30.
* C84, C87, C89: the step defect L(x+1) - L(x) - ln x of the exact Lanczos formula
  L is bounded by polynomial positivity; summing it to infinity, where both L and
  ln Gamma obey the same convexity bounds, gives the truncation error. Rounding
  errors are propagated through the sum, the logarithms and exp.
  C85, C86, C88, C90 refuted (x - 1 loses x; infinity minus infinity; exp of a
  rounded logarithm is not an integer).
* C91-C93, C95, C96: sums of log-gamma values; the rounding of a + b is absorbed by
  the growth bound of ln Gamma, a - 1/2 and n - k are exact on the stated ranges.
  C94 refuted (a + b is formed in int).
* C97-C102 refuted: witnesses evaluated in Coq; for C99 also a general statement
  (the quadrature limits do not depend on z on a whole interval).
* C103: induction on the recursion depth; x + 1 is exact below -1/2, the Lipschitz
  bound of ln Gamma absorbs the rounding above.
* C104: the starting polynomial is within 1e-4 of a root (interval bound on its
  derivative); each step with the derivative exp(-x^2) (the factor 2/sqrt pi is missing
  in the code) shrinks the residual to 0.137 of itself plus the error of erf; induction
  over the 60 steps.
* C105: the truncated continued fraction satisfies a Riccati equation with a residual
  that is a product of 54 small factors, so its quotient with z^a e^-z has nearly the
  derivative t^(a-1) e^-t; rounding errors by an integer-valued error recursion checked
  by evaluation, prefactor by the bounds for log, lgamma and exp.
* C106: the same argument for the upper continued fraction, integrated to infinity; the
  prefactor may underflow, which the absolute error allows. C107 refuted by a witness in
  the strip between the two ranges.
* C108: the modified Lentz recursion is followed step by step: the real continued fraction
  is identified with the integral by a differential inequality at both parities, the
  partial denominators stay in a fixed interval, and the stopping test is analysed for
  every format. C109 refuted at the arguments where log is wrong.
* C110, C111: the reflected branch needs I_z(a,b) + I_{1-z}(b,a) = 1 for the specification,
  that is Euler's integral B(a,b) = Gamma(a) Gamma(b) / Gamma(a+b). It is proved from the
  recurrence in a, the value at a = 1 and the growth bounds of Gamma (the quotient of the
  two sides has period 1 in a and tends to 1).
* C112 to C114: the error of the tangent is measured as an angle, |sin(atan w - x)|. This
  is bounded through the poles, adds up over the reduction steps, and turns into absolute
  errors of sine and cosine. The Laurent polynomial next to a pole, the continued fraction up
  to the pole and the reduction by multiples of the rounded pi are bounded one by one.
  C115 refuted: beyond 2^p the reduction returns 0.
* C116 to C118 refuted by computed arguments, one for each format.
* C119 to C123 combine the accuracy theorems of the two functions involved. In C120 the loss
  of asin next to 1 is multiplied by cos(asin x), which is small there.
* C124 refuted by evaluation; fmod for every first argument. C125 follows from C30 and C44.
* C126, C127, C129: the conversion to unsigned long long is exact on integers below 2^64, and the
  only rounding is that of the last conversion or product. C129 to C131: induction on n, once with
  values modulo 2^w, once with overflow.
* C132, C133: for integral a the function P(a,.) is 1 - exp(-z) times a polynomial. Interval arithmetic
  bounds the starting value (within 0.0046 in P) and the density on [lo, a + 1/2]. One step with the
  derivative of the previous iterate divides the residual by about 4 and adds the error of C105; 36 steps.
* C134: from the characterisations of C15-C18, by uniqueness of the integers involved. C135-C137: the
  accuracy theorems of the two functions involved and a Lipschitz bound (tan has slope at most 2.02 on
  |y| <= 0.787, atan at most 1) or, for C137, cosh^2 - sinh^2 = 1 over the reals.
* C138 (`ModelMore`: lmgamma.hpp with a floating-point second argument): induction on the recursion
  depth; p - 1 is exact for p >= 1 that is not an integer.
* C140: for a = b = 1 the derivative and lbeta are constants computed in the kernel, the second
  derivative vanishes, and every step lands within the error of C110 of p, whatever the previous iterate.
* C141: compositions of the accuracy lemmas of the two functions; the error of the inverse is amplified
  by at most cosh y (cosh, sinh) or 1 (tanh), from the mean value theorem.
* C142, C143: compositions of C60, C62 and C44; the error of the first function enters the second as a
  factor 1 + d, whose logarithm is bounded by 1.002 |d|.
* C144: the four relative errors of C87 and C92 combined. C145: C140 composed with C110.
* C146, C147: false; symbolic evaluation (infinity minus infinity) and C30 below -2^63. C148: lower bounds
  of ln Gamma from its convexity, C84 and the overflow part of exp; the refuted part is a witness.
* C149: P(1, z) = 1 - exp(-z) by integration, then the accuracy theorems of both functions; not proved for
  3/2 < z < 11 (there the first continued fraction is used outside the range of its accuracy theorem, C105).
* C150: the accuracy theorems of both functions and a Lipschitz bound of the inverse.
* C151, C152, C153: the accuracy theorems of the two sides (C69 and C70, C42, C64 and C40) combined.
* C154: C87, C84 and C44 with the bounds of ln Gamma.
* C155: P(1/2, z) = erf(sqrt z) and Gamma(1/2) = sqrt(pi) by substitution and the Gaussian integral, then C105,
  C106, C79 and C87. Not proved for 0.99 < x < 3.25, where C105 does not reach.
* C156: C110 twice, the reflection of the real function and its Lipschitz bound. C157: C112 and C32.
* C158: the accuracy of tan, sin and cos on the stated range (`TrigApi`).
* C159: C42 three times; the mixed case of one argument below and one above 2 is not stated. C160: C51, C66 and C67; near zero sinh has no relative accuracy (C68), so the range starts at 2.
* C161: C64 for each of the calls.
* C162: C72 for each of the calls; quotients below 4 * 2^-emax or above the overflow threshold are outside its range.
* C163: C06, C95 and C44. C164: C04 and C87.

## 4. Trusted base

* Coq 8.16.1 kernel (and `vm_compute` used for witnesses).
* Axioms: those of the Coq standard library reals (`ClassicalDedekindReals.sig_forall_dec`,
  `sig_not_dec`, `FunctionalExtensionality.functional_extensionality_dep`,
  `Classical_Prop.classic`) and, in files using Interval, the standard library's
  primitive float/integer axioms. No axiom of our own. `Print Assumptions` is
  printed below each property theorem.
* That the model above is the C++ code: by inspection, function by function.
