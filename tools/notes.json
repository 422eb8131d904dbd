{
 "C02": {
  "note": "Interleavings of the two steps (atomic increment, rest of the constructor) of any number of threads."
 },
 "C05": {
  "note": "Whole histories; functions of any arity; covariances are expressed with the true partial derivatives."
 },
 "C15": {
  "status": "partial",
  "note": "Exceptions: proved as stated. Value: determined for every variable of every history (C15_grad_exact_partial): it is the derivative unless the variable holds an independent variable up to functions of one argument, when grad returns 0. So refuted in general: x.grad(x) is 0 for an independent x."
 },
 "C47": {
  "status": "partial",
  "note": "Refuted: after 2^31-1 constructions binary reads through an end iterator, and the next id is negative (treated as 'dependent on nothing')."
 },
 "C21": {
  "status": "partial",
  "note": "23 functions proved on their whole domain of differentiability; cbrt proved for positive means and refuted for negative ones (pow of a negative base gives NaN)."
 },
 "C22": {
  "status": "partial",
  "note": "fmod, remainder, fmax, fmin, pow (positive base, or negative base with integer number as exponent), hypot proved. Refuted: atan2 of UReal has both derivatives with the wrong sign (proved for every nonzero first mean); pow with number exponent at mean zero gives NaN."
 },
 "C27": {
  "note": "Gradient and diagonal second derivatives proved for every operand; mixed second derivatives proved when the pure second derivative of the function vanishes or the operand depends on one variable. Refuted otherwise: (a+b)^2 loses its mixed derivative. For functions of one argument C27_mixed_exact_partial gives the mixed derivatives left in every case: at most those of a variable and the next one the operand depends on; a function of a sum keeps none (C27_function_of_a_sum_partial). For functions of two arguments C27_mixed_two_arguments_partial gives the mixed derivatives left in every case: the terms of the two arguments are those of functions of one argument, but the term of one is lost if the other has more recorded mixed derivatives with the same first variable (as in a b / (a b + a c)); the cross term is right."
 },
 "C35": {
  "note": "Refuted: the method is unfinished in the library; a += b doubles the gradient with respect to a. What it computes is proved for all x, y and derivatives: it returns, the dependencies are right, the gradient is the right one plus the old gradient of x (so it is right only if that is zero), and the diagonal second derivatives. The same for binary_assign(x, x, ...), where the gradient is right only if it is zero or fx fy = -1 (C35_same_object). In every history that calls it, the storage of all variables stays valid and every later query and operation returns (C35_storage_kept). The mixed second derivatives it stores are proved for functions whose pure second derivatives are zero, the second one also not if y depends on one variable (sums, differences, products, quotients by a variable: C35_mixed_partial; C35_stored_partial says which derivatives second-order propagation would have to be given to store the same, C35_same_object_stored_partial the same for binary_assign(x, x, ...)); for other functions they are not stated."
 },
 "C50": {
  "status": "partial",
  "note": "Positive definite Hankel matrices are realized by a distribution on five points (C50_positive_definite_partial). False at the boundary: the moments 0,1,0,1,0,2 (3rd to 8th) have a positive semidefinite Hankel matrix and are accepted, but no probability distribution has them (C50_boundary_no_distribution_refuted, for expectations with monotone convergence; C50_boundary_moments_refuted for finite ones)."
 },
 "C40": {
  "status": "partial",
  "note": "Proved: throws invalid_argument exactly for errdig <= 1, otherwise returns (for every mean and every non-negative or non-finite deviation). The documented bound is errdig < 1: refuted at errdig = 1."
 },
 "C41": {
  "status": "partial",
  "note": "Partial: the deviation is proved correctly rounded for errdig < 2, integer errdig, and every other errdig when rounding does not change the choice of the number of digits; the mean is proved correctly rounded except when last digit is units, no exponent is printed and rounding carries to the next power of ten. Refuted in the excluded cases (9.6 +- 12 prints 1 +- 12; 0.999 with 2.5 digits prints 10.0). C41_every_case_partial says what is printed in all the other cases: with errdig = i + f, the deviation rounded to i digits, times 10^(i-1), with i + 1 digits."
 },
 "C42": {
  "status": "partial",
  "note": "Partial: same number of decimal places unless rounding the mean carries to the next power of ten. Refuted in that case (9.996 +- 0.32 prints 10.0 +- 0.32). C42_every_case_partial says what is printed in that case: the mean has one decimal place less, or, if there are none, is a tenth of the right number."
 },
 "C43": {
  "status": "partial",
  "note": "Partial: proved for positive deviations. Refuted for zero deviation (-1.5 +- 0 prints 1.50000). C43_sign_lost_partial: with deviation zero, infinite or NaN the sign of the mean is always lost."
 },
 "C44": {
  "status": "partial",
  "note": "Partial: same range of errdig as C41; refuted outside (errdig = 2.5, deviation 0.999)."
 },
 "C23": {
  "status": "partial",
  "note": "All 31 UReal2 functions of math.hpp proved to hand the true value and the true first, second and mixed derivatives to unary/binary on the whole domain where they are twice differentiable (pow also with a number as exponent and negative base). Refuted in one case: pow with a number as exponent at mean zero gives a non-number although x^2 is twice differentiable there."
 },
 "C24": {
  "status": "proved",
  "note": "All factories of functions.hpp. Explicit derivatives are propagated as given; numerical ones with error bounds (forward M|step|/2, central M step^2/6, /12, /8), exactness on polynomials and convergence as step -> 0. To second order the result is compared to the chain rule with the restriction on mixed derivatives of C27. std::function is total and has no side effects; steps are exact reals, so rounding errors of the differences are not modelled."
 },
 "C48": {
  "note": "The propagation mode is a type parameter that the representation does not contain. Numeric casts: any map that commutes with the arithmetic (keeps_ring for moments and covariances, keeps_field for grad and hess); instance: exact fractions to reals. Over one numeric type the cast gives back the same object."
 },
 "C52": {
  "status": "partial",
  "note": "Exact for +, -, *, unary minus. The quotient is x * (1 / y), two roundings: bound proved (C52_quotient_partial); not the nearest double in general: 49 / 49 gives 1 - 2^-53."
 },
 "C53": {
  "status": "proved",
  "note": "Doubles are Flocq's binary64, round to nearest even, one NaN, no contraction into fused multiply-add."
 },
 "C54": {
  "status": "proved",
  "note": "NaN counts as not negative; the difference is exact whenever the mean of x and the deviation of -x are finite."
 },
 "C55": {
  "status": "partial",
  "note": "Proved for everything but var(), in programs without v op= v. var() is s()^2 after caching, so it changes in the last bit (C55_var_refuted); after z *= z on a cached z the deviation differs in the last bit (C55_self_assign_refuted)."
 },
 "C56": {
  "status": "partial",
  "note": "Proved unless x is independent with deviation outside [2^-511, 2^511] (and not 0). For 2^-600 the deviation of x + 0 is 0, for 2^600 it is infinite."
 },
 "C57": {
  "status": "proved",
  "note": "The bound is on the stored coefficients (derivative times deviation of each independent variable)."
 },
 "C58": {
  "status": "partial",
  "note": "Proved for programs that add, subtract, change sign and scale by numbers. False in general: for x = 5 with probability 1/5 and -5 otherwise, 0.7 * (x * x) has computed variance -4.3e-14 and s() is NaN."
 },
 "C59": {
  "status": "partial",
  "note": "Proved for UReal (real numbers), and for UReal2 for histories without a pure second derivative of a value that depends on more than one variable. False otherwise: for x = a*b + c, x + x^2 has variance 4 or 3 depending on whether b or c is created first (C59_UReal2_refuted). With doubles the variance of a sum depends on the order of creation in the last bit (C59_doubles_refuted)."
 },
 "C60": {
  "status": "partial",
  "note": "Proved for histories without a pure second derivative of a value that depends on more than one variable. False otherwise: for x = a*b + c, the mixed derivative of x + x^2 with respect to a and b can be stored as 0 instead of 1 (C60_second_order_taylor_refuted); see C27."
 },
 "C61": {
  "status": "proved",
  "note": "The bound is on the stored coefficients (derivative times deviation of each independent variable)."
 },
 "C62": {
  "status": "partial",
  "note": "False for x = a + b + c with deviations 1: sqrt(3) * sqrt(3) < 3 (C62_documented_equalities_refuted). Proved, in programs without v op= v: cov(x, x) == var(x) if no deviation or variance has been asked for before; always one of the two equalities; var of a non-const x is s() * s(); s() is the rounded square root of cov(x, x) unless x is independent."
 },
 "C63": {
  "status": "partial",
  "note": "corr(x, x) = 1.0000000000000002 for x = a + b + c with deviations 1, also in corr_matrix (C63_correlation_bounded_refuted). Proved: corr(x, y) is within 7 (n + 3) 2^-53 of the exact correlation of the stored coefficients, which is between -1 and 1."
 },
 "C64": {
  "note": "The 'if' part is false: for x = UReal(1, 2^600) isfinite(x) is true and isfinite(x + 0) is false, because s() overflows squaring the coefficient (C64_isfinite_refuted). Proved: isfinite(x) implies that the mean and all coefficients are finite (C64_isfinite_sound), and the converse if the sum of squares of the coefficients is at most 2^1020 (C64_isfinite_complete_partial); isnormal as stated (C64_isnormal).",
  "status": "partial"
 },
 "C65": {
  "note": "Relative errors at most 7 e for 16 functions and (16 + 3 a^2) e for erf and erfc, a = mean (C65_functions). The other functions lose accuracy where the code subtracts nearly equal numbers: bounds 18/(1 - a^2) e for asin and acos, 15/(1 - a^2) e for atanh, 10/(1 - tanh(a)^2) e for tanh, 14 a^2/(a^2 - 1) e for acosh; (10 + 4 |ln a|) e for cbrt with a > 0 (C65_cancelling_partial). A bound which does not depend on the mean is false for asin, acos, atanh, acosh, tanh, even for a correctly rounded <cmath>: the error is more than 2^22 units of roundoff at 1 - 2^-27 or 1 + 2^-27, and the propagated deviation of tanh at 40 is 0 (C65_uniform_bound_refuted).",
  "status": "partial"
 },
 "C66": {
  "status": "partial",
  "note": "Proved for +, -, *, /, pow, hypot, fmax, fmin with errors of the coefficients between 4 e and 9 e relative to the size of the two terms (C66_operators, C66_functions), for every <cmath> of relative error e, with the ids of the result and the deviation. fmod and remainder: proved if the rounded quotient has the same integral part (C66_quotient_partial), which holds if the quotient is further than 2^-53 of its value from the integers or half integers (C66_quotient_trunc, C66_quotient_round); false otherwise: fmod(3 + 2^-51, 1 + 2^-52) has derivative -3 instead of -2 (C66_quotient_refuted). atan2 is left out: see C22."
 },
 "C67": {
  "status": "partial",
  "note": "For every <cmath> with relative error e between 2^-53 and 2^-51: if the deviation is between 1e-300 and 1e300, the mean at most 1e9 times the deviation (1e10 if it is not within 4e-13 of a power of ten) and errdig is below 2, or 2, or 3, format returns; the text denotes deviation and mean rounded at the same decimal place, up to 4 e of their values, the deviation with the number of digits of C44 (outside of 1e-4 around the boundary), the mean aligned; the exceptions are those of C41 and C42, when rounding the mean reaches a power of ten (C67_text_on_doubles_partial). Without uncertainty: six digits, nan, inf, 0 (C67_no_uncertainty_on_doubles_partial). Outside of the ranges: undefined behaviour for 2^664 +- 2^-498 with every library (C67_overflow_refuted) and for deviation 2^-1074 (C67_subnormal_refuted); failed assertion for 999.9999999999999 +- 1.8e-12 with correctly rounded log10 and pow (C67_assert_refuted)."
 },
 "C68": {
  "status": "partial",
  "note": "For every std::map (SpecAlloc.v): a call succeeds if there are as many nodes as it needs, and then does what it does without failures (C68_enough_memory); a failed call that returns a new object leaves all variables alone (C68_failed_call_no_effect); after failed calls nothing is undefined and no assertion fails, including the failed ones of the next kind (C68_no_undefined_behaviour). Missing, because false: v = x and the compound assignments. Failed t += x + y on t = 0 leaves s() = 0 and cov(t, t) = 1; failed u *= y leaves s() = 1 and cov(u, u) = 25; a failed copy leaves the mean of the source (C68_failed_assignment_refuted). What remains true of them: the mean is unchanged and the coefficients are those after the call up to some id and those before beyond (C68_failed_compound_partial); += and -= of a variable with isindep() true have no effect if they fail (C68_failed_add_partial)."
 },
 "C69": {
  "status": "partial",
  "note": "Members are read and written one at a time, in any order. If no thread assigns a variable another uses, no reachable state has a data race (C69_no_data_race), the final state is observably the one of the sequential history, up to a renaming of the new ids (C69_threads), the number of steps is bounded and a thread can always proceed (C69_every_schedule_ends). Missing, because false: queries. s() and var() on a variable that is not const store the result, so two threads calling s() on the same dependent variable race (C69_two_queries_race, C69_any_queries_refuted). They do not if it is independent or s() was called before (C69_shared_queries)."
 },
 "C70": {
  "status": "partial",
  "note": "Bounds for the forward differences of uunary, ubinary, uunary2 and ubinary2 with given first derivatives (C70_forward, C70_forward_two, C70_second_forward, C70_second_forward_two), for the central differences of uunary2 and ubinary2 (C70_central, C70_central_two; the mixed derivative up to twice its variation in the rectangle), and for the standard deviation of uunary (C70_deviation). The default steps are 2^-26 and 2^-13 (C70_default_step). Missing, because false: large means. The step is absolute; if |mean| is at least 2^55 steps, mean + step = mean and the uncertainty of the result is 0 for every function (C70_step_lost): with the default step, 2^29 +- 1 passed through the identity has s() = 0 (C70_large_mean_refuted). Between 2^50 and 2^55 steps no bound is stated. Steps below zero are left out."
 },
 "C72": {
  "status": "partial",
  "note": "C72_accuracy bounds the error of each covariance for any decomposition with a known error, if the numbers L(i, k) sqrt(D(k)) do not underflow; C72_validates describes invalid input on doubles (a pivot that is NaN aborts in an assertion although a decomposition error is documented). Missing, because false: the covariance matrix is not reproduced exactly, even if the decomposition is exact (C72_exact_refuted: variance 2)."
 },
 "C74": {
  "status": "proved",
  "note": "C74_moved_from_consistent_refuted is an additional fact: a moved-from variable keeps its cached deviation, so that s() and cov(x, x) disagree."
 },
 "C75": {
  "status": "proved",
  "note": "C75_moments, C75_mean and C75_covariance hold whenever the result is finite; C75_no_overflow says when it is. The size of the terms is the same formula evaluated on absolute values; C75_exact_moments and C75_exact_covariance tie the exact value to a probability space."
 },
 "C76": {
  "status": "proved",
  "note": "Programs of ENewStd (no validation), constants, copies, negation, +, - and * on UReal2<double>; error bounds against the same program on real numbers, for stored derivatives and for all queries. Results that overflow are excluded by the hypothesis that the queried number is finite. Division and the functions of math.hpp are not in these programs."
 },
 "C77": {
  "status": "partial",
  "note": "C77_normal, C77_chisquare (all k up to 2^31 - 1), C77_uniform (ends up to 2^1020 in absolute value, different by 0 or at least 2^-1000), C77_accepted for any solver accurate to 2^-32. Missing, because false: uniform(left, right) with left > right does not throw if the difference is tiny, because the deviation rounds to -0 (C77_uniform_throws_refuted), and the mean of an interval between large finite numbers is infinite (C77_uniform_mean_refuted). Unit of roundoff: 2^-53."
 },
 "C78": {
  "status": "proved",
  "note": "17 functions of one argument with constant factors (C78_functions), 7 with factors that depend on the argument (C78_cancelling), the operators and pow, hypot, atan2, fmax, fmin (C78_two_arguments), fmod and remainder when rounding the quotient does not change its integral part (C78_quotient; otherwise false, as in C66). Domains exclude overflow and underflow of intermediate results. Second derivatives with respect to two different variables are outside the claim."
 },
 "C79": {
  "status": "partial",
  "note": "Variables of both classes; members (for UReal2 the two maps and mu) are read and written one at a time in any order, the counter is atomic. If no thread assigns a variable another uses: no reachable state has a data race (C79_no_data_race), the final state is exactly that of a sequential history which interleaves the calls of the threads (C79_one_after_the_other, for reals, doubles, any arithmetic with not 0 < 0), every interleaving occurs (C79_every_order_happens), all schedules give the same state if one thread at most creates independent variables (C79_any_schedule), and the number of steps is bounded (C79_every_schedule_ends). The condition is needed (C79_shared_assignment_races). Missing, because false: independence of the schedule if several threads create variables; the variance of the same expression is 4 or 3 (C79_several_creators_refuted), because UReal2 loses mixed derivatives depending on the order of the ids (C59)."
 },
 "C80": {
  "status": "partial",
  "note": "Proved: calls that succeed do what they always do and 1 + n(n+1)/2 nodes are enough; failed calls leave all variables alone except the target of v = x; failed calls that are not in place and not constructions leave no trace; no undefined behaviour as long as the target of a failed v = x is not used before it is assigned. The full claim is refuted: with libstdc++ and libc++ the target of a failed v = x has inconsistent maps and cov, m(3) and all on it abort, or it has the old mean and the new derivatives."
 },
 "C81": {
  "note": "UReal: matrices symmetric bit for bit, entries finite and with explicit error bounds, quadratic form bounded below. Refuted: the rounded covariance matrix of x = 0 +- 67108865 and 3 x is not positive semidefinite; corr2cov gives NaN with a variable without uncertainty, whose covariances are 0; cov of UReal2 depends on the order of its arguments in the last bits, so its matrix is not symmetric."
 },
 "C82": {
  "note": "Error bounds of s, skew, kurt and corr where the error of the variance (C75) is at most one eighth of it, always so for variables without second derivatives. Refuted in general: for a = +-10000019 and b = +-1001, fair coins, the variance of a*a + b*b is 0, but var() is negative and s() and skew() are NaN."
 },
 "C83": {
  "note": "Programs of any length made of constructors, copies, change_nom, unary minus, +, -, *, +=, -=, *=, s() and var() (no quotients and no functions). Exact values: the linear forms of SpecLin on the reals. Sizes: sums of absolute values, plus 2^-1075 for each product that can underflow. The deviation theorems exclude compound assignments of a variable to itself (C55: the library leaves a stale deviation there) and coefficients below 2^-510. Unit of roundoff: 2^-53."
 },
 "C84": {
  "note": "Proved as stated, for random variables (any probability with eight moments) and for arbitrary numbers. The stronger claim that the moments computed from correctly rounded moments of a variable are usable is false (C84_variance_refuted): for a variable with the two values 2^53 + 2 and 2^53 + 4 the computed variance is negative and all standardized moments are NaN.",
  "status": "proved"
 },
 "C85": {
  "note": "Histories of World.v executed with the budget of allocations of Alloc.v; the memory a variable holds is defined by the history and the dependency set of SpecLin.v (SpecMem.v), not by the stored map."
 },
 "C86": {
  "status": "proved",
  "note": "FunEff.v: the ten factories with user functions as state transformers that return or throw, the order of evaluation an argument where it is unspecified. C86_operand_modified_refuted is not a gap of the statement: it shows that the hypothesis on the operands is needed (n() and first_order_n() return references, so a function that modifies its operand makes the result depend on the order of evaluation)."
 },
 "C87": {
  "note": "UReal<double>; relative errors of means, coefficients, deviations and variances of programs without cancellation (the conditions are on the exact values), with division and square root; v op= v is not covered"
 },
 "C88": {
  "note": "Histories of World2.v executed with the budget of allocations of Alloc2.v, on exact reals (whether a pair is recorded depends on second derivatives being zero). One pair per variable when the second derivative is not zero is a consequence of the iterator that loses mixed derivatives (C27). Allocations of Eigen in the check of the moments are not modelled."
 },
 "C89": {
  "note": "Exact reals as in C40-C45; std::ostream << std::string as in the standard, on a buffer that takes every character, and (C89_any_buffer) on one that may fail; C89_throwing_stream for streams that throw then. Two parts of the claim are false: means whose rounding carries at the units digit (9.6 and 1.2 with deviation 12 are printed alike, the defect of C41), and the number of characters of a padded field (the plus-minus sign is two bytes, so it is n - 1); what holds instead is proved."
 },
 "C90": {
  "note": "Exact reals. First order: all programs of C05. Second order: programs in which the mixed second derivatives are not left out (C27, C60); for the others false, (a + b)^2 with two fair coins has deviation 2 and the library reports 0. The derivative of the program along the line from the means to the values is assumed to be bounded, Y and B to have an expectation (and a variance where deviations are compared). Programs of sums, differences and products with numbers are exact without any assumption on bounds (C90_affine_exact). UReal2 is exact (mean, moments 2 to 4, s, cov) for all programs of sums, differences and products of degree at most two (C90_polynomials_exact)."
 }
}