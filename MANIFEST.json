{"claims": [
  {"property": "C01", "status": "proved", "theorems": ["C01_ids_unique_both_classes", "C01_fresh_ids_unique"], "note": ""},
  {"property": "C02", "status": "proved", "theorems": ["C02_concurrent_ids_unique"], "note": "Interleavings of the two steps (atomic increment, rest of the constructor) of any number of threads."},
  {"property": "C03", "status": "proved", "theorems": ["C03_invariants"], "note": ""},
  {"property": "C04", "status": "proved", "theorems": ["C04_refines_linear_forms"], "note": ""},
  {"property": "C05", "status": "proved", "theorems": ["C05_chain_rule"], "note": "Whole histories; functions of any arity; covariances are expressed with the true partial derivatives."},
  {"property": "C06", "status": "proved", "theorems": ["C06_cov_symmetric", "C06_cov_self_is_var", "C06_cov_bilinear", "C06_cov_disjoint_zero"], "note": ""},
  {"property": "C07", "status": "proved", "theorems": ["C07_var_s_corr"], "note": ""},
  {"property": "C08", "status": "proved", "theorems": ["C08_caching_unobservable", "C08_caching_queries_same_value"], "note": ""},
  {"property": "C09", "status": "proved", "theorems": ["C09_isindep_indepid", "C09_independent_corr"], "note": ""},
  {"property": "C10", "status": "proved", "theorems": ["C10_binary_assign", "C10_compound_operators", "C10_operand_unchanged"], "note": ""},
  {"property": "C11", "status": "proved", "theorems": ["C11_nary_one", "C11_nary_two", "C11_nary_order_irrelevant", "C11_nary_accumulates"], "note": ""},
  {"property": "C12", "status": "proved", "theorems": ["C12_number_contributes_nothing", "C12_zero_deviation"], "note": ""},
  {"property": "C13", "status": "proved", "theorems": ["C13_invalid_construction"], "note": ""},
  {"property": "C14", "status": "proved", "theorems": ["C14_change_nom", "C14_convert_roundtrip", "C14_convert_keeps_covariance"], "note": ""},
  {"property": "C15", "status": "partial", "theorems": ["C15_grad_throws_iff", "C15_grad_partial", "C15_grad_exact_partial", "C15_grad_refuted"], "note": "Exceptions: proved as stated. Value: determined for every variable of every history (C15_grad_exact_partial): it is the derivative unless the variable holds an independent variable up to functions of one argument, when grad returns 0. So refuted in general: x.grad(x) is 0 for an independent x."},
  {"property": "C16", "status": "proved", "theorems": ["C16_sub_self", "C16_div_self", "C16_commutative", "C16_associative_distributive", "C16_inverse_operations"], "note": ""},
  {"property": "C17", "status": "proved", "theorems": ["C17_cov_matrix_layout", "C17_corr_matrix_layout", "C17_iterator_versions", "C17_nom_vector", "C17_symmetric_psd"], "note": ""},
  {"property": "C18", "status": "proved", "theorems": ["C18_corr2cov", "C18_corr2cov_inverts"], "note": ""},
  {"property": "C19", "status": "proved", "theorems": ["C19_ureals_covariance"], "note": ""},
  {"property": "C20", "status": "proved", "theorems": ["C20_ureals_validates", "C20_ureals_ids", "C20_ureals_one_triangle"], "note": ""},
  {"property": "C21", "status": "partial", "theorems": ["C21_unary_derivatives", "C21_cbrt_partial", "C21_cbrt_negative_refuted"], "note": "23 functions proved on their whole domain of differentiability; cbrt proved for positive means and refuted for negative ones (pow of a negative base gives NaN)."},
  {"property": "C22", "status": "partial", "theorems": ["C22_binary_derivatives", "C22_pow_integer_exponent", "C22_pow_zero_base_refuted", "C22_atan2_negated_derivatives", "C22_atan2_refuted"], "note": "fmod, remainder, fmax, fmin, pow (positive base, or negative base with integer number as exponent), hypot proved. Refuted: atan2 of UReal has both derivatives with the wrong sign (proved for every nonzero first mean); pow with number exponent at mean zero gives NaN."},
  {"property": "C23", "status": "partial", "theorems": ["C23_unary_functions", "C23_cbrt", "C23_binary_functions", "C23_atan2", "C23_pow_integer_exponent", "C23_pow_zero_base_refuted"], "note": "All 31 UReal2 functions of math.hpp proved to hand the true value and the true first, second and mixed derivatives to unary/binary on the whole domain where they are twice differentiable (pow also with a number as exponent and negative base). Refuted in one case: pow with a number as exponent at mean zero gives a non-number although x^2 is twice differentiable there."},
  {"property": "C24", "status": "proved", "theorems": ["C24_explicit_derivatives", "C24_forward_error", "C24_forward_second_error", "C24_central_error", "C24_exact_on_polynomials", "C24_convergence", "C24_default_step"], "note": "All factories of functions.hpp. Explicit derivatives are propagated as given; numerical ones with error bounds (forward M|step|/2, central M step^2/6, /12, /8), exactness on polynomials and convergence as step -> 0. To second order the result is compared to the chain rule with the restriction on mixed derivatives of C27. std::function is total and has no side effects; steps are exact reals, so rounding errors of the differences are not modelled."},
  {"property": "C25", "status": "proved", "theorems": ["C25_storage_invariants", "C25_iterators", "C25_queries_return"], "note": ""},
  {"property": "C26", "status": "proved", "theorems": ["C26_neg_add_sub_mul", "C26_no_pure_second_derivative"], "note": ""},
  {"property": "C27", "status": "partial", "theorems": ["C27_second_order_chain_rule_partial", "C27_mixed_derivatives_refuted", "C27_mixed_exact_partial", "C27_mixed_two_arguments_partial", "C27_function_of_a_sum_partial"], "note": "Gradient and diagonal second derivatives proved for every operand; mixed second derivatives proved when the pure second derivative of the function vanishes or the operand depends on one variable. Refuted otherwise: (a+b)^2 loses its mixed derivative. For functions of one argument C27_mixed_exact_partial gives the mixed derivatives left in every case: at most those of a variable and the next one the operand depends on; a function of a sum keeps none (C27_function_of_a_sum_partial). For functions of two arguments C27_mixed_two_arguments_partial gives the mixed derivatives left in every case: the terms of the two arguments are those of functions of one argument, but the term of one is lost if the other has more recorded mixed derivatives with the same first variable (as in a b / (a b + a c)); the cross term is right."},
  {"property": "C28", "status": "proved", "theorems": ["C28_moments_of_the_polynomial", "C28_only_given_variables", "C28_model_exists"], "note": ""},
  {"property": "C29", "status": "proved", "theorems": ["C29_covariance_of_the_polynomials", "C29_covariance_symmetric", "C29_bilinear"], "note": ""},
  {"property": "C30", "status": "proved", "theorems": ["C30_constructor_standardized", "C30_constructor_central"], "note": ""},
  {"property": "C31", "status": "proved", "theorems": ["C31_check_with_threshold", "C31_threshold_zero", "C31_distributions_accepted", "C31_negative_threshold", "C31_failures_consume_nothing"], "note": ""},
  {"property": "C32", "status": "proved", "theorems": ["C32_mean_and_estimate", "C32_unbiased_estimate"], "note": ""},
  {"property": "C33", "status": "proved", "theorems": ["C33_moments_valid", "C33_covariance_bound"], "note": ""},
  {"property": "C34", "status": "proved", "theorems": ["C34_isindep_indepid", "C34_grad", "C34_hess"], "note": ""},
  {"property": "C35", "status": "partial", "theorems": ["C35_binary_assign_refuted", "C35_gradient_and_diagonal", "C35_never_right", "C35_same_object", "C35_mixed_partial", "C35_stored_partial", "C35_same_object_stored_partial", "C35_storage_kept"], "note": "Refuted: the method is unfinished in the library; a += b doubles the gradient with respect to a. What it computes is proved for all x, y and derivatives: it returns, the dependencies are right, the gradient is the right one plus the old gradient of x (so it is right only if that is zero), and the diagonal second derivatives. The same for binary_assign(x, x, ...), where the gradient is right only if it is zero or fx fy = -1 (C35_same_object). In every history that calls it, the storage of all variables stays valid and every later query and operation returns (C35_storage_kept). The mixed second derivatives it stores are proved for functions whose pure second derivatives are zero, the second one also not if y depends on one variable (sums, differences, products, quotients by a variable: C35_mixed_partial; C35_stored_partial says which derivatives second-order propagation would have to be given to store the same, C35_same_object_stored_partial the same for binary_assign(x, x, ...)); for other functions they are not stated."},
  {"property": "C36", "status": "proved", "theorems": ["C36_agrees_with_UReal"], "note": ""},
  {"property": "C37", "status": "proved", "theorems": ["C37_normal", "C37_chisquare", "C37_uniform", "C37_queries", "C37_invalid_parameters", "C37_degenerate"], "note": ""},
  {"property": "C38", "status": "proved", "theorems": ["C38_binomial_coefficients", "C38_central_moments", "C38_standardized_moments"], "note": ""},
  {"property": "C39", "status": "proved", "theorems": ["C39_valid_parameters_accepted"], "note": ""},
  {"property": "C40", "status": "partial", "theorems": ["C40_format_partial", "C40_errdig_one_refuted"], "note": "Proved: throws invalid_argument exactly for errdig <= 1, otherwise returns (for every mean and every non-negative or non-finite deviation). The documented bound is errdig < 1: refuted at errdig = 1."},
  {"property": "C41", "status": "partial", "theorems": ["C41_format_partial", "C41_text_unambiguous", "C41_mean_refuted", "C41_deviation_refuted", "C41_every_case_partial"], "note": "Partial: the deviation is proved correctly rounded for errdig < 2, integer errdig, and every other errdig when rounding does not change the choice of the number of digits; the mean is proved correctly rounded except when last digit is units, no exponent is printed and rounding carries to the next power of ten. Refuted in the excluded cases (9.6 +- 12 prints 1 +- 12; 0.999 with 2.5 digits prints 10.0). C41_every_case_partial says what is printed in all the other cases: with errdig = i + f, the deviation rounded to i digits, times 10^(i-1), with i + 1 digits."},
  {"property": "C42", "status": "partial", "theorems": ["C42_aligned_partial", "C42_every_case_partial", "C42_carry_refuted"], "note": "Partial: same number of decimal places unless rounding the mean carries to the next power of ten. Refuted in that case (9.996 +- 0.32 prints 10.0 +- 0.32). C42_every_case_partial says what is printed in that case: the mean has one decimal place less, or, if there are none, is a tenth of the right number."},
  {"property": "C43", "status": "partial", "theorems": ["C43_sign_partial", "C43_no_uncertainty_refuted", "C43_sign_lost_partial"], "note": "Partial: proved for positive deviations. Refuted for zero deviation (-1.5 +- 0 prints 1.50000). C43_sign_lost_partial: with deviation zero, infinite or NaN the sign of the mean is always lost."},
  {"property": "C44", "status": "partial", "theorems": ["C44_number_of_digits_partial", "C44_number_of_digits_refuted"], "note": "Partial: same range of errdig as C41; refuted outside (errdig = 2.5, deviation 0.999)."},
  {"property": "C45", "status": "proved", "theorems": ["C45_digit_strings"], "note": ""},
  {"property": "C46", "status": "proved", "theorems": ["C46_no_undefined_behaviour"], "note": ""},
  {"property": "C47", "status": "partial", "theorems": ["C47_id_exhaustion_refuted"], "note": "Refuted: after 2^31-1 constructions binary reads through an end iterator, and the next id is negative (treated as 'dependent on nothing')."},
  {"property": "C48", "status": "proved", "theorems": ["C48_cast_keeps_values", "C48_cast_keeps_derivatives", "C48_cast_same_type", "C48_cast_roundtrip", "C48_mode_only_changes_sign"], "note": "The propagation mode is a type parameter that the representation does not contain. Numeric casts: any map that commutes with the arithmetic (keeps_ring for moments and covariances, keeps_field for grad and hess); instance: exact fractions to reals. Over one numeric type the cast gives back the same object."},
  {"property": "C49", "status": "proved", "theorems": ["C49_sum_of_independent", "C49_multiple"], "note": ""},
  {"property": "C50", "status": "partial", "theorems": ["C50_boundary_moments_refuted", "C50_boundary_no_distribution_refuted", "C50_positive_definite_partial"], "note": "Positive definite Hankel matrices are realized by a distribution on five points (C50_positive_definite_partial). False at the boundary: the moments 0,1,0,1,0,2 (3rd to 8th) have a positive semidefinite Hankel matrix and are accepted, but no probability distribution has them (C50_boundary_no_distribution_refuted, for expectations with monotone convergence; C50_boundary_moments_refuted for finite ones)."},
  {"property": "C51", "status": "proved", "theorems": ["C51_no_uncertainty"], "note": ""},
  {"property": "C52", "status": "partial", "theorems": ["C52_mean_rounded_once", "C52_quotient_partial", "C52_quotient_refuted"], "note": "Exact for +, -, *, unary minus. The quotient is x * (1 / y), two roundings: bound proved (C52_quotient_partial); not the nearest double in general: 49 / 49 gives 1 - 2^-53."},
  {"property": "C53", "status": "proved", "theorems": ["C53_rewriting"], "note": "Doubles are Flocq's binary64, round to nearest even, one NaN, no contraction into fused multiply-add."},
  {"property": "C54", "status": "proved", "theorems": ["C54_never_negative", "C54_symmetric", "C54_difference"], "note": "NaN counts as not negative; the difference is exact whenever the mean of x and the deviation of -x are finite."},
  {"property": "C55", "status": "partial", "theorems": ["C55_caching_partial", "C55_var_refuted", "C55_self_assign_refuted"], "note": "Proved for everything but var(), in programs without v op= v. var() is s()^2 after caching, so it changes in the last bit (C55_var_refuted); after z *= z on a cached z the deviation differs in the last bit (C55_self_assign_refuted)."},
  {"property": "C56", "status": "partial", "theorems": ["C56_adding_a_number_partial", "C56_adding_a_number_refuted"], "note": "Proved unless x is independent with deviation outside [2^-511, 2^511] (and not 0). For 2^-600 the deviation of x + 0 is 0, for 2^600 it is infinite."},
  {"property": "C57", "status": "proved", "theorems": ["C57_accuracy"], "note": "The bound is on the stored coefficients (derivative times deviation of each independent variable)."},
  {"property": "C58", "status": "partial", "theorems": ["C58_linear_partial", "C58_deviation_is_a_number_refuted"], "note": "Proved for programs that add, subtract, change sign and scale by numbers. False in general: for x = 5 with probability 1/5 and -5 otherwise, 0.7 * (x * x) has computed variance -4.3e-14 and s() is NaN."},
  {"property": "C59", "status": "partial", "theorems": ["C59_order_of_calls", "C59_UReal2_partial", "C59_UReal2_refuted", "C59_doubles_refuted"], "note": "Proved for UReal (real numbers), and for UReal2 for histories without a pure second derivative of a value that depends on more than one variable. False otherwise: for x = a*b + c, x + x^2 has variance 4 or 3 depending on whether b or c is created first (C59_UReal2_refuted). With doubles the variance of a sum depends on the order of creation in the last bit (C59_doubles_refuted)."},
  {"property": "C60", "status": "partial", "theorems": ["C60_second_order_taylor_partial", "C60_moments_of_the_taylor_polynomial_partial", "C60_covariance_of_the_taylor_polynomials_partial", "C60_second_order_taylor_refuted"], "note": "Proved for histories without a pure second derivative of a value that depends on more than one variable. False otherwise: for x = a*b + c, the mixed derivative of x + x^2 with respect to a and b can be stored as 0 instead of 1 (C60_second_order_taylor_refuted); see C27."},
  {"property": "C61", "status": "proved", "theorems": ["C61_covariance_accuracy"], "note": "The bound is on the stored coefficients (derivative times deviation of each independent variable)."},
  {"property": "C62", "status": "partial", "theorems": ["C62_self_covariance_partial", "C62_documented_equalities_refuted"], "note": "False for x = a + b + c with deviations 1: sqrt(3) * sqrt(3) < 3 (C62_documented_equalities_refuted). Proved, in programs without v op= v: cov(x, x) == var(x) if no deviation or variance has been asked for before; always one of the two equalities; var of a non-const x is s() * s(); s() is the rounded square root of cov(x, x) unless x is independent."},
  {"property": "C63", "status": "partial", "theorems": ["C63_correlation_accuracy_partial", "C63_correlation_bounded_refuted"], "note": "corr(x, x) = 1.0000000000000002 for x = a + b + c with deviations 1, also in corr_matrix (C63_correlation_bounded_refuted). Proved: corr(x, y) is within 7 (n + 3) 2^-53 of the exact correlation of the stored coefficients, which is between -1 and 1."},
  {"property": "C64", "status": "partial", "theorems": ["C64_isfinite_sound", "C64_isfinite_complete_partial", "C64_isfinite_refuted", "C64_isnormal"], "note": "The 'if' part is false: for x = UReal(1, 2^600) isfinite(x) is true and isfinite(x + 0) is false, because s() overflows squaring the coefficient (C64_isfinite_refuted). Proved: isfinite(x) implies that the mean and all coefficients are finite (C64_isfinite_sound), and the converse if the sum of squares of the coefficients is at most 2^1020 (C64_isfinite_complete_partial); isnormal as stated (C64_isnormal)."},
  {"property": "C65", "status": "partial", "theorems": ["C65_functions", "C65_cancelling_partial", "C65_uniform_bound_refuted"], "note": "Relative errors at most 7 e for 16 functions and (16 + 3 a^2) e for erf and erfc, a = mean (C65_functions). The other functions lose accuracy where the code subtracts nearly equal numbers: bounds 18/(1 - a^2) e for asin and acos, 15/(1 - a^2) e for atanh, 10/(1 - tanh(a)^2) e for tanh, 14 a^2/(a^2 - 1) e for acosh; (10 + 4 |ln a|) e for cbrt with a > 0 (C65_cancelling_partial). A bound which does not depend on the mean is false for asin, acos, atanh, acosh, tanh, even for a correctly rounded <cmath>: the error is more than 2^22 units of roundoff at 1 - 2^-27 or 1 + 2^-27, and the propagated deviation of tanh at 40 is 0 (C65_uniform_bound_refuted)."},
  {"property": "C66", "status": "partial", "theorems": ["C66_operators", "C66_functions", "C66_quotient_partial", "C66_quotient_trunc", "C66_quotient_round", "C66_quotient_refuted"], "note": "Proved for +, -, *, /, pow, hypot, fmax, fmin with errors of the coefficients between 4 e and 9 e relative to the size of the two terms (C66_operators, C66_functions), for every <cmath> of relative error e, with the ids of the result and the deviation. fmod and remainder: proved if the rounded quotient has the same integral part (C66_quotient_partial), which holds if the quotient is further than 2^-53 of its value from the integers or half integers (C66_quotient_trunc, C66_quotient_round); false otherwise: fmod(3 + 2^-51, 1 + 2^-52) has derivative -3 instead of -2 (C66_quotient_refuted). atan2 is left out: see C22."},
  {"property": "C67", "status": "partial", "theorems": ["C67_text_on_doubles_partial", "C67_no_uncertainty_on_doubles_partial", "C67_overflow_refuted", "C67_subnormal_refuted", "C67_assert_refuted"], "note": "For every <cmath> with relative error e between 2^-53 and 2^-51: if the deviation is between 1e-300 and 1e300, the mean at most 1e9 times the deviation (1e10 if it is not within 4e-13 of a power of ten) and errdig is below 2, or 2, or 3, format returns; the text denotes deviation and mean rounded at the same decimal place, up to 4 e of their values, the deviation with the number of digits of C44 (outside of 1e-4 around the boundary), the mean aligned; the exceptions are those of C41 and C42, when rounding the mean reaches a power of ten (C67_text_on_doubles_partial). Without uncertainty: six digits, nan, inf, 0 (C67_no_uncertainty_on_doubles_partial). Outside of the ranges: undefined behaviour for 2^664 +- 2^-498 with every library (C67_overflow_refuted) and for deviation 2^-1074 (C67_subnormal_refuted); failed assertion for 999.9999999999999 +- 1.8e-12 with correctly rounded log10 and pow (C67_assert_refuted)."},
  {"property": "C68", "status": "partial", "theorems": ["C68_enough_memory", "C68_failed_call_no_effect", "C68_no_undefined_behaviour", "C68_failed_compound_partial", "C68_failed_add_partial", "C68_failed_assignment_refuted"], "note": "For every std::map (SpecAlloc.v): a call succeeds if there are as many nodes as it needs, and then does what it does without failures (C68_enough_memory); a failed call that returns a new object leaves all variables alone (C68_failed_call_no_effect); after failed calls nothing is undefined and no assertion fails, including the failed ones of the next kind (C68_no_undefined_behaviour). Missing, because false: v = x and the compound assignments. Failed t += x + y on t = 0 leaves s() = 0 and cov(t, t) = 1; failed u *= y leaves s() = 1 and cov(u, u) = 25; a failed copy leaves the mean of the source (C68_failed_assignment_refuted). What remains true of them: the mean is unchanged and the coefficients are those after the call up to some id and those before beyond (C68_failed_compound_partial); += and -= of a variable with isindep() true have no effect if they fail (C68_failed_add_partial)."},
  {"property": "C69", "status": "partial", "theorems": ["C69_no_data_race", "C69_threads", "C69_every_schedule_ends", "C69_shared_queries", "C69_two_queries_race", "C69_any_queries_refuted"], "note": "Members are read and written one at a time, in any order. If no thread assigns a variable another uses, no reachable state has a data race (C69_no_data_race), the final state is observably the one of the sequential history, up to a renaming of the new ids (C69_threads), the number of steps is bounded and a thread can always proceed (C69_every_schedule_ends). Missing, because false: queries. s() and var() on a variable that is not const store the result, so two threads calling s() on the same dependent variable race (C69_two_queries_race, C69_any_queries_refuted). They do not if it is independent or s() was called before (C69_shared_queries)."},
  {"property": "C70", "status": "partial", "theorems": ["C70_default_step", "C70_forward", "C70_deviation", "C70_forward_two", "C70_second_forward", "C70_second_forward_two", "C70_central", "C70_central_two", "C70_step_lost", "C70_large_mean_refuted"], "note": "Bounds for the forward differences of uunary, ubinary, uunary2 and ubinary2 with given first derivatives (C70_forward, C70_forward_two, C70_second_forward, C70_second_forward_two), for the central differences of uunary2 and ubinary2 (C70_central, C70_central_two; the mixed derivative up to twice its variation in the rectangle), and for the standard deviation of uunary (C70_deviation). The default steps are 2^-26 and 2^-13 (C70_default_step). Missing, because false: large means. The step is absolute; if |mean| is at least 2^55 steps, mean + step = mean and the uncertainty of the result is 0 for every function (C70_step_lost): with the default step, 2^29 +- 1 passed through the identity has s() = 0 (C70_large_mean_refuted). Between 2^50 and 2^55 steps no bound is stated. Steps below zero are left out."},
  {"property": "C71", "status": "proved", "theorems": ["C71_all", "C71_coefficients", "C71_new_variable"], "note": ""},
  {"property": "C72", "status": "partial", "theorems": ["C72_accuracy", "C72_validates", "C72_exact_refuted"], "note": "C72_accuracy bounds the error of each covariance for any decomposition with a known error, if the numbers L(i, k) sqrt(D(k)) do not underflow; C72_validates describes invalid input on doubles (a pivot that is NaN aborts in an assertion although a decomposition error is documented). Missing, because false: the covariance matrix is not reproduced exactly, even if the decomposition is exact (C72_exact_refuted: variance 2)."},
  {"property": "C73", "status": "proved", "theorems": ["C73_matrices", "C73_positive", "C73_corr2cov"], "note": ""},
  {"property": "C74", "status": "proved", "theorems": ["C74_moves_are_copies", "C74_swap", "C74_no_undefined_behaviour", "C74_moved_from", "C74_moved_from_consistent_refuted"], "note": "C74_moved_from_consistent_refuted is an additional fact: a moved-from variable keeps its cached deviation, so that s() and cov(x, x) disagree."},
  {"property": "C75", "status": "proved", "theorems": ["C75_moments", "C75_mean", "C75_covariance", "C75_exact_moments", "C75_exact_covariance", "C75_no_overflow", "C75_linear_variance"], "note": "C75_moments, C75_mean and C75_covariance hold whenever the result is finite; C75_no_overflow says when it is. The size of the terms is the same formula evaluated on absolute values; C75_exact_moments and C75_exact_covariance tie the exact value to a probability space."},
  {"property": "C76", "status": "proved", "theorems": ["C76_derivatives", "C76_queries"], "note": "Programs of ENewStd (no validation), constants, copies, negation, +, - and * on UReal2<double>; error bounds against the same program on real numbers, for stored derivatives and for all queries. Results that overflow are excluded by the hypothesis that the queried number is finite. Division and the functions of math.hpp are not in these programs."},
  {"property": "C77", "status": "partial", "theorems": ["C77_normal", "C77_chisquare", "C77_uniform", "C77_accepted", "C77_uniform_throws_refuted", "C77_uniform_mean_refuted"], "note": "C77_normal, C77_chisquare (all k up to 2^31 - 1), C77_uniform (ends up to 2^1020 in absolute value, different by 0 or at least 2^-1000), C77_accepted for any solver accurate to 2^-32. Missing, because false: uniform(left, right) with left > right does not throw if the difference is tiny, because the deviation rounds to -0 (C77_uniform_throws_refuted), and the mean of an interval between large finite numbers is infinite (C77_uniform_mean_refuted). Unit of roundoff: 2^-53."},
  {"property": "C78", "status": "proved", "theorems": ["C78_functions", "C78_cancelling", "C78_two_arguments", "C78_quotient"], "note": "17 functions of one argument with constant factors (C78_functions), 7 with factors that depend on the argument (C78_cancelling), the operators and pow, hypot, atan2, fmax, fmin (C78_two_arguments), fmod and remainder when rounding the quotient does not change its integral part (C78_quotient; otherwise false, as in C66). Domains exclude overflow and underflow of intermediate results. Second derivatives with respect to two different variables are outside the claim."},
  {"property": "C79", "status": "partial", "theorems": ["C79_no_data_race", "C79_one_after_the_other", "C79_every_order_happens", "C79_any_schedule", "C79_several_creators_refuted", "C79_every_schedule_ends", "C79_shared_assignment_races"], "note": "Variables of both classes; members (for UReal2 the two maps and mu) are read and written one at a time in any order, the counter is atomic. If no thread assigns a variable another uses: no reachable state has a data race (C79_no_data_race), the final state is exactly that of a sequential history which interleaves the calls of the threads (C79_one_after_the_other, for reals, doubles, any arithmetic with not 0 < 0), every interleaving occurs (C79_every_order_happens), all schedules give the same state if one thread at most creates independent variables (C79_any_schedule), and the number of steps is bounded (C79_every_schedule_ends). The condition is needed (C79_shared_assignment_races). Missing, because false: independence of the schedule if several threads create variables; the variance of the same expression is 4 or 3 (C79_several_creators_refuted), because UReal2 loses mixed derivatives depending on the order of the ids (C59)."},
  {"property": "C80", "status": "partial", "theorems": ["C80_enough_memory", "C80_failed_call_no_effect", "C80_as_if_not_called", "C80_no_undefined_behaviour_partial", "C80_failed_assignment_refuted"], "note": "Proved: calls that succeed do what they always do and 1 + n(n+1)/2 nodes are enough; failed calls leave all variables alone except the target of v = x; failed calls that are not in place and not constructions leave no trace; no undefined behaviour as long as the target of a failed v = x is not used before it is assigned. The full claim is refuted: with libstdc++ and libc++ the target of a failed v = x has inconsistent maps and cov, m(3) and all on it abort, or it has the old mean and the new derivatives."},
  {"property": "C81", "status": "partial", "theorems": ["C81_cov_matrix", "C81_positive_partial", "C81_positive_refuted", "C81_corr_matrix", "C81_corr2cov_partial", "C81_corr2cov_refuted", "C81_second_order_matrix_partial", "C81_second_order_symmetric_refuted"], "note": "UReal: matrices symmetric bit for bit, entries finite and with explicit error bounds, quadratic form bounded below. Refuted: the rounded covariance matrix of x = 0 +- 67108865 and 3 x is not positive semidefinite; corr2cov gives NaN with a variable without uncertainty, whose covariances are 0; cov of UReal2 depends on the order of its arguments in the last bits, so its matrix is not symmetric."},
  {"property": "C82", "status": "partial", "theorems": ["C82_moments_exist", "C82_deviation_partial", "C82_correlation_partial", "C82_linear", "C82_deviation_refuted"], "note": "Error bounds of s, skew, kurt and corr where the error of the variance (C75) is at most one eighth of it, always so for variables without second derivatives. Refuted in general: for a = +-10000019 and b = +-1001, fair coins, the variance of a*a + b*b is 0, but var() is negative and s() and skew() are NaN."},
  {"property": "C83", "status": "proved", "theorems": ["C83_values", "C83_covariances", "C83_deviation", "C83_relative"], "note": "Programs of any length made of constructors, copies, change_nom, unary minus, +, -, *, +=, -=, *=, s() and var() (no quotients and no functions). Exact values: the linear forms of SpecLin on the reals. Sizes: sums of absolute values, plus 2^-1075 for each product that can underflow. The deviation theorems exclude compound assignments of a variable to itself (C55: the library leaves a stale deviation there) and coefficients below 2^-510. Unit of roundoff: 2^-53."},
  {"property": "C84", "status": "proved", "theorems": ["C84_central", "C84_variable", "C84_standardized", "C84_variance_refuted"], "note": "Proved as stated, for random variables (any probability with eight moments) and for arbitrary numbers. The stronger claim that the moments computed from correctly rounded moments of a variable are usable is false (C84_variance_refuted): for a variable with the two values 2^53 + 2 and 2^53 + 4 the computed variance is negative and all standardized moments are NaN."},
  {"property": "C85", "status": "proved", "theorems": ["C85_memory_held", "C85_allocations", "C85_one_operand_no_heap"], "note": "Histories of World.v executed with the budget of allocations of Alloc.v; the memory a variable holds is defined by the history and the dependency set of SpecLin.v (SpecMem.v), not by the stored map."},
  {"property": "C86", "status": "proved", "theorems": ["C86_functions_return", "C86_functions_throw", "C86_operand_modified_refuted"], "note": "FunEff.v: the ten factories with user functions as state transformers that return or throw, the order of evaluation an argument where it is unspecified. C86_operand_modified_refuted is not a gap of the statement: it shows that the hypothesis on the operands is needed (n() and first_order_n() return references, so a function that modifies its operand makes the result depend on the order of evaluation)."},
  {"property": "C87", "status": "proved", "theorems": ["C87_values", "C87_deviation", "C87_sqrt_step"], "note": "UReal<double>; relative errors of means, coefficients, deviations and variances of programs without cancellation (the conditions are on the exact values), with division and square root; v op= v is not covered"},
  {"property": "C88", "status": "proved", "theorems": ["C88_recorded_pairs", "C88_allocations", "C88_sums", "C88_products"], "note": "Histories of World2.v executed with the budget of allocations of Alloc2.v, on exact reals (whether a pair is recorded depends on second derivatives being zero). One pair per variable when the second derivative is not zero is a consequence of the iterator that loses mixed derivatives (C27). Allocations of Eigen in the check of the moments are not modelled."},
  {"property": "C89", "status": "partial", "theorems": ["C89_ureal", "C89_ureal2", "C89_chain", "C89_width_used_once", "C89_same_text_partial", "C89_same_text_refuted", "C89_characters_partial", "C89_characters_refuted", "C89_chain_both_classes", "C89_any_buffer", "C89_endless_as_before", "C89_throwing_stream"], "note": "Exact reals as in C40-C45; std::ostream << std::string as in the standard, on a buffer that takes every character, and (C89_any_buffer) on one that may fail; C89_throwing_stream for streams that throw then. Two parts of the claim are false: means whose rounding carries at the units digit (9.6 and 1.2 with deviation 12 are printed alike, the defect of C41), and the number of characters of a padded field (the plus-minus sign is two bytes, so it is n - 1); what holds instead is proved."},
  {"property": "C90", "status": "partial", "theorems": ["C90_first_order", "C90_first_order_covariance", "C90_affine_exact", "C90_second_order_partial", "C90_second_order_covariance_partial", "C90_polynomials_exact", "C90_quadratic_exact_partial", "C90_second_order_refuted"], "note": "Exact reals. First order: all programs of C05. Second order: programs in which the mixed second derivatives are not left out (C27, C60); for the others false, (a + b)^2 with two fair coins has deviation 2 and the library reports 0. The derivative of the program along the line from the means to the values is assumed to be bounded, Y and B to have an expectation (and a variance where deviations are compared). Programs of sums, differences and products with numbers are exact without any assumption on bounds (C90_affine_exact). UReal2 is exact (mean, moments 2 to 4, s, cov) for all programs of sums, differences and products of degree at most two (C90_polynomials_exact)."}
]}
