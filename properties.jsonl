{"id": "C01", "title": "Independent-variable ids are never reused", "statement": "Every successful construction of an independent variable (UReal(n,s), UReal2(n,moments), UReal2(n,s,std_moments)) yields an indepid() that is positive and different from that of every other independent variable constructed before or after it, including across the two classes, as long as fewer than 2^31-1 independent variables have been constructed in the process.", "quantifier": "all histories of library calls containing at most 2^31-2 constructions, with failing constructions interleaved anywhere", "why_tests_cant": "uniqueness is about every pair of constructions in every history up to 2^31-2 of them; no test can run them all", "anchors": ["uncertainties/impl.hpp: internal::last_id", "uncertainties/ureal.hpp: UReal(const Real&,const Real&), indepid", "uncertainties/ureal2.hpp: UReal2 constructors, indepid"]}
{"id": "C02", "title": "Ids stay unique under concurrent construction", "statement": "If several threads construct independent variables concurrently, no two variables obtain the same id, whatever the interleaving.", "quantifier": "all numbers of threads, all per-thread construction sequences, all interleavings of their atomic counter increments", "why_tests_cant": "depends on the schedule; a test sees a handful of schedules", "anchors": ["uncertainties/core.hpp: std::atomic<Id> last_id", "uncertainties/impl.hpp: last_id", "uncertainties/ureal.hpp: UReal(const Real&,const Real&)"]}
{"id": "C03", "title": "First-order class invariants hold in every reachable variable", "statement": "After any history of library calls every UReal satisfies: if it is stored as independent/constant it carries no dependency map; a constant has zero standard deviation; every id it depends on was issued by the library; a cached standard deviation is non negative only if its square equals the variance computed from the coefficients.", "quantifier": "all finite histories of constructions, copies, unary/binary/nary operations, compound assignments (including x op= x) and moment queries", "why_tests_cant": "inductive invariant over unbounded histories", "anchors": ["uncertainties/ureal.hpp: class UReal (private invariants), unary, binary, nary, binary_assign, s, var"]}
{"id": "C04", "title": "Operations propagate uncertainty linearly with the given derivatives", "statement": "A UReal behaves exactly as a pair (mean, linear form over independent variables): unary(x,f,d) has mean f and coefficients d*c_i(x); binary(x,y,f,dx,dy) has mean f and coefficients dx*c_i(x)+dy*c_i(y); nary sums dx_k*c_i(x_k); copies, + - * /, and compound assignments follow the same rule. No other variable changes. All observable moments are functions of this abstract value only.", "quantifier": "all histories of operations over any number of variables and ids (storage layout, id order and overlap of supports arbitrary)", "why_tests_cant": "the implementation has different code paths for independent, dependent and constant operands and a sorted merge; correctness must hold for all combinations of supports", "anchors": ["uncertainties/ureal.hpp: unary, binary, nary, binary_assign, operator+,-,*,/, +=,-=,*=,/="]}
{"id": "C05", "title": "Expressions obey the chain rule", "statement": "For any expression built from independent variables with differentiable functions and their correct derivatives, the resulting UReal has the value of the expression at the means as its mean, and for each independent variable its coefficient is the true partial derivative of the whole expression at the means times that variable's standard deviation.", "quantifier": "all expressions (any size and sharing), all means where the functions are differentiable, all standard deviations", "why_tests_cant": "unbounded set of expressions; the claim involves real derivatives", "anchors": ["uncertainties/ureal.hpp: class documentation 'Dependency tracking', unary, binary"]}
{"id": "C06", "title": "Covariance is the exact bilinear form of the coefficients", "statement": "cov(x,y) = sum over independent variables of coef_i(x)*coef_i(y); hence it is symmetric, bilinear under the library's own linear operations, zero for variables with disjoint supports, and cov(x,x) == var(x).", "quantifier": "all pairs of reachable variables", "why_tests_cant": "four code paths plus a two-pointer merge over maps of arbitrary size", "anchors": ["uncertainties/ureal.hpp: cov, var, s2"]}
{"id": "C07", "title": "Standard deviation, variance and correlation are consistent", "statement": "var(x) == s()*s() >= 0, s() >= 0, |cov(x,y)| <= s(x)*s(y), and when both deviations are nonzero corr(x,y) lies in [-1,1], corr(x,x)=1 and corr(x,-x)=-1.", "quantifier": "all pairs of reachable variables", "why_tests_cant": "inequality over all coefficient vectors (Cauchy-Schwarz)", "anchors": ["uncertainties/ureal.hpp: s, var, corr, cov"]}
{"id": "C08", "title": "Caching of the standard deviation is unobservable", "statement": "Calling the caching (non-const) s() or var() any number of times, at any point, never changes the result of any later call of any function on any variable.", "quantifier": "all histories with caching queries inserted at arbitrary points", "why_tests_cant": "the cache is invalidated by sign conventions scattered over many operations; must hold for every interleaving of queries and in-place updates", "anchors": ["uncertainties/ureal.hpp: s(), var(UReal&), binary_assign"]}
{"id": "C09", "title": "isindep/indepid report the dependency set", "statement": "isindep() is true iff the variable was computed from at most one independent variable; indepid() is that variable's id, 0 if there is none and invalid_id if there are several. Two variables reported independent with nonzero deviations have correlation 0, 1 or -1.", "quantifier": "all reachable variables", "why_tests_cant": "quantifies over all computation histories", "anchors": ["uncertainties/ureal.hpp: isindep, indepid"]}
{"id": "C10", "title": "Compound assignment equals the plain operation followed by assignment", "statement": "After x.binary_assign(y,mu,dt,dx) (and +=,-=,*=,/=) the variable x is indistinguishable from binary(x,y,mu,dt,dx) evaluated beforehand, also when y is x itself; y (if distinct) and all other variables are unchanged.", "quantifier": "all pairs of reachable variables, aliased or not, cached or not, all numbers", "why_tests_cant": "aliasing and cache state combinations over arbitrary supports", "anchors": ["uncertainties/ureal.hpp: binary_assign, operator+=,-=,*=,/="]}
{"id": "C11", "title": "nary generalises unary and binary", "statement": "nary on one operand is indistinguishable from unary, on two operands from binary, and in general equals repeated accumulation with +=; the order of the operands does not matter.", "quantifier": "all operand sequences of any length", "why_tests_cant": "unbounded operand count", "anchors": ["uncertainties/ureal.hpp: nary"]}
{"id": "C12", "title": "Numbers without uncertainty contribute nothing", "statement": "A variable constructed from a plain number (or by default) has zero deviation, zero covariance with everything, consumes no id, and combining with it propagates only the other operand's uncertainty; a variable constructed with s == 0 also has zero covariance with everything.", "quantifier": "all numbers, all other reachable variables, all operations", "why_tests_cant": "ranges over all operands and histories", "anchors": ["uncertainties/ureal.hpp: UReal(const Real&), UReal(), unary, binary"]}
{"id": "C13", "title": "Invalid constructions are rejected and leave existing variables alone", "statement": "UReal(n,s) throws std::invalid_argument exactly when s < 0; a throwing construction changes no existing variable, and later constructions still get fresh ids.", "quantifier": "all n, s and all histories with failing constructions at arbitrary points", "why_tests_cant": "exception path inside every history", "anchors": ["uncertainties/ureal.hpp: UReal(const Real&,const Real&)"]}
{"id": "C14", "title": "change_nom and numeric-type conversion keep all correlations", "statement": "change_nom(x,n) has mean n and otherwise the same deviation, dependency set and covariances as x; converting a UReal to another numeric type and back through value-preserving conversions preserves mean, deviation, dependency set and all covariances.", "quantifier": "all reachable variables, all value-preserving numeric conversions", "why_tests_cant": "all variables/supports", "anchors": ["uncertainties/ureal.hpp: change_nom, operator UReal<OtherReal>()"]}
{"id": "C15", "title": "UReal::grad returns the derivative", "statement": "y.grad(x) is the derivative of y with respect to the independent variable x (0 if y does not depend on it), for every y; it throws std::invalid_argument exactly when x is not a single non-constant independent variable.", "quantifier": "all reachable y and x (with nonzero deviation of x)", "why_tests_cant": "all variables and histories", "anchors": ["uncertainties/ureal.hpp: grad"]}
{"id": "C16", "title": "Algebraic identities hold exactly to first order", "statement": "x-x and x/x have zero deviation; x+y and y+x, (x+y)+z and x+(y+z), x*y and y*x, x*(y+z) and x*y+x*z, -(-x) and x, (x/y)*y and x (y mean nonzero), x+x and 2*x are indistinguishable: same mean and same covariance with every variable.", "quantifier": "all reachable variables", "why_tests_cant": "identities over all operands, not samples", "anchors": ["uncertainties/ureal.hpp: operator+,-,*,/"]}
{"id": "C17", "title": "Covariance matrices are laid out correctly, symmetric and positive semidefinite", "statement": "cov_matrix(x) has n*n entries, entry n*i+j equals cov(x_i,x_j); the matrix is symmetric and sum a_i a_j V_ij >= 0 for all a; corr_matrix likewise holds the correlations; nom_vector the means.", "quantifier": "all sequences of reachable variables of any length, all coefficient vectors a", "why_tests_cant": "unbounded length, universally quantified quadratic form", "anchors": ["uncertainties/stat.hpp: internal::outer, cov_matrix, corr_matrix, nom_vector"]}
{"id": "C18", "title": "corr2cov inverts corr_matrix and validates sizes", "statement": "corr2cov(sigma,corr) throws std::invalid_argument exactly when corr.size() != n*n, otherwise returns cov_ij = sigma_i*sigma_j*corr_ij; applied to the deviations and correlation matrix of variables with nonzero deviations it returns their covariance matrix.", "quantifier": "all vectors of any size", "why_tests_cant": "unbounded sizes", "anchors": ["uncertainties/stat.hpp: corr2cov"]}
{"id": "C19", "title": "ureals reproduces the requested means and covariance matrix", "statement": "For a positive semidefinite matrix with a valid pivoted LDL^T decomposition, ureals(mu,cov) returns n variables whose means are mu and whose covariance matrix is cov.", "quantifier": "all n, all mean vectors, all symmetric positive semidefinite matrices and all pivot sequences the decomposition may produce", "why_tests_cant": "unbounded dimension and pivoting order", "anchors": ["uncertainties/ureals.hpp: ureals"]}
{"id": "C20", "title": "ureals validates its input and reads one triangle only", "statement": "ureals throws std::invalid_argument exactly when cov.size() != mu.size()^2, throws std::runtime_error when the decomposition fails or is not positive, returns an empty vector for n = 0, consumes exactly n fresh ids otherwise, and its result does not depend on the entries of the strict other triangle of cov.", "quantifier": "all sizes and contents", "why_tests_cant": "unbounded sizes; independence from unread data is a two-run property", "anchors": ["uncertainties/ureals.hpp: ureals"]}
{"id": "C21", "title": "Unary math functions on UReal use the correct derivative", "statement": "For each of abs, exp, exp2, expm1, log, log10, log2, log1p, sqrt, cbrt, sin, cos, tan, asin, acos, atan, sinh, cosh, tanh, asinh, acosh, atanh, erf, erfc, the coefficients of the result are those of the argument times the true derivative of the function at the mean, at every mean in the function's domain of differentiability.", "quantifier": "all means in the domain, all reachable arguments", "why_tests_cant": "derivative identity at every real point", "anchors": ["uncertainties/math.hpp: UReal overloads"]}
{"id": "C22", "title": "Binary math functions on UReal use the correct partial derivatives", "statement": "For fmod, remainder, fmax, fmin, pow, hypot, atan2 the coefficients of the result are the true partial derivatives at the means combined with the operands' coefficients, wherever the function is differentiable.", "quantifier": "all means in the domain, all pairs of reachable arguments", "why_tests_cant": "derivative identity at every point of the plane", "anchors": ["uncertainties/math.hpp: UReal overloads fmod, remainder, fmax, fmin, pow, hypot, atan2"]}
{"id": "C23", "title": "Math functions on UReal2 use the correct first and second derivatives", "statement": "Every UReal2 overload in math.hpp passes to unary/binary the true value, first and second (including mixed) derivatives of the function at the first-order means, at every point where the function is twice differentiable.", "quantifier": "all points in the domains", "why_tests_cant": "second-derivative identities at every real point", "anchors": ["uncertainties/math.hpp: UReal2 overloads"]}
{"id": "C24", "title": "Function factories: explicit and numerical derivatives", "statement": "uunary/ubinary/uunary2/ubinary2 with explicit derivatives propagate exactly those derivatives; with numerical derivatives the first derivatives used are exact for affine functions (forward) or quadratic functions (central), second derivatives exact for quadratics (up to cubic for central differences), and for differentiable f they converge to the true derivatives as step -> 0.", "quantifier": "all functions f, points and nonzero steps", "why_tests_cant": "universal over functions and limits", "anchors": ["uncertainties/functions.hpp: uunary, ubinary, uunary2, ubinary2, default_step"]}
{"id": "C25", "title": "Second-order storage invariants hold in every reachable UReal2", "statement": "After any history, in every UReal2 each off-diagonal second derivative refers to two variables that are present, with ordered distinct ids, every id was issued by the library, all variables sharing an id store the same standardized moments for it, and iterating the storage never dereferences an end iterator or fails an assertion.", "quantifier": "all finite histories of UReal2 operations", "why_tests_cant": "inductive invariant over unbounded histories; the iterator class is a hand-written state machine over two maps", "anchors": ["uncertainties/internal/hessgrad.hpp: HessGrad, ConstTriIt, ConstHessIt", "uncertainties/ureal2.hpp: unary, binary, constructors"]}
{"id": "C26", "title": "Second-order propagation for + - * and negation", "statement": "x+y, x-y, x*y, -x (and generally operations whose pure second derivatives vanish) yield exactly the gradient and half-Hessian given by the second-order chain rule, for operands over any number of variables.", "quantifier": "all reachable operands with any supports", "why_tests_cant": "sorted merge of two sparse Hessians, arbitrary sparsity patterns", "anchors": ["uncertainties/ureal2.hpp: binary, unary, operator+,-,*"]}
{"id": "C27", "title": "Second-order propagation for arbitrary unary and binary functions", "statement": "unary(x,f,f1,f2) and binary(x,y,...) yield gradient f1*g_i and half Hessian f1*h_ij + f2/2*g_i*g_j (and the two-argument analogue) for every operand, including operands depending on several variables.", "quantifier": "all reachable operands, all derivative values", "why_tests_cant": "all sparsity patterns", "anchors": ["uncertainties/ureal2.hpp: unary, binary, operator/", "uncertainties/internal/hessgrad.hpp: ConstHessIt"]}
{"id": "C28", "title": "m(1)..m(4) are the exact moments of the second-order Taylor polynomial", "statement": "For independent standardized variables with the stored moments, m(1) = E[y] and m(n) = E[(y-E[y])^n], n=2,3,4, where y = sum g_i x_i + sum h_ij x_i x_j is the stored quadratic polynomial.", "quantifier": "any number of variables, any gradient and sparse Hessian, any independent distributions with finite moments", "why_tests_cant": "the formulas are hand-transcribed from a computer algebra system: about 60 index sums up to order 4 over any number of variables", "anchors": ["uncertainties/internal/moments.hpp: compute_m1, compute_m2, compute_m3, compute_m4, compute_mom", "uncertainties/ureal2.hpp: internal::update_mom, m"]}
{"id": "C29", "title": "UReal2 covariance is the exact covariance of the Taylor polynomials", "statement": "cov(x,y) = E[(X-E X)(Y-E Y)] for the two stored quadratic polynomials; it is symmetric and cov(x,x) == var(x); corr = cov/(s*s).", "quantifier": "any pair of UReal2 sharing any subset of variables", "why_tests_cant": "all sparsity patterns and overlaps", "anchors": ["uncertainties/internal/moments.hpp: compute_c2", "uncertainties/ureal2.hpp: cov, corr, var"]}
{"id": "C30", "title": "UReal2 constructors are faithful to the given moments", "statement": "A variable constructed from a mean and (standardized or plain) central moments reports exactly that mean through n() in both propagation modes, s()^2 and m(2), m(3), m(4) equal to the given second, third and fourth central moments, and the unchanged kurtosis/skewness.", "quantifier": "all means, all moment sequences with positive variance", "why_tests_cant": "all real inputs", "anchors": ["uncertainties/ureal2.hpp: UReal2(n,moments,threshold), UReal2(n,s,std_moments,threshold), n, s, skew, kurt, m"]}
{"id": "C31", "title": "Moment validity check decides realizability of the Hankel matrix", "statement": "Given exact eigenvalues, the constructor with threshold 0 throws std::invalid_argument iff the 5x5 Hankel matrix of the moments is not positive semidefinite; with threshold t it throws iff all eigenvalues are negative or min eigenvalue < -t * max eigenvalue; moments of any actual distribution are accepted; a negative threshold disables the check; a rejected construction consumes no id.", "quantifier": "all moment sequences, all thresholds", "why_tests_cant": "universally quantified over real sequences and distributions", "anchors": ["uncertainties/internal/checkmoments.hpp: hamburger, check_moments, check_moments_throw", "uncertainties/ureal2.hpp: constructors"]}
{"id": "C32", "title": "n() applies the second-order mean correction with the documented sign", "statement": "n() == first_order_n() + m(1) in mode mean (the mean of the Taylor polynomial) and first_order_n() - m(1) in mode est; for a quadratic function of independent unbiased estimates, n() in mode est is an unbiased estimate: its expectation over the estimate equals the function at the true value.", "quantifier": "all UReal2, all quadratic functions, all distributions", "why_tests_cant": "expectation identity over all distributions", "anchors": ["uncertainties/ureal2.hpp: internal::propsign, n, first_order_n"]}
{"id": "C33", "title": "Propagated moments are always valid", "statement": "If every independent variable's moments come from an actual distribution then m(2) >= 0, m(4)*m(2) >= m(2)^3 + m(3)^2 (kurt >= 1 + skew^2) and |cov(x,y)| <= s(x) s(y) for every computed variable.", "quantifier": "all distributions, all gradients and Hessians, any number of variables", "why_tests_cant": "inequality over all inputs", "anchors": ["uncertainties/ureal2.hpp: s, skew, kurt, corr, m"]}
{"id": "C34", "title": "UReal2 isindep/indepid/grad/hess", "statement": "isindep()/indepid() report the set of independent variables as for UReal; grad(x) is the first derivative w.r.t. x and hess(x,y) the second derivative w.r.t. x and y (also when x is a nonlinear reparametrisation of one variable); the documented exceptions are thrown exactly in the documented cases.", "quantifier": "all UReal2 values and arguments", "why_tests_cant": "all variables", "anchors": ["uncertainties/ureal2.hpp: isindep, indepid, grad, hess"]}
{"id": "C35", "title": "UReal2 binary_assign equals binary followed by assignment", "statement": "binary_assign(x,y,...) leaves x indistinguishable from binary(x,y,...).", "quantifier": "all x, y and derivative values", "why_tests_cant": "all operands", "anchors": ["uncertainties/ureal2.hpp: binary_assign"]}
{"id": "C36", "title": "First-order part of UReal2 agrees with UReal", "statement": "Running the same computation with UReal2 and UReal gives the same first_order_n()/n() and, for each independent variable, the same first-order coefficient.", "quantifier": "all programs (same operations on both classes)", "why_tests_cant": "relational property over all programs", "anchors": ["uncertainties/ureal2.hpp: unary, binary, first_order_n", "uncertainties/ureal.hpp: unary, binary"]}
{"id": "C37", "title": "Distribution factories produce the right moments", "statement": "distr::normal, uniform, chisquare create a variable whose mean, standard deviation and standardized moments 3..8 are those of the named distribution; chisquare(k<0) throws, chisquare(0) is the constant 0, normal with sigma<0 and uniform with left>right throw.", "quantifier": "all parameters (all k, all real mu, sigma, left, right)", "why_tests_cant": "all parameters; the claim is about the distributions' integrals", "anchors": ["uncertainties/distr.hpp: normal, uniform, chisquare"]}
{"id": "C38", "title": "central_moments, std_moments and binomial table", "statement": "central_moments maps the raw moments E[x^1..8] of any distribution to its central moments 2..8; std_moments standardizes them; the binomial table holds the binomial coefficients for all 0<=k<=n<=8.", "quantifier": "all raw moment sequences of any distribution", "why_tests_cant": "all inputs", "anchors": ["uncertainties/distr.hpp: central_moments, std_moments, binom_coeff", "uncertainties/impl.hpp: compute_binom_coeffs"]}
{"id": "C39", "title": "Library distributions always pass the validity check", "statement": "The moments used by normal, uniform and chisquare(k) have positive semidefinite Hankel matrices, so the factories never throw for valid parameters (in exact arithmetic).", "quantifier": "all k >= 0 and all valid parameters", "why_tests_cant": "unbounded k", "anchors": ["uncertainties/distr.hpp: normal, uniform, chisquare", "uncertainties/internal/checkmoments.hpp: check_moments"]}
{"id": "C40", "title": "format rejects a digit count below the documented bound", "statement": "format(x,errdig,sep) throws std::invalid_argument iff errdig < 1 (documented); otherwise it returns a string.", "quantifier": "all x and errdig", "why_tests_cant": "all inputs", "anchors": ["uncertainties/io.hpp: format", "uncertainties/core.hpp: format documentation"]}
{"id": "C41", "title": "The formatted string denotes the correctly rounded numbers", "statement": "The two numbers denoted by the output string of format(x,errdig,sep) (with the common exponent factor applied) are the mean and the deviation each rounded to nearest at the decimal position of the deviation's last printed digit.", "quantifier": "all finite means and positive deviations, all errdig", "why_tests_cant": "all real inputs; output is a string whose value must be parsed back", "anchors": ["uncertainties/io.hpp: format, mantissa, int_mantissa, int_mantissa_string", "uncertainties/impl.hpp: insert_dot, format_exp"]}
{"id": "C42", "title": "Mean and deviation are printed with aligned least significant digits", "statement": "In the output of format the mean and the deviation have the same number of decimal places, i.e. their last printed digits have the same weight.", "quantifier": "all finite means and positive deviations, all errdig", "why_tests_cant": "all inputs including rounding carries", "anchors": ["uncertainties/io.hpp: format, mantissa"]}
{"id": "C43", "title": "The sign of the mean is printed", "statement": "The printed mean is preceded by '-' iff the mean is negative, also for numbers without uncertainty.", "quantifier": "all finite means and deviations", "why_tests_cant": "all inputs", "anchors": ["uncertainties/io.hpp: format, tostring"]}
{"id": "C44", "title": "Number of uncertainty digits follows the fractional rule", "statement": "The printed deviation has floor(errdig)+1 significant digits if its mantissa is below 10^frac(errdig), or if errdig has a fractional part and rounding the deviation to floor(errdig) digits carries it to the next power of ten, and floor(errdig) digits otherwise; the printed value is the deviation rounded to that many digits.", "quantifier": "all positive deviations, all errdig > 1", "why_tests_cant": "all inputs", "anchors": ["uncertainties/io.hpp: naive_ndigits, ndigits"]}
{"id": "C45", "title": "Digit-string helpers are correct", "statement": "int_mantissa_string(m) is the decimal representation of |m|; insert_dot places the dot (and leading zeros) so that the string denotes digits*10^(e-n+1) whenever the dot is inside or left of the digits; format_exp is never called with exponent 0 and its output denotes the exponent.", "quantifier": "all integers and exponents", "why_tests_cant": "all inputs", "anchors": ["uncertainties/io.hpp: int_mantissa_string", "uncertainties/impl.hpp: insert_dot, format_exp"]}
{"id": "C46", "title": "No operation on UReal has undefined behaviour before id exhaustion", "statement": "No history with at most 2^31-2 constructions makes any UReal operation dereference an end iterator or fail an assertion.", "quantifier": "all histories with at most 2^31-2 constructions", "why_tests_cant": "unbounded histories; the id sentinel INT_MAX is used as an end marker in merges", "anchors": ["uncertainties/ureal.hpp: binary (maxid sentinel), isindep, indepid"]}
{"id": "C47", "title": "Behaviour at id exhaustion", "statement": "The guarantees above are stated for at most 2^31-2 constructions because the next ids collide with the end marker used in binary merges or become negative; constructing more variables still yields valid, distinct, positive ids.", "quantifier": "histories with 2^31-1 or more constructions", "why_tests_cant": "cannot be run in a test; boundary of a 32 bit counter", "anchors": ["uncertainties/impl.hpp: last_id", "uncertainties/ureal.hpp: UReal(n,s), binary"]}
{"id": "C48", "title": "UReal2 propagation-mode and numeric-type casts keep the stored polynomial", "statement": "Casting a UReal2 between propagation modes and (value-preserving) numeric types preserves first_order_n, every derivative, every moment m(1..4), ids and covariances; only the sign of the correction in n() depends on the mode.", "quantifier": "all UReal2 values", "why_tests_cant": "all variables", "anchors": ["uncertainties/ureal2.hpp: cast constructor, operator UReal2<OtherReal,prop>()", "uncertainties/internal/hessgrad.hpp: operator HessGrad<OtherReal>()"]}
{"id": "C49", "title": "Moments of sums of independent variables add like cumulants", "statement": "For variables over disjoint supports: mean corrections, variances and third central moments add, and m(4)-3*m(2)^2 adds, under x+y; scaling by a constant c multiplies m(n) by c^n.", "quantifier": "all UReal2 pairs with disjoint supports, all constants", "why_tests_cant": "any number of variables", "anchors": ["uncertainties/ureal2.hpp: operator+, operator*, m", "uncertainties/internal/moments.hpp: compute_m1..4"]}
{"id": "C50", "title": "Accepted moments belong to a distribution", "statement": "With threshold 0 and exact eigenvalues, if the UReal2 constructor accepts a sequence of standardized moments then some probability distribution has those moments.", "quantifier": "all moment sequences", "why_tests_cant": "universal over real sequences; the source says it was only checked empirically", "anchors": ["uncertainties/internal/checkmoments.hpp: check_moments, check_moments_throw (comment on the Hamburger moment problem)", "uncertainties/ureal2.hpp: constructors"]}
{"id": "C51", "title": "Numbers without uncertainty are printed with six significant digits", "statement": "When the standard deviation is 0, or the mean or the deviation is not finite, format prints each of the two as its absolute value rounded to nearest at six significant digits (with an exponent if needed), 0 as \"0\", and the non-finite values as inf, -inf, nan; the digits denote the correctly rounded value also when rounding carries to the next power of ten.", "quantifier": "all means, all errdig > 1, all separators", "why_tests_cant": "all real inputs; the output is a string whose value must be read back", "anchors": ["uncertainties/io.hpp: tostring, format", "uncertainties/impl.hpp: insert_dot, format_exp"]}
{"id": "C52", "title": "Means on doubles are rounded once", "statement": "With Real = double, if no overflow occurs, the mean of x + y, x - y, x * y and -x is the double nearest to the exact result on the two means, for any reachable x and y; the mean of x / y is within one part in 2^52 of the exact quotient.", "quantifier": "all histories of calls, all pairs of variables, all finite doubles", "why_tests_cant": "all doubles and all histories; tests with a tolerance cannot see single roundings", "anchors": ["uncertainties/ureal.hpp: operator+, operator-, operator*, operator/"]}
{"id": "C53", "title": "Exchanging operands and compound assignment, bit for bit", "statement": "With Real = double, exchanging the operands of + or * (or of binary, with the derivatives), and replacing v op= x with v = v op x for x other than v, anywhere in a program, leaves every later mean, deviation, variance, covariance, correlation and gradient bit for bit the same.", "quantifier": "all histories of calls, any number of rewritten calls, any doubles including infinities and NaN", "why_tests_cant": "relational over whole programs and floating point values", "anchors": ["uncertainties/ureal.hpp: binary, binary_assign, operator+ - * /, operator+= -= *= /="]}
{"id": "C54", "title": "Deviations are never negative, covariances are symmetric, x - x is exactly 0 on doubles", "statement": "With Real = double: s() and var() are never below 0; cov(x, y) and cov(y, x), corr(x, y) and corr(y, x), are identical; x - x has mean, deviation and variance exactly +0 and covariance +0 with every variable, when mean and deviation of -x are finite.", "quantifier": "all UReal objects on doubles (first two), all reachable variables (third)", "why_tests_cant": "rounding and overflow for all doubles", "anchors": ["uncertainties/ureal.hpp: s, var, cov, corr, operator-"]}
{"id": "C55", "title": "Asking for s() does not change later results on doubles", "statement": "With Real = double, removing calls of the non-const s() and var() from a program does not change what is observed later.", "quantifier": "all histories of calls", "why_tests_cant": "relational over whole programs; depends on the last bit of sqrt", "anchors": ["uncertainties/ureal.hpp: s, var, sdev cache, binary_assign"]}
{"id": "C56", "title": "Adding a number does not change the deviation on doubles", "statement": "With Real = double, x + c, c + x and x - c, for a number c, have the same s() as x.", "quantifier": "all reachable x, all numbers c", "why_tests_cant": "all doubles, including those whose square overflows or underflows", "anchors": ["uncertainties/ureal.hpp: operator+, operator-, s"]}
{"id": "C57", "title": "Accuracy of s() and var() on doubles", "statement": "With Real = double, if x stores n coefficients none of which is tiny (below 2^-510 but not 0) and the sum of their squares is at most 2^1020, then s()^2 is within a factor (1 +- 2^-53)^(n+3), and var() within (1 +- 2^-53)^(n+4), of the exact sum of squares of the coefficients.", "quantifier": "all histories without self compound assignment, all variables, any n", "why_tests_cant": "error bound uniform in the number of variables", "anchors": ["uncertainties/ureal.hpp: s, var, s2"]}
{"id": "C58", "title": "The deviation of a UReal2 on doubles is a number", "statement": "With Real = double, if the independent variables have the moments of true distributions and no overflow occurs, then s() of any result is a number (var() is not negative).", "quantifier": "all histories of calls", "why_tests_cant": "all programs and all doubles; fails only by the last bits in degenerate cases", "anchors": ["uncertainties/ureal2.hpp: s, var, update_mom", "uncertainties/internal/moments.hpp: compute_m2"]}
{"id": "C59", "title": "Results do not depend on the order of unrelated calls", "statement": "If a program is reordered by exchanging consecutive calls neither of which assigns a variable the other one reads or assigns, every mean, deviation, variance, covariance, correlation and derivative reported at the end is the same, and the ids reported are the same up to a renaming.", "quantifier": "all histories of calls on UReal and UReal2, all reorderings of unrelated calls, all variables", "why_tests_cant": "all programs and all their reorderings; C++ leaves the order of evaluation of operands and arguments open, so the ids and hence the storage order differ between compilers", "anchors": ["uncertainties/ureal.hpp: UReal, unary, binary", "uncertainties/ureal2.hpp: UReal2, unary, binary", "uncertainties/internal/hessgrad.hpp: ConstHessIterator"]}
{"id": "C60", "title": "A program on UReal2 computes the second order Taylor polynomial of its result", "statement": "Read a program on UReal2 as a function F of its independent variables. If the derivatives given to unary and binary are those of the functions applied and no divisor has mean zero, then every variable holds the Taylor polynomial of degree two of its F at the means: first_order_n() is F at the means, the stored first and second order coefficients are the partial derivatives of F times the standard deviations, and n(), m(2..4) and cov() are the mean, the central moments and the covariances of the polynomials.", "quantifier": "all histories of calls on UReal and UReal2 without exceptions, all functions with the given derivatives, all variables, all distributions of the independent variables", "why_tests_cant": "all programs, all functions and all probability spaces; a test can only compare single compositions numerically", "anchors": ["uncertainties/ureal2.hpp: unary, binary, operator+, operator*, operator/, m, n", "uncertainties/internal/hessgrad.hpp: ConstHessIterator"]}
{"id": "C61", "title": "Accuracy of cov() on doubles", "statement": "With Real = double, if the coefficients x and y have in common are finite and the sum of the magnitudes of their products does not exceed 2^1020, then cov(x, y) is finite and differs from the exact sum of the products by at most (1 + 2^-53)^(n+1) - 1 times the sum of the magnitudes, plus n times the smallest positive double, n being the number of independent variables in common.", "quantifier": "all histories of calls on UReal<double>, all pairs of variables", "why_tests_cant": "all doubles, including subnormal ones and cancellations, and any number of terms", "anchors": ["uncertainties/ureal.hpp: cov"]}
{"id": "C62", "title": "Documented equalities between cov(x, x), var(x) and s() on doubles", "statement": "With Real = double, cov(x, x) == var(x) and var(x) == x.s() * x.s(), as documented for var().", "quantifier": "all histories of calls on UReal<double>, all variables", "why_tests_cant": "all doubles; the equalities fail only in the last bit, depending on the values and on whether the deviation was asked for before", "anchors": ["uncertainties/ureal.hpp: cov, var, s, s2"]}
{"id": "C63", "title": "Correlations on doubles lie between -1 and 1", "statement": "With Real = double, if no overflow or underflow occurs and the deviations are not zero, corr(x, y) is between -1 and 1.", "quantifier": "all histories of calls on UReal<double>, all pairs of variables", "why_tests_cant": "all doubles; the bound is exceeded only by the last bits", "anchors": ["uncertainties/ureal.hpp: corr, cov, s", "uncertainties/stat.hpp: corr_matrix"]}
{"id": "C64", "title": "isfinite and isnormal of UReal<double>", "statement": "With Real = double, isfinite(x) is true exactly if the mean of x and the coefficients of all the variables it depends on are finite numbers; isnormal(x) is true exactly if mean and standard deviation are finite and not smaller than the smallest normal number, and implies isfinite(x).", "quantifier": "all histories of calls on UReal<double>, all variables", "why_tests_cant": "all doubles; overflow of the variance depends on the values and on how x was computed", "anchors": ["uncertainties/math.hpp: isfinite, isnormal", "uncertainties/ureal.hpp: s, s2"]}
{"id": "C65", "title": "Accuracy of the functions of math.hpp on doubles", "statement": "With Real = double, if the functions of <cmath> have relative error at most e, then for each function f of one argument of math.hpp, f(x) has the mean given by <cmath>, every coefficient (and so the standard deviation) of x is multiplied by the derivative of f up to a small multiple of e, as long as nothing overflows or underflows.", "quantifier": "all implementations of <cmath> with relative error e between 2^-53 and 2^-20, all histories of calls on UReal<double>, all variables and all means", "why_tests_cant": "all doubles and all libraries; loss of accuracy occurs only close to special values", "anchors": ["uncertainties/math.hpp: abs, exp, exp2, expm1, log, log10, log2, log1p, sqrt, cbrt, sin, cos, tan, asin, acos, atan, sinh, cosh, tanh, asinh, acosh, atanh, erf, erfc", "uncertainties/ureal.hpp: unary, s"]}
{"id": "C66", "title": "Accuracy of the operators and functions of two arguments on doubles", "statement": "With Real = double, if the functions of <cmath> have relative error at most e, then for each operator or function f of two arguments (+, -, *, /, pow, hypot, fmax, fmin, fmod, remainder) f(x, y) depends on the variables x or y depends on; its coefficient on each is df/dx * (coefficient of x) + df/dy * (coefficient of y) up to a small multiple of e relative to the sizes of the two terms; and the standard deviation is correct to the same accuracy, as long as nothing overflows or underflows.", "quantifier": "all implementations of <cmath> with relative error e between 2^-53 and 2^-20, all histories of calls on UReal<double>, all pairs of variables, equal, correlated or not", "why_tests_cant": "all pairs of doubles, all libraries and all sets of shared variables", "anchors": ["uncertainties/ureal.hpp: operator+, operator-, operator*, operator/, binary, s", "uncertainties/math.hpp: pow, hypot, fmax, fmin, fmod, remainder"]}
{"id": "C67", "title": "format on doubles", "statement": "With Real = double, if log10 and pow have relative error at most e, format(x, errdig, sep) returns a text in which mean and deviation are rounded at the same decimal place, with error at most half a unit of that place plus 4 e of the number, the deviation with the number of significant digits asked by errdig; for numbers without uncertainty, six significant digits, nan, inf or 0.", "quantifier": "all implementations of log10 and pow with relative error e between 2^-53 and 2^-51, all means and deviations, separators and numbers of digits", "why_tests_cant": "all pairs of doubles and all libraries; errors of the logarithm matter only next to powers of ten", "anchors": ["uncertainties/io.hpp: exponent, int_mantissa, int_mantissa_string, naive_ndigits, ndigits, mantissa, tostring, format"]}
{"id": "C68", "title": "Failed memory allocations", "statement": "If memory runs out during a call, so that std::bad_alloc is thrown, the call has no effect on any variable of the program, and the program can go on: no later call has undefined behaviour. A call that does not run out of memory does what it always does, and none runs out with one map node per independent variable.", "quantifier": "all histories of calls on UReal with memory running out at any point of any call, all implementations of std::map", "why_tests_cant": "every allocation of every call in every history can be the one that fails", "anchors": ["uncertainties/ureal.hpp: binary, nary, binary_assign, operator+=, operator-=, operator*=, operator/=, operator=, s, cov, isindep"]}
{"id": "C69", "title": "Threads that use the same variables", "statement": "Threads can use the same variables without locks as long as none assigns a variable another one uses: there is no data race, every schedule ends, and the results are those of the same calls done one thread after the other, up to the names of the ids. Calling s() and var() on the same variable from several threads is a use, not an assignment.", "quantifier": "all histories before the threads start, all numbers of threads, all sequences of calls in each, all interleavings of the single reads and writes of the members", "why_tests_cant": "all interleavings; data races are rarely visible", "anchors": ["uncertainties/ureal.hpp: id, sdev, mu, sigma, s, var, UReal", "uncertainties/impl.hpp: last_id"]}
{"id": "C70", "title": "Accuracy of numerical derivatives on doubles", "statement": "With Real = double, a function of numbers turned into a function of variables without giving the derivatives (uunary, ubinary, uunary2, ubinary2 with a step) propagates the uncertainty with a derivative which differs from the true one at most by a bound computed from the step, the mean, the error of the function and its higher derivatives; the mean is that of the function; and the bound includes the rounding of all operations.", "quantifier": "all functions on doubles and the real functions they compute within any error, all variables, all steps from 2^-240 to 2^240 with |mean| at most 2^50 steps", "why_tests_cant": "The error depends on the rounding of mean + step, of the difference and of the quotient, for every mean and function; a test sees one.", "anchors": ["uncertainties/functions.hpp: default_step, uunary, ubinary, uunary2, ubinary2", "uncertainties/ureal.hpp: unary, binary, s", "uncertainties/ureal2.hpp: unary, binary"]}
{"id": "C71", "title": "all() of UReal2 looks at every coefficient", "statement": "all(x, p) for a UReal2 x returns true if and only if the predicate p holds of the first order mean and of all the first, pure second and mixed second order coefficients of x, and never fails.", "quantifier": "all histories on both classes, all variables, all predicates, any numeric type", "why_tests_cant": "Ranges over every set of stored derivatives and every predicate; a coefficient which is skipped matters only for variables that have it.", "anchors": ["uncertainties/ureal2.hpp: all", "uncertainties/internal/hessgrad.hpp: ctbegin, cdbegin"]}
{"id": "C72", "title": "Accuracy of ureals on doubles", "statement": "With Real = double, the variables created by ureals have exactly the requested means, are uncorrelated with all the existing variables, and their covariance matrix differs from the requested one at most by the error of the LDLT decomposition plus (n + 6) roundings relative to the deviations; their variance and deviation agree with it; invalid input is rejected without using ids.", "quantifier": "all vectors of means, all matrices, all decompositions with any error, all histories before", "why_tests_cant": "The rounding errors depend on all the entries of the matrix and on the pivots; a test compares one matrix with a tolerance.", "anchors": ["uncertainties/ureals.hpp: ureals", "uncertainties/ureal.hpp: operator+=, operator*, cov, var, s", "uncertainties/stat.hpp: cov_matrix"]}
{"id": "C73", "title": "Matrices of UReal2 variables", "statement": "cov_matrix, corr_matrix and nom_vector applied to UReal2 variables return, row by row, exactly what cov, corr and n return for each pair or variable, in both the vector and the iterator versions, and never fail; the covariance matrix is symmetric and positive semidefinite when the given moments are those of some distribution; and corr2cov rebuilds it from the deviations and the correlation matrix.", "quantifier": "all histories on both classes, all lists of variables, any numeric type (layout) or real numbers (positivity)", "why_tests_cant": "Positivity ranges over every vector of coefficients, every number of variables and every second order expression; a transposed index is invisible on symmetric matrices of one expression.", "anchors": ["uncertainties/stat.hpp: cov_matrix, corr_matrix, nom_vector, corr2cov", "uncertainties/ureal2.hpp: cov, corr, n"]}
{"id": "C74", "title": "Moving and swapping variables", "statement": "A program that moves variables (v = std::move(x), std::swap, and so std::sort or std::reverse on containers of variables) and does not look at a moved-from variable before assigning it again gets exactly the variables of the program that copies instead; std::swap exchanges two variables and changes nothing else; looking at a moved-from variable never leads to undefined behaviour when moved containers are left empty, and gives either the old variable or one with the old mean and no covariance with anything.", "quantifier": "all histories of calls and moves on both classes, any contents left in moved-from containers, any numeric type", "why_tests_cant": "The standard leaves the contents of moved-from containers unspecified, so one run shows one of many allowed behaviours; and the absence of a dependence on them concerns every later call.", "anchors": ["uncertainties/ureal.hpp: class UReal (implicit move operations), id, sdev, mu, sigma", "uncertainties/ureal2.hpp: class UReal2 (implicit move operations)", "uncertainties/internal/hessgrad.hpp: diagmap, trimap"]}
{"id": "C75", "title": "Accuracy of the moments of UReal2 on doubles", "statement": "With Real = double, m(1) to m(4), n and cov of a UReal2 return a number whose error is bounded by the number of roundings times the size of the terms of the exact formula, plus what is lost by underflow, whenever it is finite; the exact value is the moment of the polynomial stored in the variable; and it is finite, with a plain relative bound, for variables that depend on at most 1024 independent variables and whose stored numbers are 0 or between 2^-170 and 2^150. The variance of a variable without second derivatives has a small relative error.", "quantifier": "all histories of calls on doubles, all variables and pairs of variables, all moments", "why_tests_cant": "The rounding errors depend on all the stored derivatives and moments and on the number of variables; a test compares a few cases with a tolerance.", "anchors": ["uncertainties/internal/moments.hpp: compute_m1, compute_m2, compute_m3, compute_m4, compute_c2", "uncertainties/ureal2.hpp: m, n, cov"]}
{"id": "C76", "title": "Programs of sums, differences and products on doubles stay close to exact arithmetic, derivatives and queries included", "statement": "Run a program that creates UReal2<double> variables from standardized moments (without validation) and combines them with unary minus, +, - and *. Then the value, every first derivative and every second derivative stored by each variable, and every moment, mean and covariance queried from the results, if finite, differ from what the same program gives in exact real arithmetic by at most (1+2^-53)^k b - a. Here a is the size of the terms that are summed, b the same including underflow, and k counts roundings along the operations that produced the variable: one for a minus, two more than the larger for a sum or difference, four more than the total for a product. The result depends on the same independent variables as in exact arithmetic.", "quantifier": "all programs of such calls of any length, all doubles given as values, deviations and moments, all variables, pairs of variables and orders of moments", "why_tests_cant": "rounding errors depend on all the digits of all inputs and on the order of a whole program; a test compares a few results with a reference that is itself rounded", "anchors": ["uncertainties/ureal2.hpp: unary, binary, operator+, operator-, operator*, m, n, cov", "uncertainties/internal/hessgrad.hpp", "uncertainties/internal/moments.hpp"]}
{"id": "C77", "title": "Distribution factories on doubles: accurate parameters, accepted by the check of the moments", "statement": "With Real = double, normal(mu, sigma) passes on mu, sigma and the exact moments of the normal distribution. chisquare(k), for every positive int k, has mean exactly k, a deviation within 4 units of roundoff of sqrt(2k), and moments of order 3 to 8 within 9 units of roundoff of those of the chi-square distribution. uniform(left, right), for finite ends of moderate size, has a mean between left and right and within one unit of roundoff of the midpoint, a deviation within 5 units of roundoff and moments within 2 of those of the uniform distribution, and throws invalid_argument if left > right. If the eigenvalue solver is accurate to 2^-32 relative to the largest moment, none of them throws for valid parameters.", "quantifier": "all means and deviations, all degrees of freedom, all intervals, all accurate eigenvalue solvers", "why_tests_cant": "every degree of freedom gives a different matrix of rounded moments, close to singular with respect to its largest entry; a test tries a few", "anchors": ["uncertainties/distr.hpp: normal, chisquare, uniform", "uncertainties/internal/checkmoments.hpp: hamburger, check_moments_throw", "uncertainties/ureal2.hpp: UReal2 constructor from standardized moments"]}
{"id": "C78", "title": "Functions and operators on UReal2<double>: first and second derivatives close to the chain rule", "statement": "If the functions of <cmath> have relative error e (between 2^-53 and 2^-20), each function of math.hpp and each of + - * / applied to UReal2<double> variables returns a variable whose value is that of the real function up to a small multiple of e, which depends on exactly the independent variables of its arguments, and whose stored first derivatives and second derivatives with respect to one variable are those of the chain rule, with the true first and second derivatives of the function, up to a small multiple of e relative to the size of the terms. For asin, acos, atanh, tanh, acosh the multiple grows with the inverse of the distance from the end of the domain, for erf and erfc with the square of the argument; for fmod and remainder the rounded quotient must have the same integral part.", "quantifier": "all histories of calls on doubles, all variables, all implementations of <cmath> of a given accuracy, all values in the domain that do not overflow or underflow", "why_tests_cant": "the error depends on every digit of the argument, of the stored derivatives and of the implementation of <cmath>; a test samples a few arguments of one implementation", "anchors": ["uncertainties/math.hpp: UReal2 overloads of the functions", "uncertainties/ureal2.hpp: unary, binary, operator+, operator-, operator*, operator/"]}
{"id": "C79", "title": "Threads that use UReal and UReal2 variables: no data race, and the calls take effect one at a time", "statement": "If no thread assigns a variable another thread uses, threads calling functions of UReal and UReal2 never access the same member at the same time with one of them writing; in particular all the queries of a UReal2, which has no mutable member, can be made by any number of threads. When they have ended, the counter of the ids and every variable are exactly those left by the same calls made one at a time in some order that respects the one of each thread, and every such order is possible. If at most one of the threads creates independent variables, the schedule makes no difference at all. No thread ever waits for another.", "quantifier": "all schedules, all numbers of threads, all sequences of calls of both classes in each thread, all numeric types", "why_tests_cant": "a test runs a handful of the schedules, and a data race is undefined behaviour that may show no symptom", "anchors": ["uncertainties/impl.hpp: internal::last_id", "uncertainties/ureal2.hpp: UReal2 (members hg, mu), constructors, operator+, operator-, operator*, operator/", "uncertainties/internal/hessgrad.hpp: HessGrad (members diagmap, trimap)", "uncertainties/ureal.hpp: UReal (members id, sdev, mu, sigma)"]}
{"id": "C80", "title": "Failed memory allocations, both classes", "statement": "If memory runs out during a call on UReal2 variables, so that std::bad_alloc is thrown, the call has no effect on any variable, and the program can go on as if the call had not been made: no later call has undefined behaviour or fails an assertion. A call that does not run out of memory does what it always does, and none runs out with one map node per independent variable and one per pair.", "quantifier": "all histories of calls on UReal and UReal2 with memory running out at any point of any call, all implementations of std::map", "why_tests_cant": "every allocation of every call in every history can be the one that fails", "anchors": ["uncertainties/ureal2.hpp: UReal2, unary, binary, operator+, operator-, operator*, operator/, operator=, m, cov, all", "uncertainties/internal/hessgrad.hpp: diag, tri, hhess, ConstTriIt, ConstHessIt, diagmap, trimap"]}
{"id": "C81", "title": "Matrices of covariances and correlations on doubles", "statement": "With double as the numeric type, the matrix returned by cov_matrix is symmetric, its entries are finite and within rounding errors of the exact covariances, and it is positive semidefinite; corr_matrix is symmetric with entries within rounding errors of the exact correlations; and corr2cov applied to the standard deviations and corr_matrix gives cov_matrix back up to three roundings. The same holds for UReal2.", "quantifier": "all histories of calls on double, all lists of variables, all numbers of independent variables", "why_tests_cant": "the errors depend on every coefficient of every variable, and a matrix slightly indefinite shows only in later computations such as a Cholesky factorisation", "anchors": ["uncertainties/stat.hpp: cov_matrix, corr_matrix, corr2cov", "uncertainties/ureal.hpp: cov, corr, s", "uncertainties/ureal2.hpp: cov"]}
{"id": "C82", "title": "Deviation, skewness, kurtosis and correlation of UReal2 on doubles", "statement": "With double as the numeric type, s(), skew(), kurt() and corr(x, y) of UReal2 variables return finite numbers close to the deviation, skewness, kurtosis and correlation of the second order expansions, with an error given by those of the moments and of the covariance.", "quantifier": "all histories of calls on UReal2<double>, all variables", "why_tests_cant": "the variance is a difference of terms that can cancel, so its sign and accuracy depend on every derivative and moment", "anchors": ["uncertainties/ureal2.hpp: s, skew, kurt, corr, m, var, cov", "uncertainties/internal/moments.hpp: compute_m2, compute_mom"]}
{"id": "C83", "title": "Programs of +, - and * on UReal<double> against exact arithmetic", "statement": "For a program on UReal<double> that creates variables, copies them, applies +, -, * and their compound assignments and asks for deviations, every finite mean, every finite coefficient on an independent variable, every finite covariance and every standard deviation is that of the same program on the real numbers, up to an error given by the sizes of the terms and the number of operations; where nothing cancels, the standard deviation has a small relative error.", "quantifier": "all programs of these calls, of any length, on all doubles; all variables", "why_tests_cant": "the error depends on the whole sequence of operations: it is an induction over all programs, for all operands, including products that underflow and terms that cancel", "anchors": ["uncertainties/ureal.hpp: UReal::binary, UReal::unary, UReal::binary_assign, operator+, operator-, operator*, operator+=, operator-=, operator*=, s, cov", "uncertainties/ureal.hpp: change_nom"]}
{"id": "C84", "title": "Moments about the mean and standardized moments computed in doubles", "statement": "From eight moments about zero known up to some relative error, the library computes, in doubles, the moments about the mean with an error bounded by the sizes of the terms of the binomial formula (and one more unit for each product that underflows) times a number of roundings that grows linearly with the order; from seven moments about the mean known up to a relative error e, with a variance neither extremely small nor extremely large, the standardized moment of order n has a relative error of at most (3 n - 2) e.", "quantifier": "all probability distributions with eight moments, all doubles close to those moments, all orders from 2 to 8", "why_tests_cant": "rounding errors, cancellations, underflows and overflows depend on all eight inputs; the worst cases are distributions whose mean is large compared to the deviation, with no bound on the ratio", "anchors": ["uncertainties/distr.hpp: internal::central_moments, internal::std_moments, internal::binom_coeff"]}
{"id": "C85", "title": "Memory used by first-order variables", "statement": "A variable that was constructed, or computed with functions of one argument only, uses no heap memory; a variable computed with functions of two or more arguments uses one map node for each independent variable it depends on, so at most one for each variable ever constructed. Constructors and queries never allocate; a call that returns a new variable allocates exactly the nodes of the result; a compound assignment allocates exactly the nodes its left hand side did not have (none if the operand is the object itself). The call throws std::bad_alloc if and only if fewer allocations than that succeed; in particular a program that only constructs, copies and applies functions of one argument never allocates.", "quantifier": "all legal histories of calls, all variables, all next calls, all numbers of successful allocations, all implementations of map assignment that allocate at most one node per element and exactly that into an empty map", "why_tests_cant": "the number of allocations depends on the whole history of the variables involved; a test with a counting allocator sees one history", "anchors": ["README.md: First-order independent variables do not use the heap", "uncertainties/ureal.hpp: UReal::UReal, unary, binary, nary, binary_assign, operator+=, operator-=, operator*=, operator/=, change_nom"]}
{"id": "C86", "title": "User functions with side effects and exceptions", "statement": "The functions returned by uunary, ubinary, uunary2 and ubinary2 (explicit or numerical derivatives) call the user's functions exactly once at each point where they are needed (the mean, and the mean plus or minus the step), in the order of the statements where the code fixes it and in some order otherwise. Whatever else those functions do (construct variables, modify variables other than the operands, call the library), if their answers depend on their arguments only then the result is that of functions without side effects, and the other variables are as the functions left them. If one throws, its exception reaches the caller, no function is called after it, and nothing else is modified.", "quantifier": "all user functions that do not modify the operands, all orders of evaluation, all states, all steps, all types of exceptions", "why_tests_cant": "the order of evaluation of arguments is not specified by C++ and a compiler shows one; side effects and exceptions of user functions are unlimited", "anchors": ["uncertainties/functions.hpp: uunary, ubinary, uunary2, ubinary2"]}
{"id": "C87", "title": "Programs without cancellation are relatively accurate on doubles", "statement": "On UReal<double>, take a program that constructs variables and computes with +, -, *, /, +=, -=, *=, /=, negation, change_nom and sqrt. If in exact arithmetic no two numbers of opposite sign are ever added, and no product, quotient or square root the library forms is outside the range of the normal doubles, then the mean and every coefficient of every variable are the exact ones within a relative error that depends only on the number of operations (k roundings of 2^-53 each), whatever the numbers; so are s() and var, with as many more roundings as the variable has independent variables, plus 3 or 4.", "quantifier": "all programs of these calls with at most 900 roundings per variable, all means and deviations, correlated operands included", "why_tests_cant": "the bound must hold for every program and every double, and a test needs exact values to compare with", "anchors": ["uncertainties/ureal.hpp: binary, unary, binary_assign, operators, s, var", "uncertainties/math.hpp: sqrt"]}
{"id": "C88", "title": "Memory used by UReal2: pairs recorded and allocations of each call", "statement": "A UReal2 holds one node for each independent variable it depends on and one for each pair of variables it has a mixed derivative recorded for, at most n(n+1)/2 for n variables. A call that computes a UReal2 allocates exactly the nodes of the result, a constructor that throws allocates none, and an assignment v = x only the nodes v does not have. A function keeps the pairs of an operand if its second derivative with respect to it is zero, otherwise at most one pair for each variable; if its mixed derivative is not zero it adds the pairs of a variable of one operand and a different variable of the other. So programs that only add, subtract and negate use memory linear in the number of variables, and programs that only multiply use memory quadratic in it.", "quantifier": "all histories of calls, all functions of one and two arguments with any derivatives, any number of successful allocations, any implementation of std::map", "why_tests_cant": "the number of nodes depends on the whole history through the sets of variables and pairs, and a test does not see the allocations", "anchors": ["uncertainties/ureal2.hpp: UReal2::unary, UReal2::binary, constructors, operators", "uncertainties/internal/hessgrad.hpp: HessGrad::diagmap, HessGrad::trimap, ConstHessIt, tri"]}
{"id": "C89", "title": "Output on streams: text, padding and what the text says", "statement": "os << x, for a UReal or a UReal2, writes one text that depends only on the mean and the standard deviation of x (not on the precision, the floating point format or showpos of the stream): the deviation rounded to one or two digits and the mean rounded to the same place, with a plus-minus sign between. The text is padded to the width of the stream with the fill character like a string, the width is used up by the first variable that follows it, and nothing else of the stream changes; a stream that is not good is left as it is. In a chain the texts follow each other; if the buffer of the stream fails, the stream has received a beginning of the whole text, and all of it if it is still good. Two variables printed alike have means and deviations that differ by less than a unit of the last digit. A field of width n has n characters.", "quantifier": "all histories of calls, all variables, all states of the stream, all chains of variables, strings and manipulators", "why_tests_cant": "the text must be right for every mean and deviation and for every state of the stream it is written to; two variables printed alike cannot be enumerated", "anchors": ["uncertainties/io.hpp: operator<<, format", "uncertainties/core.hpp: format (default arguments), nom, sdev", "uncertainties/ureal.hpp: nom, sdev", "uncertainties/ureal2.hpp: nom, sdev"]}
{"id": "C90", "title": "Distance of the propagated mean, deviation and covariance from the true ones", "statement": "Suppose the independent variables of a program are random, uncorrelated, with the means and standard deviations they were created with, and let Y be the random variable obtained by running the program on their values. For UReal, if the second derivative of the program on the way from the means to the values never exceeds B, n() differs from the mean of Y by at most E(B)/2, s() from the standard deviation of Y by at most rms(B)/2, and cov() from the covariance of the two results accordingly; a program that is linear in its variables is treated exactly. For UReal2, with independent variables having the given moments, n() in mean mode, s() and cov() are as close with third derivatives and 1/6; a program that is a polynomial of degree two is treated exactly.", "quantifier": "all programs (histories of calls) whose derivatives are right, all probability spaces and random variables, all bounds B", "why_tests_cant": "it must hold for every program, every distribution of the inputs and every size of the uncertainties", "anchors": ["uncertainties/ureal.hpp: n, s, cov, unary, binary, nary, operators", "uncertainties/ureal2.hpp: n, m, s, cov, unary, binary, operators", "uncertainties/internal/hessgrad.hpp", "uncertainties/internal/moments.hpp"]}
