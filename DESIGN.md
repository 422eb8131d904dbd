# Formal model of uncertainties-cpp in Rocq: design

Contents: 1 what is modelled, 2 simplifications, 3 what is not modelled, 4 how each property is
stated and proved, 5 trusted base, 6 layout of the repository and workflow, 7 tests against wrong
programs, 8 defects of the library found on the way.

## 1. What is modelled

The library is header only.  Each header of `/repo/uncertainties` has a model file in
`rocq/theories/`; every definition cites the file and the lines it models.

| header | model file | contents |
|---|---|---|
| std::map (used everywhere) | `Map.v` | lists sorted by key; `find`, `m[k] = v`, `m[k] += v`; an iterator is a suffix of the list |
| numeric template parameter `Real` | `Num.v`, `Nan.v`, `Ieee.v` | a record of operations; instances `RN` (reals), `QN` (exact fractions), `FN` (reals plus one non-number), `DN` (IEEE 754 double, from Flocq) |
| results of calls | `Base.v` | `outcome`: normal return, C++ exception (which one), undefined behaviour, failed assertion |
| ureal.hpp | `UReal.v` | every constructor, member and friend function |
| implicit move operations of both classes | `Move.v` | `std::move`, `std::swap`, any contents left in moved containers |
| core.hpp, impl.hpp (id counter) | `World.v`, `World2.v`, `Threads.v`, `ThreadCalls.v`, `ThreadCalls2.v` | histories of calls on any number of variables; interleavings of threads |
| std::bad_alloc in the calls on UReal, on UReal2 | `Alloc.v`, `Alloc2.v` | the same calls with a number of map nodes left |
| internal/hessgrad.hpp | `HessGrad.v` | storage and the iterator classes as state machines |
| internal/moments.hpp | `Moments.v` | compute_m1..m4, compute_mom, compute_c2, loop by loop |
| ureal2.hpp | `UReal2.v` | every constructor, member and friend function, including the unfinished binary_assign |
| internal/checkmoments.hpp | `CheckMoments.v` | Hankel matrix, eigenvalue test |
| distr.hpp, impl.hpp (binomials) | `Distr.v` | normal, chisquare, uniform, central_moments, std_moments |
| math.hpp | `Math.v` (UReal), `Math2.v` (UReal2) | 31 functions for each class |
| functions.hpp | `Functions.v` | all factories, explicit and numerical; on reals (C24) and on doubles (C70) |
| stat.hpp | `Stat.v` (UReal), `Stat2.v` (UReal2) | vectors and matrices, both versions of each function |
| ureals.hpp | `UReals.v` | on reals (C19, C20) and on doubles (C72) |
| io.hpp, impl.hpp (strings) | `Io.v` (reals), `IoIeee.v` (doubles) | format and its helpers, to the last character |

Undefined behaviour (dereferencing or advancing an end iterator, reading outside of a sequence,
reading uninitialised moments) and failed assertions are outcomes of their own, so their absence is
proved (C25, C46) and not assumed.

A program that uses the library is a history: the list of the calls it makes, whatever control flow chose
them, on a state made of the id counter and the contents of the program's variables.  Theorems about
"every reachable variable" quantify over all histories.

## 2. Simplifications

Each is repeated in a comment at the definition.

* Numbers.  Theorems about values use the real numbers, without rounding, except C52-C58, C61-C67, C70, C72, C75-C78, C81-C84, C87 and part of C59, which are about
  doubles: binary64, round to nearest even, infinities, signed zeros, subnormal numbers, one NaN, no fused
  multiply-add, correctly rounded sqrt.  Theorems about structure (ids, invariants, absence of undefined
  behaviour, casts) hold for every `Num`, so also for doubles.  math.hpp is generic in the numeric type and in the functions of <cmath>; values (C21-C23) are on
  reals plus one non-number, where infinities and NaN are not told apart, and rounding (C65, C66, C78) is on doubles
  with any <cmath> of a given relative error.
* `Id` is Z; the counter wraps at 2^31 (C47).  Theorems assume at most 2^31-2 constructions unless
  they speak about exhaustion.
* Eigen's `SelfAdjointEigenSolver` and `LDLT` are oracles.  Where only termination or structure matters the
  oracle is arbitrary; where values matter it is any oracle that satisfies the specification of the decomposition
  (`eigenvalues` in SpecHankel.v, SpecLDLT.v).  Both report failures.
* `std::function` arguments of functions.hpp are total and free of side effects, except in FunEff.v (C86).
* Iterator ranges given by the caller are lists.
* Threads: in `Threads.v` (C02) the two steps of a construction (atomic increment, rest) interleave; in `ThreadCalls.v` (C69) and `ThreadCalls2.v` (C79)
  the single reads and writes of members of any calls do.  Memory is sequentially consistent, which C++ grants to programs without data races.
* Memory: in `Alloc.v` and `Alloc2.v` (C68, C80, C85, C88) the only allocations are the nodes of the maps; elsewhere memory is unbounded.
* io.hpp: in `Io.v` (C40-C45, C51) `log10`, `pow`, `round`, `fmod` are exact, exponents are unbounded integers, `errdig` is a real
  number.  Non-finite means and deviations are modelled.  In `IoIeee.v` (C67) numbers are doubles, `errdig` and the logarithms
  compared with it are floats, `log10` and `pow` are any functions of a given relative error, conversions to int out of range are
  undefined behaviour; floor, round and fmod are exact (as in IEEE 754), ints are unbounded once converted.
* Destructive updates are modelled by returning the new value.  Aliasing (`x += x`) is modelled
  explicitly for UReal (C10) and for the unfinished `binary_assign` of UReal2 (UReal2Self.v, C35).
* An expectation (SpecProb.v) is a positive linear functional with E[1] = 1 on a class of functions closed
  under what is needed; no measure theory.

## 3. What is not modelled

* The texts of exceptions; Eigen traits; the `extern template` declarations.
* isfinite and isnormal of UReal2 (math.hpp 534-546), which cannot be instantiated (they call a
  member function that does not exist).  Those of UReal are modelled on doubles only (MathIeee.v).
* `binary_assign` of UReal2 is modelled (C35, World2Assign.v for histories that call it) but not part of the
  histories of the other theorems.
* `dev/` (scripts) and `test/`.

## 4. Properties

The theorems of the property `Cxx` are in the `Props*.v` files and their names start with `Cxx_`; each is
followed by its `Print Assumptions` and by an `Example` that a concrete case meets the hypotheses.
`MANIFEST.json` lists them with their status.

* **C01, C02, C13, C47** (ids).  Invariant on histories: issued ids are 1..counter.  Threads: induction
  over the schedule.  C47 is refuted: at the boundary `binary` takes an id for its sentinel and reads through an end
  iterator.
* **C03, C04, C46** (UReal).  Forward simulation, by induction over the history, between the code and
  linear forms: a mean and one coefficient per independent variable (SpecLin.v).
* **C05** expressions over functions of any arity; the coefficients are the true partial derivatives (Coquelicot).
* **C06-C12, C14, C16** observable consequences of the simulation: covariance, caching, compound
  assignment, nary, numbers, conversion, identities.
* **C15** exceptions proved, value proved for results of operations of several operands, refuted for
  an independent variable (x.grad(x) is 0).
* **C17-C20** stat.hpp and ureals.hpp: list indices, finite sums, undoing the transpositions of the LDLT.
* **C21-C23** math.hpp: for each function, the value and the (first, second, mixed) derivatives given to
  unary/binary are those of the function, on the whole domain of differentiability.  Refuted: UReal
  `atan2` (signs), UReal `cbrt` of negative means, `pow` at mean zero.
* **C24** functions.hpp: explicit factories pass on what they are given; errors of the numerical ones
  bounded by Taylor-Lagrange with the step actually used; convergence.
* **C25** invariants of the sparse storage, iterators visit what they must, no query is undefined.
* **C26, C27** second order propagation on jets (mean, gradient, Hessian) (SpecU2.v).  C27 is refuted for mixed derivatives
  when the function has a nonzero pure second derivative and the operand depends on several variables
  (the iterator's non-skipping mode is wrong); proved otherwise.
  C27_mixed_exact_partial says what unary leaves when the second derivative is not zero: only pairs of a variable and
  the next one can keep a mixed derivative, and only if a pair of that variable was recorded (SpecU2Mixed.v).
  C27_mixed_two_arguments_partial says the same of functions of two arguments (SpecU2Mixed2.v, U2Mixed2.v): which of the
  three contributions to a mixed derivative reach the result, for every pair of variables.
* **C28-C30, C32, C33, C49** moments.  The random variable of a UReal2 is its second order polynomial in
  independent standardized variables on any probability space (SpecProb.v).  Both sides of C28/C29 are
  polynomials of degree <= 4 in the list of the variables (iterated differences vanish), so comparing lists of at
  most 4 variables decides the identity; those are done by `ring`.
* **C31, C50** the Hankel matrix test is equivalent to positive semidefiniteness (spectral theorem in
  Spectral.v); positive definite moments are realized by five points (Gauss quadrature).  C50 is
  refuted on the boundary.
* **C34, C36, C48** isindep, grad, hess, agreement of both classes, casts.
* **C35** refuted (the code is marked NOT FINISHED).  What the code computes instead is proved for all operands (gradient
  and diagonal second derivatives; AssignProofs*.v): the loop writes to the maps it walks over, so the invariant is that
  nothing at or after the position of the iterator changes.
  In all histories that call it the storage stays valid (sorted, moments known and shared,
  pairs within the dependencies) and every later query and operation returns: an invariant carried through the merge
  while both maps are modified under the iterator (AssignWf.v).  With one object as both arguments there are two iterators over
  the maps that are modified (UReal2Self.v, AssignSelf.v).  The mixed second derivatives are proved when the pure second
  derivatives of the function are zero, or only the one of y is not and y depends on one variable (AssignTri.v): then the iterator is always at the diagonal or at a stored pair;
  with one object as both arguments the two iterators then move together.
* **C37-C39** moments of the distributions by improper integrals; binomials; the distributions pass the test.
* **C40-C45, C51** format: the printed text is parsed back by an independent reader (SpecIo.v) and compared with
  the correctly rounded number.  Several cases are refuted, see section 8; what is printed in those cases is
  proved too (`C41_every_case_partial`, `C42_every_case_partial`, `C43_sign_lost_partial`).
* **C52-C58** the same model with doubles.  C53 by a bisimulation up to the signs of zeros, which are not
  observable because every sum starts from +0.  C57 by induction over the terms of the sum.  Refutations are computed by the
  kernel (`vm_compute`) on concrete doubles.
* **C59** reordered histories (SpecOrder.v): adjacent unrelated calls commute up to a renaming of the ids, by cases on
  the two calls.  Refuted for UReal2 in the case of C27, and for doubles.
* **C60** a program on UReal2 is read as a function of its independent variables (SpecAD2.v).  By induction over the calls,
  with the chain rule of second order for functions of two variables, the stored coefficients are its first and
  second derivatives.  With C28 the moments reported are those of its Taylor polynomial.  Partial: not where C27 fails.
* **C61-C63** covariances and correlations on doubles (SpecIeee2.v).  C61 by induction over the common terms, with the
  absolute error of subnormal products; C63 combines C57, C61 and the inequality of Cauchy and Schwarz.  C62 and the
  bound of C63 are refuted by x = a + b + c with deviations 1.
* **C64** isfinite and isnormal on doubles (MathIeee.v).  From C61 and the cache invariant of C57; refuted by UReal(1, 2^600) + 0.
* **C65** Accuracy of math.hpp on doubles (SpecMathIeee.v), for every <cmath> of relative error e.  A calculus of
  numbers known up to a number of roundings (IeeeRel.v), then function by function (MathAcc*.v); the deviation from C57.
  Uniform bounds are refuted for the functions with cancellation by a correctly rounded <cmath>.
* **C66** Accuracy of the operators and of the functions of two arguments on doubles (SpecMathIeee2.v).  One lemma on the merge
  of two maps of coefficients with rounded derivatives (MathAcc6.v), from C57 and the triangle inequality; then
  operator by operator (MathAcc7.v).  fmod and remainder need that the quotient rounds to the same integral part, and are
  refuted otherwise; atan2 is not included because its sign is wrong (C22).
* **C67** format on doubles (IoIeee.v, SpecIoIeee.v), for every <cmath> of relative error e <= 2^-51.  The error of log10 puts a number
  in the wrong decade only if it is within 4e-13 of a power of ten; the mantissa is then still right, by the carry.  The text is
  parsed back as in C41, up to 4 e of the numbers; the number of digits is the one of C44 outside of 1e-4 around the
  boundary (float logarithm).  Refuted outside of the ranges of the hypotheses (IoAcc9.v).
* **C68** Failed allocations (Alloc.v, SpecAlloc.v).  Each call gets the number of nodes left; in place updates stop where the
  allocation fails.  The invariant of C46 survives because it does not relate the stored deviation to the map; what a
  failed merge leaves is computed by induction on the map of the right hand side.
* **C69** Threads sharing variables (ThreadCalls.v, SpecThreads.v).  Simulation: the calls in the order in which they begin are a sequential
  history; a running call agrees with a snapshot of its operands, a writing one with the final value on the members already written.  That
  order is a reordering of unrelated calls, so C59 applies.  Termination by a measure.  The race is an explicit execution.
* **C70** Numerical derivatives on doubles (SpecFunIeee.v, FunAcc*.v).  The function on doubles is any one that computes a real function
  within an absolute error e on a neighbourhood of the mean.  Taylor expansions (FunAcc.v) give the truncation; the rounding of mean + step, of
  the difference and of the quotient is bounded with the standard model of Ieee.v (FunAcc2 to FunAcc4), where mean +- step is not assumed exact.
  The bounds are put through `unary`, `binary` of UReal and UReal2 and, for uunary, through s() with the accuracy theorem of C57.
  Refuted for large means: the step is absorbed.
* **C71** `all` of UReal2 (U2All.v): from the iterator theorems of C25; in terms of the jets of SpecU2.v on reals.
* **C72** ureals on doubles (SpecLDLTIeee.v, URealsAcc*.v).  The stored rows are computed exactly (every `+=` appends one cell), each cell is
  known up to two roundings (IeeeRel.v), and the covariance is the sum of C61; the Cauchy-Schwarz inequality turns the bound into
  one that depends on the requested matrix only.
* **C73** stat.hpp instantiated with UReal2 (`Stat2.v`): the layout follows from the totality of `cov` and `corr` (C25); positivity from the random variables of C28: the quadratic form of the matrix is the variance of a linear combination.
* **C74** `Move.v` adds to the histories of `World2.v` the implicit move operations, with arbitrary contents left in the source; `SpecMove.v` says which variables are moved away.  Proof: a call depends on the state only through the counter and the variables it reads (`exec_shape`), so the moving and the copying program stay equal on the other variables; with empty leftovers the representation invariant of C46 and C25 is preserved.  Refuted: a moved-from variable need not satisfy the invariant of ureal.hpp 299 (s() squared is cov(x, x)).
* **C75** `SpecAcc2.v` evaluates the functions of `Moments.v` on two further numeric types: magnitudes and numbers of roundings.  `Track.v` has a type of quintuples (double, exact value, magnitude, magnitude with underflow, roundings) with the error bound as an invariant, and homomorphisms to its components; so the computation on doubles is bounded by the computations on the other types (`AccMom*.v`), whose number of roundings is bounded by a polynomial in the number of variables.  `AccSize*.v`: no overflow for moderate numbers.  The exact value is related to expectations as in C28 and C29.
* **C76** (polynomial programs on doubles): the model is run on a fifth numeric type (`PN`, Track2.v) whose
  elements carry a double, the exact real number, two magnitudes and a count of roundings together with
  the proof that they bound the error. The projections are homomorphisms, so one run on `PN` projects to the
  run on doubles, on reals and on magnitudes (PolyHom.v, PolyAcc2.v: simulation of `exec2`). The count along
  the program is bounded by `rounds` (PolyAcc.v). Queries go through the type of C75 after the counts are
  absorbed in the magnitudes (`inflate`).
* **C77** (distribution factories on doubles): the model of distr.hpp is generic in the numeric type and is
  instantiated on doubles; the parameters are compared with integrals of the densities (composed with C37) through the
  calculus of relative errors of IeeeRel.v.  Acceptance: the Hankel matrix of the exact moments is diagonalised by the
  orthogonal polynomials (Hermite, Laguerre, Legendre), which bounds its eigenvalues below by 1/8000 for every number of
  degrees of freedom; rounding of the moments and the error of the solver (any oracle with `solver_close`) move them by less.
* **C78** (math.hpp and the operators on UReal2<double>): the model of the 31 functions is generic, and is instantiated on
  doubles with any <cmath> of relative error e (the record of C65).  `SpecMath2Ieee.v` compares the stored derivatives
  with the chain rule of the true first and second derivatives (`twice_derivable`, `twice_differentiable` of C22).
  The coefficients are bounded by the calculus of relative errors (one argument) and by a calculus of errors relative to
  the size of the terms (two arguments, `apx` in Math2Acc4.v); then through the loops of unary and binary (`unary_at`, `binary_at`).
  Second derivatives with respect to two different variables are not compared: see C27.
* **C79** Threads using both classes (ThreadCalls2.v, SpecThreads2.v).  Memory is a set of cells (one per member); the simulation of C69 is
  redone on cells (ThreadCalls2Proofs*.v), the calls in the order in which they begin being the sequential history.  Conversely a call done
  without interruptions is an execution, which gives every interleaving.  Calls of which at most one creates a variable can be exchanged
  exactly, hence the independence of the schedule; the counterexample with two creators is the one of C59.
* **C80** Failed allocations with UReal2 (Alloc2.v, SpecAlloc2.v).  As C68, for histories with both classes: operations allocate the nodes
  of both maps of the result, constructors one node after taking the id, `v = x` copies the members in order.  Proved: enough memory is
  one node per variable and one per pair; which calls leave no trace when they fail; no assertion fails unless the target of a failed
  `v = x` is used.  Refuted in general, with the maps of libstdc++ and libc++.
* **C81** stat.hpp on doubles (SpecStatIeee.v, StatAcc*.v).  Layout from C17, C18, C73; symmetry bit for bit from C54; error bounds of the
  entries from C57, C62, C63 and, for UReal2, C75; the bound below of the quadratic form from the exact one, a sum of squares.
  corr2cov multiplies by the same double corr_matrix divided by, hence the round trip.  The three refutations run the model on doubles.
* **C82** s, skew, kurt and corr of UReal2 on doubles (SpecShape.v, ShapeAcc*.v, DemoShape.v).  The errors of the moments (C75) are carried
  through the square root, the product and the quotient.  The hypothesis is that the error of the variance is at most one eighth of it;
  it follows from the others for variables without second derivatives.  Without it the variance can be negative, as refuted by running the model;
  its exact value, 0, is computed on integers and transferred to reals by C48's homomorphisms.
* **C83** Programs of +, - and * on UReal<double> (SpecAcc4.v, SpecAcc5.v, UPoly*.v, DemoUPoly.v).  The exact values are the linear forms of SpecLin
  on the reals, the sizes those of `size_run`, where sums and differences are sums of absolute values.  One run of the program on quintuples
  (double, exact value, two sizes, number of roundings) projects to the run of the model on doubles and on the reals and to two on sizes:
  `sim_uexec` shows that each call preserves the relation between states (same id, same ids of the coefficients, corresponding numbers), although
  the compound assignments test whether a derivative is equal to 1 and skip a product.  The runs on reals and sizes are then related to the
  specifications (`exact_rep`, `size_rep`).  `C83_values` bounds means and coefficients, `C83_covariances` the covariances, `C83_deviation` the
  deviations (with C57 for the last sum of squares and the square root), `C83_relative` the relative error of the deviation where no coefficient
  is the result of a cancellation.
* **C84** central_moments and std_moments of distr.hpp in double arithmetic (CentralAcc.v-CentralAcc3.v).
  The computation is unrolled once for all number types (`central_list`, `std_list`), then read on
  the quintuples of Track.v: the double, the exact value, two sizes and a count of roundings. The
  specification (SpecAcc6.v) has its own binomial coefficients and the textbook formula; for a random
  variable the exact value is E (X - E X)^n. Overflow appears as a result that is not finite, which
  the theorem excludes for that result only. C84_standardized uses the calculus of relative errors of
  IeeeRel.v. C84_variance_refuted: a variable with values 2^53 + 2 and 2^53 + 4.
* **C85** memory of UReal (SpecMem.v, MemProofs.v): the calls of Alloc.v, which run with a budget of allocations. `held` gives the nodes a variable holds from the history (`heap_free`: constructed, or computed with functions of one argument only) and from the dependency set of the linear form; `allocates L w c n` says that the call throws std::bad_alloc exactly when fewer than `n` allocations succeed. Proved by an invariant on histories (the sign of the stored id is the one `heap_free` predicts) and an exact account of the budget through the loops of the compound assignments. Allocations outside the maps are not modelled (the messages of exceptions, the type of the numbers).
* **C86** user functions with side effects (FunEff.v, SpecFunEff.v): a user function is any map from arguments and state to
  state and answer or exception. A call of a function made by a factory is a list of queries, asked in the order of the
  statements or in any given permutation, followed by the computation. Compared with Functions.v and with the
  list `points` of SpecFunEff.v.
* **C87** (SpecRel.v, RelProg.v, RelProg2.v, RelDemo.v) programs on doubles with +, -, *, /, their
  compound assignments (from another variable), negation, change_nom and sqrt.  The exact values are
  the linear forms of SpecLin.  The hypotheses (`tame_program`) are on the exact values only: numbers
  that are added have the same sign, and products, quotients and square roots are zero or in the range
  of the normal doubles.  Proved by induction on the program with the calculus of relative errors of
  IeeeRel.v: means and coefficients are exact up to `rel_rounds` factors between 1 - 2^-53 and its
  inverse; deviations and variances follow from C57.  Division is in no other theorem about whole
  programs on doubles (C83 has +, - and * only, but also programs that cancel).
* **C88** memory of UReal2 (SpecMem2.v, Mem2Proofs.v, Mem2Demo.v): the calls of Alloc2.v with a budget of allocations. `size_of x d p`
  counts the variables `x` depends on and the pairs it has recorded; `keeps` and `crossed` say which pairs a function leaves.
  Proved from the list of elements the iterators visit (C25, C27) and the keys written by the two loops of `binary`.
  For programs: sums record no pair, products record all (invariants on histories).
* **C89** output on streams (Stream.v, SpecStream.v, StreamProofs.v, StreamDemo.v): the operators on a record with the settings of a
  std::ostream, and chains of variables, strings and manipulators.  `shows` says what a text shows, with the reader of SpecIo.v;
  `padded` and `received` what the stream does.  The text comes from C41, C44 and C51 with the default arguments of
  format; chains by induction; variables printed alike from the uniqueness of the reading (C41).  Refuted: 9.6 +- 12 and 1.2 +- 12 are printed alike;
  a field of width 10 has 9 characters.  Any buffer (StreamFull.v, SpecStreamFull.v, StreamFullProofs.v): an oracle says how many
  characters it takes; by induction on the chain, compared with the run on a buffer that takes everything.
* **C90** distance from the truth (SpecTrue.v, TrueProb.v, TrueProofs.v, TrueProofs2.v, TrueDemo.v): the random variable a program computes
  is the function of SpecAD.v (SpecAD2.v) applied to random inputs.  By induction on the program its derivative along any line through
  the means is the combination of the coefficients the library stores; Taylor's theorem along the line (Coquelicot) bounds the
  difference to the polynomial whose moments the library reports (C05, C28, C29, C60); Cauchy-Schwarz and the triangle inequality on an
  abstract expectation carry the bound over to deviations and covariances.  Second order partial as C60, with a refutation.
  For sums, differences and products with numbers the function is affine by induction and everything is exact (SpecAffine.v,
  TrueAffine.v); likewise UReal2 for sums, differences and products of degree at most two (SpecDegree.v, TrueQuad.v).

## 5. Trusted base

* The kernel of Coq 8.16.1 (`coqchk` was run on the compiled files).
* Axioms: only those of the standard library.  `ASSUMPTIONS.md` has the output of `Print Assumptions` for each theorem:
  `ClassicalDedekindReals.sig_forall_dec`, `ClassicalDedekindReals.sig_not_dec`,
  `FunctionalExtensionality.functional_extensionality_dep` (classical real numbers), and
  `Classical_Prop.classic` where Coquelicot or the spectral theorem use it.
  `IndefiniteDescription.constructive_indefinite_description` is used by one example only (Demo4.v).
  Nothing is admitted, there are no axioms of our own, no functors, no kernel check is switched off.
* Libraries: standard library, Coquelicot, Flocq (rounding to integer; binary64), proofs checked by the same
  kernel.
* That the definitions of the model files say what the C++ text says (sections 1-3), and that the
  specification files (`Spec*.v`) say what the English statements of `properties.jsonl` say.

## 6. Layout

* `rocq/theories/`: model files (section 1); `Spec*.v` specifications, independent of the helpers of the model;
  `*Proofs*.v`, `Mom*.v`, `Derivs*.v`, `Spectral.v`, `Integrals.v`, ... proofs; `Demo*.v` concrete cases;
  `Props*.v` the property theorems.
* `tools/`: `genprops.py` writes `Props*.v` from `tools/Props*.in` by copying the statement of the
  lemma `Cxx_name_proof`, so that statements are visible in one place; `genmanifest.py` writes `MANIFEST.json`;
  `genassum.py` writes `ASSUMPTIONS.md`.  The generated files are committed.

## 7. Wrong programs

`seeded/LOG.jsonl` has one line for each realistic bug put into a definition of the model: the edit, the
claim it breaks, the property theorems whose proofs no longer go through, and the theorems tightened.

## 8. Defects of the library found

1. `UReal::grad`: x.grad(x) is 0 for an independent x (C15).
2. The id counter is incremented even when the UReal constructor throws (C13; harmless).
3. The sentinel `maxid` in `binary` is a legal id (C47).
4. UReal `atan2` has both derivatives with the wrong sign (C22).
5. UReal `cbrt` of a negative mean and `pow(x, number)` at mean zero give NaN (C21, C22, C23).
6. UReal2 `isfinite`/`isnormal` cannot be instantiated.
7. The Hessian iterator in non-skipping mode skips the pairs that are not stored, so mixed second derivatives of
   nonlinear functions of several variables are lost: (a + b)^2 (C27).  Which ones are lost depends on the order in
   which the variables were created: with x = a*b + c, x + x^2 has variance 4 or 3 (C59).
8. UReal2 `binary_assign` doubles the gradient (C35).
9. `format`: errdig = 1 is rejected (C40); 9.6 +- 12 prints 1 +- 12 (C41); 0.999 with 2.5 digits prints too
   many digits (C41, C44); 9.996 +- 0.32 prints 10.0 +- 0.32 (C42); the sign of a number without
   uncertainty is lost (C43).
10. Moments on the boundary of the test can be accepted although no distribution has them (C50).
11. On doubles: the mean of a quotient is x * (1 / y), so 49 / 49 is not 1 (C52); var() changes in the last bit after
    s() has been called (C55); s() of x + 0 is 0 or infinite when the square of the deviation underflows or overflows
    (C56); s() of a UReal2 can be NaN when the true variance is 0 (C58); the last bit of a variance depends on the order in
    which the variables were created (C59); cov(x, x), var(x) and
    s() * s() can differ in the last bit although documented as equal (C62); corr(x, x) and the diagonal of corr_matrix
    can be greater than 1 (C63); isfinite(x + 0) can be false when isfinite(x) is true (C64);
    asin, acos, atanh, acosh lose half of the digits of the deviation near 1, and tanh gives deviation 0 at 40 (C65); the derivative of fmod and remainder is off by
    one when the quotient rounds up to the next integer (C66);
    format converts an infinity to int (undefined behaviour) when the mean is 10^308 times the unit of the last digit, and
    for subnormal deviations, and fails an assertion for 999.9999999999999 +- 1.8e-12 (C67).
12. s() and var() of a variable that is not const write to it, so they are not safe to call from two threads (C69).
13. A compound assignment or copy that runs out of memory leaves the variable inconsistent: s() is the old one, cov the new one (C68).
14. The default step of the numerical derivatives is absolute (2^-26, 2^-13): for means of 2^29 (2^42) or more the uncertainty of the result is 0 (C70).
15. ureals: a pivot that is NaN is not caught by the test on the sign of the decomposition, and aborts in an assertion instead of throwing (C72).
16. A variable that was moved away keeps its cached deviation but loses its covariances: s() and cov(x, x) disagree (C74).
17. uniform(left, right) on doubles does not throw for left > right if the difference is below 2^-1073, although documented to, and returns an infinite mean for large finite ends (C77).
18. A UReal2 assignment `v = x` that runs out of memory leaves the two maps of v inconsistent: cov, m(3) and all(v, p) then fail an assertion or read past the end (C80).
19. `cov` and `cov_matrix` of UReal2 on doubles are not symmetric in the last bits, and `cov_matrix` is not positive semidefinite in the last bits for either class; `corr2cov` of `corr_matrix` is NaN where the covariance is 0 because a variable has no uncertainty (C81).
20. `var()` of UReal2 on doubles can be negative, and then `s()` and `skew()` are NaN, for moderate numbers and valid moments: the sum of the squares of two fair coins (C82).
21. `central_moments` (distr.hpp) can return a negative variance from the correctly rounded moments of a variable with two values, and `std_moments` then returns only NaNs (C84).
22. The separator of `format` has a plus-minus sign of two bytes, so a field of width n on a stream has n - 1 characters (C89).
