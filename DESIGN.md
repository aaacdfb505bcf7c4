# Formal model of ralphtandetzky/magnesia in Rocq (Coq 8.16.1)

## 1. Approach

The crate is a generic numerics library: every algorithm is written against traits
(`Ring`, `Field`, `VectorExpr`, `MatrixExpr`, `Rng`, ...).  The model keeps that genericity:

* `Base/Outcome.v`: every Rust computation is a term of `outcome A` = `Ok a | Panic reason | Diverge`;
  loops are folds in that monad, indexing is bounds-checked (`Panic IndexOOB`).  `mres A` = the state
  left behind together with how the computation ended, for operations on `&mut self`.
* `Model/Traits.v`: a trait implementation is a record of (possibly panicking) operations
  (`RingOps T`, `FieldOps T`, `FunOps T`, ...); instances for overflow-checked and wrapping machine
  integers (`Model/Int.v`), for the reals (`Model/RealInstance.v`) and for IEEE floats of every
  precision and exponent range (`Model/Float.v`, on Flocq's `binary_float`).
* `Model/*.v`: one Gallina function per Rust function, same loop structure, same operand order,
  each with a `file: lines` citation; where it simplifies, the comment says so.
* `Spec/*.v`: what the words in the English properties mean (ring laws, finite sums, matrices as
  functions, principal branch, rounding error, what an interrupted assignment leaves ...),
  independent of how the code computes.
* `Proofs/*.v`: lemmas.  `Props/*.v`: the property theorems `Cnn_name`, with `Print Assumptions` and
  non-vacuity `Example`s beside them.
* Statements ending in `_refuted` are findings: a claim a user would expect is false of the code, and
  the theorem proves its negation (or exhibits the offending inputs for every size), with the exact
  characterisation of what the code does instead in the neighbouring theorem.

## 2. Plan per property

| id | what is modelled | how it is proved |
|----|------------------|------------------|
| C01 | `eval_ref`/`eval` as reverse fold | Horner induction over an arbitrary (setoid, non-commutative) ring |
| C02, C03 | the three `+`/`-` implementations with their branches | coefficient characterisation, list induction |
| C04 | double index loop with bounds checks | loop invariant, coefficient = convolution sum |
| C05 | as above | from C01-C04 and sum manipulation; counterexample over 2x2 matrices |
| C06, C07 | `impl Ring for Polynomial` as `RingOps T -> RingOps (list T)` | ring laws from the coefficient characterisation; refutation of `p - p == 0` for all non-empty p |
| C08-C11 | `Complex<T>` operations over `RingOps`/`FieldOps` | ring normalisation (non-commutative), field lemmas, generic counterexample |
| C12-C18 | `Complex<T>` functions instantiated at the reals | real analysis from Coq's `Reals` |
| C19-C25 | `SVector`, `SMatrix` on length-indexed vectors | entry characterisation, finite-sum algebra |
| C26, C27, C37 | `VectorExpr`/`MatrixExpr` as records of methods; deep syntax of expressions | structural induction on expression trees |
| C28-C31 | `DVector`/`DMatrix` stores, `+=`, `-=`, indexing with `usize` arithmetic of any width in both overflow modes; state left at a panic is part of the result | loop invariants, refutations by witness and exact characterisation of the panic condition |
| C32-C36 | `t`, `h`, `diag`, product, inner product | entry characterisation and finite sums |
| C38-C45 | `optimize` with RNG and comparator as state-passing oracles, rejection loops with fuel (`Diverge` when exhausted) | invariants over iterations and over knockout rounds; refutations by concrete streams |
| C46 | `ackley` over the reals | real analysis |
| C47-C49 | checked / wrapping integers as `RingOps` | one parametricity (simulation) lemma per model function; homomorphism Z -> Z/2^w |
| C50 | inductive syntax of nested types | induction using C06, C08, C22 |
| C51-C53 | IEEE floats (Flocq) of every format | simulation to rounded reals, standard error analysis |
| C54 | IEEE floats | range conditions for every format, `vm_compute` witnesses on binary64 for the refutations |
| C55 | all ring-generic functions | parametricity: each function preserves relations respected by the ring operations |
| C56, C57 | machine integers / floats whose intermediate values stay within a bound | simulation with a magnitude invariant |
| C58-C60 | `optimize` again, with a log of generator requests and comparator calls | invariants over iterations; relational (two-run) induction |
| C61 | `Polynomial` over rings and domains | division by x - a by induction on the length, counting roots |
| C62 | compound assignments with the state they leave (`mres`) | loops as walks along two lists, interrupted at some element |
| C63 | derived `==`, `is_empty` | list induction |
| C64 | `Polynomial` over binary floats | a law-free description of the product loop, then the dot-product error analysis coefficient by coefficient |
| C65 | NaN through every product, evaluation and norm over binary floats | NaN absorbs in add/mul; induction over Horner's scheme and the sums |
| C66 | the identities that are exact over binary floats | sums with one non-zero term; multiplication by one is exact; squares are non-negative |
| C67 | SVector/SMatrix against DVector/DMatrix, no laws assumed | both sides rewritten to the same monadic traversal of lists |
| C68 | inner products and Frobenius norm over the reals and complex numbers | Lagrange's identity for the sums the code computes, then order reasoning |
| C69 | Ln, Sqrt, Arg of Complex over the reals | fibres of exp, uniqueness of the principal value |
| C70 | all elementary functions of Complex over the reals | norms of sin/cos split as sin^2 + sinh^2; sum-to-product identities; inverse via ln and sqrt |
| C71 | ackley over binary32 with an arbitrary libm | monotonicity of rounding for the range; forward error analysis with Lipschitz bounds of exp, cos, sqrt; rational enclosures of pi and e |
| C72 | Complex sqrt over binary floats | relative-error calculus; limited cancellation in the first branch, (abs z - abs a)(abs z + abs a) = b^2 in the second; for tiny components the same with one absolute term for the squares and one for the quotient |
| C73 | Complex division over binary floats | relative-error calculus and Cauchy-Schwarz for the cancelling sums; the imaginary part of z / z is a difference of equal roundings |
| C74 | exp, sin, cos, sinh, cosh, tan, ln of Complex over binary floats with an arbitrary libm of given relative accuracy | error of a rounded product of two approximations; perturbation of a quotient (norm inequalities) on top of C73; ln(1+t) bounds; correctly rounded libm as instance |
| C75 | the expression combinators of dvector.rs and dmatrix.rs and compound assignment over an effect monad (state passing, panics keep the state) | mutual induction over expression trees: same outcome as the pure model and calls = specified list (prefix on panic); counting by path disjointness; Permutation of row-major index lists |
| C76 | the optimizer with a tape of words as generator; probabilities are counts over all K^m tapes | a class of tape programs that end almost surely, closed under bind, containing every draw and rejection loop; recurrences for counts by first word, solved in closed form; geometric series over the reals; induction over the mask |
| C77 | polynomial, SVector, SMatrix, DVector and DMatrix arithmetic over arbitrary, possibly panicking element operations | a loop of slot updates runs for each slot exactly its own updates in order; the pairs of the convolution loop that hit slot k; equality of outcomes with mapM of the formula |
| C78 | the optimizer run on two problems side by side | a simulation relation on populations carried through every loop; instances: affine maps over the reals, sign reversal over Flocq floats |
| C79 | the generic code at Flocq floats, pairs of runs | rounding is monotone, so are +, *, sqrt including overflow; induction over Horner's rule and the sums; products of polynomials of different lengths by adding zero terms |
| C80 | the generic code at Flocq floats, pairs of runs | round-to-nearest is odd, so * and / pass signs exactly and + up to the sign of zeros; induction over sums and Horner's rule |
| C81 | the generic code at Flocq floats and at complex Flocq floats side by side | simulation "if the real result is finite, the complex one is the same with zero imaginary part", closed under the ring operations; sqrt(fl(x*x)) = abs x by a half-ulp argument in radix 2; symbolic execution of sqrt on the axes |
| C82 | the generic code at Flocq floats | the standard model of each operation (exact result times 1+d, plus an underflow term for products); induction constructs the perturbed coefficients and entries; finite choice joins the rows |
| C83 | the generic code at pairs of Flocq floats | componentwise standard model turned normwise (the errors of the two parts of a product cannot both be at their worst: factor sqrt(4/3) instead of sqrt 2; an f32 product shows that 2.23 u is reached); triangle inequality and multiplicativity of the absolute value; induction over Horner steps and sums |
| C84 | the run as a history of trials and verdicts | general invariant principle for histories (a trial from points in the invariant is in the invariant); float step v + (v - v) w = v; linearity of the step; knockout with all verdicts false |
| C85 | the generic code at Flocq floats, pairs of runs | rounding of 2^k v is 2^k times rounding of v away from underflow; a tiny sum of two floats is exact, so sums scale whenever finite; sqrt never underflows; induction over sums and Horner steps |
| C86 | the generic code at polynomials, matrices and complex numbers over a ring | the relation "evaluates at x to" between polynomials and values is a simulation of the ring operations, so is "has v as eigenvector with eigenvalue" and "is the matrix of"; parametricity of evaluation then gives the laws |
| C87 | the generic code at nested element types | explicit conversions, entry by entry and coefficient by coefficient, exchanging finite sums; lifting through constructors by parametricity |
| C88 | Complex functions and polynomial evaluation over the reals | Caratheodory form of the derivative (closed under the operations); quadratic bound for exp near 0 from its addition law; sin, cos, sinh, cosh through exp; ln and sqrt as local inverses |
| C89 | `complex_sqrt`, `complex_mul`, `complex_sub`, `complex_abs` over IEEE floats; `sqrt_test` transcribes the body of the test loop | error analysis in the reals of both branches with explicit constants (re 4.897u, im 6.266u, sum of squares 63.25u^2 below 64u^2), exactness of doubling, halving and of the tolerance; underflow in the computed error bounded by the underflow unit |
| C90 | `doc_run`: the call of the doc example over binary32 (`Model/DiffEvo.v`, `Model/Ackley.v`), any libm, any generator | run history plus a strict weak order that agrees with the verdicts given (NaN objective values sent to +inf); termination from C42, call count from C44; counterexample from the collapsed-population theorem C84 |
| C91 | all generic operations, run over `float_ring` and over `bars_ops` (Spec/ErrorBars.v) | simulation relation `inside` (sane, within the bars, finite below the peak) preserved by each scalar operation, lifted by `nest_ring_sim` (C50/C55) to every nested type and by the `sim_*` lemmas to the other operations; the matrix laws by computing depth, size and padding of the two products |
| C92 | float ring operations related to conjunctions of "is finite" and disjunctions of "is NaN" (Spec/Taint.v), lifted through all nestings | simulation (nest_ring_sim) for arbitrary expressions and nestings; case analysis for Div and Sqrt |
| C93 | the bodies of four tests of complex.rs (lines 475-540) for an arbitrary argument, over the float instances, with libm as a parameter of stated accuracy | forward error analysis per part (Proofs/TrigTest.v: product of two libm results, halved difference, modulus with underflow), sinh(a)^2 + b^2 <= sinh(r)^2 for r^2 = a^2 + b^2, norm estimate, lower bound of the computed tolerance |
| C94 | the body of test_ln_complex_f32 (complex.rs 590-610) for arbitrary samples, over the f32 instance, with libm as a parameter of stated accuracy; f32::max, EPSILON and PI as floats | angle of an approximate product (Proofs/LnTest.v: k in -1,0,1 with angle difference near 2 pi k), logarithms of nearby numbers, forward error analysis in f32, grid argument for numbers in [4,8) near 2 pi, lower bound of the computed tolerance by e^x >= 1+x |
| C95 | Mul, Div, Abs and One of complex.rs over the float instances | normwise forward error analysis (Proofs/ComplexUndo.v): product 2.83 u, absolute value 2.01 u, residual of the quotient 6.9 u, combined through a window predicate that keeps every intermediate value away from overflow and underflow |
| C96 | Exp, Ln, Add, Mul of complex.rs over the float instances, with libm as a parameter of stated accuracy | normwise error of the computed exponential (3.1 d) and logarithm, e^z near 1 for small z, moved arguments of the exponential, argument of a number near e^z up to full turns (Proofs/ExpLn.v) |
| C97 | the same code paths as C83 (`poly_eval`, dot and matrix products over `complex_ops (float_ring prec emax)`), any format | an error bound A·abs(v)+B is split into a complex relative change of at most A and an absolute one of at most B; perturbations are pushed into the coefficients / first factors by induction over the loop |
| C98 | complex `+ - *`, `poly_eval`, dot and matrix products over floats and complex floats, any format | the magnitude of every partial sum is bounded by the (accumulated) error bound, which stays below 2^emax by induction; Cauchy's inequality inside the complex product |
| C99 | DVector dot product, `dmatrix_mul`, `dmatrix_t`, `dmatrix_h` over `complex_ops (float_ring prec emax)` and `float_ring prec emax`, any format | rounding commutes with sign changes and does not depend on the order of the two factors, so each partial sum of one side is the conjugate of that of the other, by induction over the sum; squares are never negative and x·y - y·x is zero or NaN |
| C100 | `poly_eval` and the DVector inner product over `float_ring prec emax`, any format | Horner error bound of C51 applied to the value and to the computed majorant; intermediate value theorem; a polynomial has at most degree many roots (C61) |
| C101 | `svector_add`, `svector_sub`, `svector_dot`, the DVector inner product and `complex_abs` over `float_ring prec emax`, any format | error bound of C52 for sums of squares, the bound passes through the root because (sqrt v)² - (sqrt N)² factors, rounding of sqrt; Cauchy-Schwarz and the triangle inequality for the exact lengths, then the two error bounds on either side |
| C102 | `de_optimize` over `float_de_num prec emax` (any format) and over R; the doc call of C90 with the f32 `ackley` | graded invariant along the run history (C58) with the rounding error of one step; verdict-dependent invariant (a trial that beats an incumbent of a level set lies in it); Ackley above 15.05 outside [-10,10]^2 and below 14.993 on [-5,5]^2, float error by C71; infinite result by computation |
| C103 | `complex_tan` over f32 and the body of `test_tan_complex_f32` (`tan_test`), libm as in C93 | rounding errors of sin, cos and the quotient; multiples of 2^-20 keep 2^-28 away from the poles (bounds on pi); defect of the rounded tangents in the addition theorem, divided by the denominator; sqrt 2 and pi to nine digits decide the roundings at 3 pi/4, the rest by computation |
| C104 | complex `exp`, `sin`, `cos`, `sinh`, `cosh`, `tan`, `ln`, `sqrt`, `arg` over `float_fun` for any format and any libm with the parities of the real functions | sign symmetries of the correctly rounded operations (C80) pushed through each function body; quotient of the tangent by C80's sign rules; counterexamples at -4 by computation |
| C105 | complex `exp`, `ln`, `sqrt`, `abs`, `arg`, `sin`, `cos`, `sinh`, `cosh`, `mul`, `add`, `sub` over floats, libm as in C96 | normwise error of the computed exponential and logarithm (C96), of sin, cos, sinh, cosh as products of libm results and of complex products bounded from above; e^(ln(z)/2) is the principal root by uniqueness |
| C106 | Sin, Cos, Sinh, Cosh, Add, Sub and Mul of complex.rs over the float instances | exact addition theorems by ring from the real ones; the four functions moved by a small change of the argument through their exponential form; forward error analysis of one sum of two products (C105 lemmas) |
| C107 | `eval`, `dot`, matrix products over the float instances | the bounds of C51–C53 with the magnitude replaced by the condition number times the exact value; the growth by induction on n over inputs whose small terms are all absorbed; the sign by computation of one input |
| C108 | Tan (Sin / Cos with complex division) over the float instances, libm of a given accuracy | exact tangent bounded by sinh/cosh algebra; the two quotients of products by the sized multiplication and division lemmas of C105 and C73; far away the squared norm of the denominator overflows, so the quotient is NaN |
| C109 | Sqrt, Ln, Abs, sqr_norm over the float instances | the squared norm is infinite or zero (C54 lemmas); then both branches of sqrt are followed with the rounding lemmas of Flocq: doubling exact, halving sign-preserving; uniqueness of the principal root |
| C110 | Exp, Sin, Cos, Sinh, Cosh over the float instances | a product with a factor of magnitude at most 1 is finite exactly when the other factor is; the exact components bounded by monotonicity of exp and rational bounds on ln 2 |
| C111 | Sqrt, Mul, Div and Abs of complex.rs over the float instances | componentwise error of the root (C72, any component), products and quotients inside the range (C73, C95); numbers with close squares are close up to sign by the parallelogram law |
| C112 | Ln, Mul, Div and Sqrt of complex.rs over the float instances, libm with relative error d | logarithm of a number near exp(x) is near x up to full turns (from C96); products, quotients and roots are near the product, quotient and root of the exponentials; the number of turns by the ranges of the arguments |

## 3. Trusted base

* Coq's kernel (8.16.1; the `vm_compute` machine is used for concrete examples and witnesses).
* The correctness of the transcription from Rust to Gallina (section 4), and of the small
  specifications in `Spec/`.
* The axioms listed by `Print Assumptions`.  There are none for most theorems; theorems about real
  numbers or floats rest on axioms of Coq's standard library only:
  * R2: `ClassicalDedekindReals.sig_forall_dec`, `FunctionalExtensionality.functional_extensionality_dep`
  * R3: R2 and `ClassicalDedekindReals.sig_not_dec`
  * R4: R3 and `Classical_Prop.classic`
* No axiom, parameter, functor or admitted proof of our own; no kernel check is switched off.

### Print Assumptions per theorem ("–": closed under the global context)

| property | theorem | file (theories/Props) | axioms |
|----------|---------|------|--------|
| C01 | `C01_eval_is_power_sum` | PolynomialProps | – |
| C01 | `C01_eval_ignores_trailing_zeros` | PolynomialProps | – |
| C01 | `C01_from_coefficients` | PolynomialProps | – |
| C02 | `C02_additions_are_coefficientwise` | PolynomialProps | – |
| C03 | `C03_subtractions_are_coefficientwise` | PolynomialProps | – |
| C04 | `C04_product_is_convolution` | PolynomialProps | – |
| C05 | `C05_evaluation_is_a_homomorphism` | PolynomialProps | – |
| C05 | `C05_product_law_needs_commutation_refuted` | SMatrixProps | – |
| C06 | `C06_polynomials_form_a_ring` | PolynomialProps | – |
| C07 | `C07_eq_implies_same_polynomial` | PolynomialProps | – |
| C07 | `C07_additive_inverse_refuted` | PolynomialProps | – |
| C07 | `C07_other_laws_hold_literally` | PolynomialProps | – |
| C08 | `C08_complex_is_a_ring` | ComplexProps | – |
| C08 | `C08_i_squared` | ComplexProps | – |
| C08 | `C08_operator_forms_agree` | ComplexProps | – |
| C09 | `C09_conj_is_an_involutive_automorphism` | ComplexProps | – |
| C09 | `C09_norm_laws` | ComplexProps | – |
| C09 | `C09_scalar_multiplication` | ComplexProps | – |
| C10 | `C10_division_inverts_multiplication` | ComplexProps | – |
| C10 | `C10_scalar_division` | ComplexProps | – |
| C11 | `C11_field_iff_no_root_of_minus_one` | ComplexProps | – |
| C11 | `C11_complex_over_reals_is_a_field` | ComplexProps | R2 |
| C11 | `C11_nested_complex_refuted` | ComplexProps | – |
| C12 | `C12_abs_is_a_multiplicative_norm` | ComplexFunProps | R4 |
| C13 | `C13_exponential_laws` | ComplexFunProps | R4 |
| C14 | `C14_logarithm_is_principal` | ComplexFunProps | R4 |
| C14 | `C14_ln_of_exp` | ComplexFunProps | R4 |
| C15 | `C15_square_root_is_principal` | ComplexFunProps | R4 |
| C15 | `C15_branches_agree` | ComplexFunProps | R4 |
| C16 | `C16_definitions_by_exponentials` | ComplexFunProps | R4 |
| C16 | `C16_identities` | ComplexFunProps | R4 |
| C17 | `C17_tangent` | ComplexFunProps | R4 |
| C17 | `C17_tangent_addition` | ComplexFunProps | R4 |
| C18 | `C18_polar_form` | ComplexFunProps | R4 |
| C18 | `C18_arg_unique` | ComplexFunProps | R4 |
| C19 | `C19_entrywise` | SVectorProps | – |
| C19 | `C19_module_laws` | SVectorProps | – |
| C20 | `C20_dot_is_sum_of_products` | SVectorProps | – |
| C20 | `C20_dot_biadditive_and_symmetric` | SVectorProps | – |
| C20 | `C20_dot_positive_definite` | SVectorProps | R2 |
| C21 | `C21_dvector_index` | DVectorProps | – |
| C21 | `C21_dvector_index_set` | DVectorProps | – |
| C21 | `C21_dvector_write_history` | DVectorProps | – |
| C21 | `C21_svector_index` | SVectorProps | – |
| C21 | `C21_svector_index_set` | SVectorProps | – |
| C21 | `C21_svector_write_history` | SVectorProps | – |
| C22 | `C22_square_smatrix_is_ring` | SMatrixProps | – |
| C22 | `C22_forms_agree` | SMatrixProps | – |
| C23 | `C23_product_entries` | SMatrixProps | – |
| C23 | `C23_mul_assign_entries` | SMatrixProps | – |
| C23 | `C23_product_laws` | SMatrixProps | – |
| C24 | `C24_matrix_vector_entries` | SMatrixProps | – |
| C24 | `C24_matrix_vector_laws` | SMatrixProps | – |
| C25 | `C25_entrywise` | SMatrixProps | – |
| C25 | `C25_conj_laws` | SMatrixProps | – |
| C26 | `C26_vector_expression_meaning` | DExprProps | – |
| C26 | `C26_matrix_expression_meaning` | DExprProps | – |
| C27 | `C27_vector_shape_check` | DExprProps | – |
| C27 | `C27_matrix_shape_check` | DExprProps | – |
| C27 | `C27_reference_operators_and_product` | DExprProps | – |
| C28 | `C28_dvector_assign_is_operator` | DStoreProps | – |
| C28 | `C28_dmatrix_assign_is_operator` | DStoreProps | – |
| C29 | `C29_dvector_assign_any_length` | DStoreProps | – |
| C29 | `C29_dmatrix_assign_any_shape` | DStoreProps | – |
| C29 | `C29_mismatched_shapes_rejected_refuted` | DStoreProps | – |
| C30 | `C30_read_write` | DStoreProps | – |
| C30 | `C30_invariant_any_history` | DStoreProps | – |
| C30 | `C30_history_refines_mathematical_matrix` | DStoreProps | – |
| C31 | `C31_index_characterised` | DStoreProps | – |
| C31 | `C31_consequences` | DStoreProps | – |
| C31 | `C31_out_of_range_rejected_refuted` | DStoreProps | – |
| C32 | `C32_transpose` | DMatrixProps | – |
| C32 | `C32_transpose_of_product` | DMatrixProps | – |
| C32 | `C32_hermitian_transpose` | DMatrixProps | – |
| C32 | `C32_hermitian_additive` | DMatrixProps | – |
| C32 | `C32_hermitian_of_product` | DMatrixProps | – |
| C33 | `C33_product_entries` | DMatrixProps | – |
| C33 | `C33_product_laws` | DMatrixProps | – |
| C33 | `C33_agrees_with_smatrix_product` | DMatrixProps | – |
| C34 | `C34_inner_dimension_zero` | DMatrixProps | – |
| C34 | `C34_agrees_with_smatrix_refuted` | DMatrixProps | – |
| C35 | `C35_dot_is_sum_of_products` | DVectorProps | – |
| C35 | `C35_dot_ignores_surplus_entries` | DVectorProps | – |
| C35 | `C35_dot_additive` | DVectorProps | – |
| C35 | `C35_dot_sesquilinear` | DVectorProps | – |
| C35 | `C35_dot_positive_definite` | DVectorProps | R2 |
| C35 | `C35_conjugate` | DVectorProps | – |
| C35 | `C35_unequal_lengths_rejected_refuted` | DVectorProps | – |
| C36 | `C36_vector_to_diagonal_matrix` | DExprProps | – |
| C36 | `C36_matrix_diagonal` | DExprProps | – |
| C36 | `C36_diag_of_diag` | DExprProps | – |
| C36 | `C36_eye_and_constants` | DExprProps | – |
| C37 | `C37_early_evaluation` | DExprProps | – |
| C37 | `C37_eval_overrides_agree_with_default` | DExprProps | – |
| C38 | `C38_best_of_final_population` | DiffEvoProps | – |
| C38 | `C38_knockout` | DiffEvoProps | – |
| C39 | `C39_never_worse` | DiffEvoProps | – |
| C39 | `C39_more_iterations` | DiffEvoProps | – |
| C39 | `C39_more_iterations_slots` | DiffEvoProps | – |
| C39 | `C39_objective` | DiffEvoProps | R2 |
| C39 | `C39_float_objective` | DiffEvoProps | R4 |
| C40 | `C40_invalid_arguments` | DiffEvoProps | – |
| C40 | `C40_valid_arguments` | DiffEvoProps | – |
| C40 | `C40_nan_arguments` | DiffEvoProps | R4 |
| C40 | `C40_float_arguments` | DiffEvoProps | R4 |
| C40 | `C40_no_dimensions` | DiffEvoProps | – |
| C41 | `C41_trials` | DiffEvoProps | – |
| C41 | `C41_full_crossover` | DiffEvoProps | – |
| C41 | `C41_no_crossover` | DiffEvoProps | – |
| C42 | `C42_fair_terminates` | DiffEvoProps | – |
| C42 | `C42_stuck_generator_refuted` | DiffEvoProps | – |
| C42 | `C42_why_four` | DiffEvoProps | – |
| C43 | `C43_start_in_bounds` | DiffEvoProps | – |
| C43 | `C43_bounds_respected_refuted` | DiffEvoProps | R4 |
| C44 | `C44_logging_is_transparent` | DiffEvoProps | – |
| C44 | `C44_number_of_calls` | DiffEvoProps | – |
| C45 | `C45_unbeaten_first_point_wins` | DiffEvoProps | – |
| C45 | `C45_nan_wins_refuted` | DiffEvoProps | – |
| C46 | `C46_formula` | AckleyProps | R3 |
| C46 | `C46_minimum` | AckleyProps | R4 |
| C46 | `C46_upper_bound` | AckleyProps | R4 |
| C46 | `C46_symmetries` | AckleyProps | R3 |
| C46 | `C46_f32_symmetries` | AckleyProps | R4 |
| C47 | `C47_overflow_exactly_out_of_range` | IntProps | – |
| C47 | `C47_polynomials_exact` | IntProps | – |
| C47 | `C47_complex_exact` | IntProps | – |
| C47 | `C47_vectors_exact` | IntProps | – |
| C47 | `C47_matrices_exact` | IntProps | – |
| C47 | `C47_dynamic_matrix_product_exact` | IntProps | – |
| C48 | `C48_polynomials_wrap` | IntProps | – |
| C48 | `C48_complex_wrap` | IntProps | – |
| C48 | `C48_vectors_wrap` | IntProps | – |
| C48 | `C48_matrices_wrap` | IntProps | – |
| C48 | `C48_dynamic_matrix_product_wrap` | IntProps | – |
| C48 | `C48_wrapping_integers_are_a_ring` | IntProps | – |
| C48 | `C48_wrap_is_reduction` | IntProps | – |
| C48 | `C48_checked_results_survive` | IntProps | – |
| C48 | `C48_checked_results_survive_everywhere` | IntProps | – |
| C49 | `C49_when_operations_return` | IntProps | – |
| C49 | `C49_sub_returns_implies_sub_assign` | IntProps | – |
| C49 | `C49_sub_forms_agree_refuted` | IntProps | – |
| C50 | `C50_every_nesting_is_a_ring` | NestProps | – |
| C50 | `C50_commutative_nestings` | NestProps | – |
| C50 | `C50_big_matrices_do_not_commute` | NestProps | – |
| C50 | `C50_checked_integers` | NestProps | – |
| C50 | `C50_wrapping_integers` | NestProps | – |
| C51 | `C51_horner_error` | FloatProps | R4 |
| C51 | `C51_horner_gamma` | FloatProps | R4 |
| C51 | `C51_finite` | FloatProps | R4 |
| C52 | `C52_svector_dot_error` | FloatProps | R4 |
| C52 | `C52_svector_dot_finite` | FloatProps | R4 |
| C52 | `C52_dvector_dot_error` | FloatProps | R4 |
| C52 | `C52_smatrix_product_error` | FloatProps | R4 |
| C52 | `C52_smatrix_vector_error` | FloatProps | R4 |
| C52 | `C52_dmatrix_product_error` | FloatProps | R4 |
| C53 | `C53_mul_commutative` | FloatProps | R4 |
| C53 | `C53_conj_of_product` | FloatProps | R4 |
| C53 | `C53_mul_error` | FloatProps | R4 |
| C54 | `C54_abs_accurate` | FloatRangeProps | R4 |
| C54 | `C54_abs_overflow_refuted` | FloatRangeProps | R4 |
| C54 | `C54_abs_underflow_refuted` | FloatRangeProps | R4 |
| C54 | `C54_div_overflow_refuted` | FloatRangeProps | R4 |
| C54 | `C54_div_underflow_refuted` | FloatRangeProps | R4 |
| C54 | `C54_doubles_refuted` | FloatRangeProps | R4 |
| C55 | `C55_nested_homomorphisms` | NestProps | – |
| C55 | `C55_functions_commute` | NestProps | – |
| C55 | `C55_more_functions_commute` | NestProps | – |
| C55 | `C55_eval_commutes_with_conj` | NestProps | – |
| C56 | `C56_machine_integers_exact_while_small` | BoundedProps | – |
| C57 | `C57_float_integers_exact_while_small` | BoundedProps | R4 |
| C57 | `C57_every_nesting` | BoundedProps | R4 |
| C57 | `C57_f64` | BoundedProps | R4 |
| C58 | `C58_closed_sets` | DiffEvoMoreProps | – |
| C58 | `C58_growth` | DiffEvoMoreProps | R2 |
| C58 | `C58_weight_zero` | DiffEvoMoreProps | R2 |
| C59 | `C59_only_verdicts` | DiffEvoMoreProps | – |
| C59 | `C59_rescaled_objective` | DiffEvoMoreProps | R2 |
| C59 | `C59_same_calls` | DiffEvoMoreProps | – |
| C60 | `C60_requests` | DiffEvoMoreProps | – |
| C60 | `C60_counts` | DiffEvoMoreProps | – |
| C61 | `C61_remainder` | PolyRootsProps | – |
| C61 | `C61_factor` | PolyRootsProps | – |
| C61 | `C61_number_of_roots` | PolyRootsProps | – |
| C61 | `C61_identity` | PolyRootsProps | – |
| C61 | `C61_degree_of_product` | PolyRootsProps | – |
| C61 | `C61_product_zero` | PolyRootsProps | – |
| C61 | `C61_wrapping_identity_refuted` | PolyRootsProps | – |
| C62 | `C62_same_operations` | UnwindProps | – |
| C62 | `C62_polynomial_add_sub_ref` | UnwindProps | – |
| C62 | `C62_polynomial_add_value` | UnwindProps | – |
| C62 | `C62_polynomial_sub_value` | UnwindProps | – |
| C62 | `C62_mul_assign_all_or_nothing` | UnwindProps | – |
| C62 | `C62_complex_add_sub` | UnwindProps | – |
| C62 | `C62_svector` | UnwindProps | – |
| C62 | `C62_smatrix` | UnwindProps | – |
| C62 | `C62_old_or_new` | UnwindProps | – |
| C63 | `C63_equality_is_pointwise` | EqualityProps | – |
| C63 | `C63_equality_laws` | EqualityProps | – |
| C63 | `C63_is_empty` | EqualityProps | – |
| C64 | `C64_product_error` | FloatPolyProps | R4 |
| C64 | `C64_product_finite` | FloatPolyProps | R4 |
| C64 | `C64_sums` | FloatPolyProps | R4 |
| C64 | `C64_differences` | FloatPolyProps | R4 |
| C64 | `C64_multiplication_commutes_refuted` | FloatPolyProps | R4 |
| C65 | `C65_eval` | FloatNanProps | R4 |
| C65 | `C65_eval_at_infinity_refuted` | FloatNanProps | R4 |
| C65 | `C65_polynomial_product` | FloatNanProps | R4 |
| C65 | `C65_dot_products` | FloatNanProps | R4 |
| C65 | `C65_static_products` | FloatNanProps | R4 |
| C65 | `C65_dynamic_product` | FloatNanProps | R4 |
| C65 | `C65_complex` | FloatNanProps | R4 |
| C65 | `C65_complex_norms` | FloatNanProps | R4 |
| C65 | `C65_infinity_times_one_refuted` | FloatNanProps | R4 |
| C66 | `C66_identity_matrix` | FloatExactProps | R4 |
| C66 | `C66_dynamic_identity_matrix` | FloatExactProps | R4 |
| C66 | `C66_complex_one` | FloatExactProps | R4 |
| C66 | `C66_polynomial_one` | FloatExactProps | R4 |
| C66 | `C66_eval_at_zero` | FloatExactProps | R4 |
| C66 | `C66_dot_symmetric` | FloatExactProps | R4 |
| C66 | `C66_transpose_of_product` | FloatExactProps | R4 |
| C66 | `C66_squares_nonnegative` | FloatExactProps | R4 |
| C66 | `C66_conj_times_self` | FloatExactProps | R4 |
| C66 | `C66_vector_sums` | FloatExactProps | R4 |
| C66 | `C66_negation_involutive` | FloatExactProps | R4 |
| C67 | `C67_dot_products` | PathsProps | – |
| C67 | `C67_vector_sums` | PathsProps | – |
| C67 | `C67_matrix_sums` | PathsProps | – |
| C67 | `C67_matrix_vector` | PathsProps | – |
| C67 | `C67_dot_is_a_matrix_product` | PathsProps | – |
| C67 | `C67_matrix_products` | PathsProps | – |
| C67 | `C67_float_matrix_products` | PathsProps | R4 |
| C67 | `C67_bit_for_bit_refuted` | PathsProps | R4 |
| C67 | `C67_integer_matrix_products` | PathsProps | – |
| C68 | `C68_cauchy_schwarz` | GeometryProps | R2 |
| C68 | `C68_lengths` | GeometryProps | R3 |
| C68 | `C68_complex_cauchy_schwarz` | GeometryProps | R2 |
| C68 | `C68_complex_triangle` | GeometryProps | R3 |
| C68 | `C68_matrix_vector_bound` | GeometryProps | R2 |
| C68 | `C68_matrix_product_bound` | GeometryProps | R2 |
| C69 | `C69_ln_of_product` | ComplexBranchProps | R4 |
| C69 | `C69_ln_parts` | ComplexBranchProps | R4 |
| C69 | `C69_sqrt_is_half_ln` | ComplexBranchProps | R4 |
| C69 | `C69_sqrt_of_product` | ComplexBranchProps | R4 |
| C69 | `C69_conjugate` | ComplexBranchProps | R4 |
| C69 | `C69_branch_cut` | ComplexBranchProps | R4 |
| C70 | `C70_exp_fibres` | ComplexBranchProps | R4 |
| C70 | `C70_zeros` | ComplexBranchProps | R4 |
| C70 | `C70_tan_domain` | ComplexBranchProps | R4 |
| C70 | `C70_symmetries` | ComplexBranchProps | R4 |
| C70 | `C70_equal_values` | ComplexBranchProps | R4 |
| C70 | `C70_surjective` | ComplexBranchProps | R4 |
| C70 | `C70_real_arguments` | ComplexBranchProps | R4 |
| C71 | `C71_constants` | AckleyFloatProps | R4 |
| C71 | `C71_f32_nonnegative` | AckleyFloatProps | R4 |
| C71 | `C71_f32_origin` | AckleyFloatProps | R4 |
| C71 | `C71_f32_error` | AckleyFloatProps | R4 |
| C71 | `C71_rounded_libm_in_range` | AckleyFloatProps | R4 |
| C71 | `C71_rounded_libm_accurate` | AckleyFloatProps | R4 |
| C71 | `C71_f32_error_on_domain` | AckleyFloatProps | R4 |
| C72 | `C72_sqrt_accurate` | FloatSqrtProps | R4 |
| C72 | `C72_sqrt_half_plane` | FloatSqrtProps | R4 |
| C72 | `C72_sqrt_f32` | FloatSqrtProps | R4 |
| C72 | `C72_sqrt_f64` | FloatSqrtProps | R4 |
| C72 | `C72_negative_zero_refuted` | FloatSqrtProps | R4 |
| C72 | `C72_sqrt_error_reached` | FloatSqrtProps | R4 |
| C72 | `C72_sqrt_any_component` | SqrtAnyProps | R4 |
| C72 | `C72_sqrt_normwise` | SqrtAnyProps | R4 |
| C72 | `C72_sqrt_closed_half_plane` | SqrtAnyProps | R4 |
| C72 | `C72_sqrt_any_f32` | SqrtAnyProps | R4 |
| C72 | `C72_sqrt_any_f64` | SqrtAnyProps | R4 |
| C72 | `C72_sqrt_tiny_component_refuted` | SqrtAnyProps | R4 |
| C73 | `C73_div_normwise` | ComplexUndoProps | R4 |
| C73 | `C73_normwise` | ComplexUndoProps | R4 |
| C73 | `C73_error_reached` | ComplexUndoProps | R4 |
| C73 | `C73_div_accurate` | FloatDivProps | R4 |
| C73 | `C73_self_quotient` | FloatDivProps | R4 |
| C73 | `C73_self_quotient_one_refuted` | FloatDivProps | R4 |
| C73 | `C73_div_f32` | FloatDivProps | R4 |
| C73 | `C73_div_f64` | FloatDivProps | R4 |
| C74 | `C74_exp` | FloatFunProps | R4 |
| C74 | `C74_sin` | FloatFunProps | R4 |
| C74 | `C74_cos` | FloatFunProps | R4 |
| C74 | `C74_sinh` | FloatFunProps | R4 |
| C74 | `C74_cosh` | FloatFunProps | R4 |
| C74 | `C74_ln` | FloatFunProps | R4 |
| C74 | `C74_tan` | FloatFunProps | R4 |
| C74 | `C74_ln_relative_refuted` | FloatFunProps | R4 |
| C74 | `C74_rounded_ln` | FloatFunProps | R4 |
| C74 | `C74_rounded_exp` | FloatFunProps | R4 |
| C75 | `C75_vector_calls` | DEffectProps | – |
| C75 | `C75_matrix_calls` | DEffectProps | – |
| C75 | `C75_pure_closures` | DEffectProps | – |
| C75 | `C75_no_calls_on_mismatch` | DEffectProps | – |
| C75 | `C75_at_most_once` | DEffectProps | – |
| C75 | `C75_exactly_once` | DEffectProps | – |
| C75 | `C75_vector_assign` | DEffectProps | – |
| C75 | `C75_matrix_assign` | DEffectProps | – |
| C75 | `C75_lazy_transpose_refuted` | DEffectProps | – |
| C76 | `C76_terminates_almost_surely` | DiffEvoRandomProps | – |
| C76 | `C76_iteration` | DiffEvoRandomProps | – |
| C76 | `C76_donors_uniform` | DiffEvoRandomProps | – |
| C76 | `C76_donors_only` | DiffEvoRandomProps | – |
| C76 | `C76_donors_undecided` | DiffEvoRandomProps | – |
| C76 | `C76_expected_draws` | DiffEvoRandomProps | R2 |
| C76 | `C76_crossover` | DiffEvoRandomProps | – |
| C76 | `C76_crossover_probability` | DiffEvoRandomProps | – |
| C77 | `C77_polynomial_product` | FormulaProps | – |
| C77 | `C77_polynomial_product_succeeds` | FormulaProps | – |
| C77 | `C77_polynomial_sums` | FormulaProps | – |
| C77 | `C77_evaluation` | FormulaProps | – |
| C77 | `C77_polynomial_product_local` | FormulaProps | – |
| C77 | `C77_dot_product` | FormulaProps | – |
| C77 | `C77_matrix_product` | FormulaProps | – |
| C77 | `C77_matrix_vector_product` | FormulaProps | – |
| C77 | `C77_matrix_product_local` | FormulaProps | – |
| C77 | `C77_dynamic_dot_product` | FormulaProps | – |
| C77 | `C77_dynamic_product` | FormulaProps | – |
| C78 | `C78_corresponding_runs` | DiffEvoEquivProps | – |
| C78 | `C78_change_of_variables` | DiffEvoEquivProps | – |
| C78 | `C78_affine` | DiffEvoEquivProps | R2 |
| C78 | `C78_affine_uniform` | DiffEvoEquivProps | R2 |
| C78 | `C78_mirror` | DiffEvoEquivProps | R4 |
| C79 | `C79_eval_monotone` | FloatMonoProps | R4 |
| C79 | `C79_dot_monotone` | FloatMonoProps | R4 |
| C79 | `C79_dvector_dot_monotone` | FloatMonoProps | R4 |
| C79 | `C79_smatrix_product_monotone` | FloatMonoProps | R4 |
| C79 | `C79_smatrix_vector_monotone` | FloatMonoProps | R4 |
| C79 | `C79_dmatrix_product_monotone` | FloatMonoProps | R4 |
| C79 | `C79_poly_product_monotone` | FloatMonoProps | R4 |
| C79 | `C79_poly_sum_monotone` | FloatMonoProps | R4 |
| C79 | `C79_poly_difference_monotone` | FloatMonoProps | R4 |
| C79 | `C79_abs_monotone` | FloatMonoProps | R4 |
| C80 | `C80_complex_products` | FloatSignProps | R4 |
| C80 | `C80_complex_quotients` | FloatSignProps | R4 |
| C80 | `C80_norms` | FloatSignProps | R4 |
| C80 | `C80_times_i` | FloatSignProps | R4 |
| C80 | `C80_dot_products` | FloatSignProps | R4 |
| C80 | `C80_dot_sign_pattern` | FloatSignProps | R4 |
| C80 | `C80_static_products` | FloatSignProps | R4 |
| C80 | `C80_dynamic_products` | FloatSignProps | R4 |
| C80 | `C80_dvector_dot` | FloatSignProps | R4 |
| C80 | `C80_static_sign_patterns` | FloatSignProps | R4 |
| C80 | `C80_dynamic_sign_patterns` | FloatSignProps | R4 |
| C80 | `C80_evaluation` | FloatSignProps | R4 |
| C80 | `C80_poly_products` | FloatSignProps | R4 |
| C80 | `C80_poly_sums` | FloatSignProps | R4 |
| C81 | `C81_evaluation` | FloatRealProps | R4 |
| C81 | `C81_products` | FloatRealProps | R4 |
| C81 | `C81_linear_algebra` | FloatRealProps | R4 |
| C81 | `C81_scaling` | FloatRealProps | R4 |
| C81 | `C81_abs_on_axes` | FloatRealProps | R4 |
| C81 | `C81_abs_at_least_components` | FloatRealProps | R4 |
| C81 | `C81_sqrt_on_real_axis` | FloatRealProps | R4 |
| C81 | `C81_sqrt_on_imaginary_axis` | FloatRealProps | R4 |
| C81 | `C81_functions_on_real_axis` | FloatRealProps | R4 |
| C81 | `C81_exp_overflow_refuted` | FloatRealProps | R4 |
| C82 | `C82_horner_backward` | BackwardProps | R4 |
| C82 | `C82_computed_root` | BackwardProps | R4 |
| C82 | `C82_svector_dot_backward` | BackwardProps | R4 |
| C82 | `C82_dvector_dot_backward` | BackwardProps | R4 |
| C82 | `C82_smatrix_vector_backward` | BackwardProps | R4 |
| C82 | `C82_smatrix_product_backward` | BackwardProps | R4 |
| C82 | `C82_dmatrix_product_backward` | BackwardProps | R4 |
| C83 | `C83_add_accurate` | ComplexErrProps | R4 |
| C83 | `C83_sub_accurate` | ComplexErrProps | R4 |
| C83 | `C83_mul_accurate` | ComplexErrProps | R4 |
| C83 | `C83_horner_accurate` | ComplexErrProps | R4 |
| C83 | `C83_svector_dot_accurate` | ComplexErrProps | R4 |
| C83 | `C83_dvector_dot_accurate` | ComplexErrProps | R4 |
| C83 | `C83_smatrix_product_accurate` | ComplexErrProps | R4 |
| C83 | `C83_smatrix_vector_accurate` | ComplexErrProps | R4 |
| C83 | `C83_dmatrix_product_accurate` | ComplexErrProps | R4 |
| C83 | `C83_mul_error_reached` | ComplexErrProps | R4 |
| C84 | `C84_closed_coordinate` | DiffEvoInvProps | – |
| C84 | `C84_constant_coordinate_float` | DiffEvoInvProps | R4 |
| C84 | `C84_recombination` | DiffEvoInvProps | – |
| C84 | `C84_linear_constraints` | DiffEvoInvProps | R2 |
| C84 | `C84_never_better` | DiffEvoInvProps | – |
| C84 | `C84_collapsed_population` | DiffEvoInvProps | R4 |
| C85 | `C85_svector_sums` | FloatScaleProps | R4 |
| C85 | `C85_smatrix_sums` | FloatScaleProps | R4 |
| C85 | `C85_poly_sums` | FloatScaleProps | R4 |
| C85 | `C85_svector_dot` | FloatScaleProps | R4 |
| C85 | `C85_smatrix_product` | FloatScaleProps | R4 |
| C85 | `C85_smatrix_vector` | FloatScaleProps | R4 |
| C85 | `C85_dmatrix_product` | FloatScaleProps | R4 |
| C85 | `C85_evaluation` | FloatScaleProps | R4 |
| C85 | `C85_poly_product` | FloatScaleProps | R4 |
| C85 | `C85_complex_sums` | FloatScaleProps | R4 |
| C85 | `C85_complex_product` | FloatScaleProps | R4 |
| C85 | `C85_complex_norms` | FloatScaleProps | R4 |
| C85 | `C85_complex_quotient` | FloatScaleProps | R4 |
| C86 | `C86_composition` | SubstitutionProps | – |
| C86 | `C86_composition_with_x` | SubstitutionProps | – |
| C86 | `C86_composition_associative` | SubstitutionProps | – |
| C86 | `C86_eigenvalues` | SubstitutionProps | – |
| C86 | `C86_complex_as_matrices` | SubstitutionProps | – |
| C86 | `C86_composition_everywhere_refuted` | SubstitutionProps | – |
| C87 | `C87_polynomials_of_complex_numbers` | InterchangeProps | – |
| C87 | `C87_matrices_of_complex_numbers` | InterchangeProps | – |
| C87 | `C87_polynomials_of_matrices` | InterchangeProps | – |
| C87 | `C87_polynomials_of_polynomials` | InterchangeProps | – |
| C87 | `C87_matrices_of_matrices` | InterchangeProps | – |
| C87 | `C87_inside_every_nesting` | InterchangeProps | – |
| C87 | `C87_exchanges_compose` | InterchangeProps | – |
| C88 | `C88_entire_functions` | CalculusProps | R4 |
| C88 | `C88_tangent` | CalculusProps | R4 |
| C88 | `C88_logarithm` | CalculusProps | R4 |
| C88 | `C88_square_root` | CalculusProps | R4 |
| C88 | `C88_logarithm_branch_cut` | CalculusProps | R4 |
| C88 | `C88_square_root_branch_cut` | CalculusProps | R4 |
| C88 | `C88_polynomials` | CalculusProps | R3 |
| C88 | `C88_rules` | CalculusProps | R3 |
| C88 | `C88_derivative_is_unique` | CalculusProps | R3 |
| C88 | `C88_conjugation_is_not_holomorphic` | CalculusProps | R3 |
| C89 | `C89_sqrt_squared` | SqrtTestProps | R4 |
| C89 | `C89_sqrt_test_passes` | SqrtTestProps | R4 |
| C89 | `C89_repo_test` | SqrtTestProps | R4 |
| C89 | `C89_repo_test_f64` | SqrtTestProps | R4 |
| C89 | `C89_tiny_refuted` | SqrtTestProps | R4 |
| C90 | `C90_consistent_verdicts` | DocExampleProps | – |
| C90 | `C90_objective_without_nan` | DocExampleProps | R4 |
| C90 | `C90_doc_call_returns` | DocExampleProps | R4 |
| C90 | `C90_doc_call_never_worse` | DocExampleProps | R4 |
| C90 | `C90_doc_assertions_refuted` | DocExampleProps | R4 |
| C91 | `C91_error_bars` | ErrorBarsProps | R4 |
| C91 | `C91_ring_identities` | ErrorBarsProps | R4 |
| C91 | `C91_commutative_identities` | ErrorBarsProps | R4 |
| C91 | `C91_operations` | ErrorBarsProps | R4 |
| C91 | `C91_scalar_laws` | ErrorBarsProps | R4 |
| C91 | `C91_matrix_associative` | ErrorBarsProps | R4 |
| C91 | `C91_matrix_distributive` | ErrorBarsProps | R4 |
| C92 | `C92_nested_expressions` | TaintProps | R4 |
| C92 | `C92_expressions` | TaintProps | R4 |
| C92 | `C92_eval` | TaintProps | R4 |
| C92 | `C92_static_products` | TaintProps | R4 |
| C92 | `C92_dynamic_products` | TaintProps | R4 |
| C92 | `C92_complex` | TaintProps | R4 |
| C92 | `C92_complex_norms` | TaintProps | R4 |
| C92 | `C92_complex_sqrt` | TaintProps | R4 |
| C92 | `C92_finite_by_infinite_refuted` | TaintProps | R4 |
| C93 | `C93_sinh_test_passes` | TrigTestProps | R4 |
| C93 | `C93_sin_test_passes` | TrigTestProps | R4 |
| C93 | `C93_cos_test_passes` | TrigTestProps | R4 |
| C93 | `C93_cosh_test_passes` | TrigTestProps | R4 |
| C93 | `C93_repo_sin` | TrigTestProps | R4 |
| C93 | `C93_repo_sinh` | TrigTestProps | R4 |
| C93 | `C93_repo_cos` | TrigTestProps | R4 |
| C93 | `C93_repo_cosh` | TrigTestProps | R4 |
| C93 | `C93_repo_tests` | TrigTestProps | R4 |
| C94 | `C94_ln_test_passes` | LnTestProps | R4 |
| C94 | `C94_repo_test` | LnTestProps | R4 |
| C94 | `C94_angle_unchecked_refuted` | LnTestProps | R4 |
| C94 | `C94_zero_sample_refuted` | LnTestProps | R4 |
| C95 | `C95_divide_then_multiply` | ComplexUndoProps | R4 |
| C95 | `C95_multiply_then_divide` | ComplexUndoProps | R4 |
| C95 | `C95_reciprocal_twice` | ComplexUndoProps | R4 |
| C95 | `C95_abs_of_product` | ComplexUndoProps | R4 |
| C95 | `C95_abs_of_quotient` | ComplexUndoProps | R4 |
| C95 | `C95_f32_undo` | ComplexUndoProps | R4 |
| C95 | `C95_f64_undo` | ComplexUndoProps | R4 |
| C96 | `C96_exp_of_ln` | ExpLnProps | R4 |
| C96 | `C96_ln_of_exp` | ExpLnProps | R4 |
| C96 | `C96_exp_of_sum` | ExpLnProps | R4 |
| C96 | `C96_f32` | ExpLnProps | R4 |
| C96 | `C96_f64` | ExpLnProps | R4 |
| C97 | `C97_horner_backward` | ComplexBackwardProps | R4 |
| C97 | `C97_computed_root` | ComplexBackwardProps | R4 |
| C97 | `C97_svector_dot_backward` | ComplexBackwardProps | R4 |
| C97 | `C97_dvector_dot_backward` | ComplexBackwardProps | R4 |
| C97 | `C97_smatrix_vector_backward` | ComplexBackwardProps | R4 |
| C97 | `C97_smatrix_product_backward` | ComplexBackwardProps | R4 |
| C97 | `C97_dmatrix_product_backward` | ComplexBackwardProps | R4 |
| C98 | `C98_add` | NoOverflowProps | R4 |
| C98 | `C98_sub` | NoOverflowProps | R4 |
| C98 | `C98_mul` | NoOverflowProps | R4 |
| C98 | `C98_horner` | NoOverflowProps | R4 |
| C98 | `C98_svector_dot` | NoOverflowProps | R4 |
| C98 | `C98_dvector_dot` | NoOverflowProps | R4 |
| C98 | `C98_smatrix_product` | NoOverflowProps | R4 |
| C98 | `C98_smatrix_vector` | NoOverflowProps | R4 |
| C98 | `C98_dmatrix_product` | NoOverflowProps | R4 |
| C98 | `C98_real_dvector_dot` | NoOverflowProps | R4 |
| C98 | `C98_real_smatrix_product` | NoOverflowProps | R4 |
| C98 | `C98_real_smatrix_vector` | NoOverflowProps | R4 |
| C98 | `C98_real_dmatrix_product` | NoOverflowProps | R4 |
| C98 | `C98_rule_of_thumb` | NoOverflowProps | R3 |
| C98 | `C98_rule_of_thumb_real` | NoOverflowProps | R3 |
| C98 | `C98_f64_matrix` | NoOverflowProps | R4 |
| C98 | `C98_f32_matrix` | NoOverflowProps | R4 |
| C99 | `C99_dot_conjugate_symmetric` | HermitianProps | R4 |
| C99 | `C99_dot_self` | HermitianProps | R4 |
| C99 | `C99_hermitian_of_product` | HermitianProps | R4 |
| C99 | `C99_gram_hermitian` | HermitianProps | R4 |
| C99 | `C99_cogram_hermitian` | HermitianProps | R4 |
| C99 | `C99_real_gram_symmetric` | HermitianProps | R4 |
| C100 | `C100_sign` | CertifyProps | R4 |
| C100 | `C100_no_false_alarm` | CertifyProps | R4 |
| C100 | `C100_root` | CertifyProps | R4 |
| C100 | `C100_all_roots` | CertifyProps | R4 |
| C100 | `C100_dot_sign` | CertifyProps | R4 |
| C101 | `C101_complex_triangle` | ComplexTriangleProps | R4 |
| C101 | `C101_complex_parallelogram` | ComplexTriangleProps | R4 |
| C101 | `C101_dvector_length` | FloatGeometryProps | R4 |
| C101 | `C101_cauchy_schwarz` | FloatGeometryProps | R4 |
| C101 | `C101_distance` | FloatGeometryProps | R4 |
| C101 | `C101_triangle` | FloatGeometryProps | R4 |
| C101 | `C101_complex_distance` | FloatGeometryProps | R4 |
| C102 | `C102_float_reach` | DiffEvoFloatProps | R4 |
| C102 | `C102_level_set` | DiffEvoFloatProps | R2 |
| C102 | `C102_doc_call` | DiffEvoFloatProps | R4 |
| C102 | `C102_stays_finite_refuted` | DiffEvoFloatProps | R4 |
| C103 | `C103_tangent_accuracy` | TanTestProps | R4 |
| C103 | `C103_addition_test` | TanTestProps | R4 |
| C103 | `C103_zero_denominator_refuted` | TanTestProps | R4 |
| C104 | `C104_conjugation` | FloatReflectProps | R4 |
| C104 | `C104_parity` | FloatReflectProps | R4 |
| C104 | `C104_rotation` | FloatReflectProps | R4 |
| C104 | `C104_logarithm` | FloatReflectProps | R4 |
| C104 | `C104_square_root` | FloatReflectProps | R4 |
| C104 | `C104_sqrt_conjugation_refuted` | FloatReflectProps | R4 |
| C104 | `C104_sqrt_against_ln_refuted` | FloatReflectProps | R4 |
| C105 | `C105_modulus_of_exp` | PolarProps | R4 |
| C105 | `C105_exp_times_exp_minus` | PolarProps | R4 |
| C105 | `C105_polar_form` | PolarProps | R4 |
| C105 | `C105_sqrt_is_exp_of_half_ln` | PolarProps | R4 |
| C105 | `C105_sin2_plus_cos2` | PolarProps | R4 |
| C105 | `C105_cosh2_minus_sinh2` | PolarProps | R4 |
| C105 | `C105_f32` | PolarProps | R4 |
| C106 | `C106_sin_cos_of_sum` | AddFunProps | R4 |
| C106 | `C106_sinh_cosh_of_sum` | AddFunProps | R4 |
| C106 | `C106_f32` | AddFunProps | R4 |
| C107 | `C107_eval_condition` | GrowthProps | R4 |
| C107 | `C107_dot_condition` | GrowthProps | R4 |
| C107 | `C107_dynamic_dot_condition` | GrowthProps | R4 |
| C107 | `C107_eval_relative` | GrowthProps | R4 |
| C107 | `C107_dot_relative` | GrowthProps | R4 |
| C107 | `C107_dynamic_dot_relative` | GrowthProps | R4 |
| C107 | `C107_matrix_product_relative` | GrowthProps | R4 |
| C107 | `C107_matrix_vector_relative` | GrowthProps | R4 |
| C107 | `C107_dynamic_product_relative` | GrowthProps | R4 |
| C107 | `C107_eval_growth` | GrowthProps | R4 |
| C107 | `C107_dot_growth` | GrowthProps | R4 |
| C107 | `C107_dynamic_dot_growth` | GrowthProps | R4 |
| C107 | `C107_sign_refuted` | GrowthProps | R4 |
| C108 | `C108_exact_tangent` | TanRangeProps | R4 |
| C108 | `C108_far_nan_refuted` | TanRangeProps | R4 |
| C108 | `C108_tangent_accurate` | TanRangeProps | R4 |
| C108 | `C108_f32` | TanRangeProps | R4 |
| C108 | `C108_f64` | TanRangeProps | R4 |
| C108 | `C108_far_nan_f32_f64_refuted` | TanRangeProps | R4 |
| C108 | `C108_tangent_near_zeros` | TanZeroProps | R4 |
| C108 | `C108_f32_strip` | TanZeroProps | R4 |
| C108 | `C108_f64_strip` | TanZeroProps | R4 |
| C109 | `C109_sqrt_infinite_refuted` | SqrtRangeProps | R4 |
| C109 | `C109_sqrt_nan_refuted` | SqrtRangeProps | R4 |
| C109 | `C109_sqrt_wrong_refuted` | SqrtRangeProps | R4 |
| C109 | `C109_ln_infinite_refuted` | SqrtRangeProps | R4 |
| C109 | `C109_sqrt_f32_f64_refuted` | SqrtRangeProps | R4 |
| C110 | `C110_finite_iff` | ExpRangeProps | R4 |
| C110 | `C110_spurious_overflow_refuted` | ExpRangeProps | R4 |
| C110 | `C110_f32_f64_refuted` | ExpRangeProps | R4 |
| C111 | `C111_square_of_root` | SqrtLawProps | R4 |
| C111 | `C111_root_of_square` | SqrtLawProps | R4 |
| C111 | `C111_root_of_product` | SqrtLawProps | R4 |
| C111 | `C111_root_of_quotient` | SqrtLawProps | R4 |
| C111 | `C111_abs_of_root` | SqrtLawProps | R4 |
| C111 | `C111_f32` | SqrtLawProps | R4 |
| C111 | `C111_f64` | SqrtLawProps | R4 |
| C111 | `C111_sign_needed_refuted` | SqrtLawProps | R4 |
| C112 | `C112_ln_of_product` | LnLawProps | R4 |
| C112 | `C112_ln_of_quotient` | LnLawProps | R4 |
| C112 | `C112_ln_of_root` | LnLawProps | R4 |
| C112 | `C112_negative_axis_refuted` | LnLawProps | R4 |
| C112 | `C112_arg_laws` | LnLawProps | R4 |
| C112 | `C112_f32` | LnLawProps | R4 |
| C112 | `C112_f64` | LnLawProps | R4 |

## 4. What is modelled, and what is not

Modelled, every function (apart from `#[test]` functions and documentation):

| source | model |
|--------|-------|
| `src/algebra/ring.rs`, `field.rs`, `conj.rs`, `ops_with_ref.rs` | `Model/Traits.v` (records of operations; the blanket `*_with_ref` methods are folded into the record fields), `Model/Int.v`, `Model/Float.v`, `Model/RealInstance.v` (instances) |
| `src/algebra/polynomial.rs` | `Model/Polynomial.v`, `Model/Unwind.v` |
| `src/algebra/complex.rs` | `Model/Complex.v`, `Model/Unwind.v` |
| `src/functions/*.rs` | the traits are the fields of `FunOps` in `Model/Traits.v`; the `f32`/`f64` implementations only forward to `std` and are interpreted by the exact real functions (`Model/RealInstance.v`) or, for `sqrt` and `abs`, by the correctly rounded IEEE operations (`Model/Float.v`) |
| `src/linalg/svector.rs`, `smatrix.rs` | `Model/SVector.v`, `Model/SMatrix.v` (on `Base/Array.v`), `Model/Unwind.v` |
| `src/linalg/dvector.rs`, `dmatrix.rs` | `Model/DVector.v`, `Model/DMatrix.v`; expression trees in `Model/DExpr.v` |
| `src/optimize/differential_evolution.rs` | `Model/DiffEvo.v` |
| `src/optimize/test_functions.rs` | `Model/Ackley.v` |

Simplifications (each is also stated at the definition concerned):

* Values are immutable; moves, clones, borrows and lifetimes disappear.  Cloning is the identity
  (`Clone` of an element type is assumed to return an equal value); user-supplied `Clone`, `Drop` and
  closures have no side effects apart from panicking, except in the optimiser, whose generator and
  comparator thread a state.
* Panics carry only a reason; messages and unwinding details are dropped.  The state of `self` after a
  panic is modelled for the compound assignments (C29, C62) and nowhere else.
* `usize` has any number of bits (`target` in Base/Usize.v: width and overflow mode; every theorem about dynamic containers quantifies over it).  Lengths of vectors are natural numbers; `DVector`/`DMatrix` indices and the flat
  offset computation use arithmetic of that width in debug (panicking) and release (wrapping) mode.
* Loops without a bound (rejection sampling in `optimize`) take a fuel argument; `Diverge` means that the
  fuel ran out, and the theorems quantify over all fuels.
* `rand`: `gen_range(0..n)` and the uniform `f32` are oracles; theorems state the contract they
  need (e.g. results below `n`).

Not modelled / not expressible:

* Running time, memory consumption, allocation failure, capacity (`reserve`).
* Rust's type, trait and borrow checking; `Debug` output; serialization (none in the crate).
* Accuracy of `libm`'s `sin`, `exp`, ... (not specified by IEEE 754): it is a hypothesis of C71, C74, C93, C94,
  C96, C102, C103 and C105 (C104 assumes parities only), everywhere else the elementary functions are modelled over the reals or left arbitrary; NaN payloads and signs of NaN.
* The optimiser's rate of convergence.  Everything is per random stream, except C76, which counts streams of
  ideal random numbers (termination with probability 1, distribution of donors and crossover).

Model validation: the repository's own unit tests and doc examples are transcribed and run in the model
(`Tests/RepoTests.v`, with i32/i8/f32/f64 elements as in the tests; all pass).  Left out: tests that call
`libm`, tests with random inputs (those of `Complex::sqrt`, `sin`, `cos`, `sinh`, `cosh`, `tan` and `ln` are proved for all
inputs instead, with the exceptions stated there: C89, C93, C94, C103) and the optimiser's test (C90).  These are tests of the model, not proofs of any property.

## 5. Findings (claims a user would expect that are false of the code)

| finding | theorem |
|---------|---------|
| `p - p == Polynomial::zero()` is false for every non-empty `p`: trailing zeros are kept | `C07_additive_inverse_refuted` |
| evaluation is not multiplicative over non-commutative rings | `C05_product_law_needs_commutation_refuted` |
| `Complex<Complex<F>>` implements `Field` but has zero divisors | `C11_nested_complex_refuted` |
| `DVector +=`/`-=` truncate a longer right-hand side silently and panic after a partial update for a shorter one; `DMatrix +=`/`-=` accept other shapes | `C29_mismatched_shapes_rejected_refuted` |
| `a[[r, c]]` with `c >= num_cols` reads or writes another row; release builds wrap huge rows | `C31_out_of_range_rejected_refuted` |
| the `DMatrix` product with inner dimension 0 panics, the `SMatrix` product returns zeros | `C34_agrees_with_smatrix_refuted` |
| the `DVector` inner product ignores the tail of the longer vector | `C35_unequal_lengths_rejected_refuted` |
| a generator stuck on one value makes `optimize` loop forever | `C42_stuck_generator_refuted` |
| the result of `optimize` can lie outside the given bounds | `C43_bounds_respected_refuted` |
| a point with NaN objective can win | `C45_nan_wins_refuted` |
| `p - q` panics on `MIN` coefficients where `p -= &q` returns the representable difference | `C49_sub_forms_agree_refuted` |
| `abs`, `/`, `sqrt` of `Complex<f64>` overflow/underflow although the result is representable | `C54_*_refuted` |
| over wrapping integers different polynomials (`MIN*x`, `MIN*x^2`) agree everywhere | `C61_wrapping_identity_refuted` |
| `p * q == q * p` fails over `f64` (the accumulation order differs) | `C64_multiplication_commutes_refuted` |
| evaluating any non-empty `Polynomial<f64>` at an infinity is NaN, even a constant (`c + 0*inf`) | `C65_eval_at_infinity_refuted` |
| `z * Complex::one() != z` for every `z` with a non-finite part | `C65_infinity_times_one_refuted` |
| SMatrix and DMatrix products of the same floats differ in the sign of zeros | `C67_bit_for_bit_refuted` |
| `Complex<f64>::sqrt` ignores the sign of a zero imaginary part: sqrt(-4-0i) = +2i | `C72_negative_zero_refuted` |
| `Complex<f64>` division does not satisfy z / z = 1: 7 / 7 is below 1 | `C73_self_quotient_one_refuted` |
| the real part of `Complex<f64>::ln` is 0 at 1 + 2^-40 i (no relative accuracy near the unit circle) | `C74_ln_relative_refuted` |
| `e.t().eval()` is not the transpose of `e.eval()` for a stateful closure (calls follow the outermost expression) | `C75_lazy_transpose_refuted` |
| `Complex<f64>::exp` of a real number whose exponential overflows has imaginary part NaN (inf * 0) | `C81_exp_overflow_refuted` |
| evaluating a composed polynomial p(q) at x differs from p(q(x)) when the elements do not commute (matrices) | `C86_composition_everywhere_refuted` |
| the tolerance of the crate's own `sqrt` test does not hold for tiny arguments (around 2^-140 in f32) | `C89_tiny_refuted` |
| the assertions of the optimizer's doc example and test do not hold for every random stream: a fair generator can make it return (3, 3) | `C90_doc_assertions_refuted` |
| a finite complex number divided by an infinite one is NaN in both parts, not 0 | `C92_finite_by_infinite_refuted` |
| test_ln_complex_f32 fails when one of its samples is exactly 0 (ln 0 - ln 0 is NaN) | `C94_zero_sample_refuted` |
| test_ln_complex_f32 hardly checks the imaginary part (8 PI instead of 8 EPSILON): it passes for all samples with a libm whose atan2 is constantly 0 | `C94_angle_unchecked_refuted` |
| With finite bounds and weight an f32/f64 run can return infinity and show NaN to the comparator (a + (b - c) * w overflows; nothing is clipped) | `C102_stays_finite_refuted` |
| The randomized test of the complex tangent can fail for any tolerance factor: for some pairs `1 - tan a * tan b` is computed as 0 away from a pole and `expected` is NaN | `C103_zero_denominator_refuted` |
| The complex square root ignores the sign of a zero imaginary part: sqrt(conj z) = conj(sqrt z) fails on the negative real axis | `C104_sqrt_conjugation_refuted` |
| At -4 - 0i the complex square root and the complex logarithm take opposite sides of their common cut, so sqrt z is not exp(ln(z)/2) there | `C104_sqrt_against_ln_refuted` |
| The sign of a float `eval` or `dot` need not be the sign of the exact value: x^3 + u x^2 - x - u/2 at 1 gives -u/2 instead of u/2 | `C107_sign_refuted` |
| The complex tangent of every f32 (f64) number with abs(Im z) at least 46 (356) has imaginary part NaN although tan z is i or -i up to rounding | `C108_far_nan_f32_f64_refuted` |
| Complex square root is NaN at small arguments such as 2^-600 (1 + i) (f64), wrong by a factor of about sqrt 2 where the real part dominates, infinite at large ones | `C109_sqrt_nan_refuted` |
| The real part of the complex logarithm is infinite for large and for small arguments (components beyond 2^512 or below 2^-538 in f64) | `C109_ln_infinite_refuted` |
| Complex exp, sin, cos, sinh, cosh overflow to infinities in both components although both exact components are representable (f32: Re z between 88.73 and 88.92 near the diagonal directions) | `C110_spurious_overflow_refuted` |
| `Complex<f64>::sqrt(1 + 2^-1074 i)` has imaginary part 0: the root does not keep the half plane when a component is tiny | `C72_sqrt_tiny_component_refuted` |
| sqrt(zw) = sqrt z sqrt w and sqrt(z^2) = z fail for floats as for the reals: sqrt((-4)(-4)) = 4, sqrt(-4) sqrt(-4) = -4 | `C111_sign_needed_refuted` |
| ln(sqrt z) is not ln(z)/2 for negative z with imaginary part minus zero, e.g. conj(-1): the root ignores the sign of the zero, atan2 does not | `C112_negative_axis_refuted` |

## 6. Mutation testing

`seeded/LOG.jsonl` records each attempt: the model definition edited, the edit, the claim it breaks, the
theorems that failed to prove on the edited model, and the theorems tightened because of it.
