{"id": "C01", "title": "Polynomial evaluation is the power sum", "statement": "For coefficients a_0..a_{n-1} over any ring T (commutative or not), Polynomial::from_coefficients(a).eval(x) and .eval_ref(&x) terminate without panicking and return a_0 + a_1*x + ... + a_{n-1}*x^(n-1); the empty polynomial evaluates to zero.", "quantifier": "every ring T, every coefficient vector of every length, every x", "why_tests_cant": "Unbounded coefficient lists over an arbitrary user-supplied ring; tests only try three-term integer polynomials.", "anchors": ["src/algebra/polynomial.rs: Polynomial::eval_ref", "src/algebra/polynomial.rs: Polynomial::eval", "src/algebra/polynomial.rs: Polynomial::from_coefficients"]}
{"id": "C02", "title": "Every form of polynomial addition adds coefficientwise", "statement": "p + q, p += q and p += &q never panic over a ring and all produce the polynomial whose k-th coefficient is p_k + q_k (missing coefficients count as zero) and whose coefficient vector has length max(len p, len q); the three forms agree with each other whatever the two lengths are.", "quantifier": "every ring T, all pairs of coefficient vectors of all (unequal) lengths", "why_tests_cant": "The three implementations have different loops and length branches (operand swap, push, resize); the repo's tests only use equal lengths.", "anchors": ["src/algebra/polynomial.rs: Add::add", "src/algebra/polynomial.rs: AddAssign::add_assign", "src/algebra/polynomial.rs: AddAssign<&Polynomial>::add_assign"]}
{"id": "C03", "title": "Every form of polynomial subtraction subtracts coefficientwise", "statement": "p - q, p -= q, p -= &q never panic over a ring and all produce the polynomial with k-th coefficient p_k - q_k and length max(len p, len q); -p negates every coefficient and keeps the length.", "quantifier": "every ring T, all pairs of coefficient vectors of all lengths", "why_tests_cant": "Unequal lengths and arbitrary rings; the value forms go through negation and operand swap, the reference form through zero padding.", "anchors": ["src/algebra/polynomial.rs: Sub::sub", "src/algebra/polynomial.rs: SubAssign::sub_assign", "src/algebra/polynomial.rs: SubAssign<&Polynomial>::sub_assign", "src/algebra/polynomial.rs: Neg::neg"]}
{"id": "C04", "title": "Polynomial multiplication is the convolution", "statement": "p * q, &p * &q and p *= q never panic (no index i+j leaves the buffer) and give the polynomial whose k-th coefficient is the sum over i+j=k of p_i*q_j (factors in this order) with length len p + len q - 1, or the empty polynomial if either operand is empty.", "quantifier": "every ring T (also non-commutative), all pairs of coefficient vectors", "why_tests_cant": "Index arithmetic of the double loop must be safe for every pair of lengths; operand order only matters over non-commutative rings which tests do not use.", "anchors": ["src/algebra/polynomial.rs: Mul for &Polynomial", "src/algebra/polynomial.rs: Mul for Polynomial", "src/algebra/polynomial.rs: MulAssign for Polynomial"]}
{"id": "C05", "title": "Evaluation is a ring homomorphism", "statement": "(p+q)(x) = p(x)+q(x), (p-q)(x) = p(x)-q(x), (-p)(x) = -p(x), zero()(x)=0, one()(x)=1 over every ring, and (p*q)(x) = p(x)*q(x) whenever x commutes with the coefficients of q (in particular over commutative rings). Without that commutation the product law fails.", "quantifier": "every ring T, all p, q, x", "why_tests_cant": "An algebraic law over all polynomials and all rings.", "anchors": ["src/algebra/polynomial.rs: Polynomial::eval_ref", "src/algebra/polynomial.rs: Mul", "src/algebra/polynomial.rs: Add", "src/algebra/polynomial.rs: Sub", "src/algebra/polynomial.rs: Zero", "src/algebra/polynomial.rs: One"]}
{"id": "C06", "title": "Polynomial<T> obeys the ring laws promised by the Ring trait", "statement": "If T is a ring then Polynomial<T> with +=, -=, *, unary -, zero(), one() satisfies all ring laws (abelian group, monoid, both distributive laws), where two polynomials count as equal when their coefficient sequences agree up to trailing zeros; if T is commutative so is Polynomial<T>.", "quantifier": "every ring T, all triples of polynomials", "why_tests_cant": "Universally quantified algebraic laws; convolution associativity is not testable exhaustively.", "anchors": ["src/algebra/polynomial.rs: impl Ring for Polynomial", "src/algebra/ring.rs: Ring"]}
{"id": "C07", "title": "The == operator on polynomials against the ring laws", "statement": "p == q (derived PartialEq) implies that p and q are the same polynomial; the converse fails: the Ring trait's additive-inverse law p - p == zero() is false under == for every non-empty p, because trailing zeros are kept. All other ring laws hold for the coefficient vectors literally, including lengths.", "quantifier": "every ring T, all polynomials", "why_tests_cant": "A test cannot show that a law fails for every non-empty polynomial or that the remaining laws hold exactly.", "anchors": ["src/algebra/polynomial.rs: derive(PartialEq) for Polynomial", "src/algebra/polynomial.rs: SubAssign", "src/algebra/polynomial.rs: Zero"]}
{"id": "C08", "title": "Complex<T> is a ring over any ring", "statement": "If T is a ring (also non-commutative), Complex<T> satisfies every ring law with +=, -=, *, -, zero(), one(), never panics, i*i = -1 where i = Complex::new(0,1), and is commutative if T is. Value, reference and assigning forms of +, -, * give the same result.", "quantifier": "every ring T, all triples of complex numbers", "why_tests_cant": "Algebraic laws over all rings and values.", "anchors": ["src/algebra/complex.rs: Mul for &Complex", "src/algebra/complex.rs: Mul for Complex", "src/algebra/complex.rs: MulAssign", "src/algebra/complex.rs: Add", "src/algebra/complex.rs: AddAssign", "src/algebra/complex.rs: Sub", "src/algebra/complex.rs: SubAssign", "src/algebra/complex.rs: Neg", "src/algebra/complex.rs: impl Ring for Complex"]}
{"id": "C09", "title": "Conjugation and squared norm", "statement": "conj is an involutive ring automorphism; over commutative T, z * z.conj() = Complex::new(z.sqr_norm(), 0) and sqr_norm(z*w) = sqr_norm(z)*sqr_norm(w); z + conj z and z - conj z are purely real and purely imaginary; scalar multiplication z * t multiplies both parts.", "quantifier": "every (commutative) ring T, all z, w", "why_tests_cant": "Algebraic laws over all rings and values.", "anchors": ["src/algebra/complex.rs: Conj for Complex", "src/algebra/complex.rs: Complex::sqr_norm", "src/algebra/complex.rs: Mul<T> for Complex"]}
{"id": "C10", "title": "Complex division inverts multiplication", "statement": "Over a field T, if sqr_norm(w) is not zero then (z / w) * w = z and (z * w) / w = z, w / w = 1; value and reference forms agree; dividing by a scalar t != 0 equals dividing by Complex::new(t, 0).", "quantifier": "every field T, all z, w with sqr_norm(w) != 0", "why_tests_cant": "Algebraic law over all fields and values.", "anchors": ["src/algebra/complex.rs: Div for &Complex", "src/algebra/complex.rs: Div for Complex", "src/algebra/complex.rs: Div<&T>", "src/algebra/complex.rs: Div<T>"]}
{"id": "C11", "title": "When Complex<T> really is a Field", "statement": "If -1 is not a sum making x*x+y*y=0 with (x,y) != (0,0) in T (e.g. the reals), every non-zero Complex<T> has an inverse under /, so Complex<T> is a field. For T = Complex<F> over any field F this fails: Complex<Complex<F>> has a non-zero element with zero sqr_norm which is a zero divisor, although the code implements Field for it.", "quantifier": "every field T / every field F", "why_tests_cant": "Needs a for-all argument over elements and a generic counterexample.", "anchors": ["src/algebra/complex.rs: impl Field for Complex", "src/algebra/field.rs: Field"]}
{"id": "C12", "title": "Absolute value is a multiplicative norm", "statement": "In real arithmetic abs(z) >= 0, abs(z) = 0 iff z = 0, abs(z*w) = abs(z)*abs(w), abs(z+w) <= abs(z)+abs(w), abs(conj z) = abs(z); both Abs impls (by value and by reference) agree.", "quantifier": "all complex numbers over the reals", "why_tests_cant": "Inequalities over a continuum of values.", "anchors": ["src/algebra/complex.rs: Abs for Complex", "src/algebra/complex.rs: Abs for &Complex", "src/algebra/complex.rs: sqr_norm"]}
{"id": "C13", "title": "Complex exponential", "statement": "In real arithmetic exp(z+w) = exp(z)*exp(w), exp(0)=1, exp(z) is never 0, exp(conj z) = conj(exp z), abs(exp z) = e^(re z), exp(z + 2 pi i) = exp z, and exp agrees with the real exponential on real inputs.", "quantifier": "all complex numbers over the reals", "why_tests_cant": "Functional equation over a continuum.", "anchors": ["src/algebra/complex.rs: Exp for Complex"]}
{"id": "C14", "title": "Complex logarithm is the principal logarithm", "statement": "In real arithmetic, for z != 0: exp(ln z) = z and -pi < im(ln z) <= pi; for -pi < im z <= pi: ln(exp z) = z; ln is the unique such inverse.", "quantifier": "all non-zero complex numbers over the reals", "why_tests_cant": "Branch choice must be right in every quadrant and on every axis.", "anchors": ["src/algebra/complex.rs: Ln for Complex", "src/functions/atan2.rs: Atan2", "src/functions/log.rs: Ln"]}
{"id": "C15", "title": "Complex square root is the principal root", "statement": "In real arithmetic, for every z: sqrt(z)*sqrt(z) = z, re(sqrt z) >= 0, and on re(sqrt z)=0 the imaginary part is >= 0 (principal branch); hence it is the unique principal root. The numerically stable branch and the plain branch compute the same value, and no division by zero happens on any input.", "quantifier": "all complex numbers over the reals", "why_tests_cant": "Three-way branching on a continuum including the axes and zero.", "anchors": ["src/algebra/complex.rs: Sqrt for Complex"]}
{"id": "C16", "title": "Complex sine, cosine, hyperbolic functions", "statement": "In real arithmetic sin z = (e^{iz}-e^{-iz})/(2i), cos z = (e^{iz}+e^{-iz})/2, sinh z = (e^z-e^{-z})/2, cosh z = (e^z+e^{-z})/2; hence sin^2+cos^2=1, cosh^2-sinh^2=1, the addition theorems, and e^{iz} = cos z + i sin z.", "quantifier": "all complex numbers over the reals", "why_tests_cant": "Identities over a continuum.", "anchors": ["src/algebra/complex.rs: Sin for Complex", "src/algebra/complex.rs: Cos for Complex", "src/algebra/complex.rs: Sinh for Complex", "src/algebra/complex.rs: Cosh for Complex"]}
{"id": "C17", "title": "Complex tangent", "statement": "In real arithmetic, where cos z != 0, tan z * cos z = sin z; and tan(z+w)*(1 - tan z tan w) = tan z + tan w whenever cos z, cos w, cos(z+w) are non-zero.", "quantifier": "all complex numbers over the reals with the stated non-vanishing", "why_tests_cant": "Identity over a continuum with poles.", "anchors": ["src/algebra/complex.rs: Tan for Complex"]}
{"id": "C18", "title": "Argument and polar form", "statement": "In real arithmetic arg(z) lies in [-pi, pi] (in (-pi, pi] over the reals) and z = abs(z)*(cos(arg z) + i sin(arg z)) for all z.", "quantifier": "all complex numbers over the reals", "why_tests_cant": "All quadrants and axes.", "anchors": ["src/algebra/complex.rs: Complex::arg", "src/functions/atan2.rs: Atan2"]}
{"id": "C19", "title": "SVector is a module over T in every dimension", "statement": "For every DIM, + - += -= (value and reference) are entrywise, zero() is neutral, * by a scalar (value, reference, in place) multiplies each entry from the right; the module laws hold (distributivity both ways, (u*s)*t = u*(s*t), u*1 = u); no form panics.", "quantifier": "every ring T, every DIM (also 0), all vectors and scalars", "why_tests_cant": "Universally quantified over dimensions and rings.", "anchors": ["src/linalg/svector.rs: Add, Sub, AddAssign, SubAssign, Mul<T>, Mul<&T>, MulAssign<T>, MulAssign<&T>, Zero"]}
{"id": "C20", "title": "SVector dot product", "statement": "u * v (value and reference forms) is the sum of u_i*v_i over all i, biadditive, zero for DIM = 0, and symmetric when T is commutative; over the reals u*u >= 0 with equality only for the zero vector.", "quantifier": "every ring T, every DIM, all vectors", "why_tests_cant": "Universally quantified over dimensions and rings.", "anchors": ["src/linalg/svector.rs: Mul<Self>, Mul<&Self> for SVector"]}
{"id": "C21", "title": "SVector/DVector indexing", "statement": "v[i] panics exactly when i >= len; after v[i] = x, v[i] is x and every other entry and the length are unchanged; iteration visits all entries in index order.", "quantifier": "all vectors, all indices, any sequence of writes", "why_tests_cant": "All indices and histories of writes.", "anchors": ["src/linalg/svector.rs: Index, IndexMut, IntoIterator", "src/linalg/dvector.rs: Index, IndexMut for DVector"]}
{"id": "C22", "title": "Square SMatrix is a ring in every dimension", "statement": "For every N (also 0) SMatrix<T,N,N> satisfies all ring laws with +=, -=, *, -, zero(), one() when T is a ring; no index panics.", "quantifier": "every ring T, every N, all triples of matrices", "why_tests_cant": "Universally quantified over dimensions, rings and matrices.", "anchors": ["src/linalg/smatrix.rs: impl Ring for SMatrix", "src/linalg/smatrix.rs: Mul for &SMatrix", "src/linalg/smatrix.rs: One", "src/linalg/smatrix.rs: Zero", "src/linalg/smatrix.rs: Neg"]}
{"id": "C23", "title": "Rectangular SMatrix product", "statement": "For A: LxM and B: MxN, entry (l,n) of &A * &B and A * B is the sum over m of A[l][m]*B[m][n]; the product is associative across shapes, distributes over + and -, one() is neutral on both sides also for rectangular operands, and A *= B equals A * B (value and reference).", "quantifier": "all dimensions L, M, N, K, every ring T, all matrices", "why_tests_cant": "Shape-generic laws.", "anchors": ["src/linalg/smatrix.rs: Mul for &SMatrix", "src/linalg/smatrix.rs: Mul for SMatrix", "src/linalg/smatrix.rs: MulAssign", "src/linalg/smatrix.rs: One"]}
{"id": "C24", "title": "SMatrix times SVector", "statement": "&A * &v has i-th entry sum_j A[i][j]*v[j]; it is additive in both arguments, (A*B)*v = A*(B*v), one()*v = v.", "quantifier": "all dimensions, every ring T, all matrices and vectors", "why_tests_cant": "Shape-generic laws.", "anchors": ["src/linalg/smatrix.rs: Mul<&SVector> for &SMatrix"]}
{"id": "C25", "title": "SMatrix conjugation and entrywise operations", "statement": "+, -, unary - and conj act entrywise; conj is involutive and additive, and (for a conjugation that is a ring automorphism) conj(A*B) = conj(A)*conj(B).", "quantifier": "all dimensions, every ring T with conjugation, all matrices", "why_tests_cant": "Shape-generic laws.", "anchors": ["src/linalg/smatrix.rs: Conj, Add, Sub, Neg for SMatrix"]}
{"id": "C26", "title": "Every dynamic vector/matrix expression evaluates to its mathematical meaning", "statement": "For every expression built from arrays, DVector/DMatrix values, make_vector_expr/make_matrix_expr, zeros/ones/same/eye, map, zip-based elementwise * and /, +, -, conj, t, h, diag: construction succeeds exactly when all operand shapes match, and eval() then yields the DVector/DMatrix with the mathematically expected shape whose (r,c) entry is the pointwise meaning of the expression.", "quantifier": "all finite expression trees, all shapes, all element values; every width of usize, with and without overflow checks", "why_tests_cant": "Unbounded nesting of lazy expressions.", "anchors": ["src/linalg/dvector.rs: VectorExpr, VectorExprWrapper", "src/linalg/dmatrix.rs: MatrixExpr, MatrixExprWrapper, make_matrix_expr", "src/linalg/dvector.rs: make_vector_expr"]}
{"id": "C27", "title": "Shape checks of the non-assigning operators", "statement": "+, -, zip, mul_elemwise and div_elemwise on dynamic expressions panic exactly when the operand shapes differ, already when the expression is built and before any entry is computed; & * & on DMatrix panics exactly when lhs.num_cols() != rhs.num_rows().", "quantifier": "all pairs of expressions of all shapes", "why_tests_cant": "All shape pairs.", "anchors": ["src/linalg/dvector.rs: Add, Sub, zip", "src/linalg/dmatrix.rs: Add, Sub, zip, Mul for &DMatrix"]}
{"id": "C28", "title": "Compound assignment on DVector/DMatrix with equal shapes", "statement": "With equal shapes a += e and a -= e leave in a exactly the value of (&a + e).eval() / (&a - e).eval() and keep the shape.", "quantifier": "all shapes, all right-hand expressions; every width of usize, with and without overflow checks", "why_tests_cant": "All shapes and expressions.", "anchors": ["src/linalg/dvector.rs: AddAssign, SubAssign for DVector", "src/linalg/dmatrix.rs: AddAssign, SubAssign for DMatrix"]}
{"id": "C29", "title": "Compound assignment with mismatched shapes is not rejected", "statement": "a += e / a -= e should panic when shapes differ, as + and - do. In the code it does not: a longer DVector right-hand side is silently truncated, a shorter one panics only after the common prefix of a was already modified, and a DMatrix right-hand side of different shape can be added silently in a permuted/reshaped way.", "quantifier": "all pairs of shapes; every width of usize, with and without overflow checks", "why_tests_cant": "Requires all shape pairs and the state left behind at the panic point.", "anchors": ["src/linalg/dvector.rs: AddAssign, SubAssign for DVector", "src/linalg/dmatrix.rs: AddAssign, SubAssign for DMatrix"]}
{"id": "C30", "title": "DMatrix indexing is a faithful row-major store", "statement": "For in-range [r,c] reads return the entry given by eval, distinct in-range positions never alias, a write changes exactly that entry, the shape and storage-size invariant (data length = rows*cols) holds after any history of evals, writes and compound assignments.", "quantifier": "all shapes, all in-range index pairs, any operation history; every width of usize, with and without overflow checks", "why_tests_cant": "All shapes and histories.", "anchors": ["src/linalg/dmatrix.rs: Index, IndexMut, MatrixExpr for DMatrix, MatrixExpr::eval"]}
{"id": "C31", "title": "Out-of-range DMatrix indices are not always rejected", "statement": "a[[r,c]] / entry(r,c) should panic when r >= num_rows or c >= num_cols. In the code it panics exactly when r*num_cols + c is not a valid flat offset: a too large column silently reads or writes another row, and in release builds a huge row index can wrap around to a valid offset.", "quantifier": "all shapes, all index pairs, both overflow-check modes; every width of usize, with and without overflow checks", "why_tests_cant": "All index pairs, including those near 2^64.", "anchors": ["src/linalg/dmatrix.rs: Index, IndexMut, MatrixExpr::entry for DMatrix"]}
{"id": "C32", "title": "Transpose and Hermitian transpose", "statement": "t() swaps rows and columns and is involutive; h() is t() followed by entrywise conj and is involutive; (A*B).t() = B.t()*A.t() over commutative rings and (A*B).h() = B.h()*A.h() for a conjugation respecting + and *; t and h distribute over + and -.", "quantifier": "all shapes, all matrices; every width of usize, with and without overflow checks", "why_tests_cant": "All shapes.", "anchors": ["src/linalg/dmatrix.rs: MatrixExprWrapper::t, MatrixExprWrapper::h, DMatrix::t, DMatrix::h"]}
{"id": "C33", "title": "DMatrix product", "statement": "For inner dimension >= 1, (&A * &B).eval() is the L x N matrix with entries sum_m A[l,m]*B[m,n] (summed left to right); it is associative, distributive, and eye(n) is neutral; it coincides with the SMatrix product of the same entries.", "quantifier": "all shapes with inner dimension >= 1, every ring T; every width of usize, with and without overflow checks", "why_tests_cant": "Shape-generic laws.", "anchors": ["src/linalg/dmatrix.rs: MulDMatrix::entry, Mul for &DMatrix, DMatrix::eye"]}
{"id": "C34", "title": "DMatrix product with inner dimension zero panics", "statement": "Mathematically the product of an L x 0 and a 0 x N matrix is the L x N zero matrix (SMatrix returns that). In the code evaluating it panics with an index error whenever L,N >= 1.", "quantifier": "all L, N >= 1; every width of usize, with and without overflow checks", "why_tests_cant": "A for-all statement about degenerate shapes.", "anchors": ["src/linalg/dmatrix.rs: MulDMatrix::entry"]}
{"id": "C35", "title": "DVector inner product", "statement": "For equal lengths &u * &v is the sum of conj(u_i)*v_i: additive in both arguments, conjugate-symmetric, and over complex reals u*u is real, >= 0 and 0 only for u = 0. For unequal lengths it does not panic but silently ignores the tail of the longer vector. v.conj() conjugates every entry exactly once, in order.", "quantifier": "all lengths, all vectors", "why_tests_cant": "All lengths; sesquilinearity laws.", "anchors": ["src/linalg/dvector.rs: Mul for DVector, Mul for &DVector"]}
{"id": "C36", "title": "diag, eye, zeros, ones, same", "statement": "v.diag() is the square matrix with v on the diagonal and zero elsewhere; m.diag() has length min(rows, cols) and entries m[i,i]; v.diag().diag() = v; eye(n) = ones(n).diag(); zeros/ones/same have the requested shape and constant entries.", "quantifier": "all shapes; every width of usize, with and without overflow checks", "why_tests_cant": "All shapes.", "anchors": ["src/linalg/dvector.rs: VectorExprWrapper::diag, DVector::diag, zeros, ones, same", "src/linalg/dmatrix.rs: MatrixExprWrapper::diag, DMatrix::eye, zeros, ones, same"]}
{"id": "C37", "title": "Lazy and eager evaluation agree", "statement": "Evaluating any subexpression early (replacing e by e.eval() or a reference to it) changes neither the shape nor the value of the surrounding expression, and eval on already evaluated objects is the identity (all eval overrides agree with the default row-major evaluation).", "quantifier": "all expression trees and contexts; every width of usize, with and without overflow checks", "why_tests_cant": "Unbounded expression contexts.", "anchors": ["src/linalg/dvector.rs: VectorExpr::eval and overrides", "src/linalg/dmatrix.rs: MatrixExpr::eval and overrides"]}
{"id": "C38", "title": "Differential evolution returns a best member of its final population", "statement": "For a comparator that is a strict weak order ('lhs better than rhs'), the returned point is a member of the population after the greedy phase and no member is better than it; the knockout loop never loses a candidate for odd or even sizes and never indexes out of range.", "quantifier": "all population sizes >= 4, all populations, all comparators that are strict weak orders", "why_tests_cant": "All population sizes (odd halving path) and all orders.", "anchors": ["src/optimize/differential_evolution.rs: optimize (knockout stage)"]}
{"id": "C39", "title": "Differential evolution never gets worse", "statement": "For a strict weak order comparator each population slot is only ever replaced by a better candidate, so the returned point is not worse than any initial candidate nor than any candidate that was ever accepted; more iterations with the same random stream never give a worse answer in any slot.", "quantifier": "all RNG streams, all iteration counts, all comparators that are strict weak orders", "why_tests_cant": "Every random history.", "anchors": ["src/optimize/differential_evolution.rs: optimize (greedy stage)"]}
{"id": "C40", "title": "Differential evolution argument validation", "statement": "optimize panics before drawing any random number or calling the comparator iff population_size < 4, or crossover_probability is not in [0,1] (including NaN), or differential_weight is not in [0,2]; with valid arguments, non-empty bounds (lo < hi) and N >= 1 it never panics.", "quantifier": "all argument combinations", "why_tests_cant": "All argument values and RNG streams.", "anchors": ["src/optimize/differential_evolution.rs: optimize (asserts), gen_range"]}
{"id": "C41", "title": "Donor indices are distinct and in range", "statement": "In every iteration the three donor indices and the target index are pairwise distinct and below the population size, the target index cycles 0,1,..,size-1,0,...; each trial takes at least one coordinate from the donor combination x_j + (x_k - x_l)*w, all of them when crossover_probability = 1 and exactly one when it is 0.", "quantifier": "all RNG streams and iterations", "why_tests_cant": "Every random history.", "anchors": ["src/optimize/differential_evolution.rs: optimize (index selection, candidate generation)"]}
{"id": "C42", "title": "Differential evolution termination", "statement": "If the RNG is fair (each index keeps coming up) the run terminates; population_size >= 4 is exactly what makes the third rejection loop able to succeed. With a constant RNG (e.g. a mock StepRng with step 0) one of the rejection loops never ends.", "quantifier": "all RNG streams", "why_tests_cant": "Termination for all streams.", "anchors": ["src/optimize/differential_evolution.rs: optimize (rejection loops)"]}
{"id": "C43", "title": "The result can leave the bounds", "statement": "A user would expect the returned point to satisfy the given bounds. The code only guarantees this for num_iters = 0: trial points are not clipped, and there are bounds, RNG streams and objectives for which the result lies outside.", "quantifier": "all bounds, RNG streams, objectives", "why_tests_cant": "Needs adversarial streams.", "anchors": ["src/optimize/differential_evolution.rs: optimize (candidate generation)"]}
{"id": "C44", "title": "Number of comparator calls", "statement": "A run with valid arguments calls compare_candidates exactly num_iters + population_size - 1 times.", "quantifier": "all population sizes, iteration counts, RNG streams, (stateful) comparators", "why_tests_cant": "All sizes and histories.", "anchors": ["src/optimize/differential_evolution.rs: optimize"]}
{"id": "C45", "title": "NaN objective values can win", "statement": "With the documented comparator |l,r| f(l) < f(r), where f may return NaN, the result should not be a NaN point if some population member has a finite objective. The code can return a NaN point: an incumbent with NaN objective is never replaced.", "quantifier": "all objectives returning NaN somewhere", "why_tests_cant": "Needs adversarial objective and population.", "anchors": ["src/optimize/differential_evolution.rs: optimize (greedy and knockout stage)"]}
{"id": "C46", "title": "Ackley function", "statement": "In real arithmetic (with exact e and pi) ackley(x,y) >= 0 with equality exactly at (0,0); it is even in each argument and symmetric under exchange; it is bounded by 20 + e - 1/e.", "quantifier": "all real x, y", "why_tests_cant": "Global minimum over a continuum.", "anchors": ["src/optimize/test_functions.rs: ackley"]}
{"id": "C47", "title": "Fixed-width integers: overflow-checked results are exact", "statement": "With T = i8..i128/isize in a build with overflow checks, if polynomial evaluation/addition/subtraction/multiplication, complex ring operations, dot products or matrix products return at all, the result is the exact integer result.", "quantifier": "all widths, all inputs", "why_tests_cant": "2^w-sized input spaces and unbounded lengths.", "anchors": ["src/algebra/ring.rs: impl Ring for i8..isize", "src/algebra/polynomial.rs", "src/algebra/complex.rs", "src/linalg/smatrix.rs"]}
{"id": "C48", "title": "Fixed-width integers: wrapping results are exact modulo 2^w", "statement": "Without overflow checks the same operations never panic, and return the exact integer result reduced to two's complement of width w; hence machine integers form a commutative ring and all ring-generic guarantees apply to them verbatim; whenever the checked build returns, it returns the same value.", "quantifier": "all widths, all inputs", "why_tests_cant": "2^w-sized input spaces and unbounded lengths.", "anchors": ["src/algebra/ring.rs: impl Ring for i8..isize", "src/algebra/polynomial.rs", "src/algebra/complex.rs", "src/linalg/smatrix.rs"]}
{"id": "C49", "title": "Polynomial subtraction forms disagree on checked integers", "statement": "p - q and p -= &q should behave alike. On overflow-checked integers they do not: p - q negates q first and panics if q contains the minimum value, even when the difference is representable and p -= &q returns it.", "quantifier": "all widths", "why_tests_cant": "Needs the boundary value and all widths.", "anchors": ["src/algebra/polynomial.rs: Sub::sub, SubAssign<&Polynomial>"]}
{"id": "C50", "title": "All nestings of the ring constructors are rings", "statement": "Every type built from a base ring by nesting Polynomial<_>, Complex<_> and SMatrix<_,N,N> in any order and depth (e.g. Polynomial<SMatrix<Complex<i32>,3,3>>) satisfies the ring laws with panic-free operations.", "quantifier": "all finite nestings, all N, every base ring", "why_tests_cant": "Infinitely many types.", "anchors": ["src/algebra/ring.rs: Ring", "src/algebra/polynomial.rs: impl Ring", "src/algebra/complex.rs: impl Ring", "src/linalg/smatrix.rs: impl Ring"]}
{"id": "C51", "title": "Floating-point Horner evaluation error bound", "statement": "For f64 coefficients and x, if Polynomial::eval returns a finite value, it differs from the exact real value by at most gamma_{2n} * sum |a_i||x|^i plus an explicit underflow term.", "quantifier": "all degrees, all finite doubles", "why_tests_cant": "Error bounds over 2^64-sized input spaces and unbounded degree.", "anchors": ["src/algebra/polynomial.rs: Polynomial::eval_ref", "src/algebra/ring.rs: impl Ring for f64"]}
{"id": "C52", "title": "Floating-point dot product error bound", "statement": "For f64 SVector/DVector inputs, if the dot product returns a finite value its error is at most gamma_n * sum |u_i||v_i| plus an explicit underflow term.", "quantifier": "all dimensions, all finite doubles", "why_tests_cant": "Error bounds over huge input spaces and unbounded dimension.", "anchors": ["src/linalg/svector.rs: Mul<&Self>", "src/linalg/dvector.rs: Mul for &DVector"]}
{"id": "C53", "title": "Floating-point complex multiplication", "statement": "For Complex<f64>, multiplication is exactly commutative, conj distributes over it exactly up to the sign of zero, and if finite the result has componentwise error at most (2u+u^2)(|ac|+|bd|) (resp. (|ad|+|bc|)) plus an underflow term.", "quantifier": "all doubles", "why_tests_cant": "Error bounds over 2^256 inputs.", "anchors": ["src/algebra/complex.rs: Mul for &Complex"]}
{"id": "C54", "title": "Intermediate overflow/underflow in Complex<f64>", "statement": "abs, division and sqrt of complex doubles should return a finite accurate result whenever the exact result is representable. The code squares the components, so there are finite inputs with finite exact results for which abs returns infinity or 0, division returns NaN or 0 and sqrt returns infinity.", "quantifier": "all doubles", "why_tests_cant": "Needs extreme-magnitude inputs of a 2^128-sized space.", "anchors": ["src/algebra/complex.rs: sqr_norm, Abs, Div, Sqrt"]}
{"id": "C55", "title": "Generic code commutes with ring homomorphisms", "statement": "If f maps the operations of one element type to those of another (zero, one, +, -, *, unary -, including panics), then applying f to every element before or after a generic operation gives the same outcome: Polynomial eval/+/-/*, Complex operations, SVector dot product, SMatrix products, and every nesting of these. In particular conjugating the coefficients and the argument of a polynomial conjugates its value, so non-real roots of a real polynomial come in conjugate pairs.", "quantifier": "all element types, all homomorphisms, all sizes, all nestings", "why_tests_cant": "Ranges over all types and functions; parametricity of generic code.", "anchors": ["src/algebra/polynomial.rs: eval_ref, Add, Sub, Mul", "src/algebra/complex.rs: Add, Sub, Mul, Neg, conj", "src/linalg/svector.rs: Mul", "src/linalg/smatrix.rs: Mul"]}
{"id": "C56", "title": "Machine-integer results are exact while small", "statement": "For elements i8..i128/isize, in any build mode: if the sum of absolute values of the terms is at most MAX (sum of |a_i| max(1,|x|)^i for evaluation, sum of |p_i||q_(k-i)| for every product coefficient, sum of |u_i v_i| for dot products and every entry of matrix and matrix-vector products, ...), then polynomial evaluation, +, -, *, complex product and squared norm, SVector/DVector dot products, SMatrix products, matrix-vector products and DMatrix products return (no overflow at any intermediate step) exactly the mathematical integer result.", "quantifier": "all integer element types, all sizes, all integer data satisfying the bound, both build modes", "why_tests_cant": "No-overflow of every intermediate value for all inputs below a bound, for unbounded sizes.", "anchors": ["src/algebra/polynomial.rs: eval_ref, Add, Sub, Mul", "src/algebra/complex.rs: Mul, sqr_norm", "src/linalg/svector.rs: Mul", "src/linalg/dvector.rs: Mul", "src/linalg/smatrix.rs: Mul", "src/linalg/dmatrix.rs: MulDMatrix"]}
{"id": "C57", "title": "Integer-valued floats compute exactly up to 2^prec", "statement": "For f32/f64 elements holding integers: under the same conditions as C56 with MAX replaced by 2^24 (f32) or 2^53 (f64), the operations incur no rounding at all and return exactly the integer result; and for every nesting of Polynomial/Complex/SMatrix over floats, +, -, * and unary - are exact whenever no intermediate integer exceeds that bound.", "quantifier": "all binary formats, all sizes, all integer-valued finite data satisfying the bound, all nestings", "why_tests_cant": "Absence of rounding for all inputs below the bound and all sizes.", "anchors": ["src/algebra/polynomial.rs: eval_ref, Add, Sub, Mul", "src/algebra/complex.rs: Mul, sqr_norm", "src/linalg/svector.rs: Mul", "src/linalg/dvector.rs: Mul", "src/linalg/smatrix.rs: Mul", "src/linalg/dmatrix.rs: MulDMatrix"]}
{"id": "C58", "title": "How far differential evolution can leave the bounds", "statement": "Whatever sets (one per coordinate) contain all start values and are closed under a + (b - c)*w contain every coordinate of the result and of every point shown to the comparator. In exact arithmetic, after m iterations each coordinate of the result lies within D*((1+2w)^m - 1)/2 of its range of width D; with weight 0 every coordinate is a value the generator can return for its range, so the result is within the bounds.", "quantifier": "every numeric type, generator, comparator, population size, crossover probability, weight, iteration count and dimension", "why_tests_cant": "The reach grows with the iteration count and depends on the random stream and on the comparator's verdicts.", "anchors": ["src/optimize/differential_evolution.rs: optimize"]}
{"id": "C59", "title": "The result of differential evolution depends on the comparator only through its verdicts", "statement": "Two comparators that give the same verdicts (whatever state they keep and whatever they compute internally) lead to the same result, the same final generator state and the same sequence of comparator calls, or to the same panic, or both runs do not end; in particular replacing an objective f by h(f) with h strictly increasing changes nothing.", "quantifier": "every pair of comparators with equal verdicts, every generator, numeric type and argument values", "why_tests_cant": "Ranges over all pairs of stateful closures and all random streams.", "anchors": ["src/optimize/differential_evolution.rs: optimize"]}
{"id": "C60", "title": "What differential evolution asks of its random number generator", "statement": "A run that returns asks the generator, in this order: for each of the population_size start points one value for each of the N ranges in order; then in each iteration at least three numbers below population_size, exactly one number below N, and exactly N - 1 random f32; nothing during the knockout. In total exactly population_size*N values, num_iters*(N-1) unit numbers and at least 4*num_iters index numbers. A seeded generator therefore makes runs reproducible and its consumption predictable.", "quantifier": "every generator that respects gen_range's upper bound, every comparator, numeric type, dimension and argument values", "why_tests_cant": "Ranges over all generators and all iteration counts; the number of rejected draws is unbounded.", "anchors": ["src/optimize/differential_evolution.rs: optimize"]}
{"id": "C61", "title": "Roots, degrees and equality of polynomials as functions", "statement": "Over every ring, dividing p by x - a leaves the value eval returns at a (p = q*(x-a) + p.eval(a) in terms of *, + and eval); over a commutative ring eval gives 0 at a iff p is a product with x - a. Over an integral domain a polynomial with n coefficients that evaluates to 0 at n different points has only zero coefficients, two polynomials with at most n coefficients that evaluate alike at n different points have the same coefficients, degrees add up and leading coefficients multiply under *, and a product is zero only if a factor is. Finding: for wrapping machine integers of every width this fails: MIN*x and MIN*x^2 evaluate alike everywhere.", "quantifier": "every ring (resp. domain), all coefficient vectors of all lengths, all points", "why_tests_cant": "Unbounded degrees over arbitrary rings; identity theorems quantify over all evaluation points.", "anchors": ["src/algebra/polynomial.rs: Polynomial::eval_ref", "src/algebra/polynomial.rs: Mul for &Polynomial", "src/algebra/polynomial.rs: Add::add"]}
{"id": "C62", "title": "What a compound assignment leaves behind when the element type panics", "statement": "If the element type's arithmetic panics in the middle of a compound assignment and the panic is caught, self is in a well-defined state: *= of Polynomial, Complex and SMatrix leave self unchanged; += and -= of SVector, SMatrix and Complex have updated exactly the elements before the one that panicked (row by row, real part first) and none after it; SVector *= scalar likewise, with the panicking element itself unchanged; p += q and p -= q (by value) of polynomials never change the length in that case and leave p untouched if negating q panics; p += &q and p -= &q have already extended p with zeros to the length of q. With element operations that leave their operand alone on panic (checked integers), every element left is either the old or the new value.", "quantifier": "every element type and every way its operations panic, all operands, lengths and shapes", "why_tests_cant": "Ranges over all crash points inside the loops, for every element type and size.", "anchors": ["src/algebra/polynomial.rs: AddAssign, SubAssign, MulAssign", "src/algebra/complex.rs: AddAssign, SubAssign, MulAssign", "src/linalg/svector.rs: AddAssign, SubAssign, MulAssign", "src/linalg/smatrix.rs: AddAssign, SubAssign, MulAssign"]}
{"id": "C63", "title": "Equality of containers is entrywise equality of the same shape", "statement": "a == b holds for Complex iff both parts are ==, for SVector and SMatrix iff all entries are ==, for DVector iff the lengths are equal and all entries are ==, for DMatrix iff the numbers of rows and of columns are equal and all entries are == (so 2x3 and 3x2 matrices with the same data differ, and so do empty matrices of different shapes). == is reflexive, symmetric, transitive, or true for identical values only, whenever the element type's == is. is_empty() of a vector expression is true iff its length is 0 iff eval() returns an empty vector.", "quantifier": "every element type, all shapes, all values, all expression trees", "why_tests_cant": "Unbounded sizes and arbitrary element equality.", "anchors": ["src/algebra/complex.rs: Complex (derive PartialEq)", "src/linalg/svector.rs: SVector (derive PartialEq)", "src/linalg/smatrix.rs: SMatrix (derive PartialEq)", "src/linalg/dvector.rs: DVector (derive PartialEq), VectorExpr::is_empty", "src/linalg/dmatrix.rs: DMatrix (derive PartialEq)"]}
{"id": "C64", "title": "Products and sums of floating-point polynomials", "statement": "For f32/f64 (any binary format): every coefficient of p * q that is finite differs from the exact convolution by at most the standard bound for a sum of min(len p, len q) products, and it is finite as long as the sum of the absolute values plus that bound stays below 2^emax; a finite coefficient involves only finite coefficients. p + q and p += q give bitwise the same result: the correctly rounded IEEE sum where both have a coefficient, an unchanged copy elsewhere; p += &q agrees up to the sign of zeros (0.0 + -0.0). The same holds for -, -=. Finding: p * q and q * p can differ.", "quantifier": "every binary floating-point format, all coefficient vectors of all lengths", "why_tests_cant": "Error bounds over all inputs and degrees.", "anchors": ["src/algebra/polynomial.rs: Mul for &Polynomial", "src/algebra/polynomial.rs: Add, AddAssign, Sub, SubAssign"]}
{"id": "C65", "title": "A NaN never disappears from a float computation", "statement": "With f32/f64 elements: a polynomial with a NaN coefficient, or any non-empty polynomial evaluated at NaN, evaluates to NaN; coefficient i+j of p * q is NaN if coefficient i of p or j of q is; a dot product with a NaN entry is NaN; a NaN in row i of a or in column j of b makes entry (i, j) of a * b NaN, for SMatrix, for matrix times vector and for DMatrix; a complex product or quotient with a NaN part in either operand is NaN in both parts, sqr_norm and abs of a number with a NaN part are NaN. Findings: every non-empty polynomial, even a constant one, evaluates to NaN at plus or minus infinity, and z * one() != z whenever a part of z is infinite.", "quantifier": "all binary formats (f32 and f64 among them), all lengths, shapes, positions and values", "why_tests_cant": "the NaN may sit in any of arbitrarily many positions, beside arbitrary other values, infinities and overflowing intermediate results", "anchors": ["src/algebra/polynomial.rs: eval, Mul", "src/algebra/complex.rs: Mul, Div, sqr_norm, abs", "src/linalg/svector.rs: Mul", "src/linalg/smatrix.rs: Mul", "src/linalg/dvector.rs: Mul", "src/linalg/dmatrix.rs: MulDMatrix"]}
{"id": "C66", "title": "Identities that hold exactly in floating point", "statement": "With f32/f64 elements: a * one() == a and one() * a == a for every finite static matrix, a * eye == a for every finite DMatrix; z * one() == z and z / one() == z for finite z; p * one() and one() * p have p's coefficients (up to the sign of zeros, whatever they are); p.eval(0) == first coefficient for finite p; u * v and v * u are bitwise equal; (a b)^T and b^T a^T are bitwise equal; u * u, sqr_norm and abs are never negative and never NaN unless an entry is NaN; the real part of z.conj() * z is bitwise z.sqr_norm() and its imaginary part is zero if re*im does not overflow; u + 0 == u, u - 0 == u, u - u == 0 for finite u; -(-p) is p bitwise.", "quantifier": "all binary formats, all sizes and all finite (or, where stated, arbitrary) floats", "why_tests_cant": "rounding makes most algebraic identities false; that these hold for all values, including subnormals, huge values and signed zeros, needs a proof", "anchors": ["src/linalg/smatrix.rs: One, Mul", "src/linalg/dmatrix.rs: eye, MulDMatrix, t", "src/algebra/complex.rs: one, Mul, Div, conj, sqr_norm, abs", "src/algebra/polynomial.rs: one, Mul, eval, Neg", "src/linalg/svector.rs: Add, Sub, Mul", "src/linalg/dvector.rs: Mul"]}
{"id": "C67", "title": "Static and dynamic containers compute the same thing", "statement": "SVector and DVector dot products, sums and differences of the same entries are the same, and so are SMatrix and DMatrix sums and differences: same values bit for bit, or the same panic of the element type. Matrix times vector is the column of matrix times one-column matrix, and the dot product is the entry of row times column, again as identical outcomes. SMatrix and DMatrix products with a non-empty inner dimension are identical outcomes (values or overflow panic) for every element type in which 0 + x is x, in particular for all machine integers with and without overflow checks; over floats they agree entry by entry up to the sign of zeros, NaNs and infinities included. Finding: the sign of zero does differ.", "quantifier": "all element types, lawful or not, panicking or not; all sizes, entries and both build modes", "why_tests_cant": "floating-point addition is not associative and integer overflow panics depend on the order of operations: that two implementations round and panic alike on all inputs is a claim about all entries and shapes", "anchors": ["src/linalg/svector.rs: Mul, Add, Sub", "src/linalg/dvector.rs: Mul, Add, Sub", "src/linalg/smatrix.rs: Mul, Add, Sub", "src/linalg/dmatrix.rs: MulDMatrix, Add, Sub"]}
{"id": "C68", "title": "Euclidean geometry of the inner products", "statement": "Over the real numbers: (u * v)^2 <= (u * u)(v * v) for SVectors, with equality exactly for linearly dependent u and v; sqrt(u * u) obeys the triangle inequality, the reverse triangle inequality and the parallelogram law, and u * v = 0 exactly when (u+v)*(u+v) = u*u + v*v. For DVectors of complex numbers of equal length |u * v|^2 <= (u * u)(v * v), and sqrt(u * u) obeys the triangle inequality. With the Frobenius norm: |a * x|^2 <= |a|_F^2 |x|^2 for SMatrix times SVector and |a * b|_F^2 <= |a|_F^2 |b|_F^2.", "quantifier": "all dimensions and all real or complex entries", "why_tests_cant": "inequalities over all dimensions and all reals; a wrong conjugation or a dropped term still satisfies them on many samples", "anchors": ["src/linalg/svector.rs: Mul, Add, Sub", "src/linalg/dvector.rs: Mul, Add", "src/linalg/smatrix.rs: Mul"]}
{"id": "C69", "title": "Branches of the complex logarithm and square root", "statement": "In exact arithmetic: ln(z*w) = ln z + ln w + 2*pi*i*k with k in {-1,0,1}, k = 0 exactly when Im ln z + Im ln w stays in (-pi, pi]; ln z has real part ln|z| and imaginary part arg z; sqrt z = exp(ln(z)/2); sqrt(z*w) = +-sqrt z * sqrt w with the sign decided by arg z + arg w; ln and sqrt commute with conj off the negative real axis and on it return the value of the upper side; they jump across it.", "quantifier": "all complex numbers (non-zero where ln is involved)", "why_tests_cant": "The crate's own test checks ln(a*b) on 100 random pairs with a tolerance that accepts anything; which branch is taken must hold for every pair.", "anchors": ["src/algebra/complex.rs: impl Ln for Complex", "src/algebra/complex.rs: impl Sqrt for Complex", "src/algebra/complex.rs: Complex::arg", "src/functions/atan2.rs"]}
{"id": "C70", "title": "Zeros, periods and symmetries of the complex functions", "statement": "In exact arithmetic: exp z = exp w iff z - w is a multiple of 2*pi*i, and exp hits every non-zero number; sin, cos, sinh, cosh vanish only at the textbook points on the axes, take every complex value, and sin z = sin w / cos z = cos w only for the textbook pairs; tan divides by zero exactly at (k+1/2)*pi and has period pi; parity, rotation by i and conjugation identities hold; on real arguments all functions agree with the real ones.", "quantifier": "all complex numbers", "why_tests_cant": "Statements 'only at', 'exactly when' and 'every value' range over the whole plane.", "anchors": ["src/algebra/complex.rs: impl Exp, Sin, Cos, Sinh, Cosh, Tan, Ln, Sqrt, Abs for Complex"]}
{"id": "C71", "title": "Ackley in f32 is non-negative and close to the formula", "statement": "For every pair of finite f32 arguments of magnitude at most 2^60 the Ackley test function returns a finite number. If libm keeps cos in [-1,1], exp of arguments in [-1,1] between 0 and the constant E and exp_m1 of non-positive arguments in [-1,0], the returned value lies in [0,23]; it is exactly +0 at every signed zero when exp_m1(-0) = -0, cos(0) = 1 and exp(1) = E. If the three libm functions are within eta of the mathematical ones, the returned value differs from the published formula by at most 25*eta + 64u + 42u(|x|+|y|), u = 2^-24; with a correctly rounded libm this is below 4.1e-5 on [-5,5]^2. The literal constants are the f32 numbers nearest to 0.2, 0.5, e and pi.", "quantifier": "all finite f32 arguments up to 2^60 and every libm satisfying the stated range or accuracy assumption", "why_tests_cant": "There are 2^64 argument pairs and the libm is not fixed; non-negativity depends on monotone rounding through eight operations for every one of them.", "anchors": ["src/optimize/test_functions.rs: ackley"]}
{"id": "C72", "title": "Accuracy of the square root of Complex<f32> and Complex<f64>", "statement": "For every complex float whose components are zero or of magnitude between 2^-59 and 2^59 (f32), 2^-507 and 2^507 (f64), sqrt returns finite components, each within 12 units of roundoff (relative) of the corresponding component of the unique principal square root; an f32 argument is exhibited at which the error is more than 8.9 units, so the constant is of the right order. In particular the real part is never negative, the imaginary part has the sign of the argument's, and a component is zero exactly when it is mathematically zero. For every finite complex float with 2^-59 <= |z| <= 2^59 (f32), 2^-507 <= |z| <= 2^507 (f64), however tiny one component is, each component is within 12 units of roundoff plus half the least subnormal number, the root as a whole within 12.1 units relative to its absolute value, the real part is not negative and the imaginary part is never on the other side of zero. Findings: an imaginary part can vanish, sqrt(1 +- 2^-1074 i) = 1; the sign of a zero imaginary part is ignored on the negative axis, sqrt(-4-0i) = +2i.", "quantifier": "all complex floats of any binary format with at least 11 bits whose components lie in the stated range or are zero; all finite complex floats whose absolute value lies in the stated range", "why_tests_cant": "The componentwise bound depends on the branch |re| <= 2|im| limiting cancellation for every one of 2^128 arguments; sampling cannot find the worst case.", "anchors": ["src/algebra/complex.rs: Sqrt for Complex", "src/functions/abs.rs", "src/functions/sqrt.rs"]}
{"id": "C73", "title": "Accuracy of Complex<f32> and Complex<f64> division", "statement": "For all complex floats z and w with w nonzero, whose components are zero or of magnitude between 2^-29 and 2^29 (f32), 2^-253 and 2^253 (f64), z / w returns finite components, each within 7 units of roundoff times |z|/|w| of the corresponding component of the exact quotient; for 2^-25 <= |z|, |w| <= 2^25 (f32), 2^-249 .. 2^249 (f64) the quotient is within 6.32 units of roundoff times |z/w| of the exact one in absolute value, and an error of 4.71 units does occur; the owned and the by-reference forms return the same value. z / z has imaginary part exactly zero and real part within 3 units of roundoff of 1. Finding: z / z is not always one, 7/7 is below 1 in Complex<f64>.", "quantifier": "all pairs of complex floats of any binary format with at least 11 bits whose components lie in the stated range or are zero, with nonzero divisor", "why_tests_cant": "The bound has to hold for every pair of the 2^256 possible pairs; cancellation in re*re+im*im and im*re-re*im makes the worst case unreachable by sampling.", "anchors": ["src/algebra/complex.rs: Div for Complex, Div for &Complex"]}
{"id": "C74", "title": "Accuracy of the elementary functions of Complex<f32> and Complex<f64>, given the accuracy of libm", "statement": "If the real functions called by the code (exp, sin, cos, sinh, cosh, ln of f32/f64) have relative error at most d at the arguments that occur, then each component of exp, sin, cos, sinh and cosh of a complex float has relative error at most 3d + 2u (plus half the smallest positive number when the exact component is nonzero and subnormal), with the signs and the pairing of the textbook formulas, as long as e^re resp. cosh does not exceed a quarter of the overflow threshold; tan is within (7d + 15u)|tan z| per component away from poles; ln has real part within (d + 2u)|ln|z|| + 2u of ln|z| and its imaginary part is atan2(im, re). With a correctly rounded libm d = u. Finding: the real part of ln has no relative accuracy near the unit circle, for 1 + 2^-40 i it is 0 although ln|z| > 0.", "quantifier": "all complex floats of any binary format with at least 11 bits, all libm implementations meeting the stated accuracy at the arguments that occur", "why_tests_cant": "The libm differs by platform and the arguments are 2^128 many; tests compare a few random points with loose tolerances.", "anchors": ["src/algebra/complex.rs: Exp, Sin, Cos, Sinh, Cosh, Tan, Ln for Complex", "src/functions/*.rs"]}
{"id": "C75", "title": "Lazy expressions call closures once per entry, in row-major order, operands left to right", "statement": "Building a vector or matrix expression calls no closure. Evaluating it gives the value the expression has without side effects, and calls the closures entry by entry (matrices row by row of the outermost expression), for one entry the operands from left to right and a map closure after its argument; when an operation panics exactly the calls up to that point have been made and their effects stay. A closure given to make_vector_expr or make_matrix_expr is never called twice with the same index, and with every index of its shape unless a diagonal is taken. With mismatched operands the assertion fails before any closure is called. A compound assignment v += e calls the closures for exactly the entries of v, in order. Finding: for closures whose result depends on the calls made before, transposing lazily is not transposing the evaluated matrix.", "quantifier": "all vector and matrix expressions, all closures with side effects on any state, debug and release builds", "why_tests_cant": "Expression trees are unbounded and call order and counts are not looked at by any test.", "anchors": ["src/linalg/dvector.rs: VectorExpr, make_vector_expr, map, zip, AddAssign", "src/linalg/dmatrix.rs: MatrixExpr, make_matrix_expr, map, zip, t, h, diag, AddAssign"]}
{"id": "C76", "title": "Differential evolution with ideal randomness: ends with probability 1, donors uniform, crossover as specified", "statement": "With independent uniform random words the optimizer ends (returns or panics) with probability 1, whatever the number of iterations, if every candidate number can be drawn. In each iteration the three donors are distinct from the target and each other and every such triple is equally likely; the probability that m draws do not suffice has a closed form and the expected number of draws is n/(n-1) + n/(n-2) + n/(n-3) for a population of n. A trial takes the forced coordinate from the mutant; every other coordinate independently with exactly the probability that a drawn unit number is below the crossover probability, and the parent's value otherwise; it reads one random number per unforced coordinate.", "quantifier": "all population sizes >= 4, targets, numbers of draws, dimensions, masks, numeric types, comparators and mappings from words to answers", "why_tests_cant": "A distribution is a statement about all random streams; termination with probability 1 cannot be seen in finitely many runs (a stream that repeats the target never ends, C42).", "anchors": ["src/optimize/differential_evolution.rs: optimize (lines 59-106)"]}
{"id": "C77", "title": "Every entry of a result is a fixed formula, evaluated in a fixed order", "statement": "Whatever the element type does (no ring laws, possibly panicking), the element operations behind each result and their order are fixed: coefficient k of p*q is 0 + p_0 q_k + p_1 q_(k-1) + ... + p_k q_0 summed from the left, entry (i,j) of a static matrix product is 0 + a_i0 b_0j + a_i1 b_1j + ..., of a dynamic product a_i0 b_0j + a_i1 b_1j + ..., evaluation is Horner's rule started at 0, sums and differences of polynomials are taken coefficient by coefficient (p + q swaps the operands when p is shorter; the assigning forms with a reference combine missing coefficients with 0). The first panic in row-major order is the panic of the product. Hence results are reproducible bit for bit, an entry of a product depends on its row and column only, and the first n coefficients of a product on the first n coefficients of the factors only.", "quantifier": "all element types and operations, all sizes, all entries", "why_tests_cant": "Tests compare values for exact types; order and locality show only for floats, overflow and non-commutative types, over all shapes.", "anchors": ["src/algebra/polynomial.rs: eval, Add, AddAssign, SubAssign, Mul", "src/linalg/smatrix.rs: Mul", "src/linalg/svector.rs: Mul", "src/linalg/dmatrix.rs: MulDMatrix", "src/linalg/dvector.rs: Mul"]}
{"id": "C78", "title": "Differential evolution does not depend on the coordinates the problem is written in", "statement": "If two problems correspond coordinate by coordinate (generator values, steps a+(b-c)*w and comparator verdicts correspond, requests for indices and unit numbers get the same answers), the two runs make the same requests, end alike and return corresponding results. In exact arithmetic: scaling and shifting each coordinate separately (bounds and comparator transformed accordingly, values drawn as lo+(hi-lo)*u) gives exactly the transformed result. In f32/f64: reversing the sign of all coordinates gives the mirrored result up to the sign of zeros, so minimizing over -b..-a is maximizing over a..b.", "quantifier": "all element types, correspondences, generators, comparators (with state), bounds, sizes, parameters, iteration counts", "why_tests_cant": "A relation between two unbounded families of runs, for every objective and generator.", "anchors": ["src/optimize/differential_evolution.rs: optimize"]}
{"id": "C79", "title": "f32/f64 computations with non-negative numbers are monotone", "statement": "With coefficients, entries and arguments that are finite and >= 0, enlarging any of them never makes a result smaller, rounding and overflow included: this holds for evaluation, products of polynomials, dot products (static and dynamic), matrix products (static, dynamic, matrix times vector); the results are >= 0 and never NaN. Sums and differences of polynomials are monotone for numbers of any sign (in the subtrahend decreasing), unless a NaN arises. sqr_norm and abs of a complex number never decrease when |re| or |im| grows, infinite components included.", "quantifier": "all binary floating point formats, all sizes, all pairs of inputs related by <=", "why_tests_cant": "Relates the results of two computations for every pair of comparable inputs of every size, including those that overflow.", "anchors": ["src/algebra/polynomial.rs: eval, Mul, Add, Sub", "src/linalg/svector.rs: Mul (dot product)", "src/linalg/smatrix.rs: Mul", "src/linalg/dvector.rs: dot product", "src/linalg/dmatrix.rs: Mul", "src/algebra/complex.rs: sqr_norm, Abs"]}
{"id": "C80", "title": "Changing signs commutes with f32/f64 computations", "statement": "Up to the sign of zeros and bit for bit otherwise: (-z)*w = z*(-w) = -(z*w), (-z)/w = z/(-w) = -(z/w), conj(z)/conj(w) = conj(z/w), and (-z)*(-w) = z*w, (-z)/(-w) = z/w exactly; sqr_norm and abs give identical results for z, -z, conj z and i*z; multiplying by i or -i is exact. Dot products and matrix products change sign with either operand and do not change at all when the same entries of both operands change sign; evaluating -p gives the negated value, p(-x) equals the polynomial with alternating signs at x; (-p)*q = p*(-q) = -(p*q); q-p = -(p-q); (-p)+(-q) = -(p+q).", "quantifier": "all binary floating point formats, all inputs including infinities and NaN (multiplication by i: finite ones), all sizes", "why_tests_cant": "Bit-level identities between computations on all floats and all sizes; rounding happens in every step.", "anchors": ["src/algebra/complex.rs: Mul, Div, Neg, conj, sqr_norm, Abs", "src/algebra/polynomial.rs: eval, Mul, Add, Sub, Neg", "src/linalg/svector.rs: Mul (dot product)", "src/linalg/smatrix.rs: Mul, Neg", "src/linalg/dmatrix.rs: Mul"]}
{"id": "C81", "title": "On the real axis Complex<f32>/Complex<f64> agrees with f32/f64", "statement": "Computing with complex numbers whose imaginary parts are zero gives the numbers the same computation gives with reals, and zero imaginary parts, as long as the real results are finite: evaluation and products of polynomials, dot products, matrix and matrix-vector products; multiplying a finite complex number by a real one with * equals scaling it. abs of x+0i and of 0+xi is exactly |x| (components between 2^-511 and 2^511 in f64, 2^-63 and 2^63 in f32), |re z| and |im z| never exceed abs(z) unless both squares underflow; for nonzero components between 2^-507 and 2^507 (f32: 2^-59 and 2^59) sqrt(x+0i) is the correctly rounded real square root for x > 0 and purely imaginary for x < 0, sqrt(0+yi) has two components equal to the rounded sqrt(|y|/2) up to sign; exp, sin, cos, sinh, cosh of x+0i are libm's values for x, if libm is exact at 0 and the values are finite. Finding: where the real exponential overflows, exp(x+0i) has imaginary part NaN.", "quantifier": "all binary formats (roots: at least 11 bits), all real floats in the stated ranges, all polynomials, vectors, matrices, signs of zero", "why_tests_cant": "Bit-for-bit agreement of two computations for all floats and all sizes; sqrt(fl(x*x)) = |x| is a theorem about rounding.", "anchors": ["src/algebra/complex.rs: Mul, Abs, Sqrt, Exp, Sin, Cos, Sinh, Cosh", "src/algebra/polynomial.rs: eval, Mul", "src/linalg/svector.rs: Mul", "src/linalg/smatrix.rs: Mul"]}
{"id": "C82", "title": "Backward stability of polynomial evaluation, dot products and matrix products", "statement": "With f32/f64 elements: a finite value of eval at x is the exact value at x of a polynomial whose coefficient number j differs relatively by at most (1+u)^(2j+1)-1 (the leading one, number n, by at most (1+u)^(2n)-1) and, only through underflow, absolutely by at most (1+u)^(2j+1) times half the smallest positive number; where eval returns zero, x is an exact root of such a nearby polynomial. A finite dot product of length n is an exact dot product of the second vector with a first vector each of whose entries differs relatively by at most (1+u)^n-1, plus an underflow term of at most n(1+u)^(n-1) eta. A finite matrix-vector product is (A+dA)v plus such a term with one entrywise small dA for the whole result; every finite column of a matrix product is (A+dA) times the column of B.", "quantifier": "all binary formats, all polynomials, arguments, vectors and matrices of all sizes with finite results, both matrix types, both build profiles", "why_tests_cant": "A perturbation must exist for every input; it is not computable by the test and the bound is over all sizes and rounding patterns.", "anchors": ["src/algebra/polynomial.rs: eval", "src/linalg/svector.rs: Mul", "src/linalg/dvector.rs: dot", "src/linalg/smatrix.rs: Mul", "src/linalg/dmatrix.rs: Mul"]}
{"id": "C83", "title": "Normwise accuracy of Complex<f32>/Complex<f64> computations", "statement": "With respect to the absolute value of exact complex numbers, whenever the computed complex number is finite: + and - have relative error at most u; * has error at most sqrt(4/3)(2u+2u^2)|z||w| (about 2.31 u, while 2.23 u is reached in f32) plus an underflow term of about 2.83 eta; eval of a complex polynomial of degree n differs from the exact value by at most (g^n - 1) times the sum of |a_i||x|^i plus an explicit underflow term, where g = (1+2.31u)(1+u); dot products (DVector's conjugates its first factor), matrix-vector and matrix products of inner length n differ entrywise from the exact ones by at most ((1+2.31u)(1+u)^(n-1) - 1) times the sum of the products of absolute values plus n(1+u)^(n-1) underflow terms.", "quantifier": "all binary formats, all complex floats, polynomials, vectors and matrices of all sizes (static and dynamic), both build profiles", "why_tests_cant": "A bound over all floats and all sizes, against exact complex arithmetic.", "anchors": ["src/algebra/complex.rs: Add, Sub, Mul", "src/algebra/polynomial.rs: eval", "src/linalg/svector.rs: Mul", "src/linalg/dvector.rs: dot", "src/linalg/smatrix.rs: Mul", "src/linalg/dmatrix.rs: Mul"]}
{"id": "C84", "title": "What a run of differential evolution cannot change", "statement": "For every generator and comparator: if all start points of a run have the same finite f32/f64 value in a coordinate, then the result and every point the comparator is shown have it there too (up to the sign of zero), so a one-value range fixes a coordinate exactly; more generally the values of a coordinate stay in every set that contains those of the start points and is closed under a + (b - c) w. A population of copies of one point never moves. With weight 0 every coordinate of every point comes from a start point of the same run. In exact arithmetic with full crossover (every unit number drawn is below the crossover probability) a linear equation satisfied by all start points is satisfied by every point tried and by the result. A comparator that never answers true gets the first start point back.", "quantifier": "all generators with in-range indices, comparators (with state), bounds, sizes, dimensions, probabilities, weights, iteration counts and all runs that return", "why_tests_cant": "Invariants over all random histories and comparator behaviours.", "anchors": ["src/optimize/differential_evolution.rs: optimize"]}
{"id": "C85", "title": "Powers of two: rounding does not depend on the unit of measurement", "statement": "In f32/f64 arithmetic of any format, multiplying inputs by powers of two multiplies the results by the corresponding powers of two exactly, rounding errors included: for sums and differences of vectors, matrices, polynomials and complex numbers whenever the results are finite (each entry may have its own power); for dot products, static and dynamic matrix products, matrix times vector (rows, inner index and columns each scaled by their own powers), polynomial evaluation (a_j scaled by 2^(m - k j), x by 2^k), polynomial products, and products, quotients, squared norms and absolute values of complex numbers whenever the results are finite and no product (or reciprocal) formed on the way underflows in either computation. Without the condition on underflow it is false.", "quantifier": "all float formats, sizes, inputs and exponents", "why_tests_cant": "Exact equality of rounded results for all inputs and all scalings; tests sample a few.", "anchors": ["src/algebra/polynomial.rs: eval, mul, add, sub", "src/algebra/complex.rs: mul, div, sqr_norm, abs", "src/linalg/svector.rs: add, sub, mul", "src/linalg/smatrix.rs: add, sub, mul", "src/linalg/dmatrix.rs: mul"]}
{"id": "C86", "title": "Substitution: composition of polynomials, polynomials of matrices, complex numbers as matrices", "statement": "Evaluating a polynomial (its coefficients lifted to constant polynomials) at a polynomial q computes the composition: its value at any x commuting with the coefficients is p(q(x)); the polynomial x is neutral on both sides over every ring; composition is associative over commutative rings. The commutation condition is needed: over 2x2 integer matrices the composition law fails. If a v = v c and b v = v d for square static matrices a, b, then a+b, a-b, a*b, -a, 0, 1 have v as eigenvector with eigenvalue c+d, c-d, c*d, -c, 0, 1, and a polynomial whose matrix coefficients have v as eigenvector, evaluated at a, has the polynomial of the eigenvalues, evaluated at c, as its eigenvalue, over every ring. Complex arithmetic (and evaluation of complex polynomials) is arithmetic of the 2x2 matrices ((x, -y), (y, x)), over every ring.", "quantifier": "all rings, polynomials, points, matrix sizes, matrices and vectors", "why_tests_cant": "Identities between whole computations for every ring, degree and size; tests see a few examples over a few types.", "anchors": ["src/algebra/polynomial.rs: eval", "src/linalg/smatrix.rs: mul, Mul<SVector>", "src/algebra/complex.rs: mul"]}
{"id": "C87", "title": "Nested number types can be written the other way round", "statement": "Polynomial<Complex<T>> and Complex<Polynomial<T>>, SMatrix<Complex<T>,n,n> and Complex<SMatrix<T,n,n>>, Polynomial<SMatrix<T,n,n>> and SMatrix<Polynomial<T>,n,n> are the same ring: rearranging the data is one-to-one and onto (up to trailing zeros) and commutes with zero, one, +, -, *, negation, none of which panics. Exchanging the variables of Polynomial<Polynomial<T>> is an automorphism, and writing out the blocks of SMatrix<SMatrix<T,k,k>,m,m> is an isomorphism to SMatrix<T,mk,mk>. Such rearrangements compose and can be done at any depth inside any nesting of the constructors.", "quantifier": "all rings T (also non-commutative), all sizes, all nestings, all values", "why_tests_cant": "An equivalence of two different code paths for all element types, sizes and nestings.", "anchors": ["src/algebra/polynomial.rs: Add, Sub, Mul, Neg", "src/algebra/complex.rs: Add, Sub, Mul, Neg", "src/linalg/smatrix.rs: Add, Sub, Mul, Neg", "src/algebra/ring.rs: Ring, Zero, One"]}
{"id": "C88", "title": "Complex functions and polynomials are differentiable with the textbook derivatives", "statement": "In exact real arithmetic, with complex arithmetic as the crate computes it: exp' = exp, sinh' = cosh, cosh' = sinh, sin' = cos and cos' = -sin at every point; tan' = 1/cos^2 wherever cos is not zero; ln' = 1/z and sqrt' = 1/(2 sqrt z) at every point that is neither 0 nor a negative real. `ln` is continuous exactly at those points and `sqrt` exactly off the negative reals (it is continuous at 0), so the branch cut lies where the principal branch has it. The derivative of x -> p.eval(x) is the evaluation of a_1 + 2 a_2 x + 3 a_3 x^2 + .... Programs combined with +, -, *, / and composition obey the sum, product, quotient and chain rules; derivatives are unique and imply continuity; conj is differentiable nowhere. A derivative at z includes that the function succeeds in a whole neighbourhood of z.", "quantifier": "every complex number (with the stated exclusions), every polynomial of every length, every pair of differentiable computations", "why_tests_cant": "a limit over all directions and all small increments at every point of the plane", "anchors": ["src/algebra/complex.rs: exp, sin, cos, sinh, cosh, tan, ln, sqrt, conj, Add, Sub, Mul, Div", "src/algebra/polynomial.rs: eval"]}
{"id": "C89", "title": "Squaring a complex square root gives the argument back; the crate's randomized sqrt test cannot fail", "statement": "For Complex<f32> and Complex<f64> arguments z whose parts are zero or of moderate magnitude, s = z.sqrt() has a non-negative real part, and the computed s * s is finite and within 8 units of roundoff (4 EPSILON) of z relative to |z|. In particular the body of the crate's randomized test test_sqrt_complex_f32 (error computed with - and abs, tolerance 4 * EPSILON * z.abs()) passes for every such z, not only for the 100 random ones; far below that range it can fail.", "quantifier": "every binary format with at least 24 bits of precision, every complex number with parts zero or in [2^-k, 2^k] with 3k + 20 <= emax (and prec + 2k + 20 <= emax for the test): for f32 k = 36, for f64 k = 334", "why_tests_cant": "the crate's test draws 100 random points of a range with about 2^60 points; the worst-case constant (7.95 of the allowed 8) leaves a margin of 0.6 percent that sampling cannot certify", "anchors": ["src/algebra/complex.rs: Sqrt for Complex (627-653), test_sqrt_complex_f32 (656-671), Mul, Sub, Abs"]}
{"id": "C90", "title": "The documented optimizer call: it always returns, nothing it computed is below its result, but its assertions are not guaranteed", "statement": "(a) A run whose recorded comparator verdicts are those of some strict weak order returns a point that no compared point beats, and every slot only improves; the comparator need not be consistent on points the run never compares. (b) In particular for `f(l) < f(r)` with a float objective: if no value of f computed during the run is NaN, f(best) is not NaN and is <= every value of f computed in the run. (c) The call in the doc example and test (f32 Ackley, bounds (-5,5)^2, population 20, crossover 0.9, weight 0.8, 500 iterations) returns for every libm and every generator that meets rand's contracts and is fair; it compares exactly 519 times; and under the no-NaN condition its result has the smallest computed Ackley value of the run. (d) The assertions following the call, |loc[i]| < 0.1, do not follow from rand's contracts: a fair generator that draws 3 for every start coordinate makes the call return exactly (3, 3), whatever the comparator says.", "quantifier": "all coordinate types, number types, generators, comparators, objectives, states, parameters and fuel; for the documented call all libm functions, generators and seeds", "why_tests_cant": "The test is one seeded-by-the-OS run; it can neither show that every run returns, nor exclude NaN trouble, nor show that its own assertions can fail.", "anchors": ["src/optimize/differential_evolution.rs:6-25 doc example", "src/optimize/differential_evolution.rs:49-119 optimize", "src/optimize/differential_evolution.rs:128-146 test", "src/optimize/test_functions.rs ackley"]}
{"id": "C91", "title": "Error bars: float results stay within bars computed by the same code, and the ring laws hold up to rounding", "statement": "Run the same generic code on numbers that carry error bars (exact value, sum of absolute values, number of roundings on the longest path, underflow padding). Then every finite base number of the float result, over any nesting of polynomials, complex numbers and square matrices, differs from the result of the same code over the reals by at most its error bar (1+u)^depth * padded - size; and if the inputs are finite and no intermediate magnitude reaches the overflow threshold the result is finite. The same holds for evaluation, conjugation, norms, dot products, matrix products of static and dynamic types. Hence every identity that holds in all rings (all commutative rings, for nestings without matrices bigger than 1x1) holds in floats up to the two error bars; in particular explicit bounds for associativity and distributivity of f32/f64 and of float matrices of every shape.", "quantifier": "all precisions and exponent ranges, nested types, ring expressions, inputs (also infinite and NaN), places in the result; matrix shapes L x M x N x K", "why_tests_cant": "Ring for f64 is declared although no ring law holds exactly; how far results can be off depends on every input and on every expression.", "anchors": ["src/algebra/ring.rs:109-120 Ring", "src/algebra/ring.rs:128-129 Ring for f32, f64", "src/algebra/polynomial.rs add, sub, mul, neg, eval", "src/algebra/complex.rs add, sub, mul, conj, sqr_norm", "src/linalg/svector.rs dot", "src/linalg/smatrix.rs mul", "src/linalg/dvector.rs dot", "src/linalg/dmatrix.rs mul"]}
{"id": "C92", "title": "Infinities and NaN never disappear: finite results come only from finite inputs", "statement": "Over f32/f64, any computation built from the Ring operations over any nesting of Polynomial, Complex and square SMatrix gives a finite number at some place of its result only if every input number that place depends on is finite, and gives NaN there as soon as one of them is NaN (what a place depends on is found by running the same computation on booleans). In particular a finite value of a polynomial comes from finite coefficients and a finite argument, a finite entry of a matrix product from a finite row and column, and a complex product or quotient with one finite part from four finite parts; modulus and square norm are finite only for finite numbers, and the complex square root of a number that is not finite is not finite. Finding: a finite complex number divided by an infinite one is NaN in both parts, not 0.", "quantifier": "every expression, nesting, size and input (including infinities, NaN, subnormals); every binary floating-point format with prec < emax", "why_tests_cant": "there are 2^64 values per input and unboundedly many expressions, nestings and sizes; that no combination of infinities cancels into a finite number is a statement about all of them", "anchors": ["src/algebra/polynomial.rs: eval, Mul", "src/algebra/complex.rs: Mul, Div, sqr_norm, Abs, Sqrt", "src/linalg/smatrix.rs: Mul", "src/linalg/dmatrix.rs: Mul", "src/linalg/dvector.rs: dot"]}
{"id": "C93", "title": "sin, cos, sinh and cosh agree with their exponential formulas up to rounding: the crate's own tests pass at every argument", "statement": "For Complex<f32>/Complex<f64>, if the real exp, sin, cos, sinh, cosh of libm are within 1.1 units of roundoff (plus half the smallest positive number), then the assertion |sin z - (e^(iz) - e^(-iz))/(2i)| <= e^|z| * 2 * EPSILON of test_sin_complex_f32 and the one of test_sinh_complex_f32, with all arithmetic done in floating point as written, hold at every finite argument z with e^|z| <= 2^(emax/2) (|z| <= 44 in f32, |z| <= 352 in f64), not only at the one in the test; the assertions for cos and cosh hold at every such z where cosh of the relevant part is at most 0.53 e^|z| (in particular for |z| >= 3/2). All four tests pass exactly as written at z = 0.3 - 1.2i.", "quantifier": "every finite z in the range, every libm with the stated accuracy, every binary floating-point format with prec >= 24, prec + 30 <= emax <= 2^(prec-14)", "why_tests_cant": "the tests check one argument with one libm; the error bound must hold for 2^64 arguments and every implementation of the real functions", "anchors": ["src/algebra/complex.rs: Exp, Sin, Cos, Sinh, Cosh, Mul, Div, Sub, Add, Neg, Abs for Complex; test_sin_complex_f32, test_cos_complex_f64, test_sinh_complex_f32, test_cosh_complex_f32"]}
{"id": "C94", "title": "ln(ab) = ln a + ln b for Complex<f32>, up to rounding and multiples of 2 pi i", "statement": "If the platform's f32 ln is accurate to 4 units of roundoff and its atan2 to 1.05 units (an angle in [-pi, pi] of the argument), then the body of the crate's randomized test of Complex<f32>::ln succeeds for every pair of non-zero samples a, b whose parts are zero or of magnitude between 2^-27 and 2^27: |Re(ln(ab) - ln a - ln b)| <= 10 (max(|a|,1/|a|) + max(|b|,1/|b|)) EPSILON, and the imaginary part of the difference is within 8 EPSILON of 2 pi or -2 pi when it is outside [-1, 1]. Two findings: a zero sample makes the test fail (ln 0 - ln 0 is NaN), and since the last assertion allows 8 PI instead of 8 EPSILON the test also passes for every pair of samples when the angle is replaced by 0.", "quantifier": "all pairs of samples, all libm implementations with the stated accuracy", "why_tests_cant": "The test draws 100 random pairs per run; that no pair at all makes it fail, through the argument wrap-around and the rounding of 2 pi, needs an error analysis over all pairs.", "anchors": ["src/algebra/complex.rs: Ln for Complex<T>, SqrNorm, Mul, Abs, test_ln_complex_f32"]}
{"id": "C95", "title": "Multiplying and dividing complex floats undo each other up to a few roundings", "statement": "For all complex f32 (f64) numbers z, w with 2^-25 <= |z|, |w| <= 2^25 (2^-249 .. 2^249), with unit roundoff u: (z / w) * w and (z * w) / w are finite and within 9 u |z| of z, 1 / (1 / z) is finite and within 13 u |z| of z, the computed |z * w| and |z| * |w| are finite and differ by at most 10 u |z||w|, and the computed |z / w| and |z| / |w| by at most 14 u |z|/|w|. The round trips are not exact in general.", "quantifier": "all pairs of complex floats of the stated sizes, every platform libm (none of these operations calls it)", "why_tests_cant": "The bound must hold for every pair of bit patterns, including those with cancellation in one part of the product or quotient; sampling cannot show that no pair exceeds it.", "anchors": ["src/algebra/complex.rs: Mul, Div, SqrNorm, Abs for Complex<T>, One"]}
{"id": "C96", "title": "exp and ln of complex floats are inverse to each other, and exp turns sums into products, up to rounding", "statement": "If the platform's real exp, sin, cos, ln and atan2 have relative error at most d (u <= d <= 1/20000 for f32, 1/200000 for f64; beyond underflow), then for Complex<f32> (Complex<f64>): exp(ln z) is finite and within (2.1 |ln|z|| + 8) d |z| of z for every z with 2^-25 <= |z| <= 2^25 (2^-249 .. 2^249); ln(exp z) is finite, its real part within (2.1 |Re z| + 5) d of Re z and its imaginary part within 7 d of Im z + 2 pi n for an integer n, for every finite z with |Re z| <= 25 (249), and n = 0 when |Im z| <= 3; exp(z + w) and exp(z) exp(w) are finite and differ by at most (1.1 (|Re(z+w)| + |Im(z+w)|) + 12) d e^Re(z+w) when |Re z|, |Re w| <= 25 (249) and d (|Re(z+w)| + |Im(z+w)|) <= 1/100.", "quantifier": "all complex floats of the stated sizes, all libm implementations with the stated accuracy", "why_tests_cant": "The claim is about every bit pattern and every conforming platform libm, including arguments next to the branch cut and numbers whose parts differ vastly in size.", "anchors": ["src/algebra/complex.rs: Exp for Complex<T>, Ln for Complex<T>, SqrNorm, Mul, Add"]}
{"id": "C97", "title": "Backward stability of Complex<f32>/Complex<f64> computations", "statement": "A finite value of Polynomial<Complex<f32/f64>>::eval is the exact value, at the same argument, of a polynomial with slightly changed complex coefficients (coefficient j by a relative amount of at most ((1+k)(1+u))^j (1+u) - 1, k about 2.31 u, the leading one by at most ((1+k)(1+u))^n - 1, plus an absolute change due to underflow); in particular a computed zero is an exact root of a nearby polynomial. Dot products of SVector and DVector (which conjugates the first factor), matrix-vector products and SMatrix/DMatrix products are exact for a first factor whose entries were changed relatively by at most (1+k)(1+u)^(n-1) - 1, up to an underflow term.", "quantifier": "for all formats, all polynomials, vectors and matrices of every size over complex floats and all arguments whose computed result is finite", "why_tests_cant": "tests compare a few computed values with a tolerance; that every finite result is an exact result for nearby data, with an explicit bound on nearby, is a statement about all inputs and all sizes", "anchors": ["src/algebra/polynomial.rs:eval", "src/algebra/complex.rs:Mul,Add", "src/linalg/svector.rs:dot", "src/linalg/dvector.rs:dot", "src/linalg/smatrix.rs:Mul", "src/linalg/dmatrix.rs:Mul"]}
{"id": "C98", "title": "Sums and products of (complex) floats do not overflow before their exact bounds do", "statement": "Finite inputs give finite results: complex +, -, *, Polynomial::eval over complex floats, the dot products of SVector and DVector, matrix-vector and SMatrix/DMatrix products over floats and complex floats return finite entries whenever the sum of the absolute values of the terms plus the rounding error bound is below 2^emax; no intermediate result overflows on its own. For example SMatrix products over Complex<f64> with entries of absolute value at most 2^500 (Complex<f32>: 2^52) and inner dimension at most 2^20 never overflow.", "quantifier": "for all formats, all finite inputs and all sizes meeting the stated bound", "why_tests_cant": "overflow depends on the magnitude of every intermediate result; no finite set of inputs shows its absence", "anchors": ["src/algebra/complex.rs:Add,Sub,Mul", "src/algebra/polynomial.rs:eval", "src/linalg/svector.rs:dot", "src/linalg/dvector.rs:dot", "src/linalg/smatrix.rs:Mul", "src/linalg/dmatrix.rs:Mul"]}
{"id": "C99", "title": "Complex float inner products are conjugate symmetric and Gram matrices exactly Hermitian", "statement": "Rounding does not break the symmetry of inner products: for complex float DVectors, v*u is the conjugate of u*v bit for bit up to the sign of zeros; u*u has a real part that is never negative (unless an entry is NaN) and an imaginary part that is zero, or NaN only when some product re*im overflows. For DMatrix over complex floats (a*b).h() and b.h()*a.h() agree entry by entry up to the sign of zeros, and a.h()*a and a*a.h() are exactly Hermitian with non-negative diagonal. Over f32/f64, a.t()*a is symmetric bit for bit with a non-negative diagonal.", "quantifier": "for all float formats, all vectors of equal length, all well-formed matrices of matching sizes with at least one term per sum, all entries including infinities and NaN", "why_tests_cant": "exact symmetry under rounding must hold for every combination of entries and every size", "anchors": ["src/linalg/dvector.rs:Mul", "src/linalg/dmatrix.rs:Mul", "src/linalg/dmatrix.rs:t", "src/linalg/dmatrix.rs:h", "src/algebra/complex.rs:Mul", "src/algebra/complex.rs:conj"]}
{"id": "C100", "title": "Computed values that are large compared to their rounding error prove signs and locate roots", "statement": "Let r be the computed value of a float polynomial of degree n at x and s the computed value of the polynomial with absolute values of coefficients at |x|. If both are finite and g*s + underflow < (1-g)*|r| with g = (1+u)^(2n) - 1 then the exact value of the polynomial at x has the sign of r; at an exact root the test is never met. If the test is met at two points with opposite computed signs, the exact polynomial has a root strictly between them; if it is met at points x0 < ... < xk with alternating signs there is a root in each gap, and if the degree is at most k these are all real roots. Likewise for the sign of a DVector inner product.", "quantifier": "for all float formats, all polynomials, all points and all vectors meeting the test", "why_tests_cant": "the conclusion is about exact real values and the existence of real roots, which no float computation shows", "anchors": ["src/algebra/polynomial.rs:eval", "src/linalg/dvector.rs:Mul"]}
{"id": "C101", "title": "Computed lengths and distances are accurate and obey Cauchy-Schwarz and the triangle inequality up to rounding", "statement": "For a float vector a with n entries the square root of a * a, if a * a is finite, is finite and differs from the true Euclidean length by at most (1+u)^(n+1) - 1 relative plus an underflow term; the root of (a-b)*(a-b), and of (a+b)*(a+b), differs from the true distance by at most (1+u)^(n+2) - 1 relative plus the underflow term, even when a and b almost coincide. The three computed numbers a*b, a*a, b*b obey (1-g)(|a*b| - t) <= (1+g) sqrt((a*a + t)(b*b + t)) with g = (1+u)^n - 1 and the computed distances of three points obey the triangle inequality up to a factor (1+G)/(1-G) and the underflow term, G = (1+u)^(n+2) - 1. For Complex floats |z-w| and |z+w| are accurate to (1+u)^4 - 1. The computed absolute values obey |z+w| <= |z|+|w|, |z-w| <= |z|+|w| and |z| <= |z-w|+|w| up to the factor (1+G)/(1-G), G = (1+u)^4 - 1, and the underflow term, and the computed squared norms the parallelogram law |z+w|^2 + |z-w|^2 = 2(|z|^2 + |w|^2) up to 2(G + (1+u)^2 - 1) relative and an underflow term, whenever the squared norms do not overflow.", "quantifier": "for all float formats, dimensions, vectors and complex numbers whose sums of squares do not overflow", "why_tests_cant": "the bounds compare with exact real lengths and hold for every vector of every dimension, including nearly coincident points where cancellation is total", "anchors": ["src/linalg/svector.rs:Sub", "src/linalg/svector.rs:Mul", "src/linalg/dvector.rs:Mul", "src/algebra/complex.rs:abs"]}
{"id": "C102", "title": "Where a differential evolution run can go in f32/f64; the documented call stays in a small box and computes no NaN", "statement": "(a) In f32/f64, for every comparator: if start values of a coordinate lie in [lo,hi] with magnitudes at most B, then after m iterations with weight w every coordinate value returned or shown to the comparator is finite, at most reach = q^m (B + m(1+u)eta) with q = (1+u)(1+2w(1+u)^2), and leaves [lo,hi] by at most the exact-arithmetic excess (hi-lo)((1+2w)^m-1)/2 plus reach - (1+2w)^m B, provided 2(1+u) reach does not exceed the largest float. (b) In exact arithmetic with comparator f(l) < f(r): if f <= M on all start points and the set f <= M lies in a box, then the result and every incumbent lie in that box with f <= M and every trial at most w times its width outside. (c) The documented f32 Ackley call, with libm accurate to 1/1000: the result and all incumbents lie in [-10,10]^2, all trials in [-27,27]^2, every computed function value is finite, the result has the smallest computed value of the run and up to two evaluation errors the smallest exact one. (d) Without such a bound the result can be infinite and the comparator can be shown NaN although bounds, weight and start values are finite.", "quantifier": "all float formats, generators meeting the range contract, comparators (a) or objectives (b), sizes, dimensions, probabilities, weights, iteration counts; (c) every libm accurate to 1/1000 and every generator", "why_tests_cant": "quantifies over all random streams and all iteration counts; a test samples a few streams", "anchors": ["src/optimize/differential_evolution.rs:optimize", "src/optimize/test_functions.rs:ackley"]}
{"id": "C103", "title": "The complex tangent of f32 numbers and the addition theorem its randomized test checks", "statement": "For a libm whose sin, cos, sinh, cosh have relative error at most 1.1u: (a) for every z whose parts are multiples of 2^-20 of magnitude at most 8, z.tan() is finite and differs from tan z by at most 13.32u |tan z| (u = 2^-24), although |tan z| can be as large as 2^28. (b) For every pair a, b of samples of test_tan_complex_f32 (parts multiples of 2^-20 of magnitude at most 4) with |cos a||cos b| <= 1000|cos(a+b)|, the assertion of that test holds with factor 64 in place of 8. (c) It does not hold for all samples with any factor: at a = b = 2470649/2^20 (near 3 pi/4; a + b is not a pole) a correctly rounded libm makes 1 - tan a tan b exactly 0, the expected value NaN and the assertion false.", "quantifier": "all libms within the error bound, all f32 sample pairs away from the zeros of 1 - tan a tan b; (c) every libm correctly rounded at two points, every tolerance factor", "why_tests_cant": "a randomized test draws 100 pairs out of 2^92; the statement covers every pair and every admissible libm, and exhibits the pairs on which the test itself is wrong", "anchors": ["src/algebra/complex.rs:Tan for Complex<T>", "src/algebra/complex.rs:test_tan_complex_f32"]}
{"id": "C104", "title": "Reflection symmetries of the complex elementary functions hold bit for bit in floats; the square root ignores the sign of a zero imaginary part", "statement": "For f32 and f64 (any binary format) and any libm with sin, sinh odd, cos, cosh even and atan2 odd in its first argument: whenever exp, sin, cos, sinh, cosh, ln of z return w, the call on the conjugate of z returns exactly the conjugate of w, without any rounding difference; the same for the parities f(-z) = -f(z) of sin, sinh and f(-z) = f(z) of cos, cosh and for the rotations sin(iz) = i sinh z, sinh(iz) = i sin z, cos(iz) = cosh z, cosh(iz) = cos z; tan obeys its two symmetries up to the sign of zeros; arg(conj z) = -arg z. sqrt(conj z) = conj(sqrt z) exactly when the imaginary part of z is not a zero; for a zero imaginary part of either sign the square root is the same, so the symmetry fails on the negative real axis, and with an IEEE atan2 the square root and the logarithm of -4 - 0i lie on opposite sides of the real axis.", "quantifier": "all complex floats z including signed zeros, infinities and NaN, all libms with the stated parities, every binary format", "why_tests_cant": "a statement about all 2^64 (2^128) arguments bit for bit; the repository's tests compare with tolerances and never look at signed zeros", "anchors": ["src/algebra/complex.rs:Exp for Complex<T>", "src/algebra/complex.rs:Sin for Complex<T>", "src/algebra/complex.rs:Cos for Complex<T>", "src/algebra/complex.rs:Sinh for Complex<T>", "src/algebra/complex.rs:Cosh for Complex<T>", "src/algebra/complex.rs:Tan for Complex<T>", "src/algebra/complex.rs:Ln for Complex<T>", "src/algebra/complex.rs:Sqrt for Complex<T>", "src/algebra/complex.rs:Complex::arg"]}
{"id": "C105", "title": "Identities between the complex elementary functions of floats: |e^z| = e^Re z, polar form, e^z e^-z = 1, sqrt z = e^(ln(z)/2), sin^2 + cos^2 = 1, cosh^2 - sinh^2 = 1, up to rounding", "statement": "For f32 and f64 (any binary format with at least 24 bits) and a libm with relative error at most d >= u: z.exp().abs() differs from e^(Re z) by at most 5.2 d e^(Re z); z.exp() * (-z).exp() from 1 by at most 8.7 d; the complex number built from |z| cos(arg z) and |z| sin(arg z) from z by at most 7.3 d |z|; exp of the halved parts of z.ln() from z.sqrt() by at most (1.6 |ln|z|| + 20) d sqrt|z| (up to sign on the negative real axis, where the sides of the cut may differ, C104); sin(z)^2 + cos(z)^2 from 1 by at most 19 d cosh(Im z)^2 and cosh(z)^2 - sinh(z)^2 from 1 by at most 19 d cosh(Re z)^2. Nothing overflows or becomes NaN on the way. Range: 2^-k <= |z| <= 2^k, respectively |Re z| (|Im z|) <= k, with k = 25 for f32 and 249 for f64.", "quantifier": "all complex floats in the stated range, all libms within the error bound, every binary format", "why_tests_cant": "the error constants must hold for every argument and every admissible libm; sample points cannot bound them", "anchors": ["src/algebra/complex.rs:Exp for Complex<T>", "src/algebra/complex.rs:Abs for Complex<T>", "src/algebra/complex.rs:Complex::arg", "src/algebra/complex.rs:Ln for Complex<T>", "src/algebra/complex.rs:Sqrt for Complex<T>", "src/algebra/complex.rs:Sin for Complex<T>", "src/algebra/complex.rs:Cos for Complex<T>", "src/algebra/complex.rs:Sinh for Complex<T>", "src/algebra/complex.rs:Cosh for Complex<T>", "src/algebra/complex.rs:Mul for Complex<T>"]}
{"id": "C106", "title": "The addition theorems of sin, cos, sinh and cosh hold for complex floats up to rounding", "statement": "For a libm whose exp, sin, cos, sinh, cosh, ln, atan2 have relative error at most d (beyond underflow): for all complex floats z, w whose imaginary parts (for sinh, cosh: real parts) are at most 25 in magnitude in f32, 249 in f64, with S = |Re(z+w)| + |Im(z+w)| and d S <= 1/100, (z + w).sin() and z.sin() * w.cos() + z.cos() * w.sin(), evaluated with the crate's operators, are finite and differ by at most (2.1 S + 26) d cosh(Im z) cosh(Im w); likewise (z + w).cos() and z.cos() * w.cos() - z.sin() * w.sin(), and, with cosh(Re z) cosh(Re w), (z + w).sinh() and z.sinh() * w.cosh() + z.cosh() * w.sinh(), (z + w).cosh() and z.cosh() * w.cosh() + z.sinh() * w.sinh().", "quantifier": "all pairs of complex floats in the stated range, all libms within the error bound, every binary format with at least 24 digits", "why_tests_cant": "the crate has no test of these four addition theorems, and a randomized test would see a few thousand of the 2^128 pairs; the bound must hold for every pair", "anchors": ["src/algebra/complex.rs: Sin, Cos, Sinh, Cosh, Add, Sub, Mul for Complex<T>", "src/functions/sin.rs, cos.rs, sinh.rs, cosh.rs"]}
{"id": "C107", "title": "Without cancellation float results have a small relative error, which does grow with the number of terms; with cancellation not even the sign is right", "statement": "Let u be the unit roundoff. Where every term is non-negative (a_i x^i >= 0 for p.eval(x); u_i v_i >= 0 for a dot product; every product of an entry of a row with one of a column for a product of matrices or of a matrix and a vector), a finite result has relative error at most (1+u)^(2n) - 1 (eval, degree n) or (1+u)^n - 1 (n products), up to an underflow term: no matter how the magnitudes vary. In general the relative error is at most that times the condition number sum|terms| / |sum of terms|. The growth with n is real: for every n there is a polynomial of degree n and there are vectors of length n+1 without cancellation for which the error is exactly n u at the exact value 1 + n u (refuting an error bound independent of n). With cancellation not even the sign is right (refuted): the f64 value of x^3 + u x^2 - x - u/2 at 1 is -u/2 whereas the exact value is u/2, and the same holds of the dot product of (1, u, -1, -u/2) and (1, 1, 1, 1).", "quantifier": "all polynomials, arguments, vectors and matrices of every length over every binary floating-point format whose result is finite; the growth: every n, in f32 and f64", "why_tests_cant": "the bound ranges over all lengths and all float contents, and the linear growth needs a family of inputs for every n; the crate's tests use a handful of exactly representable inputs of length at most 4", "anchors": ["src/algebra/polynomial.rs: Polynomial::eval", "src/linalg/svector.rs: SVector::dot", "src/linalg/dvector.rs: dot", "src/linalg/smatrix.rs: Mul", "src/linalg/dmatrix.rs: Mul"]}
{"id": "C108", "title": "The complex tangent is accurate in a wide strip around the real axis and NaN far from it, where the exact tangent is i or -i", "statement": "For every complex z with |Im z| >= 1 the exact tangent is within 5/2 exp(-2|Im z|) of i (or of -i for Im z < 0). Let libm's sin, cos, sinh and cosh be accurate to a relative error d (at least the unit roundoff u). In every binary floating-point format Complex::tan is finite with |computed - tan z| <= 12.5 d |tan z| whenever cosh(Im z) <= 2^(2k) and |sin z|, |cos z| >= 2^(-2k) for a k bounded by the format: in f32 for every z with 2^-50 <= |Im z| <= 35, and in f64 for |Im z| <= 345 with |sin z|, |cos z| >= 2^-498. Near the zeros of the tangent no lower bound on |sin z| is needed: for |cos z| >= 2^(-2k) the result is finite and |computed - tan z| |cos z| <= 12.5 d max(|sin z|, 2^(-2k)), so in f32 (k = 25, |Im z| <= 35) and f64 (k = 249, |Im z| <= 345) only a neighbourhood of the poles is left out. That the tangent is close to i or -i for every z far from the real axis is refuted: wherever sinh^2(Im z) exceeds the format's range the imaginary part returned is NaN and the real part is NaN or 0, in f32 for every z with |Im z| >= 46 and in f64 for every z with |Im z| >= 356, whatever Re z is.", "quantifier": "all complex f32 and f64 (and other binary format) arguments in the given regions, and all mathematical libraries with the stated accuracy", "why_tests_cant": "the claims range over every argument in an unbounded region of the plane and over every conforming mathematical library; the crate's test evaluates tan at a handful of points near the origin", "anchors": ["src/algebra/complex.rs: Tan, Sin, Cos, Div for Complex<T>", "src/functions/sin.rs", "src/functions/cos.rs", "src/functions/sinh.rs", "src/functions/cosh.rs"]}
{"id": "C109", "title": "Square roots and logarithms of complex floats that are large or small: infinite, NaN or wrong by a factor of sqrt 2 although the exact results are moderate", "statement": "The square root of a complex float has modulus at most 2^((emax+1)/2) and the logarithm of its modulus is at most emax + prec in absolute value, so both are representable for every finite non-zero z. Refuted: for every finite z with a component whose square exceeds the range (|component| >= 2^64 in f32, 2^512 in f64) Complex::sqrt returns an infinite component (never NaN) and the real part of Complex::ln is +infinity. For every non-zero z both of whose squared components are at most half the smallest positive number (components up to 2^-75, 2^-538): the real part of ln is -infinity; where |Re z| <= 2|Im z| (and Re z is not among the three smallest magnitudes) sqrt returns NaN, in the imaginary part for Re z > 0 and in the real part for Re z < 0, e.g. for 2^-600 (1 + i); where |Re z| > 2|Im z| (and z is not among the very smallest numbers) the larger component of the result is at most 3/4 and the smaller one at least 7/5 of the exact component.", "quantifier": "all complex numbers in the given regions over every binary floating-point format of precision at least 11, all mathematical libraries", "why_tests_cant": "the claims hold for whole regions of the plane that the crate's randomized test (components between -5 and 5) practically never enters", "anchors": ["src/algebra/complex.rs: Sqrt, Ln, Abs for Complex<T>, sqr_norm", "src/functions/sqrt.rs", "src/functions/log.rs"]}
{"id": "C110", "title": "Complex exp, sin, cos, sinh, cosh are finite exactly where the real functions they call are, and overflow in both components although the exact result is representable", "statement": "If libm's sin and cos of finite arguments are finite and at most 1 in magnitude, then in every binary floating-point format and for every finite z: both components of z.exp() are finite when libm's exp(Re z) is finite, and neither is otherwise; the real parts of z.sin() and z.cos() are finite exactly when libm's cosh(Im z) is and the imaginary parts exactly when sinh(Im z) is, and likewise for sinh and cosh with Re z. That a result is finite whenever the exact one is representable is refuted: with a libm that overflows beyond 2^emax, exp(z) has no finite component for any z with 2^emax <= e^(Re z) <= 5/4 * 2^emax and |cos Im z|, |sin Im z| <= 3/4, although both exact components are below 15/16 * 2^emax; in f32 this covers Re z in [88.73, 88.92], in f64 [709.82, 709.97]. The same holds of sin, cos (|Im z| in [89.43, 89.61], [710.52, 710.66]) and of sinh and cosh.", "quantifier": "all finite complex arguments over every binary floating-point format and all mathematical libraries with the stated properties", "why_tests_cant": "the equivalence ranges over all arguments and libraries; the crate's tests use arguments of magnitude at most 4", "anchors": ["src/algebra/complex.rs: Exp, Sin, Cos, Sinh, Cosh for Complex<T>", "src/functions/exp.rs", "src/functions/cosh.rs", "src/functions/sinh.rs"]}
{"id": "C111", "title": "The laws of square roots hold for complex floats up to rounding and, where the principal branch demands it, up to sign", "statement": "For Complex<f32> (2^-25 <= |z|, |w| <= 2^25) and Complex<f64> (2^-249 to 2^249), however small a single component is, with u the unit of roundoff: z.sqrt() * z.sqrt() is within 27 u |z| of z; (z * z).sqrt() is within 15 u |z| of z or of -z, of z if Re z > 3 u |z| and of -z if Re z < -3 u |z|; (z * w).sqrt() is, up to sign, within 41.5 u sqrt(|z||w|) of z.sqrt() * w.sqrt(), and (z / w).sqrt() within 50 u sqrt(|z|/|w|) of z.sqrt() / w.sqrt(); z.sqrt().abs() is within 18 u sqrt|z| of z.abs().sqrt(). Nothing overflows or becomes NaN on the way. The sign is needed: sqrt((-4)(-4)) = 4 but sqrt(-4) sqrt(-4) = -4.", "quantifier": "all finite complex floats z, w with absolute values in the stated range, every binary format with at least 24 bits and exponent range 4k + 26 <= emax", "why_tests_cant": "error constants and the choice of the sign must hold for every pair of arguments, near the branch cut as well as away from it; sampling cannot certify them", "anchors": ["src/algebra/complex.rs: Sqrt for Complex<T>", "src/algebra/complex.rs: Mul for Complex<T>", "src/algebra/complex.rs: Div for Complex<T>", "src/algebra/complex.rs: Abs for Complex<T>"]}
{"id": "C112", "title": "The laws of logarithms hold for complex floats up to rounding and full turns", "statement": "For Complex<f32> (2^-25 <= |z|, |w| <= 2^25) and Complex<f64> (2^-249 to 2^249), with d bounding the relative error of libm's functions: the real part of (z * w).ln() is within (4.1 (|ln|z|| + |ln|w||) + 6) d of that of z.ln() + w.ln(), and the imaginary parts agree within 12 d up to n full turns, n = -1, 0 or 1; (z / w).ln() agrees with z.ln() - w.ln() within (4.1 (|ln|z|| + |ln|w||) + 10) d and 16 d, again up to n = -1, 0 or 1 full turns; z.sqrt().ln() agrees with z.ln() / 2 within (2.1 |ln|z|| + 15) d and 18 d, with no turn at all unless z is a negative real number, where the logarithm of the root is pi/2 i + ln|z|/2 up to 18 d: a half turn is missing (refuting ln(sqrt z) = ln(z)/2) where atan2 returns -pi, as it does for conj(-1) = -1 - 0i. The computed arguments obey the same laws: arg(z * w) = arg z + arg w within 12 d and arg(z / w) = arg z - arg w within 16 d up to n = -1, 0 or 1 full turns, arg(sqrt z) = arg(z) / 2 within 18 d. Nothing overflows or becomes NaN on the way.", "quantifier": "all finite complex floats z, w with absolute values in the stated range, every libm with relative error at most d, every binary format with at least 24 bits and exponent range 4k + 26 <= emax", "why_tests_cant": "error constants and the number of turns must hold for every pair of arguments and for every libm; sampling cannot certify them", "anchors": ["src/algebra/complex.rs: Ln for Complex<T>", "src/algebra/complex.rs: Mul for Complex<T>", "src/algebra/complex.rs: Div for Complex<T>", "src/algebra/complex.rs: Sqrt for Complex<T>", "src/algebra/complex.rs: Complex::arg"]}
