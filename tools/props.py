import json
P=[]
def p(title, statement, quantifier, why, anchors):
    P.append(dict(id="C%02d"%(len(P)+1), title=title, statement=statement, quantifier=quantifier, why_tests_cant=why, anchors=anchors))
M="src/matrix.rs"
p("Construction accepts exactly the consistent shapes",
  "Matrix::new(r, c, data) succeeds iff r*c == data.len() and r, c > 0; the result then has r rows, c columns and element (i,j) equal to data[i*c+j]. vector/row_vector succeed iff the data is non-empty and give an n x 1 / 1 x n matrix with the data in order. In every other case the call panics.",
  "every r, c, every data vector, every element type", "the accepted set is infinite and its boundary (zero dimensions, off-by-one lengths) is shape dependent",
  [f"{M}:26-40 Matrix::new, vector, row_vector", f"{M}:43-46 rows, cols"])
p("get/set behave as a two-dimensional array",
  "get, get_ref and m[(i,j)] agree; they succeed iff i < rows and j < cols and panic otherwise. After set(i,j,v) (or a write through get_mref) reading (i,j) gives v, every other element and the shape are unchanged; set succeeds exactly when get does.",
  "every matrix, every index pair in or out of range, every value", "aliasing between distinct (i,j) pairs in the flat vector must be excluded for all shapes",
  [f"{M}:54-63 get_ref, get_mref", f"{M}:294-303 get, set", f"{M}:728-733 Index"])
p("Transpose is the mathematical transpose",
  "t() of an m x n matrix is the n x m matrix whose (i,j) element is the original (j,i) element; t(t(A)) = A; it never panics on a constructed matrix.",
  "every shape and content, every element type", "the source index is computed incrementally with a wrap-around; only an invariant over all shapes settles it",
  [f"{M}:347-363 t"])
p("In-place transpose equals out-of-place transpose",
  "mt() leaves in the matrix exactly the value t() would return, for every shape; its inner cycle-following loop always terminates, and no element is lost or duplicated.",
  "every shape (square, wide, tall, vectors) and content", "termination and correctness depend on the cycle structure of i -> i*rows mod (len-1) for every shape",
  [f"{M}:365-389 mt"])
p("Horizontal and vertical concatenation",
  "A.cr(B) (= A | B) succeeds iff the row counts agree and is the block row [A B]; A.cb(B) succeeds iff the column counts agree and is the block column [A; B]; all elements of both operands appear at their block position.",
  "all pairs of matrices of all shapes", "four running indices must stay in step for every pair of shapes",
  [f"{M}:305-345 cr, cb", f"{M}:735-740 BitOr"])
p("minor deletes exactly one row and one column",
  "minor(r, c) succeeds iff r, c are in range and both dimensions exceed 1; the result is the matrix with row r and column c deleted and the order of the rest kept.",
  "every matrix of at least 2x2 and every (r, c)", "skip logic must be right at every boundary position of every shape",
  [f"{M}:391-412 minor"])
p("sub_matrix returns the requested half-open block",
  "sub_matrix(r0,c0,r1,c1) should return the block of rows r0..r1 and columns c0..c1 whenever r0<r1<=rows and c0<c1<=cols and panic otherwise.",
  "every matrix and every quadruple of bounds", "the accept/reject boundary is a four-parameter family",
  [f"{M}:414-435 sub_matrix"])
p("get_column extracts a column",
  "get_column(c) succeeds iff c < cols and is the rows x 1 matrix with (i,0) element equal to element (i,c).",
  "every matrix, every c", "stride arithmetic for every shape", [f"{M}:437-449 get_column"])
p("permute_rows / permute_columns gather rows and columns",
  "permute_rows(rs) succeeds iff every index is in range; row i of the result is row rs[i] of the input (repetition and omission allowed); likewise for permute_columns. Applying a permutation and then its inverse restores the matrix.",
  "every matrix and every index list, of any length, with repetition", "index lists are unbounded", [f"{M}:451-492 permute_rows, permute_columns"])
p("filter/select keep exactly the chosen rows or columns in order",
  "filter_rows(f) keeps the rows for which f(m,row) is true, in order; select_rows(sel) succeeds iff sel.len()==rows and keeps the rows whose flag is true; likewise for columns.",
  "every matrix, every predicate, every selector", "predicates and selectors are arbitrary", [f"{M}:494-534 filter_rows, filter_columns, select_rows, select_columns"])
p("map, mmap and reduce",
  "map(f) applies f to every element and keeps the shape; mmap(f) leaves what map(f) returns; reduce(init,f) succeeds iff init.len()==cols and gives the 1 x cols matrix whose j-th entry is the left fold of f over column j (top to bottom) starting at init[j].",
  "every matrix, every function f, every init", "functions and shapes are arbitrary; reduce interleaves the folds of all columns", [f"{M}:65-98 map, mmap, reduce"])
p("Constant constructors",
  "id(m,n) has 1 on the main diagonal and 0 elsewhere; zero(m,n), zero_vector(n), one_vector(n) are constant; diag(d) and block_diag(m,n,d) have d on the diagonal and 0 elsewhere; block_diag panics unless d.len()==min(m,n); random(m,n) has the requested shape.",
  "every dimension and diagonal", "diagonal stride for every shape", [f"{M}:112-179 id, zero, diag, block_diag, zero_vector, one_vector", f"{M}:570-579 random"])
p("Element-wise operators and their in-place twins",
  "-A, A+B, A-B, elem_mul, elem_div and scale act element by element; the binary ones succeed iff the shapes agree (and no element operation panics); every in-place variant (mneg, madd, msub, melem_mul, melem_div, mscale) leaves exactly what the pure variant returns, whatever the element type's arithmetic.",
  "all pairs of matrices, every element type and every (possibly non-associative, possibly failing) arithmetic", "the agreement must hold for floating-point as well as integer arithmetic, for every shape", [f"{M}:181-271", f"{M}:581-682"])
p("Matrix multiplication",
  "A*B succeeds iff A.cols()==B.rows(); its (i,j) element is 0 + a_i0*b_0j + a_i1*b_1j + ... evaluated in that order in the element type's arithmetic; mmul agrees with it; over a ring it is the mathematical product (associative, distributive, id neutral, (AB)^T = B^T A^T).",
  "all conforming and non-conforming pairs, every element type", "shapes and contents unbounded; algebraic laws are universally quantified", [f"{M}:273-289 mmul", f"{M}:685-726 Mul"])
p("Uninitialised memory is never observable",
  "Methods that allocate their result with alloc_dirty_vec overwrite every element before returning: the result is the same whatever the allocated memory contained.",
  "every possible content of the uninitialised allocation, every input", "a test sees one heap content; the bug would be heisenbug-like undefined behaviour", ["src/internalutil.rs:7-13 alloc_dirty_vec", "all callers in src/matrix.rs and src/decomp/*.rs"])
p("Shape invariant over any sequence of operations",
  "Starting from any constructed matrix, any sequence of the mutating methods (set, mmap, mneg, mscale, madd, msub, melem_mul, melem_div, mmul, mt) and pure methods behaves like the same sequence on mathematical matrices: data.len() == rows*cols with rows, cols > 0 always holds, and each step panics exactly when the abstract operation is undefined.",
  "every finite history of operations with arbitrary arguments", "histories are unbounded", [f"{M}:25-535"])
p("trace", "trace() is the sum of the elements (i,i) for i < min(rows, cols), for square and rectangular matrices.", "every matrix", "index stride for every shape", [f"{M}:743-751 trace"])
p("LU decomposition: P*A = L*U with partial pivoting",
  "For every m x n matrix LUDecomposition::new succeeds and get_l is unit lower trapezoidal with all entries of absolute value at most 1, get_u is upper trapezoidal, get_p is the permutation matrix of get_piv (a permutation of 0..m), and P*A = L*U (exact arithmetic).",
  "every matrix of every shape including singular and rectangular ones", "requires an invariant over the elimination for all sizes and pivot choices", ["src/decomp/lu.rs:104-222"])
p("det is the determinant",
  "det() of a square matrix is its determinant (Leibniz formula), including singular matrices; it panics on non-square ones. Hence det(AB)=det(A)det(B), det(A^T)=det(A).",
  "every square matrix", "sign of the pivot permutation must be tracked for every pivot sequence", [f"{M}:753-756 det", "src/decomp/lu.rs:224-232"])
p("solve (LU) solves the linear system or reports singularity",
  "For square A and B with A.rows()==B.rows(): solve returns None iff A is singular and otherwise Some(X) with A*X = B (X the unique solution). It panics iff the row counts differ.",
  "every square A (singular or not) and every B of any width", "correctness for every pivoting sequence and size", [f"{M}:758-760 solve", "src/decomp/lu.rs:237-278"])
p("inverse",
  "inverse() of a square matrix is None iff the matrix is singular and otherwise Some(X) with A*X = X*A = I; it panics on non-square matrices; inverse(inverse(A)) = A.",
  "every square matrix", "needs all sizes and pivot sequences", [f"{M}:762-765 inverse"])
p("is_singular / is_non_singular", "is_non_singular() is true iff det != 0 iff the matrix is invertible; is_singular is its negation.", "every square matrix", "decision must be right for every matrix", [f"{M}:768-775", "src/decomp/lu.rs:224-232"])
p("Cholesky decides positive definiteness and factors",
  "CholeskyDecomposition::new returns Some iff the matrix is square, symmetric and positive definite; get_l is then lower triangular with positive diagonal and L*L^T = A (and is the unique such matrix).",
  "every matrix of every shape", "an iff over all matrices; needs existence and uniqueness of the factorisation", ["src/decomp/cholesky.rs:56-113"])
p("Cholesky solve", "For a decomposition of A and B with matching rows, solve(B) returns X with A*X = B; it panics iff the row counts differ.", "every symmetric positive definite A and every B", "two triangular solves, all sizes", ["src/decomp/cholesky.rs:116-144"])
p("QR factorisation",
  "For every m x n matrix QRDecomposition::new succeeds; get_r is upper triangular (m x n); get_q is m x m; Q*R = A; the first min(m,n) columns of Q are orthonormal.",
  "every matrix of every shape and rank", "Householder invariant for all sizes", ["src/decomp/qr.rs:26-194"])
p("QR get_q is an orthogonal matrix", "get_q() returns an orthogonal m x m matrix (Q^T Q = I).", "every matrix", "tall matrices of all shapes", ["src/decomp/qr.rs:151-194"])
p("QR full-rank test", "is_full_rank() is true iff the matrix has full (column) rank.", "every matrix", "rank is a property of all entries", ["src/decomp/qr.rs:108-115"])
p("QR solve", "solve(B) returns the (least squares) solution of A*X = B when A has full column rank and None otherwise.", "every full column rank A and every B", "all sizes", ["src/decomp/qr.rs:199-238"])
p("pinverse is the Moore-Penrose inverse", "pinverse() returns the Moore-Penrose pseudo-inverse of the matrix.", "every matrix (full column rank, rank deficient, wide)", "four Penrose equations for all matrices", [f"{M}:777-785"])
p("Norms",
  "vector_euclidean_norm = length = vector_2_norm = sqrt(sum x_i^2); vector_1_norm = sum |x_i|; vector_inf_norm = max |x_i|; frobenius_norm = sqrt of the sum of all squares; the vector norms panic unless cols==1. They satisfy the norm axioms (positivity, homogeneity, triangle inequality).",
  "every vector/matrix", "inequalities over all pairs", [f"{M}:787-851"])
p("Symmetry test", "is_symmetric() is true iff the matrix is square and |a_ij - a_ji| < 1e-6 for all i, j; it never panics on a constructed matrix.", "every matrix", "early exits in a nested loop, all sizes", [f"{M}:853-867"])
p("approx_eq", "approx_eq(A,B) is true iff shapes agree and all elements differ by less than 1e-6 in absolute value; it is reflexive and symmetric (exact arithmetic) but not transitive; it never panics on constructed matrices.", "all pairs of matrices", "quantified over all pairs", [f"{M}:869-875", "src/approxeq.rs"])
p("Equality of matrices", "A == B iff the shapes and all elements are equal.", "all pairs of constructed matrices", "all pairs", [f"{M}:19-23 derive(PartialEq)"])
p("hypot", "hypot(a,b) = sqrt(a^2+b^2) in exact arithmetic and never divides by zero.", "all a, b", "all reals; includes a=b=0 and ties", ["src/internalutil.rs:17-27"])
p("SVD reconstructs the matrix",
  "SVD::new returns for every matrix (the iteration converges, within a number of rounds bounded in terms of the shape, the norm and the smaller threshold). U and V have orthonormal columns, S is diagonal with non-negative entries in non-increasing order, and A = U*S*V^T up to the convergence thresholds the code uses (exactly, if the thresholds are zero); the algorithm never divides by zero, takes the root of a negative number or indexes out of bounds in exact arithmetic.",
  "every matrix, every number of iterations of the outer loop", "iterative algorithm with four cases; invariant over all iterations", ["src/decomp/svd.rs:22-420"])
p("SVD rank", "rank() is the number of singular values above the tolerance and does not panic.", "every matrix", "all shapes", ["src/decomp/svd.rs:441-451"])
p("Symmetric eigen-decomposition", "For a symmetric matrix, whenever EigenDecomposition::new returns, V is orthogonal, the imaginary parts are zero, the real parts are sorted in non-increasing order, and A = V*D*V^T (so A*V = V*D) up to the convergence threshold (12 n eps |A|_F; exactly, if eps is zero); it never panics or divides by zero. It always returns: if eps > 0, k QL iterations per eigenvalue suffice for every symmetric matrix of every size as soon as 2^k eps^6 >= 16 (316 for f64). A matrix with fewer rows than columns panics; with more rows than columns the extra rows are ignored.", "every symmetric matrix, every number of QL iterations", "iterative; all sizes", ["src/decomp/eigen.rs tred2, tql2, new"])
p("Hessenberg reduction", "The reduction used for non-symmetric matrices yields H upper Hessenberg and V orthogonal with A = V*H*V^T.", "every square matrix", "invariant for all sizes", ["src/decomp/eigen.rs orthes"])
p("Complex division used by the eigen-decomposition", "The scalar complex division returns the exact quotient (xr+i*xi)/(yr+i*yi) for every non-zero divisor.", "all real quadruples with non-zero divisor", "all reals, both branches", ["src/decomp/eigen.rs cdiv"])
p("Eigenvalue matrix get_d", "get_d() is block diagonal: real eigenvalues on the diagonal and 2x2 blocks [re im; -im re] for complex pairs, and zero elsewhere.", "every decomposition result", "all sizes and eigenvalue patterns", ["src/decomp/eigen.rs get_d"])
p("CSV reading", "read_csv returns the matrix whose (i,j) entry is the parse of the trimmed j-th comma separated field of line i; it panics iff the file has no line or the lines have different field counts.", "every file content and parser", "file contents unbounded", ["src/util.rs:9-35 read_csv"])
p("m! macro", "m!(a,b;c,d) builds the matrix with the given rows.", "every rectangular list of rows", "number of rows and columns unbounded", ["src/macros.rs"])
p("Debug output", "The Debug rendering has one line per row, every cell right-aligned to the widest element, and never panics on a constructed matrix.", "every matrix and element renderer", "max_width - len must never underflow", [f"{M}:543-568 fmt"])
p("No size computation overflows", "Constructors and index computations never silently overflow usize: a returned matrix always has data.len() == rows*cols.", "every usize argument", "needs sizes near 2^64", [f"{M}:26-30, 112-134, 365-389, 414-435"])
p("Scaled linear systems and API-level laws", "solve(A, A*X) = Some(X) for invertible A; inverse(A*B) = inverse(B)*inverse(A); det(id)=1; trace(A*B)=trace(B*A); solve(A,B) = inverse(A)*B; Cholesky, LU and QR agree on det/solve.", "all conforming matrices", "universally quantified algebra over API calls", [f"{M}", "src/decomp/*.rs"])
p("Householder vectors", "get_h() is an m x n lower trapezoidal matrix; the product of the reflections I - 2vv'/v'v given by its columns (identity for a zero column), times get_r(), is the matrix.", "every matrix of every shape and rank", "invariant over all columns", ["src/decomp/qr.rs:117-132"])
p("SVD by the direct method", "Whenever SVD::direct returns, U*S*V^T = A exactly, S is rectangular diagonal with positive entries in non-increasing order, and the factor on the shorter side is orthogonal (the other one has orthonormal columns followed by zero columns, so it is not orthogonal for a non-square matrix). It returns only for matrices of full rank min(m,n) and panics for all others (exact arithmetic, zero threshold).", "every matrix of every shape and rank, every number of QL iterations", "all matrices; the repository's own tests pass on rank deficient matrices only because of rounding", ["src/decomp/svd.rs:452-498"])
p("Eigen-decomposition of a matrix that is not symmetric", "For a square matrix that is not symmetric, whenever EigenDecomposition::new returns: complex eigenvalues come in adjacent conjugate pairs, positive imaginary part first; the returned numbers are, with multiplicities, the eigenvalues of a matrix within ((1+(18+2n^2)eps)^iterations - 1)|A|_F of A; V is invertible; and, unless two conjugate pairs coincide, A*V = V*D up to a bound that vanishes with eps, D being the matrix get_d returns. It never panics, divides by zero or takes the root of a negative number. A 2 x 2 matrix always returns within three iterations.", "every square matrix that is not symmetric, every number of QR iterations, every content of the uninitialised buffers", "iterative algorithm with deflation, exceptional shifts and complex back substitution; all sizes, all iteration counts", ["src/decomp/eigen.rs orthes, hqr2, cdiv, new"])
p("f64 comparisons and NaN", "On f64 matrices approx_eq is symmetric; approx_eq(A,A) and is_symmetric of an exactly symmetric matrix are true iff every element is finite; A == A iff no element is NaN. None of them panics for any f64 element (NaN and infinities included).", "every f64 matrix of every shape", "2^64 values per element, all shapes; NaN breaks reflexivity", [f"{M}:853-875", "src/approxeq.rs"])
p("f64 rounding error of products, sums and norms", "For f64 matrices the computed product, trace, vector_1_norm, vector_2_norm and frobenius_norm differ from the exact values of the same elements by at most the standard bounds ((1+u)^k - 1 relative to the sum of the absolute values, plus an underflow term), whenever the result is finite; the product is finite if the exact sums are below an explicit threshold; vector_inf_norm is exact.", "every f64 matrix of every shape", "an error bound over all inputs of all sizes", [f"{M}:365-389 (mul)", f"{M}:787-851 (norms)"])
p("f64 backward stability of the LU decomposition", "For every f64 matrix (NaN and infinities included) LUDecomposition::new and its getters return. If the elements of L and U are finite, then so are those of A, every element of L has absolute value at most 1, and P*A - L*U is bounded componentwise by ((1+u)^r - 1)|L||U| plus an underflow term, r = min(m,n).", "every f64 matrix of every shape", "an error bound over all inputs and pivot sequences of all sizes", ["src/decomp/lu.rs:20-168"])
p("f64 residual of solve and inverse", "For every square f64 matrix A and right-hand side B (NaN and infinities included) solve(B) and inverse() do not panic: they return None exactly when a diagonal element of U is zero; otherwise, if L, U and X are finite, the residual B - A*X is bounded componentwise by ((1+u)^(3n) - 1)|L||U||X| plus an underflow term.", "every square f64 matrix and every f64 right-hand side", "an error bound over all inputs of all sizes", [f"{M}:735-765", "src/decomp/lu.rs:184-260"])
p("f64 Cholesky: backward error, meaning of acceptance, NaN",
  "For every square f64 matrix, CholeskyDecomposition::new returns None or a lower triangular L that does not depend on uninitialised memory. If L has only finite entries then the matrix is finite and symmetric, the diagonal of L is positive, L L' equals the matrix up to ((1+u)^(n+1)-1)|L||L'| plus an underflow term, and x'Ax >= -tolerance*|x|^2 for every real x with an explicit tolerance proportional to the unit roundoff times the trace. If in addition solve returns finite numbers, they satisfy A X = B up to an explicit residual. Acceptance says nothing about a matrix holding NaN: a NaN in the top left corner is accepted with a factor of NaN.",
  "all square f64 matrices of every size, all right-hand sides, all contents of uninitialised memory, all real vectors x",
  "the bound must hold for every rounding pattern and size; tests can only compare a few matrices",
  ["src/decomp/cholesky.rs: CholeskyDecomposition::new, solve"])
p("f64 Cholesky: well-conditioned positive definite matrices are accepted",
  "If a symmetric finite f64 matrix of size N is positive definite by the margin 10*N*((1+u)^(N+1)-1)*trace, its trace lies in [2^-900, 2^1000] and 16*((1+u)^(N+1)-1) <= 1, then CholeskyDecomposition::new returns Some with a finite factor: no overflow, no spurious None.",
  "all sizes, all such matrices, all contents of uninitialised memory",
  "acceptance must survive every rounding pattern",
  ["src/decomp/cholesky.rs: CholeskyDecomposition::new"])
p("f64 element-wise operations are correctly rounded", "On f64 matrices +, -, elem_mul, elem_div and scale never panic on matching shapes; every finite element of the result is a closest f64 to the exact value of the operation on the operands, and it is finite whenever the operands are and the exact value is at most 2^1023 in absolute value. Negation is exact.", "every pair of f64 matrices of equal shape, every f64 factor", "2^128 operand pairs per element", [f"{M}:182-275 (scale, elem_mul, elem_div)", f"{M}:581-682 (Neg, Add, Sub)"])
p("f64 determinant", "det never panics on a square f64 matrix (NaN and infinities included); a finite result is the exact product of the diagonal elements of the computed U, with the sign of the row permutation, up to a relative error (1+u)^n - 1 plus an underflow term.", "every square f64 matrix", "an error bound over all inputs of all sizes", [f"{M}:753-756", "src/decomp/lu.rs:224-232"])
p("f64 hypot", "hypot(a, b) never panics. For all finite a, b with sqrt(a^2+b^2) <= 2^1022 it is finite, non-negative and within (1+u)^5 - 1 (plus half a subnormal) of the exact value, although a*a + b*b overflows from 2^512 on. NaN and infinities are not propagated as IEEE 754 prescribes: hypot(NaN, 0) = 0 and hypot(inf, inf) = NaN.", "every pair of f64 numbers", "2^128 pairs", ["src/internalutil.rs:17-29 hypot"])
p("f64 backward stability of the QR decomposition", "For every f64 matrix QRDecomposition::new, get_r and get_h return, R upper and H lower trapezoidal, independently of uninitialised memory. If R and H are finite and every diagonal element of R is 0 or has magnitude in [2^-480, 2^510], then A is finite and there is an exactly orthogonal Q with, for every column, |A_j - Q R_j| <= ((1+25E)^r - 1)|A_j| + r(1+25E)^r 2^-512 (Euclidean norm), E = (1+u)^(m+3) - 1, r = min(m,n), m <= 2^47. Without the upper limit the claim is false: a product overflows and a finite but wrong R is returned silently.", "every f64 matrix of every shape and rank, all contents of uninitialised memory", "an error bound over all inputs and sizes, and the existence of an exactly orthogonal factor no computation returns", ["src/decomp/qr.rs:26-148"])
p("f64 get_q of the QR decomposition", "get_q never fails on the decomposition of an f64 matrix. If R, H and Q are finite and every diagonal element of R has magnitude in [2^-480, 2^510] or is 0 together with that of H, the first r = min(m,n) columns of Q are within delta = (1+25E)^r - 1 + r(1+25E)^r 2^-512 of an orthonormal system (inner products off by at most 2 delta + delta^2), and |A_j - (Q R)_j| is at most the bound of the decomposition plus delta times the sum of |R_lj|. Without the condition on zero diagonals the claim is false: get_q tests the wrong diagonal and divides by zero when a squared norm underflows.", "every f64 matrix of every shape and rank", "an error bound over all inputs and sizes", ["src/decomp/qr.rs:65-115 get_q"])
p("f64 SVD and eigenvalues: no panic, no protection against overflow", "For every f64 matrix (NaN and infinities included) SVD::new either returns factors of the right shapes or does not terminate; so does EigenDecomposition::new for every square matrix not equal to its transpose, and get_d succeeds on what it returns. They do not panic. Neither termination nor a meaningful answer is guaranteed for finite data near the overflow threshold: there are finite matrices for which SVD::new never returns, an invertible one for which it returns only zero singular values, and one holding a NaN for which it returns finite factors; EigenDecomposition::new never returns, returns only zero eigenvalues for an invertible matrix, and for symmetric matrices never returns or panics.", "every f64 matrix of every shape, every number of iterations, all contents of uninitialised memory", "all bounds checks in nested data-dependent loops, for all outcomes of floating point comparisons; non-termination cannot be tested", ["src/decomp/svd.rs", "src/decomp/eigen.rs"])
p("Machine integer matrices: overflow", "For integer element types of any width, signed or unsigned. Without overflow checks (release), every program of the Num-generic calls that only copy, add, subtract, multiply and negate leaves in every element of every matrix the exact mathematical result reduced modulo 2^width to the type: overflow of intermediate values never matters for a final value that is representable. With overflow checks (debug) it panics iff some elementary product, partial sum or other arithmetic result of the exact computation (or a literal) is not representable, and otherwise finishes with the exact values, the same as without checks. elem_div panics in both modes iff a divisor is zero or the quotient is MIN / -1, and otherwise gives the truncated quotients.", "every integer type, every program over any number of matrix variables of any shapes, all contents of uninitialised memory", "every history of calls and every pattern of intermediate overflows", [f"{M}:111-290", f"{M}:581-726"])
p("f32 matrices: the rounding theorems, and SVD::new", "The statements about f64 matrices (comparisons and NaN, products, sums and norms, LU, solve, inverse, Cholesky, element-wise operations, determinant, hypot, QR and its Q, no panic in SVD::new and EigenDecomposition::new, behaviour near the overflow threshold) hold for f32 matrices with the constants of that format (u = 2^-24, range up to 2^127). One thing is different: the convergence thresholds of SVD::new are written for f64, and in f32 SVD::new never returns for some ordinary matrices of small integers, such as [39 -3; -3 -39] and [2 -1 -2; 1 2 -1; -2 -1 -2].", "every f32 matrix of every shape; for non-termination every number of rounds", "bounds over all inputs; non-termination cannot be observed by a test", [f"{M}", "src/decomp/lu.rs", "src/decomp/cholesky.rs", "src/decomp/qr.rs", "src/decomp/svd.rs:226-227", "src/decomp/eigen.rs", "src/approxeq.rs:18-32", "src/internalutil.rs:17-27"])
p("f64 LU: no overflow, well-conditioned systems are solved, forward error", "Let the elements of the f64 matrix A be at most M in magnitude, with about 2^(r-1) M <= 2^1023 (r = min(m,n); the exact condition includes the rounding of the growth). Then L and U of LUDecomposition are finite, |L| <= 1 and row i of U is at most about 2^i M. If moreover A is square with a (real) inverse V of absolute row sums at most K, and K times the rounding error the factors can carry is below 1, then is_non_singular is true, solve and inverse return a matrix, and a finite result X differs from the exact V B (from V for inverse) by at most K times the residual bound: a matrix that is not nearly singular is never reported as singular.", "every f64 matrix meeting the stated condition, every size and right-hand side, all contents of uninitialised memory", "a bound over all inputs and sizes; element growth of partial pivoting is exponential in the worst case, which no sample shows", ["src/decomp/lu.rs", "src/matrix.rs:753-775"])
p("f64 Cholesky solver: forward error", "For a symmetric f64 matrix A that is positive definite by the margin of C54, with diagonal at most D and a (real) inverse V of absolute row sums at most K, CholeskyDecomposition::new returns a factor, solve returns a matrix X for every right-hand side B, and if X is finite it differs from V B, element by element, by at most K ((1+u)^(3n+1) - 1) 2D times the sum of the magnitudes in its column, plus an underflow term.", "every f64 matrix meeting the condition, every size and right-hand side", "an error bound against the exact solution over all inputs", ["src/decomp/cholesky.rs:56-150"])
p("f64 NaN and infinities in the results", "The Frobenius norm, vector_1_norm, vector_2_norm and euclidean norm of an f64 matrix are NaN exactly when an element is NaN, and plus infinity when an element is infinite and none is NaN. An element of a product, the trace and the determinant are NaN when an element they are computed from is. solve and inverse never turn a NaN of A into a matrix without NaN: they return None or an X with a row of NaN; a NaN in a column of B gives a NaN in that column of X. vector_inf_norm does not propagate NaN: its result is NaN iff the first element is, and otherwise the largest magnitude of the elements that are not NaN.", "every f64 matrix of every shape (NaN of every position), all contents of uninitialised memory", "every position of the NaN and every pattern of pivoting; cancellation of infinities", [f"{M}:365-389 (mul)", f"{M}:735-765", f"{M}:787-851 (norms)", "src/decomp/lu.rs"])
p("f64 solve and inverse: well-conditioned systems do not overflow", "Let the elements of A be at most M and those of B at most b in magnitude, and let A have a (real) inverse V of absolute row sums at most K, K times the rounding error of the LU factors being at most 1/4. If three explicit numbers (the growth bound of U, a bound for the intermediate sums and Z = 2Kn(Y + ...) for the solution) stay below 2^1023, then solve returns a matrix X, every element of X is finite and at most Z, and X differs from the exact solution V*B by at most K times the residual bound; likewise inverse with b = 1. Nothing is assumed about the computed result.", "every f64 matrix and right-hand side meeting the condition, every size, all contents of uninitialised memory", "finiteness of all intermediate results over all inputs and sizes", [f"{M}:735-765", "src/decomp/lu.rs:184-260"])
p("f64 Cholesky solver: well-conditioned systems do not overflow", "Let the symmetric f64 matrix A be positive definite by the margin of C54, with diagonal at most D, a (real) inverse V of absolute row sums at most K, K times the rounding error of the factor being small, and let the right-hand side be at most b in magnitude. If explicit bounds for the intermediate sums of the two substitutions and for the solution (Z, about 2K n w (2K n w b) with w^2 = 2D) stay below 2^1023, then CholeskyDecomposition::new returns a finite factor, solve returns a matrix X, every element of X is finite and at most Z, and X differs from the exact solution V*B by at most K times the residual bound of C64. Nothing is assumed about the computed result.", "every f64 matrix and right-hand side meeting the condition, every size, all contents of uninitialised memory", "finiteness of all intermediate results over all inputs and sizes", ["src/decomp/cholesky.rs:56-150"])
p("f64 QR decomposition: well-conditioned matrices do not overflow", "Let A be a finite f64 matrix with at least as many rows as columns, with column norms of at most M <= 2^198 and all singular values at least sg >= 2^-169, where sg is at least 2n times the rounding error bound ((1+25E)^n - 1) M + n (1+25E)^n 2^-512. Then QRDecomposition::new, get_r, get_h and get_q give finite matrices, is_full_rank is true, every diagonal element of R is between sg/4 and 4M in magnitude, the first n columns of Q are orthonormal and Q*R = A up to the errors of C59. Nothing is assumed about the computed result.", "every f64 matrix meeting the condition, every size, all contents of uninitialised memory", "finiteness of all intermediate results over all inputs and sizes", ["src/decomp/qr.rs:26-196"])
p("Panics inside a method: which calls are made and what is left behind", "A caller that catches a panic (catch_unwind, a joined thread) can go on with the matrix and with whatever its closures wrote. map, mmap and reduce call the closure once per element in row-major order (reduce on the accumulator of the element's column), filter_rows and filter_columns once per index in increasing order on the unchanged matrix; a panicking call is the last one made. If a call or an element operation panics (integer overflow with overflow checks, division by zero, a user-defined element type), mmap, mneg, mscale, madd, msub, melem_mul and melem_div leave the elements before it replaced and all others unchanged; mismatched shapes and an out-of-range set change nothing; mmul is all or nothing: it panics iff the shapes do not fit or an operation of one of the row by column products does, and then the receiver is unchanged. Whatever sequence of in-place methods is run, with any number of caught panics, the matrix still satisfies the shape invariant, and only a mmul or mt that returned changes its shape.", "every matrix, every closure with any effects and any panicking call, every element type whose operations may panic, every sequence of in-place calls", "the panic can happen at every element of every shape, and the histories are unbounded", ["src/matrix.rs:65-98 map, mmap, reduce", "src/matrix.rs:183-289 mneg, mscale, madd, msub, melem_mul, melem_div, mmul", "src/matrix.rs:299-303 set", "src/matrix.rs:494-512 filter_rows, filter_columns", "src/matrix.rs:365-389 mt"])
p("Reading a CSV file and printing a matrix, interrupted at any point", "read_csv parses the fields of the file line by line from left to right, every field once, with the white space around it removed. It stops (by a panic) at a file that cannot be opened, at a line that cannot be read, at a call of the parser that panics, or after a line with another number of fields than the line before, all of whose fields have been parsed by then; nothing after that is parsed. It returns iff none of these happens and there is a line, and then it returns the parsed values. With a parser without effects and a readable file this is C42. Debug writes a line feed, and then row by row a bar, for every cell the padding and the cell, and the end of the line, each piece at most once; it never panics and stops with an error at the first piece the formatter does not accept, so that what has been written is always an initial segment of the text of C43, and all of it iff Ok is returned. print does the same on standard output and panics on an error.", "every file content, every parser with any effects and any panicking call, every read error; every matrix, every Debug of the elements, every formatter with any failures", "errors can occur at every point of inputs of every size", ["src/util.rs:9-35 read_csv", "src/matrix.rs:536-567 print, Debug"])
p("f64 pinverse", "For every f64 matrix A (NaN and infinities included) pinverse either panics or returns a matrix X; it panics exactly when U of the LU decomposition of the computed N = R'R has a zero diagonal element. Suppose the factors H, L and U are finite and every diagonal element of R is 0 or has magnitude in [2^-480, 2^510]. If A'A has a (real) left inverse V with absolute row sums at most K, and K times the rounding error of N and of its factors is below 1, pinverse does not panic. If X is finite then A is, A'A X = A' up to an explicit bound in every element, made of the rounding errors of the QR decomposition, of R'R, of the inversion and of the last product, and X differs from the exact pseudo-inverse V A' by at most |V| times that bound. Without the condition on R both claims are false: for [2^-600] pinverse panics, and for [2^520] it silently returns [0].", "every f64 matrix of every shape and rank, all contents of uninitialised memory", "an error bound over all inputs and sizes, through four computations each of which rounds", [f"{M}:777-785 pinverse", "src/decomp/qr.rs", "src/decomp/lu.rs"])

p("f64 pinverse of a well-conditioned matrix", "Let A be a finite f64 matrix with at least as many rows as columns, all columns of norm at most M <= 2^198, whose singular values are at least sg >= 2^-169 and above 2 n times the rounding error of the QR decomposition, and let V be the real inverse of A'A with absolute row sums at most K, K times the rounding errors of R'R and of its LU factors being below explicit constants and four explicit magnitude bounds below 2^1023. Then pinverse does not panic, every element of its result X is finite and at most an explicit bound, A'A X = A' in every element up to an explicit error E in m, n, M and K, and X differs from the exact pseudo-inverse V A' by at most K E. No condition mentions a computed value.", "every f64 matrix within those explicit bounds, of every size, all contents of uninitialised memory", "an a priori guarantee over a whole class of matrices of every size, through four computations each of which rounds and can overflow", [f"{M}:777-785 pinverse", "src/decomp/qr.rs", "src/decomp/lu.rs"])

p("f64 QR full-rank test and solve", "For every f64 matrix A and every right-hand side B (NaN and infinities included, every shape): is_full_rank is false exactly if the computed R has a zero on its diagonal, otherwise true for a matrix that is not wide and a panic for a wide one. solve panics if the numbers of rows differ; otherwise it returns None if R has a zero on its diagonal; without one it panics for every matrix that is not square and returns a matrix of the right shape for a square one. Hence it panics for every well-conditioned f64 matrix (C68) with more rows than columns. is_full_rank calls the singular matrix [1 3; 2 6] regular, and solve then returns elements above 2^52; the f64 solution of 2 x = 2 is 3; and for the invertible [2^-600] the answer is None.", "every f64 matrix and right-hand side of every shape, all contents of uninitialised memory", "an exact description of the outcome (value, None or panic) over every floating-point input and shape", ["src/decomp/qr.rs: is_full_rank, solve"])

p("f64 rank of a singular value decomposition", "For f64 matrices U, S, V of the shapes of a decomposition with at least as many columns as rows, n < 2^53 columns, whatever their elements are, rank() returns the number of selected elements of the diagonal of S. If s, the first of them, is finite and n |s| <= 2^1023, a finite element is selected if it exceeds t = n s 2^-52 by more than the error of two roundings, and is not selected if it is below t by as much; a NaN never is. If s is NaN or plus infinity, or n s >= 2^1024, nothing is selected and the rank is 0: SVD::new returns for 2^1023 I of order 2, and the rank of that decomposition is 0. With more rows than columns rank() panics whatever the elements are.", "all f64 matrices (NaN and infinities included) of every such shape", "a description of the outcome over every floating-point input and shape", ["src/decomp/svd.rs:439-450 rank"])

p("f64 is_singular and is_non_singular", "For every square f64 matrix (NaN and infinities included) is_singular and is_non_singular return, with opposite answers: the matrix is called singular exactly if U of its LU decomposition has a zero on the diagonal. Both panic for a matrix that is not square. A matrix A with elements at most M that is called singular, the growth bound of C63 being below 2^1023, is close to a singular one: (A + E) w = 0 for some w that is not zero and an E all of whose elements are at most an explicit multiple of the rounding error. A matrix that is well-conditioned in the sense of C63 is called non-singular. In between rounding decides: the singular [49 49; 1 1] is called non-singular and the invertible [3 1; 1 t], t the double nearest to 1/3, singular.", "every f64 matrix of every shape, all contents of uninitialised memory", "a guarantee about a whole class of matrices of every size in the presence of rounding", [f"{M}:768-775 is_singular, is_non_singular", "src/decomp/lu.rs:170-182"])

open('/verif/properties.jsonl','w').write(''.join(json.dumps(x)+'\n' for x in P))
for x in P: print(x['id'],x['title'])
