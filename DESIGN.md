# rust-la in Rocq: design

Source: /repo at the pinned commit (`src/matrix.rs`, `src/decomp/*.rs`, `src/internalutil.rs`,
`src/approxeq.rs`, `src/util.rs`, `src/macros.rs`).  Nothing is run: the model is a reading of the text.

## How the code is modelled

* `Base.v` – panics as values (`res A = Ok a | Err Panic | Err Undef | Err OutOfFuel`), bounds-checked
  vector reads and writes, `for`, `for .. rev`, `for` with `return`/`break`, `loop` on fuel.  `Undef` is
  produced only by exact arithmetic (x/0, sqrt of a negative): a theorem ending in `= Ok ..` therefore also
  says the code never divides by zero or roots a negative number.  `OutOfFuel` only by the unbounded loops
  (`mt`, SVD, eigen).
* `Scalar.v` – the element type is a record of operations, as in the code (traits `Num`, `Float`+`Signed`).
  Theorems about plumbing (transpose, concatenation, in-place twins, ...) hold for *every* such record, so for
  i32, f32 and f64 alike.  Theorems about linear algebra use `exact F` / `exactE eps tiny`, exact arithmetic in
  an arbitrary real closed field F (mathcomp `rcfType`; reals and real algebraic numbers are instances).
  `eps` is the machine epsilon the iterative algorithms compare with: an arbitrary positive number.
* `F64.v` – IEEE binary64 (stdlib `SpecFloat`), executable; used in `Replay.v` to run the repository's own
  float unit tests on the model with `vm_compute` (validation of the reading).
* `B64.v` – the same arithmetic on Flocq's `binary_float 53 1024`, used for theorems about f64; `B32.v` for f32.
* Uninitialised memory: `alloc_dirty_vec` takes an arbitrary function `g : nat -> T` as the garbage; all
  theorems quantify over all `g`.

| model file | models |
|---|---|
| `ModelMatrix.v` | matrix.rs except the decomposition-based methods; internalutil.rs `alloc_dirty_vec` |
| `ModelHypot.v` | internalutil.rs `hypot` |
| `ModelLU.v` | decomp/lu.rs, and `det`, `solve`, `inverse`, `is_singular`, `is_non_singular` of matrix.rs |
| `ModelCholesky.v` | decomp/cholesky.rs |
| `ModelQR.v` | decomp/qr.rs, and `pinverse` of matrix.rs |
| `ModelSVD.v` | decomp/svd.rs: `SVD::new`, `SVD::direct`, `rank`, `get_*` |
| `ModelEigen.v` | decomp/eigen.rs: tred2, tql2, orthes, cdiv, hqr2, `new`, `get_*` |
| `ModelUtil.v` | util.rs `read_csv`, macros.rs `m!`, `Debug` for Matrix |
| `ModelUsize.v` | the size and index computations with 64-bit wrap-around or overflow checks |

## How properties are stated

`Spec.v`, `SpecDecomp.v`, `SpecUtil.v`, `SpecOps.v`, `SpecInt.v`, `SpecGarbage.v`, `SpecFloat64.v` are the independent
specification: a mathematical matrix is mathcomp's `'M[T]_(m,n)`; `mat_of A` is the Rust value with m rows whose
data is A row by row.  A property reads e.g.
`forall g m n (A : 'M_(m.+1,n.+1)), t g (mat_of A) = Ok (mat_of A^T)`, `det gp (mat_of A) = Ok (\det A)`.
`mat_of_surj` shows every value satisfying the shape invariant is `mat_of` of some A, so quantifying over A
quantifies over all constructible values.  `Prop*.v` contain only the property theorems (closed by `exact` with a
lemma of the matching `*Thms.v`; generated by tools/genprops.py), `Print Assumptions`, and the non-vacuity
Examples.

A theorem named `_refuted` shows that the code does *not* have (part of) the property, for all inputs of a class or
by a witness; a property with such a theorem is `partial` when the refuted part belongs to its statement.

## Proof method

`Hoare.v`: `wp m Q` (the computation returns a value satisfying Q; no panic) and `wpp` (same but may run out
of fuel); invariant rules for all loop forms; lemmas for vget/vset on row-major data.  Each decomposition is
proved by loop invariants that relate the flat vector to mathcomp matrices.  `Rel.v`: a relational version (two
runs with different garbage).

## Plan per property

| id | modelled | method |
|----|----------|--------|
| C01 C02 | new, vector, row_vector, get, set, get_ref, get_mref | direct; iff with the panic case |
| C03 C05 C06 C08 C09 C10 C11 C12 C17 | the loops with running indices | loop invariants, result = `mat_of` of the mathcomp operation |
| C04 | mt with its cycle loop on fuel | permutation i -> i*rows mod (len-1); cycle invariant; fuel = len suffices |
| C07 | sub_matrix | correct-on-accepted-range theorem + refutations of accept/reject boundary; exact characterisation |
| C13 C14 | all operators, any `numops` | invariants; ring laws from mathcomp |
| C15 | every caller of alloc_dirty_vec, SVD, eigen | two runs with different garbage give the same result: relational invariants (`Rel.v`, `GarbageSvd.v`, `GarbageEigen.v`); the one law of arithmetic needed, `zero_sum`, is proved for exact arithmetic and for f64 |
| C16 | op language, interpreter on `mat` and on mathematical matrices | refinement by induction over the op list |
| C18-C22 | lu.rs complete | elimination invariant with a permutation; det via `det_trig` |
| C23 C24 | cholesky.rs complete | row invariant; completeness via positive definite Schur argument |
| C25-C29, C46 | qr.rs complete, pinverse | product-of-reflections invariant; refutations for solve/get_q/is_full_rank/pinverse |
| C30-C34 | norms, symmetry, approx_eq, ==, hypot | direct, Cauchy-Schwarz for the triangle inequality |
| C35 C36 | svd.rs `new` | orthogonal-equivalence invariant with an explicit deflation error; termination of the shifted QR iteration by a Wilkinson / Hoffmann-Parlett argument on the bidiagonal (a history of at most a computable number of steps before a negligible element appears) |
| C37 | eigen.rs symmetric | orthogonal-similarity invariant of tred2 and tql2; termination of tql2 by the same method |
| C38 C48 | orthes, hqr2 | orthogonal-similarity invariant of the double shift sweeps; back substitution solves the quasi-triangular system; partial correctness (fuel): the convergence of the double-shift iteration with ad-hoc exceptional shifts is an open problem, so there is no total version except for 2 x 2 |
| C39 C40 | cdiv, get_d | direct |
| C41-C43 | read_csv over a list of lines, m!, fmt | list lemmas |
| C44 | machine-arithmetic versions (ModelUsize.v) | mod 2^64; refutations by witness |
| C45 | corollaries | algebra |
| C47 | SVD::direct | spectral theorem through C37 |
| C49 C50 | the f64 instance (`B64`) of the comparisons, product, trace, norms | Flocq rounding theorems; induction over the dot product; see "Floating point" below |
| C51 C52 | the f64 instance of lu.rs, solve, inverse | evaluation order of lu.rs for any arithmetic (`LUEval.v`), then backward error analysis (`FloatLU.v`) |
| C53 | the f64 instance of cholesky.rs (new, solve) | evaluation order for any arithmetic (`CholEval.v`), backward error analysis (`FloatChol.v`), quadratic form bound (`FloatCholThms.v`) |
| C54 | the same | induction over rows and columns: computed rows stay bounded because the Schur complement of a clearly positive definite matrix stays positive (`FloatCholFull.v`) |
| C55 C56 C57 | the f64 instance of the operators, det, hypot | C13 and the evaluation order of LU, then Flocq's rounding theorems (`FloatMoreThms.v`) |
| C58 | the f64 instance of QRDecomposition (`QREval.v`: its order of evaluation) | norm and reflection calculus on real vectors (`RealVec.v`), effect of rounding on one Householder step (`QRReal.v`), finiteness by downward induction, telescoped composition of exact reflections (`FloatQR.v`) |
| C59 | get_q of the same (`QREval.v`: q_back, q_gs) | each backward reflection is one more perturbed Householder step on the column (generic `col_err` of `FloatQR.v`), telescoped; inner products by Cauchy-Schwarz |
| C60 | the f64 instance of svd.rs and eigen.rs (nonsymmetric path; copy, orthes, hqr2, get_d) | size invariants of every loop, for any scalar with total division and root whatever the comparisons answer (`Safe.v`, `SafeSvd.v`); hangs by a fixed point of the loop body (all NaN), proved for every fuel (`FloatRobustThms.v`) |
| C61 | `SpecInt.v`: integer types as (width, signedness); wrapping arithmetic on `int`; checked arithmetic on `option int`, None = the operation panicked | a relation between two element types closed under the ring operations lifts to all programs (`run_rel` in `IntThms.v`), on top of the refinement theorem of C16; exact characterisation of which results must fit |
| C62 | `B32.v`: the same with Flocq's `binary_float 24 128` | the f64 proofs instantiated with the constants of f32: the files `*32*.v` are generated from the f64 files by `tools/gen32.py` and committed; SVD::new: the singular values of a round do not depend on U and V, so that a 2-cycle of the bidiagonal matrix is one of the loop (`Float32HangThms.v`) |
| C63 | the LU model over `B64` | the pivoting comparison gives |L| <= 1, and row i of U is bounded by the recurrence g(M + sum of the rows above), solved by induction on the rows together with finiteness (`FloatPrio.v`); the backward error of C51 then makes a zero pivot contradict the left inverse V (an upper triangular U with a zero on the diagonal kills a vector), and the residual of C52 times V is the forward error. The bounds are defined in `SpecFloatPrio.v` |
| C64 | the Cholesky model over `B64` | C54 gives the factor; the squares of a row of a finite factor add up to at most chol_bound because of the backward error of the diagonal; Cauchy-Schwarz turns the residual of C53 into chol_error, and V turns that into a forward error (`FloatCholPrioThms.v`) |
| C65 | the norms, mul, trace, det, solve and inverse over `B64` | a fold of non-negative terms is NaN iff a term is, an infinite term fixes the sum at +inf (no other infinity can occur); a NaN element reaches the diagonal of L/U by the closed form of the elimination (`lu_entry`), hence the determinant and the last division of the back substitution (`FloatNanThms.v`) |
| C66 | the LU model over `B64` | the finite suffix of the back substitution is extended by exact real unknowns to a solution of a system close to A, so V bounds it before the next element is computed (`suffix_bound`, `z_prio` in `FloatSolveFin.v`); downward induction over the rows, then C63 |
| C67 | the Cholesky model over `B64` | one lemma per row (`tri_step`): if every real q that fits the row up to rounding is bounded by Z then the row does not overflow and its result is at most Z; q is bounded because the rows done so far extend to a vector x with A x small (the other rows of L c = 0, or of L'x = c, are solved exactly over the reals) and V bounds x (`inv_bound`, `ch_prefix`, `ch_suffix` in `FloatCholFin.v`) |
| C68 | the QR model over `B64` | one lemma per reflection (`p_step`, `p_col` in `FloatQRPrio.v`): if the pivot column has norm at least 2^-170 and all elements are at most 2^200, nothing overflows; the columns are bounded through the backward error of the prefix (`qr_back_r` for the first k reflections, all earlier ones being finite); the pivot column is bounded from below because otherwise a real x with A x small would exist (`q_xlo`: the upper triangular system of the k finished columns is solved exactly); get_q likewise (`q_G`) |
| C69 | `ModelUnwind.v`: the methods that run closures or change their receiver, a second time, as runs that end with a state and a flag (returned / panicked); closures are functions of a world they may change and may panic, element operations may panic | the loop bodies are shown to consume the row-major list one call at a time (`map_loop`, `mmap_loop`, `reduce_loop`, `inplace_loop`, `mmul_loop`), against the specification `calls` / `accumulate` / `upto` / `dot_from` of `SpecUnwind.v`; `unwind_agrees` ties the second model to the first; histories by induction |
| C70 | `ModelIO.v`: read_csv on what `lines()` yields (read errors included) with a parser that acts on a world and may panic; Debug and print on a formatter that may fail at any string | the item loop is the `calls` of C69 on the trimmed fields, the line loop the recursive specification `parse_lines` of `SpecIO.v`; `read_csv_agrees` ties it to the model of C42; Debug is `write_all` of the explicit list of pieces, whose concatenation is the text of C43 |
| C71 | the f64 instance of pinverse | rounding theorems of C58 (QR), C50 (products) and C52 (inverse) composed; real arithmetic on Gram matrices: an orthogonal factor keeps inner products, Cauchy-Schwarz for the column errors, a telescoped residual for the normal equations (`FloatPinvThms.v`, the bound in `SpecFloatPinv.v`); no panic by the argument of C63 on A'A; the two failures are computed by the kernel |
| C72 | the f64 instance of pinverse | C68 gives finite factors and a diagonal of R in range, so that C58 bounds R'R against A'A; a perturbation lemma on real matrices (an injective matrix has a left inverse, proved by induction on the columns; near A'A it has row sums at most 2 K) lets C66 apply to the computed R'R; the residual of C71 is then bounded a priori (`FloatPinvPrioThms.v`, bounds in `SpecFloatPinvPrio.v`) |
| C73 | the f64 instance of is_full_rank and solve | the loops keep the shape of the data whatever the numbers (division of f64 never panics), so that the final `Matrix::new` decides; C68 gives the full rank of well-conditioned matrices; the three small systems are computed by the kernel (`FloatQRSolveThms.v`) |
| C74 | the f64 instance of SVD::rank, on arbitrary matrices of the right shapes | the loop is a count over the diagonal (loop invariant); the tolerance is two rounded products of an exactly representable integer, the element and 2^-52; its overflow to infinity or NaN makes every comparison false; the outcomes for 2^1023 I and 2^1022 I are computed by the kernel, for all contents of uninitialised memory and every fuel from 60 on (`FloatRankThms.v`) |
| C75 | the f64 instance of is_singular and is_non_singular | the loop over the diagonal (C22); with a zero on its diagonal the upper triangular U annihilates a vector, and the backward error bound of C51 and C63 turns L U into A + E; the two small matrices are computed by the kernel (`FloatSingThms.v`) |

## Floating point

The linear-algebra theorems above are about exact arithmetic.  The theorems of `PropFloat*.v` are about IEEE
binary64 (`B64`, round to nearest even): every f64 value (NaN, infinities, subnormal numbers) is covered.  Error
bounds are componentwise, in the style of Higham, with the factor `(1+u)^k - 1`, u = 2^-53, and an explicit
underflow term; their hypothesis is that the *result* is finite (non-finite values propagate, which is proved).
`PropFloat32*.v` states the same for binary32 (`B32`, u = 2^-24).

## Findings (defects of the code the proofs brought out)

1. `sub_matrix` checks its bounds with the wrong comparison: full-height blocks are rejected or the check is
   bypassed (`sub_matrix_full_height_refuted`, `sub_matrix_wraps_refuted`).
2. `QR::solve` panics for every tall matrix of full rank and is wrong for others (`qr_solve_tall_refuted`, `qr_solve_refuted`).
3. `QR::is_full_rank` panics for wide matrices (`qr_full_rank_wide_refuted`).
4. `QR::get_q` is not orthogonal when m > n (`qr_q_orthogonal_refuted`).
5. `LU::solve` returns an m-row result for a tall system, panics or answers None for a wide one (`solve_tall_refuted`, `solve_wide_refuted`).
6. `SVD::rank` panics for tall matrices (`svd_rank_tall_refuted`).
7. `EigenDecomposition::new` ignores the extra rows of a tall matrix and panics for a wide one (`eigen_tall_ignores_rows`, `eigen_wide_panics`).
8. `pinverse` panics unless the matrix has full column rank (`pinverse_refuted`).
9. `SVD::direct` panics for rank-deficient matrices in exact arithmetic and its long-side factor is not orthogonal (`svd_direct_u_refuted`, `svd_direct_rank`).
10. `filter_*`/`select_*`/`permute_*` that keep nothing give a matrix on which `cols()` panics (`filter_nothing`).
11. `m!` accepts ragged rows (`m_macro_ragged_refuted`).
12. In release mode the size computations wrap (`wrap_*_refuted`).
13. `mt` panics on an empty matrix (`mt_empty_panics`).
14. `approx_eq` is not transitive (`approx_eq_trans_refuted`).
15. `vector_p_norm` takes `powf` before `abs`: right for natural exponents (`p_norm_ok`), NaN in f64 for a negative element and a fractional exponent.
16. hqr2 does not zero the subdiagonal elements it deflates; they stay in H and can be read again by later sweeps (this is why the error bound of C48 has its form).
17. Cholesky accepts a matrix with NaN in the top left corner and returns a factor of NaN (`chol_nan_refuted`).
18. `hypot(NaN, 0)` is 0 and `hypot(inf, inf)` is NaN (`hypot_nan_refuted`).
19. QR in f64: for column norms from about 2^511 on, the product of the diagonal element and the Householder vector overflows, the
    factor becomes 0, the other columns are not transformed and a finite but wrong R is returned (`qr_overflow_refuted`).
20. get_q of the QR decomposition tests the diagonal of H, not of R, to see whether a column was skipped: when a squared
    column norm underflows (A = [2^-600]) R_kk is 0, H_kk is not, and get_q divides by zero: Q = [inf] (`qr_get_q_underflow_refuted`).
21. SVD::new never returns for the finite matrix [1 M M; 0 1 M; 0 0 1], M = 2^1023 (`svd_new_hangs_f64`), and returns the singular
    values 0, 0 for [1 M; 0 1], whose determinant is 1 (`svd_new_wrong_f64`): a dot product overflows without a check.
22. SVD::new of diag(NaN, 1) returns finite factors and singular values 1, 0: the NaN is lost (`svd_new_nan_f64`).
23. EigenDecomposition::new never returns for the finite matrix [1 M 0; 1 1 M; 0 1 1] (`eigen_new_hangs_f64`) and returns the
    eigenvalues 0, 0, 0 for M times a cyclic permutation (`eigen_new_wrong_f64`): the norm overflows and everything is negligible against it.
24. EigenDecomposition::new of a finite symmetric matrix can panic with an index out of bounds ([0 L; L 0], L = 15 * 2^1020,
    `eigen_new_sym_panics_f64`) or never return ([M M; M -M], `eigen_new_sym_hangs_f64`).  The search for a negligible element relies on
    the last one being 0, which fails once it is multiplied by infinity.
25. The convergence thresholds 2^-52 and 2^-966 of SVD::new are those of f64.  In f32 a superdiagonal element of a few units in
    the last place between two equal singular values is never negligible and SVD::new never returns, for example for
    [39 -3; -3 -39] or [2 -1 -2; 1 2 -1; -2 -1 -2] (`svd_new_hangs_2x2_f32`, `svd_new_hangs_3x3_f32`).  In a simulation about one
    in 130 random f32 multiples of 2x2 rotations did this; none in f64.
26. vector_inf_norm starts from the first element and replaces it only when `v > max`: a NaN
    that is not the first element is ignored, a NaN that is first hides everything else (`inf_norm_special`).
27. pinverse squares the matrix: for the invertible [2^-600] it panics (`pinverse_underflow_refuted`), and for [2^520] it
    returns [0] without any sign of failure (`pinverse_overflow_refuted`).
28. The full-rank test of the QR decomposition compares the diagonal of R with 0 exactly: in f64 the singular matrix [1 3; 2 6] is
    called regular and solve returns elements above 2^52 for a right-hand side in its range, while [2^-600] is called rank
    deficient (`qr_full_rank_f64_refuted`, `qr_solve_f64_refuted`).
29. SVD::rank multiplies the largest singular value by the dimension first: for 2^1023 I of order 2 the product is infinite and the
    rank is 0 (`svd_rank_overflow_refuted`); a NaN as first element gives 0 as well.  In f32 the tolerance is still 2^-52 n s.
30. is_singular compares with 0 exactly: [49 49; 1 1] is called non-singular in f64, and [3 1; 1 t], t the double nearest to 1/3,
    singular although its determinant is not 0 (`is_singular_f64_refuted`).

## Trusted base

* Coq 8.16.1 kernel (including `vm_compute`, used in Replay.v and a few Examples); mathcomp (incl. real_closed),
  Flocq (for B64 and B32); mathcomp algebra-tactics and zify as proof automation (they produce kernel-checked terms).
* `Print Assumptions` of each property theorem is in the Prop files and printed by the build.  Every theorem is
  "Closed under the global context" except those about f64 and f32 with rounding (`zero_sum_f64` and the theorems of
  `PropFloat*.v`), which use Flocq and therefore the standard library's reals:
  `ClassicalDedekindReals.sig_not_dec`, `ClassicalDedekindReals.sig_forall_dec`,
  `FunctionalExtensionality.functional_extensionality_dep`, `Classical_Prop.classic`.
  No axiom of our own, no axiom of another library.
* The reading of the Rust source (each definition cites its lines).

## Not modelled

* `eig/powermethod.rs` (commented out of lib.rs, not compiled), `#[test]` functions.
* The floating-point theorems cover the functions named in C49 and following, the other decompositions are proved in exact arithmetic only.
* usize overflow except where ModelUsize.v says so; allocation failure.
* Integer overflow with checks (C61): the panic is recorded as a `None` element and the call is taken to panic when one
  was computed; what an in-place operation leaves in the matrix when it panics half-way is C69.
* Panics of the `Debug` or `PartialEq` of a user-defined element type, and of closures passed to anything but the methods of C69
  and read_csv (C70).
* In hqr2 the leftover values of the variables z, r, s after an iteration that sets them only conditionally are
  modelled as arbitrary values.
* How BufReader splits a file into lines: the model of read_csv starts from what `lines()` yields, read errors included (C70).
