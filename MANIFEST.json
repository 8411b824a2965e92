{
 "claims": [
  {
   "property": "C01",
   "status": "proved",
   "theorems": [
    "new_ok",
    "new_panics",
    "vector_ok",
    "vector_panics",
    "row_vector_ok",
    "row_vector_panics",
    "observers",
    "constructed_wf"
   ],
   "note": ""
  },
  {
   "property": "C02",
   "status": "proved",
   "theorems": [
    "get_ok",
    "access_panics",
    "set_ok",
    "get_set"
   ],
   "note": ""
  },
  {
   "property": "C03",
   "status": "proved",
   "theorems": [
    "t_ok",
    "t_t"
   ],
   "note": ""
  },
  {
   "property": "C04",
   "status": "proved",
   "theorems": [
    "mt_ok",
    "mt_is_t",
    "mt_empty_panics"
   ],
   "note": ""
  },
  {
   "property": "C05",
   "status": "proved",
   "theorems": [
    "cr_ok",
    "cr_panics",
    "cb_ok",
    "cb_panics"
   ],
   "note": ""
  },
  {
   "property": "C06",
   "status": "proved",
   "theorems": [
    "minor_ok",
    "minor_panics"
   ],
   "note": ""
  },
  {
   "property": "C07",
   "status": "partial",
   "theorems": [
    "sub_matrix_block_partial",
    "sub_matrix_full_height_refuted",
    "sub_matrix_wraps_refuted",
    "sub_matrix_exact"
   ],
   "note": "the property is false of the code: the bounds check compares the block size, not the end positions; sub_matrix_exact describes every input"
  },
  {
   "property": "C08",
   "status": "proved",
   "theorems": [
    "get_column_ok",
    "get_column_panics"
   ],
   "note": ""
  },
  {
   "property": "C09",
   "status": "proved",
   "theorems": [
    "permute_rows_ok",
    "permute_rows_panics",
    "permute_columns_ok",
    "permute_columns_panics",
    "permute_perm",
    "permute_inverse"
   ],
   "note": ""
  },
  {
   "property": "C10",
   "status": "proved",
   "theorems": [
    "filter_rows_ok",
    "filter_columns_ok",
    "select_rows_ok",
    "select_columns_ok",
    "select_panics",
    "filter_nothing"
   ],
   "note": ""
  },
  {
   "property": "C11",
   "status": "proved",
   "theorems": [
    "map_ok",
    "mmap_ok",
    "reduce_ok",
    "reduce_panics"
   ],
   "note": ""
  },
  {
   "property": "C12",
   "status": "proved",
   "theorems": [
    "id_ok",
    "id_square",
    "constants_ok",
    "diag_ok",
    "block_diag_ok",
    "random_ok"
   ],
   "note": ""
  },
  {
   "property": "C13",
   "status": "proved",
   "theorems": [
    "unary_ok",
    "binary_ok",
    "elem_div_ok",
    "elem_div_panics",
    "binary_panics",
    "inplace_agrees",
    "ring_ops_ok"
   ],
   "note": ""
  },
  {
   "property": "C14",
   "status": "proved",
   "theorems": [
    "mul_eval",
    "mul_panics",
    "mul_ok",
    "mul_assoc",
    "mul_distr",
    "mul_id",
    "mul_t"
   ],
   "note": ""
  },
  {
   "property": "C15",
   "status": "proved",
   "theorems": [
    "garbage_any",
    "garbage_num",
    "garbage_shape",
    "garbage_lu",
    "garbage_chol",
    "garbage_qr",
    "garbage_svd",
    "garbage_eigen_symmetric",
    "garbage_eigen",
    "garbage_direct",
    "zero_sum_exact",
    "zero_sum_f64"
   ],
   "note": "every method that allocates, for any element type; the eigenvalue decomposition of a non-symmetric matrix needs the law zero_sum, proved for exact arithmetic and for f64"
  },
  {
   "property": "C16",
   "status": "proved",
   "theorems": [
    "program_refines",
    "program_invariant",
    "constructed_holds"
   ],
   "note": "histories over any number of matrix variables; calls that produce a matrix without rows or columns end the claim"
  },
  {
   "property": "C17",
   "status": "proved",
   "theorems": [
    "trace_eval",
    "trace_ok",
    "trace_square"
   ],
   "note": ""
  },
  {
   "property": "C18",
   "status": "proved",
   "theorems": [
    "lu_factorisation"
   ],
   "note": ""
  },
  {
   "property": "C19",
   "status": "proved",
   "theorems": [
    "det_ok",
    "det_panics",
    "det_mul",
    "det_t"
   ],
   "note": ""
  },
  {
   "property": "C20",
   "status": "proved",
   "theorems": [
    "solve_ok",
    "solve_sound",
    "solve_panics",
    "solve_tall_refuted",
    "solve_wide_refuted"
   ],
   "note": "the property (square A) is proved; the refuted theorems describe tall and wide systems, outside the property"
  },
  {
   "property": "C21",
   "status": "proved",
   "theorems": [
    "inverse_ok",
    "inverse_sound",
    "inverse_panics",
    "inverse_inverse"
   ],
   "note": ""
  },
  {
   "property": "C22",
   "status": "proved",
   "theorems": [
    "is_non_singular_ok",
    "is_non_singular_panics"
   ],
   "note": ""
  },
  {
   "property": "C23",
   "status": "proved",
   "theorems": [
    "chol_some",
    "chol_none",
    "chol_total",
    "posdef_iff",
    "chol_nonsquare",
    "chol_unique"
   ],
   "note": ""
  },
  {
   "property": "C24",
   "status": "proved",
   "theorems": [
    "chol_solve_ok",
    "chol_solve_panics",
    "chol_solve_lu"
   ],
   "note": ""
  },
  {
   "property": "C25",
   "status": "proved",
   "theorems": [
    "qr_factorisation"
   ],
   "note": ""
  },
  {
   "property": "C26",
   "status": "partial",
   "theorems": [
    "qr_q_orthogonal_partial",
    "qr_q_orthogonal_refuted"
   ],
   "note": "true iff the matrix is not tall: proved for m <= n, refuted for every m > n (finding: the last m-n columns of get_q are zero)"
  },
  {
   "property": "C27",
   "status": "partial",
   "theorems": [
    "qr_full_rank_partial",
    "qr_full_rank_wide_refuted"
   ],
   "note": "proved for m >= n; refuted for every wide matrix (finding: panics when the leading square block is invertible)"
  },
  {
   "property": "C28",
   "status": "partial",
   "theorems": [
    "qr_solve_panics",
    "qr_solve_none_partial",
    "qr_solve_square_partial",
    "qr_solve_tall_refuted",
    "qr_solve_refuted"
   ],
   "note": "false of the code: solve applies I - uu'/u_k instead of the reflection, and panics on every tall full rank system; what holds and what is computed instead is proved"
  },
  {
   "property": "C29",
   "status": "partial",
   "theorems": [
    "pinverse_partial",
    "pinverse_sound",
    "pinverse_refuted",
    "moore_penrose_unique"
   ],
   "note": "proved for full column rank; refuted otherwise: the code panics for every rank deficient or wide matrix"
  },
  {
   "property": "C30",
   "status": "proved",
   "theorems": [
    "norms_eval",
    "norms_panic",
    "norms_ok",
    "inf_norm_ok",
    "norms_axioms",
    "p_norm_ok"
   ],
   "note": ""
  },
  {
   "property": "C31",
   "status": "proved",
   "theorems": [
    "is_symmetric_eval",
    "is_symmetric_ok",
    "is_symmetric_sound"
   ],
   "note": ""
  },
  {
   "property": "C32",
   "status": "proved",
   "theorems": [
    "approx_eq_eval",
    "approx_eq_ok",
    "approx_eq_trans_refuted"
   ],
   "note": "the refuted theorem is the 'not transitive' part of the statement"
  },
  {
   "property": "C33",
   "status": "proved",
   "theorems": [
    "mat_eq_ok",
    "mat_eq_decides"
   ],
   "note": ""
  },
  {
   "property": "C34",
   "status": "proved",
   "theorems": [
    "hypot_ok"
   ],
   "note": ""
  },
  {
   "property": "C35",
   "status": "proved",
   "theorems": [
    "svd_correct",
    "svd_total",
    "svd_exact",
    "svd_vector_returns"
   ],
   "note": "total correctness for tiny > 0 (termination proved, with an explicit bound on the number of rounds)"
  },
  {
   "property": "C36",
   "status": "partial",
   "theorems": [
    "svd_rank_partial",
    "svd_rank_tall_refuted",
    "svd_rank_exact"
   ],
   "note": "proved for m <= n; refuted for m > n: rank() panics for every matrix with more rows than columns"
  },
  {
   "property": "C37",
   "status": "proved",
   "theorems": [
    "eigen_symmetric_correct",
    "eigen_symmetric_total",
    "eigen_symmetric_exact",
    "eigen_wide_panics",
    "eigen_tall_ignores_rows"
   ],
   "note": "total correctness for eps > 0 (termination of the QL iteration proved, with an explicit bound)"
  },
  {
   "property": "C38",
   "status": "proved",
   "theorems": [
    "orthes_correct"
   ],
   "note": ""
  },
  {
   "property": "C39",
   "status": "proved",
   "theorems": [
    "cdiv_exact",
    "cdiv_zero"
   ],
   "note": ""
  },
  {
   "property": "C40",
   "status": "proved",
   "theorems": [
    "eigen_get_d_blocks",
    "eigen_get_d_panics",
    "eigen_symmetric_get_d",
    "eigen_get_d_total"
   ],
   "note": ""
  },
  {
   "property": "C41",
   "status": "proved",
   "theorems": [
    "trim_ok",
    "is_csv_total",
    "read_csv_ok",
    "read_csv_sound",
    "read_csv_panics"
   ],
   "note": "file text as Unicode scalars; open failure panics; invalid UTF-8 and later I/O errors not modelled"
  },
  {
   "property": "C42",
   "status": "proved",
   "theorems": [
    "m_macro_ok",
    "m_macro_rows",
    "m_macro_ragged_refuted"
   ],
   "note": "the statement is about rectangular rows; ragged rows are accepted when the count divides (finding)"
  },
  {
   "property": "C43",
   "status": "proved",
   "theorems": [
    "fmt_ok",
    "fmt_lines"
   ],
   "note": ""
  },
  {
   "property": "C44",
   "status": "partial",
   "theorems": [
    "checked_new",
    "checked_get",
    "checked_set",
    "checked_constructors",
    "checked_sub_matrix",
    "checked_permute_rows",
    "checked_mul",
    "checked_mt",
    "fits_new",
    "fits_get",
    "fits_set",
    "fits_constructors",
    "fits_mul",
    "fits_mt",
    "wrap_new_refuted",
    "wrap_zero_refuted",
    "wrap_sub_matrix_refuted",
    "wrap_mt_refuted"
   ],
   "note": "holds with overflow checks (debug profile) and whenever the exact sizes fit; refuted for the release profile by the wrap_ theorems (the property is false there)"
  },
  {
   "property": "C45",
   "status": "proved",
   "theorems": [
    "solve_mul",
    "solve_inverse",
    "inverse_mul",
    "det_mul",
    "det_t",
    "det_id",
    "trace_mul",
    "pinverse_inverse",
    "qr_det",
    "chol_solve_lu"
   ],
   "note": ""
  },
  {
   "property": "C46",
   "status": "proved",
   "theorems": [
    "qr_get_h_spec"
   ],
   "note": ""
  },
  {
   "property": "C47",
   "status": "proved",
   "theorems": [
    "svd_direct_correct",
    "svd_direct_rank",
    "svd_direct_total",
    "svd_direct_u_refuted",
    "svd_direct_thin"
   ],
   "note": ""
  },
  {
   "property": "C48",
   "status": "proved",
   "theorems": [
    "eigen_general_correct",
    "eigen_general_2x2_returns",
    "distinct_pairs_small"
   ],
   "note": "partial correctness (runs that return); 2 x 2 matrices always return"
  },
  {
   "property": "C49",
   "status": "proved",
   "theorems": [
    "approx_eq_refl_f64",
    "approx_eq_sym_f64",
    "is_symmetric_f64",
    "mat_eq_refl_f64"
   ],
   "note": ""
  },
  {
   "property": "C50",
   "status": "proved",
   "theorems": [
    "mul_rounding",
    "trace_rounding",
    "norm1_rounding",
    "norm2_rounding",
    "frobenius_rounding",
    "inf_norm_f64"
   ],
   "note": ""
  },
  {
   "property": "C51",
   "status": "proved",
   "theorems": [
    "lu_rounding"
   ],
   "note": ""
  },
  {
   "property": "C52",
   "status": "proved",
   "theorems": [
    "solve_rounding",
    "inverse_rounding"
   ],
   "note": ""
  },
  {
   "property": "C53",
   "status": "proved",
   "theorems": [
    "chol_rounding",
    "chol_some_f64",
    "chol_solve_rounding",
    "chol_nan_refuted"
   ],
   "note": "chol_nan_refuted is the NaN clause of the property (a finding)"
  },
  {
   "property": "C54",
   "status": "proved",
   "theorems": [
    "chol_complete_f64"
   ],
   "note": ""
  },
  {
   "property": "C55",
   "status": "proved",
   "theorems": [
    "ops_nearest",
    "elem_div_nearest",
    "neg_exact"
   ],
   "note": "the in-place twins agree by inplace_agrees (C13)"
  },
  {
   "property": "C56",
   "status": "proved",
   "theorems": [
    "det_rounding"
   ],
   "note": ""
  },
  {
   "property": "C57",
   "status": "proved",
   "theorems": [
    "hypot_rounding",
    "hypot_nan_refuted"
   ],
   "note": "hypot_nan_refuted is the last clause of the property (a finding)"
  },
  {
   "property": "C58",
   "status": "proved",
   "theorems": [
    "qr_rounding",
    "qr_overflow_refuted"
   ],
   "note": "qr_overflow_refuted is the last clause of the property (a finding)"
  },
  {
   "property": "C59",
   "status": "proved",
   "theorems": [
    "qr_q_rounding",
    "qr_get_q_underflow_refuted"
   ],
   "note": "qr_get_q_underflow_refuted is the last clause of the property (a finding)"
  },
  {
   "property": "C60",
   "status": "proved",
   "theorems": [
    "svd_new_no_panic_f64",
    "eigen_new_no_panic_f64",
    "svd_new_hangs_f64",
    "svd_new_wrong_f64",
    "svd_new_nan_f64",
    "eigen_new_hangs_f64",
    "eigen_new_wrong_f64",
    "eigen_new_sym_panics_f64",
    "eigen_new_sym_hangs_f64"
   ],
   "note": "the first two are the no-panic claims, the others the finite inputs near overflow (findings 21-24)"
  },
  {
   "property": "C61",
   "status": "proved",
   "theorems": [
    "wrap_spec",
    "wrapping_program",
    "wrapping_program_exact",
    "checked_program",
    "checked_then_wrapping",
    "wrapping_ops",
    "checked_ops",
    "quotz_spec",
    "quotz_overflow",
    "int_elem_div"
   ],
   "note": "map, mmap and reduce run caller-supplied code and are excluded; they are covered for every element type by C11, C16"
  },
  {
   "property": "C62",
   "status": "proved",
   "theorems": [
    "is_singular_f32",
    "is_singular_nearby_f32",
    "is_singular_well_conditioned_f32",
    "is_singular_panics_f32",
    "is_singular_f32_refuted",
    "svd_rank_rounding_f32",
    "svd_rank_tall_panics_f32",
    "svd_rank_overflow_refuted_f32",
    "pinverse_rounding_f32",
    "pinverse_no_overflow_f32",
    "qr_solve_outcome_f32",
    "qr_solve_least_squares_refuted_f32",
    "qr_solve_f32_refuted",
    "qr_full_rank_f32_refuted",
    "pinverse_underflow_refuted_f32",
    "pinverse_overflow_refuted_f32",
    "qr_no_overflow_f32",
    "chol_solve_no_overflow_f32",
    "solve_no_overflow_f32",
    "inverse_no_overflow_f32",
    "frobenius_special_f32",
    "vector_norms_special_f32",
    "inf_norm_special_f32",
    "mul_nan_f32",
    "trace_nan_f32",
    "det_nan_f32",
    "solve_nan_f32",
    "inverse_nan_f32",
    "chol_solve_well_conditioned_f32",
    "lu_no_overflow_f32",
    "solve_well_conditioned_f32",
    "inverse_well_conditioned_f32",
    "approx_eq_refl_f32",
    "approx_eq_sym_f32",
    "is_symmetric_f32",
    "mat_eq_refl_f32",
    "mul_rounding_f32",
    "trace_rounding_f32",
    "norm1_rounding_f32",
    "norm2_rounding_f32",
    "frobenius_rounding_f32",
    "inf_norm_f32",
    "lu_rounding_f32",
    "solve_rounding_f32",
    "inverse_rounding_f32",
    "chol_rounding_f32",
    "chol_some_f32",
    "chol_solve_rounding_f32",
    "chol_nan_refuted_f32",
    "chol_complete_f32",
    "ops_nearest_f32",
    "elem_div_nearest_f32",
    "neg_exact_f32",
    "det_rounding_f32",
    "hypot_rounding_f32",
    "hypot_nan_refuted_f32",
    "qr_rounding_f32",
    "qr_overflow_refuted_f32",
    "qr_q_rounding_f32",
    "qr_get_q_underflow_refuted_f32",
    "svd_new_no_panic_f32",
    "eigen_new_no_panic_f32",
    "svd_new_hangs_f32",
    "svd_new_wrong_f32",
    "svd_new_nan_f32",
    "eigen_new_hangs_f32",
    "eigen_new_wrong_f32",
    "eigen_new_sym_panics_f32",
    "eigen_new_sym_hangs_f32",
    "svd_new_hangs_2x2_f32",
    "svd_new_hangs_3x3_f32",
    "zero_sum_f32"
   ],
   "note": "f32 versions of C49-C60, generated from the f64 proofs by tools/gen32.py; svd_new_hangs_2x2_f32 and svd_new_hangs_3x3_f32 are the last clause (finding 25)"
  },
  {
   "property": "C63",
   "status": "proved",
   "theorems": [
    "lu_no_overflow",
    "solve_well_conditioned",
    "inverse_well_conditioned"
   ],
   "note": "that X is finite is a hypothesis of the error bound; that L and U are is proved"
  },
  {
   "property": "C64",
   "status": "proved",
   "theorems": [
    "chol_solve_well_conditioned"
   ],
   "note": "that X is finite is a hypothesis of the error bound"
  },
  {
   "property": "C65",
   "status": "proved",
   "theorems": [
    "frobenius_special",
    "vector_norms_special",
    "inf_norm_special",
    "mul_nan",
    "trace_nan",
    "det_nan",
    "solve_nan",
    "inverse_nan"
   ],
   "note": "vector_inf_norm: the theorem says what the code does; it hides a NaN unless it comes first"
  },
  {
   "property": "C66",
   "status": "proved",
   "theorems": [
    "solve_no_overflow",
    "inverse_no_overflow"
   ],
   "note": ""
  },
  {
   "property": "C67",
   "status": "proved",
   "theorems": [
    "chol_solve_no_overflow"
   ],
   "note": ""
  },
  {
   "property": "C68",
   "status": "proved",
   "theorems": [
    "qr_no_overflow"
   ],
   "note": ""
  },
  {
   "property": "C69",
   "status": "proved",
   "theorems": [
    "map_unwind",
    "mmap_unwind",
    "reduce_unwind",
    "filter_unwind",
    "inplace1_unwind",
    "inplace2_unwind",
    "mmul_unwind",
    "unwind_agrees",
    "unwind_history",
    "unwind_shape"
   ],
   "note": ""
  },
  {
   "property": "C70",
   "status": "proved",
   "theorems": [
    "read_csv_unwind",
    "read_csv_order",
    "read_csv_unopened",
    "read_csv_agrees",
    "fmt_unwind",
    "print_unwind",
    "fmt_pieces",
    "fmt_prefix"
   ],
   "note": ""
  },
  {
   "property": "C71",
   "status": "proved",
   "theorems": [
    "pinverse_rounding",
    "pinverse_underflow_refuted",
    "pinverse_overflow_refuted"
   ],
   "note": "the two refuted theorems are the last clause of the property (a finding); that H, L, U and X are finite are hypotheses on the computed result"
  },
  {
   "property": "C72",
   "status": "proved",
   "theorems": [
    "pinverse_no_overflow"
   ],
   "note": ""
  },
  {
   "property": "C73",
   "status": "proved",
   "theorems": [
    "qr_solve_outcome",
    "qr_solve_least_squares_refuted",
    "qr_full_rank_f64_refuted",
    "qr_solve_f64_refuted"
   ],
   "note": "the three refuted theorems are the last two sentences of the property (findings: what C27 and C28 promise fails in f64)"
  },
  {
   "property": "C74",
   "status": "proved",
   "theorems": [
    "svd_rank_rounding",
    "svd_rank_tall_panics_f64",
    "svd_rank_overflow_refuted"
   ],
   "note": "the last two sentences of the property are findings: svd_rank_overflow_refuted and svd_rank_tall_panics_f64"
  },
  {
   "property": "C75",
   "status": "proved",
   "theorems": [
    "is_singular_f64",
    "is_singular_nearby",
    "is_singular_well_conditioned",
    "is_singular_panics_f64",
    "is_singular_f64_refuted"
   ],
   "note": "the last sentence of the property is a finding: is_singular_f64_refuted"
  }
 ]
}