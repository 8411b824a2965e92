c("C18","proved","lu_factorisation")
c("C19","proved","det_ok det_panics det_mul det_t")
c("C20","proved","solve_ok solve_sound solve_panics solve_tall_refuted solve_wide_refuted","the property (square A) is proved; the refuted theorems describe tall and wide systems, outside the property")
c("C21","proved","inverse_ok inverse_sound inverse_panics inverse_inverse")
c("C22","proved","is_non_singular_ok is_non_singular_panics")
c("C45","proved","solve_mul solve_inverse inverse_mul det_mul det_t det_id trace_mul pinverse_inverse qr_det chol_solve_lu")
c("C23","proved","chol_some chol_none chol_total posdef_iff chol_nonsquare chol_unique")
c("C24","proved","chol_solve_ok chol_solve_panics chol_solve_lu")
c("C25","proved","qr_factorisation")
c("C26","partial","qr_q_orthogonal_partial qr_q_orthogonal_refuted","true iff the matrix is not tall: proved for m <= n, refuted for every m > n (finding: the last m-n columns of get_q are zero)")
c("C27","partial","qr_full_rank_partial qr_full_rank_wide_refuted","proved for m >= n; refuted for every wide matrix (finding: panics when the leading square block is invertible)")
c("C28","partial","qr_solve_panics qr_solve_none_partial qr_solve_square_partial qr_solve_tall_refuted qr_solve_refuted","false of the code: solve applies I - uu'/u_k instead of the reflection, and panics on every tall full rank system; what holds and what is computed instead is proved")
c("C29","partial","pinverse_partial pinverse_sound pinverse_refuted moore_penrose_unique","proved for full column rank; refuted otherwise: the code panics for every rank deficient or wide matrix")
c("C46","proved","qr_get_h_spec")
c("C14","proved","mul_eval mul_panics mul_ok mul_assoc mul_distr mul_id mul_t")
c("C17","proved","trace_eval trace_ok trace_square")
c("C30","proved","norms_eval norms_panic norms_ok inf_norm_ok norms_axioms p_norm_ok")
c("C31","proved","is_symmetric_eval is_symmetric_ok is_symmetric_sound")
c("C32","proved","approx_eq_eval approx_eq_ok approx_eq_trans_refuted","the refuted theorem is the 'not transitive' part of the statement")
c("C33","proved","mat_eq_ok mat_eq_decides")
c("C34","proved","hypot_ok")
c("C15","proved","garbage_any garbage_num garbage_shape garbage_lu garbage_chol garbage_qr garbage_svd garbage_eigen_symmetric garbage_eigen garbage_direct zero_sum_exact zero_sum_f64","every method that allocates, for any element type; the eigenvalue decomposition of a non-symmetric matrix needs the law zero_sum, proved for exact arithmetic and for f64")
c("C16","proved","program_refines program_invariant constructed_holds","histories over any number of matrix variables; calls that produce a matrix without rows or columns end the claim")
c("C41","proved","trim_ok is_csv_total read_csv_ok read_csv_sound read_csv_panics","file text as Unicode scalars; open failure panics; invalid UTF-8 and later I/O errors not modelled")
c("C42","proved","m_macro_ok m_macro_rows m_macro_ragged_refuted","the statement is about rectangular rows; ragged rows are accepted when the count divides (finding)")
c("C43","proved","fmt_ok fmt_lines")
c("C44","partial","checked_new checked_get checked_set checked_constructors checked_sub_matrix checked_permute_rows checked_mul checked_mt fits_new fits_get fits_set fits_constructors fits_mul fits_mt wrap_new_refuted wrap_zero_refuted wrap_sub_matrix_refuted wrap_mt_refuted","holds with overflow checks (debug profile) and whenever the exact sizes fit; refuted for the release profile by the wrap_ theorems (the property is false there)")

c("C37","proved","eigen_symmetric_correct eigen_symmetric_total eigen_symmetric_exact eigen_wide_panics eigen_tall_ignores_rows","total correctness for eps > 0 (termination of the QL iteration proved, with an explicit bound)")
c("C39","proved","cdiv_exact cdiv_zero")
c("C40","partial","eigen_get_d_blocks eigen_get_d_panics eigen_symmetric_get_d","get_d of every record is characterised; that hqr2 produces conjugate pairs is not yet proved")
c("C38","proved","orthes_correct")

c("C35","proved","svd_correct svd_total svd_exact svd_vector_returns","total correctness for tiny > 0 (termination proved, with an explicit bound on the number of rounds)")
c("C36","partial","svd_rank_partial svd_rank_tall_refuted svd_rank_exact","proved for m <= n; refuted for m > n: rank() panics for every matrix with more rows than columns")
c("C47","proved","svd_direct_correct svd_direct_rank svd_direct_total svd_direct_u_refuted svd_direct_thin")

c("C48","proved","eigen_general_correct eigen_general_2x2_returns distinct_pairs_small","partial correctness (runs that return); 2 x 2 matrices always return")
c("C40","proved","eigen_get_d_blocks eigen_get_d_panics eigen_symmetric_get_d eigen_get_d_total")

c("C49","proved","approx_eq_refl_f64 approx_eq_sym_f64 is_symmetric_f64 mat_eq_refl_f64")
c("C50","proved","mul_rounding trace_rounding norm1_rounding norm2_rounding frobenius_rounding inf_norm_f64")
c("C51","proved","lu_rounding")
c("C52","proved","solve_rounding inverse_rounding")

c("C53","proved","chol_rounding chol_some_f64 chol_solve_rounding chol_nan_refuted","chol_nan_refuted is the NaN clause of the property (a finding)")

c("C54","proved","chol_complete_f64","")

c("C55","proved","ops_nearest elem_div_nearest neg_exact","the in-place twins agree by inplace_agrees (C13)")
c("C56","proved","det_rounding","")
c("C57","proved","hypot_rounding hypot_nan_refuted","hypot_nan_refuted is the last clause of the property (a finding)")

c("C58","proved","qr_rounding qr_overflow_refuted","qr_overflow_refuted is the last clause of the property (a finding)")
c("C59","proved","qr_q_rounding qr_get_q_underflow_refuted","qr_get_q_underflow_refuted is the last clause of the property (a finding)")

c("C60","proved","svd_new_no_panic_f64 eigen_new_no_panic_f64 svd_new_hangs_f64 svd_new_wrong_f64 svd_new_nan_f64 eigen_new_hangs_f64 eigen_new_wrong_f64 eigen_new_sym_panics_f64 eigen_new_sym_hangs_f64","the first two are the no-panic claims, the others the finite inputs near overflow (findings 21-24)")

c("C61","proved","wrap_spec wrapping_program wrapping_program_exact checked_program checked_then_wrapping wrapping_ops checked_ops quotz_spec quotz_overflow int_elem_div","map, mmap and reduce run caller-supplied code and are excluded; they are covered for every element type by C11, C16")

c("C62","proved","is_singular_f32 is_singular_nearby_f32 is_singular_well_conditioned_f32 is_singular_panics_f32 is_singular_f32_refuted svd_rank_rounding_f32 svd_rank_tall_panics_f32 svd_rank_overflow_refuted_f32 pinverse_rounding_f32 pinverse_no_overflow_f32 qr_solve_outcome_f32 qr_solve_least_squares_refuted_f32 qr_solve_f32_refuted qr_full_rank_f32_refuted pinverse_underflow_refuted_f32 pinverse_overflow_refuted_f32 qr_no_overflow_f32 chol_solve_no_overflow_f32 solve_no_overflow_f32 inverse_no_overflow_f32 frobenius_special_f32 vector_norms_special_f32 inf_norm_special_f32 mul_nan_f32 trace_nan_f32 det_nan_f32 solve_nan_f32 inverse_nan_f32 chol_solve_well_conditioned_f32 lu_no_overflow_f32 solve_well_conditioned_f32 inverse_well_conditioned_f32 approx_eq_refl_f32 approx_eq_sym_f32 is_symmetric_f32 mat_eq_refl_f32 mul_rounding_f32 trace_rounding_f32 norm1_rounding_f32 norm2_rounding_f32 frobenius_rounding_f32 inf_norm_f32 lu_rounding_f32 solve_rounding_f32 inverse_rounding_f32 chol_rounding_f32 chol_some_f32 chol_solve_rounding_f32 chol_nan_refuted_f32 chol_complete_f32 ops_nearest_f32 elem_div_nearest_f32 neg_exact_f32 det_rounding_f32 hypot_rounding_f32 hypot_nan_refuted_f32 qr_rounding_f32 qr_overflow_refuted_f32 qr_q_rounding_f32 qr_get_q_underflow_refuted_f32 svd_new_no_panic_f32 eigen_new_no_panic_f32 svd_new_hangs_f32 svd_new_wrong_f32 svd_new_nan_f32 eigen_new_hangs_f32 eigen_new_wrong_f32 eigen_new_sym_panics_f32 eigen_new_sym_hangs_f32 svd_new_hangs_2x2_f32 svd_new_hangs_3x3_f32 zero_sum_f32","f32 versions of C49-C60, generated from the f64 proofs by tools/gen32.py; svd_new_hangs_2x2_f32 and svd_new_hangs_3x3_f32 are the last clause (finding 25)")

c("C63","proved","lu_no_overflow solve_well_conditioned inverse_well_conditioned","that X is finite is a hypothesis of the error bound; that L and U are is proved")

c("C64","proved","chol_solve_well_conditioned","that X is finite is a hypothesis of the error bound")
c("C65","proved","frobenius_special vector_norms_special inf_norm_special mul_nan trace_nan det_nan solve_nan inverse_nan","vector_inf_norm: the theorem says what the code does; it hides a NaN unless it comes first")
c("C66","proved","solve_no_overflow inverse_no_overflow","")
c("C67","proved","chol_solve_no_overflow","")
c("C68","proved","qr_no_overflow","")
c("C69","proved","map_unwind mmap_unwind reduce_unwind filter_unwind inplace1_unwind inplace2_unwind mmul_unwind unwind_agrees unwind_history unwind_shape","")
c("C70","proved","read_csv_unwind read_csv_order read_csv_unopened read_csv_agrees fmt_unwind print_unwind fmt_pieces fmt_prefix","")
c("C71","proved","pinverse_rounding pinverse_underflow_refuted pinverse_overflow_refuted","the two refuted theorems are the last clause of the property (a finding); that H, L, U and X are finite are hypotheses on the computed result")
c("C72","proved","pinverse_no_overflow","")
c("C73","proved","qr_solve_outcome qr_solve_least_squares_refuted qr_full_rank_f64_refuted qr_solve_f64_refuted","the three refuted theorems are the last two sentences of the property (findings: what C27 and C28 promise fails in f64)")
c("C74","proved","svd_rank_rounding svd_rank_tall_panics_f64 svd_rank_overflow_refuted","the last two sentences of the property are findings: svd_rank_overflow_refuted and svd_rank_tall_panics_f64")
c("C75","proved","is_singular_f64 is_singular_nearby is_singular_well_conditioned is_singular_panics_f64 is_singular_f64_refuted","the last sentence of the property is a finding: is_singular_f64_refuted")
