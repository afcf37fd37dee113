{
 "claims": [
  {
   "property": "C01",
   "status": "proved",
   "theorems": [
    "C01_triangular_inplace",
    "C01_into_triangular"
   ],
   "note": "any scalar semantics, NaN included"
  },
  {
   "property": "C02",
   "status": "proved",
   "theorems": [
    "C02_is_triangular",
    "C02_into_triangular_is_triangular"
   ],
   "note": "any scalar semantics"
  },
  {
   "property": "C03",
   "status": "proved",
   "theorems": [
    "C03_solve_triangular",
    "C03_other_triangle_ignored"
   ],
   "note": "exact real arithmetic; frame part for any scalar semantics"
  },
  {
   "property": "C04",
   "status": "proved",
   "theorems": [
    "C04_solve_triangular_class"
   ],
   "note": "any scalar semantics"
  },
  {
   "property": "C05",
   "status": "proved",
   "theorems": [
    "C05_cholesky_factor",
    "C05_cholesky_lower_only"
   ],
   "note": "exact real arithmetic; also without assuming symmetry"
  },
  {
   "property": "C06",
   "status": "proved",
   "theorems": [
    "C06_cholesky_iff_posdef",
    "C06_cholesky_unique",
    "C06_not_square"
   ],
   "note": "exact real arithmetic; NotSquare part for any scalar semantics"
  },
  {
   "property": "C07",
   "status": "proved",
   "theorems": [
    "C07_upper_triangle_preserved",
    "C07_upper_triangle_ignored"
   ],
   "note": "any scalar semantics, failed in-place calls included"
  },
  {
   "property": "C08",
   "status": "proved",
   "theorems": [
    "C08_solvec"
   ],
   "note": "exact real arithmetic; errors included (NotSquare: C06_not_square)"
  },
  {
   "property": "C09",
   "status": "proved",
   "theorems": [
    "C09_invc"
   ],
   "note": "exact real arithmetic"
  },
  {
   "property": "C10",
   "status": "proved",
   "theorems": [
    "C10_qr_factorises",
    "C10_qr_unique",
    "C10_qr_class",
    "C10_into_decomp_safe"
   ],
   "note": "exact real arithmetic, plus uniqueness; shapes and NotThin for any scalar semantics"
  },
  {
   "property": "C11",
   "status": "proved",
   "theorems": [
    "C11_is_invertible"
   ],
   "note": "exact real arithmetic"
  },
  {
   "property": "C12",
   "status": "proved",
   "theorems": [
    "C12_qr_least_squares"
   ],
   "note": "exact real arithmetic"
  },
  {
   "property": "C13",
   "status": "proved",
   "theorems": [
    "C13_qr_solve_tr",
    "C13_least_squares_wide"
   ],
   "note": "exact real arithmetic"
  },
  {
   "property": "C14",
   "status": "proved",
   "theorems": [
    "C14_qr_inverse"
   ],
   "note": "exact real arithmetic"
  },
  {
   "property": "C15",
   "status": "proved",
   "theorems": [
    "C15_solve_class",
    "C15_solve_tr_class",
    "C15_inverse_class",
    "C15_least_squares_class",
    "C15_least_squares_rank"
   ],
   "note": "any scalar semantics; rank characterisation in exact arithmetic"
  },
  {
   "property": "C16",
   "status": "proved",
   "theorems": [
    "C16_reflect_cols",
    "C16_reflect_rows",
    "C16_mirror_geometry",
    "C16_reflect_twice",
    "C16_reflect_rows_twice",
    "C16_reflect_orthogonal",
    "C16_mismatch_panics"
   ],
   "note": "exact real arithmetic; dimension-mismatch panic for any scalar semantics"
  },
  {
   "property": "C17",
   "status": "proved",
   "theorems": [
    "C17_tridiagonal",
    "C17_into_diagonals",
    "C17_errors"
   ],
   "note": "factorisation in exact real arithmetic; diagonals and error classification for any scalar semantics"
  },
  {
   "property": "C18",
   "status": "proved",
   "theorems": [
    "C18_bidiagonal",
    "C18_into_diagonals",
    "C18_errors"
   ],
   "note": "factorisation in exact real arithmetic; diagonals and error classification for any scalar semantics"
  },
  {
   "property": "C19",
   "status": "proved",
   "theorems": [
    "C19_orthogonal"
   ],
   "note": "exact real arithmetic, for every run that returns (fuel-bounded loop)"
  },
  {
   "property": "C20",
   "status": "proved",
   "theorems": [
    "C20_backward_stable",
    "C20_eigvalsh"
   ],
   "note": "exact real arithmetic with tolerance 2^-52, for every run that returns"
  },
  {
   "property": "C21",
   "status": "partial",
   "theorems": [
    "C21_pairs_partial",
    "C21_exact_partial",
    "C21_refuted"
   ],
   "note": "the pairing claim is false in binary64 (C21_refuted: 3x3 witness); proved up to a permutation of the columns, and exactly for tolerance 0"
  },
  {
   "property": "C22",
   "status": "proved",
   "theorems": [
    "C22_eigvalsh_eigh"
   ],
   "note": "any scalar semantics, any fuel"
  },
  {
   "property": "C23",
   "status": "proved",
   "theorems": [
    "C23_eigh_float",
    "C23_eigh_real",
    "C23_eigvalsh_float",
    "C23_eigvalsh_real",
    "C23_small_terminates"
   ],
   "note": "real arithmetic and binary64, any fuel; no out-of-bounds access, panic or underflow"
  },
  {
   "property": "C24",
   "status": "proved",
   "theorems": [
    "C24_reproduces",
    "C24_tolerance",
    "C24_exact",
    "C24_binary64_refuted"
   ],
   "note": "exact arithmetic, any fuel, any shape, any tolerance >= 0 (exact reproduction for tolerance 0); the binary64 version is refuted (C24_binary64_refuted): an entry is wrong by more than 1/8 on a 3x3 matrix with entries in [0,1]"
  },
  {
   "property": "C25",
   "status": "proved",
   "theorems": [
    "C25_flags",
    "C25_flags_any",
    "C25_binary64_refuted"
   ],
   "note": "exact arithmetic, all four combinations; any arithmetic when at least one flag is set; the remaining combination differs in binary64 (C25_binary64_refuted)"
  },
  {
   "property": "C26",
   "status": "proved",
   "theorems": [
    "C26_outcomes",
    "C26_empty",
    "C26_small_terminates"
   ],
   "note": "any scalar semantics, any shape and fuel"
  },
  {
   "property": "C27",
   "status": "partial",
   "theorems": [
    "C27_refuted",
    "C27_always_refuted",
    "C27_binary64_refuted",
    "C27_identity_partial"
   ],
   "note": "the full claim is false: src/svd.rs:218 multiplies the column by minus zero (C27_refuted, C27_always_refuted; reachable in binary64: C27_binary64_refuted). Proved: nothing changes when no value is negative, which always holds in exact arithmetic"
  },
  {
   "property": "C28",
   "status": "proved",
   "theorems": [
    "C28_binary64_ordered",
    "C28_real_ordered",
    "C28_sorts",
    "C28_panics_iff_nan",
    "C28_unique"
   ],
   "note": "any scalar with a total preorder outside NaN (instances: reals, binary64); stable; the sorted order is unique, so the sorting algorithm is irrelevant"
  },
  {
   "property": "C29",
   "status": "proved",
   "theorems": [
    "C29_sorts",
    "C29_panics_iff_nan",
    "C29_product"
   ],
   "note": "any ordered scalar; product unchanged in exact arithmetic"
  },
  {
   "property": "C30",
   "status": "proved",
   "theorems": [
    "C30_definitions",
    "C30_homogeneous",
    "C30_triangle",
    "C30_definite",
    "C30_chain",
    "C30_max_nan_refuted",
    "C30_l2_underflow_refuted"
   ],
   "note": "exact arithmetic; in binary64 norm_max ignores NaN and norm_l2 underflows (separate refutations)"
  },
  {
   "property": "C31",
   "status": "partial",
   "theorems": [
    "C31_refuted",
    "C31_iff_orthonormal",
    "C31_lobpcg_refuted",
    "C31_orthonormal_partial"
   ],
   "note": "the full statement is false of the code (C31_refuted, C31_lobpcg_refuted); it holds exactly for orthonormal constraint blocks (C31_iff_orthonormal), end to end in C31_orthonormal_partial; exact arithmetic"
  },
  {
   "property": "C32",
   "status": "proved",
   "theorems": [
    "C32_honest"
   ],
   "note": "exact real arithmetic, for every run that returns (fuel bounds the inner eigensolver)"
  },
  {
   "property": "C33",
   "status": "proved",
   "theorems": [
    "C33_trace",
    "C33_best",
    "C33_traced",
    "C33_exact"
   ],
   "note": "any scalar semantics whose comparison is a total order off NaN, provided no residual sum is NaN; C33_exact for the reals"
  },
  {
   "property": "C34",
   "status": "proved",
   "theorems": [
    "C34_not_thin",
    "C34_operator_calls",
    "C34_call_counter"
   ],
   "note": "any scalar semantics"
  },
  {
   "property": "C35",
   "status": "partial",
   "theorems": [
    "C35_refuted",
    "C35_iterated_refuted",
    "C35_ok_partial"
   ],
   "note": "the full statement is false of the code (C35_refuted, C35_iterated_refuted: Ok at the iteration cap); C35_ok_partial says what Ok means, for any scalar semantics"
  },
  {
   "property": "C36",
   "status": "proved",
   "theorems": [
    "C36_orthonormal",
    "C36_iff"
   ],
   "note": "exact real arithmetic"
  },
  {
   "property": "C37",
   "status": "proved",
   "theorems": [
    "C37_history",
    "C37_exhausted",
    "C37_step_size",
    "C37_decompose"
   ],
   "note": "any scalar semantics, any random generator; histories of calls that return (a panic of the inner solver ends the history)"
  },
  {
   "property": "C38",
   "status": "proved",
   "theorems": [
    "C38_next",
    "C38_history"
   ],
   "note": "any scalar semantics"
  },
  {
   "property": "C39",
   "status": "proved",
   "theorems": [
    "C39_values",
    "C39_vectors",
    "C39_shape",
    "C39_exact_svd"
   ],
   "note": "exact real arithmetic; shapes for any scalar semantics; C39_exact_svd adds that exact eigenpairs give an exact truncated SVD"
  },
  {
   "property": "C40",
   "status": "partial",
   "theorems": [
    "C40_refuted",
    "C40_positive_partial"
   ],
   "note": "the full statement is false of the code: decompose(0) with Order::Largest panics in both accessors (C40_refuted). Proved for num > 0 or Order::Smallest, any ordered scalar type with NaN"
  },
  {
   "property": "C41",
   "status": "proved",
   "theorems": [
    "C41_no_panic",
    "C41_empty_refuted",
    "C41_dependent_refuted",
    "C41_nan_refuted"
   ],
   "note": "exact real arithmetic; the hypotheses are needed: C41_empty_refuted, C41_dependent_refuted, C41_nan_refuted"
  },
  {
   "property": "C42",
   "status": "proved",
   "theorems": [
    "C42_ordered"
   ],
   "note": "any scalar semantics whose comparison is a total order off NaN"
  },
  {
   "property": "C43",
   "status": "proved",
   "theorems": [
    "C43_gam",
    "C43_solve_triangular_backward_stable",
    "C43_operations"
   ],
   "note": "binary64; overflow excluded by asking for a finite result; operations for any scalar type"
  },
  {
   "property": "C44",
   "status": "proved",
   "theorems": [
    "C44_cholesky_backward_stable"
   ],
   "note": "binary64, finite factor"
  },
  {
   "property": "C45",
   "status": "proved",
   "theorems": [
    "C45_solvec_backward_stable",
    "C45_invc_backward_stable"
   ],
   "note": "binary64, finite diagonal and finite result"
  },
  {
   "property": "C46",
   "status": "proved",
   "theorems": [
    "C46_norm_max_exact",
    "C46_norm_l1_error",
    "C46_norm_l2_error"
   ],
   "note": "binary64; sums in the order of the iterator"
  },
  {
   "property": "C47",
   "status": "proved",
   "theorems": [
    "C47_rayleigh_ritz",
    "C47_fuel"
   ],
   "note": "exact arithmetic; iterates, active columns and directions of the whole trace"
  },
  {
   "property": "C48",
   "status": "proved",
   "theorems": [
    "C48_generalized",
    "C48_sorted",
    "C48_iterate"
   ],
   "note": "exact arithmetic; the bounds are relative to the measured defect of the inner calls of eigh, since eigh may mispair values and vectors (C21)"
  },
  {
   "property": "C49",
   "status": "proved",
   "theorems": [
    "C49_monotone",
    "C49_bounded"
   ],
   "note": "exact arithmetic; error terms vanish when the inner calls of eigh are exact"
  },
  {
   "property": "C50",
   "status": "proved",
   "theorems": [
    "C50_wilkinson_shift",
    "C50_sweep",
    "C50_eigh_terminates",
    "C50_terminates"
   ],
   "note": "exact arithmetic; nonsingular matrices (smallest singular value above the deflation perturbation); singular matrices and binary64 are outside the statement"
  },
  {
   "property": "C51",
   "status": "proved",
   "theorems": [
    "C51_sweep",
    "C51_svd_terminates",
    "C51_total"
   ],
   "note": "exact arithmetic; the iteration bound depends on the dimensions only"
  },
  {
   "property": "C52",
   "status": "proved",
   "theorems": [
    "C52_hangs",
    "C52_terminates_refuted"
   ],
   "note": "the hang is proved for every such input; it refutes termination (C51) for binary64"
  },
  {
   "property": "C53",
   "status": "proved",
   "theorems": [
    "C53_tsvd_run",
    "C53_tsvd_outcomes",
    "C53_triplets",
    "C53_teig",
    "C53_next"
   ],
   "note": "Exact arithmetic (instance RN); lobpcg runs that return, plus absence of panics for every amount of fuel."
  },
  {
   "property": "C54",
   "status": "proved",
   "theorems": [
    "C54_qr_backward_stable",
    "C54_qr_residual",
    "C54_q_orthonormal",
    "C54_constants",
    "C54_overflow_refuted",
    "C54_underflow_refuted"
   ],
   "note": "Under the stated range conditions, which are necessary (C54_overflow_refuted, C54_underflow_refuted). The inner products are summed left to right as in the model of dot."
  },
  {
   "property": "C55",
   "status": "proved",
   "theorems": [
    "C55_qr_solve_backward_stable",
    "C55_least_squares",
    "C55_inverse_backward_stable"
   ],
   "note": "Under a range condition on the diagonal of R that also excludes 0. The inner products are summed left to right as in the model of dot."
  },
  {
   "property": "C56",
   "status": "proved",
   "theorems": [
    "C56_qr_solve_tr_stable",
    "C56_least_squares_wide"
   ],
   "note": "Under a range condition on the diagonal of R that also excludes 0. The inner products are summed left to right as in the model of dot."
  },
  {
   "property": "C57",
   "status": "proved",
   "theorems": [
    "C57_accepts_positive_definite",
    "C57_rejects_indefinite",
    "C57_accepts_indefinite_refuted"
   ],
   "note": "Acceptance and rejection with explicit margins; outright rejection of indefinite matrices is false of the code (C57_accepts_indefinite_refuted)."
  },
  {
   "property": "C58",
   "status": "proved",
   "theorems": [
    "C58_eigvalsh_refuted",
    "C58_svd_refuted"
   ],
   "note": "the general accuracy claim is false; witnesses proved"
  },
  {
   "property": "C59",
   "status": "proved",
   "theorems": [
    "C59_tridiagonal_backward_stable",
    "C59_tridiagonal_residual",
    "C59_eigenpairs",
    "C59_constants"
   ],
   "note": "The off-diagonal range condition cannot be dropped (C58). Each operation of the rank-one updates is rounded separately, as in the model of general_mat_mul."
  },
  {
   "property": "C60",
   "status": "proved",
   "theorems": [
    "C60_bidiagonal_backward_stable",
    "C60_bidiagonal_residual",
    "C60_singular_triples",
    "C60_constants"
   ],
   "note": "the reduction in binary64, tall and wide, with the generated factors; underflow of an entry of b is excluded by hypothesis because C58 shows the claim false there"
  },
  {
   "property": "C61",
   "status": "proved",
   "theorems": [
    "C61_eigenvectors_refuted"
   ],
   "note": "refutation by an explicit witness; the returned values of the same matrix are checked in C61_values"
  },
  {
   "property": "C62",
   "status": "proved",
   "theorems": [
    "C62_eigvalsh_backward_stable",
    "C62_binary64",
    "C62_values",
    "C62_constants"
   ],
   "note": "values only; the vectors can be wrong (C61). Needs no off-diagonal entry of the tridiagonal form in (0, 2^-480) (false without it, C58) and no hypot result below 2^-1000"
  },
  {
   "property": "C63",
   "status": "proved",
   "theorems": [
    "C63_eigh_orthogonal",
    "C63_columns",
    "C63_binary64",
    "C63_constants"
   ],
   "note": "Under the hypotheses of C62. Accuracy of the vectors themselves is refuted in C61."
  },
  {
   "property": "C64",
   "status": "proved",
   "theorems": [
    "C64_svd_values_backward_stable",
    "C64_binary64",
    "C64_pairs",
    "C64_constants"
   ],
   "note": "svd with both flags off, in binary64, for every accurate hypot; input range and finiteness hypotheses in the statement"
  },
  {
   "property": "C65",
   "status": "proved",
   "theorems": [
    "C65_weyl_eigenvalues",
    "C65_weyl_singular_values",
    "C65_eigvalsh_binary64",
    "C65_svd_binary64",
    "C65_eigvalsh_exact",
    "C65_svd_exact"
   ],
   "note": "exact arithmetic and binary64; the binary64 parts inherit the hypotheses of C62 and C64; exact eigenvalues are given by any spectral decomposition of A"
  },
  {
   "property": "C66",
   "status": "proved",
   "theorems": [
    "C66_solve_triangular_forward",
    "C66_solvec_forward",
    "C66_qr_solve_forward",
    "C66_qr_inverse_forward",
    "C66_least_squares_forward"
   ],
   "note": "Forward error bounds for solve_triangular, solvec, qr.solve, qr.inverse and overdetermined least squares in binary64, from the backward errors of C43, C45, C55."
  },
  {
   "property": "C67",
   "status": "proved",
   "theorems": [
    "C67_qr_accepts",
    "C67_solvec_accepts",
    "C67_rejects_singular_refuted",
    "C67_singular_is_huge"
   ],
   "note": "Well-conditioned systems are accepted (QR and Cholesky). The converse, that singular matrices are rejected, is refuted in binary64 (C67_rejects_singular_refuted); C67_singular_is_huge is what holds instead."
  },
  {
   "property": "C68",
   "status": "proved",
   "theorems": [
    "C68_svd_vectors_orthonormal",
    "C68_accurate_hypot",
    "C68_binary64",
    "C68_inner_products",
    "C68_constants"
   ],
   "note": "The corollary for a concrete hypot asks that the run is unchanged when hypot returns NaN outside the range in which it is accurate (arguments above 2^500, results below 2^-1000)."
  },
  {
   "property": "C69",
   "status": "proved",
   "theorems": [
    "C69_svd_scaling",
    "C69_svd_same_outcome",
    "C69_eigh_scaling",
    "C69_values",
    "C69_power_of_two"
   ],
   "note": "b must be exactly k times a, without rounding."
  },
  {
   "property": "C70",
   "status": "proved",
   "theorems": [
    "C70_svd_transpose",
    "C70_svd_transpose_exact",
    "C70_square_refuted"
   ],
   "note": "For matrices with different numbers of rows and columns; for square ones the statement is refuted."
  },
  {
   "property": "C71",
   "status": "proved",
   "theorems": [
    "C71_solve_upper",
    "C71_solve_lower",
    "C71_cholesky",
    "C71_solvec",
    "C71_invc",
    "C71_qr",
    "C71_qr_solve",
    "C71_inverse",
    "C71_least_squares",
    "C71_norms",
    "C71_norm_max_refuted",
    "C71_eigvalsh",
    "C71_eigh",
    "C71_svd"
   ],
   "note": "norm_max is the exception, refuted by C71_norm_max_refuted (as the statement says)"
  },
  {
   "property": "C72",
   "status": "proved",
   "theorems": [
    "C72_cancel_y",
    "C72_cancel_x",
    "C72_new",
    "C72_try_new",
    "C72_inverse",
    "C72_rotate_rows",
    "C72_rotate_cols",
    "C72_cancel_y_binary64"
   ],
   "note": "exact arithmetic for all functions; cancel_y also in binary64"
  },
  {
   "property": "C73",
   "status": "proved",
   "theorems": [
    "C73_reflection_axis",
    "C73_clear_column",
    "C73_clear_row",
    "C73_assemble_q"
   ],
   "note": "exact arithmetic"
  },
  {
   "property": "C74",
   "status": "proved",
   "theorems": [
    "C74_eigvals",
    "C74_uptrig_svd"
   ],
   "note": "exact arithmetic"
  },
  {
   "property": "C75",
   "status": "proved",
   "theorems": [
    "C75_common_column",
    "C75_one_column",
    "C75_inverse"
   ],
   "note": "Every scalar semantics. In the model a dot product always adds from index 0 upwards; the real ndarray picks an unrolled order of summation when both vectors are contiguous in memory, so for the QR-based solvers equality is modulo that choice (the triangular and Cholesky solvers work elementwise and are not affected)."
  },
  {
   "property": "C76",
   "status": "proved",
   "theorems": [
    "C76_rayleigh",
    "C76_trace",
    "C76_range",
    "C76_squares",
    "C76_binary64_psd_refuted"
   ],
   "note": "Exact arithmetic. C76_binary64_psd_refuted: nonnegativity on positive semidefinite matrices fails in binary64 (rounding in the 2x2 formula)."
  },
  {
   "property": "C77",
   "status": "proved",
   "theorems": [
    "C77_start_block",
    "C77_preconditioner",
    "C77_teig",
    "C77_builders",
    "C77_tsvd",
    "C77_svd_builders",
    "C77_explicit_gram"
   ],
   "note": "generic in the scalar type; precision is a scalar of the same type (the code keeps it as f32 and converts, see DESIGN.md)"
  },
  {
   "property": "C78",
   "status": "proved",
   "theorems": [
    "C78_eigh_exact",
    "C78_eigh_binary64",
    "C78_error",
    "C78_binary64_exact_refuted",
    "C78_solve_triangular",
    "C78_cholesky"
   ],
   "note": "eigh (exact and binary64), error of the values, triangular solve, Cholesky; that the binary64 values are the diagonal itself is refuted."
  },
  {
   "property": "C79",
   "status": "proved",
   "theorems": [
    "C79_cholesky_qr",
    "C79_normal_equations",
    "C79_positive_definite",
    "C79_cholesky_eigvalsh",
    "C79_binary64_refuted"
   ],
   "note": "Exact arithmetic; agreement of the rank verdicts in binary64 is refuted."
  },
  {
   "property": "C80",
   "status": "proved",
   "theorems": [
    "C80_ordered",
    "C80_sorts",
    "C80_diagonal",
    "C80_threshold",
    "C80_underflow_refuted"
   ],
   "note": "Second floating-point instance; the rounding error theorems remain binary64 only. Accuracy in the presence of tiny entries is refuted."
  },
  {
   "property": "C81",
   "status": "proved",
   "theorems": [
    "C81_binary64",
    "C81_binary32",
    "C81_exact",
    "C81_binary64_factor_refuted"
   ],
   "note": "binary64, binary32 and reals; homogeneity for factor 3 refuted in binary64"
  },
  {
   "property": "C82",
   "status": "proved",
   "theorems": [
    "C82_cholesky",
    "C82_cholesky_fails",
    "C82_forward",
    "C82_backward",
    "C82_qr",
    "C82_backward_leading_refuted"
   ],
   "note": "any scalar type; leading rows of an upper triangular system refuted"
  },
  {
   "property": "C83",
   "status": "proved",
   "theorems": [
    "C83_qr_involution",
    "C83_qr_solve",
    "C83_qr_transpose",
    "C83_qr_product",
    "C83_invc",
    "C83_solvec",
    "C83_binary64_symmetric_refuted"
   ],
   "note": "exact arithmetic; symmetry of invc refuted in binary64"
  },
  {
   "property": "C84",
   "status": "proved",
   "theorems": [
    "C84_rows",
    "C84_columns",
    "C84_shift",
    "C84_consistent",
    "C84_binary64_order_refuted"
   ],
   "note": "exact arithmetic; independence of the order of the equations refuted in binary64"
  },
  {
   "property": "C85",
   "status": "proved",
   "theorems": [
    "C85_cholesky",
    "C85_invc",
    "C85_solvec",
    "C85_triangular",
    "C85_qr_inverse",
    "C85_binary64_refuted"
   ],
   "note": "exact arithmetic; binary64 counterexample"
  },
  {
   "property": "C86",
   "status": "proved",
   "theorems": [
    "C86_eigvalsh",
    "C86_svd"
   ],
   "note": "exact arithmetic"
  }
 ]
}