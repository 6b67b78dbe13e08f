{
 "claims": [
  {
   "property": "C01",
   "status": "proved",
   "theorems": [
    "C01_filter_rejects_iff_dominated",
    "C01_filter_rejection_permanent",
    "C01_filter_add_enlarges_exactly"
   ],
   "note": "binary64 incl. NaN/inf; every history of filter calls"
  },
  {
   "property": "C02",
   "status": "proved",
   "theorems": [
    "C02_filter_cap",
    "C02_filter_never_rejects_nan"
   ],
   "note": "the NaN/-1e20 exceptions are part of the statement"
  },
  {
   "property": "C03",
   "status": "partial",
   "theorems": [
    "C03_accept_iff",
    "C03_accepted_point_justified",
    "C03_accepted_point_recorded_partial",
    "C03_soc_point_not_recorded_refuted",
    "C03_every_step_tested_partial",
    "C03_every_step_tested_refuted"
   ],
   "note": "The stated claim (accepted => not in filter + demanded decrease) is proved for the test and for whole runs of both solvers. Two consequences a user expects are refuted: a point accepted by second-order correction is not what gets recorded, and a step without any test is possible after the refactorization limit is hit twice."
  },
  {
   "property": "C04",
   "status": "partial",
   "theorems": [
    "C04_backtracking_ends_partial",
    "C04_backtracking_bound",
    "C04_backtracking_ends_refuted"
   ],
   "note": "Ends for min_step_size>0 and a step in [0,1]; never ends for the allowed option value min_step_size=0 or a NaN step."
  },
  {
   "property": "C05",
   "status": "partial",
   "theorems": [
    "C05_update_ranges",
    "C05_history_ranges_partial",
    "C05_loop_ends",
    "C05_loop_is_history",
    "C05_tau_below_one_refuted",
    "C05_mu_decreases_refuted"
   ],
   "note": "binary64 with rounding, arbitrary pow. mu>0 and the loop ends: proved. tau<1 holds when the floor min(tol,comp_tol/scale)/11 is >= 2^-53; refuted in general (comp_tol=1e-16 gives tau=1). A mu below the floor is increased."
  },
  {
   "property": "C06",
   "status": "proved",
   "theorems": [
    "C06_status_truthful",
    "C06_stops_at_tolerance",
    "C07_max_iter_status_exact"
   ],
   "note": "control flow of both run() loops over arbitrary error measures"
  },
  {
   "property": "C07",
   "status": "proved",
   "theorems": [
    "C07_iteration_limit",
    "C07_max_iter_status_exact",
    "C07_run_ends"
   ],
   "note": ""
  },
  {
   "property": "C08",
   "status": "partial",
   "theorems": [
    "C08_kernel_largest_step",
    "C08_iterate_largest_step",
    "C08_stays_interior",
    "C08_recomputed_slacks",
    "C08_binary64_zero_step_refuted",
    "C08_binary64",
    "C08_binary64_inside",
    "C08_nan_direction_refuted",
    "C08_underflow_refuted"
   ],
   "note": "Exact (rational) arithmetic: the step is the largest one in (0,1] over all ranks. In binary64, for all stored vectors including infinities and NaN, both steps lie in [0,1], are at most the rounded boundary step of every bounded entry that has one, and are 1 or one of these; with tau <= 1-2^-50 and no underflow every bounded entry stays strictly positive in exact evaluation. Refuted in binary64: positivity of the step and interiority under underflow; a NaN direction gives step 1. Missing: the rounding of the update x + alpha d itself."
  },
  {
   "property": "C09",
   "status": "proved",
   "theorems": [
    "C09_duals_confined"
   ],
   "note": "exact (rational) arithmetic"
  },
  {
   "property": "C10",
   "status": "partial",
   "theorems": [
    "C10_projection_inside_partial",
    "C10_equal_bounds_refuted",
    "C10_binary64_on_bound_refuted"
   ],
   "note": "Exact arithmetic, gap*kappa2 > 100*DBL_MIN. Equal bounds: success reported with a point outside; binary64: adjacent bounds leave the point on the bound."
  },
  {
   "property": "C11",
   "status": "partial",
   "theorems": [
    "C11_factorize_ends",
    "C11_retry_grows",
    "C11_no_abort_partial",
    "C11_abort_refuted",
    "C11_retry_changes_matrix_refuted"
   ],
   "note": "binary64. The dialogue ends after at most 11 factorizations for all answers; retries grow the regularization for growth factors >= 2 and positive first value. Refuted: with asserts compiled in, the answers singular / wrong inertia / singular abort the program; with delta_0_bar=0 a retry repeats the same matrix."
  },
  {
   "property": "C12",
   "status": "partial",
   "theorems": [
    "C12_primal_first_partial",
    "C12_dual_first",
    "C12_slack_regularisation_refuted"
   ],
   "note": "binary64. Dual-first: proved for all histories. Primal-first: proved except when both Hessian and Jacobian have been classified degenerate; then variables and slacks get different values (refuted with default options)."
  },
  {
   "property": "C13",
   "status": "partial",
   "theorems": [
    "C13_legal",
    "C13_pridec_partial",
    "C13_accum_local_refuted",
    "C13_nan_refuted",
    "C13_ignored",
    "C13_invalid_partial",
    "C13_invalid_refuted"
   ],
   "note": "For every build configuration, options file and call history without NaN, both option classes never abort and every option keeps its declared type and range; unknown or mistyped requests change nothing; out-of-range requests change no value except for six options whose user-set mark drives consistency rules. Refuted as stated: NaN passes the range test, the default of accum_local is outside its range, an out-of-range tolerance request can change that tolerance through the consistency pass."
  },
  {
   "property": "C14",
   "status": "partial",
   "theorems": [
    "C14_precedence_partial",
    "C14_pridec_precedence_partial",
    "C14_file_blocks",
    "C14_no_cross",
    "C14_case_refuted",
    "C14_checkpoint_refuted",
    "C14_invalid_file_refuted"
   ],
   "note": "History theorem for every option outside the targets of the consistency rules: the value is that of the last valid request that counts, where a file request makes later runtime ones not count. For the other options: once the file mentions the option, runtime calls for it change nothing. A call changes other options only to values installed by consistency rules. Refuted: strings are lower-cased; without AXOM checkpoint options lose file precedence; an invalid file value blocks valid runtime values."
  },
  {
   "property": "C15",
   "status": "partial",
   "theorems": [
    "C15_pass",
    "C15_frame",
    "C15_pridec",
    "C15_tolerance_refuted",
    "C15_hessian_refuted",
    "C15_moving_refuted",
    "C15_elastic_refuted"
   ],
   "note": "Both passes never abort on in-range tables, keep ranges, establish the relations listed in OptSpec.consistent, are idempotent and only change rule targets to documented values. Refuted: relations conditional on a user-set mark fail when the setter does not record it or the value is a default; both move limits can be active when the product underflows; the documented order of elastic relaxation factors is not enforced."
  },
  {
   "property": "C16",
   "status": "proved",
   "theorems": [
    "C16_split",
    "C16_recombine",
    "C16_recombine_back",
    "C16_ineq_only"
   ],
   "note": "process_constraints of the general formulation for every constraint list; recombination through the copy kernels; the inequality-only formulation keeps order and bounds"
  },
  {
   "property": "C17",
   "status": "partial",
   "theorems": [
    "C17_variables",
    "C17_ranks",
    "C17_inequalities",
    "C17_after_initialisation",
    "C17_after_initialisation_refuted"
   ],
   "note": "indicators and counters for all bound vectors and all partitions over ranks; after removal of fixed variables the counters agree with the indicators provided every fixed variable has a lower bound above -1e20, refuted otherwise"
  },
  {
   "property": "C18",
   "status": "partial",
   "theorems": [
    "C18_evaluations_partial",
    "C18_setup",
    "C18_setup_refuted",
    "C18_reduce_after_expand",
    "C18_expand_after_reduce",
    "C18_distribution"
   ],
   "note": "all request sequences, fixed sets, points, rank partitions; set-up succeeds iff no pair within tolerance has an absent upper bound and is refuted for +infinity upper bounds; the one-call Jacobian with removal and the arrays of the solution callback are not covered"
  },
  {
   "property": "C19",
   "status": "partial",
   "theorems": [
    "C19_fixed_contains",
    "C19_fixed_strict",
    "C19_fixed_only",
    "C19_fixed_only_refuted",
    "C19_bounds_contains",
    "C19_bounds_strict_partial",
    "C19_bounds_strict_refuted",
    "C19_absent_stays_absent",
    "C19_after_initialisation",
    "C19_ineq_only"
   ],
   "note": "binary64 with overflow and infinities; strictness for factors of at least 2^-52, refuted for smaller positive factors that the option bound_relax_perturb accepts"
  },
  {
   "property": "C20",
   "status": "partial",
   "theorems": [
    "C20_getter",
    "C20_callback_partial",
    "C20_callback_refuted",
    "C20_constraint_values"
   ],
   "note": "exact arithmetic over an arbitrary field; getObjective for every chain; the callback for at most one scaling, refuted after a second solve with the same object; constraint values for every chain"
  },
  {
   "property": "C21",
   "status": "partial",
   "theorems": [
    "C21_callback_residual",
    "C21_callback_partial",
    "C21_getter_partial",
    "C21_callback_refuted",
    "C21_getter_independent",
    "C21_getter_refuted"
   ],
   "note": "exact residual of the reported multipliers for every chain; zero when all objective factors are one, refuted otherwise (multipliers are multiplied by the factor instead of divided); the getter ignores the multipliers as soon as scaling is active"
  },
  {
   "property": "C22",
   "status": "partial",
   "theorems": [
    "C22_sparse_partial",
    "C22_mds_partial",
    "C22_factors_match",
    "C22_mds_refuted",
    "C22_rerun_refuted",
    "C22_limited_refuted",
    "C22_documented_order_refuted"
   ],
   "note": "sparse interface in the user order for one scaling with matching factors; mixed dense-sparse in block order; refuted for mixed dense-sparse with scaling and interleaved constraints, for a second solve, and for factors limited from below"
  },
  {
   "property": "C23",
   "status": "partial",
   "theorems": [
    "C23_residuals",
    "C23_half_failure_recovers",
    "C23_first_error_refuted",
    "C23_sparse_jacobian",
    "C23_mds_jacobian",
    "C23_dense_jacobian_partial",
    "C23_dense_refuted"
   ],
   "note": "residuals over all evaluation histories, sparse and mixed dense-sparse Jacobians for every chain of scalings; dense Jacobians without scaling, refuted with scaling (inverse factors on the one-call path)"
  },
  {
   "property": "C24",
   "status": "proved",
   "theorems": [
    "C24_times_vec",
    "C24_trans_times_vec",
    "C24_sym_times_vec",
    "C24_adjoint",
    "C24_row_scaling"
   ],
   "note": "over any field; duplicates and any order"
  },
  {
   "property": "C25",
   "status": "proved",
   "theorems": [
    "C25_slots_frame",
    "C25_copy_rows",
    "C25_copy_rows_block",
    "C25_copy_submatrix",
    "C25_copy_submatrix_needs_room",
    "C25_copy_diag",
    "C25_copy_diag_pattern",
    "C25_const_diag_colpattern",
    "C25_const_diag_rowpattern",
    "C25_sub_diag_from",
    "C25_set_sub_diag"
   ],
   "note": "row-copy kernels for sources sorted by row; capacity asserts of the code are hypotheses"
  },
  {
   "property": "C26",
   "status": "proved",
   "theorems": [
    "C26_MDinvMt",
    "C26_MDinvNt",
    "C26_MDinvNt_upper_only",
    "C26_times_mat_trans",
    "C26_trans_add",
    "C26_add_upper",
    "C26_copy_to_dense"
   ],
   "note": "over any field, all sorted patterns; row starts are rebuilt from the pattern (the cached copy going stale after a pattern rewrite is not modelled)"
  },
  {
   "property": "C27",
   "status": "partial",
   "theorems": [
    "C27_triplet_to_csr_partial",
    "C27_transpose_of_triplet_partial",
    "C27_transpose_of_csr_partial",
    "C27_empty_matrix_refuted",
    "C27_empty_transpose_refuted",
    "C27_second_symbolic_refuted"
   ],
   "note": "true for matrices with at least one stored entry; with none the row pointers are left uninitialised, and a repeated symbolic transposition aborts"
  },
  {
   "property": "C28",
   "status": "partial",
   "theorems": [
    "C28_product_partial",
    "C28_sum_partial",
    "C28_product_zero_columns_refuted"
   ],
   "note": "true for positive sizes; a product with zero columns or rows aborts"
  },
  {
   "property": "C29",
   "status": "partial",
   "theorems": [
    "C29_conversion",
    "C29_refresh_partial",
    "C29_refresh_refuted"
   ],
   "note": "The conversion to CSR is right for every matrix with at most two entries per diagonal position. The value refresh used on later factorizations is right only when the sort does not move the diagonal of a row with a second diagonal entry; refuted otherwise (C29_refresh_refuted)."
  },
  {
   "property": "C30",
   "status": "proved",
   "theorems": [
    "C30_exactly_once",
    "C30_always",
    "C30_all_stopped",
    "C30_can_finish",
    "C30_work_bound",
    "C30_sum",
    "C30_too_many_workers"
   ],
   "note": "Transition system of master and workers with arbitrary scheduling and arrival choices, any number of workers W and terms S>=W: invariant over all executions; on leaving the loop every index was sent once, evaluated once by the worker it was sent to and accumulated once; at the end all workers stopped and nothing is pending; no deadlock; a bounded number of steps besides unsuccessful polls; sums equal the total in any field. For S<W the code aborts (outside the quantifier)."
  },
  {
   "property": "C31",
   "status": "partial",
   "theorems": [
    "C31_BB_partial",
    "C31_history_partial",
    "C31_run_partial",
    "C31_ratio_refuted",
    "C31_bounds_refuted"
   ],
   "note": "Binary64, every history of calls and every dot product and norm (NaN and infinities included): curvature within [alpha_min, alpha_max] and ratio within its bounds after any ratio update, provided the bounds are ordered. Refuted as stated: the initial ratio accepted by set_initial_alpha_ratio is used unclamped in the first iteration; alpha bounds set after construction are not checked and can be crossed."
  },
  {
   "property": "C32",
   "status": "partial",
   "theorems": [
    "C32_success_partial",
    "C32_flag",
    "C32_work_partial",
    "C32_resolve",
    "C32_zero_rhs_refuted",
    "C32_iter_refuted",
    "C32_bicg_iter_refuted"
   ],
   "note": "Proved for arbitrary vector kernels, call-dependent operators and preconditioners: success means the returned vector passes ||b-Ax||<=tol||b|| with the operator itself, flag and return value agree, operator calls <= 8 maxit + 2. Missing because false: a zero-norm right-hand side is accepted without applying the operator (wrong for nonlinear operators), and the iteration count reported after a failure can be maxit+1 (refuted)."
  },
  {
   "property": "C33",
   "status": "partial",
   "theorems": [
    "C33_memory",
    "C33_curvature",
    "C33_sigma_partial",
    "C33_sigma_refuted"
   ],
   "note": "memory contents, order, L and D proved for every history and memory length with abstract vector kernels; curvature positive for every norm that is not negative; sigma is within its safeguards only after the first accepted pair: with sigma0=0 (allowed by the option) the initial sigma is below them (refuted)"
  },
  {
   "property": "C34",
   "status": "proved",
   "theorems": [
    "C34_dot_product",
    "C34_sums",
    "C34_infnorm",
    "C34_min",
    "C34_logical_tests",
    "C34_counts",
    "C34_log_barrier",
    "C34_damping_term",
    "C34_twonorm",
    "C34_step_length"
   ],
   "note": "exact arithmetic; log is an arbitrary function"
  },
  {
   "property": "C35",
   "status": "partial",
   "theorems": [
    "C35_compress",
    "C35_compress_needs_room",
    "C35_expand",
    "C35_expand_after_compress",
    "C35_index_copy",
    "C35_merge",
    "C35_split_after_merge",
    "C35_merge_after_split",
    "C35_block_copies",
    "C35_copy_into",
    "C35_copy_out",
    "C35_copy_tail",
    "C35_copy_from_starting_at_refuted"
   ],
   "note": "all kernels listed are proved; copy_from_starting_at with fewer entries than the vector copies nothing (refuted)"
  },
  {
   "property": "C36",
   "status": "partial",
   "theorems": [
    "C36_dense_xycyd_partial",
    "C36_dense_xycyd_refuted",
    "C36_dense_xdycyd_partial",
    "C36_dense_xdycyd_refuted",
    "C36_mds",
    "C36_lowrank",
    "C36_normal_partial",
    "C36_normal_refuted",
    "C36_normal_stale_refuted",
    "C36_sparse_assembly",
    "C36_sparse_xycyd_partial",
    "C36_sparse_xycyd_refuted",
    "C36_sparse_xycyd_dual_refuted",
    "C36_sparse_xdycyd",
    "C36_sparse_full_partial",
    "C36_sparse_full_refuted",
    "C36_operator",
    "C36_residual",
    "C36_full_step"
   ],
   "note": "Exact solves give full Newton directions for the mixed dense-sparse, quasi-Newton and sparse 4-block systems without restriction. For the dense systems only without dual regularization (or without equalities); for the sparse 3-block system only from zeroed reciprocals and without dual regularization of the inequalities; for the unreduced sparse system only in the first build; for the normal equations only for constant matrices and truthful reports. Each restriction is shown necessary by a refutation."
  },
  {
   "property": "C37",
   "status": "partial",
   "theorems": [
    "C37_jacobian_blocks",
    "C37_hessian_blocks",
    "C37_layout",
    "C37_bounds",
    "C37_objective",
    "C37_derivatives",
    "C37_hessian_factor_refuted",
    "C37_constraints",
    "C37_start"
   ],
   "note": "every block, the objective with its gradient and second derivative, the constraints and the starting point, for the three layouts in exact arithmetic; the Hessian ignores the objective factor asked for, so it is the derivative only for factor 1"
  },
  {
   "property": "C38",
   "status": "proved",
   "theorems": [
    "C38_jacobian",
    "C38_hessian",
    "C38_problem_data"
   ],
   "note": "sparse wrappers and the two-call protocol behind them; C38_hessian is for one solve of the problem object (several solves: C55)"
  },
  {
   "property": "C39",
   "status": "partial",
   "theorems": [
    "C39_schur_complement",
    "C39_voltages_partial",
    "C39_nothing_retained_refuted"
   ],
   "note": "from raw elements through assembling, for every solver that solves with the eliminated block; recovering voltages is wrong when no bus is retained (the output array is not written)"
  },
  {
   "property": "C40",
   "status": "partial",
   "theorems": [
    "C40_slacks_move_up_within_limits_partial",
    "C40_count",
    "C40_bound_follows_slack",
    "C40_outside_refuted",
    "C40_zero_multiplier_refuted"
   ],
   "note": "exact (rational) arithmetic, slacks not negative and multipliers positive; for a point outside its bound the bound moves by more than the violation (refuted), and a zero multiplier turns other slacks into NaN in binary64 (refuted)"
  },
  {
   "property": "C41",
   "status": "partial",
   "theorems": [
    "C41_newton_never_pending_partial",
    "C41_quasi_newton_pending_refuted"
   ],
   "note": "holds for the Newton solver; the quasi-Newton run() leaves its loop after a successful restoration and returns NlpSolve_Pending"
  },
  {
   "property": "C42",
   "status": "partial",
   "theorems": [
    "C42_accept_every_trial_step_refuted"
   ],
   "note": "refuted for every run: the line-search status stays 0, so the step is handed to restoration"
  },
  {
   "property": "C43",
   "status": "partial",
   "theorems": [
    "C43_user_error_reported_refuted",
    "C43_soft_restoration_rejected_yet_success_refuted"
   ],
   "note": "refuted: a failure inside the soft restoration is swallowed"
  },
  {
   "property": "C44",
   "status": "partial",
   "theorems": [
    "C44_extract_diagonal_partial",
    "C44_extract_diagonal_refuted",
    "C44_is_diagonal"
   ],
   "note": "true without duplicates; with duplicates the last entry is returned"
  },
  {
   "property": "C45",
   "status": "partial",
   "theorems": [
    "C45_sub_diagonal_partial",
    "C45_sub_diagonal_refuted"
   ],
   "note": "true for diag_start=0; false otherwise: destination index not reduced by diag_start"
  },
  {
   "property": "C46",
   "status": "partial",
   "theorems": [
    "C46_condensed_matrix_partial",
    "C46_condensed_solve_partial",
    "C46_empty_hessian_refuted"
   ],
   "note": "true when Hessian and Jacobian each have a stored entry; an empty Hessian aborts"
  },
  {
   "property": "C47",
   "status": "partial",
   "theorems": [
    "C47_scaling",
    "C47_check_ordered",
    "C47_diagonal_partial",
    "C47_diagonal_refuted"
   ],
   "note": "scaling and the order check in full; diagonal updates need the diagonal to be stored; otherwise they are silently skipped"
  },
  {
   "property": "C48",
   "status": "proved",
   "theorems": [
    "C48_sort"
   ],
   "note": ""
  },
  {
   "property": "C49",
   "status": "partial",
   "theorems": [
    "C49_factorize_truthful",
    "C49_inertia_free_partial",
    "C49_inertia_free_refuted"
   ],
   "note": "proved for the inertia-correcting path; the inertia-free path reports success after 12 singular factorizations"
  },
  {
   "property": "C50",
   "status": "partial",
   "theorems": [
    "C50_getter_partial",
    "C50_removed_prefix",
    "C50_removed_refuted"
   ],
   "note": "holds without removal of fixed variables; with removal only the first n_free entries of the array are written, refuted"
  },
  {
   "property": "C51",
   "status": "partial",
   "theorems": [
    "C51_objective",
    "C51_constraints",
    "C51_apply",
    "C51_zero_jacobian_refuted"
   ],
   "note": "exact arithmetic; all options with nonnegative limits; with scaling_max_con_grad set a vanishing Jacobian divides by zero"
  },
  {
   "property": "C52",
   "status": "partial",
   "theorems": [
    "C52_stops_first",
    "C52_status_refuted"
   ],
   "note": "The loop ends at exactly the first iteration satisfying the stated condition, for every history of measures. The status part is false: run_single always returns Solve_Success."
  },
  {
   "property": "C53",
   "status": "partial",
   "theorems": [
    "C53_success_partial",
    "C53_bicg_refuted",
    "C53_pcg_refuted"
   ],
   "note": "Proved for successful solves. False after failures: BiCGStab overwrites the right-hand side before the last residual (lines 564, 643), conjugate gradients may report the recurrence residual."
  },
  {
   "property": "C54",
   "status": "partial",
   "theorems": [
    "C54_solve",
    "C54_reduced",
    "C54_secant",
    "C54_posdef",
    "C54_product_partial",
    "C54_product_refuted"
   ],
   "note": "exact arithmetic, LAPACK solve a parameter assumed exact; the product replaces a curvature below machine epsilon by epsilon so it is then not that of the matrix used by the solve (refuted); positive definiteness over the rationals"
  },
  {
   "property": "C55",
   "status": "partial",
   "theorems": [
    "C55_jacobian_every_solve_partial",
    "C55_second_solve_refuted"
   ],
   "note": "false for the Hessian: the pattern is requested once per problem object while every solve allocates new storage"
  },
  {
   "property": "C56",
   "status": "partial",
   "theorems": [
    "C56_constraints_partial",
    "C56_objective_refuted"
   ],
   "note": "false for the objective and the gradient: the flag is always passed as 0"
  },
  {
   "property": "C57",
   "status": "partial",
   "theorems": [
    "C57_failure_refuted"
   ],
   "note": "false: the error code is dropped by every callback"
  },
  {
   "property": "C58",
   "status": "proved",
   "theorems": [
    "C58_assemble"
   ],
   "note": ""
  },
  {
   "property": "C59",
   "status": "partial",
   "theorems": [
    "C59_slice",
    "C59_symmetric_slice",
    "C59_slice_of_symmetric_partial",
    "C59_slice_of_symmetric_refuted",
    "C59_duplicates_refuted"
   ],
   "note": "new_slice and new_sliceFromSymToSym without restriction on assembled matrices; new_sliceFromSym misses entries and leaves storage unset unless columns before the diagonal of the block lie left of the rows"
  },
  {
   "property": "C60",
   "status": "partial",
   "theorems": [
    "C60_factorization_failure_partial",
    "C60_solve_failure_refuted"
   ],
   "note": "a failed solve is ignored"
  },
  {
   "property": "C61",
   "status": "partial",
   "theorems": [
    "C61_after_failure_partial",
    "C61_second_use_refuted"
   ],
   "note": "a second successful reduction aborts on an assertion"
  },
  {
   "property": "C62",
   "status": "partial",
   "theorems": [
    "C62_force_update_partial",
    "C62_force_update_refuted"
   ],
   "note": "holds only when the values stored by the calling solver are those of the kept point; they are those of the point where restoration began"
  },
  {
   "property": "C63",
   "status": "partial",
   "theorems": [
    "C63_stop_partial",
    "C63_no_stop_partial",
    "C63_filter_refuted"
   ],
   "note": "reduction of the violation and first-iterate part without restriction; the objective tested against the filter is that of the weighted displacement, not of the point"
  },
  {
   "property": "C64",
   "status": "partial",
   "theorems": [
    "C64_errors_are_kkt",
    "C64_overall_is_scaled_kkt",
    "C64_barrier_error_is_perturbed_kkt",
    "C64_true_complementarity",
    "C64_untested_slack_refuted"
   ],
   "note": "the equivalences hold without restriction (exact arithmetic) for complementarity of the slacks kept by the solver; the distance between slack variable and constraint value is not part of the tested error, so complementarity of the constraint values may fail"
  },
  {
   "property": "C65",
   "status": "proved",
   "theorems": [
    "C65_trial_value",
    "C65_directional_derivative",
    "C65_armijo_reachable",
    "C65_residual_is_barrier_stationarity"
   ],
   "note": "real arithmetic; enlargement of tiny slacks not modelled"
  },
  {
   "property": "C66",
   "status": "partial",
   "theorems": [
    "C66_success_without_nan_partial",
    "C66_nan_is_success_refuted",
    "C66_nan_step_accepted_refuted",
    "C66_nan_step_rejected_partial"
   ],
   "note": "false: a NaN in the first entry hides all others in the maximum norm, and fmax drops it; proved in binary64: without NaN residuals success means every computed residual is within its tolerance"
  },
  {
   "property": "C67",
   "status": "partial",
   "theorems": [
    "C67_reported_inertia_partial",
    "C67_minus_one_iff",
    "C67_singular_reported",
    "C67_failure_reported",
    "C67_law_of_inertia",
    "C67_independent_of_pivoting",
    "C67_small_scale_refuted",
    "C67_pivot_rule_needed"
   ],
   "note": "real arithmetic; LAPACK enters through its contract (a congruence with 1x1 pivots and Bunch-Kaufman 2x2 pivots, shown to be needed); the threshold 1e-14 is absolute, so a well conditioned matrix of small scale is reported singular (refuted)"
  },
  {
   "property": "C68",
   "status": "partial",
   "theorems": [
    "C68_dense_minimises",
    "C68_dense_failure_keeps",
    "C68_system_definite_iff",
    "C68_dense_succeeds",
    "C68_sparse_minimises_partial",
    "C68_sparse_succeeds",
    "C68_minimisers_agree",
    "C68_initial_bounded",
    "C68_end_of_iteration_partial",
    "C68_sparse_failure_refuted",
    "C68_stale_derivatives_refuted"
   ],
   "note": "both linear systems give minimisers for the gradient and Jacobians passed (real arithmetic); after a step these are the ones of the previous point (refuted for the new point); a failed sparse solve answers true with zero multipliers (refuted)"
  },
  {
   "property": "C69",
   "status": "partial",
   "theorems": [
    "C69_supplied_multipliers_partial",
    "C69_scaled_refuted",
    "C69_restart_refuted"
   ],
   "note": "proved without scaling; with scaling the supplied multipliers are used unchanged although the functions are scaled (refuted), so reported multipliers do not restart the solver either"
  },
  {
   "property": "C70",
   "status": "partial",
   "theorems": [
    "C70_cold_start_partial",
    "C70_warm_start_partial",
    "C70_warm_declined_refuted",
    "C70_warm_declined_not_projected_refuted",
    "C70_flag_survives_refuted",
    "C70_removed_duals_refuted",
    "C70_small_slack_refuted"
   ],
   "note": "proved for users that follow the documentation, except: multipliers with removed variables (overrun), a declined warm start (unwritten memory, no projection), tiny slacks (bound multipliers read before they are set)"
  },
  {
   "property": "C71",
   "status": "partial",
   "theorems": [
    "C71_derivatives_partial",
    "C71_interpolates_partial",
    "C71_convex_partial",
    "C71_repeatable_partial",
    "C71_resized_refuted"
   ],
   "note": "real arithmetic; proved for calls with one vector size; the work buffer keeps the size of the first call, so a later call with fewer variables overruns (refuted)"
  },
  {
   "property": "C72",
   "status": "partial",
   "theorems": [
    "C72_reported_objective_partial",
    "C72_reordered_refuted",
    "C72_failures_ignored_refuted"
   ],
   "note": "proved in real arithmetic for every curvature rule when fewer than all variables are coupled or the list is the natural order; with all variables coupled in another order the list is ignored on one side (refuted); failed evaluations are used (refuted); serial loop"
  },
  {
   "property": "C73",
   "status": "partial",
   "theorems": [
    "C73_gradient_measure_partial",
    "C73_function_measure_partial",
    "C73_binary64_partial",
    "C73_false_convergence_refuted"
   ],
   "note": "in binary64 the measures of every iteration are given in terms of the data of this and the previous iteration; in exact arithmetic both measures use the new coefficient for a step made under the old one: error bounded by the change of the coefficient times the step (proved), and the solver can stop at a point with gradient 2/3 (refuted)"
  },
  {
   "property": "C74",
   "status": "partial",
   "theorems": [
    "C74_times_vec_partial",
    "C74_trans_times_vec_partial",
    "C74_times_mat_partial",
    "C74_trans_times_mat_partial",
    "C74_times_mat_trans_partial",
    "C74_inner_zero_refuted",
    "C74_no_local_column_refuted"
   ],
   "note": "exact arithmetic; proved for all ranks, distributions and sizes except: inner dimension zero in timesMat (beta not applied, or BLAS rejects the call) and transTimesMat on a rank without columns (BLAS rejects the call), both refuted"
  },
  {
   "property": "C75",
   "status": "partial",
   "theorems": [
    "C75_append_partial",
    "C75_copy_partial",
    "C75_shift_partial",
    "C75_rows_partial",
    "C75_add_partial",
    "C75_upper_partial",
    "C75_subdiag_overrun_refuted",
    "C75_empty_refuted",
    "C75_copy_unallocated_refuted"
   ],
   "note": "exact arithmetic; proved for all sizes and offsets inside the arrays; refuted: explicit element count with a start position reads past the vector, empty data fail asserts or read missing row pointers, copying an unallocated matrix drops the own buffer"
  },
  {
   "property": "C76",
   "status": "partial",
   "theorems": [
    "C76_jac_fr_partial",
    "C76_hess_fr_partial",
    "C76_clone_refuted"
   ],
   "note": "proved for matrices whose communicator size is set (constructor); alloc_clone and new_copy leave it unwritten, so the branch taken is arbitrary (refuted)"
  },
  {
   "property": "C77",
   "status": "partial",
   "theorems": [
    "C77_row_max_partial",
    "C77_max_partial"
   ],
   "note": "over the reals (no NaN), for any distribution; DLANGE by its contract"
  },
  {
   "property": "C78",
   "status": "partial",
   "theorems": [
    "C78_test_iff",
    "C78_accepted_descends_partial",
    "C78_slope",
    "C78_mds_refuted",
    "C78_failure_ignored_refuted",
    "C78_limit_keeps_mode_refuted"
   ],
   "note": "real arithmetic; proved for exact solutions of the Newton system without dual regularization; refuted: the mixed dense-sparse system tests with memory nobody wrote, failed refactorizations are not noticed, and reaching the limit does not switch safe mode on"
  },
  {
   "property": "C79",
   "status": "partial",
   "theorems": [
    "C79_factor_partial",
    "C79_bounds_partial",
    "C79_start_partial",
    "C79_scaled_refuted",
    "C79_adjust_refuted",
    "C79_no_relaxer_refuted",
    "C79_small_mu0_refuted",
    "C79_nan_refuted",
    "C79_documented_defaults_refuted"
   ],
   "note": "proved in binary64 for mu0 above the tolerance, final not above initial, modes tighten_bound and correct_it, no gradient scaling; refuted: with gradient scaling the inequality bounds are reset to unscaled values, correct_it_adjust_bound leaves the initial relaxation, bound_relax_perturb=0 gives a null pointer, mu0 at or below the tolerance, and the documented return to the defaults"
  },
  {
   "property": "C80",
   "status": "partial",
   "theorems": [
    "C80_ratio_direction",
    "C80_other_rule",
    "C80_meaning_partial",
    "C80_increase_refuted"
   ],
   "note": "direction and bounds of the factor proved in binary64 for every quotient, NaN included; what the quotient means proved over the reals when the model predicts a decrease; refuted: when the master step raises its own model, a much larger actual increase lowers the factor"
  },
  {
   "property": "C81",
   "status": "partial",
   "theorems": [
    "C81_constraints",
    "C81_jacobian_one_call",
    "C81_jacobian_two_calls_partial",
    "C81_hessian",
    "C81_dense",
    "C81_order_refuted",
    "C81_failure_refuted",
    "C81_status_refuted"
   ],
   "note": "constraint values, Hessians, dense Jacobians and one-call Jacobians without restriction; separately answered Jacobians only when equalities come before inequalities (refuted otherwise: the sparse rows are numbered equalities first); a failing equality call followed by a successful inequality call is answered with success (refuted); every outcome is announced as success, or nothing is (refuted)"
  },
  {
   "property": "C82",
   "status": "partial",
   "theorems": [
    "C82_methods_partial",
    "C82_entries",
    "C82_sums",
    "C82_norms",
    "C82_dot_product",
    "C82_patterns",
    "C82_step_length",
    "C82_projection_partial",
    "C82_blocks",
    "C82_block_pairing",
    "C82_log_gradient_refuted",
    "C82_projection_refuted",
    "C82_added_parts_refuted"
   ],
   "note": "changing methods and step length in any arithmetic, reductions in exact arithmetic; refuted: addLogBarrierGrad reads the pattern instead of the point, projectIntoBounds_local never reports inconsistent bounds, and parts added with addVector are not counted, so every method skips them"
  },
  {
   "property": "C83",
   "status": "proved",
   "theorems": [
    "C83_exact",
    "C83_nan",
    "C83_bounds",
    "C83_zero"
   ],
   "note": "exact arithmetic and binary64 (infinities and NaN included)"
  },
  {
   "property": "C84",
   "status": "partial",
   "theorems": [
    "C84_off",
    "C84_both",
    "C84_relative",
    "C84_relative_binary64",
    "C84_absolute_iff",
    "C84_absolute_partial",
    "C84_absolute_refuted",
    "C84_bound_crossed_refuted",
    "C84_soc_refuted"
   ],
   "note": "relative limit, both and neither proved; the absolute limit holds exactly when the fraction-to-boundary step already respects it or is at least 1; refuted otherwise: the step is divided by the length of the step instead of the length of the direction, so variables move by L/alpha and may cross their bounds; second-order corrected steps are not limited"
  },
  {
   "property": "C85",
   "status": "partial",
   "theorems": [
    "C85_line",
    "C85_ignored",
    "C85_calls",
    "C85_text",
    "C85_integer_partial",
    "C85_scientific_refuted"
   ],
   "note": "lines, comments, order of calls and lower case proved for every text; integers: exactly the longest leading decimal number that fits an int (stream extraction in the C locale). Refuted: a value that only starts with an integer is not rejected (max_iter 1e3 sets 1). Missing: the text of floating-point numbers, whose reader is a parameter."
  },
  {
   "property": "C86",
   "status": "partial",
   "theorems": [
    "C86_given",
    "C86_storage",
    "C86_triplet",
    "C86_sizes",
    "C86_loop_ends_partial",
    "C86_upper_refuted",
    "C86_pattern_refuted",
    "C86_refinement_refuted",
    "C86_loop_ends_refuted"
   ],
   "note": "CSR class (full or lower storage) and triplet class, all call sequences with a fixed pattern; the loop ends when every request exceeds the current size and stays below 2045222522. Refuted: upper-triangular CSR input loses its off-diagonal entries, a changed pattern with as many lower entries is given with the old positions, triplet solves refine with the current instead of the factorized matrix, and the loop never ends or aborts on unknown codes, warnings, repeated small requests and requests whose 5% increase exceeds int. Missing: the Fortran routines (an oracle), MA57ED."
  },
  {
   "property": "C87",
   "status": "partial",
   "theorems": [
    "C87_times_vec",
    "C87_trans_times_vec",
    "C87_times_mat_trans_partial",
    "C87_trans_add",
    "C87_scale_row",
    "C87_jac_FR",
    "C87_sym_times_vec",
    "C87_sym_add_upper",
    "C87_times_mat_trans_refuted",
    "C87_sym_scale_refuted"
   ],
   "note": "exact arithmetic over any field; products, transposed products, row scaling of Jacobians, placement into the linear system and the restoration Jacobian without restriction; M X^T only for the factor 1 (refuted otherwise: the factor is ignored); scaling the rows of a Hessian object always fails when both blocks have rows (refuted)"
  },
  {
   "property": "C88",
   "status": "partial",
   "theorems": [
    "C88_files",
    "C88_dense",
    "C88_sparse",
    "C88_sparse_symmetric_partial",
    "C88_exact_partial",
    "C88_small_refuted",
    "C88_sparse_symmetric_refuted",
    "C88_other_classes_refuted",
    "C88_second_object_refuted"
   ],
   "note": "one file per build with all its pairs in order, and the sizes, matrices and vectors read back within half a unit of the 20th decimal, for every sequence of one KKT object that writes matrices; doubles of magnitude at least 2^-13 read back exactly. Refuted: smaller numbers lose digits and below 5e-21 become zero; sparse systems hold entries on both sides of the diagonal, so the script loads a nonsymmetric matrix; the normal equation class fails an assert at the first solve and the condensed class saves nothing; a second KKT object overwrites the files of the first. Missing: file system errors, the text of the numbers as characters (tokens instead)."
  },
  {
   "property": "C89",
   "status": "partial",
   "theorems": [
    "C89_corrected_direction",
    "C89_linearized",
    "C89_affine",
    "C89_dual_step_refuted"
   ],
   "note": "exact arithmetic over any field; closed form of the corrected right-hand sides for every number of corrections; primal step from the fraction-to-the-boundary rule. Refuted for the multipliers: they move along the corrected direction with the dual step length of the rejected direction and can become negative before the safeguard of C09 repairs them. The acceptance test itself is C03."
  },
  {
   "property": "C90",
   "status": "partial",
   "theorems": [
    "C90_unscaled_partial",
    "C90_as_solution_partial",
    "C90_scaled",
    "C90_scaled_refuted",
    "C90_full_host",
    "C90_full_refuted"
   ],
   "note": "exact arithmetic over any field; without scaling all values are the user's and equal those of the solution callback. With scaling (the default) the objective is the user's, but the constraint values are scaled and the multipliers, bound duals, slacks and barrier objective are the scaled problem's (refuted). The callback for internal iterates is never called; with host callbacks and device memory it would get the slack duals as bound duals and uninitialised slack duals. Missing: the removal of fixed variables (C50)."
  },
  {
   "property": "C91",
   "status": "partial",
   "theorems": [
    "C91_cpu_partial",
    "C91_requested_partial",
    "C91_hybrid_xycyd_partial",
    "C91_spd",
    "C91_default_refuted",
    "C91_safe_refuted",
    "C91_hybrid_refuted",
    "C91_fallback_refuted",
    "C91_full_refuted",
    "C91_auto_refuted"
   ],
   "note": "exact characterisation of the chosen solver for xycyd and xdycyd on the cpu outside safe mode, xycyd under hybrid, and the positive definite systems, for every build. Asserts are taken as active, as in the default build type. Refuted: with all options at their defaults a sparse run ends in a failed assert in every build; safe mode of xdycyd ignores the request; hybrid xdycyd gives no solver under auto and MA57 for PARDISO; no fallback of a request that is not in the build; the full system ignores request and order; auto that selects STRUMPACK ends the run with the default fact_acceptor. Dense problems and ginkgo_exec not modelled."
  },
  {
   "property": "C92",
   "status": "partial",
   "theorems": [
    "C92_stable",
    "C92_forcequick",
    "C92_condensed",
    "C92_returns",
    "C92_mds_solver",
    "C92_mds_refuted",
    "C92_same_solver_refuted",
    "C92_switch_refuted"
   ],
   "note": "stable and forcequick for all runs; the solver of mixed dense-sparse runs as a function of safe mode; with KKTLinsys=condensed the system used and the times of return to it for all runs. Refuted: mixed dense-sparse runs never return to the fast solver (up to iteration 100010); outside condensed the repeated sparse solve uses the solver that failed; a switch overrides the options theta_mu and kappa_mu and one iteration refines with mu0 in place of the barrier parameter. Outcomes of solves and line searches are arbitrary inputs; restoration is not followed."
  },
  {
   "property": "C93",
   "status": "partial",
   "theorems": [
    "C93_result_partial",
    "C93_solves_partial",
    "C93_direction_partial",
    "C93_refinement_refuted",
    "C93_failure_refuted"
   ],
   "note": "for every arithmetic and every behaviour of LAPACK the result is exactly what DPOSVX wrote and the code is 0; where DPOSVX succeeds (exactly) the direction solves the Newton system of the BFGS matrix, after any history of pairs. Refuted: every pass of the refinement loop starts again from the first solution, so refinements never change the result; a failed factorization is not looked at, success is reported and the multiplier steps are the contents of freshly allocated memory. LAPACK is a parameter with its documented contract."
  },
  {
   "property": "C94",
   "status": "partial",
   "theorems": [
    "C94_direction_partial",
    "C94_exact_partial",
    "C94_soft_partial",
    "C94_soft_repeated",
    "C94_object_refuted",
    "C94_tolerance_refuted",
    "C94_failure_refuted",
    "C94_soft_refuted"
   ],
   "note": "for any sequence of requests for one object: refinement off gives exactly the linear solve and its report; refinement on gives, without a warning, a residual of at most the tolerance times the norm of the right-hand side; an exact solve is kept (kernels exact on the vectors met). Refuted: a request for a second object overwrites the first and leaves the second unchanged, so with refinement on every trial of the soft restoration repeats the first direction (proved for all systems); the test is relative, and for large mu*ir_outer_tol_factor the zero direction is accepted; failures of the linear solve are never reported."
  },
  {
   "property": "C95",
   "status": "partial",
   "theorems": [
    "C95_cpu_partial",
    "C95_no_solver_partial",
    "C95_default_partial",
    "C95_device_partial",
    "C95_used_partial",
    "C95_stops_partial",
    "C95_auto_refuted",
    "C95_acceptor_refuted",
    "C95_gpu_refuted",
    "C95_rules_refuted",
    "C95_missing_refuted",
    "C95_request_refuted"
   ],
   "note": "exact characterisation of the chosen solver on the cpu, of auto under hybrid, and of the runs that stop, for every build; what is done with the solver's answer; default runs of builds without GPU support. Asserts are taken as active, as in the default build type. Refuted: with ReSolve in the build and inertia correction (the default) every run outside cpu mode stops, whatever solver is named; gpu mode always stops; auto prefers ReSolve to STRUMPACK; the consistency rules ignore the option, so naming STRUMPACK stops the run under the default acceptor; a named solver that is not in the build stops the run, is dropped or is replaced by Ginkgo; PARDISO and Ginkgo cannot be named on a device when MA57 is there."
  }
 ]
}