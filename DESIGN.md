# Formal model of HiOp: design

Everything here is about a *model* of the C++ sources in /repo (LLNL/hiop at the pinned
commit).  The C++ is read as text only; nothing is extracted from it or run against it.  Each model
definition cites the file and lines it transcribes and says where it simplifies.

## Layout

* `rocq/theories/<Area>Model.v`: executable model (no proofs).
* `rocq/theories/<Area>Spec.v`: small specification vocabulary that does not use the model's helpers.
* `rocq/theories/<Area>Proofs*.v`: lemmas.
* `rocq/theories/<Area>Props.v`: the property theorems, each followed by `Print Assumptions` and by an
  `Example` that shows a non-trivial case meeting its hypotheses.
* `properties.jsonl`: the properties in English; `MANIFEST.json`: status and theorem names for each;
  `seeded/LOG.jsonl`: the mutation tests (an edit of one model definition and the theorems that then fail).
  `theorems_failed` lists only theorems whose proof was seen to fail. When an edit keeps a file from building, or the build
  was stopped, the theorems nobody tried are in `theorems_not_checked`: such an entry says nothing about them. An entry with
  both lists empty is a surviving edit. A failing proof shows that the proof depends on the edited line; it does not by
  itself show that the statement became false.

Naming: `Cnn_..._partial` is the provable part of a property whose full statement is false or not
reached; `Cnn_..._refuted` is a proof that a full (or natural stronger) statement is false of the model,
with a concrete counterexample.  A property with a `_refuted` theorem keeps its full English statement
in `properties.jsonl` and has status "partial".

## Arithmetic

* Decision code (filter, line search, termination, options, barrier update, regularisation, bounds
  preprocessing, Krylov stopping tests, recourse safeguards) is modelled on binary64 values including
  NaN, infinities and rounding (`SpecFloat.spec_float` of the standard library).
* Algebraic kernels (matrix products, block assembly, KKT elimination, quasi-Newton, Kron reduction,
  scaling) are modelled over an arbitrary field: *exact* arithmetic.  Rounding is not modelled there.
* Inequality-based kernels (step lengths, projection, slack adjustment, scale factors) are modelled over
  the rationals; the restoration problem over the reals because it needs square roots.
* C++ `int`/`size_type` indices are unbounded naturals or integers: overflow is not modelled, except that
  the options parser keeps the 32-bit range of integer options.

## Outcomes

A failed `assert`, an access outside an array, a read of a null pointer and, where noted, a read of
uninitialised storage are a distinct outcome (`None`), never a default value.  Freshly allocated storage
is an argument over which the theorems quantify.  External calls (user callbacks, LAPACK/MA57 solves,
libm `pow`/`log`, MPI message arrival order, the text-to-number conversion of C++ streams) are parameters
or oracles over which the theorems quantify; where a theorem needs one of them to be correct (e.g. "the
solver solves the linear system"), this is a visible hypothesis.

## What is modelled, what is not, and how the properties are proved

| properties | modelled | not modelled | proof |
|---|---|---|---|
| C01, C02 | `hiopFilter` (add, contains, reinitialize, clear) | printing | induction over operation histories; order laws of binary64 comparison |
| C03, C04 | `accept_line_search_conditions`, second-order correction, both backtracking loops | how trial points are evaluated (oracle) | case analysis against a declarative predicate; measure on the step |
| C05 | `update_log_barrier_params` and the loop calling it | bound tightening of the elastic mode (its effect on bounds is outside) | invariants in binary64 via Flocq lemmas |
| C06, C07, C41-C43 | control flow of both `run()` loops, termination test, restoration outcomes, soft restoration | numerical content of one iteration (oracle); checkpointing; timers | invariant over iterations of an arbitrary environment |
| C08, C09, C10, C40 | `hiopVectorPar` and `hiopIterate` kernels for steps, duals, projection, slacks | RAJA/CUDA/HIP vectors | induction over lists and ranks; C08 also in binary64 through Flocq's relative error bounds (`FtbProofs`) |
| C11, C12, C49 | both `hiopPDPerturbation` classes, the factorisation acceptors and the dialogue in `hiopKKTLinSys` | the factorisations (answers are arbitrary) | state machine invariants, measure |
| C13-C15 | `hiopOptions` and `hiopOptionsNLP`/`PriDec`: registration table, setters, file reading, consistency passes | logging, printing, stream conversion (parameter) | invariants over histories, per-rule lemmas |
| C16-C19, C50 | bounds/constraints preprocessing, fixed-variable removal and relaxation, bound relaxation, delivery of x | HIOP_DEEPCHECKS, device copies | list algebra; binary64 lemmas |
| C20-C23, C51 | scaling, evaluation through the chain of transformations, reported objective and multipliers, scale factors | rounding | field algebra over chains and histories |
| C24-C26, C44, C45, C48 | `hiopMatrixSparseTriplet`, symmetric triplet | `hiopMatrixRajaSparseTriplet`, MatrixMarket input | sums over entry lists |
| C27, C28, C46, C47 | `hiopMatrixSparseCSRSeq`, condensed KKT system on the CPU | GPU variants, `timesVec` family (assert(false) in the code) | loop invariants |
| C29 | triplet to CSR conversion and value refresh (PARDISO, STRUMPACK) | the solvers | refinement, refutation |
| C30, C31, C52 | master/worker exchange, recourse approximation, stopping rules of the primal decomposition | the master problem's solver; MPI transport is an arbitrary schedule | transition system invariants; case analysis |
| C32, C53 | PCG and BiCGStab with abstract vectors and operators | | induction over iterations |
| C33, C54 | limited-memory secant pairs; solve and product | distribution over ranks | invariant over histories; field algebra |
| C34, C35 | reductions over distributed vectors, copy kernels | reduction order of MPI (exact arithmetic) | induction |
| C36 | reductions/assembly/back-substitution of all KKT classes (dense, MDS, low-rank, normal equations, sparse 2-, 3- and 4-block), residual, iterative-refinement operator | the linear solvers (parameter: exact or arbitrary) | field algebra |
| C37, C62, C63 | the three `hiopFRProb*` classes | MPI distribution of the dense class; the restoration solver (its iterates are arbitrary) | list algebra over R, induction over iterates |
| C38, C55-C57 | C and Fortran entry points for sparse problems, two-call protocol behind them | dense and MDS wrappers (same code pattern) | induction over call sequences |
| C39, C58-C61 | complex triplet matrices, slices, assembly, `hiopKronReduction` | UMFPACK (parameter) | field algebra, sortedness invariants |
| C64, C66 | `hiopResidual::update`, `normOneOfDuals`, `evalNlpAndLogErrors`, termination test | bound residuals (they enter no norm) | characterisation of each maximum; binary64 order lemmas |
| C67 | `hiopLinSolverSymDenseLapack::matrixChanged`: loop over the pivot blocks, counts, return value | LAPACK DSYTRF itself (contract: congruence with 1x1 and Bunch–Kaufman 2x2 blocks), rounding | Sylvester's law of inertia proved from the kernel lemma; block by block congruence |
| C68 | `hiopDualsLsqUpdate::go`, dense and sparse `do_lsq_update` (assembly, right-hand sides, result), `compute_initial_duals_eq`, order of calls at the end of an iteration | factorizations (oracles that may fail), choice of solver, rounding, MPI | normal equations of the assembled system; quadratic expansion of the objective |
| C69, C70 | `get_starting_point`, `get_warmstart_point`, `startingProcedure` (flags, which array is written by whom, order of reads); C69 on top of the scaling model | projection, evaluation, slack and multiplier computations (parameters; see C40, C68), checkpoint, MPI | memory with unwritten cells; case analysis over the user's answers; permutation of sums |
| C71–C73 | `RecourseApproxEvaluator` (evaluation methods, setters, buffer), the kernels it calls, `HessianApprox` and the outer loop of `run_single` over the reals; C72/C73 for an arbitrary rule choosing the coefficient; the measures and the stop of each iteration also in binary64 (PdHist*.v: C73_binary64_partial, C31_BB_partial) | rounding in C71, C72 (safeguards in binary64: C31, C52), the master solver and the user's functions (parameters), logging, MPI versions of the loop (C30) | list induction; invariant tying the evaluator to the stored history; Cauchy–Schwarz |
| C74–C77 | `hiopMatrixDenseRowMajor` (allocation with spare rows, row pointers, memcpy, BLAS calls by their contracts including argument checks, reductions over ranks) | MPI transport, printing, `isfinite`, `assertSymmetry`, rounding | flat-index algebra, induction over loops and ranks |
| C78 | both `test_direction` methods, what the KKT objects hold in Dx_ and Dd_, the loop of `compute_search_direction_inertia_free` | the factorization and solve of each round (oracle; regularization: C11, C49; exact solves: C36), rounding | expansion of the Newton system along the direction, induction over rounds |
| C79 | elastic part of `update_log_barrier_params`, `reset_bounds`/`relax_from_ori`, `adjust_bounds` after `compute_safe_slacks`, order of relaxation and scaling in the set-up, the option table (C13) | `pow` (any function), adjustment of duals, logging | rounding is monotone, so the factor is a monotone function of mu; induction over the history of updates |
| C80 | `HessianApprox::update_ratio(base, basem1)`, both `update_ratio_tr` (binary64, PdAlgModel; reals, RecModel) | logging, the unimplemented step rejection | direction and bounds of the factor in binary64 for every quotient; the meaning of the quotient over the reals when a decrease was predicted; refuted for a predicted increase |
| C81 | the three adapter classes of `IpoptAdapter.hpp`: index lists, `eval_g`, `eval_jac_g`, `eval_h` (pattern and values), status passed by `finalize_solution` | Ipopt itself, reuse of work matrices, `new_x` flags, pass-through functions (bounds, objective, gradient) | lists written piece by piece into Ipopt's arrays; the matrix of concatenated triplets is the sum of the matrices; refuted for other orders, failing callbacks and outcomes |
| C82 | `hiopVectorCompoundPD.cpp`: constructors, `addVector`, clone/copy, 28 changing methods, norms, sums, dot product, counts, tests, step length, projection, on top of the `hiopVectorPar` loops | `set_to_random_uniform`, `component_sqrt`, `print`, integer compound arguments, methods that only assert | induction over the parts with a lemma that a vector loop commutes with concatenation; reductions through the C34 lemmas; refuted for `addLogBarrierGrad`, the flag of the projection, `addVector` |
| C83 | `hiopResidual::update` and `compute_nlp_infeasib_onenorm`: the one-norm `get_theta()` (in `ErrModel`) | evaluation of c and d, MPI (constraints are replicated) | exact: sums of absolute values; binary64: induction over the accumulating loop with monotonicity of rounded addition of nonnegative numbers, and Flocq's theorem that a rounded difference of doubles is zero only if they are equal |
| C84 | `ensure_moving_lims`, its place between the fraction-to-boundary rule and the backtracking loop, resolution of the two options | logging, the unused return value | exact arithmetic over ranks through the norm lemmas of C64; relative limit also in binary64; an if-and-only-if for the absolute limit gives the counterexamples |
| C85 | `load_from_file`, `ltrim`, the stream extraction of words and of `int`, `tolower` | extraction of `double` (a parameter), locales other than C, logging | a relation between texts and setter calls, induction over texts and lines; uniqueness of the calls |
| C86 | the CSR and triplet MA57 wrappers: index and value arrays, asserts, workspace sizes in binary64, the factorization loop | the Fortran routines (MA57BD is an oracle; MA57AD's forecasts are parameters), MA57ED, pivot tolerance (never passed on after construction), timers | invariant over sequences of calls; the size `(int)(1.05*k)` shown to be `21k/20` rounded down by a rounding argument; measure on the missing workspace |
| C87 | `hiopMatrixMDS` and `hiopMatrixSymBlockDiagMDS`: timesVec, transTimesVec, timesMatTrans, transAddToSymDenseMatrixUpperTriangle, addUpperTriangleToSymDenseMatrixUpperTriangle, scale_row, set_Jac_FR, on top of the models of both blocks | distribution of the dense block, addMatrix/copyFrom (abort), printing, the copies to user arrays | block lemmas of C24, C26, C37 and of the dense class, sums split at the number of sparse columns |
| C88 | `hiopCSR_IO` (matrix, right-hand side and solution writers for dense and triplet systems), its calls and counters in the KKT classes, the documented format and the script load_kkt_mat.m as the reader | open/write failures, two processes writing at once, characters of the numbers (a number printed with %.20f is the nearest multiple of 10^-20) | token offsets of the file, conversion lemmas of C47, invariant over build/solve sequences, Flocq for the exact reading |
| C89 | `apply_second_order_correction` with c_soc, d_soc, step lengths and trial points; `update_soc` and the vectors left by `compute_nlp_infeasib_onenorm` | the acceptance decisions (C03, parameters here), logging, allocation of the vectors, norms stored in the residual object | invariant over the correction loop, closed form of the weighted violations, the Newton system of C36 |
| C90 | `user_callback_iterate` and `user_callback_full_iterate` with the host copies of the latter; scaling chain of C20 | fixed-variable removal, MPI distribution, the values passed on unchanged (iteration number, norms, step lengths) | merge lemmas of C19/C20 for arbitrary complementary index sets; relation to the solution callback of C20 |
| C91 | all `determineAndCreateLinsys` functions of the sparse and mixed KKT classes, `decideAndCreateLinearSystem`, the consistency rules of `hiopOptions` for the four options; the build as a set of flags; a failed assert or null solver ends the run | dense problems, `ginkgo_exec`, memory spaces, builds with NDEBUG; what the solvers compute | case analysis over builds and requests against the documented order (spec `choice`, `documented`) |
| C92 | `switch_to_safer_KKT`, `switch_to_fast_KKT`, the linear solve loop of the Newton `run`, solver creation of C91 | outcomes of factorizations, solves and line searches (inputs), restoration, int overflow (bounded by C92_returns), a condensed object made for a mixed dense-sparse problem | invariants over arbitrary runs (`run_ind`, `passes_ind`) |
| C93 | `hiopKKTLinSysLowRank::solveWithRefin` as a loop over kernels (any arithmetic), composed with the `solveCompressed`/`computeDirections` model of C36 | DPOSVX, DPOTRF, DPOTRS (parameters with their documented contract), logging, the unused `solve` and the disabled DSYTRF branch | induction over the passes; composition with `C36_lowrank`; counterexamples over the rationals with a real 2x2 driver |
| C94 | `compute_directions_w_IR`, the preconditioner, the object behind `b_` of the BiCGStab solver, the directions requested by `solve_soft_feasibility_restoration` (Ir*.v; BiCGStab is that of C32) | the linear systems and their solves (arbitrary operators and outcomes), the line-search part of the soft restoration (C43), statistics and texts | induction over requests; one symbolic half iteration for exact solves; counterexamples in binary64 |
| C95 | `instantiate_linear_solver` of the sparse least-squares updater for the initial multipliers, the start of the multipliers in `startingProcedure` (LsqSel*.v; the consistency rules are those of C91, the bound on the multipliers that of C68) | the solvers themselves (outcome of the least-squares solve is arbitrary), release builds with asserts off, the unused call after restoration | case analysis over builds and requests; counterexample builds |
| C65 | `hiopLogBarProblem`, barrier and damping kernels, `determineSlacks` | `adjust_small_slacks` in this area (see C40) | derivatives in `Reals` |

Not modelled at all: device back-ends (RAJA, CUDA, HIP, MAGMA, Ginkgo, cuSOLVER), the linear-solver
wrappers apart from C29, elastic mode, logging/timers, checkpointing through AXOM, hiopbbpy and the example drivers.

## Trusted base

* The Coq 8.16.1 kernel and the standard library.  `coqchk` accepts the development.
* The reading of the C++ recorded in the citation comments.
* What `Print Assumptions` lists for each theorem, grouped below.  All axioms are the standard library's
  (classical reals, functional extensionality, excluded middle through Flocq's use of `Reals`).  There
  are no axioms, parameters, admitted proofs, functors or module types of our own.

### Closed under the global context

`C01_filter_add_enlarges_exactly`, `C01_filter_rejection_permanent`, `C01_filter_rejects_iff_dominated`,
`C02_filter_cap`, `C02_filter_never_rejects_nan`, `C03_accept_iff`, `C03_accepted_point_justified`,
`C03_accepted_point_recorded_partial`, `C03_every_step_tested_partial`, `C03_every_step_tested_refuted`,
`C03_soc_point_not_recorded_refuted`, `C04_backtracking_bound`, `C04_backtracking_ends_refuted`,
`C05_loop_is_history`, `C05_mu_decreases_refuted`, `C05_tau_below_one_refuted`, `C06_status_truthful`,
`C06_stops_at_tolerance`, `C07_iteration_limit`, `C07_max_iter_status_exact`,
`C08_binary64_zero_step_refuted`, `C08_iterate_largest_step`, `C08_kernel_largest_step`,
`C08_nan_direction_refuted`, `C08_recomputed_slacks`, `C08_stays_interior`, `C08_underflow_refuted`,
`C09_duals_confined`, `C10_binary64_on_bound_refuted`, `C10_equal_bounds_refuted`,
`C10_projection_inside_partial`, `C11_abort_refuted`, `C11_retry_changes_matrix_refuted`,
`C12_slack_regularisation_refuted`, `C13_accum_local_refuted`, `C13_ignored`, `C13_invalid_partial`,
`C13_invalid_refuted`, `C13_legal`, `C13_nan_refuted`, `C13_pridec_partial`, `C14_case_refuted`,
`C14_checkpoint_refuted`, `C14_file_blocks`, `C14_invalid_file_refuted`, `C14_no_cross`,
`C14_precedence_partial`, `C14_pridec_precedence_partial`, `C15_elastic_refuted`, `C15_frame`,
`C15_hessian_refuted`, `C15_moving_refuted`, `C15_pass`, `C15_pridec`, `C15_tolerance_refuted`,
`C16_ineq_only`, `C16_recombine`, `C16_recombine_back`, `C16_split`, `C17_after_initialisation`,
`C17_after_initialisation_refuted`, `C17_inequalities`, `C17_ranks`, `C17_variables`, `C18_distribution`,
`C18_evaluations_partial`, `C18_expand_after_reduce`, `C18_reduce_after_expand`, `C18_setup`,
`C18_setup_refuted`, `C19_bounds_strict_refuted`, `C19_fixed_only`, `C19_fixed_only_refuted`,
`C20_callback_partial`, `C20_callback_refuted`, `C20_constraint_values`, `C20_getter`, `C21_callback_partial`,
`C21_callback_refuted`, `C21_callback_residual`, `C21_getter_independent`, `C21_getter_partial`,
`C21_getter_refuted`, `C22_documented_order_refuted`, `C22_factors_match`, `C22_limited_refuted`,
`C22_mds_partial`, `C22_mds_refuted`, `C22_rerun_refuted`, `C22_sparse_partial`, `C23_dense_jacobian_partial`,
`C23_dense_refuted`, `C23_first_error_refuted`, `C23_half_failure_recovers`, `C23_mds_jacobian`,
`C23_residuals`, `C23_sparse_jacobian`, `C24_adjoint`, `C24_row_scaling`, `C24_sym_times_vec`,
`C24_times_vec`, `C24_trans_times_vec`, `C25_const_diag_colpattern`, `C25_const_diag_rowpattern`,
`C25_copy_diag`, `C25_copy_diag_pattern`, `C25_copy_rows`, `C25_copy_rows_block`, `C25_copy_submatrix`,
`C25_copy_submatrix_needs_room`, `C25_set_sub_diag`, `C25_slots_frame`, `C25_sub_diag_from`, `C26_MDinvMt`,
`C26_MDinvNt`, `C26_MDinvNt_upper_only`, `C26_add_upper`, `C26_copy_to_dense`, `C26_times_mat_trans`,
`C26_trans_add`, `C27_empty_matrix_refuted`, `C27_empty_transpose_refuted`, `C27_second_symbolic_refuted`,
`C27_transpose_of_csr_partial`, `C27_transpose_of_triplet_partial`, `C27_triplet_to_csr_partial`,
`C28_product_partial`, `C28_product_zero_columns_refuted`, `C28_sum_partial`, `C29_conversion`,
`C29_refresh_partial`, `C29_refresh_refuted`, `C30_all_stopped`, `C30_always`, `C30_can_finish`,
`C30_exactly_once`, `C30_sum`, `C30_too_many_workers`, `C30_work_bound`, `C31_BB_partial`,
`C31_bounds_refuted`, `C31_history_partial`, `C31_ratio_refuted`, `C31_run_partial`, `C32_bicg_iter_refuted`,
`C32_flag`, `C32_iter_refuted`, `C32_resolve`, `C32_success_partial`, `C32_work_partial`,
`C32_zero_rhs_refuted`, `C33_curvature`, `C33_memory`, `C33_sigma_partial`, `C33_sigma_refuted`, `C34_counts`,
`C34_damping_term`, `C34_dot_product`, `C34_infnorm`, `C34_log_barrier`, `C34_logical_tests`, `C34_min`,
`C34_step_length`, `C34_sums`, `C35_block_copies`, `C35_compress`, `C35_compress_needs_room`,
`C35_copy_from_starting_at_refuted`, `C35_copy_into`, `C35_copy_out`, `C35_copy_tail`, `C35_expand`,
`C35_expand_after_compress`, `C35_index_copy`, `C35_merge`, `C35_merge_after_split`, `C35_split_after_merge`,
`C36_dense_xdycyd_partial`, `C36_dense_xdycyd_refuted`, `C36_dense_xycyd_partial`, `C36_dense_xycyd_refuted`,
`C36_full_step`, `C36_lowrank`, `C36_mds`, `C36_normal_partial`, `C36_normal_refuted`,
`C36_normal_stale_refuted`, `C36_operator`, `C36_residual`, `C36_sparse_assembly`, `C36_sparse_full_partial`,
`C36_sparse_full_refuted`, `C36_sparse_xdycyd`, `C36_sparse_xycyd_dual_refuted`, `C36_sparse_xycyd_partial`,
`C36_sparse_xycyd_refuted`, `C37_hessian_blocks`, `C37_jacobian_blocks`, `C38_hessian`, `C38_jacobian`,
`C38_problem_data`, `C39_nothing_retained_refuted`, `C39_schur_complement`, `C39_voltages_partial`,
`C40_bound_follows_slack`, `C40_count`, `C40_outside_refuted`, `C40_slacks_move_up_within_limits_partial`,
`C40_zero_multiplier_refuted`, `C41_newton_never_pending_partial`, `C41_quasi_newton_pending_refuted`,
`C42_accept_every_trial_step_refuted`, `C43_soft_restoration_rejected_yet_success_refuted`,
`C43_user_error_reported_refuted`, `C44_extract_diagonal_partial`, `C44_extract_diagonal_refuted`,
`C44_is_diagonal`, `C45_sub_diagonal_partial`, `C45_sub_diagonal_refuted`, `C46_condensed_matrix_partial`,
`C46_condensed_solve_partial`, `C46_empty_hessian_refuted`, `C47_check_ordered`, `C47_diagonal_partial`,
`C47_diagonal_refuted`, `C47_scaling`, `C48_sort`, `C49_inertia_free_partial`, `C49_inertia_free_refuted`,
`C50_getter_partial`, `C50_removed_prefix`, `C50_removed_refuted`, `C51_apply`, `C51_constraints`,
`C51_objective`, `C51_zero_jacobian_refuted`, `C52_status_refuted`, `C52_stops_first`, `C53_bicg_refuted`,
`C53_pcg_refuted`, `C53_success_partial`, `C54_posdef`, `C54_product_partial`, `C54_product_refuted`,
`C54_reduced`, `C54_secant`, `C54_solve`, `C55_jacobian_every_solve_partial`, `C55_second_solve_refuted`,
`C56_constraints_partial`, `C56_objective_refuted`, `C57_failure_refuted`, `C58_assemble`,
`C59_duplicates_refuted`, `C59_slice`, `C59_slice_of_symmetric_partial`, `C59_slice_of_symmetric_refuted`,
`C59_symmetric_slice`, `C60_factorization_failure_partial`, `C60_solve_failure_refuted`,
`C61_after_failure_partial`, `C61_second_use_refuted`, `C64_barrier_error_is_perturbed_kkt`,
`C64_errors_are_kkt`, `C64_overall_is_scaled_kkt`, `C64_true_complementarity`, `C64_untested_slack_refuted`,
`C66_nan_is_success_refuted`, `C66_nan_step_accepted_refuted`, `C66_nan_step_rejected_partial`,
`C66_success_without_nan_partial`, `C69_restart_refuted`, `C69_scaled_refuted`,
`C69_supplied_multipliers_partial`, `C70_cold_start_partial`, `C70_flag_survives_refuted`,
`C70_removed_duals_refuted`, `C70_small_slack_refuted`, `C70_warm_declined_not_projected_refuted`,
`C70_warm_declined_refuted`, `C70_warm_start_partial`, `C73_binary64_partial`, `C74_inner_zero_refuted`,
`C74_no_local_column_refuted`, `C74_times_mat_partial`, `C74_times_mat_trans_partial`,
`C74_times_vec_partial`, `C74_trans_times_mat_partial`, `C74_trans_times_vec_partial`, `C75_add_partial`,
`C75_append_partial`, `C75_copy_partial`, `C75_copy_unallocated_refuted`, `C75_empty_refuted`,
`C75_rows_partial`, `C75_shift_partial`, `C75_subdiag_overrun_refuted`, `C75_upper_partial`,
`C76_clone_refuted`, `C76_hess_fr_partial`, `C76_jac_fr_partial`, `C78_slope`, `C79_adjust_refuted`,
`C79_nan_refuted`, `C79_no_relaxer_refuted`, `C79_scaled_refuted`, `C79_small_mu0_refuted`, `C81_constraints`,
`C81_dense`, `C81_failure_refuted`, `C81_hessian`, `C81_jacobian_one_call`, `C81_jacobian_two_calls_partial`,
`C81_order_refuted`, `C81_status_refuted`, `C82_block_pairing`, `C82_blocks`, `C82_dot_product`,
`C82_entries`, `C82_log_gradient_refuted`, `C82_methods_partial`, `C82_patterns`, `C82_projection_partial`,
`C82_projection_refuted`, `C82_step_length`, `C82_sums`, `C83_exact`, `C84_absolute_iff`,
`C84_absolute_partial`, `C84_absolute_refuted`, `C84_both`, `C84_bound_crossed_refuted`, `C84_off`,
`C84_relative`, `C84_soc_refuted`, `C85_calls`, `C85_ignored`, `C85_integer_partial`, `C85_line`,
`C85_scientific_refuted`, `C85_text`, `C86_given`, `C86_pattern_refuted`, `C86_refinement_refuted`,
`C86_storage`, `C86_triplet`, `C86_upper_refuted`, `C87_jac_FR`, `C87_scale_row`, `C87_sym_add_upper`,
`C87_sym_scale_refuted`, `C87_sym_times_vec`, `C87_times_mat_trans_partial`, `C87_times_mat_trans_refuted`,
`C87_times_vec`, `C87_trans_add`, `C87_trans_times_vec`, `C88_dense`, `C88_files`,
`C88_other_classes_refuted`, `C88_second_object_refuted`, `C88_small_refuted`, `C88_sparse`,
`C88_sparse_symmetric_partial`, `C88_sparse_symmetric_refuted`, `C89_affine`, `C89_corrected_direction`,
`C89_dual_step_refuted`, `C89_linearized`, `C90_as_solution_partial`, `C90_full_host`, `C90_full_refuted`,
`C90_scaled`, `C90_scaled_refuted`, `C90_unscaled_partial`, `C91_auto_refuted`, `C91_cpu_partial`,
`C91_default_refuted`, `C91_fallback_refuted`, `C91_full_refuted`, `C91_hybrid_refuted`,
`C91_hybrid_xycyd_partial`, `C91_requested_partial`, `C91_safe_refuted`, `C91_spd`, `C92_condensed`,
`C92_forcequick`, `C92_mds_refuted`, `C92_mds_solver`, `C92_returns`, `C92_same_solver_refuted`, `C92_stable`,
`C92_switch_refuted`, `C93_direction_partial`, `C93_failure_refuted`, `C93_refinement_refuted`,
`C93_result_partial`, `C93_solves_partial`, `C94_direction_partial`, `C94_failure_refuted`,
`C94_object_refuted`, `C94_soft_partial`, `C94_soft_refuted`, `C94_soft_repeated`, `C94_tolerance_refuted`,
`C95_acceptor_refuted`, `C95_auto_refuted`, `C95_cpu_partial`, `C95_default_partial`, `C95_device_partial`,
`C95_missing_refuted`, `C95_request_refuted`, `C95_rules_refuted`, `C95_stops_partial`

### Axioms: `ClassicalDedekindReals.sig_forall_dec`, `ClassicalDedekindReals.sig_not_dec`, `Classical_Prop.classic`, `FunctionalExtensionality.functional_extensionality_dep`

`C04_backtracking_ends_partial`, `C05_history_ranges_partial`, `C05_loop_ends`, `C05_update_ranges`,
`C07_run_ends`, `C08_binary64`, `C08_binary64_inside`, `C11_factorize_ends`, `C11_no_abort_partial`,
`C11_retry_grows`, `C12_dual_first`, `C12_primal_first_partial`, `C19_absent_stays_absent`,
`C19_after_initialisation`, `C19_bounds_contains`, `C19_bounds_strict_partial`, `C19_fixed_contains`,
`C19_fixed_strict`, `C19_ineq_only`, `C49_factorize_truthful`, `C65_armijo_reachable`,
`C65_directional_derivative`, `C65_trial_value`, `C79_bounds_partial`, `C79_documented_defaults_refuted`,
`C79_factor_partial`, `C79_start_partial`, `C80_other_rule`, `C80_ratio_direction`, `C83_bounds`, `C83_nan`,
`C83_zero`, `C84_relative_binary64`, `C86_loop_ends_partial`, `C86_loop_ends_refuted`, `C86_sizes`,
`C88_exact_partial`, `C94_exact_partial`

### Axioms: `ClassicalDedekindReals.sig_forall_dec`, `FunctionalExtensionality.functional_extensionality_dep`

`C37_constraints`, `C37_hessian_factor_refuted`, `C65_residual_is_barrier_stationarity`,
`C67_failure_reported`, `C67_independent_of_pivoting`, `C67_law_of_inertia`, `C67_minus_one_iff`,
`C67_reported_inertia_partial`, `C67_singular_reported`, `C67_small_scale_refuted`, `C68_dense_failure_keeps`,
`C68_dense_minimises`, `C68_dense_succeeds`, `C68_end_of_iteration_partial`, `C68_initial_bounded`,
`C68_minimisers_agree`, `C68_sparse_failure_refuted`, `C68_sparse_minimises_partial`, `C68_sparse_succeeds`,
`C68_stale_derivatives_refuted`, `C68_system_definite_iff`, `C71_convex_partial`, `C71_derivatives_partial`,
`C71_interpolates_partial`, `C71_repeatable_partial`, `C77_max_partial`, `C77_row_max_partial`,
`C78_limit_keeps_mode_refuted`, `C95_gpu_refuted`, `C95_no_solver_partial`, `C95_used_partial`

### Axioms: `ClassicalDedekindReals.sig_forall_dec`, `ClassicalDedekindReals.sig_not_dec`, `FunctionalExtensionality.functional_extensionality_dep`

`C34_twonorm`, `C37_derivatives`, `C37_objective`, `C37_start`, `C62_force_update_partial`,
`C62_force_update_refuted`, `C63_filter_refuted`, `C63_no_stop_partial`, `C63_stop_partial`,
`C67_pivot_rule_needed`, `C72_failures_ignored_refuted`, `C72_reordered_refuted`,
`C72_reported_objective_partial`, `C73_false_convergence_refuted`, `C73_function_measure_partial`,
`C73_gradient_measure_partial`, `C78_accepted_descends_partial`, `C78_failure_ignored_refuted`,
`C78_mds_refuted`, `C78_test_iff`, `C80_increase_refuted`, `C80_meaning_partial`, `C82_added_parts_refuted`,
`C82_norms`

### Axioms: `ClassicalDedekindReals.sig_forall_dec`

`C37_bounds`, `C37_layout`, `C71_resized_refuted`

## Findings

Behaviour of the code that the refutations, or the reading behind them, brought to light.  Items with a
theorem name are proved about the model; the others were read in the code while modelling.

### Interior-point loop
* A point accepted by second-order correction is recorded in the filter with the violation of the
  rejected point (`C03_soc_point_not_recorded_refuted`).
* Hitting the refactorisation limit twice takes a step without any test (`C03_every_step_tested_refuted`).
* `min_step_size=0` or a NaN step make backtracking endless (`C04_backtracking_ends_refuted`).
* `comp_tol=1e-16` gives a fraction-to-boundary parameter of exactly 1 (`C05_tau_below_one_refuted`); a mu0
  below the floor is increased although logged as reduced (`C05_mu_decreases_refuted`).
* The quasi-Newton `run()` returns `NlpSolve_Pending` after a successful restoration
  (`C41_quasi_newton_pending_refuted`).
* `accept_every_trial_step=yes` hands every step to restoration (`C42_accept_every_trial_step_refuted`).
* A user-function failure inside soft restoration is swallowed (`C43_user_error_reported_refuted`); soft
  restoration also reports success after ten filter rejections.
* After hard restoration the new values are overwritten by stale trial values; a failing evaluation in the
  second-order correction leads to an assertion.

### Steps, projection, vectors
* In binary64 the step to the boundary can be exactly 0 (`C08_binary64_zero_step_refuted`).
* When the quotient of the boundary step underflows, the rounded step overshoots and the new slack is negative (`C08_underflow_refuted`).
* A NaN entry of the search direction is skipped by the boundary test: the step is 1 and the new slack is NaN (`C08_nan_direction_refuted`).
* Equal bounds: the projection reports success with a point outside (`C10_equal_bounds_refuted`); adjacent
  doubles leave the point on the bound (`C10_binary64_on_bound_refuted`).
* `copy_from_starting_at` with fewer entries than the vector copies nothing
  (`C35_copy_from_starting_at_refuted`).

### Regularisation
* The initial regularisations computed by the primal-first class are stored in by-reference arguments that
  are never written back; both-degenerate gives different values to variables and slacks
  (`C12_slack_regularisation_refuted`).
* The answers singular / wrong inertia / singular abort on an assertion (`C11_abort_refuted`).
* `delta_0_bar=0` or growth factor 1+1e-20 repeat the same matrix (`C11_retry_changes_matrix_refuted`).
* The inertia-free path reports success after 12 singular factorisations (`C49_inertia_free_refuted`).
* `initialize()` resets vectors but not scalars or degeneracy flags.

### Options
* NaN passes the range test (`C13_nan_refuted`); the default of `accum_local` is outside its own range
  (`C13_accum_local_refuted`); an invalid request can still change a value through the consistency pass
  (`C13_invalid_refuted`).
* Strings, hence file names, are lower-cased (`C14_case_refuted`); without AXOM the checkpoint options lose
  file precedence (`C14_checkpoint_refuted`); an invalid file value blocks valid runtime values
  (`C14_invalid_file_refuted`).
* Rules conditional on a user-set mark fail since only the numeric setter records the mark; both move limits
  can stay active; the documented order of elastic relaxation factors is not enforced (`C15_*_refuted`).

### Problem formulation
* Multipliers are multiplied by the objective factor instead of divided (`C21_callback_refuted`); the getter
  ignores the multipliers once scaling is active (`C21_getter_refuted`).
* A second solve re-applies scaling (`C20_callback_refuted`, `C22_rerun_refuted`).
* Mixed dense-sparse with scaling and interleaved constraints gives the user's Hessian callback multipliers
  scaled with the wrong factors (`C22_mds_refuted`); the documented order is not the one used
  (`C22_documented_order_refuted`).
* The dense one-call Jacobian uses the inverse factors (`C23_dense_refuted`); a failing first evaluation of
  both two-call functions latches one-call mode (`C23_first_error_refuted`).
* Solution arrays receive only the reduced number of entries when fixed variables are removed
  (`C50_removed_refuted`).
* A free variable with IEEE infinite upper bound is treated as fixed (`C18_setup_refuted`,
  `C19_fixed_only_refuted`); fixed at or below -1e20 spoils the counters (`C17_after_initialisation_refuted`).
* A tiny `bound_relax_perturb` relaxes nothing (`C19_bounds_strict_refuted`).
* `scaling_max_con_grad` with a vanishing Jacobian divides by zero (`C51_zero_jacobian_refuted`).
* `user_callback_full_iterate` copies v into z and passes unset vl/vu; `reset_bounds` of the elastic mode
  loses the scaling of the bounds; starting-point multipliers have reduced size while the user is told the
  full size.

### Sparse matrices
* `extract_diagonal` returns the last of several entries (`C44_extract_diagonal_refuted`).
* `startingAtAddSubDiagonalToStartingAt` writes at an index not reduced by `diag_start`
  (`C45_sub_diagonal_refuted`).
* CSR matrices without entries are left with uninitialised row pointers (`C27_empty_matrix_refuted`,
  `C27_empty_transpose_refuted`); a repeated symbolic transposition aborts (`C27_second_symbolic_refuted`);
  a product with no columns aborts (`C28_product_zero_columns_refuted`); an empty Hessian aborts the condensed
  system (`C46_empty_hessian_refuted`).
* Diagonal updates skip rows without stored diagonal (`C47_diagonal_refuted`).
* The value refresh for PARDISO/STRUMPACK adds the second diagonal value to the wrong entry
  (`C29_refresh_refuted`).
* `row_starts_` is cached and goes stale if the pattern is rewritten (not modelled).

### KKT systems
* Sparse 3-block system: reciprocals accumulate from build to build (`C36_sparse_xycyd_refuted`) and wrongly
  contain the dual regularisation (`C36_sparse_xycyd_dual_refuted`).
* Sparse unreduced system: primal regularisation accumulates (`C36_sparse_full_refuted`).
* Normal equations: the Jacobian and Hessian diagonal of the first build are kept
  (`C36_normal_stale_refuted`); a dual-first correction skips the rebuild (`C36_normal_refuted`).
* Dense systems: dual regularisation at the wrong rows (`C36_dense_xycyd_refuted`,
  `C36_dense_xdycyd_refuted`).
* The transposed operator used for refinement is not the adjoint; refinement failure is reported as success;
  the curvature test of the mixed dense-sparse 3-block system reads a vector that is never set.

### Quasi-Newton, Krylov
* `sigma0=0` is allowed and lies below the safeguards (`C33_sigma_refuted`); the product replaces a small
  curvature by machine epsilon and so disagrees with the solve (`C54_product_refuted`).
* A zero-norm right-hand side is accepted without applying the operator (`C32_zero_rhs_refuted`); the reported
  iteration count can be maxit+1 (`C32_iter_refuted`, `C32_bicg_iter_refuted`).
* After a failure BiCGStab has overwritten the right-hand side before the last residual
  (`C53_bicg_refuted`); PCG may report the recurrence residual (`C53_pcg_refuted`).

### Primal decomposition
* `run_single` always returns success (`C52_status_refuted`); the initial ratio is unclamped and the alpha
  bounds can be crossed after construction (`C31_*_refuted`); fewer terms than workers aborts
  (`C30_too_many_workers`); failures of recourse evaluations are ignored.

### Restoration
* The objective used in the filter test is evaluated at the weighted displacement, not at the point
  (`C63_filter_refuted`); the Hessian ignores the objective factor (`C37_hessian_factor_refuted`); the fall-back
  uses constraint values of the reference point (`C62_force_update_refuted`).

### C/Fortran interface
* `new_x` is always 0 for objective and gradient (`C56_objective_refuted`); error codes of C callbacks are
  dropped (`C57_failure_refuted`); a second solve of the same problem uses an unset Hessian pattern
  (`C55_second_solve_refuted`).

### Kron reduction
* A failed solve is ignored (`C60_solve_failure_refuted`); a second use aborts (`C61_second_use_refuted`);
  with no retained bus the voltages are not written (`C39_nothing_retained_refuted`); `new_slice` drops
  duplicates and `new_sliceFromSym` counts and fills differently (`C59_*_refuted`).

### Factorization and multipliers
* `hiopLinSolverSymDenseLapack` compares pivots with the absolute threshold 1e-14: 1e-15 times the identity is
  reported singular (`C67_small_scale_refuted`).  With a 2x2 pivot that violates the Bunch–Kaufman inequality the
  count would be wrong (`C67_pivot_rule_needed`), so the theorem rests on LAPACK's contract.
* The least-squares multipliers after a step use the gradient and Jacobians of the previous point, because
  `dualsUpdate_->go` runs before the derivatives are evaluated at the accepted point
  (`C68_stale_derivatives_refuted`; default for the quasi-Newton solver).
* A failed solve in the sparse least-squares update answers true with zero multipliers
  (`C68_sparse_failure_refuted`).  The dense system is singular for dependent equality gradients
  (`C68_system_definite_iff`); the caller only asserts success.

### Starting point
* With scaling active, multipliers supplied by the user are taken over unchanged although the functions are scaled
  (`C69_scaled_refuted`), so the multipliers reported by one solve do not restart the next (`C69_restart_refuted`).
* `warm_start=yes` with a user that declines `get_warmstart_point` (the default implementation) but supplies a primal
  point: multipliers and slacks nobody wrote are read and the point is not moved into the bounds
  (`C70_warm_declined_refuted`, `C70_warm_declined_not_projected_refuted`).
* `duals_avail` raised by a call that then declines survives (`C70_flag_survives_refuted`).
* With removed fixed variables the user writes multipliers of all variables into arrays of the reduced size
  (`C70_removed_duals_refuted`).
* A tiny slack at the start makes `compute_safe_slacks` read bound multipliers that are set later
  (`C70_small_slack_refuted`).
* `run()` ignores the value returned by `startingProcedure` (hiopAlgFilterIPM.cpp 1003, 1018, 2142).

* `adjust_small_slacks` on a variable outside its bound moves the bound by more than the violation
  (`C40_outside_refuted`), and a zero bound multiplier makes another slack NaN in binary64
  (`C40_zero_multiplier_refuted`).

### Recourse curvature
* The test of `update_ratio_tr(rhok, ratio)` looks only at the quotient of obtained and predicted change.  When the
  master step raises its own model (it may stop early or at a worse local solution), a larger actual increase gives a
  quotient above 3/4 and the curvature is lowered (`C80_increase_refuted`).  The five-argument version tests the
  signs, but only the uncalled `update_ratio()` uses it.

### Ipopt adapters
* For users that answer separately, the rows of the sparse Jacobian are numbered equalities first (`iRow[it] += n_eq`),
  while bounds, constraint values and the dense block use the user's numbering.  With an inequality listed before an
  equality Ipopt gets the derivatives of the wrong constraints (`C81_order_refuted`).
* When the call for the equalities fails and the one for the inequalities succeeds, `eval_g` returns true with the
  equality values unwritten (`C81_failure_refuted`).
* `finalize_solution` announces `Solve_Success` whatever Ipopt reported; the dense adapter announces nothing
  (`C81_status_refuted`).  The pattern call passes a null pointer for the dense block, which the interface documents
  as never null.

### Compound vectors
- `hiopVectorCompoundPD::addVector` stores the part and adds its length to the size but does not increment the part counter (the integer version does). A vector built this way has the right size and no parts: every method leaves it alone, every norm is 0, `is_zero` is true (`C82_added_parts_refuted`). The library itself only uses the constructors from an iterate or a residual, which set the counter.
- `addLogBarrierGrad` casts its `select` argument twice and never looks at the point (`C82_log_gradient_refuted`).
- `projectIntoBounds_local` drops the results of the parts and returns true (`C82_projection_refuted`), while an ordinary vector returns false for crossed bounds.

### Moving limits
- `ensure_moving_lims` (hiopAlgFilterIPM.cpp 2834) sets the step to `moving_lim_abs / (alpha * ||dx||)` instead of `moving_lim_abs / ||dx||`. The limit therefore holds only if alpha is 1 (or the step was short enough already): otherwise some variable moves by exactly `moving_lim_abs/alpha` (`C84_absolute_iff`, `C84_absolute_refuted`). The "reduced" step can be longer than the fraction-to-boundary step and leave the bounds (`C84_bound_crossed_refuted`).
- Steps along second-order corrected directions are not limited at all (`C84_soc_refuted`).

### Options file

* `max_iter 1e3` in the options file silently sets `max_iter` to 1: the integer reader stops at the `e` and the rest of the word is not looked at (`C85_scientific_refuted`).

### MA57 wrapper

* An upper-triangular CSR matrix is silently read as its diagonal (`C86_upper_refuted`); a warning exists only with `HIOP_DEEPCHECKS`.
* The positions are recorded at the first factorization only; a later matrix with another pattern but as many lower entries passes all asserts and is factorized with the old positions (`C86_pattern_refuted`).
* With triplet matrices, the iterative refinement inside a solve uses the values the matrix has at that time, not those of the factors (`C86_refinement_refuted`); the CSR class keeps its copy.
* `matrixChanged` repeats MA57BD until it succeeds: without asserts an unknown error code never ends; a request below 20 words grows by 0 words; with asserts any warning other than rank deficiency aborts; a request above 2045222521 words makes the conversion to int undefined (`C86_loop_ends_refuted`).

### Mixed dense-sparse matrices
* `hiopMatrixMDS::timesMatTrans(beta, W, alpha, X)` ignores `alpha`: the dense block is multiplied with factor 1 and the sparse block with factor 1 (`C87_times_mat_trans_refuted`).
* `hiopMatrixSymBlockDiagMDS::scale_row` and `row_max_abs_value` pass the whole vector to both blocks, whose sizes differ from the vector's: every such call fails the size asserts when both blocks have rows (`C87_sym_scale_refuted`).
* `addMatrix`, `copyFrom` of both classes call triplet methods that abort; `copyRowsFrom` of the symmetric class passes the mixed matrix itself to the blocks' methods, whose dynamic casts fail (not modelled).

### Saved linear systems (C88)

- Numbers are printed with `%.20f`, a fixed number of decimals: values below 2^-13 lose digits, values below 5e-21
  are saved as zero although the writer's test for nonzeros is 1e-25 (`C88_small_refuted`).
- The documentation says the lower triangle is saved for sparse systems. Those systems hold the Hessian's upper
  triangle and the Jacobians below the diagonal; the triplets are saved as they are, and the script, which mirrors
  only triangular matrices, loads a nonsymmetric matrix with the mirrored entries missing
  (`C88_sparse_symmetric_refuted`).
- The normal equation class increases the counter but has the matrix writer commented out: the first solve fails the
  assert that the matrix was written (in release builds the vectors are appended to a file without a matrix). The
  condensed class saves nothing (`C88_other_classes_refuted`).
- The counter belongs to the KKT object. When the solver switches to the safer formulation and back it creates a new
  object, which starts at 0 and overwrites the saved systems (`C88_second_object_refuted`).
- The solution is saved also when the solve failed; the line then holds whatever the solver left.

### Second-order corrections (C89)

- After an accepted correction the multipliers are updated along the corrected direction, but with `_alpha_dual`, the
  dual step length of the direction that was rejected (`alpha_dual_soc` is computed and dropped). The bound multipliers
  can become negative; the safeguard of C09 then sets them to the edge of its interval
  (`C89_dual_step_refuted`: the multiplier 1 moves to -3.9).
- `resid->copyFrom(*resid_trial)` after acceptance copies a residual of which half the vectors belong to the
  correction's right-hand side and half to the trial point; it is overwritten before it is read.

### Per-iteration callbacks

- `user_callback_iterate` unscales the objective only. With the default gradient scaling the constraint values it
  passes are multiplied by the scaling factors, and multipliers, bound duals, slacks and the barrier objective are those
  of the scaled problem, although the documentation refers to the solution callback for their meaning
  (`C90_scaled`, `C90_scaled_refuted`).
- `user_callback_full_iterate` has no callers, so `iterate_full_callback` is never called. If it were, with
  callback_mem_space=host and mem_space=device, `v_L` and `v_U` are copied into `zl_host` and `zu_host`: an assert fails
  unless there are as many inequalities as variables, and then the bound duals are overwritten and the slack duals are
  uninitialised memory (`C90_full_host`, `C90_full_refuted`).

### Choice of the linear solver and linsol_mode (C91, C92)
These are readings of the source with asserts compiled in; nothing was run.
- Default options and a sparse problem: `KKTLinsys=auto` gives the compact system, `linsol_mode=stable` turns safe mode on, and
  `hiopKKTLinSysSparse.cpp` 274 asserts that it is off. No build gets to a factorization. With NDEBUG the assert is gone and the
  run goes on. The sparse drivers set `KKTLinsys=xdycyd`, so they do not meet this.
- `xdycyd` in safe mode creates MA57 whatever `linear_solver_sparse` says (611-630) and fails in a build without it.
- `xdycyd`, hybrid, `auto`: lines 725-732 return a null pointer also when a solver was created. `pardiso` creates an MA57
  object (746) and logs PARDISO; in a build without MA57 that line would not compile or link, which the model does not show.
- The comment in `hiopOptions.cpp` 896-907 promises a fallback for a value that is not supported; the code ends the run instead.
- `full` reads neither `linear_solver_sparse` nor the documented order (840-855).
- `auto` selecting STRUMPACK: `fact_acceptor` is set to inertia_free only for an explicit request (1551), so the run ends.
- Mixed dense-sparse problems: the iteration of the last switch is never recorded, so the test at 2049 is false up to iteration
  100010 and the run stays with the slow solver.
- Sparse problems outside `condensed`: a solver object once created is kept (271, 604), so the repeated solve in safe mode is
  done by the solver that failed.
- A switch sets theta_mu and kappa_mu to constants (1928, 2026), and `set_logbar_mu` (2333) is called before the new object
  exists, so that object refines once with the tolerance for mu0. `switch_to_fast_KKT` deletes a null pointer (2013): the old
  object leaks.

### Dense solve of the quasi-Newton direction (C93)

`hiopKKTLinSysLowRank::solveWithRefin` (hiopKKTLinSys.cpp 1192-1350):

* `x->copyFrom(X)` (1249) stands inside the loop and `X` is never updated, so every pass starts again from the first
  solution.  The three "refinements" compute the same correction three times and throw it away; the result is always the
  output of DPOSVX (`C93_result_partial`, `C93_refinement_refuted`).  Moving the copy before the loop repairs it.
* `INFO` of DPOSVX is never read and the function returns 0 on every path, so `solveCompressed` always reports success.
  With INFO between 1 and N (matrix not positive definite, e.g. two copies of one equality constraint) DPOSVX does not
  write `X`, which comes from `new double[N]`: the multiplier steps are uninitialised memory (`C93_failure_refuted`).

### Search direction with outer iterative refinement (C94)

* `hiopBiCGStabSolver::solve(dir, resid)` wraps the vectors of the first `dir` it ever sees (`if(nullptr == b_)`,
  hiopKrylovSolver.cpp 391-393) and works in them from then on.  The soft restoration asks for `soc_dir` after the main
  iteration asked for `dir`: its direction is left unchanged, `dir` is overwritten, and all its trials repeat the first
  direction (`C94_object_refuted`, `C94_soft_repeated`, `C94_soft_refuted`).  Refinement is on by default
  (`ir_outer_maxit` 8).
* The return value of `computeDirections` is dropped by the Krylov solver, and a failed Krylov solve is turned into
  `true`: with refinement on a failed linear solve is never reported, so safe mode is never entered for that reason
  (`C94_failure_refuted`).
* The documented tolerance is on the residual; the code's is relative to the right-hand side.  With mu = 1 and both
  options at 1 the zero direction is accepted (`C94_tolerance_refuted`).

### Solver of the initial multipliers (C95)

* With ReSolve compiled in, `instantiate_linear_solver` tests `fact_acceptor` before it looks at the solver named
  (hiopDualsUpdater.cpp 451-457): under the default inertia correction every sparse run outside cpu mode stops at an
  assert, also with `ma57` (`C95_acceptor_refuted`).
* In gpu mode the code that creates ReSolve is followed by `assert(compute_mode == "hybrid" || compute_mode == "auto")`
  (488), so the run stops for every build and request (`C95_gpu_refuted`).
* hiopOptions.cpp 922 documents STRUMPACK for auto with a device; ReSolve is taken first (`C95_auto_refuted`).
* `ensure_consistence` never reads `duals_init_linear_solver_sparse`, although the asserts say that invalid values
  "should have been corrected during options processing": `strumpack` with the default acceptor, and a solver missing
  from the build, stop the run (`C95_rules_refuted`, `C95_missing_refuted`); on a device `pardiso` and `ginkgo` fail the
  assert of MA57 (`C95_request_refuted`).

### Elastic mode
* `apply_scaling` multiplies the inequality bounds but not the copies in the bounds relaxer; the first change of mu in
  elastic mode resets the bounds to the unscaled values while the constraint bodies stay scaled
  (`C79_scaled_refuted`; gradient scaling is on by default).
* With option bound_relax_perturb = 0 there is no relaxer and `reset_bounds` uses a null pointer
  (`C79_no_relaxer_refuted`).
* A final factor above the initial one is kept, not replaced by the defaults as documented
  (`C79_documented_defaults_refuted`).
* mu0 below the tolerance: the factor stays at its initial value; mu0 equal to it with equal factors: NaN bounds
  (`C79_small_mu0_refuted`, `C79_nan_refuted`).
* `correct_it_adjust_bound` may move bounds outside the initial relaxation (`C79_adjust_refuted`).

### Inertia-free mode
* The mixed dense-sparse KKT system never writes `Dd_`, which its curvature test reads (`C78_mds_refuted`).
* The answer of `factorize_inertia_free` is ignored (`C78_failure_ignored_refuted`).
* After ten refactorizations without success safe mode is not switched on although the caller assumes so
  (`C78_limit_keeps_mode_refuted`); a second failure then leaves the loop without a step (C03).

### Dense matrices
* `timesMat` with inner dimension zero returns the target without applying beta in MPI builds and passes a leading
  dimension of zero, which BLAS rejects, in others (`C74_inner_zero_refuted`); `transTimesMat` does the latter on every
  rank that holds no column (`C74_no_local_column_refuted`).
* `addSubDiagonal(start, alpha, d, start_src, num)` checks `num` against the length of `d` instead of the length left
  from `start_src` (`C75_subdiag_overrun_refuted`); on an empty matrix its assert fails (`C75_empty_refuted`).
* `copyFrom` an object without rows allocated sets the own buffer to NULL, which also leaks it
  (`C75_copy_unallocated_refuted`).
* `alloc_clone` and `new_copy` leave `comm_size_` unwritten; `set_Jac_FR` branches on it (`C76_clone_refuted`).

### Primal decomposition: approximation and measures
* `check_convergence_grad` and `check_convergence_fcn` run after `get_alpha_f` has replaced the coefficient, so they
  combine the new coefficient with the step made under the old one.  For base case (x-2)^2/2, recourse x^2/2-1 and
  lower limit 1 the solver stops in its second iteration at x = 4/3 with measure 0 although the gradient there is 2/3
  (`C73_false_convergence_refuted`).
* With all variables coupled, `run_single` copies x in its natural order and ignores the list of coupled indices, which
  the evaluator uses: the approximation does not touch the recourse (`C72_reordered_refuted`).
* The values returned by `eval_f_rterm` and `eval_grad_rterm` are not looked at (`C72_failures_ignored_refuted`).
* `RecourseApproxEvaluator::eval_grad` keeps a buffer of the size of its first call (`C71_resized_refuted`);
  `set_x0` tests `rgrad_` where `x0_` is meant (no effect with the present constructors).

### Errors and termination
* `infnorm_local` returns NaN when the first entry is NaN and skips NaN elsewhere, and `fmax` drops NaN, so a
  gradient with NaN in its first entry yields optimality error 0 and `Solve_Success`
  (`C66_nan_is_success_refuted`); a trial point with NaN objective is accepted if it reduces infeasibility
  (`C66_nan_step_accepted_refuted`).
* The distance between the slack variable d and d(x) is not part of the tested error
  (`C64_untested_slack_refuted`); whether a run can reach such a point is not established.
