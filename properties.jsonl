{"id": "C01", "title": "Filter acceptance is exactly non-domination", "statement": "At any moment of a solve, the globalization filter rejects a trial pair (theta, phi) exactly when some pair recorded since the filter was last (re)initialised or cleared is no worse in both components; consequently every rejection is permanent (also for all worse pairs) until the next clear/reinitialisation.", "quantifier": "every sequence of filter operations (initialise, reinitialise, clear, add) and every pair of binary64 values, including infinities and NaN", "why_tests_cant": "the filter grows during a solve; a test samples a few pairs, while the guarantee (no cycling) is over every history and pair", "anchors": ["src/Optimization/hiopFilter.cpp: hiopFilter::{initialize,reinitialize,clear,add,contains}", "src/Optimization/hiopFilter.hpp"]}
{"id": "C02", "title": "Filter keeps the infeasibility cap", "statement": "After the filter is (re)initialised with a cap theta_max, every trial whose constraint violation is at least theta_max (and whose barrier value is at least -1e20) is rejected, whatever is added to the filter later, until it is cleared or reinitialised. Only a NaN (or a barrier value below -1e20) can slip through.", "quantifier": "all caps, all later additions, all binary64 trial pairs", "why_tests_cant": "an upper bound on violation over a whole history of additions cannot be sampled", "anchors": ["src/Optimization/hiopFilter.cpp: hiopFilter::reinitialize", "src/Optimization/hiopAlgFilterIPM.cpp: run (calls to filter.reinitialize)"]}
{"id": "C03", "title": "Accepted line-search step passes filter and a sufficient-decrease test", "statement": "Whenever the line search accepts a trial point with a positive status, the trial is not in the filter and it satisfies either the Armijo condition on the barrier function or the sufficient decrease in violation or barrier objective relative to the current iterate; the switching condition decides which one is demanded.", "quantifier": "all iterates, trial values and parameter values", "why_tests_cant": "acceptance is a decision tree over real quantities; tests only hit a handful of branches", "anchors": ["src/Optimization/hiopAlgFilterIPM.cpp: hiopAlgFilterIPMBase::accept_line_search_conditions"]}
{"id": "C04", "title": "Backtracking line search always ends", "statement": "For every problem (every sequence of trial evaluations) the backtracking loop leaves after a number of halvings bounded by log2 of the initial step over the minimum step: with an accepted trial, with a user-stop/error, or with the step length below the minimum (which triggers restoration).", "quantifier": "all evaluation outcomes of the user problem along the backtracking, all initial step lengths", "why_tests_cant": "termination for every oracle is not observable by running", "anchors": ["src/Optimization/hiopAlgFilterIPM.cpp: hiopAlgFilterIPMQuasiNewton::run, hiopAlgFilterIPMNewton::run (line search loops)"]}
{"id": "C05", "title": "Barrier parameter stays positive and its update loop terminates", "statement": "Each barrier update yields a mu and a fraction-to-boundary parameter tau inside their documented ranges (mu>0, tau_min<=tau<1) and the loop that keeps decreasing mu while the barrier subproblem is solved stops after finitely many updates.", "quantifier": "all admissible option values and error histories", "why_tests_cant": "the update is iterated an unbounded number of times; positivity must survive all of them", "anchors": ["src/Optimization/hiopAlgFilterIPM.cpp: hiopAlgFilterIPMBase::update_log_barrier_params", "src/Utils/hiopOptions.cpp: register_options (mu0, kappa_mu, theta_mu, tau_min)"]}
{"id": "C06", "title": "Success is only reported at tolerance", "statement": "run() returns Solve_Success only at an iterate whose optimality/feasibility/complementarity errors met the requested tolerance, Solve_Acceptable_Level only after the configured number of consecutive acceptable iterates, and Max_Iter_Exceeded only when the iteration budget was used up.", "quantifier": "every history of iterates (error values), every option setting", "why_tests_cant": "a final status is a function of the whole error history", "anchors": ["src/Optimization/hiopAlgFilterIPM.cpp: hiopAlgFilterIPMBase::checkTermination, run"]}
{"id": "C07", "title": "Main loop respects the iteration limit", "statement": "For every user problem the interior-point main loop performs at most max_iter iterations before it returns a status.", "quantifier": "all behaviours of the user callbacks and of the linear algebra", "why_tests_cant": "termination under every behaviour of user code cannot be tested", "anchors": ["src/Optimization/hiopAlgFilterIPM.cpp: hiopAlgFilterIPMNewton::run, hiopAlgFilterIPMQuasiNewton::run"]}
{"id": "C08", "title": "Fraction-to-the-boundary keeps iterates strictly interior", "statement": "If slacks/bound duals are strictly positive and 0<tau<1, the step length returned by the fraction-to-the-boundary rule is in (0,1] and the updated slacks/bound duals are at least (1-tau) times the previous ones, hence strictly positive; components without a bound never restrict the step.", "quantifier": "all vector lengths, positive vectors, directions, tau, bound patterns and MPI partitions", "why_tests_cant": "componentwise guarantee over unbounded vector sizes and all real directions", "anchors": ["src/LinAlg/hiopVectorPar.cpp: fractionToTheBdry_local, fractionToTheBdry_w_pattern_local", "src/Optimization/hiopIterate.cpp: fractionToTheBdry, takeStep_primals, takeStep_duals"]}
{"id": "C09", "title": "Dual adjustment confines complementarity products", "statement": "After the dual adjustment every bound multiplier z belonging to slack x satisfies mu/kappa <= x*z <= kappa*mu; multipliers already in that window and entries without a bound are not touched.", "quantifier": "all vectors, patterns, mu>0, kappa>=1", "why_tests_cant": "componentwise guarantee for all sizes and values", "anchors": ["src/LinAlg/hiopVectorPar.cpp: adjustDuals_plh", "src/Optimization/hiopIterate.cpp: adjustDuals_primalLogHessian"]}
{"id": "C10", "title": "Starting point is projected strictly inside the bounds", "statement": "If every lower bound is strictly below its upper bound, the projection used for the starting point returns a point strictly between the bounds in each component, leaves components that are already sufficiently inside unchanged, and reports failure (false) otherwise.", "quantifier": "all vectors, bounds (one-, two-sided or absent), kappa1 in (0,1), kappa2 in (0,1/2)", "why_tests_cant": "componentwise guarantee for all sizes and values", "anchors": ["src/LinAlg/hiopVectorPar.cpp: projectIntoBounds_local", "src/Optimization/hiopIterate.cpp: projectPrimalsXIntoBounds, projectPrimalsDIntoBounds"]}
{"id": "C11", "title": "Regularisation retries always end", "statement": "Within one iteration the request/refactorise dialogue between the factorisation acceptor and the primal-dual regularisation calculator ends after finitely many refactorisations, for every sequence of inertia outcomes reported by the linear solver: the factorisation is accepted or the regularisation exceeds its maximum and failure is reported.", "quantifier": "all inertia/singularity outcome sequences, all regularisation histories and admissible parameters", "why_tests_cant": "the adversary is the linear solver; termination must hold for all its answers", "anchors": ["src/Optimization/hiopPDPerturbation.cpp", "src/Optimization/hiopFactAcceptor.cpp: hiopFactAcceptorIC::requireReFactorization"]}
{"id": "C12", "title": "Regularisations are non-negative, bounded and structurally consistent", "statement": "After every successful request the primal regularisations are non-negative, never exceed the maximum, the same value is used for decision variables and slacks, dual regularisations are 0 or the fixed positive value, and the vectors handed to the KKT system hold these values.", "quantifier": "all call histories", "why_tests_cant": "state machine invariant over unbounded histories", "anchors": ["src/Optimization/hiopPDPerturbation.cpp", "src/Optimization/hiopPDPerturbation.hpp"]}
{"id": "C13", "title": "Numeric, integer and string options stay in range", "statement": "Whatever sequence of option-file lines and runtime set calls is issued, every registered option always holds a value of its declared type inside its declared range; invalid, mistyped or unknown requests leave all values unchanged.", "quantifier": "all sequences of set calls with any names and values", "why_tests_cant": "unbounded histories of API calls", "anchors": ["src/Utils/hiopOptions.cpp: hiopOptions::{SetNumericValue,SetIntegerValue,SetStringValue,set_val,load_from_file}"]}
{"id": "C14", "title": "Option file takes precedence over runtime settings", "statement": "A value taken from the options file is never changed by a later runtime set call; among runtime calls the last valid one wins; a runtime set of one option never changes another registered option except through the documented consistency rules.", "quantifier": "all interleavings of file and runtime settings", "why_tests_cant": "precedence is a property of whole histories", "anchors": ["src/Utils/hiopOptions.cpp: SetNumericValue, SetIntegerValue, SetStringValue, load_from_file"]}
{"id": "C15", "title": "Option consistency pass is stable", "statement": "The consistency pass run after each option change is idempotent, keeps every option in range and establishes the documented relations between options (for example tolerance pairs).", "quantifier": "all option states", "why_tests_cant": "fix-point property over all option combinations", "anchors": ["src/Utils/hiopOptions.cpp: hiopOptionsNLP::ensure_consistence, hiopOptionsPriDec::ensure_consistence"]}
{"id": "C16", "title": "Constraints are split without loss", "statement": "Splitting the user's constraints into equalities and inequalities puts each constraint in exactly one block, as an equality precisely when its two bounds coincide, keeps the user's order in each block, and recombining block values through the stored maps gives back the user's constraint vector.", "quantifier": "all numbers of constraints, bounds and values", "why_tests_cant": "permutation property over unbounded sizes", "anchors": ["src/Optimization/hiopNlpFormulation.cpp: process_constraints, eval_c_d, copy_EqIneq_to_cons, user_callback_solution"]}
{"id": "C17", "title": "Bound classification and counts", "statement": "The indicator vectors mark exactly the variables (constraints) with a finite bound (lower bound above -1e20, upper bound below 1e20, as documented in the interface) and the four counters (lower, upper, both, fixed) equal the number of such entries.", "quantifier": "all bound vectors and partitions over ranks", "why_tests_cant": "counting property over all sizes", "anchors": ["src/Optimization/hiopNlpFormulation.cpp: process_bounds, process_constraints"]}
{"id": "C18", "title": "Removing fixed variables is transparent", "statement": "With fixed-variable removal the user's callbacks are always evaluated at a full-length point whose fixed components hold the fixed value and whose other components are the solver's reduced point in order; gradients and Jacobians handed to the solver are the matching subvector/columns; reduce after expand is the identity.", "quantifier": "all problems, all fixed sets, all points, all MPI column partitions", "why_tests_cant": "index bookkeeping over unbounded sizes", "anchors": ["src/Optimization/hiopNlpTransforms.cpp: hiopFixedVarsRemover", "src/Optimization/hiopNlpTransforms.hpp"]}
{"id": "C19", "title": "Bound relaxation only enlarges the feasible set", "statement": "Relaxing fixed variables or bounds yields bounds that contain the original interval, with strict interior when the relaxation factor is positive, and infinite bounds stay infinite.", "quantifier": "all bounds and factors", "why_tests_cant": "componentwise inequality over all reals", "anchors": ["src/Optimization/hiopNlpTransforms.cpp: hiopFixedVarsRelaxer::relax, hiopBoundsRelaxer::relax"]}
{"id": "C20", "title": "Objective reported to the user is unscaled", "statement": "The objective value delivered through the solution callback and get_objective equals the user's objective function at the reported point, for any gradient-based scaling, and any chain of active transformations.", "quantifier": "all problems, scaling factors, chains of transformations", "why_tests_cant": "must hold for all scale factors and points", "anchors": ["src/Optimization/hiopNlpFormulation.cpp: user_callback_solution, get_obj_scale", "src/Optimization/hiopNlpTransforms.hpp: hiopNLPObjGradScaling, hiopNlpTransformations"]}
{"id": "C21", "title": "Multipliers reported to the user are multipliers of the user's problem", "statement": "The constraint and bound multipliers delivered in the solution callback and by the dual-solution getter satisfy the stationarity equation of the user's unscaled problem whenever the solver's internal multipliers satisfy it for the scaled problem.", "quantifier": "all problems, scalings, internal multipliers", "why_tests_cant": "algebraic identity over all scalings; the regression tests run with scale factor one", "anchors": ["src/Optimization/hiopNlpFormulation.cpp: user_callback_solution, get_dual_solutions", "src/Optimization/hiopNlpTransforms.hpp: hiopNLPObjGradScaling"]}
{"id": "C22", "title": "Lagrangian multipliers handed to the user's Hessian callback are in the user's order", "statement": "The multiplier vector passed to the user's Hessian-of-Lagrangian callback pairs each of the user's constraints with its own multiplier, for every interleaving of equalities and inequalities; combined with the objective factor passed along, it describes the Lagrangian of the (possibly scaled) functions the solver evaluates.", "quantifier": "all constraint orderings and multipliers", "why_tests_cant": "permutations over unbounded sizes; drivers list equalities first", "anchors": ["src/Optimization/hiopNlpFormulation.cpp: hiopNlpSparse::eval_Hess_Lagr, hiopNlpMDS::eval_Hess_Lagr"]}
{"id": "C23", "title": "One-call and two-call constraint evaluation agree", "statement": "Users may implement constraint evaluation in one call for all constraints or in two calls by index set; for the same mathematical constraints both give the solver the same residuals and Jacobian blocks.", "quantifier": "all constraint functions, orderings and scalings", "why_tests_cant": "equivalence of two code paths for all inputs", "anchors": ["src/Optimization/hiopNlpFormulation.cpp: eval_c_d, eval_Jac_c_d, eval_Jac_c_d_interface_impl"]}
{"id": "C24", "title": "Triplet sparse matrix-vector products are the linear-algebra products", "statement": "For any sparse triplet matrix (duplicates allowed, any order), times-vector and transpose-times-vector give beta*y+alpha*A*x and beta*y+alpha*A^T*x for the matrix A whose entries are the sums of stored entries; for the symmetric class storing one triangle, A is the symmetrised matrix; the two products are adjoint.", "quantifier": "all dimensions, sparsity patterns and values", "why_tests_cant": "unbounded sizes and patterns", "anchors": ["src/LinAlg/hiopMatrixSparseTriplet.cpp: timesVec, transTimesVec, hiopMatrixSymSparseTriplet::timesVec"]}
{"id": "C25", "title": "Triplet block assembly writes exactly the intended block", "statement": "Copying a matrix, its transpose, selected rows or a (patterned) diagonal into a block of a larger triplet matrix produces exactly the entries of the source shifted to the destination block, keeps all other stored entries, and touches only the announced nonzero slots.", "quantifier": "all sources, offsets, patterns", "why_tests_cant": "frame conditions over all positions", "anchors": ["src/LinAlg/hiopMatrixSparseTriplet.cpp: copyRowsFrom, copyRowsBlockFrom, copySubmatrixFrom, copySubmatrixFromTrans, copyDiagMatrixToSubblock, setSubmatrixToConstantDiag_w_colpattern, setSubmatrixToConstantDiag_w_rowpattern"]}
{"id": "C26", "title": "Sparse Schur-complement kernels", "statement": "Adding M D^{-1} N^T to a block of a dense symmetric matrix adds exactly that product on the addressed upper-triangular block and leaves all other entries alone, for row-sorted triplet matrices.", "quantifier": "all sorted sparse matrices, nonzero diagonals, offsets", "why_tests_cant": "two-pointer merge correctness over all patterns", "anchors": ["src/LinAlg/hiopMatrixSparseTriplet.cpp: addMDinvMtransToDiagBlockOfSymDeMatUTri, addMDinvNtransToSymDeMatUTri, timesMatTrans, allocAndBuildRowStarts"]}
{"id": "C27", "title": "CSR transpose is the transpose", "statement": "Building a CSR matrix as the transpose of a sorted triplet or CSR matrix yields sorted, duplicate-free rows and exactly the transposed entries; later numeric-only refreshes with new values on the same pattern again give the transpose.", "quantifier": "all matrices and all sequences of numeric refreshes", "why_tests_cant": "all sparsity patterns", "anchors": ["src/LinAlg/hiopMatrixSparseCSRSeq.cpp: form_transpose_from_symbolic, form_transpose_from_numeric, form_from_symbolic, form_from_numeric"]}
{"id": "C28", "title": "CSR product and sum are the product and sum", "statement": "The allocate/symbolic/numeric triple for sparse matrix products and for sparse sums produces sorted rows whose entries equal beta*M+alpha*X*Y respectively alpha*X+beta*Y; the announced number of nonzeros equals the number of pattern entries; no write leaves the allocated arrays.", "quantifier": "all sorted CSR matrices with compatible dimensions", "why_tests_cant": "all patterns and sizes", "anchors": ["src/LinAlg/hiopMatrixSparseCSRSeq.cpp: times_mat_alloc, times_mat_symbolic, times_mat_numeric, add_matrix_alloc, add_matrix_symbolic, add_matrix_numeric"]}
{"id": "C29", "title": "Triplet to CSR conversion for the linear solvers keeps the matrix and its update map", "statement": "Converting an (unsorted, extra-diagonal) triplet matrix to CSR yields the same matrix, and refreshing CSR values through the returned index maps after the triplet values change yields the CSR form of the changed matrix.", "quantifier": "all triplet matrices with at most one extra entry per diagonal position, all later values", "why_tests_cant": "index maps depend on the pattern; wrong maps only show up on patterns where the diagonal moves in the sort", "anchors": ["src/LinAlg/hiopMatrixSparseTriplet.cpp: convert_to_csr_arrays", "src/Utils/hiopCppStdUtils.hpp: reorder", "src/LinAlg/hiopLinSolverSparsePARDISO.cpp"]}
{"id": "C30", "title": "Primal decomposition evaluates every recourse term exactly once", "statement": "In every iteration of the distributed primal-decomposition algorithm, under every interleaving of message arrivals, the master sends every recourse index to exactly one worker, accumulates each result exactly once, leaves its loop only when all results are in and then stops every worker.", "quantifier": "all schedules (arrival orders), all numbers of workers and recourse terms with at least as many terms as workers", "why_tests_cant": "concurrency: schedules cannot be enumerated by tests", "anchors": ["src/Optimization/hiopAlgPrimalDecomp.cpp: hiopAlgPrimalDecomposition::run"]}
{"id": "C31", "title": "Recourse Hessian scaling stays in its safeguard interval", "statement": "Every curvature estimate produced by the recourse approximation lies within [alpha_min, alpha_max] and the trust-region ratio within its bounds, for every history of function and gradient values.", "quantifier": "all histories of (x, f, grad) and parameter settings", "why_tests_cant": "all reals, all histories", "anchors": ["src/Optimization/hiopAlgPrimalDecomp.cpp: HessianApprox"]}
{"id": "C32", "title": "Krylov solvers only claim convergence when converged", "statement": "If a Krylov solve reports success the vector it returns satisfies ||b - A x|| <= tol*||b|| with A evaluated by the operator itself (no recurrence drift), it uses at most maxit iterations and otherwise reports failure, for arbitrary (even nonlinear or faulty) operators and preconditioners.", "quantifier": "all operators, preconditioners, right-hand sides, initial guesses", "why_tests_cant": "all operators including adversarial floating-point behaviour", "anchors": ["src/LinAlg/hiopKrylovSolver.cpp: hiopPCGSolver::solve, hiopBiCGStabSolver::solve"]}
{"id": "C33", "title": "Quasi-Newton memory is a bounded FIFO of curvature pairs", "statement": "The limited-memory Hessian keeps at most the configured number of (s,y) pairs, always the most recent accepted ones in order, each with strictly positive curvature, the stored L and D matrices are exactly the strictly-lower/diagonal parts of S^T Y, and the scaling sigma stays within its safeguards.", "quantifier": "all iterate histories and memory lengths", "why_tests_cant": "invariant over unbounded histories", "anchors": ["src/Optimization/hiopHessianLowRank.cpp: hiopHessianLowRank::update, growL, growD, updateL, updateD"]}
{"id": "C34", "title": "Norms and reductions do not depend on the distribution", "statement": "Dot products, one-, two- and infinity-norms, minima, sums, step lengths and logical tests over a distributed vector give the same exact-arithmetic value for every partition over ranks as for a single rank.", "quantifier": "all vectors and all partitions into contiguous blocks", "why_tests_cant": "all partitions", "anchors": ["src/LinAlg/hiopVectorPar.cpp: dotProductWith, twonorm, infnorm, onenorm, min, logBarrier_local"]}
{"id": "C35", "title": "Vector pack/unpack kernels move exactly the selected entries", "statement": "The pattern-driven copy kernels (compress, expand, copy with index maps, two-vector merge and split) transfer exactly the selected entries in order and leave all others untouched; merge after split is the identity.", "quantifier": "all vectors, patterns, index maps", "why_tests_cant": "frame properties over all sizes", "anchors": ["src/LinAlg/hiopVectorPar.cpp: copy_from_indexes, copyToStartingAt_w_pattern, startingAtCopyToStartingAt_w_pattern, copy_from_two_vec_w_pattern, copy_to_two_vec_w_pattern"]}
{"id": "C36", "title": "Compressed KKT solves satisfy the full Newton system", "statement": "If the linear solver solves the compressed (xycyd or xdycyd) system exactly, the back-substituted directions satisfy every block equation of the full primal-dual Newton system, including regularisation terms and bound patterns.", "quantifier": "all iterates with positive slacks, residuals and dimensions", "why_tests_cant": "algebraic identity over all data", "anchors": ["src/Optimization/hiopKKTLinSys.cpp: hiopKKTLinSysCompressedXYcYd::computeDirections, hiopKKTLinSysCompressedXDYcYd::computeDirections, compute_directions_for_full_space"]}
{"id": "C37", "title": "Feasibility-restoration problem embeds the original problem", "statement": "The restoration problem's variable, constraint and Jacobian blocks are [x,p,n] with c(x)-p+n, d(x)-p+n; setting p and n to the initial formula makes the residual zero exactly, and the Jacobian [J -I I] and Hessian blocks are the derivatives of these functions.", "quantifier": "all problems and points", "why_tests_cant": "block index arithmetic over all sizes", "anchors": ["src/Optimization/hiopFRProb.cpp", "src/LinAlg/hiopMatrixSparseTriplet.cpp: set_Jac_FR, set_Hess_FR"]}
{"id": "C38", "title": "Fortran interface index conversion", "statement": "Sparse patterns provided by a Fortran user with 1-based indices reach the solver 0-based, on every pattern call and only on pattern calls; value calls leave index arrays alone.", "quantifier": "all patterns and all sequences of callback invocations", "why_tests_cant": "call-sequence property", "anchors": ["src/Interface/hiopFortranInterface.c: eval_jac_sparse_wrapper, eval_hess_sparse_wrapper"]}
{"id": "C39", "title": "Kron reduction is the Schur complement", "statement": "For a symmetric admittance matrix the reduced matrix equals Yaa - Yab Ybb^{-1} Yba and the auxiliary voltages recovered from the nonaux ones satisfy the auxiliary equations with zero injections.", "quantifier": "all matrices with invertible aux block, all index splits", "why_tests_cant": "algebraic identity", "anchors": ["src/Utils/hiopKronReduction.cpp: go, apply_nonaux_to_aux", "src/LinAlg/hiopMatrixComplexSparseTriplet.cpp: new_slice, transTimesMat"]}
{"id": "C40", "title": "Slack adjustment only moves slacks up and within limits", "statement": "Adjusting too-small slacks never decreases a slack, leaves slacks without bounds and sufficiently large slacks unchanged, and moves a bound by no more than the documented relative amount.", "quantifier": "all iterates, patterns, mu", "why_tests_cant": "componentwise guarantee over all reals", "anchors": ["src/Optimization/hiopIterate.cpp: adjust_small_slacks", "src/Optimization/hiopNlpFormulation.cpp: adjust_bounds"]}
{"id": "C41", "title": "A successful restoration continues the solve", "statement": "Whenever feasibility restoration succeeds the solver goes on iterating; run() never returns the internal 'pending' status to the caller.", "quantifier": "all problems, solver variants, linear-solver modes and outcomes of restoration", "why_tests_cant": "restoration is entered only on hard problems; all combinations of outcomes with later iterations cannot be enumerated by tests", "anchors": ["src/Optimization/hiopAlgFilterIPM.cpp: hiopAlgFilterIPMQuasiNewton::run, hiopAlgFilterIPMNewton::run, apply_feasibility_restoration"]}
{"id": "C42", "title": "accept_every_trial_step accepts every trial step", "statement": "With the option accept_every_trial_step=yes the first trial point of each line search becomes the next iterate, without any test and without entering feasibility restoration.", "quantifier": "all problems and iterates", "why_tests_cant": "a statement about every iteration of every run", "anchors": ["src/Optimization/hiopAlgFilterIPM.cpp: line search loops (disableLS)", "src/Utils/hiopOptions.cpp: accept_every_trial_step"]}
{"id": "C43", "title": "A failing user callback is always reported", "statement": "If a user callback reports failure during a solve, run() returns Error_In_User_Function (or another error status); it never returns a success status as if the evaluation had worked.", "quantifier": "all points of a run at which a callback may fail", "why_tests_cant": "fault injection at every possible callback invocation of every run is unbounded", "anchors": ["src/Optimization/hiopAlgFilterIPM.cpp: run, solve_soft_feasibility_restoration, apply_second_order_correction"]}
{"id": "C44", "title": "Diagonal extraction returns the matrix diagonal", "statement": "Extracting the diagonal of a symmetric triplet matrix returns, for every index i, the (i,i) entry of the matrix that the product routines multiply by; and a matrix reported to be diagonal has no nonzero off-diagonal entry.", "quantifier": "all symmetric triplet matrices", "why_tests_cant": "unbounded sizes and patterns; duplicates matter", "anchors": ["src/LinAlg/hiopMatrixSparseTriplet.cpp: hiopMatrixSymSparseTriplet::extract_diagonal 1355-1369"]}
{"id": "C45", "title": "Adding part of a matrix diagonal to part of a vector", "statement": "Adding alpha times the diagonal entries diag_start..diag_start+n-1 of a symmetric triplet matrix to vec_start..vec_start+n-1 of a vector changes exactly those components.", "quantifier": "all matrices, offsets and counts", "why_tests_cant": "offset arithmetic over all start values", "anchors": ["src/LinAlg/hiopMatrixSparseTriplet.cpp: startingAtAddSubDiagonalToStartingAt 1018-1040"]}
{"id": "C46", "title": "The condensed sparse system equals the KKT system it condenses", "statement": "In the sparse condensed linear-algebra mode, after each matrix update of a solve the matrix handed to the linear solver equals H + Dx + delta_wx + J^T (Dd + delta_wd) J for the most recent Hessian, Jacobian, barrier diagonals and perturbations (in ordered compressed-row form, symmetric), and with an exact linear solver the returned (dx,dd,dyd) satisfies every equation of the uncondensed KKT system.", "quantifier": "all problem sizes, sparsity patterns, values, and all numbers of successive updates with an unchanged pattern", "why_tests_cant": "the assembly goes through ten cached sparse objects whose reuse over arbitrarily long update sequences cannot be enumerated", "anchors": ["src/Optimization/hiopKKTLinSysSparseCondensed.cpp: build_kkt_matrix 103-341, solve_compressed_direct 345-396"]}
{"id": "C47", "title": "In-place scaling and diagonal updates of compressed-row matrices", "statement": "Scaling rows or columns of a compressed-row matrix, setting its diagonal to a constant and adding a constant or a scaled vector to its diagonal change exactly the entries they name, leave all others and the sparsity pattern unchanged. The order check (check_csr_is_ordered) answers true exactly when the columns of every row strictly increase.", "quantifier": "all matrices, vectors and constants", "why_tests_cant": "unbounded sizes and patterns", "anchors": ["src/LinAlg/hiopMatrixSparseCSRSeq.cpp: scale_rows, scale_cols, set_diagonal, addDiagonal, check_csr_is_ordered"]}
{"id": "C48", "title": "Sorting a triplet matrix keeps the matrix", "statement": "Sorting a triplet matrix reorders the stored entries by (row, column), each value staying with its position; the matrix that the products multiply by is unchanged, and a matrix without duplicate positions ends up in the strictly ordered form the other triplet operations assume.", "quantifier": "all triplet matrices, with or without duplicates", "why_tests_cant": "unbounded sizes and patterns", "anchors": ["src/LinAlg/hiopMatrixSparseTriplet.cpp: hiopMatrixSparseTriplet::sort 1323-1336"]}
{"id": "C49", "title": "A factorization reported as good was accepted", "statement": "When the KKT factorization step reports success, the last factorization performed is one the acceptor accepts (correct inertia, or nonsingular in inertia-free mode), it was made with the regularization now stored, and no earlier factorization of the same step was acceptable.", "quantifier": "all sequences of linear solver answers, all regularization histories", "why_tests_cant": "the linear solver is the adversary; all its answer sequences must be covered", "anchors": ["src/Optimization/hiopKKTLinSys.cpp: hiopKKTLinSysCurvCheck::factorize, factorize_inertia_free", "src/Optimization/hiopFactAcceptor.cpp"]}
{"id": "C50", "title": "The primal solution delivered has one value per user variable", "statement": "The point delivered by the solution getter and by the solution callback has one entry for each of the user's variables, each free variable at the solver's value and each variable fixed by its bounds at its fixed value, whether or not fixed variables are removed internally.", "quantifier": "all problems, sets of fixed variables, solver points, contents of the user's array", "why_tests_cant": "every position of the fixed variables; drivers do not remove fixed variables", "anchors": ["src/Optimization/hiopNlpFormulation.hpp: user_x", "src/Optimization/hiopNlpFormulation.cpp: user_callback_solution", "src/Optimization/hiopAlgFilterIPM.cpp: getSolution"]}
{"id": "C51", "title": "Automatic scaling limits the gradients without breaking the problem", "statement": "When gradient-based scaling is applied, every scale factor is positive (and at most one with the default options), every component of the scaled objective gradient and of the scaled constraint gradients at the starting point is within the requested limit unless the factor sits at its lower limit, the right-hand sides and inequality bounds are scaled with the factors of their constraints, and a problem whose gradients are all below the threshold is left untouched.", "quantifier": "all gradients, Jacobians, scaling options, chains of earlier transformations", "why_tests_cant": "for all real values of derivatives and options", "anchors": ["src/Optimization/hiopNlpFormulation.cpp: apply_scaling", "src/Optimization/hiopNlpTransforms.cpp: hiopNLPObjGradScaling"]}
{"id": "C52", "title": "The primal decomposition ends when and only when it should, and says why", "statement": "The outer loop of the primal-decomposition solver ends at the first iteration whose convergence measure is below the tolerance, or which completes the requested number of acceptable iterations in a row, or which is the last one allowed; and the status returned tells convergence from exhaustion of the iterations.", "quantifier": "all histories of convergence measures (including NaN), tolerances and limits", "why_tests_cant": "all histories", "anchors": ["src/Optimization/hiopAlgPrimalDecomp.cpp: stopping_criteria, run, run_local, run_single"]}
{"id": "C53", "title": "The residual a Krylov solve reports is that of the vector it returns", "statement": "After a solve with the conjugate-gradient or BiCGStab solver the absolute and relative residuals reported by the getters are those of the vector returned, recomputed with the operator, whether the solve converged or not.", "quantifier": "all operators (including nonlinear or faulty), preconditioners, right-hand sides, tolerances and limits", "why_tests_cant": "all operators and all lengths of the iteration, in particular those that end by stagnation", "anchors": ["src/LinAlg/hiopKrylovSolver.cpp: hiopPCGSolver::solve 150-354, hiopBiCGStabSolver::solve 399-699"]}
{"id": "C54", "title": "The quasi-Newton solve and product use the BFGS matrix of the stored pairs", "statement": "With the secant pairs kept in memory, the initial multiple sigma of the identity and the barrier diagonal Dx, the solve, the reduced-system product X*inv*X^T and the matrix-vector product of the limited-memory matrix are those of the textbook BFGS matrix of these pairs plus Dx; that matrix satisfies the newest secant equation and is positive definite.", "quantifier": "all dimensions, memory lengths, histories of accepted pairs, right-hand sides", "why_tests_cant": "an algebraic identity between a compact representation and a recursion of unbounded length", "anchors": ["src/Optimization/hiopHessianLowRank.cpp: solve 495-540, symMatTimesInverseTimesMatTrans 549-630, updateInternalBFGSRepresentation 400-485, timesVecCmn 974-1059"]}
{"id": "C55", "title": "Solving a sparse problem again through the C or Fortran interface", "statement": "Solving the same sparse problem object again works with the user's Jacobian and Hessian sparsity patterns, as the first solve did.", "quantifier": "all users, all sequences of evaluations before and after the new solve, all contents of fresh storage", "why_tests_cant": "whether stale counters matter depends on the call history and on uninitialised memory, which a test run cannot pin down", "anchors": ["src/Interface/chiopInterface.cpp: hiop_sparse_solve_problem", "src/Optimization/hiopNlpFormulation.cpp: hiopNlpSparse::eval_Hess_Lagr, eval_Jac_c_d_interface_impl", "src/Optimization/hiopAlgFilterIPM.cpp: alloc_alg_objects"]}
{"id": "C56", "title": "C and Fortran callbacks are told when the point is new", "statement": "A callback of a C or Fortran user that recomputes only when new_x is nonzero returns the value at the point the solver asked for, for the objective, the gradient and the constraints.", "quantifier": "all functions, all sequences of points with honest new_x flags", "why_tests_cant": "depends on the whole sequence of calls and on what the user caches", "anchors": ["src/Interface/chiopInterface.hpp: eval_f, eval_grad_f, eval_cons"]}
{"id": "C57", "title": "C callbacks can report failure", "statement": "When a C callback returns a nonzero error code the solver is told that the evaluation failed.", "quantifier": "all callbacks, points and call sequences", "why_tests_cant": "concerns every callback and every error code", "anchors": ["src/Interface/chiopInterface.hpp: eval_f, eval_grad_f, eval_cons, eval_Jac_cons, eval_Hess_Lagr"]}
{"id": "C58", "title": "Assembling a complex sparse matrix keeps its value", "statement": "Sorting the stored elements of a complex sparse matrix and adding up duplicates leaves the matrix unchanged and stores every position once, in row order.", "quantifier": "all lists of elements, every order the sort may give to equal positions", "why_tests_cant": "in-place compaction over all patterns of duplicates", "anchors": ["src/LinAlg/hiopMatrixSparseTripletStorage.hpp: sort_indexes, sum_up_duplicates"]}
{"id": "C59", "title": "Slices of a complex sparse matrix are submatrices", "statement": "new_slice, new_sliceFromSym and new_sliceFromSymToSym return the submatrix at the requested rows and columns (of the symmetric matrix whose upper triangle is stored, for the last two).", "quantifier": "all matrices and all increasing index lists", "why_tests_cant": "the scan over sorted storage must be right for all patterns and index lists", "anchors": ["src/LinAlg/hiopMatrixComplexSparseTriplet.cpp: new_slice, new_sliceFromSym, new_sliceFromSymToSym"]}
{"id": "C60", "title": "Kron reduction reports failure of the linear solver", "statement": "When the factorization or a solve with the block of eliminated buses fails, the reduction returns false.", "quantifier": "all matrices, index lists and solvers", "why_tests_cant": "solver failures cannot be provoked systematically", "anchors": ["src/Utils/hiopKronReduction.cpp: go", "src/LinAlg/hiopLinSolverUMFPACKZ.cpp: solve"]}
{"id": "C61", "title": "A Kron reduction object can be used again", "statement": "A reduction object can perform another reduction after an earlier one, successful or not.", "quantifier": "all sequences of two reductions", "why_tests_cant": "concerns every pair of calls", "anchors": ["src/Utils/hiopKronReduction.cpp: go"]}
{"id": "C62", "title": "The fall-back inside restoration satisfies the restoration constraints", "statement": "When the restoration solve itself gets stuck, the solver keeps the current original variables and resets the positive and negative parts; after this the restoration constraints hold exactly at the new point, with strictly positive parts.", "quantifier": "all problems, layouts and points at which the fall-back can be taken", "why_tests_cant": "the identity must hold at every point, and a test starts restoration from few points and rarely gets it stuck", "anchors": ["src/Optimization/hiopFRProb.cpp: force_update_x", "src/Optimization/hiopAlgFilterIPM.cpp: apply_feasibility_restoration"]}
{"id": "C63", "title": "Restoration hands back only points that the solver can use", "statement": "If the restoration solve stops early, the point handed back is one of its iterates other than the first, violates the original constraints at most kappa_resto times as much as the point where restoration began, and its violation and barrier objective are not in the solver's filter; and it stops at the first such iterate.", "quantifier": "all problems, filters and sequences of iterates", "why_tests_cant": "a statement about all sequences of iterates and all filters", "anchors": ["src/Optimization/hiopFRProb.cpp: iterate_callback, eval_f"]}
{"id": "C64", "title": "The optimality error tested for termination is the violation of the first-order conditions", "statement": "The overall error is at most tol exactly when stationarity, constraint satisfaction and complementarity of the problem hold entry by entry within tol times scale factors between 1 and 1e8 that depend only on the average multiplier size; the barrier error likewise for the conditions perturbed by mu.  Complementarity refers to the values of the constraints.", "quantifier": "all problems, bound patterns, iterates and distributions over MPI ranks", "why_tests_cant": "an equivalence over all iterates; tests look at converged runs only", "anchors": ["src/Optimization/hiopResidual.cpp: update", "src/Optimization/hiopAlgFilterIPM.cpp: evalNlpAndLogErrors", "src/Optimization/hiopIterate.cpp: normOneOfDuals"]}
{"id": "C65", "title": "The line search uses the derivative of the function it compares", "statement": "The objective compared at trial points is the barrier function (logarithms of the distances to the present bounds and linear damping for variables bounded on one side), and the directional derivative in the switching and Armijo conditions is its derivative along the step; so backtracking succeeds along descent directions, and the right-hand side of the step is the stationarity of the same function.", "quantifier": "all problems with differentiable objective, strictly interior points, directions, patterns, mu, damping factors and distributions over ranks", "why_tests_cant": "a derivative identity over all points; finite differences in a test check a few points up to rounding", "anchors": ["src/Optimization/hiopLogBarProblem.hpp: updateWithNlpInfo, updateWithNlpInfo_trial_funcOnly, directionalDerivative", "src/Optimization/hiopIterate.cpp: evalLogBarrier, linearDampingTerm"]}
{"id": "C66", "title": "NaN from a user function is never reported as success", "statement": "When a user callback returns NaN values, the solver does not report Solve_Success because of them and does not accept the step.", "quantifier": "all problems, positions of NaN, tolerances and filters", "why_tests_cant": "NaN propagation through maxima depends on positions; tests return finite values", "anchors": ["src/LinAlg/hiopVectorPar.cpp: infnorm_local, min_w_pattern", "src/Optimization/hiopResidual.cpp: update", "src/Optimization/hiopAlgFilterIPM.cpp: checkTermination, accept_line_search_conditions"]}
{"id": "C67", "title": "The dense factorization reports the true number of negative eigenvalues", "statement": "When the dense symmetric indefinite solver factors a matrix and reports a number of negative eigenvalues, this is the number of negative eigenvalues of the matrix and the matrix is nonsingular; a singular matrix or a failed factorization is reported as such; the report does not depend on the pivot order.", "quantifier": "all symmetric matrices of all sizes and all pivot sequences", "why_tests_cant": "the inertia is read off 1x1 and 2x2 pivot blocks; tests try a few matrices and cannot enumerate pivot sequences", "anchors": ["src/LinAlg/hiopLinSolverSymDenseLapack.hpp: matrixChanged", "src/Optimization/hiopFactAcceptor.cpp: requireReFactorization"]}
{"id": "C68", "title": "Least-squares multipliers minimise the dual infeasibility", "statement": "When multipliers are computed by least squares (at the start, or after a step with dualsUpdateType=lsq), they minimise the Euclidean norm of the gradient of the Lagrangian at the current point over all multipliers, a failure of the linear solver is reported and leaves the multipliers unchanged, and initial multipliers never exceed duals_lsq_ini_max.", "quantifier": "all gradients, Jacobians, bound multipliers, sizes and contents left in the matrix object", "why_tests_cant": "minimality over all multipliers is a statement about infinitely many competitors; tests compare final objective values", "anchors": ["src/Optimization/hiopDualsUpdater.cpp: go, do_lsq_update", "src/Optimization/hiopDualsUpdater.hpp: compute_initial_duals_eq", "src/Optimization/hiopAlgFilterIPM.cpp: run"]}
{"id": "C69", "title": "Starting multipliers supplied by the user mean what the user says", "statement": "When the user supplies multipliers with the starting point, the solver starts from the multipliers of the same constraints: if they make the gradient of the user's Lagrangian zero, the solver's own starting stationarity residual is zero; in particular the multipliers reported by one solve can be used to start the next.", "quantifier": "all problems, splittings into equalities and inequalities, multipliers, gradients and Jacobians, with and without scaling", "why_tests_cant": "the solver scales the functions only for large gradients and splits the multipliers; a wrong factor only slows the solver down, so a test that checks the final objective passes", "anchors": ["src/Optimization/hiopNlpFormulation.cpp: get_starting_point, apply_scaling, user_callback_solution", "src/Optimization/hiopAlgFilterIPM.cpp: startingProcedure"]}
{"id": "C70", "title": "The starting point is made of what the user supplied or of defaults", "statement": "Whatever the user's starting-point methods answer (all, primal only, or nothing; with or without warm start; with or without removed fixed variables), the solver starts from the supplied values, moved into the bounds unless warm-started, and from defaults for everything not supplied; it never reads values nobody wrote and never lets the user write outside an array.", "quantifier": "all answers of the user's methods that follow the documentation, all sizes, masks of removed variables and numerical steps", "why_tests_cant": "combinations of answers and options; reading unwritten memory goes unnoticed in tests when the memory happens to hold zeros", "anchors": ["src/Optimization/hiopNlpFormulation.cpp: get_starting_point, get_warmstart_point", "src/Optimization/hiopAlgFilterIPM.cpp: startingProcedure", "src/Interface/hiopInterface.hpp: get_starting_point, get_warmstart_point"]}
{"id": "C71", "title": "The recourse approximation is consistent and touches the recourse at the current point", "statement": "The approximation object handed to the master problem of the primal decomposition adds a value, a gradient and a curvature that belong to one quadratic: the gradient is the derivative of the value and the curvature its second derivative, at every point; at the point it was built at it adds exactly the given value and gradient; with nonnegative curvature it is convex; and evaluations in any order do not influence each other.", "quantifier": "all coupling patterns, points, directions, values, gradients, curvatures and sequences of calls", "why_tests_cant": "a derivative identity at all points and independence of all call sequences; tests compare the final objective of one small problem", "anchors": ["src/Interface/hiopInterfacePrimalDecomp.cpp: RecourseApproxEvaluator::eval_f, eval_grad, eval_hess", "src/LinAlg/hiopVectorPar.cpp: copy_from_indexes, axpy"]}
{"id": "C72", "title": "The primal decomposition reports the objective of the problem being solved", "statement": "In every iteration of the primal-decomposition solver the objective printed is basecase(x) + 1/S sum r_i(x) at the current point, with r_i evaluated at the coupled variables in the order given by the user, and the approximation handed to the master has this value and the corresponding gradient at the current point; a recourse term whose evaluation fails is not used.", "quantifier": "all base cases, recourse terms, coupling lists, curvature rules, master solutions and numbers of iterations", "why_tests_cant": "the base case is recovered by subtracting the previous approximation from the master's objective; agreement over all iterations and all curvature rules is an invariant, not a sample", "anchors": ["src/Optimization/hiopAlgPrimalDecomp.cpp: run_single, HessianApprox::compute_base, update_hess_coeff", "src/Interface/hiopInterfacePrimalDecomp.hpp: hiopInterfacePriDecProblem"]}
{"id": "C73", "title": "The primal decomposition stops only at stationary points of the whole objective", "statement": "When the master problems are solved to stationarity, the gradient-based convergence measure of the primal decomposition is the norm of the gradient of basecase(x) + 1/S sum r_i(x) relative to the recourse gradient, and the function-based one is the change of the objective the master minimised; so a vanishing measure means a stationary point.", "quantifier": "all smooth base cases and recourse terms, coupling patterns, curvature rules and iterations", "why_tests_cant": "the measures are computed from stored differences and a coefficient that changes between iterations; a test that converges does not tell which coefficient was used", "anchors": ["src/Optimization/hiopAlgPrimalDecomp.cpp: HessianApprox::check_convergence_grad, check_convergence_fcn, get_alpha_f, run_single, stopping_criteria"]}
{"id": "C74", "title": "Dense matrix products equal the products of the whole matrices", "statement": "Every product of a dense matrix (timesVec, transTimesVec, timesMat, transTimesMat, timesMatTrans) leaves beta times the old target plus alpha times the exact product in the target, the same on every rank when the columns are spread over ranks in any way (ranks without columns included), for every size including zero and for targets holding unused rows, which keep their values.", "quantifier": "all numbers of ranks, distributions of columns, sizes, alpha, beta, contents of target and spare rows", "why_tests_cant": "tests run one or two shapes with constant entries, so index order, leading dimensions and the rank on which beta is applied cancel out; zero-size parts of a distribution are never generated", "anchors": ["src/LinAlg/hiopMatrixDenseRowMajor.cpp: timesVec, timesVec_local, transTimesVec, timesMat, transTimesMat, timesMatTrans"]}
{"id": "C75", "title": "Dense matrix updates change exactly the entries they name", "statement": "Appending, copying, shifting and replacing rows, copying blocks, setting constants, scaling rows, adding diagonals, parts of diagonals, matrices and (transposed) upper triangles change exactly the documented entries to exactly the documented values, keep all others including unused rows, and stay inside the arrays for all arguments that satisfy the documented conditions.", "quantifier": "all sizes, row counts, capacities, offsets, index lists and values", "why_tests_cant": "overlapping moves and offset arithmetic go wrong only for particular combinations of sizes and offsets; a test compares one combination with constant data", "anchors": ["src/LinAlg/hiopMatrixDenseRowMajor.cpp: appendRow, copyFrom, copyRowsFrom, copyBlockFromMatrix, copyFromMatrixBlock, shiftRows, replaceRow, addDiagonal, addSubDiagonal, addMatrix, transAddToSymDenseMatrixUpperTriangle, addUpperTriangleToSymDenseMatrixUpperTriangle, scale_row, symmetrize"]}
{"id": "C76", "title": "The restoration Jacobian of distributed dense problems is J - p + n", "statement": "For dense problems over any number of ranks the Jacobian built for the feasibility restoration, applied to the original variables followed by p and n on the last rank, gives the original Jacobian applied to the original variables minus p plus n, and the Hessian is the original one plus the given diagonal.", "quantifier": "all numbers of ranks, column distributions, numbers of equalities and inequalities (one of them may be zero), values", "why_tests_cant": "the blocks lie at offsets depending on the distribution and on both constraint counts; restoration is rarely entered in tests and there on one rank", "anchors": ["src/LinAlg/hiopMatrixDenseRowMajor.cpp: set_Jac_FR, set_Hess_FR, alloc_clone, new_copy"]}
{"id": "C77", "title": "Largest absolute values of a distributed dense matrix are true maxima", "statement": "The largest absolute value reported for a dense matrix or for one of its rows bounds every entry on every rank and is attained by one of them, independently of the distribution of columns.", "quantifier": "all numbers of ranks, distributions including empty ones, sizes, rows and values", "why_tests_cant": "independence of the distribution quantifies over all distributions", "anchors": ["src/LinAlg/hiopMatrixDenseRowMajor.cpp: max_abs_value, row_max_abs_value"]}
{"id": "C78", "title": "Directions accepted without inertia information go downhill", "statement": "When the solver works without inertia information (fact_acceptor=inertia_free), a search direction is accepted only if the curvature of the regularized barrier Lagrangian along it is at least neg_curv_test_fact times its squared length; hence at a feasible point the barrier function decreases along every accepted direction; after at most ten refactorizations the search for a direction ends, and a failure is handled by the safe mode.", "quantifier": "all problems, iterates, regularization histories, linear solver answers, and KKT formulations", "why_tests_cant": "the implication from the curvature test to descent is an identity in all data; memory that is never written happens to hold zeros in tests", "anchors": ["src/Optimization/hiopKKTLinSys.cpp: hiopKKTLinSysCompressed::test_direction, hiopKKTLinSysFull::test_direction", "src/Optimization/hiopAlgFilterIPM.cpp: compute_search_direction_inertia_free", "src/Optimization/hiopKKTLinSysMDS.cpp: update"]}
{"id": "C79", "title": "Elastic mode tightens the bounds towards the user's", "statement": "In elastic mode the solver starts from the user's bounds relaxed by elastic_mode_bound_relax_initial and tightens them whenever mu changes: the relaxation always lies between the final and the initial factor, never grows, and equals elastic_mode_bound_relax_final once mu has reached the tolerance; the working bounds therefore shrink monotonically and always contain the user's bounds; a final factor above the initial one is replaced by the defaults, as documented.", "quantifier": "all option values in range, all user bounds (infinite ones included), all barrier parameter histories and iterates", "why_tests_cant": "tests observe single runs with default options; monotonicity and containment must hold for every history and every rounding", "anchors": ["src/Optimization/hiopAlgFilterIPM.cpp: update_log_barrier_params", "src/Optimization/hiopNlpTransforms.cpp: hiopBoundsRelaxer", "src/Optimization/hiopNlpFormulation.cpp: finalizeInitialization, reset_bounds, adjust_bounds, apply_scaling", "src/Utils/hiopOptions.cpp: elastic_mode_bound_relax_initial, elastic_mode_bound_relax_final"]}
{"id": "C80", "title": "The recourse curvature reacts to the quality of the model", "statement": "In the primal decomposition solver, after each master step the factor on the curvature of the recourse model goes up by 4/3 when the whole objective dropped by less than a quarter of what the model predicted, goes down by 3/4 when it dropped by more than three quarters, and is kept otherwise (also when the quotient is not a number); it always stays between its two bounds. In particular a step that made the objective much worse never lowers the curvature.", "quantifier": "all recourse values, gradients, steps, master values and curvature histories, including infinite and NaN quotients", "why_tests_cant": "tests run one master problem to convergence; which way the factor moves for every quotient and rounding is not observable in them", "anchors": ["src/Optimization/hiopAlgPrimalDecomp.cpp: HessianApprox::update_ratio, HessianApprox::update_ratio_tr", "src/Optimization/hiopAlgPrimalDecomp.cpp: run, run_local, run_single"]}
{"id": "C81", "title": "A problem handed to Ipopt through the adapters is the user's problem", "statement": "The adapters that let a problem written for this library be solved by Ipopt give Ipopt the user's constraint values, and triplets that stand for exactly the user's Jacobian and Hessian of the Lagrangian, whichever of the two calling styles the user implements and in whatever order equalities and inequalities are listed; a user function that fails is reported to Ipopt as failed; and the outcome Ipopt reports is the outcome the user is told.", "quantifier": "all sizes, all orders of equalities and inequalities, all points, multipliers, sparse patterns (with repeated positions) and both calling styles, dense, mixed dense-sparse and sparse problems", "why_tests_cant": "tests run three drivers whose equalities come first; other orders, failing callbacks and other outcomes never occur in them", "anchors": ["src/Drivers/IpoptAdapter/IpoptAdapter.hpp: hiopDenseCons2IpoptTNLP, hiopMDS2IpoptTNLP, hiopSparse2IpoptTNLP", "src/Interface/hiopInterface.hpp: eval_cons, eval_Jac_cons, eval_Hess_Lagr, solution_callback"]}
{"id": "C82", "title": "A compound vector is the concatenation of its parts", "statement": "A compound vector built from existing vectors (the twelve blocks of an iterate or residual, or parts added one at a time) behaves as the single vector obtained by writing its parts one after the other: every method that changes it, every norm, sum, dot product, count, logical test, step length and projection gives what the same method of an ordinary vector gives on the concatenated data, whatever the number and sizes of the parts and their distribution over ranks.", "quantifier": "all numbers and sizes of parts (empty ones included), all distributions, all entries; changing methods and step lengths in any arithmetic including binary64", "why_tests_cant": "the library's vector tests never build a compound vector; agreement must hold for every partition and every method", "anchors": ["src/LinAlg/hiopVectorCompoundPD.cpp: all methods", "src/LinAlg/hiopVectorCompoundPD.hpp: addVector", "src/LinAlg/hiopKrylovSolver.cpp", "src/Optimization/hiopKKTLinSys.cpp: hiopMatVecKKTFullOpr"]}
{"id": "C83", "title": "The measure of infeasibility by which steps are judged is zero only at feasible points", "statement": "The number the line search and the filter use as 'infeasibility' is never negative, is at least every single violation of an equality and every single distance between an inequality's slack variable and its value, is at least the feasibility error tested for termination, is zero exactly when all of these vanish, and is NaN exactly when one of them is undefined - rounding can neither hide a violation nor invent one.", "quantifier": "all numbers of equalities and inequalities and all their values: exact, and all binary64 values including infinities and NaN", "why_tests_cant": "no test evaluates the measure at points whose violations cancel, underflow or are NaN; the claim is about every sum of rounded differences", "anchors": ["src/Optimization/hiopResidual.cpp: compute_nlp_infeasib_onenorm, update", "src/Optimization/hiopResidual.hpp: get_theta", "src/Optimization/hiopAlgFilterIPM.cpp: run, accept_line_search_conditions"]}
{"id": "C84", "title": "The moving limits bound every step", "statement": "With moving_lim_abs = L > 0 no trial point of the line search moves any variable by more than L; with moving_lim_rel = r the line search starts from r times the fraction-to-boundary step; if both are given the absolute one counts; with neither the step is the fraction-to-boundary step; and a limit never makes a step longer, so the point stays within the fraction-to-boundary rule.", "quantifier": "all limits, points, directions, distributions over ranks, fraction-to-boundary steps, numbers of backtracking steps, and second-order corrections", "why_tests_cant": "no test sets either option; the claim is about every direction and step length", "anchors": ["src/Optimization/hiopAlgFilterIPM.cpp: ensure_moving_lims, run, apply_second_order_correction", "src/Utils/hiopOptions.cpp: moving_lim_abs, moving_lim_rel"]}
{"id": "C85", "title": "The options file means what its lines say", "statement": "Reading an options file has the effect of one setter call per line, in the order of the lines: a line whose first two words are the name of an option and a value sets that option, whatever white space surrounds the words and whatever follows them; blank lines, comments starting with #, lines with a single word, unknown names and values that are not of the option's type change nothing; text values are compared and stored in lower case.", "quantifier": "all files (any number of lines, any characters), all values of the numeric readers, all build configurations", "why_tests_cant": "tests read a handful of hand-written files; which lines take effect is a statement about every text", "anchors": ["src/Utils/hiopOptions.cpp: load_from_file, ltrim, SetStringValue, SetIntegerValue, SetNumericValue"]}
{"id": "C86", "title": "MA57 is given the matrix the user factorizes, and the factorization ends", "statement": "With MA57 as the linear solver, every factorization is about the current matrix and every solve about the matrix last factorized: the triplets given to MA57 denote the symmetric matrix stored in full or by one triangle, after any sequence of changes of the matrix, factorizations and solves; and each factorization ends, growing the workspaces as requested, with the number of negative eigenvalues MA57 reports or -1 for a rank deficient matrix.", "quantifier": "all matrices in CSR and triplet format, all sequences of updates, factorizations and solves, all answers of the factorization routine", "why_tests_cant": "MA57 is a licensed library absent from the public tests; the claim is about every sparsity pattern, every sequence of calls and every workspace request", "anchors": ["src/LinAlg/hiopLinSolverSymSparseMA57.cpp: constructor_part, firstCall, matrixChanged, solve", "src/LinAlg/hiopLinSolverSymSparseMA57.hpp: hiopLinSolverSparseCsrMa57, fill_triplet_index_arrays, fill_triplet_values_array, get_triplet_values_array"]}
{"id": "C87", "title": "A mixed dense-sparse matrix behaves as the matrix its two blocks stand for", "statement": "For problems with sparse and dense variables, the Jacobian object is the matrix [S D] and the Hessian object the symmetric matrix diag(S, D): products with vectors, products with transposes, scaling of rows, adding to the upper triangle of the linear system's matrix and building the restoration problem's Jacobian give what the same operation on that single matrix gives, with the given factors.", "quantifier": "all numbers of rows, sparse and dense columns, all sparsity patterns, entries, factors, offsets and vectors", "why_tests_cant": "the matrix tests use fixed sizes and constant entries, with factors and row vectors for which skipped factors do not show", "anchors": ["src/LinAlg/hiopMatrixMDS.hpp: hiopMatrixMDS, hiopMatrixSymBlockDiagMDS", "src/LinAlg/hiopMatrixMDS.cpp: set_Jac_FR"]}
{"id": "C88", "title": "The linear systems saved with write_kkt are the ones that were solved", "statement": "With the option write_kkt, the k-th saved file holds the k-th matrix that was built in the documented format (sizes, row pointers, columns, values), followed by every right-hand side and solution used with it, in order; loading the file with the documented script gives the symmetric matrix, the right-hand sides and the solutions of the linear systems that were solved.", "quantifier": "all sequences of matrix builds and solves, all dense and triplet matrices of any size and sparsity pattern, all vectors", "why_tests_cant": "no test reads the files back; the claim is about every matrix, every value that must survive the printing and every order of builds and solves", "anchors": ["src/Utils/hiopCSR_IO.hpp: hiopCSR_IO, writeMatToFile, writeSpMatToFile, writeRhsToFile, writeSolToFile", "src/LinAlg/csr_iajaaa.md", "src/LinAlg/load_kkt_mat.m", "src/Optimization/hiopKKTLinSysDense.hpp", "src/Optimization/hiopKKTLinSysSparse.cpp", "src/Optimization/hiopKKTLinSysSparseNormalEqn.cpp", "src/Optimization/hiopKKTLinSysSparseCondensed.cpp"]}
{"id": "C89", "title": "Second-order corrections correct the constraint violation of the trial points", "statement": "When a trial step is rejected and second-order corrections are tried, each corrected direction solves the Newton system of the current point with the violation of the constraints replaced by the violations at the current, the rejected and the earlier corrected points, weighted by the products of the step lengths taken since; constraints that are affine are not changed by a correction; at most max_soc_iter corrections are made; an accepted corrected step, of variables and multipliers, respects the fraction-to-the-boundary rule.", "quantifier": "all problems, iterates, step lengths, trial points, numbers of corrections and outcomes of the acceptance test", "why_tests_cant": "corrections are tried only in rare iterations of some problems and tests look at final objective values; the claim is about every right-hand side", "anchors": ["src/Optimization/hiopAlgFilterIPM.cpp: apply_second_order_correction", "src/Optimization/hiopResidual.cpp: update_soc, compute_nlp_infeasib_onenorm"]}
{"id": "C90", "title": "The values given to the per-iteration callback are those of the user's problem", "statement": "At every iteration the callback is given the user's objective value, the values of the user's constraints and their multipliers in the user's order, and the bound multipliers and slacks of the current iterate, with the same meaning as in the solution callback; the callback for all internal iterates is given the solver's vectors under their names, with host or device memory.", "quantifier": "all problems (any split into equalities and inequalities), iterates, scalings and memory spaces", "why_tests_cant": "tests that implement the callback print the values or ignore them; the claim is about every problem, order of constraints and scaling", "anchors": ["src/Interface/hiopInterface.hpp: iterate_callback, iterate_full_callback", "src/Optimization/hiopNlpFormulation.cpp: user_callback_iterate, user_callback_full_iterate", "src/Optimization/hiopAlgFilterIPM.cpp: run"]}
{"id": "C91", "title": "The sparse linear solver used is the one the options and their documentation name", "statement": "For a sparse problem the linear solver behind every factorization is the one requested by linear_solver_sparse when it is in the build and fits the KKT system and compute mode, and otherwise the first one of the documented order that is in the build; with default options a build with at least one such solver can solve sparse problems.", "quantifier": "all builds (any set of available solvers), option values KKTLinsys, linear_solver_sparse, compute_mode, fact_acceptor, and safe mode on or off", "why_tests_cant": "a test binary is one build and runs a handful of option combinations; the choice depends on the set of compiled-in solvers", "anchors": ["src/Optimization/hiopKKTLinSysSparse.cpp: determineAndCreateLinsys (three classes)", "src/Optimization/hiopKKTLinSysSparseCondensed.cpp: determine_and_create_linsys", "src/Optimization/hiopKKTLinSysSparseNormalEqn.cpp: determine_and_create_linsys", "src/Utils/hiopOptions.cpp: register_options, ensure_consistence", "src/Optimization/hiopAlgFilterIPM.cpp: decideAndCreateLinearSystem"]}
{"id": "C92", "title": "linsol_mode decides over the whole run between stable and fast linear solves", "statement": "With 'stable' every factorization of a run uses the stable linear solve, with 'forcequick' none does; with 'speculative' a failed fast solve is repeated with a more stable one, the run returns to the fast one after a number of iterations that doubles each time, and switching changes nothing else the user has set.", "quantifier": "all sequences of barrier parameters and outcomes of the linear solves and line searches, all builds and options", "why_tests_cant": "switching depends on long histories of failures inside a run, which tests cannot provoke at will", "anchors": ["src/Optimization/hiopAlgFilterIPM.cpp: switch_to_safer_KKT, switch_to_fast_KKT, run (linear solve loop)", "src/Optimization/hiopKKTLinSysMDS.cpp: determineAndCreateLinsys", "src/Utils/hiopOptions.cpp: linsol_mode"]}
{"id": "C93", "title": "The dense solve of the quasi-Newton direction is refined to the announced accuracy and reports failures", "statement": "In quasi-Newton mode the multiplier steps solve the dense symmetric system of the constraints: up to three iterative refinements are applied until the residual is below 1e-8, and when the system's matrix is not positive definite (dependent constraints) the computation of the direction reports failure instead of returning values.", "quantifier": "all problem sizes, matrices, right-hand sides, arithmetic (binary64 or exact) and behaviours of the LAPACK routines, all contents of freshly allocated memory", "why_tests_cant": "on well-conditioned test problems the first solve is accurate enough and the refinement and failure branches never decide the result; unset memory often happens to be harmless", "anchors": ["src/Optimization/hiopKKTLinSys.cpp: hiopKKTLinSysLowRank::solveWithRefin, hiopKKTLinSysLowRank::solveCompressed"]}
{"id": "C94", "title": "The refined search direction is the one asked for, meets the documented tolerance and reports failed solves", "statement": "With ir_outer_maxit = 0 the search direction and the success report are those of the linear solve. Otherwise iterative refinement is applied as long as the residual of the full Newton system is larger than min(mu*ir_outer_tol_factor, ir_outer_tol_min); the direction is stored in the object the caller passes, also when several callers (the main iteration, the soft restoration) use the same linear system; a linear solve that fails is reported so that the caller can repeat it in safe mode; an exact linear solve is not changed.", "quantifier": "all sequences of requests, option values, linear systems (also inconsistent or failing ones), right-hand sides and vector kernels", "why_tests_cant": "test problems rarely enter the soft restoration twice in one iteration, use factorizations that succeed and are accurate to the last digits, and look only at the final solution", "anchors": ["src/Optimization/hiopKKTLinSys.cpp: hiopKKTLinSys::compute_directions_w_IR, hiopPrecondKKTOpr::times_vec", "src/LinAlg/hiopKrylovSolver.cpp: hiopBiCGStabSolver::solve", "src/Optimization/hiopAlgFilterIPM.cpp: solve_soft_feasibility_restoration", "src/Utils/hiopOptions.cpp: ir_outer_maxit, ir_outer_tol_factor, ir_outer_tol_min"]}
{"id": "C95", "title": "The initial multipliers of a sparse problem are computed with the solver the user names, and a missing solver does not stop the run", "statement": "Without multipliers from the user, a sparse problem's equality multipliers start at the least-squares values computed with the solver named by duals_init_linear_solver_sparse when it is in the build, under auto with MA57 on the cpu and STRUMPACK with a device when available, otherwise with another solver of the build; when there is no solver, the solve fails or the values exceed duals_lsq_ini_max, they start at zero and the run goes on. The values of other options are adapted where the named solver needs it.", "quantifier": "all builds (any set of available solvers), compute modes, option values and outcomes of the least-squares solve", "why_tests_cant": "a test binary is one build and the choice depends on the set of compiled-in solvers; tests leave the option at its default", "anchors": ["src/Optimization/hiopDualsUpdater.cpp: hiopDualsLsqUpdateLinsysAugSparse::instantiate_linear_solver", "src/Optimization/hiopDualsUpdater.hpp: compute_initial_duals_eq", "src/Optimization/hiopAlgFilterIPM.cpp: startingProcedure", "src/Utils/hiopOptions.cpp: duals_init_linear_solver_sparse, ensure_consistence"]}
