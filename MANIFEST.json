{
 "claims": [
  {
   "property": "C01",
   "status": "proved",
   "theorems": [
    "problem_refines",
    "problem_rejects",
    "running_is_accepted"
   ],
   "note": "All histories of public calls, safety checks enabled; ParameterBlock offsets and numerical content not part of this model."
  },
  {
   "property": "C02",
   "status": "proved",
   "theorems": [
    "remove_parameter_exact",
    "remove_residual_exact"
   ],
   "note": ""
  },
  {
   "property": "C03",
   "status": "proved",
   "theorems": [
    "fast_removal_equivalent"
   ],
   "note": "Safety checks enabled; histories that abort abort alike."
  },
  {
   "property": "C04",
   "status": "proved",
   "theorems": [
    "ownership_exactly_once"
   ],
   "note": "Hypothesis no_reuse: an already destroyed function is not handed over again (the caller would pass a dangling pointer)."
  },
  {
   "property": "C05",
   "status": "proved",
   "theorems": [
    "blocks_disjoint",
    "overlap_rejected",
    "size_change_rejected"
   ],
   "note": ""
  },
  {
   "property": "C06",
   "status": "proved",
   "theorems": [
    "evaluate_keeps_constness",
    "evaluate_restores",
    "evaluate_state_pointer_refuted"
   ],
   "note": "Constness etc. restored always; the complete internal state is restored when Plus Jacobians succeed; otherwise a state pointer may dangle (refuted)."
  },
  {
   "property": "C07",
   "status": "proved",
   "theorems": [
    "lower_bound_last_set",
    "upper_bound_last_set",
    "default_bounds",
    "update_lands_in_box",
    "negative_bound_index_refuted"
   ],
   "note": "Non-negative coordinates, finite points; values at or beyond -/+DBL_MAX may be reported as -/+DBL_MAX. Doubles exact (comparisons only)."
  },
  {
   "property": "C08",
   "status": "proved",
   "theorems": [
    "ordered_groups_refine",
    "ordered_groups_table"
   ],
   "note": "Every history of calls refines a partial map element -> group; the public observers agree with that map."
  },
  {
   "property": "C09",
   "status": "proved",
   "theorems": [
    "reverse_reverses",
    "reverse_twice_restores_order",
    "reverse_overflow_refuted"
   ],
   "note": "Reverse reverses the group order whenever largest group id < INT_MAX; with group INT_MAX it overflows (refuted)."
  },
  {
   "property": "C10",
   "status": "proved",
   "theorems": [
    "parallel_for_each_once",
    "parallel_for_partitioned_each_once"
   ],
   "note": "Every range, thread count, block size >= 1 and schedule; int overflow not modelled."
  },
  {
   "property": "C11",
   "status": "proved",
   "theorems": [
    "thread_ids_exclusive",
    "tokens_exclusive",
    "acquire_blocks_only_if_exhausted"
   ],
   "note": "ParallelFor ids and ThreadTokenProvider tokens."
  },
  {
   "property": "C12",
   "status": "proved",
   "theorems": [
    "parallel_for_each_once",
    "quiet_after_return",
    "never_stuck",
    "schedules_bounded"
   ],
   "note": "Sequentially consistent interleaving of the atomic operations; the memory model is not modelled."
  },
  {
   "property": "C13",
   "status": "proved",
   "theorems": [
    "queue_is_fifo",
    "queue_delivers_once_in_order",
    "no_missed_wakeup",
    "waiter_is_served"
   ],
   "note": "Critical sections are atomic steps; notify_one wakes an arbitrary sleeper; spurious wake-ups allowed."
  },
  {
   "property": "C14",
   "status": "proved",
   "theorems": [
    "pool_executes_each_task_once",
    "pool_never_idle_with_work",
    "pool_destructor_returns"
   ],
   "note": "Tasks terminate and may add further tasks; no outside calls once the destructor has started. A pool without threads drops its tasks (pool_no_threads)."
  },
  {
   "property": "C15",
   "status": "proved",
   "theorems": [
    "partition_optimal",
    "partition_overflow_refuted"
   ],
   "note": "Optimal contiguous partition for every range and cost when twice the total cumulative cost fits an int; without that bound an int overflow is exhibited."
  },
  {
   "property": "C16",
   "status": "proved",
   "theorems": [
    "triangular_index_bijection"
   ],
   "note": "For every n."
  },
  {
   "property": "C17",
   "status": "proved",
   "theorems": [
    "independent_set_ordering_correct",
    "stable_independent_set_ordering_correct",
    "independent_set_ordering_deterministic",
    "self_loop_aborts_refuted"
   ],
   "note": "For graphs without self loops; with a self loop the final CHECK fails (self_loop_aborts_refuted)."
  },
  {
   "property": "C18",
   "status": "proved",
   "theorems": [
    "stable_schur_ordering_correct",
    "schur_ordering_correct"
   ],
   "note": "Programs whose residual blocks have distinct parameter blocks (guaranteed by Problem unless safety checks are disabled)."
  },
  {
   "property": "C19",
   "status": "proved",
   "theorems": [
    "recursive_ordering_correct",
    "recursive_ordering_diverges"
   ],
   "note": ""
  },
  {
   "property": "C20",
   "status": "proved",
   "theorems": [
    "residual_order_correct",
    "residual_order_unused_block_aborts"
   ],
   "note": "Whole function incl. all CHECKs; hypotheses: independent eliminated blocks, each used."
  },
  {
   "property": "C21",
   "status": "proved",
   "theorems": [
    "apply_ordering_correct",
    "apply_ordering_failure_changes_program_refuted"
   ],
   "note": "Success characterised exactly. Failures leave the program unchanged when caused by an unknown element or a count mismatch; the third failure (a program block without a group) can leave a block duplicated, shown by the refuted theorem."
  },
  {
   "property": "C22",
   "status": "proved",
   "theorems": [
    "degree2_forest_correct",
    "degree2_forest_deterministic"
   ],
   "note": "Weights are finite doubles encoded exactly as integers (compared and copied only). Greedy maximality and independence of hash order proved too."
  },
  {
   "property": "C23",
   "status": "proved",
   "theorems": [
    "tr_returns_best",
    "tr_never_worse"
   ],
   "note": "IEEE doubles; all oracles arbitrary. If no accepted cost is below DBL_MAX the user's parameters are untouched."
  },
  {
   "property": "C24",
   "status": "proved",
   "theorems": [
    "tr_terminates"
   ],
   "note": ""
  },
  {
   "property": "C25",
   "status": "partial",
   "theorems": [
    "final_cost_partial",
    "final_cost_refuted"
   ],
   "note": "The full claim is false of the code: a rejected step with a lower cost lowers final_cost. Proved when no rejected step has a cost below the returned one."
  },
  {
   "property": "C26",
   "status": "proved",
   "theorems": [
    "tr_monotonic",
    "tr_nonmonotonic",
    "monotonic_with_inner_refuted"
   ],
   "note": "IEEE arithmetic, including rounding and overflow. Needs inner iterations that do not increase the cost; refuted otherwise."
  },
  {
   "property": "C27",
   "status": "proved",
   "theorems": [
    "tr_feasible"
   ],
   "note": "The box is any set Plus lands in; update_lands_in_box (C07) shows Plus lands in the bounds."
  },
  {
   "property": "C28",
   "status": "proved",
   "theorems": [
    "solve_constant_blocks",
    "solve_failure_restores",
    "solve_success_publishes",
    "solve_preprocessing_failure",
    "solve_memory_safe",
    "solve_ready_again",
    "solve_leaves_dangling_pointer_refuted"
   ],
   "note": "The minimizer is any sequence of its memory operations. solve_leaves_dangling_pointer_refuted shows that the proviso on manifolds is needed."
  },
  {
   "property": "C29",
   "status": "proved",
   "theorems": [
    "lm_radius_bounded",
    "lm_accept_reaction",
    "lm_reject_shrinks",
    "lm_rejections_exact",
    "lm_factor_resets",
    "lm_in_minimizer",
    "lm_solve_radii",
    "lm_radius_positive_refuted",
    "cube_ok"
   ],
   "note": "Exact IEEE arithmetic (rounding, infinities, NaN). The radius alone can underflow to 0 after ~46 consecutive rejections (lm_radius_positive_refuted); inside a solve min_trust_region_radius stops first (lm_in_minimizer). pow(x,3) is any monotone function exact at -1, 0, 1; a finite max radius is assumed."
  },
  {
   "property": "C30",
   "status": "partial",
   "theorems": [
    "dogleg_radius_cap_refuted",
    "dogleg_radius_partial",
    "dogleg_accept_reaction",
    "dogleg_solves_bounded",
    "dogleg_stuck"
   ],
   "note": "The claim is false: max_radius_ is never used after construction (witness theorem). Proved instead: radius never negative or NaN, exact reaction to quality, at most eight linear solves per step, permanent failure once mu reaches its maximum."
  },
  {
   "property": "C31",
   "status": "proved",
   "theorems": [
    "dogleg_three_cases",
    "dogleg_inside",
    "dogleg_decreases_model",
    "subspace_optimal",
    "subspace_root_exists",
    "subspace_step_optimal",
    "subspace_inside_refuted"
   ],
   "note": "Over the reals. The subspace variant is optimal with exact roots; with an inexact root its step can leave the trust region (subspace_inside_refuted)."
  },
  {
   "property": "C32",
   "status": "partial",
   "theorems": [
    "tr_same_point",
    "lm_callback_contract_armijo",
    "lm_callback_contract_wolfe_refuted"
   ],
   "note": "Holds for the trust region minimizer and for line search with Armijo; with the Wolfe search it is false of the code (refuted theorem)."
  },
  {
   "property": "C33",
   "status": "proved",
   "theorems": [
    "armijo_sound",
    "armijo_terminates",
    "armijo_descends",
    "armijo_contracts"
   ],
   "note": "Armijo search in IEEE arithmetic with arbitrary evaluator; the polynomial minimizer is an arbitrary function, assumed to stay in its interval only where stated."
  },
  {
   "property": "C34",
   "status": "proved",
   "theorems": [
    "wolfe_sound",
    "wolfe_terminates",
    "wolfe_descends",
    "wolfe_nonfinite_slope_aborts_refuted",
    "wolfe_nonfinite_slope_violates_armijo_refuted",
    "wolfe_success_without_step"
   ],
   "note": "Statement restricted to objectives whose finite costs have finite directional derivatives; the two refuted theorems show what happens without that."
  },
  {
   "property": "C35",
   "status": "proved",
   "theorems": [
    "lm_reports",
    "lm_monotone",
    "lm_best",
    "lm_terminates"
   ],
   "note": "LineSearchMinimizer loop over the modelled line searches. Descent is a hypothesis on the directions (their algebra is C36)."
  },
  {
   "property": "C36",
   "status": "proved",
   "theorems": [
    "lbfgs_direction",
    "bfgs_direction",
    "quasi_newton_spd",
    "quasi_newton_secant",
    "lbfgs_is_bfgs",
    "steepest_descent_descends",
    "ncg_descends",
    "ncg_form",
    "lr_update_without_memory_refuted"
   ],
   "note": "over the reals, for every history of calls"
  },
  {
   "property": "C37",
   "status": "proved",
   "theorems": [
    "evaluate_is_power_sum",
    "differentiate_is_derivative",
    "minimize_sound",
    "minimize_cubic_global",
    "minimize_global",
    "interpolation_exists_unique",
    "interpolation_sound",
    "interpolation_reproduces",
    "minimize_interpolating_global",
    "minimize_interpolating_sound"
   ],
   "note": "Over the reals; LU solve and (degree >= 4) eigenvalue solver are contracts."
  },
  {
   "property": "C38",
   "status": "proved",
   "theorems": [
    "roots_exact",
    "roots_total",
    "quadratic_real",
    "quadratic_complex",
    "quadratic_double_root_refuted"
   ],
   "note": "Over the reals. For a*x^2 the code's second root is 0/0: refuted theorem, see Findings; MinimizePolynomial is unaffected."
  },
  {
   "property": "C39",
   "status": "proved",
   "theorems": [
    "loss_true_derivatives",
    "huber_threshold",
    "loss_at_zero",
    "tolerant_at_zero",
    "robust_shape",
    "robust_monotone"
   ],
   "note": "Over the reals. The Tolerant branch point x=36.7 (jump b ln(1+e^-36.7), below double rounding) and points where the slope is clamped at DBL_MIN are excluded; Arctan needs a>0."
  },
  {
   "property": "C40",
   "status": "proved",
   "theorems": [
    "corrector_total",
    "corrector_gradient",
    "corrector_hessian",
    "corrector_frame",
    "robust_cost_gradient"
   ],
   "note": "Over the reals, for every number of rows and columns and every loss value with rho' >= 0 as the theorems state."
  },
  {
   "property": "C41",
   "status": "proved",
   "theorems": [
    "rb_success",
    "rb_failure",
    "rb_frame",
    "rb_cost_same",
    "rb_gradient",
    "rb_marker_value_refuted",
    "rb_bad_loss_aborts"
   ],
   "note": "exact arithmetic"
  },
  {
   "property": "C42",
   "status": "proved",
   "theorems": [
    "evaluate_succeeds_iff",
    "evaluate_values",
    "evaluate_gradient",
    "evaluate_schedule_independent",
    "evaluate_failure_frame"
   ],
   "note": "Exact arithmetic, dense jacobian; any thread assignment and interleaving of abort tests and block evaluations."
  },
  {
   "property": "C43",
   "status": "proved",
   "theorems": [
    "state_vector_roundtrip",
    "state_vector_roundtrip_variable",
    "state_vector_published",
    "block_offsets",
    "block_ranges_disjoint",
    "is_valid_exact",
    "program_plus_blockwise"
   ],
   "note": "Explicit memory with user arrays and vectors."
  },
  {
   "property": "C44",
   "status": "proved",
   "theorems": [
    "reduced_objective",
    "reduced_contents",
    "reduced_part_of",
    "reduced_failure",
    "reduced_callback"
   ],
   "note": "Real-valued costs; the in-place compaction loops are modelled."
  },
  {
   "property": "C45",
   "status": "proved",
   "theorems": [
    "triplet_bounds_check",
    "triplet_products",
    "triplet_dense_and_norms",
    "triplet_scaled",
    "triplet_rows_appended",
    "triplet_cols_appended",
    "triplet_resized",
    "triplet_diagonal",
    "triplet_zeroed",
    "crs_right_product",
    "crs_left_product",
    "crs_column_norms",
    "crs_scaled",
    "crs_dense",
    "crs_zeroed",
    "conversion_from_triplets",
    "same_products",
    "transposed",
    "rows_deleted",
    "rows_deleted_blocks",
    "rows_appended",
    "append_then_delete",
    "crs_diagonal_matrix",
    "block_diagonal_matrix",
    "to_dense_duplicates_refuted",
    "scale_triangular_refuted",
    "append_rows_block_positions_refuted"
   ],
   "note": "Real arithmetic (no rounding). The exceptions in the statement are the refuted theorems."
  },
  {
   "property": "C46",
   "status": "proved",
   "theorems": [
    "schur_complement_exact",
    "schur_sparse_storage",
    "schur_solve",
    "schur_solve_complete",
    "schur_buffers",
    "schur_one_f_block",
    "schur_inverse_exists"
   ],
   "note": "over the reals; InvertPSDMatrix is any function with w symmetric and m w m = m (shown to exist for every semidefinite m); the solver of the reduced system is any solution of it"
  },
  {
   "property": "C47",
   "status": "proved",
   "theorems": [
    "jets_compute_exact_derivatives",
    "jets_chain_rule",
    "fmax_fmin_tie",
    "fmax_fmin_nan",
    "fdim_nan",
    "pow_negative_base",
    "pow_constant_negative_base",
    "atan2_cbrt_meaning",
    "pow_zero_exponent_refuted",
    "branch_at_tie_refuted"
   ],
   "note": "Exact real arithmetic. Bessel functions, Jets of Jets not modelled. Statement corrected: pow(0,0) and comparison ties excluded, with refutations."
  },
  {
   "property": "C48",
   "status": "proved",
   "theorems": [
    "euclidean_manifold",
    "subset_manifold_accepted",
    "subset_manifold",
    "quaternion_manifold",
    "quaternion_opposite_refuted",
    "sphere_manifold",
    "sphere_minus_itself_refuted",
    "sphere_plus_leaves_refuted",
    "line_manifold",
    "line_plus_minus_projects",
    "line_plus_minus_refuted",
    "line_plus_jacobian_refuted",
    "product_manifold"
   ],
   "note": "over the reals; AutoDiffManifold is not modelled. The _refuted theorems show the restrictions in the statement (not opposite, off the threshold, unit direction, perpendicular offset) are needed."
  },
  {
   "property": "C49",
   "status": "proved",
   "theorems": [
    "C49_product_is_the_quaternion_product",
    "C49_quaternion_to_matrix",
    "C49_quaternion_rotates_points",
    "C49_angle_axis_rotates",
    "C49_angle_axis_agrees",
    "C49_angle_axis_round_trips",
    "C49_matrix_to_quaternion",
    "C49_quaternion_matrix_round_trip",
    "C49_matrix_angle_axis_round_trips",
    "C49_arrays",
    "C49_matrix_to_quaternion_any_order_nonnegative_trace",
    "C49_matrix_to_quaternion_eigen_order_refuted",
    "C49_euler_meaning",
    "C49_euler_round_trip",
    "C49_euler_angles_round_trip",
    "C49_euler_degrees",
    "C49_euler_row_stride_refuted"
   ],
   "note": "Over the reals. The claim fails for Eigen's coefficient order with a negative trace (refuted theorem), and row_stride is ignored by EulerAnglesToRotationMatrix."
  },
  {
   "property": "C50",
   "status": "proved",
   "theorems": [
    "cubic_defined",
    "cubic_interpolates",
    "cubic_derivative",
    "cubic_quadratic",
    "cubic_bounded",
    "grid1D_layout",
    "grid2D_layout",
    "grid1D_constant_outside",
    "cubic_jet",
    "bicubic_interpolates",
    "bicubic_derivatives",
    "bicubic_jet",
    "bicubic_biquadratic"
   ],
   "note": "double is R; components of a grid value are independent and modelled one at a time; int arithmetic on sample indices is checked, the products for array offsets are not."
  },
  {
   "property": "C51",
   "status": "proved",
   "theorems": [
    "LinearSolverType_strings",
    "PreconditionerType_strings",
    "SparseLinearAlgebraLibraryType_strings",
    "LinearSolverOrderingType_strings",
    "DenseLinearAlgebraLibraryType_strings",
    "TrustRegionStrategyType_strings",
    "DoglegType_strings",
    "MinimizerType_strings",
    "LineSearchDirectionType_strings",
    "LineSearchType_strings",
    "LineSearchInterpolationType_strings",
    "NonlinearConjugateGradientType_strings",
    "CovarianceAlgorithmType_strings",
    "NumericDiffMethodType_strings",
    "VisibilityClusteringType_strings",
    "TerminationType_strings",
    "LoggingType_strings",
    "DumpFormatType_strings",
    "schur_types",
    "availability"
   ],
   "note": "One theorem per enum: every enumerator prints as its name, a string is accepted exactly when it is a name up to case (then yielding that value) and otherwise the output is untouched, and parsing what was printed gives the value back. TerminationType has no parser. toupper is modelled in the C locale."
  },
  {
   "property": "C52",
   "status": "proved",
   "theorems": [
    "options_accepted_iff_rules_hold",
    "options_rejection_names_violated_rule",
    "options_validation_never_aborts",
    "accepted_options_have_no_nan",
    "accepted_options_pass_later_checks",
    "accepted_options_abort_strategy_refuted"
   ],
   "note": "Acceptance is equivalent to the full table of rules; a rejection names a violated rule. Finding: min_lm_diagonal = 0 is accepted but both trust region strategies then CHECK-fail. Error messages are modelled without the printed option values."
  },
  {
   "property": "C53",
   "status": "proved",
   "theorems": [
    "orderings_unchanged_without_removed_blocks",
    "orderings_unchanged_by_line_search",
    "orderings_effect_of_solve",
    "solve_aborts_iff_ordering_empty",
    "ordering_changed_refuted",
    "single_group_regrouped_refuted",
    "empty_ordering_aborts_refuted"
   ],
   "note": "The unconditional claim that the caller's orderings are unchanged is refuted; the exact effect is proved."
  },
  {
   "property": "C54",
   "status": "proved",
   "theorems": [
    "numdiff_success",
    "numdiff_failure",
    "numdiff_calls",
    "numdiff_residuals_only",
    "numdiff_static_same",
    "numdiff_forward_exact",
    "numdiff_central_exact",
    "numdiff_ridders_exact",
    "numdiff_tableau_exact",
    "numdiff_forward_accuracy",
    "numdiff_central_accuracy",
    "numdiff_static_refuted",
    "numdiff_ridders_none_refuted"
   ],
   "note": "Over R, without rounding. For Ridders' method, that a failing sample point makes Evaluate fail is not claimed, because the method may stop before reaching it."
  },
  {
   "property": "C55",
   "status": "proved",
   "theorems": [
    "ordering_valid_iff",
    "inner_is_coordinate_descent",
    "inner_schedule_independent",
    "set_order_irrelevant",
    "inner_never_increases",
    "inner_leaves_others",
    "dependent_set_refuted",
    "init_undefined_iff"
   ],
   "note": "Tasks of one group interleave step by step on shared parameter blocks and parameter array; the inner trust region minimizer is an arbitrary deterministic machine that reads the blocks of its residuals. Finding: an ordering naming a block outside the problem makes Init dereference end()."
  },
  {
   "property": "C56",
   "status": "proved",
   "theorems": [
    "graph_refines",
    "weighted_graph_refines"
   ],
   "note": ""
  },
  {
   "property": "C57",
   "status": "proved",
   "theorems": [
    "tr_termination_truthful",
    "infinite_cost_converges_refuted",
    "nan_cost_converges"
   ],
   "note": "Tests are stated as 'not above the tolerance', which is what the code checks; with NaN or infinite costs this differs from 'at most the tolerance' (refuted)."
  },
  {
   "property": "C58",
   "status": "proved",
   "theorems": [
    "lm_in_minimizer",
    "lm_accept_abort_refuted",
    "lm_step_decreases_model",
    "lm_step_shrinks"
   ],
   "note": "Abort freedom and freshness in IEEE arithmetic over the full minimizer loop; model decrease over the reals. With inner iterations the CHECK can fail when the quality underflows (lm_accept_abort_refuted)."
  },
  {
   "property": "C59",
   "status": "proved",
   "theorems": [
    "lm_termination_justified",
    "lm_failed_search_converges_refuted"
   ],
   "note": "The tolerance tests hold as computed; the refuted theorem shows that the parameter test can hold because no step was found."
  },
  {
   "property": "C60",
   "status": "proved",
   "theorems": [
    "accepted_options_create_solver",
    "fallback_valid_iff",
    "fallback_aborts_refuted",
    "fallback_invalid_refuted"
   ],
   "note": "The unrestricted claim (every fallback is valid) is refuted; the exact condition is proved."
  },
  {
   "property": "C61",
   "status": "proved",
   "theorems": [
    "static_evaluate_exact",
    "jacobians_do_not_change_residuals",
    "dynamic_equals_static",
    "dynamic_evaluate_exact",
    "dynamic_needs_residuals",
    "dynamic_zero_size_block_refuted",
    "dynamic_many_parameters_refuted"
   ],
   "note": "The functor is an expression over the Jet operations (C47), exact arithmetic. The two refuted theorems show why the provisos are needed."
  },
  {
   "property": "C62",
   "status": "proved",
   "theorems": [
    "cg_result",
    "cg_solves",
    "cg_success",
    "cg_exact_guess_refuted",
    "cg_model_test_refuted"
   ],
   "note": "Over the reals. cg_exact_guess_refuted and cg_model_test_refuted record two ways in which the reported termination type misleads."
  },
  {
   "property": "C63",
   "status": "proved",
   "theorems": [
    "bs_products",
    "bs_norms",
    "bs_scaling",
    "bs_dense_copy",
    "bs_transpose",
    "bs_construct",
    "bs_diagonal",
    "bs_append",
    "bs_delete",
    "bs_restore",
    "view_products",
    "view_diagonals",
    "bs_append_unpacked_refuted",
    "bs_delete_unpacked_refuted"
   ],
   "note": "All structures, values, vectors and interleavings. The appended matrix must store its cells in order (the diagonal matrices the solvers append do); the two _refuted theorems show what happens otherwise."
  },
  {
   "property": "C64",
   "status": "proved",
   "theorems": [
    "normal_equations",
    "isc_products",
    "isc_unique",
    "isc_matrix",
    "isc_preconditioners",
    "iterative_schur",
    "iterative_schur_converges",
    "cgnr_operator",
    "cgnr_jacobi",
    "cgnr",
    "regularised",
    "isc_accumulate_refuted",
    "iterative_schur_stale_refuted"
   ],
   "note": "Real arithmetic; Eigen's LLT inverse is an argument required to invert symmetric definite matrices; the Schur, cluster and subset preconditioners are arguments required to multiply by a symmetric (for convergence definite) matrix. The two _refuted theorems record behaviour outside the claim: the products overwrite instead of accumulating, and a solver used with a second matrix solves the first system."
  },
  {
   "property": "C65",
   "status": "proved",
   "theorems": [
    "compute_dies",
    "compute_blocks",
    "covariance_qr",
    "covariance_svd",
    "exchange",
    "get_matrix",
    "failed_evaluation_refuted",
    "not_requested_refuted",
    "thin_refuted"
   ],
   "note": "Exact reals; Problem::Evaluate, QR and SVD are arguments with the contracts factors and decomposes. Three expectations that the header raises do not hold and are refuted: a failed evaluation is ignored, an unrequested pair can read out of bounds, and DENSE_SVD does not notice that there are fewer rows than columns."
  },
  {
   "property": "C66",
   "status": "proved",
   "theorems": [
    "compressed_created",
    "compressed_repeated",
    "compressed_evaluated",
    "compressed_evaluates",
    "dynamic_evaluated",
    "block_created",
    "block_evaluated",
    "jacobian_same",
    "scratch_safe",
    "e_overflow_refuted",
    "block_overflow_refuted"
   ],
   "note": "For every program, history of evaluations, contents of the scratch areas and interleaving of the stores, the three sparse formats hold the matrix is_jacobian of JacobianSpec.v; layout, bounds and separateness of the stores, creation refused exactly if too large. Two limits of the overflow checks are shown as refutations."
  },
  {
   "property": "C67",
   "status": "proved",
   "theorems": [
    "tiny_descent",
    "tiny_best",
    "tiny_trials",
    "tiny_reports",
    "tiny_status",
    "tiny_work",
    "tiny_reuse",
    "adapter_layout",
    "gradient_documented_refuted",
    "cost_change_documented_refuted",
    "failure_ignored_refuted"
   ],
   "note": "Exact arithmetic; arbitrary function, arbitrary linear solver exact on symmetric positive definite systems, positive initial radius. Evaluation failures are shown to be ignored by the code (refutation)."
  },
  {
   "property": "C68",
   "status": "proved",
   "theorems": [
    "matrix_matrix",
    "matrix_transpose_matrix",
    "matrix_vector",
    "matrix_transpose_vector",
    "sizes_irrelevant"
   ],
   "note": "Over an arbitrary scalar type with uninterpreted operations; bounds of all three arrays checked. The Eigen variants are not modelled."
  },
  {
   "property": "C69",
   "status": "proved",
   "theorems": [
    "inner_product",
    "inner_structure",
    "inner_memory"
   ],
   "note": "GramModel.v; doubles as reals; small_blas products as sums (C68); cells in increasing column-block order and nonempty column blocks assumed (C66 proves the order for the block writer)."
  },
  {
   "property": "C70",
   "status": "proved",
   "theorems": [
    "conditioned_evaluates",
    "conditioned_differentiates",
    "normal_prior",
    "functor_jets",
    "functor_chain",
    "functor_doubles",
    "conditioned_ownership",
    "functor_parameters",
    "conditioned_shared_refuted",
    "functor_residuals_refuted"
   ],
   "note": "scalars real; wrapped functions are arbitrary functions on one flat memory meeting the Evaluate contract; two further findings refuted by the code"
  },
  {
   "property": "C71",
   "status": "proved",
   "theorems": [
    "compute_visibility",
    "schur_complement_graph",
    "single_linkage",
    "canonical_views",
    "flatten_membership",
    "cluster_cameras_single_linkage",
    "cluster_cameras_canonical_views",
    "invalid_views_refuted"
   ],
   "note": "For every iteration order of the hash containers. Weights are real. A view of NaN weight is not ignored (invalid_views_refuted); the preconditioner never creates one."
  },
  {
   "property": "C72",
   "status": "proved",
   "theorems": [
    "preconditioner_cells",
    "jacobi_cluster_pairs",
    "tridiagonal_cluster_pairs",
    "cluster_jacobi_positive_definite",
    "cluster_tridiagonal_positive_definite",
    "unscaled_tridiagonal_refuted",
    "update_reports",
    "update_succeeds"
   ],
   "note": "Real arithmetic; the Schur complement in the stored cells is that of C46, the factorization is an oracle. unscaled_tridiagonal_refuted shows that the scaling is needed, as the code's comment says."
  },
  {
   "property": "C73",
   "status": "proved",
   "theorems": [
    "least_squares_unique",
    "dense_normal_cholesky",
    "dense_qr",
    "sparse_normal_cholesky",
    "sparse_refinement",
    "direct_solvers_agree",
    "dense_refinement_full",
    "dense_refinement_in_place_refuted",
    "dense_refinement_copy_refuted",
    "contracts_met"
   ],
   "note": "exact arithmetic; library factorizations are oracles whose contract is shown to be satisfiable; calls of one sparse solver all with or all without a diagonal; refinement of the dense normal equations is refuted"
  },
  {
   "property": "C74",
   "status": "proved",
   "theorems": [
    "detected_sizes",
    "best_specialization",
    "restricted_specialization",
    "chosen_sizes_suit",
    "reported_sizes",
    "one_f_block_choice",
    "empty_rows_refuted",
    "all_rows_empty_refuted",
    "restricted_report_refuted"
   ],
   "note": "for non-empty blocks; the exceptions are refuted"
  },
  {
   "property": "C75",
   "status": "proved",
   "theorems": [
    "probe_verdict",
    "probe_results",
    "normal_errors_ignored",
    "wrapper_transparent",
    "checked_solve",
    "error_keeps_parameters",
    "problem_copied",
    "callback_kept_refuted",
    "unchecked_problem_refuted",
    "updated_despite_failure_refuted",
    "failing_manifold_refuted"
   ],
   "note": "The parts of the user's expectations that the code does not keep are excluded in the statement and shown by the _refuted theorems."
  },
  {
   "property": "C76",
   "status": "proved",
   "theorems": [
    "gps_options_accepted_iff",
    "gps_rejected",
    "gps_usable_solution",
    "gps_unusable_solution",
    "gps_callbacks_see",
    "gps_usable_best",
    "gps_terminates",
    "gp_evaluate_cost",
    "gradient_problem_gradient",
    "gradient_problem_euclidean",
    "gradient_problem_sizes",
    "gps_failure_changes_parameters_refuted"
   ],
   "note": "GpsProps.v, GpgProps.v. Doubles with IEEE arithmetic for the solver, reals for the gradient. Termination and the best cost under the hypotheses of C35 about directions and line searches. A failed solve is not undone if update_state_every_iteration is set (gps_failure_changes_parameters_refuted); the statement says so."
  },
  {
   "property": "C77",
   "status": "proved",
   "theorems": [
    "pev_evaluate",
    "pev_aborts_iff_unknown",
    "pev_history_independent",
    "pev_nothing_asked",
    "pev_residual_block",
    "pev_residual_block_rejected_aborts",
    "pev_history",
    "pev_rejected_leaves_dangling_refuted"
   ],
   "note": "Real numbers; the evaluation of one residual block is an arbitrary function of the values and of the manifold Jacobians (C41); the threads are those of the evaluator model of C26. The stronger claim that evaluations never read freed memory, also after a manifold has rejected the values, is refuted by pev_rejected_leaves_dangling_refuted."
  },
  {
   "property": "C78",
   "status": "proved",
   "theorems": [
    "ust_terminates",
    "ust_rounds",
    "ust_update_best",
    "ust_no_update",
    "ust_no_update_evaluation_callback",
    "ust_after",
    "ust_no_influence",
    "ust_minimize",
    "ust_untouched_refuted"
   ],
   "note": "For all evaluators, strategies, line searches, inner iterations, clocks and callbacks that read but do not write the parameter blocks; accepting: the manifolds accept the initial values and every point that can be evaluated (otherwise the blocks hold a mixture). ust_untouched_refuted: with an EvaluationCallback the blocks change although update_state_every_iteration is false."
  },
  {
   "property": "C79",
   "status": "proved",
   "theorems": [
    "adf_objective",
    "adf_objective_same_value",
    "adf_tiny",
    "adf_tiny_stateless",
    "adf_plus_jacobian",
    "adf_minus_jacobian",
    "adf_manifold_inverse",
    "ndf_success",
    "ndf_failure",
    "ndf_value",
    "ndf_calls",
    "ndf_sizes_alike",
    "ndf_forward_exact",
    "ndf_central_exact",
    "adf_adapter_constructed",
    "adf_adapter",
    "adf_adapter_unchecked_refuted"
   ],
   "note": "Real arithmetic (NaN as a separate value), functors as expressions over the Jet operations for automatic differentiation and arbitrary functions for numeric differentiation. Ridders' method may succeed without needing all its points, hence the restriction in ndf_failure."
  },
  {
   "property": "C80",
   "status": "proved",
   "theorems": [
    "bra_construct",
    "bra_cells",
    "bra_history",
    "bra_history_later",
    "bra_tail",
    "bra_eliminate",
    "bra_symmetric_multiply",
    "bra_invert_multiply",
    "bra_schur_jacobi",
    "bra_explicit_schur",
    "bra_cholesky_exists",
    "bra_overflow_refuted"
   ],
   "note": "double is R; the parallel loops are any order of the blocks, threads any interleaving of whole block updates (each is made under the lock of its pair, which bra_cells shows distinct); Eigen's LLT is an oracle that inverts positive definite matrices. bra_overflow_refuted shows the one way in which construction fails for legal sizes."
  },
  {
   "property": "C81",
   "status": "proved",
   "theorems": [
    "prep_schur",
    "prep_schur_structure",
    "prep_schur_solution",
    "prep_sparse",
    "prep_subset",
    "prep_pattern",
    "prep_mismatch",
    "prep_ordering_failure_refuted",
    "prep_one_group_mismatch_refuted"
   ],
   "note": "The fill reducing algorithms and std::partition are arguments that may return anything their documentation allows. prep_schur_structure and prep_schur_solution connect the prepared program to the block Jacobian writer (C66) and Schur elimination (C46). The two refuted theorems show what is not noticed: a failed ordering call, and a one group ordering with the right number of wrong blocks (ruled out by IsOrderingValid)."
  },
  {
   "property": "C82",
   "status": "proved",
   "theorems": [
    "gpu_view",
    "gpu_update",
    "gpu_writes",
    "gpu_partitioned",
    "gpu_gap_undefined",
    "gpu_partitioned_f_refuted",
    "gpu_gap_refuted"
   ],
   "note": "Whole view and E: the CRS matrix is the block sparse matrix for every thread order and batch size; F exactly when its values need no permutation, otherwise it is the matrix with values shifted by the nonzeros of E (witness). Construction undefined for every structure with a gap (general theorem and witness). Row blocks without cells excluded; int overflow, stream overlap and cuSPARSE not modelled."
  },
  {
   "property": "C83",
   "status": "proved",
   "theorems": [
    "stb_accepted",
    "stb_stream",
    "stb_ends",
    "stb_staging",
    "stb_inside",
    "stb_batch",
    "stb_again"
   ],
   "note": "Every interleaving of the host with the streams, element by element; CUDA errors and int overflow are not modelled."
  },
  {
   "property": "C84",
   "status": "proved",
   "theorems": [
    "spc_pattern",
    "spc_ordering",
    "spc_block_ordering",
    "spc_view",
    "spc_suitesparse_history",
    "spc_eigen_history",
    "spc_suitesparse_message",
    "spc_suitesparse_message_refuted"
   ],
   "note": "CHOLMOD and Eigen are oracles that satisfy a stated contract; the single precision variants differ only in the values, which are abstract."
  },
  {
   "property": "C85",
   "status": "proved",
   "theorems": [
    "subset_updates",
    "subset_definite",
    "subset_damped",
    "subset_extremes",
    "subset_accumulate_refuted",
    "subset_mixed_refuted"
   ],
   "note": "Updates all with or all without a diagonal (as the iterative solvers call it); exact arithmetic and a factorisation that meets its contract. Without that condition it is false: subset_mixed_refuted. That the call overwrites its output although its name says accumulate is subset_accumulate_refuted."
  },
  {
   "property": "C86",
   "status": "proved",
   "theorems": [
    "dsn_solves",
    "dsn_libraries_agree",
    "dsn_failure_not_zero",
    "dsn_contracts_met"
   ],
   "note": "Exact arithmetic; the sparse libraries are oracles with a stated contract; a Jacobian with blocks has nonempty blocks that cover its rows and columns."
  },
  {
   "property": "C87",
   "status": "proved",
   "theorems": [
    "exs_statistics",
    "exs_schedule_free",
    "exs_progress",
    "exs_finishes",
    "exs_bounded"
   ],
   "note": "Sequentially consistent steps, exact counters; the clock readings are arbitrary."
  },
  {
   "property": "C88",
   "status": "proved",
   "theorems": [
    "pvo_assign",
    "pvo_set_zero",
    "pvo_schedule_free",
    "pvo_sizes",
    "pvo_shift_refuted"
   ],
   "note": "Rests on the ParallelFor model of C10. Expressions that read other positions of the vector are outside of the claim (pvo_shift_refuted)."
  },
  {
   "property": "C89",
   "status": "proved",
   "theorems": [
    "red_dot",
    "red_norm",
    "red_schedule_free",
    "red_race_free",
    "red_finishes"
   ],
   "note": "Exact arithmetic; both vectors have the same number of rows."
  }
 ]
}
