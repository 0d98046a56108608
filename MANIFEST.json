{
 "claims": [
  {
   "property": "C01",
   "status": "proved",
   "theorems": [
    "C01_tree_path",
    "C01_tree_path_ancestor"
   ],
   "note": ""
  },
  {
   "property": "C02",
   "status": "proved",
   "theorems": [
    "C02_clique_order"
   ],
   "note": ""
  },
  {
   "property": "C03",
   "status": "proved",
   "theorems": [
    "C03_eliminated_once"
   ],
   "note": ""
  },
  {
   "property": "C04",
   "status": "proved",
   "theorems": [
    "C04_fill_in_closed",
    "C04_lookup_total"
   ],
   "note": ""
  },
  {
   "property": "C05",
   "status": "proved",
   "theorems": [
    "C05_permutation"
   ],
   "note": ""
  },
  {
   "property": "C06",
   "status": "proved",
   "theorems": [
    "C06_analysis_succeeds",
    "C06_empty_first_clique_throws"
   ],
   "note": ""
  },
  {
   "property": "C07",
   "status": "proved",
   "theorems": [
    "C07_storage"
   ],
   "note": ""
  },
  {
   "property": "C08",
   "status": "proved",
   "theorems": [
    "C08_kkt_is_sum_of_blocks",
    "C08_kkt_is_sum_of_blocks_no_fill",
    "C08_direct_update_refuted"
   ],
   "note": "The claim holds under the stated proviso; the refuted theorem shows the proviso is needed. Exact arithmetic (reals)."
  },
  {
   "property": "C09",
   "status": "proved",
   "theorems": [
    "C09_assembly_history_independent",
    "C09_storage_history_independent"
   ],
   "note": ""
  },
  {
   "property": "C10",
   "status": "proved",
   "theorems": [
    "C10_only_lower_triangle_read",
    "C10_upper_entry_has_no_effect"
   ],
   "note": ""
  },
  {
   "property": "C11",
   "status": "proved",
   "theorems": [
    "C11_block_cholesky_exact",
    "C11_block_cholesky_total"
   ],
   "note": "Exact arithmetic (reals)."
  },
  {
   "property": "C12",
   "status": "proved",
   "theorems": [
    "C12_cholesky_kkt_solve",
    "C12_factor_total",
    "C12_assemble_factor_solve"
   ],
   "note": "Exact arithmetic (reals)."
  },
  {
   "property": "C13",
   "status": "proved",
   "theorems": [
    "C13_rldlt",
    "C13_flag_order_one_refuted"
   ],
   "note": "Exact arithmetic (reals). Order 0 reads outside the block; it is covered by C14."
  },
  {
   "property": "C14",
   "status": "proved",
   "theorems": [
    "C14_ldlt_kkt_solve",
    "C14_ldlt_exact_when_not_regularized",
    "C14_flag_refuted"
   ],
   "note": "Exact arithmetic (reals). The library's own flag does not report every regularization: C14_flag_refuted."
  },
  {
   "property": "C15",
   "status": "proved",
   "theorems": [
    "C15_refinement_residuals",
    "C15_refinement_keeps_exact_solution",
    "C15_cholesky_refinement_is_identity"
   ],
   "note": "Exact arithmetic (reals)."
  },
  {
   "property": "C16",
   "status": "proved",
   "theorems": [
    "C16_residuals_are_sums",
    "C16_assembled_rhs_are_sums"
   ],
   "note": "Exact arithmetic (reals)."
  },
  {
   "property": "C17",
   "status": "proved",
   "theorems": [
    "C17_dimension",
    "C17_solve_dimension_check"
   ],
   "note": ""
  },
  {
   "property": "C18",
   "status": "proved",
   "theorems": [
    "C18_validation",
    "C18_acceptance",
    "C18_negative_index"
   ],
   "note": ""
  },
  {
   "property": "C19",
   "status": "proved",
   "theorems": [
    "C19_multipliers",
    "C19_rows",
    "C19_created",
    "C19_early_equality_refuted",
    "C19_lvalue_refuted"
   ],
   "note": ""
  },
  {
   "property": "C20",
   "status": "proved",
   "theorems": [
    "C20_constraints_persist",
    "C20_failure_is_noop",
    "C20_quadratic_cost_refuted"
   ],
   "note": ""
  },
  {
   "property": "C21",
   "status": "proved",
   "theorems": [
    "C21_before_solve",
    "C21_after_solve",
    "C21_right_after_solve",
    "C21_always_fails_refuted"
   ],
   "note": "The numeric part of a solve is an arbitrary outcome here."
  },
  {
   "property": "C22",
   "status": "proved",
   "theorems": [
    "C22_identifier",
    "C22_sparse_lmi_refuted"
   ],
   "note": ""
  },
  {
   "property": "C23",
   "status": "proved",
   "theorems": [
    "C23_linear_cost",
    "C23_status_refuted"
   ],
   "note": "Exact real arithmetic."
  },
  {
   "property": "C24",
   "status": "proved",
   "theorems": [
    "C24_updates",
    "C24_rejected_is_noop",
    "C24_linear_column_out_of_bounds",
    "C24_quadratic_negative_out_of_bounds",
    "C24_lmi_negative_out_of_bounds"
   ],
   "note": ""
  },
  {
   "property": "C25",
   "status": "proved",
   "theorems": [
    "C25_conversion",
    "C25_defaults",
    "C25_defaults_refuted"
   ],
   "note": ""
  },
  {
   "property": "C26",
   "status": "proved",
   "theorems": [
    "C26_partition",
    "C26_in_buffer",
    "C26_areas",
    "C26_order_zero_refuted"
   ],
   "note": "Second-order cone of order 0 is the exception named in the statement."
  },
  {
   "property": "C27",
   "status": "proved",
   "theorems": [
    "C27_statistics_in_bounds",
    "C27_sessions_are_sized",
    "C27_scaling_overwritten_refuted",
    "C27_overflow_refuted"
   ],
   "note": "For arbitrary constraint and KKT operations; the refuted theorems are the warm-start half of the statement."
  },
  {
   "property": "C28",
   "status": "proved",
   "theorems": [
    "C28_query",
    "C28_before_solve_undefined"
   ],
   "note": "After a warm start, cell 0 may be unset when the first factorization failed; the theorem says exactly when a cell is known to be written."
  },
  {
   "property": "C29",
   "status": "proved",
   "theorems": [
    "C29_cold_start_binds_all",
    "C29_warm_start_keeps_binding",
    "C29_added_constraint_refuted"
   ],
   "note": ""
  },
  {
   "property": "C30",
   "status": "proved",
   "theorems": [
    "C30_return_value",
    "C30_violated_precondition",
    "C30_untruthful_refuted"
   ],
   "note": ""
  },
  {
   "property": "C31",
   "status": "proved",
   "theorems": [
    "C31_status",
    "C31_no_iterations_undefined"
   ],
   "note": "Reported count under the guard of the statement: a normal exit with at least one completed iteration."
  },
  {
   "property": "C32",
   "status": "proved",
   "theorems": [
    "C32_clamp",
    "C32_clamp_crossed",
    "C32_limits"
   ],
   "note": ""
  },
  {
   "property": "C33",
   "status": "proved",
   "theorems": [
    "C33_step_size",
    "C33_steps_taken",
    "C33_exponential",
    "C33_pade",
    "C33_pade_refuted"
   ],
   "note": "Exponential maps as matrix functions: the Taylor map is positive definite at every Hermitian matrix; the rational map is regular and keeps the scaling point positive definite under the step bound, and fails without it."
  },
  {
   "property": "C34",
   "status": "proved",
   "theorems": [
    "C34_equalities_hold",
    "C34_residual_bound"
   ],
   "note": "Exact if all pivots of multiplier blocks exceed the regularisation threshold; otherwise bounded by the regularisation (without iterative refinement)."
  },
  {
   "property": "C35",
   "status": "proved",
   "theorems": [
    "C35_inequalities_hold",
    "C35_solved_is_feasible",
    "C35_solved_infeasible_refuted"
   ],
   "note": ""
  },
  {
   "property": "C36",
   "status": "proved",
   "theorems": [
    "C36_dual_equation",
    "C36_cone_dual_undefined"
   ],
   "note": "After reported primal infeasibility the equation holds up to a positive factor. C36_cone_dual_undefined: for second-order cones the array that is copied was never written."
  },
  {
   "property": "C37",
   "status": "proved",
   "theorems": [
    "C37_linear_interior",
    "C37_linear_step",
    "C37_prepared_duals_refuted",
    "C37_hermitian",
    "C37_hermitian_affine_refuted",
    "C37_soc_interior",
    "C37_soc_step",
    "C37_quadratic_interior",
    "C37_quadratic_step",
    "C37_soc_prepare_refuted",
    "C37_quadratic_prepare_refuted",
    "C37_soc_unset_affine_refuted"
   ],
   "note": "Linear, Hermitian, second-order and quadratic cones. Any operation sequence from the identity keeps the scaling point in the interior; the refuted results show what preparing without stepping does and that an unset affine term is undefined behaviour."
  },
  {
   "property": "C38",
   "status": "proved",
   "theorems": [
    "C38_interval",
    "C38_tie_refuted",
    "C38_largest_step"
   ],
   "note": "The guard excludes components that are constant and exactly at the bound; for those the upper end is NaN and the claim is refuted. Programs with second-order cones: see C61."
  },
  {
   "property": "C39",
   "status": "proved",
   "theorems": [
    "C39_meets_bound",
    "C39_largest",
    "C39_bound_is_divergence",
    "C39_negative_refuted"
   ],
   "note": "Exact arithmetic; the statement's exception (negative values) is witnessed by C39_negative_refuted."
  },
  {
   "property": "C40",
   "status": "proved",
   "theorems": [
    "C40_same_solutions",
    "C40_moderate_bounds",
    "C40_large_bound_refuted",
    "C40_finite",
    "C40_unit_rows",
    "C40_added"
   ],
   "note": "Exact arithmetic. The result is finite exactly if no used row is zero together with its bound."
  },
  {
   "property": "C41",
   "status": "proved",
   "theorems": [
    "C41_epigraph",
    "C41_epigraph_interior",
    "C41_semidefinite",
    "C41_shortcut"
   ],
   "note": "Exact real arithmetic, every order, every semidefinite cost matrix."
  },
  {
   "property": "C42",
   "status": "proved",
   "theorems": [
    "C42_lossless",
    "C42_indefinite_refuted"
   ],
   "note": "Lossless for every matrix with a nonnegative quadratic form (symmetric or not); false for an indefinite one."
  },
  {
   "property": "C43",
   "status": "proved",
   "theorems": [
    "C43_product",
    "C43_associative",
    "C43_octonions_associative_refuted",
    "C43_conjugate",
    "C43_norm",
    "C43_jordan",
    "C43_quadratic",
    "C43_trace",
    "C43_trace_associative"
   ],
   "note": ""
  },
  {
   "property": "C44",
   "status": "proved",
   "theorems": [
    "C44_square_root",
    "C44_square_root_outside",
    "C44_quadratic_representation",
    "C44_determinant",
    "C44_interior",
    "C44_exponential",
    "C44_spectral",
    "C44_idempotents_refuted",
    "C44_quadratic_root",
    "C44_quadratic_exponential",
    "C44_quadratic_map"
   ],
   "note": "The quadratic-cone versions hold up to the kernel of the semidefinite form. The interior is mapped to itself for nonzero determinant of the map's argument. The returned idempotents are not idempotent for multiples of the identity."
  },
  {
   "property": "C45",
   "status": "proved",
   "theorems": [
    "C45_soc",
    "C45_quadratic",
    "C45_epigraph",
    "C45_quadratic_accumulate_refuted",
    "C45_linear",
    "C45_linear_size_refuted",
    "C45_same_system",
    "C45_same_step"
   ],
   "note": "Accumulate mode adds for linear and second-order constraints and doubles previous content for quadratic ones. A linear block in a larger system loses its inner products in initialize mode."
  },
  {
   "property": "C46",
   "status": "proved",
   "theorems": [
    "C46_ordering",
    "C46_empty_refuted",
    "C46_perfect_test",
    "C46_chordal_test",
    "C46_weighted_reject_refuted",
    "C46_weighted_accept_refuted",
    "C46_path_refuted",
    "C46_max_degree",
    "C46_vertex_zero_refuted"
   ],
   "note": "Integer matrix entries. Chordality is stated by cycles and by orderings."
  },
  {
   "property": "C47",
   "status": "proved",
   "theorems": [
    "C47_congruence",
    "C47_semidefinite",
    "C47_hermitian",
    "C47_definite_refuted",
    "C47_take_step"
   ],
   "note": "C47_take_step gives the scaling after a step by an explicit formula."
  },
  {
   "property": "C48",
   "status": "proved",
   "theorems": [
    "C48_complementarity"
   ],
   "note": ""
  },
  {
   "property": "C49",
   "status": "proved",
   "theorems": [
    "C49_cholesky_iff_positive_definite",
    "C49_factor_iff_positive_definite"
   ],
   "note": "Exact arithmetic (reals)."
  },
  {
   "property": "C50",
   "status": "proved",
   "theorems": [
    "C50_initialisation",
    "C50_empty_first_constraint"
   ],
   "note": "Calls made after an exception has escaped are not modelled."
  },
  {
   "property": "C51",
   "status": "proved",
   "theorems": [
    "C51_first_warm_start",
    "C51_undefined"
   ],
   "note": ""
  },
  {
   "property": "C52",
   "status": "proved",
   "theorems": [
    "C52_positive_spectrum",
    "C52_fallback"
   ],
   "note": "Exact arithmetic."
  },
  {
   "property": "C53",
   "status": "proved",
   "theorems": [
    "C53_listed",
    "C53_well_built"
   ],
   "note": ""
  },
  {
   "property": "C54",
   "status": "proved",
   "theorems": [
    "C54_suboptimality",
    "C54_suboptimality_unscaled"
   ],
   "note": "A second-order cone counts twice."
  },
  {
   "property": "C55",
   "status": "proved",
   "theorems": [
    "C55_completes",
    "C55_hands_back"
   ],
   "note": "In QR mode under qr_ready (regular program, exact QR solutions)."
  },
  {
   "property": "C56",
   "status": "proved",
   "theorems": [
    "C56_norm",
    "C56_schur",
    "C56_gram",
    "C56_octonion_symmetric"
   ],
   "note": "Definiteness for the associative algebras; for octonions symmetry of the block."
  },
  {
   "property": "C57",
   "status": "proved",
   "theorems": [
    "C57_soc_norms",
    "C57_quadratic_norms",
    "C57_soc_slack",
    "C57_quadratic_slack"
   ],
   "note": "Exact real arithmetic."
  },
  {
   "property": "C58",
   "status": "proved",
   "theorems": [
    "C58_soc_newton",
    "C58_quadratic_newton"
   ],
   "note": "Per constraint block; the Newton equations are taken over this constraint alone."
  },
  {
   "property": "C59",
   "status": "proved",
   "theorems": [
    "C59_cones_hold",
    "C59_solved_is_feasible"
   ],
   "note": ""
  },
  {
   "property": "C60",
   "status": "proved",
   "theorems": [
    "C60_complementarity"
   ],
   "note": ""
  },
  {
   "property": "C61",
   "status": "proved",
   "theorems": [
    "C61_no_search",
    "C61_parameter_fixed"
   ],
   "note": "A defect of the program: the fallback of lines 386-392 is unreachable once line search is enabled, because lines 381-383 replace the failure value."
  },
  {
   "property": "C62",
   "status": "proved",
   "theorems": [
    "C62_in_spectrum",
    "C62_in_spectrum_hyper",
    "C62_early_stop",
    "C62_early_stop_hyper",
    "C62_norm",
    "C62_norm_hyper",
    "C62_norm_largest",
    "C62_norm_largest_hyper",
    "C62_slack",
    "C62_slack_hyper"
   ],
   "note": "The eigenvalues of the tridiagonal matrix are taken by their definition (values for which a non-zero vector exists)."
  },
  {
   "property": "C63",
   "status": "proved",
   "theorems": [
    "C63_defined",
    "C63_defined_hyper",
    "C63_start_refuted",
    "C63_norm_refuted",
    "C63_norm_exact",
    "C63_octonion_refuted"
   ],
   "note": "The three _refuted theorems show defects of the reports; C59-type feasibility conclusions therefore hold for linear and second-order cones only."
  },
  {
   "property": "C64",
   "status": "proved",
   "theorems": [
    "C64_spectrum",
    "C64_summary",
    "C64_rank",
    "C64_parameter",
    "C64_sentinel_refuted"
   ],
   "note": "The statement carries the guard on the start values 30000/-30000; the unguarded claim is refuted by C64_sentinel_refuted."
  },
  {
   "property": "C65",
   "status": "proved",
   "theorems": [
    "C65_slack",
    "C65_weighted",
    "C65_octonion_norm",
    "C65_geodesic"
   ],
   "note": "Octonions: slack and the norm at the identity only, as in the statement."
  },
  {
   "property": "C66",
   "status": "proved",
   "theorems": [
    "C66_complementarity",
    "C66_suboptimality",
    "C66_accurate",
    "C66_solved_is_feasible",
    "C66_inaccurate_refuted",
    "C66_no_search",
    "C66_parameter_fixed"
   ],
   "note": "Accuracy of the Lanczos estimates is part of the statement (the environment of the model returns arbitrary estimates); C66_inaccurate_refuted shows that it cannot be dropped.  trace_accurate (HermEstimate.v) shows that accurate estimates exist."
  },
  {
   "property": "C67",
   "status": "proved",
   "theorems": [
    "C67_feasible_objective",
    "C67_interior",
    "C67_bounded",
    "C67_objective_set",
    "C67_objective_dropped",
    "C67_objective_used_refuted"
   ],
   "note": "C67_objective_used_refuted: the returned vector is not used as objective when the program has equality constraints."
  },
  {
   "property": "C68",
   "status": "proved",
   "theorems": [
    "C68_slack",
    "C68_newton",
    "C68_interior",
    "C68_gram",
    "C68_reports",
    "C68_dual",
    "C68_estimate_refuted",
    "C68_stale_refuted"
   ],
   "note": "Histories of calls on one dense LMI constraint. The step size bound is on the true operator norm of the direction; C68_estimate_refuted shows that with the estimated norm the scaling matrix may become indefinite, C68_stale_refuted that a query between preparation and step changes the step."
  },
  {
   "property": "C69",
   "status": "proved",
   "theorems": [
    "C69_read",
    "C69_increment",
    "C69_cholesky",
    "C69_same_as_block",
    "C69_apply_inverse",
    "C69_apply_inverse_of_transpose",
    "C69_solve",
    "C69_copy",
    "C69_assignment_refuted",
    "C69_empty_supernode_refuted",
    "C69_short_vector_refuted"
   ],
   "note": "Exact arithmetic; a non-positive pivot and a zero divisor are a distinct outcome, proved to occur exactly when the matrix is not positive definite, respectively has a zero on the diagonal. The exceptions named in the statement are the refuted claims."
  },
  {
   "property": "C70",
   "status": "proved",
   "theorems": [
    "C70_factor_and_solve",
    "C70_singular_refuted",
    "C70_equalities_hold",
    "C70_exact",
    "C70_hands_back",
    "C70_definite_regular",
    "C70_exact_solutions"
   ],
   "note": "C70_singular_refuted: the reported success says nothing about solvability. The Householder QR of Eigen is an argument of the model (env_qr) with the contract qr_solves, satisfied by C70_exact_solutions."
  },
  {
   "property": "C71",
   "status": "proved",
   "theorems": [
    "C71_well_built",
    "C71_same_points",
    "C71_objective_replaced",
    "C71_wrong_length_ignored",
    "C71_maximize",
    "C71_default_options"
   ],
   "note": "Exact arithmetic; pivots of equalities as in C34; groups over all variables; br equal to the length of b."
  },
  {
   "property": "C72",
   "status": "proved",
   "theorems": [
    "C72_same_points",
    "C72_maximize",
    "C72_last_column_refuted"
   ],
   "note": "Exact arithmetic; eigenvalue estimates as in C66; constraints over all variables. Clients that also enter quadratic costs are in C76."
  },
  {
   "property": "C73",
   "status": "proved",
   "theorems": [
    "C73_symmetric_in_spectrum",
    "C73_symmetric_exact",
    "C73_symmetric_too_many",
    "C73_symmetric_eigenvector",
    "C73_uncompressed_same",
    "C73_uncompressed_in_spectrum",
    "C73_uncompressed_exact",
    "C73_uncompressed_too_many",
    "C73_uncompressed_eigenvector",
    "C73_compressed_exact",
    "C73_compressed_eigenvector"
   ],
   "note": "Exact real arithmetic; the eigenvalues of the tridiagonal matrix enter by their mathematical contract."
  },
  {
   "property": "C74",
   "status": "proved",
   "theorems": [
    "C74_reconstructed",
    "C74_sign",
    "C74_rank_update",
    "C74_rank_update_definite",
    "C74_updates",
    "C74_solve",
    "C74_solve_singular",
    "C74_updates_solve",
    "C74_fresh_update",
    "C74_sign_refuted",
    "C74_rank_update_refuted",
    "C74_fresh_update_refuted"
   ],
   "note": "Exact real arithmetic; storing a value that is not finite is the outcome None. The refutations are the cases outside the stated guards."
  },
  {
   "property": "C75",
   "status": "proved",
   "theorems": [
    "C75_orthogonalize",
    "C75_orthogonalize_octonions",
    "C75_equal",
    "C75_hermitian",
    "C75_powers",
    "C75_eigenvalues_complete",
    "C75_eigenvalues",
    "C75_eigenvalues_repeated_refuted"
   ],
   "note": "Exact real arithmetic; division by a zero norm is the outcome None; the least-squares and eigenvalue routines of Eigen by their contracts. The refutation shows the guard on the powers is needed."
  },
  {
   "property": "C76",
   "status": "proved",
   "theorems": [
    "C76_objective",
    "C76_maximize",
    "C76_exact",
    "C76_default_options_refuted",
    "C76_upper_triangle_refuted"
   ],
   "note": "Exact arithmetic; eigenvalue estimates as in C66; constraints over all variables. The refutations show that the guards on the options and on symmetry are needed."
  },
  {
   "property": "C77",
   "status": "proved",
   "theorems": [
    "C77_buffers",
    "C77_after_solve",
    "C77_solve_options",
    "C77_vector",
    "C77_sparse_rejected",
    "C77_maximize_cost_refuted",
    "C77_no_argument_refuted",
    "C77_missing_shape_refuted",
    "C77_overflow_refuted",
    "C77_rejected_refuted",
    "C77_errors",
    "C77_errors_refuted",
    "C77_statistics",
    "C77_statistics_refuted"
   ],
   "note": "Python exceptions end the client; numpy arrays by their shapes. The refutations show the faults named in the statement and that the guards are needed."
  },
  {
   "property": "C78",
   "status": "proved",
   "theorems": [
    "C78_in_range",
    "C78_count",
    "C78_one",
    "C78_eigenvector",
    "C78_zero_start"
   ],
   "note": "Real, complex and quaternion matrices; exact arithmetic; eigenvalues of the tridiagonal matrix by contract. The division by zero for start vectors that are eigenvectors is proved as part of the statement."
  },
  {
   "property": "C79",
   "status": "proved",
   "theorems": [
    "C79_components",
    "C79_blocks",
    "C79_pattern",
    "C79_asymmetric_refuted"
   ],
   "note": "Invariant of breadth-first search; the asymmetric pattern is a counterexample to the statement without symmetry."
  },
  {
   "property": "C80",
   "status": "proved",
   "theorems": [
    "C80_closure",
    "C80_blocks",
    "C80_dropped_refuted",
    "C80_early_refuted",
    "C80_coupling_refuted",
    "C80_constant_refuted"
   ],
   "note": "Closure and blocks under the premise that rows meet the given columns; the other theorems show that the premise is needed and that BuildMask loses entries of the affine term otherwise."
  }
 ]
}
