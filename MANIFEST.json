{
 "claims": [
  {
   "property": "C01",
   "status": "proved",
   "theorems": [
    "C01_admm_solved_certificate",
    "C01_admm_solved_near_optimal"
   ],
   "note": "over exact reals, any linear solver; consistent bounds and settings.rho > 0"
  },
  {
   "property": "C02",
   "status": "proved",
   "theorems": [
    "C02_admm_status",
    "C02_admm_defined",
    "C02_box_status",
    "C02_box_defined"
   ],
   "note": "for every scalar arithmetic; undefined only for adaptive_rho with interval 0"
  },
  {
   "property": "C03",
   "status": "proved",
   "theorems": [
    "C03_box_solved_certificate",
    "C03_box_solved_near_optimal"
   ],
   "note": "over exact reals, any linear solver, any alpha"
  },
  {
   "property": "C04",
   "status": "proved",
   "theorems": [
    "C04_admm_matrix",
    "C04_admm_solvable",
    "C04_box_matrix",
    "C04_box_solvable"
   ],
   "note": "ADMM for every scalar arithmetic; boxADMM over the reals (its matrix update is incremental) for objects obtained by any sequence of solves"
  },
  {
   "property": "C05",
   "status": "proved",
   "theorems": [
    "C05_admm_warm_start",
    "C05_admm_fixed_points"
   ],
   "note": "over exact reals with an exact linear solver, all alpha"
  },
  {
   "property": "C06",
   "status": "partial",
   "theorems": [
    "C06_box_warm_start_partial",
    "C06_box_alpha_scales",
    "C06_box_warm_start_refuted"
   ],
   "note": "true for alpha = 1; refuted for alpha <> 1: one iteration multiplies the optimum by alpha(2-alpha) (box_admm.hpp 129-130)"
  },
  {
   "property": "C07",
   "status": "proved",
   "theorems": [
    "C07_relaxed_monotone",
    "C07_relaxed_result_near",
    "C07_relaxed_solved",
    "C07_relaxed_bound_exists",
    "C07_alpha_two_refuted",
    "C07_admm_monotone",
    "C07_admm_result_near",
    "C07_admm_solved",
    "C07_bound_exists"
   ],
   "note": "exact reals, exact linear solver, fixed step sizes; every relaxation 0 < alpha < 2 (C07_relaxed_...), with the sharper constants of alpha = 1 in C07_admm_...; the range is sharp (C07_alpha_two_refuted)"
  },
  {
   "property": "C08",
   "status": "proved",
   "theorems": [
    "C08_admm_history",
    "C08_box_history"
   ],
   "note": "for every scalar arithmetic, dense solvers"
  },
  {
   "property": "C09",
   "status": "proved",
   "theorems": [
    "C09_classification",
    "C09_admm_step_sizes",
    "C09_box_step_sizes"
   ],
   "note": "classification over the reals; step sizes for ADMM and boxADMM"
  },
  {
   "property": "C10",
   "status": "proved",
   "theorems": [
    "C10_ruiz_round_trip",
    "C10_scale_round_trip"
   ],
   "note": "exact reals; at least one variable and one constraint row (maxCoeff of an empty vector is an assertion failure)"
  },
  {
   "property": "C11",
   "status": "proved",
   "theorems": [
    "C11_scaled_kkt",
    "C11_sqp_preconditioned"
   ],
   "note": "exact reals; also inside the SQP solver"
  },
  {
   "property": "C12",
   "status": "proved",
   "theorems": [
    "C12_bfgs_stays_spd",
    "C12_bfgs_secant"
   ],
   "note": "exact reals; every dimension and every sequence of updates"
  },
  {
   "property": "C13",
   "status": "partial",
   "theorems": [
    "C13_sr1_partial",
    "C13_sr1_refuted"
   ],
   "note": "holds for non-degenerate pairs; refuted for a zero step and for a pair the matrix already explains (0/0 and 1/0 in IEEE doubles)"
  },
  {
   "property": "C14",
   "status": "partial",
   "theorems": [
    "C14_filter_depth",
    "C14_filter_acceptance",
    "C14_filter_newest_undominated",
    "C14_filter_history",
    "C14_filter_removal_partial",
    "C14_filter_removal_refuted",
    "C14_filter_zero_depth_refuted"
   ],
   "note": "depth, acceptance, rejection and undominated history proved; removal of dominated entries holds below the maximum depth and is refuted at full depth; depth 0 is undefined behaviour"
  },
  {
   "property": "C15",
   "status": "partial",
   "theorems": [
    "C15_sqp_status",
    "C15_sqp_solved_partial",
    "C15_sqp_solved_refuted"
   ],
   "note": "status, criteria, iteration and callback counts proved for every arithmetic; constraints within eps_prim over the reals; refuted in IEEE arithmetic: NaN constraint values are ignored and SOLVED is reported"
  },
  {
   "property": "C16",
   "status": "proved",
   "theorems": [
    "C16_line_search"
   ],
   "note": "exact reals; every problem, direction and setting"
  },
  {
   "property": "C17",
   "status": "partial",
   "theorems": [
    "C17_violation_partial",
    "C17_violation_refuted"
   ],
   "note": "proved over the reals, infinite bounds included; refuted for NaN constraint values (IEEE)"
  },
  {
   "property": "C18",
   "status": "proved",
   "theorems": [
    "C18_box_invariance",
    "C18_affine_invariance"
   ],
   "note": "exact reals; box and affine rows"
  },
  {
   "property": "C19",
   "status": "partial",
   "theorems": [
    "C19_validate_partial",
    "C19_invalid_settings_refuted",
    "C19_invalid_settings_partial"
   ],
   "note": "refuted: validate() is never called; what remains is that negative tolerances never give SOLVED"
  },
  {
   "property": "C20",
   "status": "proved",
   "theorems": [
    "C20_chebyshev_nodes"
   ],
   "note": "over the real numbers"
  },
  {
   "property": "C21",
   "status": "proved",
   "theorems": [
    "C21_chebyshev_diff_matrix"
   ],
   "note": "over the real numbers"
  },
  {
   "property": "C22",
   "status": "proved",
   "theorems": [
    "C22_clenshaw_curtis"
   ],
   "note": "over the real numbers; also integrate on any interval"
  },
  {
   "property": "C23",
   "status": "partial",
   "theorems": [
    "C23_legendre_nodes_exist",
    "C23_legendre_diff_matrix_partial",
    "C23_legendre_diff_matrix_refuted"
   ],
   "note": "interior rows exact; refuted for every order: the two corner entries have the wrong sign, so the first and last rows are off by N(N+1)/2 times the value; nodes proved to exist for every order"
  },
  {
   "property": "C24",
   "status": "proved",
   "theorems": [
    "C24_legendre_basis"
   ],
   "note": "exact reals"
  },
  {
   "property": "C25",
   "status": "partial",
   "theorems": [
    "C25_poly_mul_partial",
    "C25_poly_mul_refuted",
    "C25_poly_diff"
   ],
   "note": "poly_diff proved; poly_mul proved for a monomial second factor, refuted in general: it overwrites instead of accumulating, and the zero polynomial reads an uninitialised index"
  },
  {
   "property": "C26",
   "status": "proved",
   "theorems": [
    "C26_lagrange_spline"
   ],
   "note": "exact reals, at least two distinct nodes"
  },
  {
   "property": "C27",
   "status": "partial",
   "theorems": [
    "C27_cubic_spline_partial",
    "C27_cubic_spline_refuted"
   ],
   "note": "true below the right end; refuted from the right end on: the index is clipped to the number of columns, one past the last"
  },
  {
   "property": "C28",
   "status": "proved",
   "theorems": [
    "C28_time_grid"
   ],
   "note": "Chebyshev nodes, exact reals"
  },
  {
   "property": "C29",
   "status": "proved",
   "theorems": [
    "C29_collocation",
    "C29_coupling"
   ],
   "note": "Chebyshev collocation, exact reals; dynamics are an arbitrary function"
  },
  {
   "property": "C30",
   "status": "proved",
   "theorems": [
    "C30_equality_jacobian",
    "C30_inequality_jacobian"
   ],
   "note": "exact reals; user derivatives assumed exact"
  },
  {
   "property": "C31",
   "status": "proved",
   "theorems": [
    "C31_sparse_jacobian"
   ],
   "note": "any sequence of evaluation points; entries differ from the dense matrix by at most the pruning threshold 2^-52 1e-12 and are equal for orders up to 1e27"
  },
  {
   "property": "C32",
   "status": "partial",
   "theorems": [
    "C32_inequality_update_partial",
    "C32_inequality_update_refuted"
   ],
   "note": "first assembly and NG in {0, NX} proved; refuted otherwise: the update copies from a matrix with NX rows"
  },
  {
   "property": "C33",
   "status": "partial",
   "theorems": [
    "C33_cost_value",
    "C33_cost_gradient_partial",
    "C33_cost_gradient_refuted"
   ],
   "note": "value proved; gradient proved when a running cost exists or the stored derivatives are zero; refuted for a second call without running cost"
  },
  {
   "property": "C34",
   "status": "partial",
   "theorems": [
    "C34_dense_partial",
    "C34_sparse_partial",
    "C34_dense_sparse_agree_partial",
    "C34_many_controls_refuted",
    "C34_many_parameters_refuted",
    "C34_dense_refuted",
    "C34_sparse_refuted"
   ],
   "note": "dense proved for NU <= NX and terminal cost without parameter curvature; sparse proved after any history except the first evaluation with parameters; all exclusions refuted"
  },
  {
   "property": "C35",
   "status": "partial",
   "theorems": [
    "C35_dense",
    "C35_sparse_partial",
    "C35_sparse_refuted"
   ],
   "note": "dense variant proved; sparse variant proved for NG in {0, NX} and for first calls; refuted otherwise (follows from C32)"
  },
  {
   "property": "C36",
   "status": "proved",
   "theorems": [
    "C36_setters",
    "C36_getters",
    "C36_node_times",
    "C36_time_grid"
   ],
   "note": "every sequence of calls of the wrapper, every dimension, any scalar type"
  },
  {
   "property": "C37",
   "status": "partial",
   "theorems": [
    "C37_interpolation_partial",
    "C37_selected_segment_partial",
    "C37_late_start_refuted",
    "C37_behind_refuted",
    "C37_session_partial"
   ],
   "note": "proved for horizons starting at zero (any number of segments) and for one segment (any start); the segment actually evaluated is characterised for every start; refuted for every problem with two or more segments starting at least one segment length after zero, and after changing the limits through ocp()"
  },
  {
   "property": "C38",
   "status": "partial",
   "theorems": [
    "C38_value",
    "C38_first_order",
    "C38_gradient",
    "C38_second_order",
    "C38_hessian",
    "C38_floor_refuted"
   ],
   "note": "first derivatives for every program and every differentiable input path, second derivatives for every program without pow and atan2 (which the library cannot nest); over exact reals; floor keeps the seeds and is refuted at every non-integer point"
  },
  {
   "property": "C39",
   "status": "partial",
   "theorems": [
    "C39_programs_partial",
    "C39_assignment_refuted",
    "C39_reuse_refuted"
   ],
   "note": "false: assigning a plain number keeps the old derivatives (C39_assignment_refuted, C39_reuse_refuted). Programs that give plain numbers only to variables without derivatives are differentiated correctly."
  },
  {
   "property": "C40",
   "status": "partial",
   "theorems": [
    "C40_solves_partial",
    "C40_complex_refuted",
    "C40_alias_refuted"
   ],
   "note": "proved for real spectra up to 6 rows, with uniqueness; refuted for complex pairs (every correct kernel) and from 7 rows on (aliased product)"
  },
  {
   "property": "C41",
   "status": "partial",
   "theorems": [
    "C41_line_search",
    "C41_newton_step_partial",
    "C41_newton_stop",
    "C41_linear_refuted",
    "C41_initial_guess_partial",
    "C41_gain",
    "C41_optimal_partial",
    "C41_hpp_refuted",
    "C41_cross_refuted",
    "C41_small_weight_refuted",
    "C41_check_refuted"
   ],
   "note": "line search, Newton step, stopping, initial guess and near-optimality of the gain proved under stated assumptions; refuted for lqr.hpp (initial guess returned), cross terms, linear equations and small input weights"
  },
  {
   "property": "C42",
   "status": "partial",
   "theorems": [
    "C42_dense_jacobian_partial",
    "C42_dense_hessian_partial",
    "C42_dense_size_partial",
    "C42_nlp_jacobian_partial",
    "C42_nlp_hessian_partial",
    "C42_feasible_set",
    "C42_start",
    "C42_sparse_hessian_partial",
    "C42_sparse_jacobian_refuted",
    "C42_sparse_jacobian_partial",
    "C42_multipliers_partial",
    "C42_multipliers_refuted",
    "C42_box_multipliers_partial"
   ],
   "note": "dense problems proved end to end (structure, values, bounds, start); sparse Jacobian values are never written (C42_sparse_jacobian_refuted), and multipliers are read beyond the supplied array (C42_multipliers_refuted)"
  },
  {
   "property": "C43",
   "status": "partial",
   "theorems": [
    "C43_osqp_status_partial",
    "C43_osqp_residual_partial",
    "C43_osqp_residual_refuted",
    "C43_qpmad_status_partial",
    "C43_qpmad_status_refuted"
   ],
   "note": "status, iterate and counters proved for OSQP; residual fields refuted (primal holds the dual residual, dual is never set); QPMAD's stored status is stale after a failure (refuted)"
  },
  {
   "property": "C44",
   "status": "partial",
   "theorems": [
    "C44_points_partial",
    "C44_points_refuted",
    "C44_matrix"
   ],
   "note": "the matrix is exact on every interval; the points are right exactly when the interval starts at 0 or has length 2, and all wrong otherwise (C44_points_refuted)"
  },
  {
   "property": "C45",
   "status": "proved",
   "theorems": [
    "C45_block_bfgs",
    "C45_stays_spd",
    "C45_assembled",
    "C45_parameters_refuted"
   ],
   "note": "C45_block_bfgs for every dimension incl. parameters; C45_stays_spd without parameters as claimed; C45_assembled shows the starting matrices exist; C45_parameters_refuted shows that the no-parameter condition cannot be dropped."
  },
  {
   "property": "C46",
   "status": "partial",
   "theorems": [
    "C46_template_partial",
    "C46_gradient_partial",
    "C46_seeds_refuted",
    "C46_second_partial",
    "C46_diagonal_refuted",
    "C46_uninitialised_refuted"
   ],
   "note": "the general template and the gradient under unit seeds are exact; the specialisations ignore the seeds, every diagonal Hessian entry is off by the kernel value, and the outer first derivatives are never written"
  },
  {
   "property": "C47",
   "status": "proved",
   "theorems": [
    "C47_product",
    "C47_hamilton",
    "C47_inverse",
    "C47_rotation",
    "C47_elementary",
    "C47_spheric"
   ],
   "note": "over the reals; also Hamilton's relations, the elementary rotations and spherical coordinates"
  },
  {
   "property": "C48",
   "status": "proved",
   "theorems": [
    "C48_linear",
    "C48_quadrature",
    "C48_order",
    "C48_solution_derivatives",
    "C48_integrator"
   ],
   "note": "affine systems and quadrature in every dimension, scalar polynomial equations for the nonlinear case; the CVODES method is an opaque function"
  },
  {
   "property": "C49",
   "status": "partial",
   "theorems": [
    "C49_admm_residuals_partial",
    "C49_admm_residuals_refuted",
    "C49_box_residuals_partial"
   ],
   "note": "true when SOLVED is reported; refuted in general (stale values when no check happened in the last iteration)"
  },
  {
   "property": "C50",
   "status": "proved",
   "theorems": [
    "C50_same_iterates",
    "C50_same_results"
   ],
   "note": "exact reals, exact linear solvers"
  },
  {
   "property": "C51",
   "status": "proved",
   "theorems": [
    "C51_box_result_near",
    "C51_box_solved"
   ],
   "note": "exact reals, exact linear solver, alpha = 1, fixed step sizes"
  },
  {
   "property": "C52",
   "status": "partial",
   "theorems": [
    "C52_reported_cost_partial",
    "C52_reported_cost_refuted"
   ],
   "note": "true if the last line search accepted a trial; refuted if the trial budget is exhausted"
  },
  {
   "property": "C53",
   "status": "proved",
   "theorems": [
    "C53_subproblem"
   ],
   "note": "exact reals"
  },
  {
   "property": "C54",
   "status": "proved",
   "theorems": [
    "C54_kkt_fixed_point"
   ],
   "note": "exact reals, exact QP solutions"
  },
  {
   "property": "C55",
   "status": "proved",
   "theorems": [
    "C55_merit_descent"
   ],
   "note": "exact reals, exact QP solutions"
  },
  {
   "property": "C56",
   "status": "partial",
   "theorems": [
    "C56_stationarity_partial",
    "C56_stationarity_refuted"
   ],
   "note": "true if the last step is a full step; refuted in IEEE doubles: the line search shortens the zero step and SOLVED is reported with wrong multipliers"
  },
  {
   "property": "C57",
   "status": "partial",
   "theorems": [
    "C57_sparse_round_trip_partial",
    "C57_sparse_round_trip_refuted"
   ],
   "note": "true for a nonzero gradient or a Hessian with entries in every column; refuted for h = 0 with empty H (1/0)"
  },
  {
   "property": "C58",
   "status": "partial",
   "theorems": [
    "C58_update_partial",
    "C58_update_refuted"
   ],
   "note": "constraint matrix and bounds of a fresh object are restored; the Hessian is not (refuted)"
  },
  {
   "property": "C59",
   "status": "proved",
   "theorems": [
    "C59_chebyshev_gauss",
    "C59_legendre_gauss"
   ],
   "note": "exact reals; Legendre nodes from an exact root finder, which exists for every order"
  },
  {
   "property": "C60",
   "status": "partial",
   "theorems": [
    "C60_legendre_projection",
    "C60_chebyshev_projection_partial",
    "C60_chebyshev_projection_refuted"
   ],
   "note": "Legendre proved up to degree N; Chebyshev proved below degree N and refuted at degree N (last normalisation factor)"
  },
  {
   "property": "C61",
   "status": "partial",
   "theorems": [
    "C61_dense_partial",
    "C61_sparse_partial",
    "C61_lagrangian",
    "C61_many_controls_refuted"
   ],
   "note": "proved under the same dimension restrictions as C34, dense and sparse, any history, any cost scale"
  },
  {
   "property": "C62",
   "status": "proved",
   "theorems": [
    "C62_hessian",
    "C62_count",
    "C62_jacobian"
   ],
   "note": "Hessian counts for every history, Jacobian count for first evaluations (orders up to 10^27, the bound under which pruning drops only structural zeros)."
  },
  {
   "property": "C63",
   "status": "partial",
   "theorems": [
    "C63_interpolant",
    "C63_cardinal",
    "C63_object",
    "C63_update_keeps_polynomial",
    "C63_resize_refuted",
    "C63_one_node_refuted"
   ],
   "note": "proved for two or more nodes and every call sequence; one node is undefined behaviour and changing the number of nodes blocks new values (refuted theorems)"
  },
  {
   "property": "C64",
   "status": "proved",
   "theorems": [
    "C64_expansion",
    "C64_agree"
   ],
   "note": "over the reals"
  },
  {
   "property": "C65",
   "status": "partial",
   "theorems": [
    "C65_modular",
    "C65_small_partial",
    "C65_large_refuted"
   ],
   "note": "n! modulo 2^32 for every n below 2^31-1: right up to 12, wrong from 13 on, 0 from 34 on"
  },
  {
   "property": "C66",
   "status": "proved",
   "theorems": [
    "C66_flip"
   ],
   "note": "every non-empty matrix; empty ones are an error in the model as in the code"
  },
  {
   "property": "C67",
   "status": "proved",
   "theorems": [
    "C67_jacobian",
    "C67_gradient",
    "C67_gradient_hessian",
    "C67_hessian"
   ],
   "note": "every problem built from the modelled scalar functions, every history of calls"
  },
  {
   "property": "C68",
   "status": "partial",
   "theorems": [
    "C68_lagrangian_partial",
    "C68_value_partial",
    "C68_value_refuted",
    "C68_scale_refuted"
   ],
   "note": "lagrangian() is right; the value returned next to the derivatives is the cost alone and gradients ignore the cost scale (refuted theorems)"
  },
  {
   "property": "C69",
   "status": "proved",
   "theorems": [
    "C69_first_matrix",
    "C69_reused_matrix",
    "C69_kkt"
   ],
   "note": "exact arithmetic; OSQP's documented optimality conditions"
  },
  {
   "property": "C70",
   "status": "partial",
   "theorems": [
    "C70_sequence_partial",
    "C70_solved_partial",
    "C70_cold_refuted",
    "C70_warm_first_refuted",
    "C70_compressed_refuted"
   ],
   "note": "proved for a cold first call followed by warm calls, the order the SQP solver uses; refuted for repeated cold calls, warm first calls and compressed matrices"
  },
  {
   "property": "C71",
   "status": "proved",
   "theorems": [
    "C71_admm_rho",
    "C71_box_rho"
   ],
   "note": "every pass of every run of both solvers, exact arithmetic, initial step size within the library's limits"
  },
  {
   "property": "C72",
   "status": "partial",
   "theorems": [
    "C72_kkt_build",
    "C72_box_session_partial",
    "C72_admm_session_partial",
    "C72_admm_near_optimal_partial",
    "C72_box_near_optimal_partial",
    "C72_both_triangles_refuted",
    "C72_missing_diagonal_refuted",
    "C72_compressed_refuted"
   ],
   "note": "proved for sessions that reuse the pattern only with a lower-triangle solver, an unchanged pattern and a stored diagonal; refuted for both-triangle solvers with reuse, for Hessians without stored diagonal and for compressed matrices"
  },
  {
   "property": "C73",
   "status": "proved",
   "theorems": [
    "C73_dynamics",
    "C73_bounds",
    "C73_initial_state"
   ],
   "note": "exact arithmetic; linearisation, QP solver, preconditioner arbitrary"
  },
  {
   "property": "C74",
   "status": "partial",
   "theorems": [
    "C74_residual",
    "C74_constraints",
    "C74_jacobian_partial",
    "C74_jacobian_refuted",
    "C74_constructor_refuted"
   ],
   "note": "residual and constraint stack proved; Jacobian proved except for the parameters, whose derivatives are never computed (C74_jacobian_refuted); the constructor with an argument leaves the differentiation matrix zero (C74_constructor_refuted)"
  },
  {
   "property": "C75",
   "status": "partial",
   "theorems": [
    "C75_value",
    "C75_gradient_partial",
    "C75_hessian_partial",
    "C75_gradient_refuted",
    "C75_constructor_refuted"
   ],
   "note": "value proved; gradient and Hessian proved for directions that leave the parameters unchanged, refuted for parameters; the constructor with arguments leaves the weights uninitialised (refuted)"
  },
  {
   "property": "C76",
   "status": "partial",
   "theorems": [
    "C76_residual",
    "C76_first_call",
    "C76_sessions_partial",
    "C76_second_call",
    "C76_sessions_refuted"
   ],
   "note": "residual and first call proved for all; sessions proved for one segment or odd order; for every even order with two or more segments the second call inserts existing entries (C76_second_call, C76_sessions_refuted); exact arithmetic"
  },
  {
   "property": "C77",
   "status": "partial",
   "theorems": [
    "C77_residual",
    "C77_calls",
    "C77_initial_value_refuted",
    "C77_second_partial",
    "C77_second_refuted"
   ],
   "note": "C77_residual and C77_calls are full. Refuted: existence of a discrete solution for every initial state; CollocateDynamics2 as a function of its argument (C77_second_partial covers evaluation at the member)."
  },
  {
   "property": "C78",
   "status": "partial",
   "theorems": [
    "C78_cost",
    "C78_parametric_cost",
    "C78_horizon",
    "C78_terminal",
    "C78_function",
    "C78_derivative_partial",
    "C78_derivative_time_refuted",
    "C78_derivative_kink_refuted"
   ],
   "note": "Costs and function values are full. The derivative theorem has the factor ts^n and needs matching derivatives at the junctions; both limits are proved by counterexamples."
  },
  {
   "property": "C79",
   "status": "partial",
   "theorems": [
    "C79_residual",
    "C79_cost",
    "C79_parametric_cost",
    "C79_function",
    "C79_derivative_partial",
    "C79_control_difference",
    "C79_control_function_refuted"
   ],
   "note": "Residual, costs and values are full. Derivatives keep the factor ts^n; for control expressions the code ignores the function (counterexample)."
  },
  {
   "property": "C80",
   "status": "proved",
   "theorems": [
    "C80_value",
    "C80_zero"
   ],
   "note": "Value and zero set."
  },
  {
   "property": "C81",
   "status": "partial",
   "theorems": [
    "C81_scaled_problem",
    "C81_scaled_trajectory_problem",
    "C81_scaled_result",
    "C81_scaled_uniform",
    "C81_problem",
    "C81_trajectory_problem",
    "C81_result",
    "C81_objective",
    "C81_history",
    "C81_wrong_control",
    "C81_flag_refuted",
    "C81_scaled_parameters",
    "C81_scaled_default",
    "C81_scaled_refuted"
   ],
   "note": "Full without scaling. With scaling the property is false (C81_scaled_refuted, C81_scaled_default, C81_scaled_parameters); C81_flag_refuted covers the calls in the examples. C81_scaled_problem, C81_scaled_trajectory_problem and C81_scaled_result say which problem a scaled call with a scalar argument P solves instead; C81_scaled_uniform is the case where the answer is right."
  },
  {
   "property": "C82",
   "status": "partial",
   "theorems": [
    "C82_problem",
    "C82_result",
    "C82_construct",
    "C82_guess",
    "C82_scaling_setter_refuted",
    "C82_initialized_refuted"
   ],
   "note": "Holds for the scaling given to the constructor; the setters of the scaling and initialized() are refuted."
  },
  {
   "property": "C83",
   "status": "partial",
   "theorems": [
    "C83_cost_partial",
    "C83_zero",
    "C83_definite_refuted",
    "C83_scaled_control_refuted"
   ],
   "note": "C83_cost_partial needs diagonal weights and unscaled controls; the rest is refuted (C83_definite_refuted, C83_scaled_control_refuted)."
  },
  {
   "property": "C84",
   "status": "partial",
   "theorems": [
    "C84_mapping",
    "C84_problem",
    "C84_result",
    "C84_setup",
    "C84_guess",
    "C84_named",
    "C84_final_refuted",
    "C84_scaled_parameter_refuted",
    "C84_diff_alone_refuted"
   ],
   "note": "Holds for dynamics that see the scaled parameters and for the first row of the final constraint; the unrestricted expectations are refuted (C84_final_refuted, C84_scaled_parameter_refuted, C84_diff_alone_refuted)."
  },
  {
   "property": "C85",
   "status": "partial",
   "theorems": [
    "C85_get_slacks",
    "C85_cost",
    "C85_norms",
    "C85_slacks",
    "C85_slacks_refuted",
    "C85_penalty_refuted",
    "C85_norm_refuted"
   ],
   "note": "C85_cost, C85_norms and C85_slacks hold; neutrality of slacks, the integral meaning of norm_diff and the option slack_penalty_type are refuted."
  },
  {
   "property": "C86",
   "status": "partial",
   "theorems": [
    "C86_failed",
    "C86_virt",
    "C86_problem",
    "C86_result",
    "C86_virtual",
    "C86_reset",
    "C86_guess_refuted",
    "C86_scaling_setter_refuted",
    "C86_getCost_refuted",
    "C86_virt_refuted",
    "C86_wrap_refuted"
   ],
   "note": "C86_problem, C86_result, C86_virtual and C86_reset hold for all call histories; the stronger expectations on wrapping, the warm start guess, scaling factors set after construction, getCost and getVirtState are refuted."
  },
  {
   "property": "C87",
   "status": "partial",
   "theorems": [
    "C87_cost",
    "C87_zero",
    "C87_scaling",
    "C87_definite_refuted",
    "C87_closest_line",
    "C87_closest_steps",
    "C87_closest_refuted",
    "C87_closest_arguments_refuted"
   ],
   "note": "C87_cost, C87_zero, C87_scaling, C87_closest_line and C87_closest_steps hold; definiteness for a positive definite Q, global closeness and support of paths without parameters are refuted."
  },
  {
   "property": "C88",
   "status": "partial",
   "theorems": [
    "C88_root",
    "C88_start",
    "C88_direction",
    "C88_step",
    "C88_converges",
    "C88_small_refuted",
    "C88_endless_refuted",
    "C88_tangent_refuted"
   ],
   "note": "C88_root, C88_start, C88_direction, C88_step and C88_converges hold; tangency after rescaling, termination and small systems are refuted. std::sqrtf is modelled by the exact square root."
  },
  {
   "property": "C89",
   "status": "partial",
   "theorems": [
    "C89_fixed",
    "C89_dynamic_refuted",
    "C89_symmetric_refuted"
   ],
   "note": "C89_fixed holds given the eigenvalues from Eigen (premise: spectral decomposition); dynamic sizes and nonsymmetric matrices are refuted."
  },
  {
   "property": "C90",
   "status": "partial",
   "theorems": [
    "C90_heaviside_step",
    "C90_heaviside_shape",
    "C90_deg2rad",
    "C90_mat_func",
    "C90_mat_dynamics",
    "C90_range",
    "C90_range_endless",
    "C90_range_refuted"
   ],
   "note": "exact arithmetic; range in binary64 is refuted (C90_range_refuted); everything else holds."
  },
  {
   "property": "C91",
   "status": "partial",
   "theorems": [
    "C91_size",
    "C91_data_ignored",
    "C91_integral_partial",
    "C91_fit_refuted"
   ],
   "note": "C91_integral_partial: the integral with zero in place of the measurements; refuted otherwise (C91_fit_refuted); C91_data_ignored and C91_size describe the behaviour. CasADi's conventions for slices and empty arguments are part of the model."
  },
  {
   "property": "C92",
   "status": "proved",
   "theorems": [
    "C92_matrix",
    "C92_decides",
    "C92_unreachable"
   ],
   "note": "exact arithmetic; the hypothesis is that FullPivLU's rank is n exactly when the rows of the controllability matrix are linearly independent (Eigen decides this up to a threshold). F.pow(k) is the k-fold product."
  },
  {
   "property": "C93",
   "status": "proved",
   "theorems": [
    "C93_quadratic_program",
    "C93_blur_refuted"
   ],
   "note": "exact arithmetic. The Hessian given to every subproblem is assumed to be the exact one (user-supplied hessian_update that keeps it; BFGS mixes in multiplier changes). C93_blur_refuted shows in IEEE arithmetic that the blur is real: a start 1e-8 away gets its full step rejected because EPSILON is added to the violation."
  },
  {
   "property": "C94",
   "status": "proved",
   "theorems": [
    "C94_limit",
    "C94_box_limit"
   ],
   "note": "exact reals, exact linear solvers, adaptive_rho off. Uses classical logic (a convergent subsequence is chosen)."
  },
  {
   "property": "C95",
   "status": "partial",
   "theorems": [
    "C95_solved_or_changes_partial",
    "C95_box_solved_or_changes_partial",
    "C95_budget_exists",
    "C95_cycle_refuted",
    "C95_box_cycle_refuted"
   ],
   "note": "exact reals and exact linear solvers; the adaptation rule is the one in the code. The full statement (always SOLVED) is false: C95_cycle_refuted and C95_box_cycle_refuted. The cycle is enclosed by interval arithmetic evaluated by the kernel (FixI.v, AdmmCycle_Traj.v)."
  },
  {
   "property": "C96",
   "status": "proved",
   "theorems": [
    "C96_lipschitz_is_smooth",
    "C96_feasible_descent",
    "C96_long_steps",
    "C96_near_kkt_reached",
    "C96_solved_near_kkt",
    "C96_unconstrained_solved"
   ],
   "note": "exact reals. The hypotheses on the Hessians are on the matrices that reach the QP solver (after the update and the regularisation); e may not be below the length at which the EPSILON in the penalty term decides the line search."
  },
  {
   "property": "C97",
   "status": "partial",
   "theorems": [
    "C97_gershgorin_positive_definite",
    "C97_gershgorin_changes",
    "C97_positive_definite_kept_refuted",
    "C97_not_symmetric_refuted",
    "C97_mirror_positive_definite",
    "C97_mirror_spectrum",
    "C97_mirror_keeps_positive_part_refuted"
   ],
   "note": "exact reals. Refuted: the Gershgorin version changes some positive definite matrices; on matrices that are not symmetric it can return an indefinite one (it looks at columns only); the mirrored matrix need not keep the positive eigenvalues if the eigenvectors for a repeated eigenvalue are not orthogonal, since the code multiplies by the transpose instead of the inverse."
  },
  {
   "property": "C98",
   "status": "partial",
   "theorems": [
    "C98_status",
    "C98_lipschitz_hessian_region",
    "C98_quadratic_convergence",
    "C98_nonlinear_constraints_refuted"
   ],
   "note": "exact reals, exact subproblem solutions. Proved for linear constraints (any bounds). Refuted for nonlinear constraints: on a problem with one smooth regular equality constraint and positive definite Hessian there are feasible starting points arbitrarily close to the solution from which the full step would halve the squared distance, yet the line search on the l1 merit function rejects it and a third of the distance remains (Maratos effect; the code has no second-order correction)."
  },
  {
   "property": "C99",
   "status": "partial",
   "theorems": [
    "C99_search_ends",
    "C99_move_bounds",
    "C99_limit_ignores_bounds",
    "C99_unconstrained_convergence",
    "C99_within_bounds_refuted",
    "C99_descent_refuted",
    "C99_search_ends_refuted"
   ],
   "note": "proved: termination of the line search for bounds around zero, bounds on the moves, limits are unconstrained stationary points, convergence to the unconstrained minimiser (exact reals). Refuted: the result is within the bounds (box_projection is applied to the step, not to the point; in binary64 the test's own run ends with second entry above 19 for the bound 1); an accepted step does not increase the cost (the sign in the sufficient decrease test is reversed); the line search ends for all bounds (it runs forever for bounds that exclude zero). Sizes other than 2 and other data than the constructor's are a generalisation."
  },
  {
   "property": "C100",
   "status": "partial",
   "theorems": [
    "C100_step_rules",
    "C100_run",
    "C100_always_accepted",
    "C100_descent",
    "C100_full_radius",
    "C100_convergence_refuted",
    "C100_test_refuted"
   ],
   "note": "proved: rules of a pass, acceptance on quadratics, descent for nonnegative final shifts; in one variable the step always has the length of the radius. Refuted: convergence (minimise x^2/2 from 1/3: for any number of passes consecutive points stay 0.1 apart and 1/30 away from the minimiser, since the shift becomes negative instead of zero when the minimiser lies inside the region, and the ratio of the reductions is 1 even when both are negative), and the run of the test in binary64, which uses up its 100 iterations and ends with second entry above 500 instead of 20 and a higher cost than at the start."
  },
  {
   "property": "C101",
   "status": "partial",
   "theorems": [
    "C101_infeasible",
    "C101_infeasible_relative",
    "C101_unbounded",
    "C101_multipliers_diverge",
    "C101_iterates_diverge",
    "C101_infeasible_refuted",
    "C101_unbounded_refuted"
   ],
   "note": "proved for a zero relative tolerance and, when all bounds are finite, for small relative tolerances. Refuted for the default settings: an infeasible QP (x0 = 0 and x0 = 1, x1 free with cost -x1/1000) and an unbounded one (1000 x0 - x1/2, x0 >= 0) are reported SOLVED by both solvers after 25 iterations, since the tolerances are relative to quantities that run away or are unrelated to the violated condition; neither solver ever returns the status INFEASIBLE of the enumeration (C02)."
  },
  {
   "property": "C102",
   "status": "proved",
   "theorems": [
    "C102_transcription",
    "C102_strictly_convex",
    "C102_solve",
    "C102_dynamics"
   ],
   "note": "exact arithmetic; a guess within the rounding blur of the optimum (the EPSILON added to every violation, see C93_blur_refuted) may be left where it is, within that blur; early termination needs unique multipliers; strict convexity is for problems without optimised parameters."
  },
  {
   "property": "C103",
   "status": "partial",
   "theorems": [
    "C103_problem",
    "C103_result",
    "C103_cost",
    "C103_rate_refuted",
    "C103_parameter_box_refuted",
    "C103_getters_refuted",
    "C103_box_slack_refuted"
   ],
   "note": "C103_problem, C103_result and C103_cost hold; refuted: diff of the control bounds its decrease (the difference is taken backwards in time), and with _ND in place of _NP in chebyshev_ms.hpp:66 a box on the parameters is dropped (ND < NP) or overwrites the slack bounds (ND > NP), and the getters of parameters and slacks return the wrong entries."
  },
  {
   "property": "C104",
   "status": "proved",
   "theorems": [
    "C104_admm",
    "C104_box",
    "C104_sqp_result",
    "C104_sqp_iterates",
    "C104_mpc"
   ],
   "note": ""
  },
  {
   "property": "C105",
   "status": "proved",
   "theorems": [
    "C105_inexact",
    "C105_native",
    "C105_mpc"
   ],
   "note": ""
  },
  {
   "property": "C106",
   "status": "proved",
   "theorems": [
    "C106_native",
    "C106_exact",
    "C106_mpc"
   ],
   "note": ""
  },
  {
   "property": "C107",
   "status": "partial",
   "theorems": [
    "C107_admm",
    "C107_admm_arguments",
    "C107_admm_refuted",
    "C107_solve",
    "C107_box_admm",
    "C107_arguments",
    "C107_sqp",
    "C107_large_refuted",
    "C107_controls_refuted"
   ],
   "note": "The property is false for the code: C107_large_refuted and C107_controls_refuted give problems for which the first solve leaves the storage. C107_box_admm, C107_admm and C107_sqp characterise exactly the sizes for which it holds, C107_solve for whole calls with any number of iterations. C107_arguments and C107_admm_arguments: a call stays in storage for exactly the argument and guess sizes of the problem. C107_admm_refuted: ADMM is compiled for sizes for which it has no storage. The generic NLP class and the preconditioners are not in this storage model."
  },
  {
   "property": "C108",
   "status": "partial",
   "theorems": [
    "C108_dynamic",
    "C108_fixed_size",
    "C108_programs",
    "C108_constants",
    "C108_rule_refuted",
    "C108_atan2_refuted",
    "C108_late_resize_refuted"
   ],
   "note": "The property as documented is false for the code: C108_rule_refuted, C108_atan2_refuted and C108_late_resize_refuted. C108_dynamic and C108_fixed_size prove it for all expressions of the stated shape, C108_constants for all expressions of constants. C108_programs carries it to straight-line programs of assignments. One level of active scalars is modelled; nesting is in C38 for fixed sizes only."
  },
  {
   "property": "C109",
   "status": "proved",
   "theorems": [
    "C109_eta",
    "C109_session",
    "C109_optimum"
   ],
   "note": "C109_eta allows any eta below 1/2 (the default is 1/4) and leaves a distance of the order of the square root of the machine precision used in the merit function; C109_session is the case eta = 0, where the distance is arbitrary. Exact arithmetic and an exact linear solver. The Hessian given to the QP solver is the exact one (as in C106_mpc)."
  },
  {
   "property": "C110",
   "status": "partial",
   "theorems": [
    "C110_accepted",
    "C110_remapped",
    "C110_direct",
    "C110_strided_refuted",
    "C110_row_refuted",
    "C110_linear",
    "C110_write",
    "C110_chain",
    "C110_round_trip"
   ],
   "note": "False for nested vectors with inner stride other than one (C110_strided_refuted, C110_row_refuted); C110_direct gives the exact condition. C110_remapped, C110_linear and C110_write hold as stated; C110_chain and C110_round_trip hold for steps that keep the coefficients. Strided access itself is Eigen's mapbase_evaluator, modelled from its documentation (row and column stride chosen by storage order)."
  },
  {
   "property": "C111",
   "status": "partial",
   "theorems": [
    "C111_constructed",
    "C111_update_ignored",
    "C111_update_refuted",
    "C111_recreate",
    "C111_recreate_refuted",
    "C111_history",
    "C111_pso",
    "C111_pso_refuted",
    "C111_ode",
    "C111_ode_ignored",
    "C111_ode_refuted",
    "C111_ode_method",
    "C111_method_refuted"
   ],
   "note": "True for the three constructors (C111_constructed); refuted for updateParams, for createNLP after updateParams, for PSODESolver and for the parameters tol, max_iter and method of ODESolver. C111_update_ignored, C111_recreate, C111_history, C111_pso, C111_ode, C111_ode_ignored and C111_ode_method say exactly what happens instead."
  },
  {
   "property": "C112",
   "status": "partial",
   "theorems": [
    "C112_sparse",
    "C112_dense",
    "C112_first_column",
    "C112_solve",
    "C112_agree",
    "C112_accepted",
    "C112_failure",
    "C112_never_empty",
    "C112_columns_refuted",
    "C112_singular_refuted",
    "C112_det",
    "C112_det_refuted",
    "C112_tangent",
    "C112_tangent_exact",
    "C112_tangent_nonsingular",
    "C112_continuation"
   ],
   "note": "True for the conversions and for nonsingular systems with one right-hand side (C112_sparse, C112_dense, C112_solve, C112_agree, and for the tangent systems of the continuation C112_tangent, C112_tangent_exact, C112_continuation); refuted for several right-hand sides, singular matrices and determinant. C112_first_column, C112_accepted, C112_failure, C112_never_empty and C112_det say exactly what happens instead."
  }
 ]
}