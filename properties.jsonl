{"id": "C01", "title": "ADMM: SOLVED certifies a near-optimal, near-feasible point", "statement": "Whenever ADMM::solve returns SOLVED for a QP with lower bounds not above upper bounds, the returned primal point violates no general or box constraint by more than the primal tolerance eps_abs+eps_rel*max(norms), its stationarity residual is within the dual tolerance, the returned multipliers have the right sign (they are non-zero only at an active bound of the projected point), and for a positive semidefinite Hessian the objective exceeds that of any feasible point by no more than an explicit bound made of the two tolerances.", "quantifier": "every QP data (H,h,A,bounds), every initial guess, every setting, every iteration count, every behaviour of the linear solver", "why_tests_cant": "Tests try a handful of QPs; the certificate has to hold for every QP and for every iteration at which the loop may stop, including after step-size adaptations.", "anchors": ["src/solvers/admm.hpp: ADMM::solve_impl, residuals_update, termination_criteria, box_projection", "src/solvers/qp_base.hpp: primal_residual, dual_residual"]}
{"id": "C02", "title": "Native QP solvers: status and iteration count tell the truth", "statement": "After solve of ADMM or boxADMM the status is either SOLVED or MAX_ITER_EXCEEDED (never a leftover value), SOLVED is reported exactly when the reported iteration count does not exceed max_iter, the count is then a positive multiple of check_termination, with check_termination = 0 the solver never reports SOLVED, and on exhaustion the reported count is max(0,max_iter)+1.", "quantifier": "every problem, every integer setting (including zero and negative max_iter and check_termination), every scalar arithmetic including NaN results, every previous use of the solver object", "why_tests_cant": "The claim is about all settings and all executions, including NaN-producing ones; unit tests only exercise converging problems with default settings.", "anchors": ["src/solvers/admm.hpp: ADMM::solve_impl", "src/solvers/box_admm.hpp: boxADMM::solve_impl", "src/solvers/qp_base.hpp: status_t, qp_solver_info_t"]}
{"id": "C03", "title": "boxADMM: SOLVED certifies a near-optimal, near-feasible point", "statement": "Whenever boxADMM::solve returns SOLVED for a QP with consistent bounds, the constraint violation and the box violation together are within the primal tolerance, the stationarity residual is within the dual tolerance, multipliers have the sign required by the active bound, and for a positive semidefinite Hessian the objective is within an explicit bound of that of any feasible point.", "quantifier": "every QP data, guess, setting (any over-relaxation alpha), iteration count and linear-solver behaviour", "why_tests_cant": "Tests check individual solutions against known values; they cannot show that no input makes the solver claim success at a bad point.", "anchors": ["src/solvers/box_admm.hpp: boxADMM::solve_impl, residuals_update, termination_criteria", "src/solvers/qp_base.hpp: primal_residual, dual_residual"]}
{"id": "C04", "title": "Native QP solvers: the linear system is always the right one and always solvable", "statement": "At every iteration of a dense ADMM or boxADMM solve, also after any number of adaptive step-size changes, the matrix handed to the linear solver is exactly the KKT matrix of the problem for the step sizes currently in use; if the Hessian is symmetric positive semidefinite, sigma is positive and the step sizes are positive, this matrix is nonsingular.", "quantifier": "every iteration of every run, every sequence of step-size updates, every convex QP", "why_tests_cant": "Step-size adaptation only triggers on particular residual histories; a stale or singular matrix in a rare history is not reached by example runs.", "anchors": ["src/solvers/admm.hpp: construct_kkt_matrix, rho_vec_update, update_kkt_rho", "src/solvers/box_admm.hpp: construct_kkt_matrix, rho_vec_update, update_kkt_rho"]}
{"id": "C05", "title": "ADMM: a QP optimum is preserved by a warm start, and only optima are fixed points", "statement": "If the primal and dual guesses given to ADMM::solve form an exact KKT pair of a convex QP then, with an exact linear solver and for every over-relaxation parameter alpha, the solver returns exactly that pair and reports SOLVED at the first convergence check; conversely, a primal/dual/slack triple left unchanged by an iteration is a KKT point.", "quantifier": "every convex QP, every KKT pair, all settings with positive sigma, rho and non-negative tolerances", "why_tests_cant": "Needs all QPs and all KKT pairs, and is an exact statement about the iteration map, not about a tolerance.", "anchors": ["src/solvers/admm.hpp: ADMM::solve_impl, compute_kkt_rhs, box_projection"]}
{"id": "C06", "title": "boxADMM: a QP optimum is preserved by a warm start for every over-relaxation parameter", "statement": "If the primal and dual guesses given to boxADMM::solve form an exact KKT pair of a convex QP, then with an exact linear solver the iterates stay at that pair for every admissible alpha.", "quantifier": "every convex QP, every KKT pair, every alpha", "why_tests_cant": "The tests only run with the default alpha = 1, for which the primal update formula degenerates.", "anchors": ["src/solvers/box_admm.hpp: boxADMM::solve_impl lines 125-150"]}
{"id": "C07", "title": "ADMM never diverges and eventually reports SOLVED on solvable convex QPs", "statement": "For every convex QP that has a KKT point, with fixed step sizes (adaptive_rho off), a relaxation 0 < alpha < 2 and an exact linear solver, the weighted distance of the ADMM iterates to any KKT point (with a cross term for alpha <> 1) never increases, and the solver reports SOLVED whenever max_iter is large enough (an explicit bound) and eps_abs > 0. For alpha = 2 there is a problem that is never solved.", "quantifier": "every convex QP with a KKT point, every guess, every sigma, rho > 0, every eps_abs > 0", "why_tests_cant": "Convergence is a statement about unbounded runs on all convex problems.", "anchors": ["src/solvers/admm.hpp: ADMM::solve_impl"]}
{"id": "C08", "title": "QP solve is independent of the solver object's history", "statement": "Two dense ADMM (or boxADMM) solver objects with the same settings, given the same problem and guess, return the same solution, multipliers, status and iteration count, whatever they solved before, and grow the cumulative step-size update counter by the same amount; the residuals and the step-size estimate in info are the same too, unless this solve computed none, in which case each object keeps its old ones (see C49).", "quantifier": "every pair of prior histories (sequences of solve calls on arbitrary problems), every problem", "why_tests_cant": "Leaked state shows only for particular histories; the set of histories is infinite.", "anchors": ["src/solvers/admm.hpp: ADMM::solve_impl, rho_vec_update", "src/solvers/box_admm.hpp: boxADMM::solve_impl, rho_vec_update", "src/solvers/qp_base.hpp: parse_constraints_bounds"]}
{"id": "C09", "title": "Constraint rows are classified by their bounds and get admissible step sizes", "statement": "A row is treated as an equality exactly when its bounds are finite-ish (not both beyond 1e10) and differ by less than 1e-4, as unconstrained exactly when both bounds are beyond 1e10 in their direction, otherwise as an inequality; the per-row step size is then positive, and with a settings.rho inside [1e-6,1e6] it stays inside [1e-6,1e9] during the whole run, whatever adaptive updates happen.", "quantifier": "every bounds vector (including infinite bounds), every run", "why_tests_cant": "The boundary cases and the reachable step sizes over all runs cannot be enumerated.", "anchors": ["src/solvers/qp_base.hpp: parse_constraints_bounds", "src/solvers/admm.hpp: rho_vec_update, solve_impl", "src/solvers/box_admm.hpp: rho_vec_update, solve_impl"]}
{"id": "C10", "title": "Preconditioning is undone exactly", "statement": "For every QP the sequence compute/scale followed by unscale of the Ruiz (and identity) preconditioner restores Hessian, gradient, constraint matrix and all bounds, scaling then unscaling a primal-dual pair restores it, and all scaling factors are positive.", "quantifier": "every dense QP (including zero rows/columns), every number of equilibration sweeps", "why_tests_cant": "Tests compare a few random matrices to a tolerance; zero rows or columns and the exact algebra need all inputs.", "anchors": ["src/solvers/qp_preconditioners.hpp: RuizEquilibration::compute, scale, unscale, unscale_hessian", "src/solvers/qp_preconditioners.hpp: IdentityPreconditioner"]}
{"id": "C11", "title": "Solving the preconditioned QP solves the original QP", "statement": "A primal-dual pair is a KKT pair of the Ruiz-scaled QP if and only if the unscaled pair is a KKT pair of the original QP, feasibility is preserved in both directions and the scaled objective is the original objective times a positive constant.", "quantifier": "every QP, every scaling the preconditioner can produce", "why_tests_cant": "Equivalence of optimality conditions is a statement about all points of all problems.", "anchors": ["src/solvers/qp_preconditioners.hpp: RuizEquilibration::scale, unscale(x,y)"]}
{"id": "C12", "title": "Damped BFGS keeps the Hessian approximation symmetric positive definite forever", "statement": "Starting from any symmetric positive definite matrix, after any sequence of damped BFGS updates with arbitrary step and gradient-difference vectors the matrix is still symmetric positive definite, and an accepted update satisfies the (damped) secant equation.", "quantifier": "every starting matrix, every finite sequence of update pairs, every dimension", "why_tests_cant": "A history property: tests run a few updates, the invariant must survive every sequence.", "anchors": ["src/solvers/bfgs.hpp: BFGS_update"]}
{"id": "C13", "title": "SR1 update keeps symmetry and satisfies the secant equation or leaves the matrix unchanged", "statement": "For every symmetric matrix and every update pair the SR1 update either leaves the matrix unchanged or yields a symmetric matrix mapping the step to the gradient difference, and it never divides by zero.", "quantifier": "every symmetric matrix, every pair of vectors including zero vectors", "why_tests_cant": "The degenerate pairs (zero step, or step already explained by the matrix) are measure-zero and do not occur in tests.", "anchors": ["src/solvers/sr1.hpp: SR1_update"]}
{"id": "C14", "title": "Line-search filter: accepted points are never dominated and the filter stays small", "statement": "Over any sequence of insertions the filter never holds more entries than its maximum depth, a point reported acceptable is not dominated (with the margin beta) by any stored entry, a rejected point is dominated by some entry, and entries dominated by a newly inserted point are removed.", "quantifier": "every sequence of (cost, constraint violation) pairs, every depth", "why_tests_cant": "It is an invariant over all operation sequences.", "anchors": ["src/solvers/line_search.hpp: LSFilter::is_acceptable, add"]}
{"id": "C15", "title": "SQP: SOLVED means the stopping criteria hold at the returned point", "statement": "When the SQP solver reports SOLVED, the last primal and dual steps are within eps_prim and eps_dual and every equality, inequality and bound of the NLP is satisfied within eps_prim at the returned point; otherwise the status is MAX_ITER_EXCEEDED. The reported iteration count is between 1 and max(1,max_iter), and the iteration callback is invoked exactly iter-1 times.", "quantifier": "every NLP (as arbitrary functions), every QP-solver behaviour, every setting and starting point", "why_tests_cant": "It quantifies over all problems and all (possibly failing) inner QP solves.", "anchors": ["src/solvers/sqp_base.hpp: SQPBase::solve, termination_criteria_impl, max_constraints_violation_impl"]}
{"id": "C16", "title": "SQP line search: the step is a power of tau and satisfies Armijo unless the budget is exhausted", "statement": "The step size is tau^k for some k below line_search_max_iter; if k is smaller than the trial budget the l1 merit function satisfies the Armijo decrease condition at the new point and no larger trial step does; the number of cost evaluations is bounded by line_search_max_iter.", "quantifier": "every cost/constraint function, direction, multiplier and setting", "why_tests_cant": "The loop's exit behaviour must hold for every merit function, including discontinuous or NaN-valued ones.", "anchors": ["src/solvers/sqp_base.hpp: SQPBase::step_size_selection_impl"]}
{"id": "C17", "title": "SQP constraint-violation measures vanish exactly on the feasible set", "statement": "The maximum violation reported is zero exactly when all constraints hold and otherwise bounds each individual violation; the l1 violation exceeds its base value exactly when some constraint is violated.", "quantifier": "every point, every problem, infinite bounds included", "why_tests_cant": "All points and all bound configurations, including infinite bounds and not-a-number constraint values.", "anchors": ["src/solvers/sqp_base.hpp: constraints_violation_impl, max_constraints_violation_impl"]}
{"id": "C18", "title": "SQP iterates never leave simple bounds", "statement": "If the starting point satisfies the variable bounds and every inner QP step satisfies the QP's bounds, then for line-search factors tau in (0,1] every SQP iterate satisfies the variable bounds, and likewise equalities that are affine stay satisfied once satisfied.", "quantifier": "every NLP, every sequence of feasible inner QP steps, every number of iterations", "why_tests_cant": "An invariant over unbounded executions with arbitrary QP results.", "anchors": ["src/solvers/sqp_base.hpp: SQPBase::solve"]}
{"id": "C19", "title": "SQP rejects invalid settings", "statement": "If the settings fail their own validity predicate (e.g. tau outside (0,1), max_iter <= 0) the solver reports INVALID_SETTINGS and does not report a solution.", "quantifier": "every settings record", "why_tests_cant": "Needs all settings; the tests only use valid ones.", "anchors": ["src/solvers/sqp_base.hpp: sqp_settings_t::validate, SQPBase::solve"]}
{"id": "C20", "title": "Chebyshev nodes form a proper grid", "statement": "For every polynomial order N >= 1 the nodes are strictly decreasing from 1 to -1 and symmetric about 0, so they are pairwise distinct.", "quantifier": "every order N", "why_tests_cant": "Tests instantiate a few template orders only.", "anchors": ["src/polynomials/ebyshev.hpp: compute_nodes / nodes"]}
{"id": "C21", "title": "Chebyshev differentiation matrix differentiates polynomials exactly", "statement": "For every order N and every polynomial of degree at most N, multiplying its node values by the differentiation matrix gives exactly its derivative at the nodes; rows sum to zero and the matrix is centro-antisymmetric.", "quantifier": "every order N, every polynomial of degree <= N", "why_tests_cant": "All orders and a whole function space; floating-point spot checks cover a few orders.", "anchors": ["src/polynomials/ebyshev.hpp: compute_diff_matrix / D"]}
{"id": "C22", "title": "Clenshaw-Curtis weights integrate polynomials exactly", "statement": "For every order N >= 1 the quadrature with the computed weights gives the exact integral over [-1,1] of every polynomial of degree at most N; in particular the weights sum to 2, are symmetric and positive.", "quantifier": "every order N, every polynomial of degree <= N", "why_tests_cant": "All orders and a whole function space.", "anchors": ["src/polynomials/ebyshev.hpp: compute_clenshaw_curtis_weights, integrate"]}
{"id": "C23", "title": "Legendre differentiation matrix differentiates polynomials exactly", "statement": "For every order N the Legendre-Gauss-Lobatto differentiation matrix maps node values of a polynomial of degree at most N to its derivative at the nodes; in particular every row sums to zero.", "quantifier": "every order N, every polynomial of degree <= N", "why_tests_cant": "All orders; the corner entries are only visible on functions that do not vanish at the end points.", "anchors": ["src/polynomials/legendre.hpp: compute_diff_matrix"]}
{"id": "C24", "title": "Legendre basis polynomials are the Legendre polynomials", "statement": "For every n the n-th basis polynomial produced by the recurrence has degree n, equals 1 at 1 and (-1)^n at -1, has parity n, satisfies Legendre's differential equation, and distinct basis polynomials are orthogonal with squared norm 2/(2n+1).", "quantifier": "every n", "why_tests_cant": "Infinite family; tests look at one or two orders.", "anchors": ["src/polynomials/legendre.hpp: basis / generate_basis_polynomials, normalization_factors"]}
{"id": "C25", "title": "Polynomial arithmetic helpers compute the product and the derivative", "statement": "poly_mul returns the coefficients of the product polynomial and poly_diff those of the derivative, for all coefficient vectors.", "quantifier": "every pair of coefficient vectors, every evaluation point", "why_tests_cant": "All coefficient vectors and degrees.", "anchors": ["src/polynomials/polynomial_math.hpp: poly_mul, poly_diff"]}
{"id": "C26", "title": "Lagrange spline interpolates and reproduces polynomials", "statement": "For every set of pairwise distinct nodes the Lagrange spline returns the data at the nodes, and if the data are sampled from a polynomial of degree below the number of nodes it returns the value of that polynomial at every point, so it is exact on the collocation polynomial.", "quantifier": "every node set, data, evaluation point", "why_tests_cant": "All node sets and evaluation points.", "anchors": ["src/polynomials/splines.hpp: LagrangeSpline::compute_basis, eval"]}
{"id": "C27", "title": "Equidistant cubic spline evaluation is always in bounds", "statement": "For every evaluation point, inside or outside the interpolation interval, evaluation accesses an existing segment and returns the spline value of the nearest segment.", "quantifier": "every evaluation point, every number of segments", "why_tests_cant": "The failing points are a boundary set that tests do not hit.", "anchors": ["src/polynomials/splines.hpp: EquidistantCubicSpline::eval"]}
{"id": "C28", "title": "OCP time grid is a proper collocation grid", "statement": "For every number of segments, order and interval t_start < t_stop the time nodes are strictly monotone, start and end exactly at the limits, include every segment boundary exactly once, and each segment is an affine image of the polynomial nodes.", "quantifier": "every order, segment count and horizon", "why_tests_cant": "All template parameters and horizons.", "anchors": ["src/control/continuous_ocp.hpp: time_nodes, set_time_limits", "src/control/ode_collocation.hpp"]}
{"id": "C29", "title": "Collocated dynamics: zero residual means the collocation conditions hold", "statement": "The equality constraints of the transcribed OCP are zero exactly when, on every segment and at every collocation point except the left-out end point, the derivative of the interpolating polynomial of the states equals the scaled dynamics; constraints of different segments only couple through the shared boundary state.", "quantifier": "every dynamics function, every order, segment count and trajectory", "why_tests_cant": "All dynamics, all trajectories and all grid sizes.", "anchors": ["src/control/continuous_ocp.hpp: equalities, compute composite differentiation matrix", "src/control/ode_collocation.hpp"]}
{"id": "C30", "title": "OCP equality Jacobian is the derivative of the OCP equalities", "statement": "Given exact derivatives of the user dynamics, the dense Jacobian returned by the linearisation is the derivative of the equality constraints with respect to states, controls and parameters, at every point, and the constraint values returned with it equal those of the plain evaluation.", "quantifier": "every differentiable dynamics, every point, every dimension, order and segment count", "why_tests_cant": "Tests compare against automatic differentiation at a few points of one problem; block offsets must be right for every dimension.", "anchors": ["src/control/continuous_ocp.hpp: equalities_linearised (dense)"]}
{"id": "C31", "title": "Sparse OCP Jacobian equals the dense one, on first assembly and on every update", "statement": "The sparse equality Jacobian has the same entries as the dense one, its reserved non-zero counts are exact, and re-evaluating it in place at a new point gives the same matrix as assembling it afresh, for any sequence of points.", "quantifier": "every dimension, order, segment count, dynamics and sequence of evaluation points", "why_tests_cant": "Raw value-array offsets must be right for all dimensions; tests use one problem.", "anchors": ["src/control/continuous_ocp.hpp: equalities_linearised_sparse, equalities_linearised_sparse_update, estimate_jac_inner_nnz"]}
{"id": "C32", "title": "Sparse inequality Jacobian update equals a fresh assembly", "statement": "Updating the sparse Jacobian of the path constraints in place gives the same matrix as assembling it afresh, for every number of constraints and states.", "quantifier": "every NX, NU, NP, NG, number of nodes and constraint functions", "why_tests_cant": "The offsets only coincide for special dimension combinations used in tests.", "anchors": ["src/control/continuous_ocp.hpp: inequalities_linearised_sparse_update"]}
{"id": "C33", "title": "OCP cost is the composite quadrature of the running cost plus the terminal cost", "statement": "The transcribed cost equals the sum over segments of the scaled quadrature of the running cost plus the terminal cost at the final node, and its returned gradient is its derivative, for every OCP.", "quantifier": "every running and terminal cost (including absent ones), every trajectory, every grid", "why_tests_cant": "All costs and grids; absent terms and first-use state are not covered by tests.", "anchors": ["src/control/continuous_ocp.hpp: cost, cost_gradient"]}
{"id": "C34", "title": "Dense and sparse OCP cost Hessians are the second derivative of the cost", "statement": "Given exact second derivatives of the user costs, both Hessian assemblies return the matrix of second derivatives of the transcribed cost for every dimension combination, so dense and sparse agree.", "quantifier": "every NX, NU, NP, segment count, cost", "why_tests_cant": "The offsets only differ for dimension combinations not used in tests (e.g. NP > 0 with several segments).", "anchors": ["src/control/continuous_ocp.hpp: cost_gradient_hessian dense and sparse"]}
{"id": "C35", "title": "OCP Lagrangian gradient is assembled from cost gradient, Jacobian and multipliers", "statement": "The gradient returned with the Lagrangian is cost gradient + transposed Jacobian times constraint multipliers + bound multipliers for the dense and the sparse variant alike, and the sparse constraint Jacobian stacks equality over inequality Jacobian at every call.", "quantifier": "every problem size, every multiplier vector, first and subsequent calls", "why_tests_cant": "All sizes and call sequences.", "anchors": ["src/control/continuous_ocp.hpp: lagrangian_gradient (dense, sparse)"]}
{"id": "C36", "title": "MPC wrapper setters only change what they name and getters return what the solver holds", "statement": "Each bound/guess/parameter setter of MPC changes exactly the named slice of the problem (states, controls, initial or final state, parameters) and leaves everything else unchanged, for any sequence of calls; the reshaped getters and the per-node getters agree, with node 0 of the user-facing order being the initial time.", "quantifier": "every sequence of setter calls with arbitrary arguments, every dimension", "why_tests_cant": "A frame property over all call sequences and dimensions.", "anchors": ["src/control/mpc_wrapper.hpp: MPC setters and getters"]}
{"id": "C37", "title": "MPC solution interpolation evaluates the right segment", "statement": "solution_x_at(t) and solution_u_at(t) return the value at time t of the polynomial of the segment containing t, for every t inside the horizon and every horizon start.", "quantifier": "every t, every horizon [t_start,t_stop], every number of segments", "why_tests_cant": "All times and horizons; tests use t_start = 0.", "anchors": ["src/control/mpc_wrapper.hpp: solution_x_at(t), solution_u_at(t)"]}
{"id": "C38", "title": "Automatic differentiation computes derivatives", "statement": "For every program built from the supported arithmetic and elementary functions, evaluating it on AutoDiffScalar inputs yields the value and, wherever the functions are differentiable, the exact directional derivatives; nesting yields exact second derivatives.", "quantifier": "every expression (by structure), every input in the domain, every seeding", "why_tests_cant": "All programs.", "anchors": ["src/autodiff/AutoDiffScalar.h: AutoDiffScalar operators and elementary functions"]}
{"id": "C39", "title": "Assigning a constant to an AutoDiffScalar makes it a constant", "statement": "After assigning a plain number to an AutoDiffScalar variable its derivatives are zero, so a program that reuses a variable is differentiated correctly.", "quantifier": "every program with assignments, every state of the variable before the assignment", "why_tests_cant": "All programs with variable reuse.", "anchors": ["src/autodiff/AutoDiffScalar.h: AutoDiffScalar::operator=(const Scalar&)"]}
{"id": "C40", "title": "Lyapunov solver solves the Lyapunov equation", "statement": "The matrix X returned by lyapunov(A,Q) satisfies A X + X A' = Q whenever the equation has a unique solution.", "quantifier": "every square A (real or complex spectrum), every Q, every dimension", "why_tests_cant": "All matrices; the tests use matrices with real spectra.", "anchors": ["src/control/lqr.hpp: lyapunov", "src/polymath.cpp: oc::lyapunov"]}
{"id": "C41", "title": "LQR returns the optimal gain", "statement": "lqr(F,G,Q,R,M) returns K = R^-1(G'S+M') for a solution S of the algebraic Riccati equation of the regulator problem.", "quantifier": "every stabilisable system and positive definite weights", "why_tests_cant": "All systems and weights.", "anchors": ["src/control/lqr.hpp: lqr, care, newton_ls_care, line_search_care"]}
{"id": "C42", "title": "Interior-point interface passes the Jacobian values and reads only its buffers", "statement": "After a value request for the constraint Jacobian the caller's buffer contains the Jacobian entries in the order announced by the structure request, and the adapter reads only the entries the solver supplies.", "quantifier": "every problem size and sparsity, every buffer content", "why_tests_cant": "Memory effects on foreign buffers for all sizes; not visible in converged results with approximations.", "anchors": ["src/solvers/ipopt_interface.hpp: get_data, get_sparsity, eval_jac_g, finalize_solution"]}
{"id": "C43", "title": "Third-party QP interfaces report the solver's residuals and status", "statement": "After a solve through the OSQP or QPMAD interface, the reported primal and dual residuals are those of the solver, and the reported status reflects this call.", "quantifier": "every outcome of the third-party solver, every prior state", "why_tests_cant": "All outcomes, including failures that tests do not provoke.", "anchors": ["src/solvers/osqp_interface.hpp: solve_impl", "src/solvers/qpmad_interface.hpp: solve_impl"]}
{"id": "C44", "title": "Chebyshev points for an interval lie in that interval", "statement": "polymath::cheb returns, for an interval [a,b], the affine image of the reference nodes in [a,b] with end points a and b, and the differentiation matrix for that interval.", "quantifier": "every interval, every order", "why_tests_cant": "All intervals.", "anchors": ["src/polymath.cpp: cheb"]}
{"id": "C45", "title": "Block BFGS keeps each diagonal block positive definite", "statement": "The OCP block Hessian update equals the damped BFGS update restricted to the block structure; without parameters the whole block-diagonal matrix stays symmetric positive definite over any sequence of updates with non-zero steps.", "quantifier": "every sequence of update pairs, every dimension and number of nodes", "why_tests_cant": "A history property over all update sequences.", "anchors": ["src/control/continuous_ocp.hpp: hessian_update_impl"]}
{"id": "C46", "title": "RBF kernel derivatives are the derivatives of the kernel", "statement": "The gradient and Hessian produced by the kernel for dual-number inputs equal the derivatives of the kernel value.", "quantifier": "every input, every dimension", "why_tests_cant": "All inputs.", "anchors": ["src/autodiff/rbf_kernel.hpp"]}
{"id": "C47", "title": "Quaternion helpers implement rotations", "statement": "Quaternion product is associative and norm-multiplicative, the inverse is a two-sided inverse for unit quaternions, and transforming a vector by a unit quaternion preserves its length and composes.", "quantifier": "all quaternions and vectors", "why_tests_cant": "All reals.", "anchors": ["src/polymath.cpp: quat_multiply, quat_inverse, quat_transform"]}
{"id": "C48", "title": "Runge-Kutta step has order four", "statement": "One rk4 step integrates polynomial right-hand sides of degree at most 3 in time exactly, on a linear system reproduces the exponential series up to fourth order, and for every scalar polynomial equation has the Taylor coefficients of the solution up to fourth order; the integrator with method RK4 advances by exactly one such step of the requested size.", "quantifier": "every affine system, polynomial, step size and history of parameter updates", "why_tests_cant": "All systems and step sizes.", "anchors": ["src/integration/integrator.cpp: RK4 integrator", "src/polymath.cpp: rk4_symbolic"]}
{"id": "C49", "title": "Residuals reported by the native QP solvers describe the returned point", "statement": "After every solve of ADMM or boxADMM the residuals in info() are the primal and dual residuals of the returned point.", "quantifier": "every problem, guess and setting, every history", "why_tests_cant": "Tests read the residuals only after successful solves with default settings.", "anchors": ["src/solvers/admm.hpp: ADMM::solve_impl, residuals_update", "src/solvers/box_admm.hpp: boxADMM::solve_impl, residuals_update", "src/solvers/qp_base.hpp: qp_solver_info_t"]}
{"id": "C50", "title": "ADMM and boxADMM compute the same iterates", "statement": "With alpha = 1, the same settings (fixed step sizes), problem and guess, and exact linear solvers, the k-th iterates (primal point, multipliers, slacks) of ADMM and boxADMM coincide for every k, although the two solvers factorise different matrices; without convergence checks they return the same result.", "quantifier": "every convex QP, every guess, every k, every sigma, rho > 0", "why_tests_cant": "An equality of two infinite sequences for all problems; tests compare a few final results up to tolerances.", "anchors": ["src/solvers/admm.hpp: ADMM::solve_impl", "src/solvers/box_admm.hpp: boxADMM::solve_impl"]}
{"id": "C51", "title": "boxADMM never diverges and eventually reports SOLVED on solvable convex QPs", "statement": "For every convex QP that has a KKT point, with fixed step sizes, alpha = 1 and an exact linear solver, the result of boxADMM is never farther (in the weighted norm) from any KKT point than the guess, and SOLVED is reported whenever max_iter is at least an explicit bound and eps_abs > 0.", "quantifier": "every convex QP with a KKT point, every guess, every sigma, rho > 0, every eps_abs > 0", "why_tests_cant": "Convergence is a statement about unbounded runs on all convex problems.", "anchors": ["src/solvers/box_admm.hpp: boxADMM::solve_impl"]}
{"id": "C52", "title": "SQP: the reported cost is the cost of the returned point", "statement": "After solve() the value returned by cost() equals the objective evaluated at the returned primal point.", "quantifier": "every NLP, QP-solver behaviour, setting and starting point", "why_tests_cant": "Tests do not read cost() after runs in which the line search fails.", "anchors": ["src/solvers/sqp_base.hpp: SQPBase::step_size_selection_impl, solve"]}
{"id": "C53", "title": "SQP: the QP subproblem is the linearised NLP", "statement": "A step is feasible for the QP subproblem exactly if it satisfies the constraints of the NLP linearised at the current point (equalities, inequalities and bounds), and the zero step with multipliers lambda is optimal for the subproblem exactly if the current point with lambda is a KKT point of the NLP.", "quantifier": "every NLP, point, Hessian, Jacobian and multiplier, infinite bounds included", "why_tests_cant": "Equivalence over all problems and points.", "anchors": ["src/solvers/sqp_base.hpp: SQPBase::solve (bounds of the QP)"]}
{"id": "C54", "title": "SQP stays at a KKT point and recognises it", "statement": "Started at a KKT point, with strictly convex subproblems solved exactly, no iterate moves; if the multipliers are unique and given as guess, SOLVED is reported after one iteration with the point unchanged.", "quantifier": "every NLP with a KKT point, every setting with nonnegative tolerances, every Hessian update that keeps the subproblems convex", "why_tests_cant": "All NLPs and KKT points.", "anchors": ["src/solvers/sqp_base.hpp: SQPBase::solve"]}
{"id": "C55", "title": "SQP steps are descent steps of the l1 merit function", "statement": "If the QP subproblem is solved exactly, the directional decrease h'p - mu*violation used by the line search is at most -p'Hp, and every step accepted by the line search decreases the l1 merit function by at least tau^k * eta * p'Hp.", "quantifier": "every NLP, every exactly solved subproblem, every setting", "why_tests_cant": "All directions and problems.", "anchors": ["src/solvers/sqp_base.hpp: SQPBase::step_size_selection_impl, solve"]}
{"id": "C56", "title": "SQP: SOLVED certifies stationarity of the returned multipliers", "statement": "When SOLVED is reported and the QP subproblems were solved exactly, the gradient of the Lagrangian with the returned multipliers is small (proportional to eps_prim).", "quantifier": "every NLP, setting and starting point", "why_tests_cant": "Tests compare primal solutions only and never start at a solution with wrong multipliers.", "anchors": ["src/solvers/sqp_base.hpp: SQPBase::termination_criteria, step_size_selection_impl, solve"]}
{"id": "C57", "title": "Sparse preconditioning is undone exactly", "statement": "For every sparse QP, compute followed by unscale of the sparse Ruiz preconditioner restores Hessian, gradient, constraint matrix and all bounds, and all scaling factors are positive and finite.", "quantifier": "every sparse QP, including empty rows and columns and zero cost", "why_tests_cant": "Tests use one QP with nonzero cost.", "anchors": ["src/solvers/qp_preconditioners.hpp: RuizEquilibration::compute (SPARSE), maxxCoeff, unscale"]}
{"id": "C58", "title": "Updating a preconditioner yields a scaling that can be undone", "statement": "update(H,h,A,...) followed by unscale restores the QP passed to update.", "quantifier": "every dense QP, every object state", "why_tests_cant": "No test calls update.", "anchors": ["src/solvers/qp_preconditioners.hpp: RuizEquilibration::update, unscale"]}
{"id": "C59", "title": "Gauss-type quadrature weights are exact to degree 2N-1", "statement": "The Chebyshev quadrature weights integrate every polynomial of degree at most 2N-1 exactly against 1/sqrt(1-x^2), and the Legendre weights (and Legendre integrate on any interval) give the exact plain integral of every polynomial of degree at most 2N-1; the Legendre weights are positive.", "quantifier": "every order N >= 1, every polynomial of degree <= 2N-1, every interval", "why_tests_cant": "Tests integrate single functions with tolerances.", "anchors": ["src/polynomials/ebyshev.hpp: compute_quad_weights", "src/polynomials/legendre.hpp: compute_quad_weights, compute_int_weights, integrate"]}
{"id": "C60", "title": "Projecting a polynomial onto the basis returns that polynomial", "statement": "For every polynomial of degree at most N, evaluating the projection computed from its node values gives the polynomial itself on the interval.", "quantifier": "every order N >= 1, every interval, every polynomial of degree <= N", "why_tests_cant": "Tests project smooth functions with high order, where the last coefficient is negligible.", "anchors": ["src/polynomials/projection.hpp: project, eval", "src/polynomials/ebyshev.hpp: compute_norm_factors", "src/polynomials/legendre.hpp: compute_norm_factors"]}
{"id": "C61", "title": "The OCP Lagrangian Hessian is the second derivative of the scaled Lagrangian", "statement": "Given exact user derivatives, the dense and the sparse Lagrangian Hessian equal the second derivative of cost_scale*cost + multipliers*constraints (+ box terms) at the evaluation point, after any history of earlier evaluations.", "quantifier": "every dimension, point, multiplier, cost scale and history of calls", "why_tests_cant": "Tests compare single matrices for NX=3, NU=2, NP=0/1.", "anchors": ["src/control/continuous_ocp.hpp: lagrangian_gradient_hessian dense and sparse"]}
{"id": "C62", "title": "Announced sparsity sizes are exact", "statement": "The number of non-zeros announced for the Lagrangian Hessian equals the number of entries on and below the diagonal that the assembled sparse Hessian stores, namely one triangle per node, the node-parameter coupling and one parameter triangle; the number announced for the constraint Jacobian equals the number of entries stored by the stacked sparse Jacobian of a first evaluation.", "quantifier": "every dimension, order and number of segments; every history of Hessian evaluations", "why_tests_cant": "External solvers allocate their buffers from these numbers; a test checks single dimension combinations.", "anchors": ["src/control/continuous_ocp.hpp:341-394", "src/control/continuous_ocp.hpp:2177-2301"]}
{"id": "C63", "title": "Lagrange interpolation helpers reproduce the data", "statement": "The interpolant through n distinct nodes takes the given values there and equals every polynomial of degree below n that has these values; the interpolator object returns values of the polynomial of its latest data after any sequence of calls.", "quantifier": "every number of nodes, all distinct nodes and values, every sequence of calls", "why_tests_cant": "All node sets and call sequences.", "anchors": ["src/polymath.cpp: lagrange_poly, lagrange_interpolant, lagrange_poly_basis, LagrangeInterpolator"]}
{"id": "C64", "title": "Both Chebyshev series evaluations agree", "statement": "chebyshev_expansion and chebyshev_expansion2 return the sum of u_k T_k(x), T_k(cos t) = cos(k t), for every non-empty series and every x in [-1,1].", "quantifier": "every series and every point of [-1,1]", "why_tests_cant": "All lengths and points.", "anchors": ["src/polymath.h: chebyshev_expansion, chebyshev_expansion2"]}
{"id": "C65", "title": "factorial returns the factorial", "statement": "factorial(n) returns n!.", "quantifier": "every unsigned n", "why_tests_cant": "Overflow starts beyond the tested arguments.", "anchors": ["src/polymath.cpp: factorial"]}
{"id": "C66", "title": "flip reverses rows or columns", "statement": "flip(m,1) returns the rows in reverse order, flip(m,2) the columns, and flipping twice restores the matrix.", "quantifier": "every non-empty matrix", "why_tests_cant": "All sizes.", "anchors": ["src/polymath.cpp: flip"]}
{"id": "C67", "title": "The NLP base class returns exact derivatives", "statement": "Constraint Jacobian, cost gradient, Lagrangian gradient and Lagrangian Hessian returned by the NLP base class are the partial (second) derivatives of the user's functions at the evaluation point, the Hessian that of cost_scale*cost + multipliers*constraints, and symmetric.", "quantifier": "every number of variables and constraints, all user functions built from the supported operations, every evaluation point of differentiability, every history of earlier calls", "why_tests_cant": "All functions, dimensions and call histories; tests use one or two problems.", "anchors": ["src/solvers/nlproblem.hpp: ProblemBase"]}
{"id": "C68", "title": "Lagrangian value and cost scale are consistent", "statement": "The Lagrangian value returned by the NLP base class equals cost plus multipliers times constraints in every function that returns one, and value, gradient and Hessian use the same cost scale.", "quantifier": "every problem, point, multiplier, cost scale", "why_tests_cant": "Tests look at one output at a time.", "anchors": ["src/solvers/nlproblem.hpp: lagrangian, lagrangian_gradient, lagrangian_gradient_hessian"]}
{"id": "C69", "title": "The problem handed to OSQP is the caller's problem", "statement": "The constraint matrix passed to OSQP is the caller's matrix above the identity, both when built anew and when an existing pattern is refilled, and a primal-dual pair satisfies OSQP's optimality conditions exactly if it satisfies those of the caller's QP with multipliers ordered general constraints first, box second.", "quantifier": "every size, sparsity pattern and data, every number of refills", "why_tests_cant": "All patterns; memory layout of sparse matrices.", "anchors": ["src/solvers/osqp_interface.hpp: construct_A, block_insert_sparse, solve_impl"]}
{"id": "C70", "title": "Repeated solves through the OSQP interface solve the problem given", "statement": "In a sequence of solves through the OSQP interface each call solves the problem it is given: a success status means that the returned pair is a KKT pair of this call's problem.", "quantifier": "every sequence of calls, settings and problems of one size", "why_tests_cant": "Tests perform one solve per object or the SQP pattern.", "anchors": ["src/solvers/osqp_interface.hpp: solve_impl"]}
{"id": "C71", "title": "Step-size adaptation balances the residuals", "statement": "The ADMM step size changes only in adaptation passes, stays within [1e-6, 1e6], is raised only if the scaled primal residual exceeds the scaled dual one by more than the squared tolerance and lowered only in the opposite case, then by the square root of the ratio within the limits; with balanced residuals it is kept.", "quantifier": "every QP, settings, run and pass of both solvers; the residuals are those of the current iterate", "why_tests_cant": "All runs; wrong adaptation only slows convergence down, which tests do not notice.", "anchors": ["src/solvers/admm.hpp:181-199,485-493", "src/solvers/box_admm.hpp:170-187,433-445"]}
{"id": "C72", "title": "Sparse and dense QP solvers agree", "statement": "The sparse variants of ADMM and boxADMM return, call by call, what the dense variants return for the same problem: same status, iterates, residuals and statistics, whether the KKT matrix is assembled anew or an existing pattern is refilled; the assembled matrix is [[H+D, A'],[A, -R]]. So a SOLVED status carries the same near-optimality certificate.", "quantifier": "every size, sparsity pattern, data, sequence of solve calls on one object and choice of pattern reuse, every linear solver", "why_tests_cant": "Memory positions of sparse entries depend on pattern and call history; tests use one pattern and one or two calls.", "anchors": ["src/solvers/admm.hpp:230-480", "src/solvers/box_admm.hpp:210-430", "src/solvers/qp_base.hpp"]}
{"id": "C73", "title": "A solved MPC problem gives a trajectory that obeys dynamics and bounds", "statement": "If a solve through the MPC wrapper reports SOLVED, the returned trajectory's segment polynomials satisfy the user's dynamics at every collocation node up to 2*segments*eps_prim/(tf-t0), every state, control, parameter and path-constraint bound in force (the one given by the last setter that names it) holds up to eps_prim, and the initial state equals the measured one up to eps_prim.", "quantifier": "every problem, discretisation order and number of segments, every sequence of setter calls and solves, every QP solver, preconditioner, linearisation and setting", "why_tests_cant": "Quantifies over all problems and closed-loop call sequences; tests check a few trajectories by eye.", "anchors": ["src/control/mpc_wrapper.hpp: solve, setters, getters", "src/control/continuous_ocp.hpp: equalities, inequalities", "src/solvers/sqp_base.hpp: solve, termination_criteria"]}
{"id": "C74", "title": "Older collocation layer: dynamics and constraint stacking", "statement": "ode_collocation::operator() of a default-constructed object is zero exactly when, on every segment, the polynomial through the node states satisfies the differential equation at the collocation nodes. linearized() returns the same residual and its exact derivative with respect to states and controls. generic_function of constraint_collocation stacks the values of the user function node by node. An object constructed from a Dynamics argument behaves the same.", "quantifier": "all dimensions, orders, numbers of segments, horizons, dynamics, points and directions", "why_tests_cant": "A test checks one problem and one order; the equivalence concerns every trajectory, and the argument constructor compiles and returns plausible numbers.", "anchors": ["src/control/ode_collocation.hpp:47-201", "src/control/constraints_collocation.hpp:147-188"]}
{"id": "C75", "title": "Older collocation layer: cost", "statement": "cost_collocation of a default-constructed object evaluates the Clenshaw-Curtis quadrature of the running cost over all segments plus the terminal cost, exact when the running cost is a polynomial of degree at most the order on every segment. value_gradient and value_gradient_hessian return the same value, its exact gradient and its exact Hessian. An object constructed from arguments behaves the same.", "quantifier": "all dimensions, orders, numbers of segments, horizons, cost terms, points and directions", "why_tests_cant": "Doubling at shared nodes, the modulo indexing of weights and the block positions interact for every order and segment count; tests fix one combination.", "anchors": ["src/control/cost_collocation.hpp:112-359"]}
{"id": "C76", "title": "Older collocation layer: sparse linearisation", "statement": "sparse_ode_collocation computes the same residual as the dense version, and any sequence of linearized() calls on one matrix leaves the dense Jacobian of the last point in it.", "quantifier": "all dimensions, orders, numbers of segments, dynamics, and all finite call sequences", "why_tests_cant": "Whether the reserved entry count equals the assembled one depends on whether diagonal entries of the differentiation matrix vanish, that is on the parity of the order; a test uses one order and usually one call.", "anchors": ["src/control/sparse_ode_collocation.hpp:101-301"]}
{"id": "C77", "title": "CasADi collocation constraint is the ODE at the nodes", "statement": "Chebyshev::CollocateDynamics returns a constraint whose entries all vanish exactly when, on every segment, the polynomial of degree PolyOrder through the node states satisfies the ODE at the nodes of that segment (nodes counted from the final time, last node of a segment shared with the next). The call fails exactly when the number of inputs of the function is not the expected one or its output has neither NX entries nor one entry. Known limits: the ODE is also imposed at the initial node, so an initial state may have no discrete solution; CollocateDynamics2 differentiates the member trajectory instead of its argument.", "quantifier": "all polynomial orders, segment counts, dimensions, functions, horizons, state/control/parameter/data values", "why_tests_cant": "tests compare one trajectory for fixed template arguments with a tolerance; the equivalence needs all values and all orders", "anchors": ["src/chebyshev.hpp:160-193", "src/chebyshev.hpp:247-317", "src/chebyshev.hpp:469-508"]}
{"id": "C78", "title": "CasADi cost quadrature, functions on the grid and their derivatives", "statement": "CollocateCost and CollocateParametricCost return the final term at the state at tf plus the exact integral of the running cost whenever the running cost is a polynomial of degree at most PolyOrder in time on every segment; null terms count as zero. CollocateFunction returns the function values at the nodes. DifferentiateFunction of order n returns the n-th derivative of the segment polynomials times ((tf-t0)/(2 S))^n if the derivatives agree where segments meet. It does not return derivatives with respect to time, and kinks at the junctions spoil higher orders.", "quantifier": "all polynomial orders, segment counts, dimensions, functions, derivative orders, values on the grid", "why_tests_cant": "exactness for all polynomials and all orders is a universal statement about real polynomials; tests sample a few functions", "anchors": ["src/chebyshev.hpp:204-237", "src/chebyshev.hpp:327-413", "src/chebyshev.hpp:528-578"]}
{"id": "C79", "title": "CasADi multiple-shooting collocation", "statement": "MSChebyshev::CollocateDynamics vanishes exactly when, on every segment, the polynomial through the segment's own PolyOrder+1 states satisfies the ODE at all its nodes with the constant control of the segment, and the first state of each earlier segment equals the last of the later one. Costs are exact for polynomial running costs. Functions of the state are evaluated and differentiated segment by segment; functions of the control alone give one value per segment, and their first-order derivative is the plain difference of consecutive controls, whatever the function.", "quantifier": "all polynomial orders, segment counts, dimensions, functions, horizons, values", "why_tests_cant": "the equivalence with piecewise polynomials needs all orders and values", "anchors": ["src/chebyshev_ms.hpp:58-59", "src/chebyshev_ms.hpp:241-307", "src/chebyshev_ms.hpp:317-401", "src/chebyshev_ms.hpp:412-585"]}
{"id": "C80", "title": "CasADi soft collocation penalty is zero only on discrete solutions", "statement": "SoftChebyshev::CollocateDynamics is the quadrature of the squared residuals of the hard collocation constraint. It is never negative, and it is zero exactly when the trajectory satisfies the collocation conditions at all nodes.", "quantifier": "all polynomial orders, segment counts, dimensions, functions, horizons, values", "why_tests_cant": "needs positivity of the quadrature weights for every order and all trajectories", "anchors": ["src/chebyshev_soft.hpp:204-237", "src/chebyshev_soft.hpp:284-328"]}
{"id": "C81", "title": "Pseudospectral ODE solver solves the initial value problem and keeps no history", "statement": "Without scaling, the NLP that PSODESolver::solve (solve_trajectory) hands to the NLP solver has as feasible points exactly the discrete solutions of the ODE: node states that start at X0, are piecewise polynomial and satisfy the ODE at every node but the initial one, with the given controls and parameters; the objective is zero there. So a feasible answer yields the state at time dt (or all node states) of such a solution. Results never depend on earlier calls, failing ones included. A control vector of the wrong size returns X0. Limits: solve(X0, U, true) binds the flag to the parameters and returns only the final state; with scaling the argument P hides the scaling matrix, so default calls fail and other calls give wrong states.", "quantifier": "all orders, segments, dimensions, ODE functions, initial states, controls, parameters, call histories, NLP solver answers", "why_tests_cant": "needs all call sequences and arbitrary solver answers; the repository has no test with scaling", "anchors": ["src/integration/chebyshev_integrator.hpp:192-317", "src/integration/chebyshev_integrator.hpp:320-394", "src/integration/chebyshev_integrator.hpp:397-481"]}
{"id": "C82", "title": "nmpc::computeControl solves the tracking control problem from the given state", "statement": "After any sequence of bound setters, warm start switches and computeControl calls (failing ones included), the NLP handed to the solver by nmpc::computeControl(X0) has as feasible points exactly the scaled node values of the feasible trajectories of the control problem: initial state X0, the state and control bounds set last at all nodes, and states that are piecewise polynomial and satisfy the dynamics at all nodes but the initial one. So for a feasible answer the stored OptimalTrajectory and OptimalControl are feasible in physical units and getPathError is the norm of the tracking error at X0. The first guess is X0 repeated; later guesses are the previous solution with its multipliers. The constructor works iff the output has NX (or one) components, or scale_x is given. Limits: setStateScaling after construction solves another problem; initialized() is never true.", "quantifier": "all orders, segments, dimensions, dynamics, output maps, positive diagonal scalings, bounds, initial states, call histories, solver answers", "why_tests_cant": "needs all call histories and arbitrary solver answers; the tests run one problem with one scaling", "anchors": ["src/nmpc.hpp:47-81", "src/nmpc.hpp:144-225", "src/nmpc.hpp:238-364", "src/nmpc.hpp:367-440"]}
{"id": "C83", "title": "nmpc tracking cost", "statement": "With diagonal weights and unscaled controls the NLP objective of nmpc is the weighted square of the final tracking error plus the integral of the weighted squares of error and control (exact when these are polynomials of degree at most PolyOrder on each segment). With positive diagonal weights, scaled or not, it is never negative and zero exactly when the reference is met at all nodes with zero controls. Limits: with a positive definite weight that is not diagonal the cost can be negative (the code sums the entries of Q r^2), and in scaled mode the control is penalised in scaled units, so scaling changes the cost of a trajectory.", "quantifier": "all orders, segments, dimensions, output maps, references, diagonal weights, scalings, node values", "why_tests_cant": "a test compares single numbers; sign and zero set need all trajectories", "anchors": ["src/nmpc.hpp:283-306", "src/chebyshev.hpp"]}
{"id": "C84", "title": "GenericOCP::solve solves the optimal control problem that the user described", "statement": "After any sequence of box setters, data setters, parameter mappings and solve calls (failing ones included), the NLP handed to the solver by GenericOCP::solve(lbx0, ubx0, ...) describes, in physical units, the user's optimal control problem with the boxes and data set last: a feasible point is a solution (initial state in its bounds, boxes at all other nodes, controls and parameters in their boxes, dynamics satisfied by the piecewise polynomial states at all nodes, path constraints and bounded derivatives at all nodes) and every solution extends by slacks to a feasible point. For a feasible answer the getters return a solution. The constructor succeeds exactly for the set-ups listed in C84_setup. The guess is X0, or the midpoint of the bounds. set_parameters(name, v) sets exactly the mapped entries. Limits: only the first component of the final constraint is imposed; scaled parameters reach the dynamics unscaled; diff() bounds are dropped without other path constraints.", "quantifier": "all orders, segments, dimensions, user functions, scalings, boxes, data, call histories, slacks on and off, hard and soft collocation, solver answers", "why_tests_cant": "needs all call histories, user functions and solver answers; the repository has one example with one problem", "anchors": ["src/generic_ocp.hpp:107-185", "src/generic_ocp.hpp:287-565", "src/generic_ocp.hpp:616-645"]}
{"id": "C85", "title": "GenericOCP cost, soft collocation weight and slack penalty", "statement": "Without slacks the objective of GenericOCP is the Mayer term at the final state plus the integral of the Lagrange term (exact when it is a polynomial of degree at most PolyOrder on each segment), plus for SoftChebyshev soft_rho times the integrated squared defects (never negative, zero exactly when the dynamics hold), plus the sums of the squared weighted derivatives of the norm_diff and norm_ddiff expressions at all nodes (unless the rest of the cost is identically zero). With slacks, at every feasible point, a penalty is added that is never negative and zero exactly when every path constraint is active at every node. Limits: so slacks change which trajectory is optimal; norm_diff is not the integral of the squared derivative; mpc.slack_penalty_type is ignored without the misspelt key.", "quantifier": "all orders, segments, dimensions, user functions, weights, scalings, NLP points, call histories", "why_tests_cant": "a test compares single numbers; the penalty statement ranges over all feasible points", "anchors": ["src/generic_ocp.hpp:244-262", "src/generic_ocp.hpp:364-406", "src/generic_ocp.hpp:513-525"]}
{"id": "C86", "title": "nmpf::computeControl solves the path following problem and stores a feasible trajectory", "statement": "After any sequence of bound setters, setReferenceVelocity, setPathParameters, enableWarmStart/disableWarmStart and computeControl calls (failing ones included), the NLP that computeControl(X0) hands to the solver has as feasible points exactly the trajectories of the path following problem, in scaled coordinates: the system starts at X0, theta and its velocity start within the flexibility of X0 (theta wrapped once by the reset length for a warm start), the bounds set last hold at all nodes, the dynamics hold for piecewise polynomial states, theta' is the velocity and velocity' the virtual control. For a feasible answer the stored trajectory and control are feasible, and getPathError and getVelocityError are the distances from the path and from the reference velocity at the initial node. A warm start moves theta of the last solution by the same amount at all nodes; for a path with the reset length as period this keeps its cost and its dynamics. Limits: theta is moved only once, X0 is not stored wrapped so that repeated calls move the guess out of the bounds, getCost evaluates the initial guess, getVirtState needs 14 states.", "quantifier": "all orders, segments, dimensions, dynamics, outputs, paths, scalings, bounds, reference velocities, call histories, initial states, solver answers", "why_tests_cant": "needs all call histories and solver answers; the repository has one example with one robot model", "anchors": ["src/nmpf.hpp:20-120", "src/nmpf.hpp:141-430", "src/nmpf.hpp:432-565"]}
{"id": "C87", "title": "nmpf cost and closest point on the path", "statement": "After any sequence of calls the objective is the weighted square of the final path error plus the integral of weighted squares of path error, velocity error and controls, for the reference velocity and path parameters set last (exact when the running cost is a polynomial of degree at most PolyOrder on each segment); the weights are the column sums of the weight matrices. With positive weights it is never negative and zero exactly when the output is on the path at theta, the velocity is the reference velocity and the controls are zero at all nodes. It does not depend on the scaling. findClosestPointOnPath returns from every initial guess a closest point of a straight path, and for every regular path the result of at most eleven Gauss-Newton steps, the last of them (before the eleventh) from a point where the error is nearly orthogonal to the path. Limits: a positive definite Q may give a negative cost; on a circle the farthest point may be returned; without path parameters the function throws.", "quantifier": "all dimensions, paths, weights, scalings, NLP points, call histories, positions, initial guesses", "why_tests_cant": "a test compares single numbers; the statements range over all points, paths and guesses", "anchors": ["src/nmpf.hpp:258-340", "src/nmpf.hpp:567-602"]}
{"id": "C88", "title": "Pseudo-arclength continuation ends at a root and follows the homotopy curve", "statement": "In symbolic_psarc, with feasible corrector answers, every corrected point is on the homotopy curve lambda (x - x0) + (1 - lambda) F(x) = 0 with lambda >= 0, and when the loop ends its point is a root of F. The first problem has the initial guess as its only feasible point when that satisfies the hard-coded bounds, and none otherwise; systems with fewer than 6512 unknowns always give an exception. Every direction has length one, the first decreases lambda, later ones do not reverse, and it is tangent to the curve unless dx/dlambda has an entry above 20. With a corrector that projects on the curve a step ends at most one from the predicted point. For F(x) = x - a with exact subproblems the loop ends at a after exactly the number of iterations given by the length of the curve, rounded up. Limits: the rescaled direction is not tangent; the hard-coded bounds can keep the loop running for ever although F has a root and the identity as Jacobian; the repository's own two-dimensional example throws.", "quantifier": "all systems of equations, initial guesses, corrector and linear solver answers, numbers of iterations", "why_tests_cant": "the repository's examples for this class need the missing dependencies kite.h and ma97 and check nothing; the statements range over all systems and runs of any length", "anchors": ["src/experimental/psarc.hpp:66-93", "src/experimental/psarc.hpp:163-370"]}
{"id": "C89", "title": "is_psd decides positive semidefiniteness of symmetric fixed-size matrices", "statement": "For a symmetric matrix type with a size known at compile time, is_psd returns true exactly when v' h v >= 0 for all v. Limits: for matrices of dynamic size it always returns true; for matrices that are not symmetric it does not decide v' h v >= 0.", "quantifier": "all sizes, all symmetric matrices, all vectors v", "why_tests_cant": "a test can only try single matrices; with a dynamic type every positive test passes although nothing is checked", "anchors": ["src/solvers/utils.hpp:27-38"]}
{"id": "C90", "title": "Helpers of polymath: smooth step, angles, column-wise evaluation, ranges", "statement": "heaviside(x, K) is within K exp(-4|x|) of the step of height K, increases from 0 to K, satisfies h(x) + h(-x) = K and has the logistic slope. deg2rad is proportional with 180 degrees = pi. mat_func stacks the function's outputs column by column and throws exactly when the function throws for a column. mat_dynamics returns one block f(x_k, u_k) per control column followed by the last column of x, and fails exactly for an empty x, more controls than states, or a failing call. range returns exactly the values first + k step up to last for a positive step and does not end for other steps. Limit: with doubles the end value can be missing, range(0, 0.3, 0.1) has three values.", "quantifier": "all arguments, matrices of any size, arbitrary user functions, all steps", "why_tests_cant": "tests try single arguments; the loop without end cannot be observed by a test, the missing end value depends on rounding", "anchors": ["src/polymath.cpp:52-55", "src/polymath.cpp:98-126", "src/polymath.h:37-38", "src/polymath.h:53-62"]}
{"id": "C91", "title": "CollocateIdCost integrates the identification cost along the measurements", "statement": "Chebyshev::CollocateIdCost returns the quadrature of IdCost(x(t), measurement(t)), exact for polynomials. This is false: the slice of the data is empty, so the second argument is always zero, the measurements have no effect, and a trajectory equal to the measurements does not have cost zero. A table of the wrong size gives the cost 0.", "quantifier": "all grids, tables, cost functions, horizons and states", "why_tests_cant": "a test would have to compare two tables; the repository's identification example only checks that the code runs", "anchors": ["src/chebyshev.hpp:423-459"]}
{"id": "C92", "title": "is_controllable decides controllability", "statement": "LinearSystem::is_controllable returns true exactly when every state of x' = Fx + Gu can be steered to every other state in every positive time by a continuous input. When it returns false there is a direction orthogonal to every state reachable from rest, at any time and by any input. The matrix whose rank is taken has the blocks G, FG, ..., F^(n-1) G.", "quantifier": "all n, m, matrices F and G, start and end states, horizons; for the negative part all inputs and trajectories", "why_tests_cant": "a test can try a few systems and inputs; that no input at all reaches a state, and that every state is reached in every time, are statements about infinitely many trajectories", "anchors": ["src/polymath.cpp:306-323", "src/polymath.h:290-305"]}
{"id": "C93", "title": "SQP solves a strictly convex QP in one step", "statement": "When the NLP given to the SQP solver is a strictly convex quadratic program, the Hessian is exact, the subproblems are solved exactly, eta < 1/2 and the line search may test at least one step, then: no iterate is further from the minimiser (in the norm of the Hessian) than the starting point; from every starting point further away than a rounding blur of size eta/(1/2-eta)*|multipliers|*EPSILON the first full step is accepted and reaches the minimiser exactly, the iterates stay there, and if the multipliers are unique SOLVED is reported by the second iteration with the right multipliers. Starts inside the blur end inside the blur.", "quantifier": "all quadratic programs (any dimensions, bounds, infeasible starts), settings with 0 <= tau <= 1, starting points and multiplier guesses, preconditioners that restore the gradient", "why_tests_cant": "a test solves a few QPs; that the l1 line search never rejects the full step (no Maratos effect) for any QP and any penalty is a statement about all of them", "anchors": ["src/solvers/sqp_base.hpp:155", "src/solvers/sqp_base.hpp:425-487", "src/solvers/sqp_base.hpp:569-696"]}
{"id": "C94", "title": "ADMM and boxADMM converge to one optimum", "statement": "For every convex QP that has a KKT point, every guess, sigma, rho > 0 and relaxation 0 < alpha < 2 (alpha = 1 for boxADMM), fixed step sizes and exact linear solves, there is one KKT pair (xl, yl), determined by the problem, the guess, sigma, rho and alpha, such that for every e > 0 there are a number K and a tolerance tol > 0 with: every run that makes more than K iterations, and every run that reports SOLVED with eps_abs, eps_rel <= tol, returns primal point, multipliers and projected rows within e of (xl, yl). It does not matter which exact linear solver and storage mode is used, what the object solved before, how often convergence is checked and what the iteration limit is; for alpha = 1 ADMM and boxADMM approach the same pair.", "quantifier": "all convex QPs with a KKT point (optimum not necessarily unique), all guesses and all settings of the stated kind, all e > 0", "why_tests_cant": "a limit of unboundedly long runs; when the optimum is not unique a test cannot know which one to expect, and tightening tolerances could make the result jump between optima", "anchors": ["src/solvers/admm.hpp:112-213", "src/solvers/box_admm.hpp:88-200"]}
{"id": "C95", "title": "ADMM with adaptive step sizes", "statement": "With adaptive_rho = true, ADMM (0 < alpha < 2) and boxADMM (alpha = 1) eventually report SOLVED on every convex QP with a KKT point. Proved part: for every number U there is a budget of iterations (explicit in the distance of the guess to the optimum, the tolerance and the problem) after which the run has reported SOLVED or has changed its step sizes more than U times. Refuted part: the changes need not end. With every setting at its default except adaptive_rho = true, on min x^2/2 + 100 x subject to -10 <= 2x <= 10, -1 <= x <= 3, started from zero, both solvers run into MAX_ITER_EXCEEDED for every max_iter, change the step sizes at every 25th iteration, and end more than 0.18 away from the optimum; with adaptive_rho = false both solve it.", "quantifier": "all convex QPs with a KKT point, guesses, settings, objects, exact linear solvers and numbers U; the cycle for all max_iter, objects and exact solvers", "why_tests_cant": "no finite run distinguishes a cycle of the step sizes from slow convergence; a test with a fixed max_iter cannot show that no max_iter is enough", "anchors": ["src/solvers/admm.hpp:112-213", "src/solvers/admm.hpp:405-445", "src/solvers/admm.hpp:485-500", "src/solvers/box_admm.hpp:88-200", "src/solvers/qp_base.hpp:17-36"]}
{"id": "C96", "title": "SQP converges globally on smooth problems with linear constraints", "statement": "For a problem with linear constraints, a cost whose gradient is Lipschitz with constant L, a feasible starting point, subproblems solved exactly with Hessians of smallest eigenvalue at least m, and a line search with tau^(ls_max_iter - 1) <= (1 - eta) m / L: every iterate of solve() is feasible and the cost never increases; the number of steps of length at least e, multiplied by eta m a e^2 with a = min(1, tau (1 - eta) m / L), is at most cost(start) - cost(result); if the cost is bounded below and max_iter is large enough (explicitly) one of the iterates is an approximate KKT point; SOLVED implies that the last step started at an approximate KKT point within eps_prim of the result. For problems without constraints SOLVED is reported within an explicit number of iterations, from every starting point and every multiplier guess.", "quantifier": "all problems (any size), starting points, multiplier guesses, settings with 0 < tau, eta < 1, Hessian updates, preconditioners and QP solvers as described, and all e", "why_tests_cant": "convergence from every starting point and iteration bounds quantify over all problems and runs; tests run a handful of problems", "anchors": ["src/solvers/sqp_base.hpp:378-425", "src/solvers/sqp_base.hpp:569-696", "src/solvers/sqp_base.hpp:489-521"]}
{"id": "C97", "title": "Hessian regularisations return positive definite matrices", "statement": "The Gershgorin regularisation installed by the optimal control tests turns every symmetric Hessian into a symmetric, strictly diagonally dominant, positive definite one; it changes only diagonal entries of columns that are not strictly dominant, which become the radius of the column plus the constant, and applying it twice is the same as applying it once. Mirroring the eigenvalues returns a symmetric positive definite matrix whenever the computed eigenvectors span the space, the unchanged matrix if all eigenvalues are positive, and, for orthonormal eigenvectors, a matrix with the same eigenvectors whose nonpositive eigenvalues have changed sign and moved by 0.1. Positive definite Hessians are left alone.", "quantifier": "all sizes, symmetric matrices, positive constants, and eigenvalue solvers that return eigenpairs", "why_tests_cant": "positive definiteness for every symmetric matrix of every size cannot be sampled", "anchors": ["tests/control/nonlinear_constraints_test.cpp:102-130", "tests/control/minimal_time_test.cpp:90-118", "tests/control/dense_sparse_compare.cpp:109-137", "tests/solvers/sqp/codegen_test.cpp:345-358", "tests/solvers/sqp/sqp_test_autodiff.cpp:29-45"]}
{"id": "C98", "title": "SQP with exact Hessians converges quadratically near a solution", "statement": "When update_linearisation is overridden so that the exact Hessian of the Lagrangian is used in every iteration, the solver returns after at most max_iter iterations with SOLVED exactly when the termination test holds at the returned point. Near a KKT point of a problem with a strongly convex Lagrangian, the full step is accepted and every iteration squares the distance to the KKT point, up to a constant (L / (2m) for an L-Lipschitz Hessian bounded below by m) and down to the resolution set by EPSILON in the penalty term.", "quantifier": "all problem sizes, linear constraints with any bounds, cost functions with Lipschitz Hessian, starting points in the region, settings with eta < 1/2, QP solvers that return KKT pairs", "why_tests_cant": "a convergence rate is a statement about all starting points near a solution and all later iterations; tests see final values", "anchors": ["src/solvers/sqp_base.hpp:305-330", "src/solvers/sqp_base.hpp:569-696", "tests/solvers/sqp/codegen_test.cpp:376-398", "tests/control/nonlinear_constraints_test.cpp:138-154", "tests/control/minimal_time_test.cpp:126-142"]}
{"id": "C99", "title": "The gradient projection prototype minimises over the box", "statement": "GradProj::solve ends for all data, returns a point within the bounds l <= x <= u, never increases the cost from one iteration to the next, and its iterates converge to the minimiser of the quadratic over the box. For bounds that contain zero every line search ends; the bounds limit each move of an entry to [-u_i, -l_i]; a limit of the iterates is a point where the gradient vanishes, whatever the bounds; with eigenvalues of H in (0, 20/9) the cost decreases and the iterates converge to the unconstrained minimiser from every starting point.", "quantifier": "all sizes, symmetric H, bounds, starting points, numbers of iterations; the first refutation is the run of the test itself in binary64", "why_tests_cant": "the test prints the result and asserts nothing; termination and convergence concern all data and infinitely many iterations", "anchors": ["src/solvers/trust_region_tests/gradproj_test.cpp:26-36", "src/solvers/trust_region_tests/gradproj_test.cpp:38-82", "src/solvers/trust_region_tests/gradproj_test.cpp:84-87"]}
{"id": "C100", "title": "The trust region prototype converges on convex quadratics", "statement": "The trust region loop of trust_region_test.cpp, on a strictly convex quadratic, accepts only steps that reduce the cost and ends at a point with a small gradient. For every problem a pass keeps the point or adds the computed step, does not increase the cost when the model predicts a reduction, and keeps the radius positive and at most 1000. On quadratics the two reductions agree, so every step is accepted and the radius never shrinks; with a final shift that is not negative the cost decreases.", "quantifier": "all sizes, problems, points, radii and factorisations; for descent positive definite H and exact Cholesky factorisations; the test's own run in binary64", "why_tests_cant": "the test prints the iterates and asserts nothing; statements about all passes and all data", "anchors": ["src/solvers/trust_region_tests/trust_region_test.cpp:72-107", "src/solvers/trust_region_tests/trust_region_test.cpp:109-216"]}
{"id": "C101", "title": "QPs without a solution are not reported as solved", "statement": "For every infeasible QP, and for every convex QP whose cost is unbounded below over its feasible points, there is a tolerance below which no call of ADMM or boxADMM returns status SOLVED. On such problems the multipliers (infeasible) or the point and slacks (unbounded) grow at least linearly with the iteration count, so MAX_ITER_EXCEEDED is the only way the call ends.", "quantifier": "all QPs with consistent bounds (Farkas' lemma is proved, no certificate is assumed), any linear solver, guesses, object history and remaining settings; relative tolerance zero, or small when all bounds are finite; growth: exact linear solver, 1 <= alpha < 2, fixed step sizes", "why_tests_cant": "the tests only contain solvable problems; the statement is over all unsolvable ones, all settings and even wrong linear solvers", "anchors": ["src/solvers/admm.hpp:admm_solve", "src/solvers/box_admm.hpp", "src/solvers/admm.hpp:termination_criteria", "src/solvers/qp_base.hpp:19-47"]}
{"id": "C102", "title": "Linear-quadratic MPC problems are solved exactly by one call", "statement": "If dynamics and path constraints are affine and the cost terms quadratic in (x, u, p), the program that the MPC wrapper hands to the SQP solver is a quadratic program; it is strictly convex when the weight of the running cost is positive definite. One call of solve with exact Hessians and exact QP solves leaves in the wrapper the trajectory of least discretised cost among all trajectories that satisfy the collocation equations, constraints and bounds, whatever the guess, and SOLVED is reported by the second SQP iteration. The stored trajectory satisfies the dynamics exactly at the collocation nodes.", "quantifier": "all user functions of that form (time varying coefficients), dimensions, orders, segment counts, bounds, guesses, multiplier guesses, parameters, object histories, QP solvers and preconditioners that keep the gradient", "why_tests_cant": "the tests run a few fixed problems to a tolerance; optimality against every feasible trajectory cannot be sampled", "anchors": ["src/solvers/mpc_wrapper.hpp:298", "src/solvers/continuous_ocp.hpp", "src/solvers/sqp_base.hpp:569-696"]}
{"id": "C103", "title": "GenericOCP::solve with multiple shooting segments (MSChebyshev) solves the described control problem", "statement": "With the approximation MSChebyshev, after any sequence of setter and solve calls, the feasible points of the NLP given to the solver are, in physical units, the solutions of the user's optimal control problem with one constant control per segment: the initial state in its bounds, boxes as set last, dynamics of a segment-wise polynomial at all the nodes, joined segments, path constraints with the data set last. The getters return such a solution when the NLP solver answers with a feasible point. The cost is the Mayer term plus the exact integral of the Lagrange term for polynomials of the order, plus the norm terms. A bound on diff(u) bounds the growth of the control; boxes on the parameters hold whatever the number of data.", "quantifier": "all user functions, dimensions, orders, segment counts, positive scaling factors, data, histories of setter and solve calls, NLP solvers", "why_tests_cant": "no test instantiates GenericOCP with MSChebyshev with parameters; equivalence of feasible sets is about all points", "anchors": ["src/generic_ocp.hpp:105-154", "src/generic_ocp.hpp:287-566", "src/generic_ocp.hpp:616-645", "src/chebyshev_ms.hpp:58-66", "src/chebyshev_ms.hpp:414-560"]}
{"id": "C104", "title": "Distance to the optimum when problems are solved within tolerances", "statement": "For every convex QP with a KKT pair (xs, ys): when ADMM or boxADMM reports SOLVED with primal tolerance ep and dual tolerance ed, the squared distance (in the norm of the Hessian) of the answer to xs is at most ed*|x-xs|_1 + ep*|y-ys|_1, the objective is between obj(xs) - ep*|ys|_1 and obj(xs) + ed*|x-xs|_1 + ep*|y|_1, and with curvature at least mu every coordinate is within n*ed/mu + sqrt(n*ep*|y-ys|_1/mu) of xs. When the SQP solver runs on a convex quadratic program with exact Hessians and subproblems answered within (ep, ed), the target of its last step obeys the same bound and the returned point lies between the previous iterate and this target; with curvature mu no iterate is further from the optimum than the larger of the starting distance and the distance allowed by the tolerances. The same holds for the trajectory stored by one call of MPC::solve on a linear-quadratic control problem.", "quantifier": "all convex QPs with an optimum (not necessarily unique), linear solvers, settings, guesses; all quadratic programs, QP solvers meeting the tolerances, SQP settings, starts; all linear-quadratic control problems", "why_tests_cant": "tests compare a few answers with a hand-picked accuracy; how the stopping tolerances bound the error in the solution is a statement about all problems and all runs", "anchors": ["src/solvers/admm.hpp:112-213", "src/solvers/box_admm.hpp:88-200", "src/solvers/sqp_base.hpp:569-696", "src/solvers/qp_base.hpp", "src/control/mpc_wrapper.hpp"]}
{"id": "C105", "title": "SQP with its default QP solver converges on convex quadratic programs and linear-quadratic control problems", "statement": "Strictly convex quadratic program (curvature at least mu) with KKT pair (xs, ls), exact Hessians, 0 <= eta < 1/2. If every subproblem is answered within tolerances (ep, ed) with multipliers within Y of ls, every iterate of the SQP solver after the starting point is within an explicit distance of xs that does not depend on the starting point and tends to the level sqrt(L*eta*machine_eps/(1/2-eta)) as the tolerances go to zero. For the SQP solver with its default QP solver boxADMM (exact linear solves, fixed step size, no relaxation) this can always be achieved: for every D and d > 0 there are tolerances and an iteration budget of the QP solver such that, from every starting point at distance at most D and for every reusable solver object, every subproblem is reported SOLVED and every iterate after the first is within d of xs, up to that level. The same holds in every coordinate of the trajectory stored by one call of MPC::solve on a linear-quadratic control problem, compared with the trajectory of least cost.", "quantifier": "all strictly convex quadratic programs with bounds, equalities and inequalities; all exact linear solvers; all positive sigma and rho, accuracies d, distances D; all starting points, all reachable QP solver objects, all SQP line search settings with 0 <= tau <= 1 and eta < 1/2; all linear-quadratic control problems", "why_tests_cant": "tests run a few problems to a fixed tolerance; that accuracy of the composed solver can be bought by the settings of the inner one, uniformly over starting points and previous uses of the object, is a statement about all runs", "anchors": ["src/solvers/sqp_base.hpp:66-68", "src/solvers/sqp_base.hpp:531-696", "src/solvers/box_admm.hpp:78-205", "src/solvers/qp_preconditioners.hpp:28-111", "src/control/mpc_wrapper.hpp"]}
{"id": "C106", "title": "SQP with its default QP solver stops and reports SOLVED on convex quadratic programs and linear-quadratic control problems", "statement": "Strictly convex quadratic program (curvature at least mu) with KKT pair (xs, ls) whose active constraints are linearly independent at xs, exact Hessians, 0 < tau <= 1, 0 <= eta < 1/2, eps_dual > 0 and eps_prim above a level proportional to sqrt(eta*machine_eps). For the SQP solver with boxADMM (exact linear solves, fixed step size, no relaxation), for every D and d > 0 there are an iteration number M and tolerances and an iteration budget of the QP solver such that, from every starting point and multipliers at distance at most D and for every reusable solver object, solve() returns with status SOLVED after at most M iterations, the last subproblem was SOLVED, and the solution is within d of xs up to the level sqrt(L*eta*machine_eps/(1/2-eta)). For the solver classes that linearise exactly in every iteration this holds without any assumption on the steps, and for one call of MPC::solve with such a class on a linear-quadratic control problem the stored trajectory is close to the one of least cost in every coordinate.", "quantifier": "all strictly convex quadratic programs with bounds, equalities and inequalities and independent active constraints; all exact linear solvers; all positive sigma and rho, accuracies d, distances D; all line search budgets; all starting points and multipliers, all reachable QP solver objects; all linear-quadratic control problems", "why_tests_cant": "that the termination test is met, for primal steps, multiplier steps and violations at once and within a number of iterations that does not depend on the start, is a liveness statement about all runs; tests only see that a few runs stop", "anchors": ["src/solvers/sqp_base.hpp:49-55", "src/solvers/sqp_base.hpp:569-696", "src/solvers/box_admm.hpp:78-205", "tests/control/nonlinear_constraints_test.cpp:138-154", "src/control/mpc_wrapper.hpp"]}
{"id": "C107", "title": "Dense solver objects have storage for the problems they are built for", "statement": "For every size of a dense problem for which the solver class compiles, constructing the solver object and solving makes no access outside of a matrix (no Eigen range assertion fails). The code satisfies this exactly as follows. boxADMM alone: if and only if a vector of N + M scalars is below Eigen's limit of static objects; the sizes of the matrices do not matter. ADMM: if and only if a vector of 2N + M scalars is below the limit, which is not implied by its compilation. In both cases the arguments of solve, initial guesses included, have to have exactly the sizes of the problem. SQPBase over a dense control problem: if and only if Hessian, Jacobian and multiplier vector are each below the limit (131072 bytes by default, so at most 127 variables with doubles) and there is no control or not more controls than states; then the line search, the quasi-Newton update and all later iterations stay in storage as well. Above the limit the type selector makes the Hessian or Jacobian a dynamic matrix that the constructor never sizes for dense problems, so the property is refuted with a problem of 130 variables; with more controls than states it is refuted by the segment of the Mayer term that reads the controls with the length of the state.", "quantifier": "all problem dimensions (states, controls, parameters, constraints, polynomial order, segments), all scalar sizes and limits, all sizes N and M of the QP solvers, all numbers of SQP iterations", "why_tests_cant": "each size is a different template instance; the tests instantiate a handful of small ones and none above the limit", "anchors": ["src/utils/helpers.hpp:22-30", "src/solvers/sqp_base.hpp:73-99", "src/solvers/sqp_base.hpp:569-607", "src/solvers/box_admm.hpp:34-43", "src/solvers/box_admm.hpp:357-395", "src/solvers/admm.hpp:32-75", "src/solvers/admm.hpp:104-210", "src/solvers/sqp_base.hpp:607-696", "src/control/continuous_ocp.hpp:167-182", "src/control/continuous_ocp.hpp:1253-1367", "src/control/continuous_ocp.hpp:2096-2172"]}
{"id": "C108", "title": "Derivative vectors of dynamic size follow the documented rule of lengths", "statement": "With AutoDiffScalar<VectorXd>, a program in which every active scalar has either the common derivative length n or an empty derivative vector computes the value of the plain program and the derivatives along the seeds, an empty vector standing for zeros. The code satisfies this for every expression in which each operand of +, -, *, / of two active scalars is an object or contains derivatives, at least one of the two does, and both operands of atan2 do: the computation passes all size checks of Eigen, in either order of evaluation of operands; the value is that of the plain program; the derivatives are the directional derivatives along the seeds; operands change only in that an empty vector becomes n zeros. Straight-line programs of such assignments agree with the run with fixed-size vectors. If no variable has derivatives every expression can be computed. The documented rule alone is refuted: a constant scaled by a number plus a variable, atan2 of a variable and a constant, and a sum of constants one of which is resized later fail a size check or read outside of a vector.", "quantifier": "all expressions over the operators and functions of AutoDiffScalar, all values, all seeds, all lengths, both orders of evaluation", "why_tests_cant": "resizing acts on operands by reference while other parts of the same expression are still lazy; whether a program works depends on its shape and on the compiler's order of evaluation, and the test uses one expression with derivatives everywhere", "anchors": ["src/autodiff/AutoDiffScalar.h:20-30", "src/autodiff/AutoDiffScalar.h:39-41", "src/autodiff/AutoDiffScalar.h:99-104", "src/autodiff/AutoDiffScalar.h:183-253", "src/autodiff/AutoDiffScalar.h:332-351", "src/autodiff/AutoDiffScalar.h:458-500", "src/autodiff/AutoDiffScalar.h:582-654", "tests/autodiff/auto_diff_test2.cpp:36-41"]}
{"id": "C109", "title": "Every call of an MPC session on a linear-quadratic problem is solved, whatever was solved before", "statement": "Take a linear-quadratic control problem with positive curvature and finitely many measured states at each of which the problem has a KKT point with linearly independent active rows. There are settings of the SQP solver and its own ADMM QP solver (with eta = 0) such that in every session of any length - initial_conditions(x0) and solve() for a sequence of measured states from the list in any order and with repetitions, each call warm started by the solution, multipliers and QP solver object left by the previous one - every call reports SOLVED after at most M iterations, with M independent of the session, and the trajectory read from the wrapper is within any given distance d of the optimum of its own problem. That optimum is feasible, starts at the measured state and is better than any other feasible trajectory by half its squared distance in the Hessian.", "quantifier": "all linear-quadratic problems, numbers of segments and orders, bounds, all finite lists of measured states, all session lengths and orders, all tolerances d", "why_tests_cant": "a session has unboundedly many calls and the state the solver keeps (multipliers, penalty, factorisation) could degrade slowly; the test makes two calls", "anchors": ["src/control/mpc_wrapper.hpp:86-90", "src/control/mpc_wrapper.hpp:298", "src/solvers/sqp_base.hpp:563-696", "src/solvers/box_admm.hpp:81-231", "tests/control/mpc_wrapper_test.cpp:137-160"]}
{"id": "C110", "title": "A reshaped matrix has the coefficients of the original in the same order", "statement": "A Reshaped expression (any nested expression, storage order, order of the reshape, fixed or dynamic sizes) is accepted exactly if its number of coefficients is that of the nested expression, and then its coefficients listed by columns (order ColMajor) or by rows (RowMajor) are those of the nested expression listed the same way; an assignment to one of its coefficients changes exactly the coefficient of the nested matrix at that place, and access with one index gives the coefficient at that place. The code satisfies this whenever it does not use direct memory access. With direct access it satisfies it if and only if the nested expression has inner stride one or the reshaped one is a single row or column in its storage order, because the outer stride is not multiplied by the inner stride: a vector Map with stride two or a row of a column-major matrix is reshaped wrongly.", "quantifier": "all nested expressions and strides, all sizes and both orders, all indices, all memory contents", "why_tests_cant": "the wrong addresses need a nested vector that is not contiguous; on plain matrices every test passes", "anchors": ["src/utils/Reshaped.h:53-90", "src/utils/Reshaped.h:110-130", "src/utils/Reshaped.h:215-262", "src/utils/Reshaped.h:331-393"]}
{"id": "C111", "title": "Options given by the user reach the solver", "statement": "The options a user gives are those the underlying solver works with, and all others have their defaults. For the constructors of nmpc, nmpf and GenericOCP this holds for every dictionary. It fails elsewhere: updateParams of nmpc and nmpf only changes a dictionary that no existing solver reads, for any number of calls; a createNLP after it puts the defaults over the updated values and keeps only keys without default. PSODESolver takes the linear solver and ignores every other option. ODESolver stores the known parameters and drops unknown ones, but always creates CVODES with tolerance 1e-8 and 300 steps, whatever tol and max_iter are set to, and an object made for RK4 that is switched to CVODES by updateParams returns an empty result.", "quantifier": "all dictionaries with different keys, all keys, all sequences of updateParams calls and createNLP", "why_tests_cant": "an ignored option changes accuracy or speed but raises no error; tests run with the defaults", "anchors": ["src/nmpc.hpp:229-235", "src/nmpc.hpp:338-351", "src/nmpf.hpp:250-256", "src/nmpf.hpp:400-412", "src/generic_ocp.hpp:187-193", "src/generic_ocp.hpp:532-541", "src/integration/chebyshev_integrator.hpp:289-300", "src/integration/integrator.cpp:6-130"]}
{"id": "C112", "title": "Linear systems and determinants in the pseudo-arclength code", "statement": "psarc_math converts CasADi matrices to Eigen, dense or sparse, without changing size or elements, and with exact direct solvers all three variants of solve return the same solution of a nonsingular system with one right-hand side. With a sound sparse solver the tangents of the continuation therefore solve their systems for every sparsity pattern, and the continuation for translations ends at the root. The rest of the contract fails: with several right-hand sides the two Eigen variants solve for the first only; a singular matrix in the default variant gives a vector without any report; the return value meant for failures of the sparse variant is never returned, because the solver is used before the check; determinant returns zero for every matrix in the default variant and the logarithm of the absolute value in the sparse one.", "quantifier": "all CasADi matrices of all sizes with any pattern, all right-hand sides, all solver functions (exact ones where a solution is claimed)", "why_tests_cant": "a wrong variant gives a plausible number; no test calls these functions", "anchors": ["src/experimental/psarc.hpp:24-42", "src/experimental/psarc.hpp:44-96", "src/experimental/psarc.hpp:98-132", "src/experimental/psarc.hpp:258-264"]}
