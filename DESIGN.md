# Formal model of PolyMPC: design

Source: `/repo` (PREDICT-EPFL/polympc, pinned commit), read as text only.
Model: `/verif/rocq/theories` (Coq 8.16.1). Build: `coq_makefile -f _CoqProject -o Makefile && make -j4` in `/verif/rocq`.

## 1. Approach

* The C++ code is transcribed function by function into total Gallina functions. Every model
  definition carries a comment with the file and lines it models and says where it simplifies.
* **Scalars.** The code is templated over `Scalar`; most of the model is written over a class of scalar
  operations (`Scal.v`, class `Scalar T`). Control-flow theorems (status, iteration counts,
  "SOLVED implies the tests passed", history independence) quantify over *every* instance of that
  class, so they also hold for IEEE doubles with NaN and infinities. Arithmetic theorems
  (certificates, positive definiteness, round trips, exactness) are about the instance on the
  standard-library reals `R`; **floating-point rounding is not modelled there**. A third instance is the
  axiom-free IEEE-754 binary64 of `Coq.Floats.SpecFloat`; it is used to run the model and for witnesses
  that involve NaN or infinities.
* **Bounds.** QP/NLP bounds may be infinite, so bounds have type `ext T` (`Fin`, `PInf`, `MInf`).
* **Vectors and matrices** are functions `nat -> T`, `nat -> nat -> T` with explicit dimensions;
  equality is pointwise below the dimension. Where the C++ does raw pointer arithmetic, list
  operations or may leave the bounds of a container, the model uses lists or partial maps and an explicit
  error outcome (`None`) for undefined behaviour.
* **Sparse matrices** (`Sparse.v`) follow Eigen's uncompressed column storage: pattern, values, reserved
  slots per column, position of every entry in the value array. Code that writes through raw value
  pointers is modelled on these positions.
* **External code** (Eigen factorisations, user callbacks, third-party QP and NLP solvers) are Section variables,
  i.e. universally quantified oracles in the theorems. When a theorem needs an assumption about them
  ("the linear solver returns a solution of the system if the matrix is nonsingular") it is an explicit premise,
  and wherever the premise could be doubted a witness is constructed (e.g. `Gauss.v`, an exact elimination
  solver; `Leg_Roots.v`, existence of the Legendre nodes; `Lqr_Case_Proofs.v`, concrete kernels).
* Files per area: `X_Model.v` (definitions only), `X_Spec.v` (small independent specification),
  `X_Proofs.v` (lemmas), `X_Props.v` (property theorems, each with `Print Assumptions` and an example that
  meets the hypotheses).
* If a property is false of the faithful model, a theorem `..._refuted` gives a witness, and the largest
  region in which I could prove the property is a theorem `..._partial`. The property's status is then `partial`.

## 2. Trusted base

* The Coq 8.16.1 kernel, including `vm_compute` (used for runs in IEEE arithmetic), and the standard library.
* What `Print Assumptions` lists for each theorem; see section 7. Only standard-library axioms occur.
* The reading of the C++ source: the model is hand written. Eigen's documented semantics.
* For C42, C43, C69, C70 the documented behaviour of Ipopt, OSQP/OsqpEigen and qpmad as described at the top of
  `Ip_Model.v` and `Os_Model.v`. No claim is made about those libraries.
* No axioms are added, nothing is admitted, no kernel check is switched off, no plugin is loaded beyond those of
  the standard library's tactics.

## 3. Modelled code

| area | source | model | not modelled |
|------|--------|-------|--------------|
| QP base, ADMM, boxADMM | `solvers/qp_base.hpp`, `admm.hpp`, `box_admm.hpp` | `Qp_Model`, `Admm_Model`, `BoxAdmm_Model`, `Spk_Model` (sparse variants) | timing, console output |
| preconditioners | `solvers/qp_preconditioners.hpp` | `Precond_Model` | |
| quasi-Newton updates | `solvers/bfgs.hpp`, `sr1.hpp`, `continuous_ocp.hpp` block update | `Hess_Model`, `Ocp_Sparse_Model` | |
| line-search filter | `solvers/line_search.hpp` | `Filter_Model` | |
| SQP | `solvers/sqp_base.hpp` | `Sqp_Model` | console output, timing |
| SQP with exact linearisation | `tests/solvers/sqp/codegen_test.cpp` 376-398 and the control tests (overrides of `update_linearisation_*_impl`) | `SqpExact_Model` | as for the SQP base class |
| Hessian regularisations for SQP | `tests/control/*_test.cpp`, `dense_sparse_compare.cpp`, `tests/solvers/sqp/codegen_test.cpp`, `sqp_test_autodiff.cpp` (overrides of `hessian_regularisation_*_impl`) | `HessReg_Model` | Eigen::EigenSolver is an input |
| NLP base class | `solvers/nlproblem.hpp` dense | `Nlp_Model` | one function that cannot be instantiated (typo); with SPARSE the class has no code of its own |
| Ipopt, OSQP, QPMAD interfaces | `solvers/*_interface.hpp` | `Ip_Model`, `Os_Model` | the third-party solvers |
| Chebyshev, Legendre, Lagrange, splines, projection | `polynomials/*.hpp` | `Cheb_Model`, `Legendre_Model`, `Spline_Model`, `Poly_*` | |
| transcription of optimal control problems | `control/continuous_ocp.hpp` | `Ocp_Model`, `Ocp_Sparse_Model` | user callbacks are arbitrary functions |
| MPC wrapper | `control/mpc_wrapper.hpp` | `Mpc_Model`, `Msv_Model` (solve) | |
| older collocation layer | `control/ode_collocation.hpp`, `sparse_ode_collocation.hpp`, `cost_collocation.hpp`, `constraints_collocation.hpp` | `Old_Model` | sparse object built with an argument; AD members of constraint_collocation (never read) |
| LQR, Lyapunov, Riccati | `control/lqr.hpp`, `polymath.cpp` | `Lqr_Model` | Eigen kernels (Schur, inverse) are premises |
| automatic differentiation | `autodiff/AutoDiffScalar.h`, `rbf_kernel.hpp` | `Ad_Model`, `Rbf_Model`, `DynAd_Model` (dynamic-size derivative vectors) | dynamic-size vectors in nested scalars |
| helpers, Runge-Kutta | `polymath.cpp`, `polymath.h`, `integration/integrator.cpp` | `Pm_Model`, `Hlp_Model` | CVODES |
| CasADi collocation | `chebyshev.hpp`, `chebyshev_ms.hpp`, `chebyshev_soft.hpp` | `Cas_Model` | the private function `range` (never called); symbolic expressions are functions of their symbols |
| CasADi ODE solver | `integration/chebyshev_integrator.hpp` (PSODESolver) | `Pso_Model` | IPOPT is an arbitrary function; matrix-valued argument P |
| CasADi tracking controller | `nmpc.hpp` | constructor, createNLP, bound and scaling setters, warm start, computeControl, getPathError | IPOPT (an arbitrary function; its option dictionaries are in `Opts_Model.v`), statistics, messages, assertions, the Jacobian function (unused) |
| CasADi generic OCP | `generic_ocp.hpp` | constructor, setup, box and data setters, parameter mapping, solve, getters, norm_diff, norm_ddiff, diff, ddiff, with `Chebyshev` and `SoftChebyshev` (`Gen_Model.v`) and with `MSChebyshev` (`Gms_Model.v`) | IPOPT (an arbitrary function; its option dictionaries are in `Opts_Model.v`), statistics, generate_nlp_code |
| CasADi path following | `nmpf.hpp` | createNLP, bound, scaling and parameter setters, computeControl, error functions, getCost, getVirtState, findClosestPointOnPath | IPOPT (an arbitrary function), statistics and printing; the derivative of the path is an input |
| pseudo-arclength continuation | `experimental/psarc.hpp` | `Psa_Model`: constructor of `symbolic_psarc`; `PsMath_Model`: `psarc_math` (`C2ESparse`, `solve`, `determinant`); `PsTangent_Model`: the tangent system with `solve` | the function template `psarc` (console output only); IPOPT, PartialPivLU, SparseLU and the solver and determinant of CasADi are arbitrary functions |
| gradient projection and trust region prototypes | `src/solvers/trust_region_tests/*.cpp` | `GradProj_Model`, `TrustReg_Model` | the CasADi class Rosenbrock (not used by the test); console output; Eigen::LLT is an input |
| matrix type selection and sizes of dense objects | `utils/helpers.hpp` 22-30; `sqp_base.hpp` constructor, `box_admm.hpp`, `admm.hpp`, dense part of `continuous_ocp.hpp`; `sqp_base.hpp` solve | `Store_Model`, `StoreRun_Model` (sizes only) | sizes in the generic NLP class and preconditioners; all other models of dense code take matrices of the right sizes, which `C107_sqp` shows to be what the code has exactly below the limit |
| options of the CasADi classes | `nmpc.hpp`, `nmpf.hpp`, `generic_ocp.hpp`, `chebyshev_integrator.hpp`, `integrator.cpp` | `Opts_Model`: default and user dictionaries, updateParams, what the solvers are created with | the meaning of the options inside IPOPT and CVODES; numeric conversion of the parameter tf |
| reshaped expressions | `utils/Reshaped.h` (not included by other files of the repository) | `Reshape_Model`: constructors, choice of direct access, index_remap, strides, coefficient access | disabled packet functions, alignment, the expression flags other than the three that decide on access; Eigen's own accessors of the nested expression |
| is_psd | `solvers/utils.hpp` | `Psd_Model` | `print_qp`; EigenSolver is an input |

## 4. Properties: model and proof idea

| id | modelled code | proof |
|----|---------------|------|
| C01, C03 | admm.hpp / box_admm.hpp solve_impl and helpers (dense) | loop invariants (slack inside bounds, multipliers in normal cone), then weak duality |
| C02 | same | induction over the loop, any scalar |
| C04 | KKT construction/update | invariant over the loop; definiteness argument for nonsingularity |
| C05, C06 | both solvers | algebra of the iteration map; uniqueness from C04; C06 refuted for alpha <> 1 |
| C07, C51 | 0 < alpha < 2 for ADMM, alpha = 1 for boxADMM | Fejer monotonicity of sigma|x-x*|^2 + rho|z-z*|^2 + |y-y*|^2/rho + 2(1-alpha)<y-y*,z-z*>; telescoping |
| C08 | both | object state as explicit record; relational induction |
| C72 | admm.hpp, box_admm.hpp sparse | positions in the value arrays are computed; simulation between sparse and dense objects over call sequences |
| C09, C71 | step sizes and their adaptation | case analysis; loop invariant |
| C10, C11, C57, C58 | qp_preconditioners.hpp | algebra on reals; positivity by induction on sweeps |
| C12, C13, C45 | bfgs.hpp, sr1.hpp, block update | Cauchy-Schwarz for the B-inner product; restriction to blocks |
| C14 | line_search.hpp | induction over operation sequences |
| C15-C19, C52-C56 | sqp_base.hpp | loop invariants; oracles for problem, QP solver and linearisation |
| C20-C22, C59, C60, C64 | chebyshev.hpp, projection.hpp, polymath | trigonometry on R; Lagrange uniqueness; discrete cosine sums |
| C23, C24, C59, C60 | legendre.hpp | recurrences; Legendre differential equation; roots by orthogonality |
| C25-C27, C63 | polynomial_math.hpp, splines.hpp, polymath.cpp | Lagrange uniqueness |
| C28-C35, C61, C62 | continuous_ocp.hpp | index algebra over nat, sums over R, storage positions of sparse entries |
| C36, C37 | mpc_wrapper.hpp | frame lemmas over call sequences |
| C38, C39, C46, C67, C68 | AutoDiffScalar.h, rbf_kernel.hpp, nlproblem.hpp | structural induction with standard-library derivatives |
| C40, C41 | lqr.hpp, polymath.cpp | back substitution for triangular Schur forms; completion of squares |
| C42, C43, C69, C70 | *_interface.hpp | buffers as lists; sparse storage; session invariant |
| C44, C47, C48, C65, C66 | polymath.cpp, integrator.cpp | ring identities, induction, modular arithmetic |
| C73 | mpc_wrapper.hpp solve on top of sqp_base.hpp and continuous_ocp.hpp | composition of C15, C29, C36 over call sequences |
| C74-C76 | ode_, constraints_, cost_, sparse_ode_collocation.hpp | equality with the continuous_ocp.hpp model on an autonomous problem; parity of the order for the sparse pattern |
| C77-C80 | `Cas_Props.v` | constraint equal to the older collocation layer (C74) after a change of data layout; Kronecker product rows, exactness of the differentiation matrix and of the quadrature on each segment; induction over the derivative order; positivity of the weights |
| C81 | `Pso_Props.v`, `PsoScale_Props.v` | collocation rows of C77 without the initial node; scaling as a linear change of variables that commutes with collocation; invariant on the argument dictionary over all call histories |
| C82 | `Nmpc_Props.v` | inductive call histories with ghost bounds; invariant on the argument dictionary; collocation rows of C77 in scaled coordinates |
| C83 | `Nmpc_Props.v` | cost as weighted Clenshaw-Curtis sum; positivity of the weights (`cc_positive`); exactness (C78) |
| C84 | `Gen_Props.v`, `Casx_Props.v` | inductive call histories with ghost boxes; invariant on the argument dictionary; rows of C77 and C78 in scaled coordinates; slacks eliminated from equality rows |
| C85 | `Gen_Props.v`, `Casx_Props.v` | cost as weighted Clenshaw-Curtis sum (C78, C80); derivative operator as interpolation (C78); slack values from the feasible rows |
| C86 | `Nmpf_Props.v`, `Casx_Props.v` | inductive call histories with ghost bounds; invariant on the argument dictionary; collocation rows of C77 for the augmented system; interpolation uniqueness for theta |
| C87 | `Nmpf_Props.v` | cost as Clenshaw-Curtis sum (C78); positivity of the weights; Gauss-Newton iteration by induction on the iterations left |
| C88 | `Psa_Props.v` | invariant of the loop (point on the curve); direction as multiple of (r, 1); for translations induction on the iterations left with the curve parametrised by lambda |
| C89 | `Psd_Props.v` | quadratic form in the eigenbasis |
| C90 | `Hlp_Props.v` | exponential estimates; inductions over columns and passes |
| C91 | `Hlp_Props.v` | exactness of the quadrature (C78) with the empty slice evaluated |
| C92 | `Ctr_Props.v` | linear dependence of n+1 vectors, annihilating polynomial, Hermite interpolation of a flat output at both ends, energy estimate for the unreachable direction |
| C93 | `SqpQp_Props.v` | subproblem KKT pair = KKT pair of the whole program; Armijo test at the full step from the descent estimate; distance to the minimiser never grows |
| C94 | `AdmmLimit_Props.v` | bounded iterates have a convergent subsequence (`Bolzano.v`); its limit is an optimum because bounds and sign conditions are closed; Fejer monotonicity with respect to that optimum gives convergence of all iterates; runs with other settings and solvers follow the same iterates |
| C95 | `AdmmAdapt_Props.v` | each pass reduces the distance in the metric of the current step sizes (a checked pass by a fixed amount unless it stops); a change of step sizes multiplies the metric by at most a constant; counting gives SOLVED or more than U changes. The refutation encloses one period of the iterates (75 passes) in intervals (`FixI.v`) and shows the enclosure maps into itself (`AdmmCycle_Traj.v`) |
| C96 | `SqpGlob_Props.v` | feasible iterates have only the EPSILON term as constraint violation, so the merit function is the cost; the descent lemma bounds the step size from below, each step pays eta m a |p|^2 of the cost, and a short exact step is an approximate KKT point |
| C97 | `HessReg_Props.v` | the loop over columns only writes diagonal entries, so each radius is that of the original matrix; a dominant symmetric matrix dominates a sum of squares; for the mirrored matrix the quadratic form is a sum of positive multiples of squares of the coordinates along spanning vectors |
| C98 | `SqpExact_Props.v` | the subproblem at an iterate and at the KKT point differ by the Taylor remainder of the gradient, so monotonicity of the KKT conditions bounds the new distance; the remainder also bounds the merit function well enough for the unit step; for the refutation the subproblem is solved in closed form on a circle |
| C99 | `GradProj_Props.v` | the projected step has at least the squared length of itself over alpha as directional derivative, so small step sizes are accepted and accepted ones are bounded below; vanishing steps then force a vanishing gradient; the first refutation is computed in binary64 |
| C100 | `TrustReg_Props.v` | on a quadratic the actual reduction equals the predicted one; in one variable a pass of the subproblem loop is solved in closed form; invariant of the refutation: the point is 1/3 plus a multiple of 1/10 and the radius a multiple of 1/10 |
| C101 | `QpInf_Props.v` | Farkas' lemma by Fourier-Motzkin elimination (`Farkas.v`) turns infeasibility into a vector separating the constraints and unboundedness into a descent direction of recession; the certificates of C01/C03 then bound the tolerance from below; along the separating vector every iteration moves the multipliers by a fixed amount |
| C102 | `LqMpc_Props.v` | affine and quadratic functions are closed under the operations of the transcription; derivatives of the program are unique, so the linearisation is that of the quadratic program and C93 applies; second differences of the cost give strict convexity through the positive quadrature weights |
| C103 | `Gms_Props.v` | as C84, with the segment-wise collocation theorems of C79; counts of the constraint rows by induction over the lists of expressions; refutations for different numbers of data and parameters |
| C104 | `QpDist_Props.v` | monotonicity of the KKT operator with the residuals as errors; invariant over the SQP iterations; convexity of the distance along the accepted step; an example where the bound is attained |
| C105 | `SqpNear_Props.v` | descent of the merit function along inexact steps: long steps are accepted in full, short ones start near the target; bounds for boxADMM uniform over the family of subproblems; invariant over the SQP iterations that carries the solver object; composition `SqpNative_Model.v` |
| C106 | `SqpTerm_Props.v` | near the optimum the multipliers of a subproblem vanish on inactive rows and linear independence bounds their error; invariant over the iterations: multipliers contract by 1 - tau^budget towards a small ball, primal steps and violations small from the second iteration on, so the termination test passes at a fixed iteration |
| C107 | `Store_Props.v`, `StoreRun_Props.v` | size model of every block access of construction, linearisation and QP solve; characterisation of the safe sizes by arithmetic over all nodes and segments; refutations by computation |
| C108 | `DynAd_Props.v` | store with references, lazy derivative expressions and resizing; induction over the expression with the invariant that stores only grow by zero filling; refutations by computation |
| C109 | `MpcSession_Props.v` | sessions of the MPC wrapper; each call by the termination theorem of C106 strengthened by a bound on the multipliers, which is an invariant of the session: distance of the warm start to every optimum of the list |
| C110 | `Reshape_Props.v` | coefficients as locations in a memory; both lists of coefficients are a map over 0..n-1 (entries_flat), so the statement is a comparison of the k-th locations; division with remainder |
| C111 | `Opts_Props.v` | association lists with unique keys; lookup after the update loop by induction on the user's dictionary |
| C112 | `PsMath_Props.v`, `PsTangent_Props.v` | compressed columns against functions of row and column; triplets by induction on the columns; uniqueness of solutions for the agreement of the variants |

## 5. Disagreements between the code and the properties

Each line is a machine-checked witness (`..._refuted`); the largest proved region is in the theorem(s) `..._partial`.

* **C06** boxADMM: a QP optimum is preserved by a warm start for every over-relaxation parameter: true for alpha = 1; refuted for alpha <> 1: one iteration multiplies the optimum by alpha(2-alpha) (box_admm.hpp 129-130). (`C06_box_warm_start_refuted`)
* **C07** ADMM never diverges and eventually reports SOLVED on solvable convex QPs: exact reals, exact linear solver, fixed step sizes; every relaxation 0 < alpha < 2 (C07_relaxed_...), with the sharper constants of alpha = 1 in C07_admm_...; the range is sharp (C07_alpha_two_refuted). (`C07_alpha_two_refuted`)
* **C13** SR1 update keeps symmetry and satisfies the secant equation or leaves the matrix unchanged: holds for non-degenerate pairs; refuted for a zero step and for a pair the matrix already explains (0/0 and 1/0 in IEEE doubles). (`C13_sr1_refuted`)
* **C14** Line-search filter: accepted points are never dominated and the filter stays small: depth, acceptance, rejection and undominated history proved; removal of dominated entries holds below the maximum depth and is refuted at full depth; depth 0 is undefined behaviour. (`C14_filter_removal_refuted`, `C14_filter_zero_depth_refuted`)
* **C15** SQP: SOLVED means the stopping criteria hold at the returned point: status, criteria, iteration and callback counts proved for every arithmetic; constraints within eps_prim over the reals; refuted in IEEE arithmetic: NaN constraint values are ignored and SOLVED is reported. (`C15_sqp_solved_refuted`)
* **C17** SQP constraint-violation measures vanish exactly on the feasible set: proved over the reals, infinite bounds included; refuted for NaN constraint values (IEEE). (`C17_violation_refuted`)
* **C19** SQP rejects invalid settings: refuted: validate() is never called; what remains is that negative tolerances never give SOLVED. (`C19_invalid_settings_refuted`)
* **C23** Legendre differentiation matrix differentiates polynomials exactly: interior rows exact; refuted for every order: the two corner entries have the wrong sign, so the first and last rows are off by N(N+1)/2 times the value; nodes proved to exist for every order. (`C23_legendre_diff_matrix_refuted`)
* **C25** Polynomial arithmetic helpers compute the product and the derivative: poly_diff proved; poly_mul proved for a monomial second factor, refuted in general: it overwrites instead of accumulating, and the zero polynomial reads an uninitialised index. (`C25_poly_mul_refuted`)
* **C27** Equidistant cubic spline evaluation is always in bounds: true below the right end; refuted from the right end on: the index is clipped to the number of columns, one past the last. (`C27_cubic_spline_refuted`)
* **C32** Sparse inequality Jacobian update equals a fresh assembly: first assembly and NG in {0, NX} proved; refuted otherwise: the update copies from a matrix with NX rows. (`C32_inequality_update_refuted`)
* **C33** OCP cost is the composite quadrature of the running cost plus the terminal cost: value proved; gradient proved when a running cost exists or the stored derivatives are zero; refuted for a second call without running cost. (`C33_cost_gradient_refuted`)
* **C34** Dense and sparse OCP cost Hessians are the second derivative of the cost: dense proved for NU <= NX and terminal cost without parameter curvature; sparse proved after any history except the first evaluation with parameters; all exclusions refuted. (`C34_many_controls_refuted`, `C34_many_parameters_refuted`, `C34_dense_refuted`, `C34_sparse_refuted`)
* **C35** OCP Lagrangian gradient is assembled from cost gradient, Jacobian and multipliers: dense variant proved; sparse variant proved for NG in {0, NX} and for first calls; refuted otherwise (follows from C32). (`C35_sparse_refuted`)
* **C37** MPC solution interpolation evaluates the right segment: proved for horizons starting at zero (any number of segments) and for one segment (any start); the segment actually evaluated is characterised for every start; refuted for every problem with two or more segments starting at least one segment length after zero, and after changing the limits through ocp(). (`C37_late_start_refuted`, `C37_behind_refuted`)
* **C38** Automatic differentiation computes derivatives: first derivatives for every program and every differentiable input path, second derivatives for every program without pow and atan2 (which the library cannot nest); over exact reals; floor keeps the seeds and is refuted at every non-integer point. (`C38_floor_refuted`)
* **C39** Assigning a constant to an AutoDiffScalar makes it a constant: false: assigning a plain number keeps the old derivatives (C39_assignment_refuted, C39_reuse_refuted). Programs that give plain numbers only to variables without derivatives are differentiated correctly. (`C39_assignment_refuted`, `C39_reuse_refuted`)
* **C40** Lyapunov solver solves the Lyapunov equation: proved for real spectra up to 6 rows, with uniqueness; refuted for complex pairs (every correct kernel) and from 7 rows on (aliased product). (`C40_complex_refuted`, `C40_alias_refuted`)
* **C41** LQR returns the optimal gain: line search, Newton step, stopping, initial guess and near-optimality of the gain proved under stated assumptions; refuted for lqr.hpp (initial guess returned), cross terms, linear equations and small input weights. (`C41_linear_refuted`, `C41_hpp_refuted`, `C41_cross_refuted`, `C41_small_weight_refuted`, `C41_check_refuted`)
* **C42** Interior-point interface passes the Jacobian values and reads only its buffers: dense problems proved end to end (structure, values, bounds, start); sparse Jacobian values are never written (C42_sparse_jacobian_refuted), and multipliers are read beyond the supplied array (C42_multipliers_refuted). (`C42_sparse_jacobian_refuted`, `C42_multipliers_refuted`)
* **C43** Third-party QP interfaces report the solver's residuals and status: status, iterate and counters proved for OSQP; residual fields refuted (primal holds the dual residual, dual is never set); QPMAD's stored status is stale after a failure (refuted). (`C43_osqp_residual_refuted`, `C43_qpmad_status_refuted`)
* **C44** Chebyshev points for an interval lie in that interval: the matrix is exact on every interval; the points are right exactly when the interval starts at 0 or has length 2, and all wrong otherwise (C44_points_refuted). (`C44_points_refuted`)
* **C45** Block BFGS keeps each diagonal block positive definite: C45_block_bfgs for every dimension incl. parameters; C45_stays_spd without parameters as claimed; C45_assembled shows the starting matrices exist; C45_parameters_refuted shows that the no-parameter condition cannot be dropped. (`C45_parameters_refuted`)
* **C46** RBF kernel derivatives are the derivatives of the kernel: the general template and the gradient under unit seeds are exact; the specialisations ignore the seeds, every diagonal Hessian entry is off by the kernel value, and the outer first derivatives are never written. (`C46_seeds_refuted`, `C46_diagonal_refuted`, `C46_uninitialised_refuted`)
* **C49** Residuals reported by the native QP solvers describe the returned point: true when SOLVED is reported; refuted in general (stale values when no check happened in the last iteration). (`C49_admm_residuals_refuted`)
* **C52** SQP: the reported cost is the cost of the returned point: true if the last line search accepted a trial; refuted if the trial budget is exhausted. (`C52_reported_cost_refuted`)
* **C56** SQP: SOLVED certifies stationarity of the returned multipliers: true if the last step is a full step; refuted in IEEE doubles: the line search shortens the zero step and SOLVED is reported with wrong multipliers. (`C56_stationarity_refuted`)
* **C57** Sparse preconditioning is undone exactly: true for a nonzero gradient or a Hessian with entries in every column; refuted for h = 0 with empty H (1/0). (`C57_sparse_round_trip_refuted`)
* **C58** Updating a preconditioner yields a scaling that can be undone: constraint matrix and bounds of a fresh object are restored; the Hessian is not (refuted). (`C58_update_refuted`)
* **C60** Projecting a polynomial onto the basis returns that polynomial: Legendre proved up to degree N; Chebyshev proved below degree N and refuted at degree N (last normalisation factor). (`C60_chebyshev_projection_refuted`)
* **C61** The OCP Lagrangian Hessian is the second derivative of the scaled Lagrangian: proved under the same dimension restrictions as C34, dense and sparse, any history, any cost scale. (`C61_many_controls_refuted`)
* **C63** Lagrange interpolation helpers reproduce the data: proved for two or more nodes and every call sequence; one node is undefined behaviour and changing the number of nodes blocks new values (refuted theorems). (`C63_resize_refuted`, `C63_one_node_refuted`)
* **C65** factorial returns the factorial: n! modulo 2^32 for every n below 2^31-1: right up to 12, wrong from 13 on, 0 from 34 on. (`C65_large_refuted`)
* **C68** Lagrangian value and cost scale are consistent: lagrangian() is right; the value returned next to the derivatives is the cost alone and gradients ignore the cost scale (refuted theorems). (`C68_value_refuted`, `C68_scale_refuted`)
* **C70** Repeated solves through the OSQP interface solve the problem given: proved for a cold first call followed by warm calls, the order the SQP solver uses; refuted for repeated cold calls, warm first calls and compressed matrices. (`C70_cold_refuted`, `C70_warm_first_refuted`, `C70_compressed_refuted`)
* **C72** Sparse and dense QP solvers agree: proved for sessions that reuse the pattern only with a lower-triangle solver, an unchanged pattern and a stored diagonal; refuted for both-triangle solvers with reuse, for Hessians without stored diagonal and for compressed matrices. (`C72_both_triangles_refuted`, `C72_missing_diagonal_refuted`, `C72_compressed_refuted`)
* **C74** Older collocation layer: dynamics and constraint stacking: residual and constraint stack proved; Jacobian proved except for the parameters, whose derivatives are never computed (C74_jacobian_refuted); the constructor with an argument leaves the differentiation matrix zero (C74_constructor_refuted). (`C74_jacobian_refuted`, `C74_constructor_refuted`)
* **C75** Older collocation layer: cost: value proved; gradient and Hessian proved for directions that leave the parameters unchanged, refuted for parameters; the constructor with arguments leaves the weights uninitialised (refuted). (`C75_gradient_refuted`, `C75_constructor_refuted`)
* **C76** Older collocation layer: sparse linearisation: residual and first call proved for all; sessions proved for one segment or odd order; for every even order with two or more segments the second call inserts existing entries (C76_second_call, C76_sessions_refuted); exact arithmetic. (`C76_sessions_refuted`)
* **C77** CasADi collocation constraint is the ODE at the nodes: C77_residual and C77_calls are full. Refuted: existence of a discrete solution for every initial state; CollocateDynamics2 as a function of its argument (C77_second_partial covers evaluation at the member). (`C77_initial_value_refuted`, `C77_second_refuted`)
* **C78** CasADi cost quadrature, functions on the grid and their derivatives: Costs and function values are full. The derivative theorem has the factor ts^n and needs matching derivatives at the junctions; both limits are proved by counterexamples. (`C78_derivative_time_refuted`, `C78_derivative_kink_refuted`)
* **C79** CasADi multiple-shooting collocation: Residual, costs and values are full. Derivatives keep the factor ts^n; for control expressions the code ignores the function (counterexample). (`C79_control_function_refuted`)
* **C81** Pseudospectral ODE solver solves the initial value problem and keeps no history: Full without scaling. With scaling the property is false (C81_scaled_refuted, C81_scaled_default, C81_scaled_parameters); C81_flag_refuted covers the calls in the examples. C81_scaled_problem, C81_scaled_trajectory_problem and C81_scaled_result say which problem a scaled call with a scalar argument P solves instead; C81_scaled_uniform is the case where the answer is right. (`C81_flag_refuted`, `C81_scaled_refuted`)
* **C82** nmpc::computeControl solves the tracking control problem from the given state: Holds for the scaling given to the constructor; the setters of the scaling and initialized() are refuted. (`C82_scaling_setter_refuted`, `C82_initialized_refuted`)
* **C83** nmpc tracking cost: C83_cost_partial needs diagonal weights and unscaled controls; the rest is refuted (C83_definite_refuted, C83_scaled_control_refuted). (`C83_definite_refuted`, `C83_scaled_control_refuted`)
* **C84** GenericOCP::solve solves the optimal control problem that the user described: Holds for dynamics that see the scaled parameters and for the first row of the final constraint; the unrestricted expectations are refuted (C84_final_refuted, C84_scaled_parameter_refuted, C84_diff_alone_refuted). (`C84_final_refuted`, `C84_scaled_parameter_refuted`, `C84_diff_alone_refuted`)
* **C85** GenericOCP cost, soft collocation weight and slack penalty: C85_cost, C85_norms and C85_slacks hold; neutrality of slacks, the integral meaning of norm_diff and the option slack_penalty_type are refuted. (`C85_slacks_refuted`, `C85_penalty_refuted`, `C85_norm_refuted`)
* **C86** nmpf::computeControl solves the path following problem and stores a feasible trajectory: C86_problem, C86_result, C86_virtual and C86_reset hold for all call histories; the stronger expectations on wrapping, the warm start guess, scaling factors set after construction, getCost and getVirtState are refuted. (`C86_guess_refuted`, `C86_scaling_setter_refuted`, `C86_getCost_refuted`, `C86_virt_refuted`, `C86_wrap_refuted`)
* **C87** nmpf cost and closest point on the path: C87_cost, C87_zero, C87_scaling, C87_closest_line and C87_closest_steps hold; definiteness for a positive definite Q, global closeness and support of paths without parameters are refuted. (`C87_definite_refuted`, `C87_closest_refuted`, `C87_closest_arguments_refuted`)
* **C88** Pseudo-arclength continuation ends at a root and follows the homotopy curve: C88_root, C88_start, C88_direction, C88_step and C88_converges hold; tangency after rescaling, termination and small systems are refuted. std::sqrtf is modelled by the exact square root. (`C88_small_refuted`, `C88_endless_refuted`, `C88_tangent_refuted`)
* **C89** is_psd decides positive semidefiniteness of symmetric fixed-size matrices: C89_fixed holds given the eigenvalues from Eigen (premise: spectral decomposition); dynamic sizes and nonsymmetric matrices are refuted. (`C89_dynamic_refuted`, `C89_symmetric_refuted`)
* **C90** Helpers of polymath: smooth step, angles, column-wise evaluation, ranges: exact arithmetic; range in binary64 is refuted (C90_range_refuted); everything else holds. (`C90_range_refuted`)
* **C91** CollocateIdCost integrates the identification cost along the measurements: C91_integral_partial: the integral with zero in place of the measurements; refuted otherwise (C91_fit_refuted); C91_data_ignored and C91_size describe the behaviour. CasADi's conventions for slices and empty arguments are part of the model. (`C91_fit_refuted`)
* **C93** SQP solves a strictly convex QP in one step: exact arithmetic. The Hessian given to every subproblem is assumed to be the exact one (user-supplied hessian_update that keeps it; BFGS mixes in multiplier changes). C93_blur_refuted shows in IEEE arithmetic that the blur is real: a start 1e-8 away gets its full step rejected because EPSILON is added to the violation. (`C93_blur_refuted`)
* **C95** ADMM with adaptive step sizes: exact reals and exact linear solvers; the adaptation rule is the one in the code. The full statement (always SOLVED) is false: C95_cycle_refuted and C95_box_cycle_refuted. The cycle is enclosed by interval arithmetic evaluated by the kernel (FixI.v, AdmmCycle_Traj.v). (`C95_cycle_refuted`, `C95_box_cycle_refuted`)
* **C97** Hessian regularisations return positive definite matrices: exact reals. Refuted: the Gershgorin version changes some positive definite matrices; on matrices that are not symmetric it can return an indefinite one (it looks at columns only); the mirrored matrix need not keep the positive eigenvalues if the eigenvectors for a repeated eigenvalue are not orthogonal, since the code multiplies by the transpose instead of the inverse. (`C97_positive_definite_kept_refuted`, `C97_not_symmetric_refuted`, `C97_mirror_keeps_positive_part_refuted`)
* **C98** SQP with exact Hessians converges quadratically near a solution: exact reals, exact subproblem solutions. Proved for linear constraints (any bounds). Refuted for nonlinear constraints: on a problem with one smooth regular equality constraint and positive definite Hessian there are feasible starting points arbitrarily close to the solution from which the full step would halve the squared distance, yet the line search on the l1 merit function rejects it and a third of the distance remains (Maratos effect; the code has no second-order correction). (`C98_nonlinear_constraints_refuted`)
* **C99** The gradient projection prototype minimises over the box: proved: termination of the line search for bounds around zero, bounds on the moves, limits are unconstrained stationary points, convergence to the unconstrained minimiser (exact reals). Refuted: the result is within the bounds (box_projection is applied to the step, not to the point; in binary64 the test's own run ends with second entry above 19 for the bound 1); an accepted step does not increase the cost (the sign in the sufficient decrease test is reversed); the line search ends for all bounds (it runs forever for bounds that exclude zero). Sizes other than 2 and other data than the constructor's are a generalisation. (`C99_within_bounds_refuted`, `C99_descent_refuted`, `C99_search_ends_refuted`)
* **C100** The trust region prototype converges on convex quadratics: proved: rules of a pass, acceptance on quadratics, descent for nonnegative final shifts; in one variable the step always has the length of the radius. Refuted: convergence (minimise x^2/2 from 1/3: for any number of passes consecutive points stay 0.1 apart and 1/30 away from the minimiser, since the shift becomes negative instead of zero when the minimiser lies inside the region, and the ratio of the reductions is 1 even when both are negative), and the run of the test in binary64, which uses up its 100 iterations and ends with second entry above 500 instead of 20 and a higher cost than at the start. (`C100_convergence_refuted`, `C100_test_refuted`)
* **C101** QPs without a solution are not reported as solved: proved for a zero relative tolerance and, when all bounds are finite, for small relative tolerances. Refuted for the default settings: an infeasible QP (x0 = 0 and x0 = 1, x1 free with cost -x1/1000) and an unbounded one (1000 x0 - x1/2, x0 >= 0) are reported SOLVED by both solvers after 25 iterations, since the tolerances are relative to quantities that run away or are unrelated to the violated condition; neither solver ever returns the status INFEASIBLE of the enumeration (C02). (`C101_infeasible_refuted`, `C101_unbounded_refuted`)
* **C103** GenericOCP::solve with multiple shooting segments (MSChebyshev) solves the described control problem: C103_problem, C103_result and C103_cost hold; refuted: diff of the control bounds its decrease (the difference is taken backwards in time), and with _ND in place of _NP in chebyshev_ms.hpp:66 a box on the parameters is dropped (ND < NP) or overwrites the slack bounds (ND > NP), and the getters of parameters and slacks return the wrong entries. (`C103_rate_refuted`, `C103_parameter_box_refuted`, `C103_getters_refuted`, `C103_box_slack_refuted`)
* **C107** Dense solver objects have storage for the problems they are built for: The property is false for the code: C107_large_refuted and C107_controls_refuted give problems for which the first solve leaves the storage. C107_box_admm, C107_admm and C107_sqp characterise exactly the sizes for which it holds, C107_solve for whole calls with any number of iterations. C107_arguments and C107_admm_arguments: a call stays in storage for exactly the argument and guess sizes of the problem. C107_admm_refuted: ADMM is compiled for sizes for which it has no storage. The generic NLP class and the preconditioners are not in this storage model. (`C107_admm_refuted`, `C107_large_refuted`, `C107_controls_refuted`)
* **C108** Derivative vectors of dynamic size follow the documented rule of lengths: The property as documented is false for the code: C108_rule_refuted, C108_atan2_refuted and C108_late_resize_refuted. C108_dynamic and C108_fixed_size prove it for all expressions of the stated shape, C108_constants for all expressions of constants. C108_programs carries it to straight-line programs of assignments. One level of active scalars is modelled; nesting is in C38 for fixed sizes only. (`C108_rule_refuted`, `C108_atan2_refuted`, `C108_late_resize_refuted`)
* **C110** A reshaped matrix has the coefficients of the original in the same order: False for nested vectors with inner stride other than one (C110_strided_refuted, C110_row_refuted); C110_direct gives the exact condition. C110_remapped, C110_linear and C110_write hold as stated; C110_chain and C110_round_trip hold for steps that keep the coefficients. Strided access itself is Eigen's mapbase_evaluator, modelled from its documentation (row and column stride chosen by storage order). (`C110_strided_refuted`, `C110_row_refuted`)
* **C111** Options given by the user reach the solver: True for the three constructors (C111_constructed); refuted for updateParams, for createNLP after updateParams, for PSODESolver and for the parameters tol, max_iter and method of ODESolver. C111_update_ignored, C111_recreate, C111_history, C111_pso, C111_ode, C111_ode_ignored and C111_ode_method say exactly what happens instead. (`C111_update_refuted`, `C111_recreate_refuted`, `C111_pso_refuted`, `C111_ode_refuted`, `C111_method_refuted`)
* **C112** Linear systems and determinants in the pseudo-arclength code: True for the conversions and for nonsingular systems with one right-hand side (C112_sparse, C112_dense, C112_solve, C112_agree, and for the tangent systems of the continuation C112_tangent, C112_tangent_exact, C112_continuation); refuted for several right-hand sides, singular matrices and determinant. C112_first_column, C112_accepted, C112_failure, C112_never_empty and C112_det say exactly what happens instead. (`C112_columns_refuted`, `C112_singular_refuted`, `C112_det_refuted`)

## 6. Mutation tests

`/verif/seeded/LOG.jsonl` lists edits of model definitions, each a plausible programming error. "theorems_failed" are the
property theorems that depend on a lemma or proof which no longer compiles after the edit.
Edits that no theorem noticed led to the theorems listed under "tightened".

## 7. `Print Assumptions`

Every property theorem is followed by `Print Assumptions` or listed below; the groups are the exact axiom sets.

* Closed under the global context:
  C02_admm_status, C02_admm_defined, C02_box_status, C02_box_defined, C04_admm_matrix, C08_admm_history, C08_box_history, C13_sr1_refuted, C14_filter_depth, C14_filter_zero_depth_refuted, C15_sqp_status, C15_sqp_solved_refuted, C17_violation_refuted, C19_invalid_settings_refuted, C32_inequality_update_refuted, C34_many_controls_refuted, C34_many_parameters_refuted, C34_sparse_refuted, C35_sparse_refuted, C36_setters, C36_getters, C42_dense_size_partial, C43_qpmad_status_partial, C49_admm_residuals_partial, C49_box_residuals_partial, C52_reported_cost_refuted, C56_stationarity_refuted, C57_sparse_round_trip_refuted, C58_update_refuted, C61_many_controls_refuted, C62_count, C63_one_node_refuted, C65_modular, C65_small_partial, C65_large_refuted, C66_flip, C72_both_triangles_refuted, C72_missing_diagonal_refuted, C90_mat_dynamics, C93_blur_refuted, C98_status, C99_within_bounds_refuted, C100_test_refuted, C107_admm, C107_admm_arguments, C107_admm_refuted, C107_solve, C107_box_admm, C107_arguments, C107_sqp, C107_large_refuted, C107_controls_refuted, C110_accepted, C110_remapped, C110_direct, C110_strided_refuted, C110_row_refuted, C110_linear, C110_write, C110_chain, C110_round_trip, C111_constructed, C111_update_ignored, C111_update_refuted, C111_recreate, C111_recreate_refuted, C111_history, C111_pso, C111_pso_refuted, C111_ode, C111_ode_ignored, C111_ode_refuted, C111_ode_method, C111_method_refuted.
* `ClassicalDedekindReals.sig_forall_dec`:
  C39_assignment_refuted, C42_sparse_jacobian_partial, C42_multipliers_partial, C42_multipliers_refuted, C42_box_multipliers_partial, C43_qpmad_status_refuted, C78_function, C79_function, C84_mapping, C84_named, C90_mat_func, C112_dense, C112_failure, C112_never_empty.
* `ClassicalDedekindReals.sig_forall_dec`, `FunctionalExtensionality.functional_extensionality_dep`:
  C27_cubic_spline_partial, C27_cubic_spline_refuted, C42_dense_jacobian_partial, C42_dense_hessian_partial, C42_start, C47_product, C47_hamilton, C47_inverse, C47_rotation, C48_solution_derivatives, C48_integrator, C112_sparse, C112_first_column, C112_solve, C112_agree, C112_accepted, C112_columns_refuted, C112_singular_refuted.
* `ClassicalDedekindReals.sig_forall_dec`, `ClassicalDedekindReals.sig_not_dec`, `FunctionalExtensionality.functional_extensionality_dep`:
  C01_admm_solved_certificate, C01_admm_solved_near_optimal, C03_box_solved_certificate, C03_box_solved_near_optimal, C04_admm_solvable, C04_box_matrix, C04_box_solvable, C05_admm_warm_start, C05_admm_fixed_points, C06_box_warm_start_partial, C06_box_alpha_scales, C06_box_warm_start_refuted, C07_relaxed_monotone, C07_relaxed_result_near, C07_relaxed_solved, C07_relaxed_bound_exists, C07_alpha_two_refuted, C07_admm_monotone, C07_admm_result_near, C07_admm_solved, C07_bound_exists, C09_classification, C09_admm_step_sizes, C09_box_step_sizes, C10_ruiz_round_trip, C10_scale_round_trip, C11_scaled_kkt, C11_sqp_preconditioned, C12_bfgs_stays_spd, C12_bfgs_secant, C13_sr1_partial, C14_filter_acceptance, C14_filter_newest_undominated, C14_filter_history, C14_filter_removal_partial, C14_filter_removal_refuted, C15_sqp_solved_partial, C16_line_search, C17_violation_partial, C18_box_invariance, C18_affine_invariance, C19_validate_partial, C19_invalid_settings_partial, C20_chebyshev_nodes, C21_chebyshev_diff_matrix, C23_legendre_diff_matrix_partial, C25_poly_mul_partial, C25_poly_mul_refuted, C25_poly_diff, C26_lagrange_spline, C28_time_grid, C29_collocation, C29_coupling, C30_equality_jacobian, C30_inequality_jacobian, C32_inequality_update_partial, C33_cost_gradient_partial, C33_cost_gradient_refuted, C34_dense_partial, C34_sparse_partial, C34_dense_sparse_agree_partial, C34_dense_refuted, C35_dense, C36_node_times, C36_time_grid, C37_interpolation_partial, C37_selected_segment_partial, C37_late_start_refuted, C37_behind_refuted, C37_session_partial, C40_solves_partial, C40_complex_refuted, C40_alias_refuted, C41_newton_stop, C41_linear_refuted, C41_initial_guess_partial, C41_gain, C41_hpp_refuted, C41_cross_refuted, C41_small_weight_refuted, C41_check_refuted, C42_sparse_hessian_partial, C42_sparse_jacobian_refuted, C43_osqp_status_partial, C43_osqp_residual_partial, C43_osqp_residual_refuted, C44_points_partial, C44_points_refuted, C44_matrix, C45_block_bfgs, C45_stays_spd, C45_assembled, C45_parameters_refuted, C47_elementary, C47_spheric, C48_linear, C48_order, C49_admm_residuals_refuted, C50_same_iterates, C50_same_results, C51_box_result_near, C51_box_solved, C52_reported_cost_partial, C53_subproblem, C54_kkt_fixed_point, C55_merit_descent, C56_stationarity_partial, C57_sparse_round_trip_partial, C58_update_partial, C61_dense_partial, C61_sparse_partial, C61_lagrangian, C62_hessian, C63_interpolant, C63_cardinal, C63_object, C63_update_keeps_polynomial, C63_resize_refuted, C64_expansion, C69_first_matrix, C69_reused_matrix, C69_kkt, C70_sequence_partial, C70_solved_partial, C70_cold_refuted, C70_warm_first_refuted, C70_compressed_refuted, C71_admm_rho, C71_box_rho, C72_kkt_build, C72_box_session_partial, C72_admm_session_partial, C72_admm_near_optimal_partial, C72_box_near_optimal_partial, C72_compressed_refuted, C73_dynamics, C73_bounds, C73_initial_state, C74_residual, C74_constraints, C74_jacobian_partial, C74_jacobian_refuted, C74_constructor_refuted, C75_gradient_partial, C75_hessian_partial, C75_gradient_refuted, C75_constructor_refuted, C76_residual, C76_first_call, C76_sessions_partial, C76_second_call, C76_sessions_refuted, C77_residual, C77_calls, C77_initial_value_refuted, C77_second_partial, C77_second_refuted, C78_horizon, C78_terminal, C78_derivative_partial, C78_derivative_time_refuted, C78_derivative_kink_refuted, C79_residual, C79_derivative_partial, C79_control_difference, C79_control_function_refuted, C80_value, C80_zero, C81_scaled_problem, C81_scaled_trajectory_problem, C81_scaled_result, C81_scaled_uniform, C81_problem, C81_trajectory_problem, C81_result, C81_objective, C81_history, C81_wrong_control, C81_flag_refuted, C81_scaled_parameters, C81_scaled_default, C81_scaled_refuted, C82_problem, C82_result, C82_construct, C82_guess, C82_scaling_setter_refuted, C82_initialized_refuted, C83_zero, C83_definite_refuted, C83_scaled_control_refuted, C84_problem, C84_result, C84_setup, C84_guess, C84_final_refuted, C84_scaled_parameter_refuted, C84_diff_alone_refuted, C85_get_slacks, C85_norms, C85_slacks, C85_penalty_refuted, C86_failed, C86_virt, C86_problem, C86_result, C86_virtual, C86_reset, C86_guess_refuted, C86_scaling_setter_refuted, C86_getCost_refuted, C86_virt_refuted, C86_wrap_refuted, C87_zero, C87_scaling, C87_closest_line, C87_closest_steps, C87_closest_refuted, C87_closest_arguments_refuted, C88_root, C88_start, C88_direction, C88_step, C88_converges, C88_small_refuted, C88_endless_refuted, C88_tangent_refuted, C89_fixed, C89_dynamic_refuted, C89_symmetric_refuted, C90_heaviside_step, C90_deg2rad, C90_range, C90_range_endless, C90_range_refuted, C91_size, C91_data_ignored, C92_matrix, C93_quadratic_program, C95_solved_or_changes_partial, C95_box_solved_or_changes_partial, C95_budget_exists, C95_cycle_refuted, C95_box_cycle_refuted, C96_feasible_descent, C96_long_steps, C96_near_kkt_reached, C96_solved_near_kkt, C96_unconstrained_solved, C97_gershgorin_positive_definite, C97_gershgorin_changes, C97_positive_definite_kept_refuted, C97_not_symmetric_refuted, C97_mirror_positive_definite, C97_mirror_spectrum, C97_mirror_keeps_positive_part_refuted, C98_quadratic_convergence, C98_nonlinear_constraints_refuted, C99_search_ends, C99_move_bounds, C99_limit_ignores_bounds, C99_unconstrained_convergence, C99_descent_refuted, C99_search_ends_refuted, C100_step_rules, C100_run, C100_always_accepted, C100_descent, C100_full_radius, C100_convergence_refuted, C101_infeasible, C101_infeasible_relative, C101_unbounded, C101_multipliers_diverge, C101_iterates_diverge, C101_infeasible_refuted, C101_unbounded_refuted, C102_transcription, C102_strictly_convex, C102_solve, C102_dynamics, C103_problem, C103_result, C103_rate_refuted, C103_parameter_box_refuted, C103_getters_refuted, C103_box_slack_refuted, C104_admm, C104_box, C104_sqp_result, C104_sqp_iterates, C104_mpc, C105_inexact, C105_native, C105_mpc, C106_native, C106_exact, C106_mpc, C109_eta, C109_session, C109_optimum, C112_tangent, C112_tangent_exact, C112_tangent_nonsingular, C112_continuation.
* `ClassicalDedekindReals.sig_forall_dec`, `ClassicalDedekindReals.sig_not_dec`, `Classical_Prop.classic`, `FunctionalExtensionality.functional_extensionality_dep`:
  C22_clenshaw_curtis, C23_legendre_nodes_exist, C23_legendre_diff_matrix_refuted, C24_legendre_basis, C31_sparse_jacobian, C33_cost_value, C35_sparse_partial, C38_value, C38_first_order, C38_gradient, C38_second_order, C38_hessian, C38_floor_refuted, C39_programs_partial, C39_reuse_refuted, C41_line_search, C41_newton_step_partial, C41_optimal_partial, C42_nlp_jacobian_partial, C42_nlp_hessian_partial, C42_feasible_set, C46_template_partial, C46_gradient_partial, C46_seeds_refuted, C46_second_partial, C46_diagonal_refuted, C46_uninitialised_refuted, C48_quadrature, C59_chebyshev_gauss, C59_legendre_gauss, C60_legendre_projection, C60_chebyshev_projection_partial, C60_chebyshev_projection_refuted, C62_jacobian, C64_agree, C67_jacobian, C67_gradient, C67_gradient_hessian, C67_hessian, C68_lagrangian_partial, C68_value_partial, C68_value_refuted, C68_scale_refuted, C75_value, C78_cost, C78_parametric_cost, C79_cost, C79_parametric_cost, C83_cost_partial, C85_cost, C85_slacks_refuted, C85_norm_refuted, C87_cost, C87_definite_refuted, C90_heaviside_shape, C91_integral_partial, C91_fit_refuted, C92_decides, C92_unreachable, C94_limit, C94_box_limit, C96_lipschitz_is_smooth, C98_lipschitz_hessian_region, C103_cost, C108_dynamic, C108_fixed_size, C108_programs, C108_constants, C108_rule_refuted, C108_atan2_refuted, C108_late_resize_refuted, C112_det, C112_det_refuted.
