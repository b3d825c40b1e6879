(** Storage of the dense matrices of the solvers: which type is chosen for a matrix of
    given size, how large the object is after construction, and whether every access
    made by the construction and the solution of a problem is inside the object.

    Only sizes are modelled here, no numbers.  A matrix object is represented by its
    current numbers of rows and columns.  Every access (a block, a coefficient, an
    assignment into an [Eigen::Ref], a sum or a product) is represented by the
    condition that Eigen states for it in an [eigen_assert]: the value [false] stands
    for a failed assertion, which ends the program; with NDEBUG the access is outside
    of the memory of the object.  Sizes are integers, [Eigen::Dynamic] is -1. *)
From Coq Require Import ZArith List Bool.
Import ListNotations.
Local Open Scope Z_scope.

(** The two kinds of types that helpers.hpp:28-29 chooses from. *)
Inductive mtype :=
| Fixed (r c : Z)          (* Eigen::Matrix<Scalar, r, c> *)
| Dynamic (vec : bool).    (* Eigen::Matrix<Scalar, Dynamic, vec ? 1 : Dynamic> *)

(** src/utils/helpers.hpp:22-30, dense_matrix_type_selector.  [lim] is
    EIGEN_STACK_ALLOCATION_LIMIT (a macro of Eigen, 131072 unless the user defines it),
    [sz] is sizeof(Scalar). *)
Definition selector (lim sz r c : Z) : mtype :=
  if negb ((r =? -1) || (c =? -1)) && (r * c * sz <? lim)
  then Fixed r c else Dynamic (c =? 1).

(** Current size of a matrix object. *)
Record shape := mkShape { srows : Z; scols : Z }.

(** Default constructor of the two kinds of types: an object of a fixed-size type has
    its size, an object of a dynamic-size type is empty. *)
Definition fresh (t : mtype) : shape :=
  match t with
  | Fixed r c => mkShape r c
  | Dynamic true => mkShape 0 1
  | Dynamic false => mkShape 0 0
  end.

(** Plain assignment to an object: a dynamic-size object takes the size of the right
    hand side, a fixed-size object has to have it. *)
Definition assign (t : mtype) (rhs : shape) : shape * bool :=
  match t with
  | Fixed r c => (mkShape r c, (srows rhs =? r) && (scols rhs =? c))
  | Dynamic _ => (rhs, true)
  end.

(** The function [Constant(value)] with one argument exists for fixed-size types only
    (a static assertion of Eigen): a program that uses it with another type is not
    compiled. *)
Definition is_fixed (t : mtype) : bool :=
  match t with Fixed _ _ => true | Dynamic _ => false end.

(** Rows of a type at compile time (-1 for dynamic): bounds of the loops in
    qp_base.hpp:193-211 and box_admm.hpp:359, 378. *)
Definition compile_rows (t : mtype) : Z :=
  match t with Fixed r _ => r | Dynamic _ => -1 end.

(** Conditions of accesses.  [same]: += , -=, cwiseProduct, assignment into a Ref or a
    block. *)
Definition same (a b : shape) : bool :=
  (srows a =? srows b) && (scols a =? scols b).

(** block<r,c>(i,j), and with it head, tail, segment, topRows, corners *)
Definition block_in (o : shape) (i j r c : Z) : bool :=
  (0 <=? i) && (i + r <=? srows o) && (0 <=? j) && (j + c <=? scols o).

Definition segment_in (o : shape) (i r : Z) : bool := block_in o i 0 r 1.

(** coefficient access o(i,j) *)
Definition coeff_in (o : shape) (i j : Z) : bool :=
  (0 <=? i) && (i <? srows o) && (0 <=? j) && (j <? scols o).

(** a loop [for (k = 0; k < n; k++)] whose body has to be in range every time *)
Definition each (n : Z) (f : Z -> bool) : bool :=
  forallb f (map Z.of_nat (seq 0 (Z.to_nat n))).

(** ** boxADMM<N, M, Scalar, DENSE>: qp_base.hpp:106-118 and box_admm.hpp *)

(** qp_base.hpp:106-110 *)
Definition qp_var_t lim sz n := selector lim sz n 1.
Definition qp_dual_t lim sz n m := selector lim sz (n + m) 1.
Definition qp_dual_a_t lim sz m := selector lim sz m 1.
Definition qp_kkt_vec_t lim sz n m := selector lim sz (n + m) 1.

(** Uses of one-argument [Constant] in box_admm.hpp:37-38 (qp_dual_a_t) and
    box_admm.hpp:214 (qp_var_t): the class is compiled only if both are fixed-size. *)
Definition box_admm_compiles (lim sz n m : Z) : bool :=
  is_fixed (qp_dual_a_t lim sz m) && is_fixed (qp_var_t lim sz n).

(** qp_base.hpp:186-212 (parse_constraints_bounds with box bounds): reads both bounds
    of every row up to the compile-time size of the vector type.  The arrays
    constr_type and box_constr_type have M and N elements. *)
Definition parse_in (lim sz n m : Z) (alb aub xlb xub : shape) : bool :=
  each (compile_rows (qp_dual_a_t lim sz m))
       (fun i => coeff_in alb i 0 && coeff_in aub i 0 && (i <? m))
  && each (compile_rows (qp_var_t lim sz n))
       (fun i => coeff_in xlb i 0 && coeff_in xub i 0 && (i <? n)).

(** box_admm.hpp:357-395 (rho_vec_update) *)
Definition rho_vec_in (lim sz n m : Z) (rho_vec rho_box : shape) : bool :=
  each (compile_rows (qp_dual_a_t lim sz m))
       (fun i => coeff_in rho_vec i 0 && (i <? m))
  && each (compile_rows (qp_var_t lim sz n))
       (fun i => coeff_in rho_box i 0 && (i <? n)).

(** box_admm.hpp:206-224 (construct_kkt_matrix, DENSE, with both triangles) *)
Definition construct_kkt_in (n m : Z) (K H A rho_inv rho_box : shape) : bool :=
  block_in K 0 0 n n && same (mkShape n n) H
  && same (mkShape n 1) rho_box
  && block_in K 0 (scols K - m) n m
  && same (mkShape n m) (mkShape (scols A) (srows A))
  && block_in K (srows K - m) 0 m n && same (mkShape m n) A
  && block_in K (srows K - m) (scols K - m) m m && same (mkShape m 1) rho_inv.

(** box_admm.hpp:351-355 (compute_kkt_rhs) *)
Definition compute_rhs_in (n m : Z) (rhs h x q z y rho_inv rho_box : shape) : bool :=
  segment_in rhs 0 n && same x h && same rho_box q && same x rho_box
  && segment_in y (srows y - n) n && same x (mkShape n 1)
  && segment_in rhs (srows rhs - m) m && segment_in y 0 m
  && same rho_inv (mkShape m 1) && same z (mkShape m 1).

(** box_admm.hpp:396-414 (residuals_update) with qp_base.hpp:231-246: the products
    A x, H x and A' y and the sums of the residuals *)
Definition residuals_in (n m : Z) (H h A x y z q : shape) : bool :=
  (scols A =? srows x) && (scols H =? srows x)
  && segment_in y 0 m && (srows A =? m) && segment_in y (srows y - n) n
  && same (mkShape (srows A) 1) z && same x q
  && same (mkShape (srows H) 1) h && same (mkShape (scols A) 1) h
  && same h (mkShape n 1).

(** box_admm.hpp:34-43, 71-73 (constructor) and box_admm.hpp:88-184 (solve_impl): one
    pass through the body of the loop with all of its branches (check of termination
    and update of rho).  Every pass makes the same accesses, because no size changes
    after the first pass. *)
Definition box_admm_in (lim sz n m : Z)
    (H h A alb aub xlb xub xguess yguess : shape) : bool :=
  let K := mkShape (n + m) (n + m) in                 (* m_K = Zero(N + M, N + M) *)
  let rho_vec := fresh (qp_dual_a_t lim sz m) in
  let rho_box := fresh (qp_var_t lim sz n) in
  let rhs := fresh (qp_kkt_vec_t lim sz n m) in
  let (x, okx) := assign (qp_var_t lim sz n) xguess in
  let (y, oky) := assign (qp_dual_t lim sz n m) yguess in
  let (z, okz) := assign (qp_dual_a_t lim sz m) (mkShape (srows A) 1) in
  let (q, okq) := assign (qp_var_t lim sz n) xguess in
  okx && oky && okz && okq && (scols A =? srows xguess)
  && parse_in lim sz n m alb aub xlb xub
  && rho_vec_in lim sz n m rho_vec rho_box
  && construct_kkt_in n m K H A rho_vec rho_box
  && compute_rhs_in n m rhs h x q z y rho_vec rho_box
  (* x_tilde_nu = linear_solver.solve(rhs), head<N>() and tail<M>() *)
  && (srows K =? srows rhs)
  && segment_in rhs 0 n && segment_in rhs (srows rhs - m) m
  (* projections and multiplier updates, 132-155 *)
  && same z alb && same z aub && same q xlb && same q xub
  && same (mkShape n 1) x && same (mkShape m 1) z
  && residuals_in n m H h A x y z q
  (* update_kkt_rho, 448-453 *)
  && block_in K 0 0 n n && block_in K (srows K - m) (scols K - m) m m.

(** The call with the arguments of the solver's own types: default-constructed vectors
    as initial guess (box_admm.hpp:80-86 passes Zero(N,1) and Zero(M+N,1)). *)
Definition box_admm_solve_in (lim sz n m : Z) (H h A alb aub xlb xub : shape) : bool :=
  box_admm_in lim sz n m H h A alb aub xlb xub (mkShape n 1) (mkShape (m + n) 1).

(** ** Continuous-time optimal control problem, dense: continuous_ocp.hpp *)

(** continuous_ocp.hpp:69-92: dimensions of the problem and of the collocation
    ([NUM_NODES = POLY_ORDER * NUM_SEGMENTS + 1]) *)
Record odim := mkOdim { onx : Z; onu : Z; onp : Z; ong : Z; opoly : Z; osegs : Z }.
Definition num_nodes d := opoly d * osegs d + 1.
Definition varx_size d := onx d * num_nodes d.
Definition varu_size d := onu d * num_nodes d.
Definition var_size d := varx_size d + varu_size d + onp d.
Definition num_eq d := varx_size d.
Definition num_ineq d := ong d * num_nodes d.
Definition dual_size d := num_eq d + num_ineq d + var_size d.

(** continuous_ocp.hpp:1253-1367, cost_gradient_hessian for DENSE: the blocks of the
    arguments in the loops over segments and nodes and in the Mayer term (which reads
    the controls through segment<NX>, line 1336).  The local matrix [hes] has the fixed
    size (NX+NU+NP) x (NX+NU+NP) and its blocks are always inside. *)
Definition cost_hessian_in (d : odim) (var grad hes : shape) : bool :=
  let nx := onx d in let nu := onu d in let np := onp d in
  let vx := varx_size d in let vu := varu_size d in
  segment_in var (srows var - np) np
  && each (osegs d) (fun s => each (opoly d + 1) (fun k =>
       let b := k + s * opoly d in
       segment_in var (b * nx) nx && segment_in var (b * nu + vx) nu
       && segment_in grad (b * nx) nx && segment_in grad (b * nu + vx) nu
       && segment_in grad (srows grad - np) np
       && block_in hes (b * nx) (b * nx) nx nx
       && block_in hes (b * nx) (b * nu + vx) nx nu
       && block_in hes (b * nu + vx) (b * nx) nu nx
       && block_in hes (b * nu + vx) (b * nu + vx) nu nu
       && block_in hes (b * nx) (vx + vu) nx np
       && block_in hes (b * nu + vx) (vx + vu) nu np
       && block_in hes (vx + vu) (b * nx) np nx
       && block_in hes (vx + vu) (b * nu + vx) np nu
       && block_in hes (srows hes - np) (scols hes - np) np np))
  && segment_in var 0 nx
  && each nu (fun i => segment_in var vx nx && coeff_in (mkShape nx 1) i 0)
  && segment_in grad 0 nx && segment_in grad vx nu
  && segment_in grad (srows grad - np) np
  && block_in hes 0 0 nx nx && block_in hes vx vx nu nu
  && block_in hes (srows hes - np) 0 np np
  && block_in hes 0 vx nx nu && block_in hes vx 0 nu nx
  && block_in hes 0 (vx + vu) nx np && block_in hes (vx + vu) 0 np nx
  && block_in hes vx (vx + vu) nu np && block_in hes (vx + vu) vx np nu.

(** continuous_ocp.hpp:794-878, equalities_linearised for DENSE.  [jac] is the block
    jac_g.topRows(NUM_EQ) that the caller passes as a Ref. *)
Definition equalities_in (d : odim) (var con jac : shape) : bool :=
  let nx := onx d in let nu := onu d in let np := onp d in
  let vx := varx_size d in let vu := varu_size d in
  same jac (mkShape (num_eq d) (var_size d))
  && (nx * num_nodes d <=? srows var)
  && each (osegs d) (fun s => each (opoly d) (fun i => each (opoly d + 1) (fun j =>
       let sh := s * opoly d * nx in
       block_in jac (sh + i * nx) (sh + j * nx) nx nx)))
  && block_in jac (vx - nx) (vx - nx * (opoly d + 1)) nx (nx * (opoly d + 1))
  && block_in jac 0 0 nx (nx * (opoly d + 1))
  && segment_in var (vx + vu) np
  && each (num_nodes d) (fun t =>
       segment_in var (t * nx) nx && segment_in var (t * nu + vx) nu
       && segment_in con (t * nx) nx
       && block_in jac (t * nx) (t * nx) nx nx
       && block_in jac (t * nx) (t * nu + vx) nx nu
       && block_in jac (t * nx) (vx + vu) nx np).

(** continuous_ocp.hpp:534-575, _inequalities_linearised_dense: does nothing if there
    are no inequalities *)
Definition inequalities_in (d : odim) (var con jac : shape) : bool :=
  let nx := onx d in let nu := onu d in let np := onp d in let ng := ong d in
  let vx := varx_size d in let vu := varu_size d in
  if num_ineq d =? 0 then true else
  same jac (mkShape (num_ineq d) (var_size d))
  && segment_in var (vx + vu) np
  && each (num_nodes d) (fun k =>
       segment_in var (k * nx) nx && segment_in var (k * nu + vx) nu
       && segment_in con (k * ng) ng
       && block_in jac (k * ng) (k * nx) ng nx
       && block_in jac (k * ng) (k * nu + vx) ng nu
       && block_in jac (k * ng) (vx + vu) ng np).

(** continuous_ocp.hpp:2096-2172, lagrangian_gradient_hessian for DENSE (ten arguments) *)
Definition lagrangian_gradient_hessian_in (d : odim)
    (var lam lag_grad lag_hes cost_grad g jac_g : shape) : bool :=
  let nx := onx d in let nu := onu d in let np := onp d in let ng := ong d in
  let vx := varx_size d in let vu := varu_size d in
  let ne := num_eq d in let ni := num_ineq d in
  cost_hessian_in d var cost_grad lag_hes
  && segment_in g 0 ne && block_in jac_g 0 0 ne (scols jac_g)
  && equalities_in d var (mkShape ne 1) (mkShape ne (scols jac_g))
  && segment_in g (srows g - ni) ni
  && block_in jac_g (srows jac_g - ni) 0 ni (scols jac_g)
  && inequalities_in d var (mkShape ni 1) (mkShape ni (scols jac_g))
  && segment_in lam 0 (ne + ni) && (srows jac_g =? ne + ni)
  && same lag_grad (mkShape (scols jac_g) 1) && same lag_grad cost_grad
  && segment_in lam (srows lam - var_size d) (var_size d)
  && same lag_grad (mkShape (var_size d) 1)
  && segment_in var (srows var - np) np
  && each (num_nodes d) (fun k =>
       segment_in var (k * nx) nx && segment_in var (k * nu + vx) nu
       && each nx (fun n => coeff_in lam (n + k * nx) 0)
       && each ng (fun n => coeff_in lam (n + k * ng + ne) 0)
       && block_in lag_hes (k * nx) (k * nx) nx nx
       && block_in lag_hes (k * nu + vx) (k * nu + vx) nu nu
       && block_in lag_hes (srows lag_hes - np) (scols lag_hes - np) np np
       && block_in lag_hes (k * nx) (k * nu + vx) nx nu
       && block_in lag_hes (k * nu + vx) (k * nx) nu nx
       && block_in lag_hes (k * nx) (vx + vu) nx np
       && block_in lag_hes (vx + vu) (k * nx) np nx
       && block_in lag_hes (k * nu + vx) (vx + vu) nu np
       && block_in lag_hes (vx + vu) (k * nu + vx) np nu).

(** ** SQPBase over a dense control problem: sqp_base.hpp *)

(** continuous_ocp.hpp:167-182: the types of the members of the solver *)
Definition nlp_variable_t lim sz d := selector lim sz (var_size d) 1.
Definition nlp_constraints_t lim sz d := selector lim sz (num_eq d + num_ineq d) 1.
Definition nlp_ineq_constraints_t lim sz d := selector lim sz (num_ineq d) 1.
Definition nlp_jacobian_t lim sz d :=
  selector lim sz (num_eq d + num_ineq d) (var_size d).
Definition nlp_hessian_t lim sz d := selector lim sz (var_size d) (var_size d).
Definition nlp_dual_t lim sz d := selector lim sz (dual_size d) 1.

(** Members of the solver object, sqp_base.hpp:129-151 *)
Record sqp_store := mkStore {
  st_H : shape; st_A : shape; st_h : shape; st_x : shape; st_lam : shape;
  st_al : shape; st_lbx : shape; st_lbg : shape; st_lag_gradient : shape }.

(** sqp_base.hpp:73-99, constructor for a problem that is not sparse: the bounds are set
    by one-argument Constant; setZero() keeps the size; resize (95-96) is executed for
    sparse problems only.  [None]: not compiled. *)
Definition sqp_construct (lim sz : Z) (d : odim) : option sqp_store :=
  if is_fixed (nlp_variable_t lim sz d) && is_fixed (nlp_ineq_constraints_t lim sz d)
     && box_admm_compiles lim sz (var_size d) (num_eq d + num_ineq d)
  then Some (mkStore (fresh (nlp_hessian_t lim sz d)) (fresh (nlp_jacobian_t lim sz d))
               (fresh (nlp_variable_t lim sz d)) (fresh (nlp_variable_t lim sz d))
               (fresh (nlp_dual_t lim sz d)) (fresh (nlp_constraints_t lim sz d))
               (fresh (nlp_variable_t lim sz d)) (fresh (nlp_ineq_constraints_t lim sz d))
               (fresh (nlp_variable_t lim sz d)))
  else None.

(** sqp_base.hpp:563-608 (solve) up to the solution of the first QP, with 309-318
    (linearisation) and 531-552 (solve_qp).  m_au, m_lx and m_ux have the sizes of m_al,
    m_x.  The identity preconditioner does nothing. *)
Definition sqp_first_qp_in (lim sz : Z) (d : odim) (s : sqp_store) : bool :=
  let n := var_size d in let m := num_eq d + num_ineq d in
  lagrangian_gradient_hessian_in d (st_x s) (st_lam s) (st_lag_gradient s) (st_H s)
     (st_h s) (st_al s) (st_A s)
  && segment_in (st_al s) (srows (st_al s) - num_ineq d) (num_ineq d)
  && same (mkShape (num_ineq d) 1) (st_lbg s) && same (st_lbx s) (st_x s)
  && box_admm_solve_in lim sz n m (st_H s) (st_h s) (st_A s) (st_al s) (st_al s)
       (st_x s) (st_x s)
  (* dual_step = dual_solution(), p_lambda -= m_lam *)
  && same (fresh (nlp_dual_t lim sz d)) (mkShape (m + n) 1)
  && same (mkShape (m + n) 1) (st_lam s).
