(** Storage of the dense solvers, continued: the solver ADMM, and the SQP solver after
    its first QP (line search, steps, termination test and all later iterations).  The
    conventions are those of Store_Model.v: only sizes, [false] for a failed
    [eigen_assert]. *)
From Coq Require Import ZArith List Bool.
From Verif Require Import Store_Model.
Import ListNotations.
Local Open Scope Z_scope.

(** ** ADMM<N, M, Scalar, DENSE>: admm.hpp *)

(** admm.hpp:32-39 *)
Definition kkt_mat_t lim sz n m := selector lim sz (2 * n + m) (2 * n + m).
Definition kkt_vec_t lim sz n m := selector lim sz (2 * n + m) 1.
Definition admm_dual_t lim sz n m := selector lim sz (n + m) 1.
Definition admm_constraint_t lim sz n m := selector lim sz (n + m) n.

(** admm.hpp:65-66: one-argument [Constant] of admm_dual_t *)
Definition admm_compiles (lim sz n m : Z) : bool := is_fixed (admm_dual_t lim sz n m).

(** admm.hpp:52-55 (allocate_jacobian): assigned in the constructor if the type has
    dynamic size *)
Definition allocate_jacobian (lim sz n m : Z) : shape :=
  let t := admm_constraint_t lim sz n m in
  if compile_rows t =? -1 then fst (assign t (mkShape (n + m) n)) else fresh t.

(** admm.hpp:216-222 (construct_A, DENSE) *)
Definition construct_A_in (n m : Z) (Ae A : shape) : bool :=
  block_in Ae 0 0 m n && same (mkShape m n) A && block_in Ae m 0 n n.

(** admm.hpp:405-444 (rho_vec_update): one vector for both kinds of constraints *)
Definition admm_rho_vec_in (lim sz n m : Z) (rho_vec : shape) : bool :=
  each (compile_rows (qp_dual_a_t lim sz m))
       (fun i => coeff_in rho_vec i 0 && (i <? m))
  && each (compile_rows (qp_var_t lim sz n))
       (fun i => coeff_in rho_vec (i + m) 0 && (i <? n)).

(** admm.hpp:249-263 (construct_kkt_matrix, DENSE, with both triangles) *)
Definition admm_kkt_in (n m : Z) (K H Ae rho_inv : shape) : bool :=
  block_in K 0 0 n n && same (mkShape n n) H
  && block_in K 0 (scols K - (m + n)) n (m + n)
  && same (mkShape n (m + n)) (mkShape (scols Ae) (srows Ae))
  && block_in K (srows K - (m + n)) 0 (m + n) n && same (mkShape (m + n) n) Ae
  && block_in K (srows K - (m + n)) (scols K - (m + n)) (m + n) (m + n)
  && same (mkShape (m + n) 1) rho_inv.

(** admm.hpp:391-395 (compute_kkt_rhs) *)
Definition admm_rhs_in (n m : Z) (rhs h x z y rho_inv : shape) : bool :=
  segment_in rhs 0 n && same x h && same x (mkShape n 1)
  && segment_in rhs (srows rhs - (m + n)) (m + n)
  && same rho_inv y && same z rho_inv && same z (mkShape (m + n) 1).

(** admm.hpp:397-404 (box_projection) *)
Definition admm_projection_in (n m : Z) (z alb aub xlb xub : shape) : bool :=
  segment_in z 0 m && same (mkShape m 1) alb && same (mkShape m 1) aub
  && segment_in z (srows z - n) n && same (mkShape n 1) xlb && same (mkShape n 1) xub.

(** admm.hpp:446-467 (residuals_update) with qp_base.hpp:231-246 *)
Definition admm_residuals_in (n m : Z) (H h A x y z : shape) : bool :=
  (scols A =? srows x) && segment_in x (srows x - n) n && (scols H =? srows x)
  && segment_in y 0 m && (srows A =? m) && segment_in y (srows y - n) n
  && segment_in z 0 m && same (mkShape (srows A) 1) (mkShape m 1)
  && segment_in z (srows z - n) n && same x (mkShape n 1)
  && same (mkShape (srows H) 1) h && same (mkShape (scols A) 1) h
  && same h (mkShape n 1).

(** admm.hpp:62-75 (constructor) and admm.hpp:112-209 (solve_impl): one pass through the
    body of the loop with all of its branches; no size changes after the first pass. *)
Definition admm_in (lim sz n m : Z)
    (H h A alb aub xlb xub xguess yguess : shape) : bool :=
  let (K, okK) := assign (kkt_mat_t lim sz n m) (mkShape (2 * n + m) (2 * n + m)) in
  let Ae := allocate_jacobian lim sz n m in
  let rho_vec := fresh (admm_dual_t lim sz n m) in
  let rhs := fresh (kkt_vec_t lim sz n m) in
  let (x, okx) := assign (qp_var_t lim sz n) xguess in
  let (y, oky) := assign (qp_dual_t lim sz n m) yguess in
  let (z, okz) := assign (admm_dual_t lim sz n m) (mkShape (srows Ae) 1) in
  okK && okx && oky && okz
  && construct_A_in n m Ae A && (scols Ae =? srows xguess)
  && parse_in lim sz n m alb aub xlb xub
  && admm_rho_vec_in lim sz n m rho_vec
  && admm_kkt_in n m K H Ae rho_vec
  && admm_rhs_in n m rhs h x z y rho_vec
  (* x_tilde_nu = linear_solver.solve(rhs), head<N>() and tail<M + N>() *)
  && (srows K =? srows rhs)
  && segment_in rhs 0 n && segment_in rhs (srows rhs - (m + n)) (m + n)
  && same (mkShape (m + n) 1) y && same z rho_vec && same (mkShape n 1) x
  && admm_projection_in n m z alb aub xlb xub
  && same y z
  && admm_residuals_in n m H h A x y z
  (* update_kkt_rho, 495-499: tail<N + M>() of the diagonal *)
  && (0 <=? Z.min (srows K) (scols K) - (n + m)).

(** admm.hpp:104-109: Zero(N,1) and Zero(M+N,1) as initial guess *)
Definition admm_solve_in (lim sz n m : Z) (H h A alb aub xlb xub : shape) : bool :=
  admm_in lim sz n m H h A alb aub xlb xub (mkShape n 1) (mkShape (m + n) 1).

(** ** Values of the control problem: continuous_ocp.hpp *)

(** continuous_ocp.hpp:738-766 (equalities) *)
Definition eq_values_in (d : odim) (var con : shape) : bool :=
  let nx := onx d in let nu := onu d in let np := onp d in
  let vx := varx_size d in let vu := varu_size d in
  (nx * num_nodes d <=? srows var)
  && each (osegs d) (fun i =>
       block_in (mkShape (num_nodes d) nx) (i * opoly d) 0 (opoly d + 1) nx
       && block_in (mkShape nx (num_nodes d)) 0 (i * opoly d) nx (opoly d + 1))
  && each (num_nodes d) (fun t =>
       segment_in var (t * nx) nx && segment_in var (t * nu + vx) nu
       && segment_in var (vx + vu) np && segment_in con (t * nx) nx).

(** continuous_ocp.hpp:769-783 (inequalities) *)
Definition ineq_values_in (d : odim) (var con : shape) : bool :=
  let nx := onx d in let nu := onu d in let np := onp d in
  let vx := varx_size d in let vu := varu_size d in
  each (num_nodes d) (fun k =>
       segment_in var (k * nx) nx && segment_in var (k * nu + vx) nu
       && segment_in var (vx + vu) np && segment_in con (k * ong d) (ong d)).

(** continuous_ocp.hpp:1181-1206 (cost) *)
Definition cost_in (d : odim) (var : shape) : bool :=
  let nx := onx d in let nu := onu d in let np := onp d in
  let vx := varx_size d in let vu := varu_size d in
  each (osegs d) (fun s => each (opoly d + 1) (fun k =>
       let b := k + s * opoly d in
       segment_in var (b * nx) nx && segment_in var (b * nu + vx) nu
       && segment_in var (vx + vu) np))
  && segment_in var 0 nx && segment_in var vx nu && segment_in var (vx + vu) np.

(** continuous_ocp.hpp:1209-1250 (cost_gradient) *)
Definition cost_gradient_in (d : odim) (var grad : shape) : bool :=
  let nx := onx d in let nu := onu d in let np := onp d in
  let vx := varx_size d in let vu := varu_size d in
  segment_in var (vx + vu) np
  && each (osegs d) (fun s => each (opoly d + 1) (fun k =>
       let b := k + s * opoly d in
       segment_in var (b * nx) nx && segment_in var (b * nu + vx) nu
       && segment_in grad (b * nx) nx && segment_in grad (b * nu + vx) nu
       && segment_in grad (srows grad - np) np))
  && segment_in var 0 nx && segment_in var vx nu
  && segment_in grad 0 nx && segment_in grad vx nu
  && segment_in grad (srows grad - np) np.

(** continuous_ocp.hpp:1957-1975 (lagrangian_gradient for DENSE, eight arguments) *)
Definition lagrangian_gradient_in (d : odim)
    (var lam lag_grad cost_grad g jac_g : shape) : bool :=
  let ne := num_eq d in let ni := num_ineq d in
  cost_gradient_in d var cost_grad
  && segment_in g 0 ne && block_in jac_g 0 0 ne (scols jac_g)
  && equalities_in d var (mkShape ne 1) (mkShape ne (scols jac_g))
  && segment_in g (srows g - ni) ni
  && block_in jac_g (srows jac_g - ni) 0 ni (scols jac_g)
  && inequalities_in d var (mkShape ni 1) (mkShape ni (scols jac_g))
  && segment_in lam 0 (ne + ni) && (srows jac_g =? ne + ni)
  && same lag_grad (mkShape (scols jac_g) 1) && same lag_grad cost_grad
  && segment_in lam (srows lam - var_size d) (var_size d)
  && same lag_grad (mkShape (var_size d) 1).

(** ** The rest of SQPBase::solve: sqp_base.hpp *)

(** bfgs.hpp:24-57 (BFGS_update): all three branches; Bs and r take the sizes of the
    right hand sides *)
Definition bfgs_in (B s y : shape) : bool :=
  let Bs := mkShape (srows B) 1 in
  (scols B =? srows s) && same s Bs && same s y && same y Bs
  && same B (mkShape (srows Bs) (srows Bs)) && same B (mkShape (srows y) (srows y)).

(** continuous_ocp.hpp:170: nlp_eq_constraints_t *)
Definition nlp_eq_constraints_t lim sz d := selector lim sz (num_eq d) 1.

(** sqp_base.hpp:421-444 (constraints_violation_impl) *)
Definition constraints_violation_in (lim sz : Z) (d : odim) (s : sqp_store) (x : shape)
    : bool :=
  let c := fresh (nlp_eq_constraints_t lim sz d) in
  let g := fresh (nlp_ineq_constraints_t lim sz d) in
  eq_values_in d x c && ineq_values_in d x g && same (st_lbg s) g && same (st_lbx s) x.

(** sqp_base.hpp:446-474 (max_constraints_violation_impl): maxCoeff of a vector needs at
    least one entry *)
Definition max_constraints_violation_in (lim sz : Z) (d : odim) (s : sqp_store) (x : shape)
    : bool :=
  let c := fresh (nlp_eq_constraints_t lim sz d) in
  let g := fresh (nlp_ineq_constraints_t lim sz d) in
  (if 0 <? num_eq d then eq_values_in d x c else true)
  && (if 0 <? num_ineq d
      then ineq_values_in d x g && same (st_lbg s) g && (0 <? srows g) else true)
  && same (st_lbx s) x && (0 <? srows x).

(** sqp_base.hpp:378-419 (step_size_selection_impl): the body of the loop is the same
    in every trial *)
Definition step_size_in (lim sz : Z) (d : odim) (s : sqp_store) (p : shape) : bool :=
  let (x_step, ok) := assign (nlp_variable_t lim sz d) p in
  constraints_violation_in lim sz d s (st_x s) && cost_in d (st_x s)
  && same (st_h s) p && ok && same x_step (st_x s) && cost_in d x_step
  && constraints_violation_in lim sz d s x_step.

(** sqp_base.hpp:489-504 (update_linearisation_dense_impl) *)
Definition update_linearisation_in (lim sz : Z) (d : odim) (s : sqp_store) (step : shape)
    : bool :=
  let g := fresh (nlp_variable_t lim sz d) in
  lagrangian_gradient_in d (st_x s) (st_lam s) g (st_h s) (st_al s) (st_A s)
  && same g (st_lag_gradient s) && bfgs_in (st_H s) step g.

(** sqp_base.hpp:588-609 and 652-667: bounds of the QP and its solution *)
Definition solve_qp_in (lim sz : Z) (d : odim) (s : sqp_store) : bool :=
  let n := var_size d in let m := num_eq d + num_ineq d in
  segment_in (st_al s) (srows (st_al s) - num_ineq d) (num_ineq d)
  && same (mkShape (num_ineq d) 1) (st_lbg s) && same (st_lbx s) (st_x s)
  && box_admm_solve_in lim sz n m (st_H s) (st_h s) (st_A s) (st_al s) (st_al s)
       (st_x s) (st_x s)
  && same (fresh (nlp_variable_t lim sz d)) (mkShape n 1)
  && same (fresh (nlp_dual_t lim sz d)) (mkShape (m + n) 1).

(** sqp_base.hpp:616-637 and 671-691: line search, steps, termination test.  [p] and
    [pl] are the local vectors p and p_lambda; m_lam_k and m_step_prev are assigned. *)
Definition take_step_in (lim sz : Z) (d : odim) (s : sqp_store) : bool :=
  let p := fresh (nlp_variable_t lim sz d) in
  let pl := fresh (nlp_dual_t lim sz d) in
  snd (assign (nlp_dual_t lim sz d) pl) && same pl (st_lam s)
  && step_size_in lim sz d s p && same (st_x s) p
  && snd (assign (nlp_variable_t lim sz d) p)
  && max_constraints_violation_in lim sz d s (st_x s).

(** sqp_base.hpp:639-692: [k] passes through the loop.  The members keep their sizes:
    they are only used as Ref or assigned vectors of their own type, and the member
    m_step_prev has the size of p after the first step. *)
Fixpoint passes_in (lim sz : Z) (d : odim) (s : sqp_store) (k : nat) : bool :=
  match k with
  | O => true
  | S k => update_linearisation_in lim sz d s
             (fst (assign (nlp_variable_t lim sz d) (fresh (nlp_variable_t lim sz d))))
           && solve_qp_in lim sz d s && take_step_in lim sz d s
           && passes_in lim sz d s k
  end.

(** sqp_base.hpp:567-696 (solve) with [k] passes through the loop: the first QP as in
    Store_Model.v, then the rest *)
Definition sqp_solve_in (lim sz : Z) (d : odim) (s : sqp_store) (k : nat) : bool :=
  sqp_first_qp_in lim sz d s && take_step_in lim sz d s && passes_in lim sz d s k.
