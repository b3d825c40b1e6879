(** Model of MPC::solve (mpc_wrapper.hpp:299): the wrapper of Mpc_Model.v on top of the SQP solver of
    Sqp_Model.v applied to the transcription of Ocp_Model.v, and sequences of calls that mix setters
    and solves.

    Simplifications:
    - the derivatives the SQP solver asks for (p_lag, p_lag_full) are arbitrary functions, so dense
      and sparse versions and their history are covered; likewise the QP solver, the preconditioner
      and the Hessian update;
    - an infinite bound is a real number of absolute value at least [big], for an arbitrary [big]. *)
Require Import Arith ZArith List Bool Reals.
From Verif Require Import Scal Ocp_Model Mpc_Model Sqp_Model.
Import ListNotations.
Local Open Scope R_scope.

(** the user's functions with the static parameters (continuous_ocp.hpp:203-260) *)
Record user := User {
  u_dyn : vec R -> ufun R (vec R);
  u_ine : vec R -> ufun R (vec R);
  u_lag : vec R -> option (ufun R R * ufun R (vec R) * ufun R (mat R));
  u_may : vec R -> option (ufun R R * ufun R (vec R) * ufun R (mat R)) }.

(** the problem functions as the solver calls them: with m_p (sqp_base.hpp:383, :425, :431, ...) *)
Definition at_params (U : user) (o : ocp R) (d : vec R) : ocp R :=
  mkOcp (NX o) (NU o) (NP o) (NG o) (PO o) (SG o) (m_D o) (m_nodes o) (Ocp_Model.m_w o) (t_start o) (t_stop o)
    (u_dyn U d) (o_dyn_jac o) (o_dyn_hes o) (u_ine U d) (o_ine_jac o) (o_ine_hes o) (u_lag U d) (u_may U d).

Definition as_bound (big v : R) : ext R :=
  if Rle_dec big v then PInf else if Rle_dec v (- big) then MInf else Fin v.

Section S.
Variable U : user.
Variable big : R.
Variable lag_full : vec R -> vec R -> vec R * mat R * vec R * vec R * mat R.
Variable lag : vec R -> vec R -> vec R * vec R * vec R * mat R.
Variable st : sqp_settings R.
Variables Q W : Type.
Variable hupd : mat R -> vec R -> vec R -> mat R.
Variable hreg : mat R -> mat R.
Variable pc_compute : W -> Qp_Model.qp_data R -> W * Qp_Model.qp_data R.
Variable pc_unscale_sol : W -> vec R * vec R -> vec R * vec R.
Variable pc_unscale : W -> Qp_Model.qp_data R -> Qp_Model.qp_data R.
Variable qp_solve : Q -> Qp_Model.qp_data R -> Q * (vec R * vec R * Z).
Variable qp_mark : Q -> Q.

(** the nonlinear program the solver of the wrapper sees: continuous_ocp.hpp:77-93 (sizes),
    sqp_base.hpp:131-139 (bounds are members of the solver) *)
Definition nlp_of (s : mpc R) : problem R :=
  let o := at_params U (prob s) (m_par s) in
  {| nx := VAR o; ne := NUM_EQ o; ni := NUM_INEQ o;
     p_cost := cost o; p_eq := equalities o; p_ineq := inequalities o;
     p_lag_full := lag_full; p_lag := lag;
     lbx := fun i => as_bound big (m_lbx s i); ubx := fun i => as_bound big (m_ubx s i);
     lbg := fun i => as_bound big (m_lbg s i); ubg := fun i => as_bound big (m_ubg s i) |}.

(** m_x and m_lam are members of the solver that the wrapper writes directly *)
Definition start_from (x lam : vec R) (w : sqp_state Q W) : sqp_state Q W :=
  mkSqp x lam (m_lag_gradient w) (m_H w) (m_step_prev w) (m_primal_norm w) (m_dual_norm w) (m_max_violation w)
    (m_cost w) (m_status w) (m_iter w) (m_qp_iter w) (m_q w) (m_w w) (seen w) (calls w) (steps w).

(** mpc_wrapper.hpp:299 *)
Definition mpc_solve (sw : mpc R * sqp_state Q W) : mpc R * sqp_state Q W :=
  let '(s, w) := sw in
  let r := sqp_solve (nlp_of s) st Q W hupd hreg pc_compute pc_unscale_sol pc_unscale qp_solve qp_mark
             (start_from (Mpc_Model.m_x s) (Mpc_Model.m_lam s) w) in
  (set_sol s (Sqp_Model.m_x r) (Sqp_Model.m_lam r) (m_par s), r).

(** what a user of the wrapper does *)
Inductive op := Set_ (c : call R) | Solve.
Definition do_op (sw : mpc R * sqp_state Q W) (f : op) : mpc R * sqp_state Q W :=
  match f with Set_ c => (exec (fst sw) c, snd sw) | Solve => mpc_solve sw end.
Definition session (sw : mpc R * sqp_state Q W) (l : list op) : mpc R * sqp_state Q W := fold_left do_op l sw.
End S.
