(** The SQP solver with exact linearisation in every iteration, its default QP solver and its default preconditioner, and
    MPC::solve with that solver (property C106). *)
Require Import ZArith List Reals.
From Verif Require Import Scal Qp_Model Admm_Model BoxAdmm_Model Sqp_Model SqpExact_Model SqpNative_Model Ocp_Model Mpc_Model Msv_Model.

Section NativeExact.
Context {T : Type} {sc : Scalar T}.
Variable lsolve : nat -> mat T -> vec T -> vec T.
Variable full : bool.
Variable s : qp_settings T.
(** sqp_base.hpp 569-696 with update_linearisation_dense_impl overridden (see SqpExact_Model.v), boxADMM and
    IdentityPreconditioner (see SqpNative_Model.v) *)
Definition native_exact (P : problem T) (st : sqp_settings T) (hreg : mat T -> mat T) :
  @sqp_state T (option (box_obj T)) unit -> @sqp_state T (option (box_obj T)) unit :=
  exact_solve P st (option (box_obj T)) unit hreg (fun w d => (w, d)) (fun _ v => v) (fun _ d => d) (native_qp lsolve full s) (fun q => q).
End NativeExact.

Section MpcExact.
Variable U : user.
Variable big : R.
Variable lag_full : vec R -> vec R -> vec R * mat R * vec R * vec R * mat R.
Variable lag : vec R -> vec R -> vec R * vec R * vec R * mat R.
Variable st : sqp_settings R.
Variable hreg : mat R -> mat R.
Variable lsolve : nat -> mat R -> vec R -> vec R.
Variable full : bool.
Variable qs : qp_settings R.
(** mpc_wrapper.hpp 299 with such a solver, as in tests/control/nonlinear_constraints_test.cpp 79-162 (there with a
    nonlinear problem) *)
Definition mpc_exact (sw : mpc R * @sqp_state R (option (box_obj R)) unit) : mpc R * @sqp_state R (option (box_obj R)) unit :=
  let '(s, w) := sw in
  let r := native_exact lsolve full qs (nlp_of U big lag_full lag s) st hreg
             (start_from (option (box_obj R)) unit (Mpc_Model.m_x s) (Mpc_Model.m_lam s) w) in
  (set_sol s (Sqp_Model.m_x r) (Sqp_Model.m_lam r) (m_par s), r).
End MpcExact.
