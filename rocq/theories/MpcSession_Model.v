(** A session with the MPC wrapper: for every measured state one call of
    initial_conditions and one call of solve (property C109). *)
Require Import ZArith List Reals.
From Verif Require Import Scal Qp_Model Admm_Model BoxAdmm_Model Sqp_Model Ocp_Model Mpc_Model Msv_Model SqpTerm_Model.
Import ListNotations.

Section Session.
Variable U : user.
Variable big : R.
Variable lag_full : vec R -> vec R -> vec R * mat R * vec R * vec R * mat R.
Variable lag : vec R -> vec R -> vec R * vec R * vec R * mat R.
Variable st : sqp_settings R.
Variable hreg : mat R -> mat R.
Variable lsolve : nat -> mat R -> vec R -> vec R.
Variable full : bool.
Variable qs : qp_settings R.

(** mpc_wrapper.hpp 86-90 (initial_conditions) and 298 (solve), as called twice in
    tests/control/mpc_wrapper_test.cpp 137-159; the solution and the multipliers
    stay in the solver and are the starting point of the next call *)
Definition mpc_call (x0 : vec R) (sw : mpc R * @sqp_state R (option (box_obj R)) unit)
    : mpc R * @sqp_state R (option (box_obj R)) unit :=
  let '(s, w) := sw in
  mpc_exact U big lag_full lag st hreg lsolve full qs (exec s (initial_conditions x0), w).

(** The states of the objects after each of the calls. *)
Fixpoint mpc_session (x0s : list (vec R)) (sw : mpc R * @sqp_state R (option (box_obj R)) unit)
    : list (mpc R * @sqp_state R (option (box_obj R)) unit) :=
  match x0s with
  | [] => []
  | x0 :: l => let sw' := mpc_call x0 sw in sw' :: mpc_session l sw'
  end.
End Session.
