(** SQPBase with exact linearisation in every iteration. *)
Require Import ZArith List Bool.
Require Import Verif.Scal Verif.Qp_Model Verif.Sqp_Model.
Import ListNotations.

Section Exact.
Context {T : Type} {ST : Scalar T}.
Variable P : problem T.
Variable st : sqp_settings T.
Variables Q W : Type.
Variable hreg : mat T -> mat T.
Variable pc_compute : W -> qp_data T -> W * qp_data T.
Variable pc_unscale_sol : W -> vec T * vec T -> vec T * vec T.
Variable pc_unscale : W -> qp_data T -> qp_data T.
Variable qp_solve : Q -> qp_data T -> Q * (vec T * vec T * Z).
Variable qp_mark : Q -> Q.
Notation state := (@sqp_state T Q W).
Notation step := (sqp_step P st Q W pc_compute pc_unscale_sol pc_unscale qp_solve).

(** sqp_base.hpp 641-691, the loop body, with update_linearisation_dense_impl and update_linearisation_sparse_impl
    overridden to call linearisation_dense_impl and linearisation_sparse_impl (sqp_base.hpp 307-330), as in
    tests/solvers/sqp/codegen_test.cpp 381-398, tests/control/nonlinear_constraints_test.cpp 138-154 and
    tests/control/minimal_time_test.cpp 126-142.  The argument lag_hessian is m_H. *)
Definition exact_iteration (s : state) : state :=
  let s := set_iter Q W (m_iter s + 1)%Z s in
  let '(lagg, H, h, b, A) := p_lag_full P (m_x s) (m_lam s) in
  callback st Q W (step (fun q => q) s lagg (hreg H) h A b).

(** sqp_base.hpp 639-692; [fuel] bounds the number of iterations (max_iter - 1 suffices) *)
Fixpoint exact_loop (fuel : nat) (s : state) : state :=
  match fuel with
  | O => s
  | S k =>
      if (m_iter s <? smax_iter st)%Z then
        let s' := exact_iteration s in
        if terminated st Q W s' then set_status Q W SqpSolved s' else exact_loop k s'
      else s
  end.

(** sqp_base.hpp 569-696 solve(); the first iteration is that of the base class *)
Definition exact_solve (s : state) : state :=
  let s1 := sqp_first P st Q W hreg pc_compute pc_unscale_sol pc_unscale qp_solve qp_mark s in
  if terminated st Q W s1 then set_status Q W SqpSolved s1
  else exact_loop (Z.to_nat (smax_iter st - 1)) s1.
End Exact.
