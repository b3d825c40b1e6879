(** The SQP solver with its default QP solver, dense boxADMM, and its default preconditioner, the identity (sqp_base.hpp
    66-68; property C105). *)
Require Import ZArith List.
From Verif Require Import Scal Qp_Model Admm_Model BoxAdmm_Model Sqp_Model.
Local Open Scope Z_scope.

Section Native.
Context {T : Type} {sc : Scalar T}.
Variable lsolve : nat -> mat T -> vec T -> vec T.
Variable full : bool.
Variable s : qp_settings T.

(** sqp_base.hpp 531-565, solve_qp: m_qp_solver.solve(H, h, A, al, au, xl, xu), without a guess (box_admm.hpp 78-83); the
    returned status is ignored, the step is primal_solution(), the multipliers dual_solution().  [None]: this or an earlier
    call of the QP solver had undefined behaviour (BoxAdmm_Model.v); the answer is then zero in the model. *)
Definition native_qp (q : option (box_obj T)) (d : qp_data T) : option (box_obj T) * (vec T * vec T * Z) :=
  match match q with None => None | Some o => box_solve_cold lsolve full s d o end with
  | None => (None, (fun _ => s0, fun _ => s0, 0))
  | Some o' => (Some o', (b_x o', b_y o', b_iter o'))
  end.

(** sqp_base.hpp 569-696.  Lines 614-615 set reuse_pattern and warm_start; box_admm.hpp reads the former for sparse matrices
    only (line 229) and never the latter, so the mark is the identity.  IdentityPreconditioner (qp_preconditioners.hpp 28-111)
    changes nothing.  [hupd], [hreg] as in Sqp_Model.v. *)
Definition native_solve (P : problem T) (st : sqp_settings T) (hupd : mat T -> vec T -> vec T -> mat T) (hreg : mat T -> mat T) :
  @sqp_state T (option (box_obj T)) unit -> @sqp_state T (option (box_obj T)) unit :=
  sqp_solve P st (option (box_obj T)) unit hupd hreg (fun w d => (w, d)) (fun _ v => v) (fun _ d => d) native_qp (fun q => q).
End Native.
