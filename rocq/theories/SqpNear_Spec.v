(** Distances for the SQP solver on quadratic programs with subproblems answered within tolerances (property C105). *)
Require Import Reals List.
From Verif Require Import Scal RSum Qp_Model Qp_Spec Sqp_Model Sqp_Spec SqpQp_Spec.
Local Open Scope R_scope.

(** distance in the norm given by G *)
Definition gdist (n : nat) (G : mat R) (x y : vec R) : R := sqrt (gdist2 n G x y).
(** how far from the optimum the answer of a subproblem can be: curvature [mu], tolerances [ep] and [ed], multipliers
    within [Y] of those of the optimum *)
Definition target_error (n : nat) (mu ep ed Y : R) : R :=
  sqrt (ed * (INR n * ed / mu + sqrt (INR n * ep * Y / mu)) + ep * Y).
(** how short a full step can be that the line search rejects: multipliers of size at most [L] (1-norm) *)
Definition short_step (n nd : nat) (mu eta ep ed L : R) : R :=
  ed * sqrt (INR n / mu) / (/ 2 - eta) + sqrt (L * (ep * (1 + 2 * INR nd) + eta * sqp_eps) / (/ 2 - eta)).
