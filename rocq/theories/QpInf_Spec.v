(** What it means for a QP to have no solution (independent of the solvers). *)
Require Import ZArith List Reals.
From Verif Require Import Scal RSum Qp_Model Qp_Spec.
Local Open Scope R_scope.

(** no point satisfies all the constraints *)
Definition infeasible (p : qp_data R) : Prop := ~ exists x, qp_feasible p x.

(** the cost has no lower bound over the feasible points *)
Definition unbounded_below (p : qp_data R) : Prop := forall B, exists x, qp_feasible p x /\ qp_obj p x < B.

(** every bound is a number *)
Definition finite (b : ext R) : Prop := exists r, b = Fin r.
Definition bounds_finite (p : qp_data R) : Prop :=
  (forall i, (i < qm p)%nat -> finite (qAlb p i) /\ finite (qAub p i)) /\
  (forall j, (j < qn p)%nat -> finite (qxlb p j) /\ finite (qxub p j)).
