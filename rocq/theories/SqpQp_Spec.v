(** A quadratic program given to the SQP solver as an NLP:
      minimise c0 + c'x + 1/2 x'Gx  subject to  affine constraints A x + b and bounds. *)
Require Import Reals List.
From Verif Require Import Scal RSum Qp_Model Qp_Spec Sqp_Model Sqp_Spec.
Local Open Scope R_scope.

(** cost, constraints and derivatives are those of the quadratic program *)
Definition quadratic_nlp (P : problem R) (grad : vec R -> vec R) (jac : vec R -> mat R)
  (G : mat R) (c : vec R) (c0 : R) (A : mat R) (b : vec R) : Prop :=
  let n := nx P in let m := (ne P + ni P)%nat in
  symmetric n G /\
  (forall x, p_cost P x = c0 + rdot n c x + / 2 * qf n G x) /\
  (forall x j, (j < n)%nat -> grad x j = c j + rmv n G x j) /\
  (forall x i, (i < m)%nat -> constr_values P x i = rmv n A x i + b i) /\
  (forall x i j, (i < m)%nat -> (j < n)%nat -> jac x i j = A i j).

(** the subproblem was given the Hessian G *)
Definition hessian_is (n : nat) (G : mat R) (e : qp_data R * (vec R * vec R)) : Prop :=
  forall i j, (i < n)%nat -> (j < n)%nat -> qH (fst e) i j = G i j.

(** squared distance in the norm given by G *)
Definition gdist2 (n : nat) (G : mat R) (x y : vec R) : R := qf n G (fun j => x j - y j).

(** the machine precision the solver adds to every constraint violation (sqp_base.hpp, EPSILON) makes it treat starting
    points this close to the solution differently *)
Definition blur (eta mu : R) : R := eta / (/ 2 - eta) * (mu * sqp_eps).
