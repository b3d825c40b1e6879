(** Vocabulary for the distance of an approximate answer to the optimum (property C104). *)
Require Import Reals List.
From Verif Require Import Scal RSum Qp_Model Qp_Spec.
Local Open Scope R_scope.

(** curvature at least [mu] in every direction *)
Definition curvature (n : nat) (H : mat R) (mu : R) : Prop := forall v, mu * rdot n v v <= qf n H v.
(** the error that the tolerances [ep] (constraints) and [ed] (gradient of the Lagrangian) leave at (x, y), seen from the
    optimum (xs, ys) *)
Definition slackness (n md : nat) (ep ed : R) (x y xs ys : vec R) : R :=
  ed * rnorm1 n (fun j => x j - xs j) + ep * rnorm1 md (fun i => y i - ys i).
(** a step of the SQP method whose subproblem was answered within the tolerances *)
Definition inexact_step (ep ed : R) (e : qp_data R * (vec R * vec R)) : Prop :=
  exists za zx, certificate (fst e) (fst (snd e)) (snd (snd e)) za zx ep ep ed.
(** what SOLVED says about the distance to an optimum (xs, ys), with tolerances [ep] and [ed]: distance in the norm of the
    Hessian, value of the objective, and distance in every coordinate if the curvature is at least mu *)
Definition close_to_optimum (p : qp_data R) (x y xs ys : vec R) (ep ed : R) : Prop :=
  qf (qn p) (qH p) (fun j => x j - xs j) <= slackness (qn p) (qm p + qn p) ep ed x y xs ys /\
  qp_obj p xs - ep * rnorm1 (qm p + qn p) ys <= qp_obj p x
    <= qp_obj p xs + ed * rnorm1 (qn p) (fun j => xs j - x j) + ep * rnorm1 (qm p + qn p) y /\
  forall mu, 0 < mu -> curvature (qn p) (qH p) mu -> forall j, (j < qn p)%nat ->
    Rabs (x j - xs j) <= INR (qn p) * ed / mu + sqrt (INR (qn p) * ep * rnorm1 (qm p + qn p) (fun i => y i - ys i) / mu).
