(** What a QP is, mathematically (independent of the solvers):
      minimise 1/2 x'Hx + h'x   subject to  Alb <= A x <= Aub,  xlb <= x <= xub. *)
Require Import ZArith List Reals.
From Verif Require Import Scal Qp_Model RSum.
Local Open Scope R_scope.

(** [t] satisfies the possibly infinite lower / upper bound *)
Definition above (lb : ext R) (t : R) : Prop :=
  match lb with Fin l => l <= t | MInf => True | PInf => False end.
Definition below (ub : ext R) (t : R) : Prop :=
  match ub with Fin u => t <= u | PInf => True | MInf => False end.
Definition in_bounds (lb ub : ext R) (t : R) : Prop := above lb t /\ below ub t.

(** the interval given by the two bounds is not empty *)
Definition consistent (lb ub : ext R) : Prop := exists t, in_bounds lb ub t.
Definition qp_consistent (p : qp_data R) : Prop :=
  (forall i, (i < qm p)%nat -> consistent (qAlb p i) (qAub p i)) /\
  (forall j, (j < qn p)%nat -> consistent (qxlb p j) (qxub p j)).

(** sign condition of a multiplier: positive only at the upper, negative only at the lower bound *)
Definition sign_ok (lb ub : ext R) (z y : R) : Prop :=
  (0 < y -> ub = Fin z) /\ (y < 0 -> lb = Fin z).

Definition qp_obj (p : qp_data R) (x : vec R) : R :=
  / 2 * qf (qn p) (qH p) x + rdot (qn p) (qh p) x.

Definition qp_feasible (p : qp_data R) (x : vec R) : Prop :=
  (forall i, (i < qm p)%nat -> in_bounds (qAlb p i) (qAub p i) (rmv (qn p) (qA p) x i)) /\
  (forall j, (j < qn p)%nat -> in_bounds (qxlb p j) (qxub p j) (x j)).

(** j-th component of the gradient of the Lagrangian; y = (multipliers of A, multipliers of the box) *)
Definition lag_grad (p : qp_data R) (x y : vec R) (j : nat) : R :=
  rmv (qn p) (qH p) x j + qh p j + rsum (qm p) (fun i => qA p i j * y i) + y (qm p + j)%nat.

(** first-order optimality (KKT) *)
Definition kkt_pair (p : qp_data R) (x y : vec R) : Prop :=
  (forall j, (j < qn p)%nat -> lag_grad p x y j = 0) /\
  qp_feasible p x /\
  (forall i, (i < qm p)%nat -> sign_ok (qAlb p i) (qAub p i) (rmv (qn p) (qA p) x i) (y i)) /\
  (forall j, (j < qn p)%nat -> sign_ok (qxlb p j) (qxub p j) (x j) (y (qm p + j)%nat)).

(** a matrix with trivial kernel *)
Definition nonsingular (n : nat) (K : mat R) : Prop :=
  forall v, (forall i, (i < n)%nat -> rmv n K v i = 0) -> forall i, (i < n)%nat -> v i = 0.

(** the matrix a solver that reads only the lower triangle (or the full matrix) works with *)
Definition as_read (full : bool) {T : Type} (K : mat T) : mat T :=
  fun i j => if full then K i j else if Nat.ltb i j then K j i else K i j.

(** a linear solver is exact when it solves every nonsingular system *)
Definition exact_solver (full : bool) (lsolve : nat -> mat R -> vec R -> vec R) : Prop :=
  forall n K r, nonsingular n (as_read full K) ->
    forall i, (i < n)%nat -> rmv n (as_read full K) (lsolve n K r) i = r i.

(** the linear solver only looks at the part of the matrix it is supposed to read *)
Definition reads_only {T : Type} (lsolve : nat -> mat T -> vec T -> vec T) (full : bool) : Prop := forall n K K' r,
  (forall i j, (i < n)%nat -> (j < n)%nat -> as_read full K i j = as_read full K' i j) ->
  forall i, (i < n)%nat -> lsolve n K r i = lsolve n K' r i.

(** Approximate optimality certificate: [za] / [zx] are points inside the bounds near A x / x,
    the multipliers y have the sign required at those points, the gradient of the Lagrangian is small. *)
Definition certificate (p : qp_data R) (x y za zx : vec R) (ep_a ep_x ed : R) : Prop :=
  (forall i, (i < qm p)%nat ->
     in_bounds (qAlb p i) (qAub p i) (za i) /\ Rabs (rmv (qn p) (qA p) x i - za i) <= ep_a /\
     sign_ok (qAlb p i) (qAub p i) (za i) (y i)) /\
  (forall j, (j < qn p)%nat ->
     in_bounds (qxlb p j) (qxub p j) (zx j) /\ Rabs (x j - zx j) <= ep_x /\
     sign_ok (qxlb p j) (qxub p j) (zx j) (y (qm p + j)%nat)) /\
  (forall j, (j < qn p)%nat -> Rabs (lag_grad p x y j) <= ed).

(** [x] is within the stated distance of optimality, compared with every feasible point *)
Definition near_optimal (p : qp_data R) (x y : vec R) (ep ed : R) : Prop :=
  forall x', qp_feasible p x' ->
    qp_obj p x <= qp_obj p x' + ed * rnorm1 (qn p) (fun j => x' j - x j) + ep * rnorm1 (qm p + qn p) y.

(** how far out bounds are: lb < t, t < ub, ub - lb < t; infinite bounds never compare as close *)
Definition far_below (lb : ext R) (t : R) : Prop := match lb with Fin l => l < t | MInf => True | PInf => False end.
Definition far_above (ub : ext R) (t : R) : Prop := match ub with Fin u => t < u | PInf => True | MInf => False end.
Definition gap_below (lb ub : ext R) (t : R) : Prop :=
  match lb, ub with
  | Fin l, Fin u => u - l < t
  | Fin _, MInf | PInf, Fin _ | PInf, MInf => True
  | _, _ => False
  end.
