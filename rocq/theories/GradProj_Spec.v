(** Gradient projection: what is said about it. *)
Require Import Reals.
From Verif Require Import Scal RSum.
Local Open Scope R_scope.

(** the objective and its gradient *)
Definition gp_cost (n : nat) (H : mat R) (h x : vec R) : R := / 2 * qf n H x + rdot n h x.
Definition gp_slope (n : nat) (H : mat R) (h x : vec R) (i : nat) : R := rmv n H x i + h i.
(** stationary without constraints *)
Definition stationary (n : nat) (H : mat R) (h x : vec R) : Prop := forall i, (i < n)%nat -> gp_slope n H h x i = 0.
(** the form of [H] lies between mm and L *)
Definition form_above (n : nat) (H : mat R) (mm : R) : Prop := forall v, mm * rdot n v v <= qf n H v.
Definition form_below (n : nat) (H : mat R) (L : R) : Prop := forall v, qf n H v <= L * rdot n v v.
(** entrywise convergence of a sequence of vectors *)
Definition converges (n : nat) (xs : nat -> vec R) (y : vec R) : Prop := forall i, (i < n)%nat -> Un_cv (fun k => xs k i) (y i).
