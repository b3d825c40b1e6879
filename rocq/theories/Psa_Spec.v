(** Specification vocabulary for the pseudo-arclength continuation (Psa_Model.v). *)
Require Import Arith List Bool Reals.
From Verif Require Import Scal RSum Pso_Model Pso_Spec Psa_Model.
Import ListNotations.
Local Open Scope R_scope.

(** the value of the user's equations at the first [e_n s] entries of z *)
Definition F_at (s : eqs) (z : vec R) (i : nat) : R := e_F s (map z (seq 0 (e_n s))) i.
(** z, with lambda as entry [e_n s], is on the homotopy curve from the initial guess (lambda = 1) to a root (lambda = 0) *)
Definition on_curve (s : eqs) (z : vec R) : Prop :=
  forall i, (i < e_n s)%nat -> z (e_n s) * (z i - e_x0 s i) + (1 - z (e_n s)) * F_at s z i = 0.
(** the hard-coded bounds: every thirteenth of the first 6513 entries is at least one *)
Definition in_bounds (s : eqs) (z : vec R) : Prop :=
  forall k, (k < 501)%nat -> (13 * k < e_n s)%nat -> 1 <= z (13 * k)%nat.

(** [e_J s] is the Jacobian: derivative along every direction *)
Definition jacobian (s : eqs) : Prop :=
  forall z v i, (i < e_n s)%nat ->
    derivable_pt_lim (fun h => F_at s (fun j => z j + h * v j) i) 0 (rsum (e_n s) (fun j => e_J s (map z (seq 0 (e_n s))) i j * v j)).

(** for all the problems that the continuation poses (bounds [lb], [ub] for lambda, start [x0], parameter [w]): the answers of the
    corrector are feasible *)
Definition sound_corrector (ipopt : nlp_solver) (s : eqs) : Prop :=
  forall lb ub x0 w lx lg x lx' lg', ipopt (corrector s) (arg s lb ub x0 w) lx lg = Some (x, lx', lg') ->
    feasible (corrector s) (arg s lb ub x0 w) w x.
(** and it answers with a feasible point closest to the parameter if there is a feasible point *)
Definition exact_corrector (ipopt : nlp_solver) (s : eqs) : Prop :=
  sound_corrector ipopt s /\
  forall lb ub x0 w lx lg y, feasible (corrector s) (arg s lb ub x0 w) w y ->
    exists x lx' lg', ipopt (corrector s) (arg s lb ub x0 w) lx lg = Some (x, lx', lg') /\
      rsum (e_n s + 1) (fun i => (x i - w i) ^ 2) <= rsum (e_n s + 1) (fun i => (y i - w i) ^ 2).

(** the matrices and right hand sides of the tangent systems: A r = b *)
Definition tangent_solution (s : eqs) (z r : vec R) : Prop :=
  forall i, (i < e_n s)%nat -> rsum (e_n s) (fun j => jac_x s z i j * r j) = - jac_lam s z i.
Definition sound_lin (lin : lin_solver) (s : eqs) : Prop :=
  forall z r, lin (e_n s) (jac_x s z) (fun i => - jac_lam s z i) = Some r -> tangent_solution s z r.
Definition exact_lin (lin : lin_solver) (s : eqs) : Prop :=
  sound_lin lin s /\ forall z r, tangent_solution s z r -> lin (e_n s) (jac_x s z) (fun i => - jac_lam s z i) <> None.

(** derivative of the homotopy along [t] *)
Definition curve_derivative (s : eqs) (z t : vec R) (i : nat) (d : R) : Prop :=
  derivable_pt_lim (fun h => (z (e_n s) + h * t (e_n s)) * (z i + h * t i - e_x0 s i) +
                             (1 - (z (e_n s) + h * t (e_n s))) * F_at s (fun j => z j + h * t j) i) 0 d.
