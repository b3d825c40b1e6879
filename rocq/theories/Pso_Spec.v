(** Specification vocabulary for the pseudospectral ODE solver (Pso_Model.v). *)
Require Import Arith List Bool Reals.
From Verif Require Import Scal RSum Poly_Spec Cas_Model Cas_Spec Pso_Model.
Import ListNotations.
Local Open Scope R_scope.

(** bounds; [None] is infinite *)
Definition above (b : option R) (x : R) : Prop := match b with Some v => v <= x | None => True end.
Definition below (b : option R) (x : R) : Prop := match b with Some v => x <= v | None => True end.
(** x satisfies the bounds and the constraints g = 0 for the parameters pv *)
Definition feasible (l : nlp) (a : narg) (pv x : vec R) : Prop :=
  (forall i, (i < l_nx l)%nat -> above (a_lbx a i) (x i) /\ below (a_ubx a i) (x i)) /\
  (forall i, (i < l_ng l)%nat -> l_g l x pv i = 0).

(** orders, segments and states at least one, positive time step, an ODE function of state and control
    (and of the parameters if there are any) with NX outputs, no scaling *)
Definition plain (s : pso) : Prop :=
  (1 <= p_order s)%nat /\ (1 <= p_segs s)%nat /\ (1 <= p_nx s)%nat /\ 0 < p_dt s /\ p_scale s = false /\
  f_out (p_ode s) = p_nx s.
(** the right-hand side of the ODE *)
Definition rhs (s : pso) (x u : list R) (pv : vec R) : vec R :=
  f_val (p_ode s) (x :: u :: (if (0 <? p_np s)%nat then block (p_np s) pv 0 :: nil else nil)).
(** node [j] of segment [sg], counted from the end of [0, dt] *)
Definition pso_time (s : pso) (sg j : nat) : R :=
  node_time (mkCas (p_order s) (p_segs s) (p_nx s) (p_nu s) (p_np s) 0) 0 (p_dt s) sg j.
(** [W k i], state component i at node k, starts at X0 and satisfies the ODE at all the nodes but the
    initial one: on each segment it is given by polynomials of degree at most p_order *)
Definition discrete_solution (s : pso) (X0 : list R) (u : nat -> list R) (pv : vec R) (W : nat -> nat -> R) : Prop :=
  (forall i, (i < p_nx s)%nat -> W (p_segs s * p_order s)%nat i = nth i X0 0) /\
  (forall sg i, (sg < p_segs s)%nat -> (i < p_nx s)%nat -> exists q q', is_poly (p_order s) q /\ derivative_of q q' /\
     (forall j, (j <= p_order s)%nat -> q (pso_time s sg j) = W (sg * p_order s + j)%nat i) /\
     (forall l, (l < p_order s)%nat ->
        q' (pso_time s sg l) = rhs s (map (W (sg * p_order s + l)%nat) (seq 0 (p_nx s))) (u (sg * p_order s + l)%nat) pv i)).
(** the node states in a solution vector of the NLP *)
Definition node_states (s : pso) (x : vec R) (k i : nat) : R := x (k * p_nx s + i)%nat.

(** the states of ARG that calls can produce after construction *)
Inductive reach (inv : nat -> mat R -> mat R) (ipopt : nlp -> narg -> option (vec R)) (s : pso) (a0 : narg) : narg -> Prop :=
| reach_init : reach inv ipopt s a0 a0
| reach_solve : forall a X0 U P full, reach inv ipopt s a0 a -> reach inv ipopt s a0 (fst (pso_solve inv ipopt s a X0 U P full))
| reach_traj : forall a X0 U P full, reach inv ipopt s a0 a -> reach inv ipopt s a0 (fst (pso_trajectory inv ipopt s a X0 U P full)).
