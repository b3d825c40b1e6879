(** What the calls of the MPC wrapper name, in user terms: time node 0 is the initial time. *)
Require Import Arith ZArith List Bool.
From Verif Require Import Scal Ocp_Model Mpc_Model.

Section Spec.
Context {T : Type}.

(** the quantities of a problem; [k] counts time nodes from the initial time, [c] components *)
Inductive bound := lower | upper.
Inductive cell :=
| x_bound (b : bound) (k c : nat) | u_bound (b : bound) (k c : nat) | p_bound (b : bound) (c : nat)
| g_bound (b : bound) (k c : nat)
| x_value (k c : nat) | u_value (k c : nat) | p_value (c : nat) | dual (i : nat) | static_parameter (i : nat).
(** number of time nodes *)
Definition nodes (o : ocp T) : nat := (PO o * SG o + 1)%nat.
Definition valid (o : ocp T) (q : cell) : Prop :=
  match q with
  | x_bound _ k c | x_value k c => (k < nodes o /\ c < NX o)%nat
  | u_bound _ k c | u_value k c => (k < nodes o /\ c < NU o)%nat
  | g_bound _ k c => (k < nodes o /\ c < NG o)%nat
  | p_bound _ c | p_value c => (c < NP o)%nat
  | dual _ | static_parameter _ => True
  end.
(** trajectories are passed and stored with the final time first, node by node *)
Definition traj (n m k c : nat) : nat := ((n - 1 - k) * m + c)%nat.
Definition pick (b : bound) (l u : vec T) : vec T := match b with lower => l | upper => u end.

(** where the solver keeps a quantity *)
Definition read (s : mpc T) (q : cell) : T :=
  let o := prob s in let n := nodes o in
  match q with
  | x_bound b k c => pick b (m_lbx s) (m_ubx s) (traj n (NX o) k c)
  | u_bound b k c => pick b (m_lbx s) (m_ubx s) (n * NX o + traj n (NU o) k c)%nat
  | p_bound b c => pick b (m_lbx s) (m_ubx s) (n * NX o + n * NU o + c)%nat
  | g_bound b k c => pick b (m_lbg s) (m_ubg s) (traj n (NG o) k c)
  | x_value k c => m_x s (traj n (NX o) k c)
  | u_value k c => m_x s (n * NX o + traj n (NU o) k c)%nat
  | p_value c => m_x s (n * NX o + n * NU o + c)%nat
  | dual i => m_lam s i
  | static_parameter i => m_par s i
  end.

(** the value a call gives to a quantity, if it names it *)
Definition names (o : ocp T) (f : call T) (q : cell) : option T :=
  let n := nodes o in
  match f, q with
  | initial_conditions x0, x_bound _ O c => Some (x0 c)
  | initial_conditions2 l u, x_bound b O c => Some (pick b l u c)
  | x_lower_bound l, x_bound lower (S _) c => Some (l c)
  | x_upper_bound u, x_bound upper (S _) c => Some (u c)
  | state_bounds l u, x_bound b (S _) c => Some (pick b l u c)
  | state_trajectory_bounds l u, x_bound b k c => Some (pick b l u (traj n (NX o) k c))
  | x_final_lower_bound l, x_bound lower k c => if (k =? n - 1)%nat then Some (l c) else None
  | x_final_upper_bound u, x_bound upper k c => if (k =? n - 1)%nat then Some (u c) else None
  | final_state_bounds l u, x_bound b k c => if (k =? n - 1)%nat then Some (pick b l u c) else None
  | u_lower_bound l, u_bound lower k c => Some (l c)
  | u_upper_bound u, u_bound upper k c => Some (u c)
  | control_bounds l u, u_bound b k c => Some (pick b l u c)
  | control_trajecotry_bounds l u, u_bound b k c => Some (pick b l u (traj n (NU o) k c))
  | constraints_trajectory_bounds l u, g_bound b k c => Some (pick b l u (traj n (NG o) k c))
  | constraints_bounds l u, g_bound b k c => Some (pick b l u c)
  | parameters_bounds l u, p_bound b c => Some (pick b l u c)
  | x_guess x, x_value k c => Some (x (traj n (NX o) k c))
  | u_guess u, u_value k c => Some (u (traj n (NU o) k c))
  | p_guess p, p_value c => Some (p c)
  | lam_guess l, dual i => Some (l i)
  | set_static_parameters p, static_parameter i => Some (p i)
  | _, _ => None
  end.
(** the value given by the last call that names the quantity *)
Fixpoint last_named (o : ocp T) (l : list (call T)) (q : cell) : option T :=
  match l with
  | nil => None
  | f :: l => match last_named o l q with Some v => Some v | None => names o f q end
  end.
End Spec.
