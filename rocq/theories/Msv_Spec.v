(** Vocabulary for statements about solved MPC problems; node 0 is the initial time. *)
Require Import Arith ZArith List Bool Reals.
From Verif Require Import Scal Ocp_Model Mpc_Model Mpc_Spec Msv_Model.
Import ListNotations.
Local Open Scope R_scope.

(** stored state and control at node [k], stored parameters *)
Definition node_x (s : mpc R) (k : nat) : nat -> R := fun c => read s (x_value k c).
Definition node_u (s : mpc R) (k : nat) : nat -> R := fun c => read s (u_value k c).
Definition node_p (s : mpc R) : nat -> R := fun c => read s (p_value c).

(** the setter calls of a session *)
Fixpoint setters (l : list op) : list (call R) :=
  match l with [] => [] | Set_ c :: l => c :: setters l | Solve :: l => setters l end.

(** the bound in force: given by the last setter that names it, or else the one the object started with *)
Definition in_force (s0 : mpc R) (l : list op) (q : cell) (b : R) : Prop :=
  b = match last_named (prob s0) (setters l) q with Some v => v | None => read s0 q end.

(** [v] respects the bound [b] up to [e]; bounds beyond [big] are infinite *)
Definition respects (big e b v : R) (w : bound) : Prop :=
  Rabs b < big -> match w with lower => b - e <= v | upper => v <= b + e end.
