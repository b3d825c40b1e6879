(** Specification vocabulary for the scaled pseudospectral ODE solver (Pso_Model.v). *)
Require Import Arith List Bool Reals.
From Verif Require Import Scal RSum Cas_Model Pso_Model Pso_Spec.
Local Open Scope R_scope.

(** A B = B A = 1 for square matrices of size n *)
Definition entry (n : nat) (A B : mat R) (i k : nat) : R := rsum n (fun j => A i j * B j k).
Definition two_sided (n : nat) (A B : mat R) : Prop :=
  (forall i k, (i < n)%nat -> (k < n)%nat -> entry n A B i k = if (i =? k)%nat then 1 else 0) /\
  (forall i k, (i < n)%nat -> (k < n)%nat -> entry n B A i k = if (i =? k)%nat then 1 else 0).
(** as [plain], with scaling and without parameters *)
Definition scaled (s : pso) : Prop :=
  (1 <= p_order s)%nat /\ (1 <= p_segs s)%nat /\ (1 <= p_nx s)%nat /\ 0 < p_dt s /\ p_scale s = true /\ p_np s = 0%nat /\
  f_out (p_ode s) = p_nx s.
(** the states and the controls in a solution vector, in physical units *)
Definition unscaled_states (inv : nat -> mat R -> mat R) (s : pso) (x : vec R) (k i : nat) : R :=
  rsum (p_nx s) (fun j => inv (p_nx s) (p_P s) i j * x (k * p_nx s + j)%nat).
Definition unscaled_control (inv : nat -> mat R -> mat R) (s : pso) (x : vec R) (k i : nat) : R :=
  rsum (p_nu s) (fun j => inv (p_nu s) (p_R s) i j * x (pso_N s * p_nx s + k * p_nu s + j)%nat).
(** p times the inverse of the scaling matrix times X0 *)
Definition misscaled (inv : nat -> mat R -> mat R) (s : pso) (p : R) (X0 : list R) : list R :=
  map (fun i => rsum (p_nx s) (fun j => inv (p_nx s) (p_P s) i j * (p * nth j X0 0))) (seq 0 (p_nx s)).
