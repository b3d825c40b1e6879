(** What controllability of x' = F x + G u means, without the controllability matrix. *)
Require Import Arith Reals.
From Verif Require Import Scal RSum Lqr_Model Ctr_Model.
Local Open Scope R_scope.

(** the state x moves from time 0 to time T under the input u *)
Definition trajectory (s : linear_system) (T : R) (x u : R -> nat -> R) : Prop :=
  forall t, 0 <= t <= T -> forall i, (i < sys_n s)%nat ->
    derivable_pt_lim (fun t => x t i) t
      (rsum (sys_n s) (fun j => sys_F s i j * x t j) + rsum (sys_m s) (fun r => sys_G s i r * u t r)).
(** every state can be steered to every other state in every positive time, by inputs that are continuous *)
Definition controllable (s : linear_system) : Prop :=
  forall (x0 x1 : nat -> R) (T : R), 0 < T -> exists x u, trajectory s T x u /\
    (forall t r, continuity_pt (fun t => u t r) t) /\
    (forall i, (i < sys_n s)%nat -> x 0 i = x0 i /\ x T i = x1 i).
(** the rows of a matrix with r rows and c columns are linearly independent *)
Definition independent_rows (r c : nat) (M : mx) : Prop :=
  forall v, (forall j, (j < c)%nat -> rsum r (fun i => v i * M i j) = 0) -> forall i, (i < r)%nat -> v i = 0.
(** the decomposition tells a matrix of full row rank from others *)
Definition tells_full_rank (lu_rank : nat -> nat -> mx -> nat) (r c : nat) (M : mx) : Prop :=
  lu_rank r c M = r <-> independent_rows r c M.
