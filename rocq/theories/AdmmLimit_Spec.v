(** What it means for two settings to run the same iteration. *)
Require Import Reals Bool.
From Verif Require Import Scal Qp_Model Admm_Model Admm_SpecR BoxAdmm_Model.
Local Open Scope R_scope.

(** the settings agree in everything that enters the iterates; tolerances, check interval and iteration limit are free *)
Definition same_iteration (s s' : qp_settings R) : Prop :=
  sigma s' = sigma s /\ alpha s' = alpha s /\ rho0 s' = rho0 s /\ adaptive_rho s' = false.

(** the result (x, y, z) agrees with the point xl and the multipliers yl up to e; z holds the projected values of the
    constraint rows and of the variables *)
Definition close (p : qp_data R) (e : R) (x y z : vec R) (xl yl : vec R) : Prop :=
  (forall j, (j < qn p)%nat -> Rabs (x j - xl j) < e) /\
  (forall i, (i < qm p + qn p)%nat -> Rabs (y i - yl i) < e) /\
  (forall i, (i < qm p + qn p)%nat -> Rabs (z i - stackv p xl i) < e).

(** boxADMM keeps the projected rows and the projected variables in two vectors *)
Definition box_rows (p : qp_data R) (o : box_obj R) : vec R :=
  fun i => if Nat.ltb i (qm p) then b_z o i else b_q o (i - qm p)%nat.
