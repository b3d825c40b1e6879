(** Vocabulary for the termination of the SQP solver (property C106). *)
Require Import Reals.
From Verif Require Import Scal RSum Qp_Model Qp_Spec Sqp_Model Sqp_Spec.
Local Open Scope R_scope.

(** the value hits one of the bounds *)
Definition hits (lb ub : ext R) (t : R) : Prop := lb = Fin t \/ ub = Fin t.
(** row i is active at x: equalities, inequalities, bounds *)
Definition row_active (P : problem R) (x : vec R) (i : nat) : Prop :=
  let m := (ne P + ni P)%nat in
  if Nat.ltb i (ne P) then True
  else if Nat.ltb i m then hits (lbg P (i - ne P)%nat) (ubg P (i - ne P)%nat) (p_ineq P x (i - ne P)%nat)
  else hits (lbx P (i - m)%nat) (ubx P (i - m)%nat) (x (i - m)%nat).
(** the rows of the active constraints are linearly independent *)
Definition licq (P : problem R) (J : mat R) (x : vec R) : Prop :=
  let n := nx P in let m := (ne P + ni P)%nat in
  forall v : vec R, (forall i, (i < m + n)%nat -> ~ row_active P x i -> v i = 0) ->
    (forall j, (j < n)%nat -> rsum m (fun i => J i j * v i) + v (m + j)%nat = 0) ->
    forall i, (i < m + n)%nat -> v i = 0.
