(** What scaling a QP by diagonal matrices means (independent of the preconditioner code). *)
Require Import Reals.
Require Import Verif.Scal Verif.RSum Verif.Qp_Model Verif.Qp_Spec.
Local Open Scope R_scope.

(** same data, on the indices that exist *)
Definition qp_same (d d' : qp_data R) : Prop :=
  qn d = qn d' /\ qm d = qm d' /\
  (forall i j, (i < qn d)%nat -> (j < qn d)%nat -> qH d i j = qH d' i j) /\
  (forall j, (j < qn d)%nat -> qh d j = qh d' j) /\
  (forall i j, (i < qm d)%nat -> (j < qn d)%nat -> qA d i j = qA d' i j) /\
  (forall i, (i < qm d)%nat -> qAlb d i = qAlb d' i /\ qAub d i = qAub d' i) /\
  (forall j, (j < qn d)%nat -> qxlb d j = qxlb d' j /\ qxub d j = qxub d' j).

Definition positive (n : nat) (f : vec R) : Prop := forall i, (i < n)%nat -> 0 < f i.

(** [d'] is [d] with x = diag(D) x', constraints multiplied by E and objective by c *)
Definition scaled_by (D E : vec R) (c : R) (d d' : qp_data R) : Prop :=
  qn d' = qn d /\ qm d' = qm d /\
  (forall i j, (i < qn d)%nat -> (j < qn d)%nat -> qH d' i j = c * D i * qH d i j * D j) /\
  (forall j, (j < qn d)%nat -> qh d' j = c * D j * qh d j) /\
  (forall i j, (i < qm d)%nat -> (j < qn d)%nat -> qA d' i j = E i * qA d i j * D j) /\
  (forall i, (i < qm d)%nat -> qAlb d' i = ext_scale (E i) (qAlb d i) /\ qAub d' i = ext_scale (E i) (qAub d i)) /\
  (forall j, (j < qn d)%nat -> qxlb d' j = ext_scale (/ D j) (qxlb d j) /\ qxub d' j = ext_scale (/ D j) (qxub d j)).
