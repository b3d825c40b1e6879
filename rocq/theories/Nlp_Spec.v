(** What the NLP functions should return: derivatives of the Lagrangian function. *)
Require Import Arith Reals.
From Verif Require Import RSum Ad_Spec Nlp_Model.
Local Open Scope R_scope.

(** [l] is the derivative of [f] at [x] along coordinate [k] *)
Definition partial (f : (nat -> R) -> R) (x : nat -> R) (k : nat) (l : R) : Prop :=
  derivable_pt_lim (fun t => f (shift x k t)) 0 l.
(** [l] is the derivative along [k] of the derivative of [f] along [j] *)
Definition partial2 (f : (nat -> R) -> R) (x : nat -> R) (j k : nat) (l : R) : Prop :=
  exists (g : R -> R) (d : R), 0 < d /\
    (forall t, Rabs t < d -> partial f (shift x k t) j (g t)) /\ derivable_pt_lim g 0 l.

(** the functions the user wrote, evaluated on plain numbers *)
Definition f0 (P : problem) (p x : nat -> R) : R := ev x (cost P p).
Definition con (P : problem) (p : nat -> R) (i : nat) (x : nat -> R) : R :=
  if (i <? NE P)%nat then ev x (ceq P p i) else ev x (cin P p (i - NE P)%nat).

(** scale * cost + multipliers of the constraints + multipliers of the box *)
Definition Lag (P : problem) (p : nat -> R) (scale : R) (lam x : nat -> R) : R :=
  scale * f0 P p x + rsum (NE P + NI P) (fun i => lam i * con P p i x)
  + rsum (NX P) (fun i => lam (NE P + NI P + i)%nat * x i).

(** the user's functions are differentiable at [x] and use operations that nested active scalars support *)
Definition smooth_at (P : problem) (p x : nat -> R) : Prop :=
  smooth x (cost P p) /\ (forall i, (i < NE P)%nat -> smooth x (ceq P p i)) /\ (forall i, (i < NI P)%nat -> smooth x (cin P p i)).
Definition nestable_all (P : problem) (p : nat -> R) : Prop :=
  nestable (cost P p) /\ (forall i, (i < NE P)%nat -> nestable (ceq P p i)) /\ (forall i, (i < NI P)%nat -> nestable (cin P p i)).
