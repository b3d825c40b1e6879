(** Vocabulary for the block Hessian approximation of the transcription. *)
Require Import Arith ZArith List Bool Lia Reals.
From Verif Require Import Scal RSum Sparse Ocp_Model Ocp_Spec.
Local Open Scope R_scope.

(** unknown number i is an argument of the user functions at node k *)
Definition node_unknown (o : ocp R) (k i : nat) : Prop :=
  (exists c, (c < NX o)%nat /\ i = ix o k c) \/ (exists c, (c < NU o)%nat /\ i = iu o k c) \/
  (exists c, (c < NP o)%nat /\ i = ip o c).
(** two unknowns occur in the same node function *)
Definition coupled (o : ocp R) (i j : nat) : Prop :=
  exists k, (k < NUM_NODES o)%nat /\ node_unknown o k i /\ node_unknown o k j.

(** a compressed matrix whose stored entries are the pairs of coupled unknowns *)
Definition block_matrix (o : ocp R) (M : spmat R) : Prop :=
  sp_r M = VAR o /\ sp_c M = VAR o /\ (forall j, (j < VAR o)%nat -> slack M j = 0%nat) /\
  (forall i j, (i < VAR o)%nat -> (j < VAR o)%nat -> (pat M i j = true <-> coupled o i j)).

(** Powell's damped gradient difference and the damped BFGS update of the matrix B *)
Definition powell_diff (n : nat) (B : nat -> nat -> R) (s y : nat -> R) (i : nat) : R :=
  let sBs := rdot n s (rmv n B s) in
  let sy := rdot n s y in
  if Rle_dec (2 / 10 * sBs) sy then y i
  else let theta := 8 / 10 * sBs / (sBs - sy) in theta * y i + (1 - theta) * rmv n B s i.
Definition damped_bfgs (n : nat) (B : nat -> nat -> R) (s y : nat -> R) (i j : nat) : R :=
  let r := powell_diff n B s y in
  B i j - rmv n B s i * rmv n B s j / rdot n s (rmv n B s) + r i * r j / rdot n s r.
