(** Vocabulary of the storage property: sizes of a control problem that make sense, and
    the condition that a matrix is below the limit of statically allocated objects. *)
From Coq Require Import ZArith.
From Verif Require Import Store_Model.
Local Open Scope Z_scope.

(** At least one state, one polynomial and one segment. *)
Definition odim_wf (d : odim) : Prop :=
  1 <= onx d /\ 0 <= onu d /\ 0 <= onp d /\ 0 <= ong d /\ 1 <= opoly d /\ 1 <= osegs d.

(** An r x c matrix of scalars of [sz] bytes takes less than [lim] bytes. *)
Definition below (lim sz r c : Z) : Prop := r * c * sz < lim.
