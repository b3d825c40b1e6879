(** What "dominated" means, over the reals. *)
Require Import Reals List.
Local Open Scope R_scope.

(** point [p] = (cost, violation) dominates [q] *)
Definition dominates (p q : R * R) : Prop := fst p <= fst q /\ snd p <= snd q.
(** [p] blocks [q] with margin beta: [q] does not improve on [p] by beta times p's violation
    in either coordinate *)
Definition blocks (beta : R) (p q : R * R) : Prop :=
  fst p - beta * snd p <= fst q /\ snd p - beta * snd p <= snd q.
(** no older entry (further back) dominates a newer one *)
Fixpoint newest_undominated (m : list (R * R)) : Prop :=
  match m with
  | nil => True
  | p :: r => (forall q, In q r -> ~ dominates q p) /\ newest_undominated r
  end.
(** no entry dominates another one *)
Definition antichain (m : list (R * R)) : Prop :=
  newest_undominated m /\ newest_undominated (rev m).
