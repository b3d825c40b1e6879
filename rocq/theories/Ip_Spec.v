(** What Ipopt makes of the buffers (Ipopt documentation, TNLP): a matrix is the sum of its triplets;
    of a symmetric matrix one triangle is given. *)
Require Import Arith Bool List Reals.
Import ListNotations.
Local Open Scope R_scope.

Fixpoint tsum (irow jcol : list nat) (vals : list R) (i j : nat) : R :=
  match irow, jcol, vals with
  | a :: irow, b :: jcol, v :: vals =>
      (if (a =? i)%nat && (b =? j)%nat then v else 0) + tsum irow jcol vals i j
  | _, _, _ => 0
  end.
Fixpoint tsym (irow jcol : list nat) (vals : list R) (i j : nat) : R :=
  match irow, jcol, vals with
  | a :: irow, b :: jcol, v :: vals =>
      (if ((a =? i)%nat && (b =? j)%nat) || ((a =? j)%nat && (b =? i)%nat) then v else 0) + tsym irow jcol vals i j
  | _, _, _ => 0
  end.
(** every announced position lies inside the matrix *)
Definition in_range (irow jcol : list nat) (r c : nat) : Prop :=
  Forall (fun i => (i < r)%nat) irow /\ Forall (fun j => (j < c)%nat) jcol.
(** the points Ipopt considers feasible *)
Definition within (lo v hi : list R) : Prop := forall i, (i < length v)%nat -> nth i lo 0 <= nth i v 0 <= nth i hi 0.
