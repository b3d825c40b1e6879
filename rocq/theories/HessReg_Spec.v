(** Diagonal dominance, changes of the diagonal, and spectral decompositions. *)
Require Import Reals.
Require Import Verif.Scal Verif.RSum.
Local Open Scope R_scope.

(** sum of the moduli of the other entries of column i: the radius of its Gershgorin disc *)
Definition radius (n : nat) (H : mat R) (i : nat) : R := rsum n (fun k => if Nat.eqb k i then 0 else Rabs (H k i)).
Definition dominant (n : nat) (H : mat R) (i : nat) : Prop := radius n H i < H i i.
Definition same_matrix (n : nat) (A B : mat R) : Prop := forall i j, (i < n)%nat -> (j < n)%nat -> A i j = B i j.
(** H = V diag(d) V' *)
Definition decomposes (n : nat) (H : mat R) (d : vec R) (V : mat R) : Prop :=
  forall i j, (i < n)%nat -> (j < n)%nat -> H i j = rsum n (fun k => V i k * d k * V j k).
(** column k of V is an eigenvector of H for the eigenvalue d k *)
Definition eigenpairs (n : nat) (H : mat R) (d : vec R) (V : mat R) : Prop :=
  forall i k, (i < n)%nat -> (k < n)%nat -> rsum n (fun j => H i j * V j k) = d k * V i k.
(** every vector is a combination of the columns of V *)
Definition spanning (n : nat) (V : mat R) : Prop :=
  forall x, exists y, forall i, (i < n)%nat -> x i = rsum n (fun k => V i k * y k).
Definition unit_columns (n : nat) (V : mat R) : Prop := forall k, (k < n)%nat -> rsum n (fun i => V i k * V i k) = 1.
Definition orthonormal (n : nat) (V : mat R) : Prop :=
  forall k l, (k < n)%nat -> (l < n)%nat -> rsum n (fun i => V i k * V i l) = if Nat.eqb k l then 1 else 0.
(** what the eigenvalues should become: those that are not positive change sign and move 0.1 away from zero *)
Definition flipped (d : vec R) : vec R := fun k => if Rle_dec (d k) 0 then - d k + / 10 else d k.
