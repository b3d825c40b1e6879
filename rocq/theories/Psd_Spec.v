(** Specification vocabulary for is_psd. *)
Require Import Arith Bool Reals.
From Verif Require Import Scal RSum.
Local Open Scope R_scope.

Definition quad (n : nat) (h : mat R) (v : vec R) : R := rsum n (fun i => rsum n (fun j => v i * h i j * v j)).
Definition psd (n : nat) (h : mat R) : Prop := forall v, 0 <= quad n h v.
(** [e] are the eigenvalues of the symmetric matrix [h]: h = V diag(e) V' with orthonormal columns of V *)
Definition spectrum (n : nat) (h : mat R) (e : vec R) : Prop :=
  exists V : mat R, (forall k l, (k < n)%nat -> (l < n)%nat -> rsum n (fun i => V i k * V i l) = if (k =? l)%nat then 1 else 0) /\
    forall i j, (i < n)%nat -> (j < n)%nat -> h i j = rsum n (fun k => e k * (V i k * V j k)).
(** [e] are the roots of the characteristic polynomial of a 2 x 2 matrix *)
Definition spectrum2 (h : mat R) (e : vec R) : Prop :=
  forall x, (h 0%nat 0%nat - x) * (h 1%nat 1%nat - x) - h 0%nat 1%nat * h 1%nat 0%nat = (e 0%nat - x) * (e 1%nat - x).
