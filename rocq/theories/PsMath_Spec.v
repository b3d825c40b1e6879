(** Specification of the linear algebra of psarc_math (property C112): matrices as functions
    of row and column, solutions of linear systems, determinants. *)
From Coq Require Import Arith List Reals.
From Verif Require Import PsMath_Model.
Import ListNotations.
Local Open Scope R_scope.

(** Sum of f 0, ..., f (n - 1). *)
Fixpoint total (n : nat) (f : nat -> R) : R := match n with O => 0 | S k => total k f + f k end.

Definition solves (n : nat) (A : nat -> nat -> R) (x b : nat -> R) : Prop :=
  forall i, (i < n)%nat -> total n (fun j => A i j * x j) = b i.
Definition nonsingular (n : nat) (A : nat -> nat -> R) : Prop :=
  forall y, solves n A y (fun _ => 0) -> forall j, (j < n)%nat -> y j = 0.

(** Determinant by expansion along the first column. *)
Definition minor (A : nat -> nat -> R) (k i j : nat) : R := A (if (i <? k)%nat then i else S i) (S j).
Fixpoint det (n : nat) (A : nat -> nat -> R) : R :=
  match n with
  | O => 1
  | S m => total n (fun k => (-1) ^ k * A k O * det m (minor A k))
  end.

(** CasADi's invariants: row indices of a column in range and without repetition. *)
Definition valid (A : dm) : Prop :=
  forall c, In c (d_columns A) -> NoDup (map fst c) /\ forall k, In k (map fst c) -> (k < d_rows A)%nat.
(** The element (i, j): the stored value, or zero. *)
Definition is_element (A : dm) (i j : nat) (v : R) : Prop :=
  exists c, nth_error (d_columns A) j = Some c /\
    (In (i, v) c \/ (~ In i (map fst c) /\ v = 0)).
(** A function with these values. *)
Definition represents (A : dm) (f : nat -> nat -> R) : Prop :=
  forall i j, (i < d_rows A)%nat -> (j < d_cols A)%nat -> is_element A i j (f i j).

(** Exact solvers, for systems with n unknowns. *)
Definition exact_dense (n : nat) (lu : nat -> (nat -> nat -> R) -> (nat -> R) -> nat -> R) : Prop :=
  forall A b, nonsingular n A -> solves n A (lu n A b) b.
Definition exact_sparse (n : nat) (lu : nat -> (nat -> nat -> R) -> option ((nat -> R) -> nat -> R)) : Prop :=
  forall A, nonsingular n A -> exists f, lu n A = Some f /\ forall b, solves n A (f b) b.
Definition exact_casadi (n : nat) (sol : dm -> dm -> dm) : Prop :=
  forall A b FA FB, valid A -> valid b -> d_rows A = n -> d_cols A = n -> d_rows b = n ->
    represents A FA -> represents b FB -> nonsingular n FA ->
    valid (sol A b) /\ d_rows (sol A b) = n /\ d_cols (sol A b) = d_cols b /\
    exists X, represents (sol A b) X /\
      forall k, (k < d_cols b)%nat -> solves n FA (fun j => X j k) (fun i => FB i k).
(** logAbsDeterminant of a nonsingular matrix. *)
Definition exact_log (n : nat) (logdet : nat -> (nat -> nat -> R) -> R) : Prop :=
  forall A, det n A <> 0 -> logdet n A = ln (Rabs (det n A)).
