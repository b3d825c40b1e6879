(** Specification of reshaping (property C110), in terms of lists of coefficients. *)
From Coq Require Import Arith List.
From Verif Require Import Reshape_Model.
Import ListNotations.

(** The coefficients of a matrix in the order of columns or of rows. *)
Definition entries {T} (o : order) (rows cols : nat) (f : nat -> nat -> T) : list T :=
  match o with
  | ColMajor => flat_map (fun j => map (fun i => f i j) (seq 0 rows)) (seq 0 cols)
  | RowMajor => flat_map (fun i => map (fun j => f i j) (seq 0 cols)) (seq 0 rows)
  end.

(** Position of a coefficient in that list. *)
Definition position (o : order) (rows cols i j : nat) : nat :=
  match o with ColMajor => j * rows + i | RowMajor => i * cols + j end.

Definition x_entries {T} (m : nat -> T) (o : order) (x : expr) : list T :=
  entries o (x_rows x) (x_cols x) (fun i j => m (x_loc x i j)).
Definition r_entries {T} (m : nat -> T) (r : reshaped) : list T :=
  entries (r_ord r) (r_rows r) (r_cols r) (fun i j => m (r_loc r i j)).

(** Reshaping keeps the coefficients in the order of the reshape. *)
Definition keeps_entries (r : reshaped) : Prop :=
  forall (T : Type) (m : nat -> T), r_entries m r = x_entries m (r_ord r) (r_xpr r).

(** Sizes along and across the storage order. *)
Definition inner_size (o : order) (rows cols : nat) : nat :=
  match o with ColMajor => rows | RowMajor => cols end.
Definition outer_size (o : order) (rows cols : nat) : nat :=
  match o with ColMajor => cols | RowMajor => rows end.

(** What the bit LinearAccessBit means for an expression with direct access: its
    coefficients in storage order are equidistant (a contiguous matrix, or a vector with
    any stride). *)
Definition linear_ok (x : expr) : Prop :=
  match x_access x with
  | Direct _ inner outer =>
      x_linear x = true ->
      outer_size (x_order x) (x_rows x) (x_cols x) <= 1 \/
      outer = inner_size (x_order x) (x_rows x) (x_cols x) * inner
  | Function _ => True
  end.

(** Different coefficients have different locations. *)
Definition no_alias (x : expr) : Prop :=
  forall i j i' j', i < x_rows x -> i' < x_rows x -> j < x_cols x -> j' < x_cols x ->
  x_loc x i j = x_loc x i' j' -> i = i' /\ j = j'.

Definition replace {T} (l : list T) (p : nat) (v : T) : list T :=
  firstn p l ++ v :: skipn (S p) l.
