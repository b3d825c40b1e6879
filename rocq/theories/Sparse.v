(** Model of the part of Eigen's SparseMatrix (column major, uncompressed mode) on which the
    sparse transcription of continuous_ocp.hpp relies: reserve, insert, nonZeros,
    outerIndexPtr, valuePtr, coeff, leftCols() += and diagonal() +=.

    A matrix is given by its stored pattern, its values and the number of free slots behind
    each column.  The value array is not represented explicitly: a stored entry (i, j) has
    the address outerIndexPtr()[j] + (number of stored entries of column j above row i),
    because Eigen keeps the rows of a column sorted.  Writing through valuePtr() at an
    address that is a free slot has no observable effect (the slot is overwritten by the
    insertion that uses it); an address behind the array is [None]. *)
Require Import Arith List Bool.
Require Import Verif.Scal Verif.Blk.

Fixpoint cnt (f : nat -> bool) (n : nat) : nat :=
  match n with O => O | S m => cnt f m + (if f m then 1 else 0) end.
Fixpoint nsum (n : nat) (f : nat -> nat) : nat :=
  match n with O => O | S m => nsum m f + f m end.

Section Sp.
Context {T : Type} {ST : Scalar T}.
Local Open Scope S_scope.

Record spmat := SpMat {
  sp_r : nat; sp_c : nat;
  pat : nat -> nat -> bool;
  val : mat T;
  slack : nat -> nat }.

(** innerNonZeroPtr()[j], outerIndexPtr()[j], nonZeros() *)
Definition ncol (M : spmat) (j : nat) : nat := cnt (fun i => pat M i j) (sp_r M).
Definition outer (M : spmat) (j : nat) : nat := nsum j (fun j' => (ncol M j' + slack M j')%nat).
Definition nonzeros (M : spmat) : nat := nsum (sp_c M) (ncol M).
(** address of a stored entry *)
Definition pos (M : spmat) (i j : nat) : nat := outer M j + cnt (fun i' => pat M i' j) i.
(** coeff(i, j) *)
Definition coeff (M : spmat) (i j : nat) : T := if pat M i j then val M i j else 0.

Definition sp_empty (r c : nat) : spmat := SpMat r c (fun _ _ => false) (fun _ _ => 0) (fun _ => O).

(** reserve(sizes) *)
Definition reserve (M : spmat) (sz : nat -> nat) : spmat :=
  SpMat (sp_r M) (sp_c M) (pat M) (val M) (fun j => Nat.max (sz j) (slack M j)).

(** insert(i, j) = v: asserts the range and that the entry does not exist; a full column is
    enlarged by max(2, innerNonZeros) slots *)
Definition insert (M : spmat) (i j : nat) (v : T) : option spmat :=
  if (i <? sp_r M)%nat && (j <? sp_c M)%nat && negb (pat M i j) then
    Some (SpMat (sp_r M) (sp_c M)
      (fun i' j' => ((i' =? i)%nat && (j' =? j)%nat) || pat M i' j')
      (fun i' j' => if (i' =? i)%nat && (j' =? j)%nat then v else val M i' j')
      (fun j' => if (j' =? j)%nat
                 then ((if (slack M j =? 0)%nat then Nat.max 2 (ncol M j) else slack M j) - 1)%nat
                 else slack M j'))
  else None.

(** valuePtr()[a] = f(valuePtr()[a]) *)
Definition upd (M : spmat) (a : nat) (f : T -> T) : option spmat :=
  if (a <? outer M (sp_c M))%nat then
    Some (SpMat (sp_r M) (sp_c M) (pat M)
      (fun i j => if pat M i j && (pos M i j =? a)%nat then f (val M i j) else val M i j)
      (slack M))
  else None.

(** std::copy_n(src, n, valuePtr() + a) and
    std::transform(valuePtr() + a, valuePtr() + a + n, src, valuePtr() + a, std::plus) *)
Definition copy_n (M : spmat) (n : nat) (src : vec T) (a : nat) : option spmat :=
  oloop n (fun q M => upd M (a + q) (fun _ => src q)) M.
Definition add_n (M : spmat) (n : nat) (src : vec T) (a : nat) : option spmat :=
  oloop n (fun q M => upd M (a + q) (fun v => v + src q)) M.

(** M.leftCols(n) += D with D given by pattern and values: the block is evaluated into a
    temporary and written back packed (Eigen SparseBlock.h, operator=) *)
Definition add_left (M : spmat) (n : nat) (dp : nat -> nat -> bool) (D : mat T) : spmat :=
  let p := fun i j => if (j <? n)%nat then pat M i j || dp i j else pat M i j in
  SpMat (sp_r M) (sp_c M) p
    (fun i j => if (j <? n)%nat
                then (if pat M i j then val M i j else 0) + (if dp i j then D i j else 0)
                else val M i j)
    (fun j => if (j <? n)%nat
              then (if (S j =? n)%nat then (outer M n - nsum n (fun q => cnt (fun i => p i q) (sp_r M)))%nat else O)
              else slack M j).

(** M.diagonal() += d, first n entries; a missing diagonal entry is not modelled *)
Definition add_diag (M : spmat) (n : nat) (d : vec T) : option spmat :=
  oloop n (fun i M => if pat M i i then upd M (pos M i i) (fun v => v + d i) else None) M.

End Sp.
Arguments spmat T : clear implicits.
