(** Notions used by the theorems on the helper functions. *)
Require Import Arith List Reals.
Import ListNotations.
Local Open Scope R_scope.

(** the step function of height K *)
Definition step (K x : R) : R := if Rlt_dec 0 x then K else 0.
(** a table with [m] columns of [n] entries *)
Definition table (n m : nat) (data : list (list R)) : Prop := length data = m /\ forall col, In col data -> length col = n.
