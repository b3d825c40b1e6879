(** Model of src/solvers/utils.hpp: is_psd.  Eigen's EigenSolver is an input: the real parts of the eigenvalues it computes.  print_qp
    (console output) is left out. *)
Require Import Arith Bool Reals.
From Verif Require Import Scal Blk.
Local Open Scope R_scope.

(** the template argument Mat: rows at compile time, [None] for Eigen::Dynamic, whose value is -1 *)
Definition compile_rows (ct : option nat) : nat := match ct with Some n => n | None => 0%nat end.
(** is_psd: utils.hpp:27-38; the loop runs while i < RowsAtCompileTime, so never for -1 *)
Fixpoint all_nonneg (k : nat) (re : vec R) : bool :=
  match k with
  | O => true
  | S k => all_nonneg k re && (if Rlt_dec (re k) 0 then false else true)
  end.
Definition is_psd (ct : option nat) (re : vec R) : bool := all_nonneg (compile_rows ct) re.
