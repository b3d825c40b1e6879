(** Model of polymath::LinearSystem (src/polymath.h 290-305, src/polymath.cpp 306-323); is_observable and
    is_stabilizable are declared and never defined.

    Simplifications: the scalar is the real numbers; the integer power F.pow(k) is the k-fold product; the rank that
    Eigen's FullPivLU counts (with its threshold) is an external function of the sizes and the matrix. *)
Require Import Arith Bool Reals.
From Verif Require Import Scal Blk Lqr_Model.
Local Open Scope R_scope.

(** F.pow(k) for a square matrix of size n and an integer k (unsupported Eigen, MatrixFunctions) *)
Fixpoint mpow (n : nat) (F : mx) (k : nat) : mx :=
  match k with
  | O => meye
  | S k => mmul n F (mpow n F k)
  end.

(** struct LinearSystem, polymath.h 290-305, with the sizes n = F.rows(), m = G.cols() and p = H.rows() *)
Record linear_system := { sys_n : nat; sys_m : nat; sys_p : nat; sys_F : mx; sys_G : mx; sys_H : mx }.

(** ctrb of polymath.cpp 311-316: blocks F.pow(k) * G, k = 0 .. n-1, on a matrix of zeros *)
Definition ctrb (s : linear_system) : mx :=
  loop (sys_n s) (fun k M => mset M 0 (k * sys_m s) (sys_n s) (sys_m s) (mmul (sys_n s) (mpow (sys_n s) (sys_F s) k) (sys_G s)))
       mzero.

(** LinearSystem::is_controllable, polymath.cpp 306-323; [lu_rank r c M] is FullPivLU(M).rank() for r rows, c columns *)
Definition is_controllable (lu_rank : nat -> nat -> mx -> nat) (s : linear_system) : bool :=
  (lu_rank (sys_n s) (sys_n s * sys_m s)%nat (ctrb s) =? sys_n s)%nat.
