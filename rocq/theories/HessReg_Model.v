(** Hessian regularisations that the solvers derived from SQPBase install (tests/). *)
Require Import ZArith Bool Arith.
Require Import Verif.Scal.

Section Reg.
Context {T : Type} {ST : Scalar T}.
Local Open Scope S_scope.

(** tests/control/nonlinear_constraints_test.cpp 107-113 (the same text in minimal_time_test.cpp 95-101,
    dense_sparse_compare.cpp 114-120 and codegen_test.cpp 350-357), one pass of the loop of
    hessian_regularisation_dense_impl; [c] is 0.01.  The sparse versions (nonlinear_constraints_test.cpp 122-130,
    minimal_time_test.cpp 110-118, dense_sparse_compare.cpp 129-137 with c = 0.001) do the same to coeffRef(i, i), which
    inserts a zero first if the entry is not stored.  The sum over a column runs from the first row to the last. *)
Definition gersh_row (n : nat) (c : T) (i : nat) (H : mat T) : mat T :=
  let aii := H i i in
  let ri := ssum n (fun k => sabs (H k i)) - sabs aii in
  if (aii - ri) <=? 0
  then fun a b => if Nat.eqb a i && Nat.eqb b i then aii + ((ri - aii) + c) else H a b
  else H.
(** the loop over the first [k] columns *)
Fixpoint gersh_loop (n : nat) (c : T) (k : nat) (H : mat T) : mat T :=
  match k with O => H | S k' => gersh_row n c k' (gersh_loop n c k' H) end.
Definition gershgorin (n : nat) (c : T) (H : mat T) : mat T := gersh_loop n c n H.

(** tests/solvers/sqp/sqp_test_autodiff.cpp 29-45 hessian_regularisation_dense_impl.  [eig H] stands for the real parts of
    the eigenvalues and eigenvectors computed by Eigen::EigenSolver; the products with the zeros of the diagonal matrix
    are left out. *)
Fixpoint min_coeff (n : nat) (f : vec T) : T :=
  match n with
  | O => 0
  | S O => f O
  | S k => smin (min_coeff k f) (f k)
  end.
Definition mirrored (d : vec T) : vec T := fun i => if d i <=? 0 then sofZ (-1) * d i + scst 1 10 else d i.
Definition mirror (eig : mat T -> vec T * mat T) (n : nat) (H : mat T) : mat T :=
  let '(d, V) := eig H in
  if min_coeff n d <=? 0 then fun a b => ssum n (fun k => V a k * mirrored d k * V b k) else H.
End Reg.
