(** The problem OSQP solves and what its solution means (OSQP documentation):
      minimise 1/2 x'Px + q'x  subject to  l <= A x <= u,
    with optimality P x + q + A'y = 0, y_i > 0 only at the upper and y_i < 0 only at the lower bound. *)
Require Import Arith List Reals.
From Verif Require Import Scal RSum Sparse Qp_Model Qp_Spec Os_Model.
Local Open Scope R_scope.

Definition osqp_kkt (n m : nat) (q : oqp) (x y : nat -> R) : Prop :=
  (forall j, (j < n)%nat -> rmv n (oP q) x j + oq q j + rsum m (fun i => oA q i j * y i) = 0) /\
  (forall i, (i < m)%nat -> in_bounds (ol q i) (ou q i) (rmv n (oA q) x i) /\ sign_ok (ol q i) (ou q i) (rmv n (oA q) x i) (y i)).

(** the QP the caller asked for *)
Definition asked (N M : nat) (p : problem_t) : qp_data R :=
  mkQP N M (H p) (h p) (coeff (am (A p))) (Alb p) (Aub p) (xlb p) (xub p).

(** the matrix handed over: the general constraints above the identity *)
Definition stacked (M : nat) (A : nat -> nat -> R) (i j : nat) : R :=
  if (i <? M)%nat then A i j else if (i =? M + j)%nat then 1 else 0.

(** a well-formed argument, and two arguments with the same sparsity *)
Definition well_formed (N M : nat) (a : sparse_arg) : Prop := sp_r (am a) = M /\ sp_c (am a) = N /\ compressed a = false.
Definition same_pattern (N M : nat) (a b : sparse_arg) : Prop :=
  forall i j, (i < M)%nat -> (j < N)%nat -> pat (am a) i j = pat (am b) i j.

(** [w] is the stacked form of the caller's problem [p] *)
Definition hands_over (N M : nat) (p : problem_t) (w : oqp) : Prop :=
  (forall i j, (i < N)%nat -> (j < N)%nat -> oP w i j = H p i j) /\
  (forall j, (j < N)%nat -> oq w j = h p j) /\
  (forall i j, (i < M + N)%nat -> (j < N)%nat -> oA w i j = stacked M (coeff (am (A p))) i j) /\
  (forall i, (i < M)%nat -> ol w i = Alb p i /\ ou w i = Aub p i) /\
  (forall j, (j < N)%nat -> ol w (M + j)%nat = xlb p j /\ ou w (M + j)%nat = xub p j).

(** later calls of a session that starts with problem [p]: warm start, and the constraint pattern may be
    declared unchanged only if it is *)
Fixpoint warm_calls (N M : nat) (p : problem_t) (calls : list (settings_t * problem_t * option ((nat -> R) * (nat -> R)))) : Prop :=
  match calls with
  | nil => True
  | cons (s, p', _) calls =>
      warm_start s = true /\ well_formed N M (A p') /\ (reuse_pattern s = true -> same_pattern N M (A p) (A p')) /\
      warm_calls N M p' calls
  end.

(** the returned status says what OSQP says *)
Definition says (v : oval) (r : status_t) : Prop :=
  (r = SOLVED <-> v = OSQP_SOLVED \/ v = OSQP_SOLVED_INACCURATE) /\
  (r = INFEASIBLE <-> v = OSQP_PRIMAL_INFEASIBLE \/ v = OSQP_DUAL_INFEASIBLE) /\
  (r = MAX_ITER_EXCEEDED <-> v = OSQP_MAX_ITER_REACHED) /\
  r <> UNINITIALIZED /\ r <> INCONSISTENT.
