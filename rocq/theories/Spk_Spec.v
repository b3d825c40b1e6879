(** Vocabulary of the property about the sparse QP solvers (C72). *)
Require Import Arith List Bool Reals.
From Verif Require Import Scal Sparse Qp_Model Spk_Model.
Import ListNotations.
Local Open Scope R_scope.

(** the KKT matrix: [[H + diag d, A'], [A, - diag rinv]]; the upper right block is only filled for linear
    solvers that read both triangles *)
Definition kkt_entry (full : bool) (N : nat) (H A : nat -> nat -> R) (d rinv : nat -> R) (i j : nat) : R :=
  if (i <? N)%nat then
    if (j <? N)%nat then H i j + (if (i =? j)%nat then d i else 0)
    else if full then A (j - N)%nat i else 0
  else if (j <? N)%nat then A (i - N)%nat j
  else if (i =? j)%nat then - rinv (i - N)%nat else 0.

(** a problem of the template sizes with uncompressed matrices *)
Definition regular (N M : nat) (p : sqp_data R) : Prop :=
  sn p = N /\ sm p = M /\ compressed (sH p) = false /\ compressed (sA p) = false /\
  sp_r (am (sH p)) = N /\ sp_c (am (sH p)) = N /\ sp_r (am (sA p)) = M /\ sp_c (am (sA p)) = N.
(** qp_base.hpp:25 "sparsity pattern [has] not changed since last solve call" *)
Definition same_structure (N M : nat) (p p' : sqp_data R) : Prop :=
  (forall i j, (i < N)%nat -> (j < N)%nat -> pat (am (sH p)) i j = pat (am (sH p')) i j) /\
  (forall i j, (i < M)%nat -> (j < N)%nat -> pat (am (sA p)) i j = pat (am (sA p')) i j).
Definition diagonal_stored (N : nat) (p : sqp_data R) : Prop :=
  forall i, (i < N)%nat -> pat (am (sH p)) i i = true.

(** sequences of calls in which reuse_pattern is only set when the pattern is that of the preceding call, the
    diagonal of H is stored, and the linear solver reads the lower triangle *)
Fixpoint proper (full : bool) (N M : nat) (prev : option (sqp_data R)) (cs : list (call R)) : Prop :=
  match cs with
  | [] => True
  | (s, reuse, p, xg, yg) :: cs =>
      regular N M p /\
      (reuse = true -> full = false /\ diagonal_stored N p /\
        match prev with None => False | Some p0 => same_structure N M p p0 end) /\
      proper full N M (Some p) cs
  end.
