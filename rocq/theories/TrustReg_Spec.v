(** The trust region prototype: what is said about it. *)
Require Import Reals.
From Verif Require Import Scal RSum.
Local Open Scope R_scope.

(** Cholesky factorisation without rounding: it succeeds exactly on positive definite matrices M = L L', solve solves the
    system, and the squared length of L^-1 v is v' M^-1 v *)
Definition llt_exact (n : nat) (llt : mat R -> bool * (vec R -> vec R) * (vec R -> vec R)) : Prop :=
  forall M, symmetric n M -> let '(ok, s, ls) := llt M in
    (ok = true <-> posdef n M) /\
    (ok = true -> (forall b i, (i < n)%nat -> rmv n M (s b) i = b i) /\
                  (forall w v, (forall i, (i < n)%nat -> rmv n M w i = v i) -> rdot n (ls v) (ls v) = rdot n w v)).
