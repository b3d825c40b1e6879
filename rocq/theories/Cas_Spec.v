(** Specification vocabulary for the CasADi collocation classes (Cas_Model.v). *)
Require Import Arith List Bool Reals.
From Verif Require Import Scal RSum Poly_Spec Cas_Model.
Local Open Scope R_scope.

(** polynomial order, number of segments and number of states are at least one *)
Definition dims_ok (c : cas) : Prop := (1 <= cP c)%nat /\ (1 <= cS c)%nat /\ (1 <= cX c)%nat.

(** The nodes are numbered from the end of the horizon: segment [s] covers
    [tf - (s+1) L, tf - s L], L = (tf - t0) / S, and its node [j] is at the Chebyshev point
    cos(j pi / P) of that interval. *)
Definition seg_len (c : cas) (t0 tf : R) : R := (tf - t0) / INR (cS c).
Definition node_time (c : cas) (t0 tf : R) (s j : nat) : R :=
  tf - INR s * seg_len c t0 tf - seg_len c t0 tf / 2 * (1 - cos (INR j * PI / INR (cP c))).

(** number of arguments that the classes pass to a function of state and control *)
Definition num_args (c : cas) : nat := if ((cNP c =? 0) && (cND c =? 0))%nat then 2 else 4.

(** d 0, d 1, d 2, ... are the successive derivatives of a polynomial of degree at most n *)
Definition derivatives (n : nat) (d : nat -> R -> R) : Prop :=
  is_poly n (d 0%nat) /\ forall k, derivative_of (d k) (d (S k)).

(** state component [i] at node [k] *)
Definition comp (n : nat) (v : nat -> R) (k i : nat) : R := v (k * n + i)%nat.

(** the [n] entries of [v] that belong to node [k] *)
Definition block (n : nat) (v : nat -> R) (k : nat) : list R := map (fun i => v (k * n + i)%nat) (seq 0 n).
(** what a function of state and control receives: the state at node [k], the control [j] and, unless
    both are empty, the parameters and the data *)
Definition inputs (c : cas) (X U Pv Dv : nat -> R) (k j : nat) : list (list R) :=
  block (cX c) X k :: block (cU c) U j ::
  (if ((cNP c =? 0) && (cND c =? 0))%nat then nil else block (cNP c) Pv 0 :: block (cND c) Dv 0 :: nil).
(** the value of an optional scalar term *)
Definition term (f : option cfun) (args : list (list R)) : R :=
  match f with Some f => f_val f args 0%nat | None => 0 end.
Definition arity (n : nat) (f : option cfun) : Prop :=
  match f with Some f => f_nin f = n | None => True end.
