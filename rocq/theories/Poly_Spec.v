(** Specification vocabulary for the polynomial classes. *)
Require Import ZArith List Bool Lia Reals.
From Verif Require Import Scal RSum.
Local Open Scope R_scope.

(** p is a polynomial of degree at most N *)
Definition is_poly (N : nat) (p : R -> R) : Prop :=
  exists a : nat -> R, forall x, p x = rsum (S N) (fun k => a k * x ^ k).

(** p' is the derivative of p *)
Definition derivative_of (p p' : R -> R) : Prop := forall x, derivable_pt_lim p x (p' x).

(** the roots are N - 1 distinct points of (-1,1) where P is stationary: what
    the eigenvalue-based root finder has to deliver for the derivative of the
    Legendre polynomial of degree N *)
Definition stationary_points (N : nat) (P : R -> R) (roots : nat -> R) : Prop :=
  (forall i, (i < N - 1)%nat -> -1 < roots i < 1 /\ derivable_pt_lim P (roots i) 0) /\
  (forall i j, (i < N - 1)%nat -> (j < N - 1)%nat -> i <> j -> roots i <> roots j).

(** coefficient k of the product of the polynomials with coefficients p and q *)
Definition product_coef (p q : nat -> R) (k : nat) : R := rsum (S k) (fun i => p (k - i)%nat * q i).

(** pairwise distinct *)
Definition distinct_nodes (n : nat) (x : nat -> R) : Prop :=
  forall i j, (i < n)%nat -> (j < n)%nat -> i <> j -> x i <> x j.
