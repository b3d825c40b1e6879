(** Model of the Chebyshev basis: src/polynomials/ebyshev.hpp.

    Trusted simplification for this whole file: the scalar is the real
    numbers, std::cos/std::acos are the real cosine/arc cosine and M_PI is the
    real number pi, so rounding of nodes, weights and matrices is not modelled.
    The order N is the template argument PolyOrder; N = 0 (division by zero at
    lines 116/126) is outside the model: theorems ask for 1 <= N. *)
Require Import ZArith List Bool Lia Reals Ratan.
From Verif Require Import Scal.
Local Open Scope R_scope.

(** grid = LinSpaced(N+1, 0, N) times M_PI / N: ebyshev.hpp 115-116, 126-127 *)
Definition cheb_theta (N i : nat) : R := INR i * (PI / INR N).

(** compute_nodes: ebyshev.hpp 113-117 *)
Definition cheb_nodes (N i : nat) : R := cos (cheb_theta N i).

(** compute_int_weights, the loop over k that subtracts
    2/(4k^2-1) cos(2 k theta): ebyshev.hpp 138-142 and 150-154.  One entry of
    the vector v, whose angle is [t]; the entries do not interact. *)
Fixpoint cc_loop (K : nat) (t v : R) : R :=
  match K with
  | O => v
  | S k => cc_loop k t v - 2 / (4 * INR (S k) ^ 2 - 1) * cos (2 * INR (S k) * t)
  end.

(** compute_int_weights, inner weights before scaling: ebyshev.hpp 131-155 *)
Definition cc_v (N : nat) (t : R) : R :=
  if Nat.even N
  then cc_loop (N / 2 - 1) t 1 - cos (INR N * t) / (INR N ^ 2 - 1)
  else cc_loop ((N - 1) / 2) t 1.

(** compute_int_weights: ebyshev.hpp 123-159 *)
Definition cheb_int_weights (N i : nat) : R :=
  if (i =? 0)%nat || (i =? N)%nat
  then (if Nat.even N then 1 / (INR N ^ 2 - 1) else 1 / INR N ^ 2)
  else 2 / INR N * cc_v N (cheb_theta N i).

(** compute_quad_weights: ebyshev.hpp 164-169.  For N = 1..: w[0] and w[N] are
    different entries, each halved once. *)
Definition cheb_quad_weights (N i : nat) : R :=
  if (i =? 0)%nat || (i =? N)%nat then PI / INR N * (1 / 2) else PI / INR N.

(** compute_norm_factors: ebyshev.hpp 174-179 *)
Definition cheb_norm_factors (N i : nat) : R :=
  if (i =? 0)%nat then 2 / PI * (1 / 2) else 2 / PI.

(** integrate: ebyshev.hpp 184-195 *)
Definition cheb_integrate (N : nat) (f : R -> R) (t0 tf : R) : R :=
  let t_scale := (tf - t0) / 2 in
  let t_delta := (tf + t0) / 2 in
  t_scale * ssum (S N) (fun i => f (t_scale * cheb_nodes N i + t_delta) * cheb_int_weights N i).

(** eval / Tn: ebyshev.hpp 61-62, 93 *)
Definition cheb_eval (arg : R) (n : nat) : R := cos (INR n * acos arg).

(** compute_diff_matrix, vector c: ebyshev.hpp 202-204 *)
Definition cheb_c (N i : nat) : R := (-1) ^ i * (if (i =? 0)%nat || (i =? N)%nat then 2 else 1).

(** compute_diff_matrix, Dn: ebyshev.hpp 206-210.  The added identity makes
    the diagonal of the inverted matrix 1. *)
Definition cheb_Dn (N i j : nat) : R :=
  (cheb_c N i * / cheb_c N j) * / ((cheb_nodes N i - cheb_nodes N j) + (if (i =? j)%nat then 1 else 0)).

(** compute_diff_matrix: ebyshev.hpp 200-214 *)
Definition cheb_D (N i j : nat) : R :=
  cheb_Dn N i j - (if (i =? j)%nat then ssum (S N) (fun k => cheb_Dn N i k) else 0).

(** Projection<Chebyshev>::project: projection.hpp 37-53 *)
Definition cheb_project (N : nat) (f : R -> R) (a b : R) (n : nat) : R :=
  let t_scale := (b - a) / 2 in
  let t_delta := (b + a) / 2 in
  cheb_norm_factors N n *
  ssum (S N) (fun i => f (t_scale * cheb_nodes N i + t_delta) * cheb_eval (cheb_nodes N i) n * cheb_quad_weights N i).

(** Projection<Chebyshev>::eval: projection.hpp 56-65 *)
Definition cheb_proj_eval (N : nat) (coeff : nat -> R) (a b arg : R) : R :=
  let t_scale := (b - a) / 2 in
  let t_delta := (b + a) / 2 in
  ssum (S N) (fun i => coeff i * cheb_eval ((arg - t_delta) / t_scale) i).
