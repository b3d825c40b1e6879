(** Model of the polynomial helpers and of the Legendre basis:
    src/polynomials/polynomial_math.hpp and src/polynomials/legendre.hpp.
    A polynomial of a fixed static size n is a coefficient vector, constant
    term first.  Reading an uninitialised local is the outcome [None]. *)
Require Import ZArith List Bool Lia.
From Verif Require Import Scal.
Import ListNotations.
Local Open Scope S_scope.

Section Model.
Context {T : Type} {sc : Scalar T}.

(** std::numeric_limits<Scalar>::epsilon(), double (polynomial_math.hpp 50) *)
Definition pm_eps : T := scst 1 (2 ^ 52).

(** the loop that records the last index with |p[i]| >= eps; [None] while the
    variable is uninitialised: polynomial_math.hpp 53-60 *)
Fixpoint pm_scan (n : nat) (p : vec T) : option nat :=
  match n with
  | O => None
  | S k => if pm_eps <=? sabs (p k) then Some k else pm_scan k p
  end.

Definition upd {A : Type} (f : nat -> A) (k : nat) (v : A) : nat -> A := fun i => if (i =? k)%nat then v else f i.

(** inner loop over j of poly_mul (J iterations): polynomial_math.hpp 64-70.
    The break at i+j == p1_size skips all later j, whose i+j is larger. *)
Fixpoint pm_row (n i : nat) (p1 p2 : vec T) (J : nat) (prod : vec T) : vec T :=
  match J with
  | O => prod
  | S j => let pr := pm_row n i p1 p2 j prod in
           if (i + j <? n)%nat then upd pr (i + j) (p1 j * p2 i) else pr
  end.
(** outer loop over i of poly_mul: polynomial_math.hpp 62-71 *)
Fixpoint pm_rows (n : nat) (p1 p2 : vec T) (J I : nat) (prod : vec T) : vec T :=
  match I with
  | O => prod
  | S i => pm_row n i p1 p2 J (pm_rows n p1 p2 J i prod)
  end.

(** poly_mul for static size n: polynomial_math.hpp 43-75 *)
Definition poly_mul (n : nat) (p1 p2 : vec T) : option (vec T) :=
  match pm_scan n p1, pm_scan n p2 with
  | Some a, Some b => Some (tab n (pm_rows n p1 p2 (S a) (S b) (fun _ => 0)))
  | _, _ => None
  end.

(** poly_diff: polynomial_math.hpp 79-93 *)
Definition poly_diff (n : nat) (p : vec T) : vec T :=
  tab n (fun i => if (i <? n - 1)%nat then sofZ (Z.of_nat (i + 1)) * p (i + 1)%nat else 0).

(** x^k by repeated multiplication *)
Fixpoint spow (x : T) (k : nat) : T := match k with O => 1 | S j => x * spow x j end.
(** Eigen::poly_eval (external): the value of the polynomial *)
Definition poly_eval (n : nat) (p : vec T) (x : T) : T := ssum n (fun k => p k * spow x k).

(** recurrence coefficients: legendre.hpp 253-257 *)
Definition leg_a (n : nat) : T := sofZ (2 * Z.of_nat n + 1) / sofZ (Z.of_nat n + 1).
Definition leg_c (n : nat) : T := sofZ (Z.of_nat n) / sofZ (Z.of_nat n + 1).

(** the matrix Ln (argument order: column, row) after the loop iterations
    n = 1 .. m: legendre.hpp 239-261 *)
Fixpoint leg_build (N m : nat) : option (nat -> vec T) :=
  match m with
  | O => Some (fun col i => if ((col =? 0) && (i =? 0) || (col =? 1) && (i =? 1))%nat then 1 else 0)
  | S k =>
    match leg_build N k with
    | None => None
    | Some L =>
      let n := S k in
      match poly_mul (N + 1) (L n) (fun i => if (i =? 1)%nat then 1 else 0) with
      | None => None
      | Some pr => Some (upd L (n + 1) (tab (N + 1) (fun i => leg_a n * pr i - leg_c n * L (n - 1)%nat i)))
      end
    end
  end.

(** compute_basis: legendre.hpp 236-263 (N = PolyOrder >= 1) *)
Definition legendre_basis (N : nat) : option (nat -> vec T) := leg_build N (N - 1).

(** std::sort: legendre.hpp 152 *)
Fixpoint sort_ins (a : T) (l : list T) : list T :=
  match l with [] => [a] | b :: m => if a <=? b then a :: l else b :: sort_ins a m end.
Definition sort_list (l : list T) : list T := fold_right sort_ins [] l.

(** compute_nodes: legendre.hpp 125-154.  [roots] stands for the real parts
    returned by Eigen::PolynomialSolver (external); the thresholding of tiny
    coefficients at 136-140 only prepares its input and is not modelled. *)
Definition legendre_nodes (N : nat) (roots : vec T) : vec T :=
  let l := sort_list ((0 - 1) :: map roots (seq 0 (N - 1)) ++ [1]) in
  fun i => nth i l 0.

(** compute_diff_matrix: legendre.hpp 156-179; [LN] is Ln.col(N) *)
Definition legendre_D (N : nat) (LN : vec T) (x : vec T) (i j : nat) : T :=
  let d00 := sofZ ((Z.of_nat N + 1) * Z.of_nat N) / sofZ 4 in
  if (i =? j)%nat then
    (if (i =? 0)%nat then d00 else if (i =? N)%nat then sopp d00 else 0)
  else poly_eval (N + 1) LN (x i) / poly_eval (N + 1) LN (x j) * (1 / (x i - x j)).

(** compute_quad_weights = compute_int_weights: legendre.hpp 181-204 *)
Definition legendre_weights (N : nat) (LN : vec T) (x : vec T) (i : nat) : T :=
  let v := poly_eval (N + 1) LN (x i) in
  sofZ 2 / sofZ (Z.of_nat N * (Z.of_nat N + 1)) / (v * v).

(** compute_norm_factors: legendre.hpp 206-218 *)
Definition legendre_norm_factors (N k : nat) : T :=
  if (k <? N)%nat then (sofZ 2 * sofZ (Z.of_nat k) + 1) / sofZ 2 else sofZ (Z.of_nat N) / sofZ 2.

(** integrate: legendre.hpp 220-234 *)
Definition legendre_integrate (N : nat) (LN x : vec T) (f : T -> T) (t0 tf : T) : T :=
  let t_scale := (tf - t0) / sofZ 2 in
  let t_delta := (tf + t0) / sofZ 2 in
  t_scale * ssum (S N) (fun i => f (t_scale * x i + t_delta) * legendre_weights N LN x i).

(** Projection<Legendre>::project: projection.hpp 37-53, with Ln: legendre.hpp 107 *)
Definition legendre_project (N : nat) (L : nat -> vec T) (x : vec T) (f : T -> T) (a b : T) (n : nat) : T :=
  let t_scale := (b - a) / sofZ 2 in
  let t_delta := (b + a) / sofZ 2 in
  legendre_norm_factors N n *
  ssum (S N) (fun i => f (t_scale * x i + t_delta) * poly_eval (N + 1) (L n) (x i) * legendre_weights N (L N) x i).

(** Projection<Legendre>::eval: projection.hpp 56-65 *)
Definition legendre_proj_eval (N : nat) (L : nat -> vec T) (coeff : vec T) (a b arg : T) : T :=
  let t_scale := (b - a) / sofZ 2 in
  let t_delta := (b + a) / sofZ 2 in
  ssum (S N) (fun i => coeff i * poly_eval (N + 1) (L i) ((arg - t_delta) / t_scale)).

End Model.
