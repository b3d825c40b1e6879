(** Model of the splines: src/polynomials/splines.hpp. *)
Require Import ZArith List Bool Lia Reals.
From Verif Require Import Scal Legendre_Model.
Import ListNotations.

Section Lagrange.
Context {T : Type} {sc : Scalar T}.
Local Open Scope S_scope.

(** Eigen::roots_to_monicPolynomial (external), one root: p(x) -> (x - r) p(x) *)
Definition mul_root (p : vec T) (r : T) : vec T :=
  fun j => match j with O => 0 - r * p O | S k => p k - r * p j end.
(** the monic polynomial with the listed roots *)
Definition monic (roots : list T) : vec T :=
  fold_left mul_root roots (fun j => if (j =? 0)%nat then 1 else 0).

(** the nodes other than node i, in order: splines.hpp 111-119 *)
Definition other_nodes (n i : nat) (nodes : vec T) : list T :=
  map nodes (filter (fun j => negb (i =? j)%nat) (seq 0 n)).

(** compute_lagrange_basis: splines.hpp 103-123; row i, coefficient k.  One
    node only (n = 1) makes Eigen read roots(0) of an empty vector: [None]. *)
Definition lagrange_basis (n : nat) (nodes : vec T) : option (mat T) :=
  if (n <? 2)%nat then None
  else Some (tab2 n n (fun i k =>
         let p := tab n (monic (other_nodes n i nodes)) in p k / poly_eval n p (nodes i))).

(** LagrangeSpline::eval: splines.hpp 126-138; component d of the result *)
Definition lagrange_eval (n : nat) (arg : T) (values : mat T) (basis : mat T) (d : nat) : T :=
  poly_eval n (tab n (fun k => ssum n (fun i => values d i * basis i k))) arg.

End Lagrange.

Section Cubic.
Local Open Scope R_scope.

(** std::floor followed by the conversion to int: splines.hpp 61-70; a value
    outside the range of int is undefined behaviour *)
Definition floor_int (x : R) : option Z :=
  let z := Int_part x in
  if ((- 2 ^ 31 <=? z)%Z && (z <=? 2 ^ 31 - 1)%Z)%bool then Some z else None.

(** EquidistantCubicSpline::eval on plain scalars: splines.hpp 72-87.
    [cols] is m_coeffs.cols(), [coef k j] the entry (k, j).  Reading a column
    that does not exist is [None]. *)
Definition cubic_eval (cols : nat) (coef : nat -> nat -> R) (len x : R) : option R :=
  match floor_int (x / len) with
  | None => None
  | Some z =>
    let idx := Z.max 0 (Z.min z (Z.of_nat cols)) in
    if (idx <? Z.of_nat cols)%Z then
      let j := Z.to_nat idx in
      Some (coef 0%nat j + x * (coef 1%nat j + x * (coef 2%nat j + x * coef 3%nat j)))
    else None
  end.
End Cubic.
