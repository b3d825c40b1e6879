(** Specification vocabulary for the transcription of optimal control problems. *)
Require Import Arith ZArith List Bool Lia Reals.
From Verif Require Import Scal RSum Poly_Spec Ocp_Model Cheb_Model.
Local Open Scope R_scope.

(** the problem is discretised with Chebyshev polynomials of order >= 1 on >= 1 segments *)
Definition chebyshev_ocp (o : ocp R) : Prop :=
  (1 <= PO o)%nat /\ (1 <= SG o)%nat /\ (1 <= NX o)%nat /\
  (forall i j, (i <= PO o)%nat -> (j <= PO o)%nat -> m_D o i j = cheb_D (PO o) i j) /\
  (forall i, (i <= PO o)%nat -> m_nodes o i = cheb_nodes (PO o) i) /\
  (forall i, (i <= PO o)%nat -> m_w o i = cheb_int_weights (PO o) i).

(** positions of the unknowns in the optimisation variable: component [c] of the state at
    node [k], of the control at node [k], and parameter [c] *)
Definition ix (o : ocp R) (k c : nat) : nat := (k * NX o + c)%nat.
Definition iu (o : ocp R) (k c : nat) : nat := (k * NU o + NX o * (PO o * SG o + 1) + c)%nat.
Definition ip (o : ocp R) (c : nat) : nat :=
  (NX o * (PO o * SG o + 1) + NU o * (PO o * SG o + 1) + c)%nat.

(** state, control, parameters at node k *)
Definition state (o : ocp R) (var : nat -> R) (k : nat) : nat -> R := fun c => var (ix o k c).
Definition control (o : ocp R) (var : nat -> R) (k : nat) : nat -> R := fun c => var (iu o k c).
Definition params (o : ocp R) (var : nat -> R) : nat -> R := fun c => var (ip o c).

(** the derivative of F at x in direction v is l *)
Definition dir_deriv (F : (nat -> R) -> R) (x v : nat -> R) (l : R) : Prop :=
  derivable_pt_lim (fun h => F (fun i => x i + h * v i)) 0 l.

(** [g] applied to a direction (dx, du, dp) of the arguments of a user function *)
Definition node_dot (o : ocp R) (g dx du dp : nat -> R) : R :=
  rsum (NX o) (fun i => g i * dx i)
  + rsum (NU o) (fun i => g (NX o + i)%nat * du i)
  + rsum (NP o) (fun i => g (NX o + NU o + i)%nat * dp i).

(** [G] is the gradient of the user function [F] with respect to (x, u, p) *)
Definition gradient_of (o : ocp R) (F : ufun R R) (G : ufun R (nat -> R)) : Prop :=
  forall x u p t dx du dp,
    derivable_pt_lim (fun h => F (fun i => x i + h * dx i) (fun i => u i + h * du i)
                                 (fun i => p i + h * dp i) t) 0
      (node_dot o (G x u p t) dx du dp).

(** [J] is the Jacobian of the vector function [F] with [n] components *)
Definition jacobian_of (o : ocp R) (n : nat) (F : ufun R (nat -> R)) (J : ufun R (nat -> nat -> R)) : Prop :=
  forall c, (c < n)%nat ->
    gradient_of o (fun x u p t => F x u p t c) (fun x u p t => J x u p t c).

(** [H] is the symmetric matrix of second derivatives belonging to the gradient [G] *)
Definition hessian_of (o : ocp R) (G : ufun R (nat -> R)) (H : ufun R (nat -> nat -> R)) : Prop :=
  (forall i, (i < NX o + NU o + NP o)%nat ->
     gradient_of o (fun x u p t => G x u p t i) (fun x u p t => H x u p t i)) /\
  (forall x u p t i j, (i < NX o + NU o + NP o)%nat -> (j < NX o + NU o + NP o)%nat ->
     H x u p t i j = H x u p t j i).

(** running and terminal cost at a node; absent terms contribute nothing *)
Definition running_cost (o : ocp R) (var : nat -> R) (k : nat) : R :=
  match o_lag o with
  | Some g => get_val g (state o var k) (control o var k) (params o var) (time_nodes o k)
  | None => 0
  end.
Definition terminal_cost (o : ocp R) (var : nat -> R) : R :=
  match o_may o with
  | Some g => get_val g (state o var 0%nat) (control o var 0%nat) (params o var) (time_nodes o 0%nat)
  | None => 0
  end.

(** the user supplied first (second) derivatives of the cost terms are exact *)
Definition cost_gradients_exact (o : ocp R) : Prop :=
  match o_lag o with Some g => gradient_of o (get_val g) (get_grad g) | None => True end /\
  match o_may o with Some g => gradient_of o (get_val g) (get_grad g) | None => True end.
Definition cost_hessians_exact (o : ocp R) : Prop :=
  match o_lag o with Some g => hessian_of o (get_grad g) (get_hes g) | None => True end /\
  match o_may o with Some g => hessian_of o (get_grad g) (get_hes g) | None => True end.

(** [H] is the matrix of second derivatives of F at x: F has a gradient field whose derivative
    at x is given by H *)
Definition is_hessian (n : nat) (F : (nat -> R) -> R) (x : nat -> R) (H : nat -> nat -> R) : Prop :=
  exists G : (nat -> R) -> nat -> R,
    (forall y d, dir_deriv F y d (rsum n (fun j => G y j * d j))) /\
    (forall e d, dir_deriv (fun y => rsum n (fun j => G y j * e j)) x d
                   (rsum n (fun i => rsum n (fun j => e i * H i j * d j)))).

(** the user supplied second derivatives of the dynamics and of the inequality constraints are
    exact *)
Definition constraint_hessians_exact (o : ocp R) : Prop :=
  (forall c, (c < NX o)%nat ->
     hessian_of o (fun x u p t => o_dyn_jac o x u p t c) (fun x u p t => o_dyn_hes o x u p t c)) /\
  (forall c, (c < NG o)%nat ->
     hessian_of o (fun x u p t => o_ine_jac o x u p t c) (fun x u p t => o_ine_hes o x u p t c)).

(** dimensions for which the copy of the first control with segment<NX> (continuous_ocp.hpp:1335)
    stays inside the vectors involved *)
Definition controls_fit (o : ocp R) : Prop :=
  NU o = 0%nat \/ (NU o <= NX o <= NU o * (PO o * SG o + 1) + NP o)%nat.
(** dimensions for which the column offsets j + NX + NP and j + NU of the first sparse assembly
    (continuous_ocp.hpp:1541, :1579) stay inside the node Hessian *)
Definition offsets_fit (o : ocp R) : Prop := NP o = 0%nat \/ (NP o <= NU o <= NX o + NP o)%nat.
(** the second derivatives of the terminal cost involving a parameter vanish at var *)
Definition terminal_param_free (o : ocp R) (var : nat -> R) : Prop :=
  match o_may o with
  | Some g => forall i j, (i < NP o)%nat -> (j < NX o + NU o + NP o)%nat ->
      get_hes g (state o var 0%nat) (control o var 0%nat) (params o var) (time_nodes o 0%nat) (NX o + NU o + i)%nat j = 0
  | None => True
  end.

(** the Lagrangian with a factor on the cost; lam stacks the multipliers of the equality, the
    inequality and the box constraints *)
Definition scaled_lagrangian (o : ocp R) (scale : R) (lam x : nat -> R) : R :=
  scale * cost o x
  + rsum (NUM_EQ o + NUM_INEQ o) (fun i => lam i * constraints o x i)
  + rsum (VAR o) (fun j => lam (NUM_EQ o + NUM_INEQ o + j)%nat * x j).

(** a user function only reads the NX, NU, NP entries of its arguments *)
Definition reads_node (o : ocp R) (F : ufun R (nat -> R)) (n : nat) : Prop :=
  forall x u p x' u' p' t c, (c < n)%nat ->
    (forall i, (i < NX o)%nat -> x i = x' i) -> (forall i, (i < NU o)%nat -> u i = u' i) ->
    (forall i, (i < NP o)%nat -> p i = p' i) -> F x u p t c = F x' u' p' t c.

(** repeated calls of a stateful evaluation at a list of points *)
Fixpoint run {B A : Type} (f : B -> A -> option A) (points : list B) (a : A) : option A :=
  match points with
  | nil => Some a
  | x :: l => match f x a with Some b => run f l b | None => None end
  end.
