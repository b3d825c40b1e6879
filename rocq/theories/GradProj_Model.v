(** src/solvers/trust_region_tests/gradproj_test.cpp: the gradient projection prototype
      minimize 0.5 x'Hx + h'x  subject to  l <= x <= u.
    Simplifications: the size is [n] (2 in the code) and H, h, l, u are arguments (fixed in the constructor,
    lines 17-24); the output to std::cout is left out.  The line search loop (lines 60-77) has no bound: it gets
    [fuel], and [None] means that the loop has not ended yet. *)
Require Import ZArith List.
From Verif Require Import Scal.
Local Open Scope S_scope.

Section GradProj.
Context {T : Type} {ST : Scalar T}.
Variable n : nat.
Variable H : mat T.
Variables h l u : vec T.

(** gradproj_test.cpp 26-29 f *)
Definition gp_f (x : vec T) : T := scst 1 2 * dot n x (mv n H x) + dot n h x.

(** gradproj_test.cpp 31-36 grad_f *)
Definition gp_grad (x : vec T) : vec T := tab n (fun i => mv n H x i + h i).

(** gradproj_test.cpp 84-87 box_projection *)
Definition gp_project (p : vec T) : vec T := tab n (fun i => smin (smax (p i) (l i)) (u i)).

(** gradproj_test.cpp 64-67: x_step *)
Definition gp_trial (x grad : vec T) (alpha : T) : vec T :=
  let p := gp_project (tab n (fun i => alpha * grad i)) in tab n (fun i => x i - p i).

(** gradproj_test.cpp 69: the test of the line search *)
Definition gp_accept (x grad : vec T) (fx alpha : T) : bool :=
  let x_step := gp_trial x grad alpha in
  gp_f x_step <=? fx - alpha * scst 1 100000 * dot n grad (tab n (fun i => x_step i - x i)).

(** gradproj_test.cpp 60-77: backtracking, beta = 0.3 *)
Fixpoint gp_search (fuel : nat) (x grad : vec T) (fx alpha : T) : option (vec T) :=
  match fuel with
  | O => None
  | S k => if gp_accept x grad fx alpha then Some (gp_trial x grad alpha)
           else gp_search k x grad fx (scst 3 10 * alpha)
  end.

(** gradproj_test.cpp 46-77: one pass of the outer loop, alpha = 0.9 *)
Definition gp_iteration (fuel : nat) (x : vec T) : option (vec T) :=
  gp_search fuel x (gp_grad x) (gp_f x) (scst 9 10).

(** gradproj_test.cpp 38-82 solve(); [iters] is 100 in the code *)
Fixpoint gp_solve (fuel iters : nat) (x : vec T) : option (vec T) :=
  match iters with
  | O => Some x
  | S k => match gp_iteration fuel x with None => None | Some x' => gp_solve fuel k x' end
  end.
End GradProj.
