(** src/solvers/trust_region_tests/trust_region_test.cpp 109-216: the trust region prototype.
    Simplifications: the loop is in the body of a test; here it is a function of the problem (any [cost], [grad], [hess]
    of size [n]; in the code SimpleQP, lines 72-107, of size 2), of the starting point and of the starting radius (0.1 in
    the code, line 130).  The output to the terminal is left out.  Eigen::LLT is an input: [llt M] is the triple of
    info() == Success, solve and matrixL().solve after compute(M). *)
Require Import ZArith List Bool.
From Verif Require Import Scal.
Local Open Scope S_scope.

Section TrustRegion.
Context {T : Type} {ST : Scalar T}.
Variable n : nat.
Variable cost : vec T -> T.
Variable grad : vec T -> vec T.
Variable hess : vec T -> mat T.
Variable llt : mat T -> bool * (vec T -> vec T) * (vec T -> vec T).

(** trust_region_test.cpp 143, 161: B + lambda * B.Identity() *)
Definition tr_shift (B : mat T) (lambda : T) : mat T :=
  tab2 n n (fun i j => B i j + lambda * (if Nat.eqb i j then 1 else 0)).

Definition tr_norm (p : vec T) : T := ssqrt (dot n p p).

(** trust_region_test.cpp 151, 162: cholesky.solve(-g) *)
Definition tr_newton (s : vec T -> vec T) (g : vec T) : vec T := tab n (s (tab n (fun i => - g i))).

(** trust_region_test.cpp 143-155: one pass of the subproblem loop *)
Definition tr_lambda_step (B : mat T) (g : vec T) (radius lambda : T) : T :=
  let '(ok, s, ls) := llt (tr_shift B lambda) in
  if ok then
    let p := tr_newton s g in
    let q := tab n (ls p) in
    lambda + dot n p p / dot n q q * (tr_norm p - radius) / radius
  else lambda * sofZ 2.

(** trust_region_test.cpp 140-162: three passes, then the step *)
Definition tr_lambda (B : mat T) (g : vec T) (radius : T) : T :=
  Nat.iter 3 (tr_lambda_step B g radius) (scst 1 10).
Definition tr_step (B : mat T) (g : vec T) (radius : T) : vec T :=
  let '(_, s, _) := llt (tr_shift B (tr_lambda B g radius)) in tr_newton s g.

(** trust_region_test.cpp 167-176: predicted and actual reduction *)
Definition tr_pred (B : mat T) (g p : vec T) : T := - (dot n g p + scst 1 2 * dot n p (mv n B p)).
Definition tr_add (x p : vec T) : vec T := tab n (fun i => x i + p i).

(** trust_region_test.cpp 187-202: the new radius *)
Definition tr_radius (rho radius : T) (p : vec T) : T :=
  if rho <? scst 1 10 then scst 1 2 * radius
  else if scst 3 4 <? rho then
    if tr_norm p <? scst 8 10 * radius then radius else sfmin (sofZ 2 * radius) (sofZ 1000)
  else radius.

(** trust_region_test.cpp 137-212: one pass of the main loop; the flag is the test in line 210 *)
Definition tr_iteration (x : vec T) (radius : T) : vec T * T * bool :=
  let B := hess x in
  let g := grad x in
  let p := tr_step B g radius in
  let rho := (cost x - cost (tr_add x p)) / tr_pred B g p in
  (if 0 <? rho then tr_add x p else x, tr_radius rho radius p, norminf n g <? scst 1 10000).

(** trust_region_test.cpp 133-213: at most [fuel] (100) passes; returns the point, the radius and iter *)
Fixpoint tr_loop (fuel : nat) (iter : nat) (x : vec T) (radius : T) : vec T * T * nat :=
  match fuel with
  | O => (x, radius, iter)
  | S k =>
      let '(x', radius', stop) := tr_iteration x radius in
      if stop then (x', radius', iter) else tr_loop k (S iter) x' radius'
  end.
Definition tr_solve (x : vec T) (radius : T) : vec T * T * nat := tr_loop (Z.to_nat 100) 0 x radius.
End TrustRegion.

(** trust_region_test.cpp 72-107 SimpleQP for any data *)
Section SimpleQP.
Context {T : Type} {ST : Scalar T}.
Variable n : nat.
Variable H : mat T.
Variable h : vec T.
Definition sq_cost (x : vec T) : T := scst 1 2 * dot n x (mv n H x) + dot n h x.
Definition sq_grad (x : vec T) : vec T := tab n (fun i => mv n H x i + h i).
Definition sq_hess (x : vec T) : mat T := H.
End SimpleQP.
