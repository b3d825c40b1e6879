(** Model of src/autodiff/rbf_kernel.hpp. The messages the specialisations print are left out.
    squaredNorm is the sum of squares in index order. *)
Require Import Arith ZArith Bool Reals.
From Verif Require Import Ad_Model.
Local Open Scope R_scope.

(** the sum of n scalars, starting from zero *)
Fixpoint fsum {T} {F : Fn T} (n : nat) (f : nat -> T) : T := match n with O => cst 0 | S m => add (fsum m f) (f m) end.
(** rbf_kernel::eval, the general template, :33-37 (for double and float, :42-54, the same formula) *)
Definition rbf_eval {T} {F : Fn T} (n : nat) (x : nat -> T) (y : nat -> R) : T :=
  fexp (opp (fsum n (fun i => fabs2 (sub (x i) (cst (y i)))))).
(** the specialisation for active scalars, :57-67 *)
Definition rbf_eval_ad (n : nat) (x : nat -> dual R) (y : nat -> R) : dual R :=
  let xt := fun i => val (x i) in
  let v := rbf_eval n xt y in
  Dual v (fun k => -2 * v * (xt k - y k)).
(** the specialisation for nested active scalars, :70-92. Line 82 leaves the result uninitialised and
    lines 84-89 never set the values of its outer derivatives: they are the argument [junk]. *)
Definition rbf_eval_ad2 (junk : nat -> R) (n : nat) (x : nat -> dual (dual R)) (y : nat -> R) : dual (dual R) :=
  let xt := fun i => val (val (x i)) in
  let v := rbf_eval n xt y in
  let hes := fun i j => v * (4 * ((xt i - y i) * (xt j - y j)) - (if (i =? j)%nat then 1 else 0)) in
  Dual (Dual v (fun k => -2 * v * (xt k - y k)))
       (fun i => Dual (junk i) (fun k => hes k i)).
