(** Linear-quadratic optimal control: dynamics and constraints affine, costs quadratic in (x, u, p) at each time. *)
Require Import Arith Reals.
From Verif Require Import Scal RSum Ocp_Model Ocp_Spec Msv_Model Sqp_Model Sqp_Spec.
Local Open Scope R_scope.

(** the arguments x, u, p of a user function as one vector *)
Definition stacked (o : ocp R) (x u p : vec R) : vec R := fun i =>
  if (i <? NX o)%nat then x i else if (i <? NX o + NU o)%nat then u (i - NX o)%nat else p (i - NX o - NU o)%nat.
Definition zsize (o : ocp R) : nat := (NX o + NU o + NP o)%nat.

Definition affine_function (o : ocp R) (rows : nat) (f : ufun R (vec R)) : Prop :=
  exists (K : R -> mat R) (k : R -> vec R), forall x u p t c, (c < rows)%nat ->
    f x u p t c = rmv (zsize o) (K t) (stacked o x u p) c + k t c.

(** the cost term is absent or k + v'z + 1/2 z'Mz with symmetric M; k, v, M may depend on time *)
Definition quadratic_term (o : ocp R) (M : R -> mat R) (g : option (ufun R R * ufun R (vec R) * ufun R (mat R))) : Prop :=
  match g with
  | None => True
  | Some g => (forall t, symmetric (zsize o) (M t)) /\
      exists (v : R -> vec R) (k : R -> R), forall x u p t,
        get_val g x u p t = k t + rdot (zsize o) (v t) (stacked o x u p) + / 2 * qf (zsize o) (M t) (stacked o x u p)
  end.

Definition linear_quadratic (U : user) (o : ocp R) (d : vec R) : Prop :=
  affine_function o (NX o) (u_dyn U d) /\ affine_function o (NG o) (u_ine U d) /\
  (exists M, quadratic_term o M (u_lag U d)) /\ (exists M, quadratic_term o M (u_may U d)).

(** first derivatives [grad], [jac] and (constant) second derivatives [G] of the nonlinear program *)
Definition exact_derivatives (P : problem R) (grad : vec R -> vec R) (jac : vec R -> mat R) (G : mat R) : Prop :=
  (forall x d, dir_deriv (p_cost P) x d (rdot (nx P) (grad x) d)) /\
  (forall i x d, (i < ne P + ni P)%nat -> dir_deriv (fun y => constr_values P y i) x d (rdot (nx P) (jac x i) d)) /\
  (forall j x d, (j < nx P)%nat -> dir_deriv (fun y => grad y j) x d (rdot (nx P) (G j) d)).
