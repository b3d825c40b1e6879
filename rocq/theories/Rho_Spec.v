(** What adapting the ADMM step size means. *)
Require Import Reals.
Local Open Scope R_scope.

(** [q]: ratio of the scaled primal to the scaled dual residual; [rho'] the step size chosen after [rho] *)
Definition rho_rule (tol rho q rho' : R) : Prop :=
  1 / 1000000 <= rho' <= 1000000 /\
  (1 / (tol * tol) <= q <= tol * tol -> rho' = rho) /\
  (rho < rho' -> tol * tol < q /\ rho' = Rmin (rho * sqrt q) 1000000) /\
  (rho' < rho -> q < 1 / (tol * tol) /\ rho' = Rmax (1 / 1000000) (rho * sqrt q)) /\
  (tol * tol < q -> rho * tol < 1000000 -> rho < rho') /\
  (q < 1 / (tol * tol) -> 1 / 1000000 < rho / tol -> rho' < rho).
(** the ratio, with the library's guard against division by zero *)
Definition imbalance (prim scale_prim dual scale_dual : R) : R :=
  let guard := 1 / 1000000000 in
  (prim / (scale_prim + guard)) / (dual / (scale_dual + guard) + guard).
