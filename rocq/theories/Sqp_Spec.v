(** Mathematical notions for the NLP
      minimise cost(x)  subject to  c(x) = 0, lbg <= g(x) <= ubg, lbx <= x <= ubx. *)
Require Import Reals List.
From Verif Require Import Scal RSum Qp_Model Qp_Spec Sqp_Model.
Local Open Scope R_scope.

Definition nlp_feasible (P : problem R) (x : vec R) : Prop :=
  (forall i, (i < ne P)%nat -> p_eq P x i = 0) /\
  (forall i, (i < ni P)%nat -> in_bounds (lbg P i) (ubg P i) (p_ineq P x i)) /\
  (forall j, (j < nx P)%nat -> in_bounds (lbx P j) (ubx P j) (x j)).

(** bounds satisfied up to [e] *)
Definition above_by (e : R) (lb : ext R) (t : R) : Prop :=
  match lb with Fin l => l - t <= e | MInf => True | PInf => False end.
Definition below_by (e : R) (ub : ext R) (t : R) : Prop :=
  match ub with Fin u => t - u <= e | PInf => True | MInf => False end.

(** every constraint holds up to [e] *)
Definition within (e : R) (P : problem R) (x : vec R) : Prop :=
  (forall i, (i < ne P)%nat -> Rabs (p_eq P x i) <= e) /\
  (forall i, (i < ni P)%nat -> above_by e (lbg P i) (p_ineq P x i) /\ below_by e (ubg P i) (p_ineq P x i)) /\
  (forall j, (j < nx P)%nat -> above_by e (lbx P j) (x j) /\ below_by e (ubx P j) (x j)).

(** no lower bound is +inf, no upper bound is -inf *)
Definition proper_bounds (P : problem R) : Prop :=
  (forall i, (i < ni P)%nat -> lower_proper (lbg P i) /\ upper_proper (ubg P i)) /\
  (forall j, (j < nx P)%nat -> lower_proper (lbx P j) /\ upper_proper (ubx P j)).

Definition in_box (P : problem R) (x : vec R) : Prop :=
  forall j, (j < nx P)%nat -> in_bounds (lbx P j) (ubx P j) (x j).

(** [tau] multiplied [k] times onto 1 *)
Fixpoint spow {T : Type} {ST : Scalar T} (t : T) (k : nat) : T :=
  match k with O => s1 | S k => smul t (spow t k) end.

(** the default derivatives: [grad] cost gradient, [jac] Jacobian of (equalities, inequalities); a problem is
    [linearised_by] them if lagrangian_gradient(_hessian) return them together with the constraint values *)
Definition constr_values (P : problem R) (x : vec R) : vec R :=
  fun i => if Nat.ltb i (ne P) then p_eq P x i else p_ineq P x (i - ne P)%nat.
Definition linearised_by (P : problem R) (grad : vec R -> vec R) (jac : vec R -> mat R) : Prop :=
  (forall x lam, exists lagg H, p_lag_full P x lam = (lagg, H, grad x, constr_values P x, jac x)) /\
  (forall x lam, exists lagg, p_lag P x lam = (lagg, grad x, constr_values P x, jac x)).

(** first-order optimality of the NLP; the multipliers are ordered equalities, inequalities, bounds *)
Definition nlp_kkt (P : problem R) (grad : vec R) (J : mat R) (x lam : vec R) : Prop :=
  let m := (ne P + ni P)%nat in
  nlp_feasible P x /\
  (forall j, (j < nx P)%nat -> grad j + rsum m (fun i => J i j * lam i) + lam (m + j)%nat = 0) /\
  (forall i, (i < ni P)%nat -> sign_ok (lbg P i) (ubg P i) (p_ineq P x i) (lam (ne P + i)%nat)) /\
  (forall j, (j < nx P)%nat -> sign_ok (lbx P j) (ubx P j) (x j) (lam (m + j)%nat)).

(** sum of the amounts by which the constraints are violated, and the l1 merit function with penalty [mu] *)
Definition excess_lo (lb : ext R) (t : R) : R := match lb with Fin l => Rmax 0 (l - t) | _ => 0 end.
Definition excess_up (ub : ext R) (t : R) : R := match ub with Fin u => Rmax 0 (t - u) | _ => 0 end.
Definition total_violation (P : problem R) (x : vec R) : R :=
  rsum (ne P) (fun i => Rabs (p_eq P x i)) +
  rsum (ni P) (fun i => excess_lo (lbg P i) (p_ineq P x i) + excess_up (ubg P i) (p_ineq P x i)) +
  rsum (nx P) (fun j => excess_lo (lbx P j) (x j) + excess_up (ubx P j) (x j)).
Definition merit (P : problem R) (mu : R) (x : vec R) : R := p_cost P x + mu * total_violation P x.

(** ** QP subproblems with the step and multipliers returned for them *)
(** the step respects the variable bounds of the subproblem *)
Definition step_in_box (e : qp_data R * (vec R * vec R)) : Prop :=
  forall j, (j < qn (fst e))%nat -> in_bounds (qxlb (fst e) j) (qxub (fst e) j) (fst (snd e) j).
(** the step respects row [r] of the linearised constraints *)
Definition step_meets_row (r : nat) (e : qp_data R * (vec R * vec R)) : Prop :=
  in_bounds (qAlb (fst e) r) (qAub (fst e) r) (rmv (qn (fst e)) (qA (fst e)) (fst (snd e)) r).
(** the subproblem is strictly convex and solved exactly *)
Definition exact_step (e : qp_data R * (vec R * vec R)) : Prop :=
  posdef (qn (fst e)) (qH (fst e)) /\ kkt_pair (fst e) (fst (snd e)) (snd (snd e)).

(** ** row [r] of the constraints (equalities, then inequalities) *)
Definition row_value (P : problem R) (r : nat) (x : vec R) : R := constr_values P x r.
Definition row_lb (P : problem R) (r : nat) : ext R := if Nat.ltb r (ne P) then Fin 0 else lbg P (r - ne P)%nat.
Definition row_ub (P : problem R) (r : nat) : ext R := if Nat.ltb r (ne P) then Fin 0 else ubg P (r - ne P)%nat.
(** the row is affine and its Jacobian row is its coefficient vector *)
Definition affine_row (P : problem R) (r : nat) (jac : vec R -> mat R) : Prop :=
  exists (a : vec R) c, forall x, row_value P r x = rdot (nx P) a x + c /\
    forall j, (j < nx P)%nat -> jac x r j = a j.

(** the point x + a p *)
Definition along (P : problem R) (x p : vec R) (a : R) : vec R := tab (nx P) (fun j => x j + a * p j).
