(** Smooth nonlinear programs with linear constraints, and approximate optimality. *)
Require Import Reals List ZArith.
From Verif Require Import Scal RSum Qp_Model Qp_Spec Sqp_Model Sqp_Spec.
Local Open Scope R_scope.

(** all equality and inequality rows are affine *)
Definition linear_constraints (P : problem R) (jac : vec R -> mat R) : Prop :=
  forall r, (r < ne P + ni P)%nat -> affine_row P r jac.
(** between feasible points the cost stays below its linearisation plus L/2 times the squared distance
    (true for every differentiable cost whose gradient has Lipschitz constant L) *)
Definition smooth_cost (P : problem R) (grad : vec R -> vec R) (L : R) : Prop :=
  forall x y, nlp_feasible P x -> nlp_feasible P y ->
    p_cost P y <= p_cost P x + rdot (nx P) (grad x) (fun j => y j - x j) + L / 2 * rdot (nx P) (fun j => y j - x j) (fun j => y j - x j).
Definition bounded_below (P : problem R) (f : R) : Prop := forall x, nlp_feasible P x -> f <= p_cost P x.

(** conditions on a subproblem with its step and multipliers *)
(** m |v|^2 <= v' H v *)
Definition hessian_above (m : R) (e : qp_data R * (vec R * vec R)) : Prop :=
  forall v, m * rdot (qn (fst e)) v v <= qf (qn (fst e)) (qH (fst e)) v.
(** row sums of |H| are at most M *)
Definition hessian_below (M : R) (e : qp_data R * (vec R * vec R)) : Prop :=
  forall j, (j < qn (fst e))%nat -> rsum (qn (fst e)) (fun k => Rabs (qH (fst e) j k)) <= M.
Definition multipliers_below (mu : R) (e : qp_data R * (vec R * vec R)) : Prop :=
  rnorminf (qm (fst e) + qn (fst e)) (snd (snd e)) <= mu.

(** the shortest step size the line search takes unless the step is tiny *)
Definition least_step (tau eta m L : R) : R := Rmin 1 (tau * ((1 - eta) * m / L)).

(** z is feasible, lam fulfils the sign conditions at z, and the gradient of the Lagrangian at a point x
    within e of z is at most M e *)
Definition near_kkt (P : problem R) (grad : vec R -> vec R) (jac : vec R -> mat R) (M e : R) (x z lam : vec R) : Prop :=
  let m := (ne P + ni P)%nat in
  nlp_feasible P z /\ (forall j, (j < nx P)%nat -> Rabs (z j - x j) <= e) /\
  (forall j, (j < nx P)%nat -> Rabs (grad x j + rsum m (fun i => jac x i j * lam i) + lam (m + j)%nat) <= M * e) /\
  (forall i, (i < ni P)%nat -> sign_ok (lbg P i) (ubg P i) (p_ineq P z i) (lam (ne P + i)%nat)) /\
  (forall j, (j < nx P)%nat -> sign_ok (lbx P j) (ubx P j) (z j) (lam (m + j)%nat)).

(** no constraints at all *)
Definition unconstrained (P : problem R) : Prop :=
  ne P = 0%nat /\ ni P = 0%nat /\ (forall j, (j < nx P)%nat -> lbx P j = MInf /\ ubx P j = PInf).

(** the steps of Euclidean length at least e *)
Definition long_steps (n : nat) (e : R) (l : list (qp_data R * (vec R * vec R))) :=
  filter (fun t => if Rle_dec (e * e) (rdot n (fst (snd t)) (fst (snd t))) then true else false) l.

(** the rows [grad] are the derivative of the cost, which grows at most at rate L between feasible points *)
Definition cost_derivative (P : problem R) (grad : vec R -> vec R) : Prop :=
  forall x d t, derivable_pt_lim (fun u => p_cost P (fun j => x j + u * d j)) t (rdot (nx P) (grad (fun j => x j + t * d j)) d).
Definition lipschitz_gradient (P : problem R) (grad : vec R -> vec R) (L : R) : Prop :=
  forall x y, nlp_feasible P x -> nlp_feasible P y ->
    rdot (nx P) (fun j => grad y j - grad x j) (fun j => y j - x j) <= L * rdot (nx P) (fun j => y j - x j) (fun j => y j - x j).
(** functions of x only look at the first n entries *)
Definition reads_entries (P : problem R) : Prop :=
  forall x y, (forall j, (j < nx P)%nat -> x j = y j) -> p_cost P x = p_cost P y.

Section Setting.
Variable P : problem R.
Variable st : sqp_settings R.
Variables Q W : Type.
Variable hupd : mat R -> vec R -> vec R -> mat R.
Variable hreg : mat R -> mat R.
Variable pcc : W -> qp_data R -> W * qp_data R.
Variable pcs : W -> vec R * vec R -> vec R * vec R.
Variable pcu : W -> qp_data R -> qp_data R.
Variable qps : Q -> qp_data R -> Q * (vec R * vec R * Z).
Variable qpm : Q -> Q.
Notation solve := (sqp_solve P st Q W hupd hreg pcc pcs pcu qps qpm).

(** linear constraints, a cost with Lipschitz gradient, a preconditioner that gives the gradient back, subproblems with
    Hessians of smallest eigenvalue at least mm solved exactly, and enough line search iterations *)
Definition setting grad jac L mm (s : @sqp_state R Q W) : Prop :=
  proper_bounds P /\ linearised_by P grad jac /\ linear_constraints P jac /\ smooth_cost P grad L /\ 0 < L /\ 0 < mm /\
  0 < tau st < 1 /\ 0 < eta st < 1 /\ tau st ^ Z.to_nat (ls_max_iter st - 1) <= (1 - eta st) * mm / L /\
  (forall w d w' d1, qn d = nx P -> qm d = (ne P + ni P)%nat -> pcc w d = (w', d1) ->
     forall j, (j < nx P)%nat -> qh (pcu w' d1) j = qh d j) /\
  nlp_feasible P (m_x s) /\ Forall exact_step (steps (solve s)) /\ Forall (hessian_above mm) (steps (solve s)).
End Setting.
