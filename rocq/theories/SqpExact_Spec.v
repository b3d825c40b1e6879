(** Local convergence of Newton's method on problems with linear constraints. *)
Require Import Reals List ZArith.
From Verif Require Import Scal RSum RNorm Qp_Model Qp_Spec Sqp_Model Sqp_Spec SqpGlob_Spec SqpExact_Model.
Local Open Scope R_scope.

(** feasible points within rad of xs *)
Definition near (P : problem R) (xs : vec R) (rad : R) (x : vec R) : Prop := nlp_feasible P x /\ edist (nx P) x xs <= rad.

(** near xs the Hessian of the cost is at least mm, gradient and cost agree with their Taylor polynomials up to the terms
    given by a Lipschitz constant L of the Hessian *)
Definition newton_region (P : problem R) (grad : vec R -> vec R) (hess : vec R -> mat R) (mm L : R) (xs : vec R) (rad : R) : Prop :=
  let n := nx P in
  forall x, near P xs rad x ->
  (forall v, mm * rdot n v v <= qf n (hess x) v) /\
  (forall y, near P xs rad y -> let d := fun j => y j - x j in
    enorm n (fun j => grad y j - grad x j - rmv n (hess x) d j) <= L / 2 * (edist n y x * edist n y x) /\
    p_cost P y <= p_cost P x + rdot n (grad x) d + / 2 * qf n (hess x) d + L / 6 * (edist n y x * (edist n y x * edist n y x))).

(** a sufficient condition: [hess] is the derivative of [grad] and Lipschitz with constant L *)
Definition gradient_derivative (P : problem R) (grad : vec R -> vec R) (hess : vec R -> mat R) : Prop :=
  forall x d w t, derivable_pt_lim (fun u => rdot (nx P) (grad (fun j => x j + u * d j)) w) t
    (rdot (nx P) (rmv (nx P) (hess (fun j => x j + t * d j)) d) w).
Definition gradient_reads_entries (P : problem R) (grad : vec R -> vec R) : Prop :=
  forall x y, (forall j, (j < nx P)%nat -> x j = y j) -> forall j, (j < nx P)%nat -> grad x j = grad y j.
Definition lipschitz_hessian (P : problem R) (hess : vec R -> mat R) (L : R) (xs : vec R) (rad : R) : Prop :=
  forall x y v w, near P xs rad x -> near P xs rad y ->
    rdot (nx P) (fun j => rmv (nx P) (hess y) v j - rmv (nx P) (hess x) v j) w <= L * edist (nx P) y x * enorm (nx P) v * enorm (nx P) w.

(** the Hessian that reaches the QP solver near xs is that of the cost *)
Definition newton_hessian (P : problem R) (hreg : mat R -> mat R) (hess : vec R -> mat R) (xs : vec R) (rad : R) : Prop :=
  forall x lam lagg H h b A, near P xs rad x -> p_lag_full P x lam = (lagg, H, h, b, A) ->
    forall i j, (i < nx P)%nat -> (j < nx P)%nat -> hreg H i j = hess x i j.

(** contraction factor *)
Definition newton_factor (mm L : R) : R := L / (2 * mm).
(** squared distances below this are blurred by the EPSILON that the solver adds to the constraint violation *)
Definition newton_blur (eta mm mu : R) : R := 8 * (eta * (mu * sqp_eps)) / ((/ 2 - eta) * mm).

(** from x to x' the distance to xs does not grow and, above the blur, is squared *)
Definition newton_contracts (n : nat) (C blur : R) (xs x' x : vec R) : Prop :=
  edist n x' xs <= edist n x xs /\
  (edist n x' xs <= C * (edist n x xs * edist n x xs) \/ edist n x xs * edist n x xs <= blur).

(** consecutive elements of a list *)
Fixpoint chain {A : Type} (rel : A -> A -> Prop) (l : list A) : Prop :=
  match l with
  | a :: ((b :: _) as r) => rel a b /\ chain rel r
  | _ => True
  end.

Section Setting.
Variable P : problem R.
Variable st : sqp_settings R.
Variables Q W : Type.
Variable hreg : mat R -> mat R.
Variable pcc : W -> qp_data R -> W * qp_data R.
Variable pcs : W -> vec R * vec R -> vec R * vec R.
Variable pcu : W -> qp_data R -> qp_data R.
Variable qps : Q -> qp_data R -> Q * (vec R * vec R * Z).
Variable qpm : Q -> Q.
Notation solve := (exact_solve P st Q W hreg pcc pcs pcu qps qpm).

(** xs is a KKT point, the run starts in its Newton region, subproblems are solved exactly, the preconditioner gives the
    gradient back *)
Definition newton_setting grad jac hess mm L xs ls rad mu (s : @sqp_state R Q W) : Prop :=
  proper_bounds P /\ linearised_by P grad jac /\ linear_constraints P jac /\
  nlp_kkt P (grad xs) (jac xs) xs ls /\ newton_region P grad hess mm L xs rad /\ newton_hessian P hreg hess xs rad /\
  0 < mm /\ 0 < L /\ 0 < tau st < 1 /\ 0 <= eta st < / 2 /\ L * rad <= (1 - 2 * eta st) * mm /\
  (forall w d w' d1, qn d = nx P -> qm d = (ne P + ni P)%nat -> pcc w d = (w', d1) ->
     forall j, (j < nx P)%nat -> qh (pcu w' d1) j = qh d j) /\
  near P xs rad (m_x s) /\ Forall exact_step (steps (solve s)) /\ Forall (multipliers_below mu) (steps (solve s)).
End Setting.
