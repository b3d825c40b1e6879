(** C15-C19, C52-C56: the SQP solver. *)
Require Import Reals Lra Lia List ZArith Bool Floats.SpecFloat.
Require Import Verif.Scal Verif.RSum Verif.Qp_Model Verif.Qp_Spec Verif.Hess_Model
  Verif.Sqp_Model Verif.Sqp_Spec Verif.Sqp_Proofs Verif.Sqp_ProofsR Verif.Sqp_Example Verif.Sqp_PropLemmas.
Import ListNotations.
Local Open Scope R_scope.

(** C15: for every scalar arithmetic, problem, QP solver, preconditioner, Hessian update and starting
    state: the status is SOLVED or MAX_ITER_EXCEEDED; SOLVED means that the stopping test holds for the
    recorded step norms and for the violation at the returned point; between 1 and max(1,max_iter)
    iterations are made, all of them if not SOLVED; the callback runs iter-1 times, on the iterates. *)
Theorem C15_sqp_status : forall (T : Type) (ST : Scalar T) (P : problem T) st Q W hupd hreg pcc pcs pcu qps qpm s,
  let r := sqp_solve P st Q W hupd hreg pcc pcs pcu qps qpm s in
  (m_status r = SqpSolved \/ m_status r = SqpMaxIter) /\
  (m_status r = SqpSolved ->
     sleb (m_primal_norm r) (eps_prim st) = true /\ sleb (m_dual_norm r) (eps_dual st) = true /\
     ext_leb_s (max_violation P (m_x r)) (eps_prim st) = true) /\
  (1 <= m_iter r <= Z.max 1 (smax_iter st))%Z /\
  (m_status r = SqpMaxIter -> m_iter r = Z.max 1 (smax_iter st)) /\
  Z.of_nat (length (seen r)) = (m_iter r + 1)%Z /\
  calls r = (if has_callback st then firstn (Z.to_nat (m_iter r - 1)) (map fst (seen r)) else []) /\
  (has_callback st = true -> Z.of_nat (length (calls r)) = (m_iter r - 1)%Z).
Proof. intros. apply sqp_status_lemma. Qed.
Print Assumptions C15_sqp_status.

(** C15, exact reals: the recorded norms are the distances of the last two iterates and SOLVED means that
    every constraint holds within eps_prim. *)
Theorem C15_sqp_solved_partial : forall (P : problem R) st Q W hupd hreg pcc pcs pcu qps qpm s,
  let r := sqp_solve P st Q W hupd hreg pcc pcs pcu qps qpm s in
  0 <= tau st -> 0 <= eps_prim st -> m_status r = SqpSolved ->
  within (eps_prim st) P (m_x r) /\
  exists x0 lam0 t, seen r = (m_x r, m_lam r) :: (x0, lam0) :: t /\
    (forall j, (j < nx P)%nat -> Rabs (m_x r j - x0 j) <= eps_prim st) /\
    (forall i, (i < ne P + ni P + nx P)%nat -> Rabs (m_lam r i - lam0 i) <= eps_dual st).
Proof. intros. apply sqp_solved_lemma; assumption. Qed.
Print Assumptions C15_sqp_solved_partial.

(** C15 is false in IEEE arithmetic: a constraint that evaluates to NaN is dropped by fmax and SOLVED is
    reported.  Missing from C15_sqp_solved_partial: NaN constraint values. *)
Definition nanP : problem spec_float := let sc := SF_scalar in
  {| nx := 1; ne := 0; ni := 1; p_cost := fun _ => s0; p_eq := fun _ _ => s0; p_ineq := fun _ _ => S754_nan;
     p_lag_full := fun x l => (fun _ => s0, fun _ _ => s1, fun _ => s0, fun _ => S754_nan, fun _ _ => s0);
     p_lag := fun x l => (fun _ => s0, fun _ => s0, fun _ => S754_nan, fun _ _ => s0);
     lbx := fun _ => MInf; ubx := fun _ => PInf; lbg := fun _ => Fin s0; ubg := fun _ => Fin s1 |}.
Theorem C15_sqp_solved_refuted : let sc := SF_scalar in
  exists (qps : unit -> qp_data spec_float -> unit * (vec spec_float * vec spec_float * Z)) s,
    let r := ex_solve nanP ex_set qps s in
    validate (T := spec_float) ex_set = true /\ m_status r = SqpSolved /\
    p_ineq nanP (m_x r) 0%nat = S754_nan /\ isnan (p_ineq nanP (m_x r) 0%nat) = true.
Proof.
  intros sc. exists (fun q d => (q, (fun _ => s0, fun _ => s0, 1%Z))), (ex_start s0 (fun _ => s0)).
  vm_compute. repeat split.
Qed.
Print Assumptions C15_sqp_solved_refuted.

(** a run in IEEE doubles: two iterations, one callback, SOLVED at x = 1 *)
Example C15_example : let sc := SF_scalar in
  let r := ex_solve exP ex_set ex_qp (ex_start (SF_ofZ 3) (fun _ => s0)) in
  m_status r = SqpSolved /\ m_iter r = 2%Z /\ length (calls r) = 1%nat /\ m_x r 0%nat = SF_ofZ 1 /\ m_lam r 0%nat = SF_ofZ (-1).
Proof. vm_compute. repeat split. Qed.
(** and one over the reals, see C54 *)

(** C16: the step size is tau^k with k at most line_search_max_iter - 1; no larger trial step satisfies
    the Armijo condition on the l1 merit function, and tau^k does unless the budget is exhausted; at most
    line_search_max_iter - 1 trials are made. *)
Theorem C16_line_search : forall (P : problem R) st x p h lamk cost,
  let '(a, c, e) := step_size_selection P st x p h lamk cost in
  let mu := rnorminf (ne P + ni P + nx P) lamk in
  let armijo t := merit P mu (along P x p t) <=
     merit P mu x + t * eta st * (rdot (nx P) h p - mu * (sqp_eps + total_violation P x)) in
  exists k, (k <= Z.to_nat (ls_max_iter st - 1))%nat /\ a = tau st ^ k /\
    (e <= Z.to_nat (ls_max_iter st - 1))%nat /\
    (forall j, (j < k)%nat -> ~ armijo (tau st ^ j)) /\
    ((k < Z.to_nat (ls_max_iter st - 1))%nat -> armijo (tau st ^ k)).
Proof. exact line_search_R. Qed.
Print Assumptions C16_line_search.

(** minimise x^4 - 3 x^2 from x = 4/5: the Newton step overshoots and is cut back twice *)
Example C16_example : let sc := SF_scalar in
  let x := ex_start (scst 4 5) (fun _ => s0) in
  let '(lagg, H, h, b, A) := p_lag_full quartic (m_x x) (m_lam x) in
  let p := fst (fst (snd (newton_qp tt (sub_qp quartic H h A b (m_x x))))) in
  let '(a, c, e) := step_size_selection quartic ex_set (m_x x) p h (fun _ => s0) s0 in
  a = scst 1 4 /\ e = 3%nat.
Proof. vm_compute. split; reflexivity. Qed.

(** C17: over the reals the violation measures vanish exactly on the feasible set and bound every single
    violation; infinite bounds included. *)
Theorem C17_violation_partial : forall (P : problem R) x, proper_bounds P ->
  (exists v, max_violation P x = Fin v /\ 0 <= v /\
     (forall e, 0 <= e -> (v <= e <-> within e P x)) /\ (v = 0 <-> nlp_feasible P x)) /\
  l1_violation P x = sqp_eps + total_violation P x /\
  within (total_violation P x) P x /\ 0 <= total_violation P x /\
  (total_violation P x = 0 <-> nlp_feasible P x).
Proof. exact violation_lemma. Qed.
Print Assumptions C17_violation_partial.

(** C17 is false in IEEE arithmetic: the maximum violation ignores NaN constraint values.
    Missing from C17_violation_partial: NaN constraint values. *)
Theorem C17_violation_refuted : let sc := SF_scalar in
  max_violation nanP (fun _ => s0) = Fin s0 /\ p_ineq nanP (fun _ => s0) 0%nat = S754_nan.
Proof. vm_compute. split; reflexivity. Qed.
Print Assumptions C17_violation_refuted.

Example C17_example : proper_bounds exP /\ nlp_feasible exP (ex_x 1) /\ ~ nlp_feasible exP (ex_x 2).
Proof.
  split; [exact ex_proper|]. split; [apply ex_kkt|].
  intros (H & _). specialize (H O (Nat.lt_0_succ _)). simpl in H. lra.
Qed.

(** C18: line-search factors in [0,1]: steps inside the bounds of the QPs keep the iterates inside the box *)
Theorem C18_box_invariance : forall (P : problem R) st Q W hupd hreg pcc pcs pcu qps qpm s,
  let r := sqp_solve P st Q W hupd hreg pcc pcs pcu qps qpm s in
  0 <= tau st <= 1 -> in_box P (m_x s) -> Forall step_in_box (steps r) ->
  Forall (fun e => in_box P (fst e)) (seen r) /\ in_box P (m_x r).
Proof. intros. apply box_run; assumption. Qed.
Print Assumptions C18_box_invariance.

(** C18: affine equalities and inequalities that hold keep holding *)
Theorem C18_affine_invariance : forall (P : problem R) st Q W hupd hreg pcc pcs pcu qps qpm s grad jac row,
  let r := sqp_solve P st Q W hupd hreg pcc pcs pcu qps qpm s in
  0 <= tau st <= 1 -> (row < ne P + ni P)%nat -> linearised_by P grad jac -> affine_row P row jac ->
  in_bounds (row_lb P row) (row_ub P row) (row_value P row (m_x s)) ->
  Forall (step_meets_row row) (steps r) ->
  Forall (fun e => in_bounds (row_lb P row) (row_ub P row) (row_value P row (fst e))) (seen r).
Proof. intros. eapply affine_run; eassumption. Qed.
Print Assumptions C18_affine_invariance.

(** the hypotheses hold for every run on the example problem *)
Example C18_example : forall st l, 0 <= tau st <= 1 ->
  in_box exP (ex_x 3) /\ Forall step_in_box (steps (ex_solve exP st ex_qp (ex_start 3 l))) /\
  linearised_by exP ex_grad ex_jac /\ affine_row exP 1 ex_jac /\
  Forall (step_meets_row 1) (steps (ex_solve exP st ex_qp (ex_start 3 l))) /\
  in_bounds (row_lb exP 1) (row_ub exP 1) (row_value exP 1 (ex_x 3)).
Proof. exact c18_example_lemma. Qed.

(** C19 is false: no settings make the solver report INVALID_SETTINGS; with tau = 2, eta = -1 and max_iter = 0 it
    reports SOLVED. *)
Theorem C19_invalid_settings_refuted :
  (forall (T : Type) (ST : Scalar T) (P : problem T) st Q W hupd hreg pcc pcs pcu qps qpm s,
     m_status (sqp_solve P st Q W hupd hreg pcc pcs pcu qps qpm s) <> SqpInvalidSettings) /\
  let sc := SF_scalar in
  exists st : sqp_settings spec_float, validate st = false /\
    m_status (ex_solve exP st ex_qp (ex_start (SF_ofZ 1) (fun i => match i with O => SF_ofZ (-1) | _ => s0 end))) = SqpSolved.
Proof.
  split; [exact never_invalid|]. intros sc.
  exists (mkSqpSettings (SF_ofZ 2) (SF_ofZ (-1)) (SF_ofZ 1) (scst 1 1000) (scst 1 1000) 0 100 false).
  vm_compute. split; reflexivity.
Qed.
Print Assumptions C19_invalid_settings_refuted.

(** C19, what remains true over the reals: a negative tolerance (with tau >= 0) never yields SOLVED. *)
Theorem C19_invalid_settings_partial : forall (P : problem R) st Q W hupd hreg pcc pcs pcu qps qpm s,
  0 <= tau st -> eps_prim st < 0 \/ eps_dual st < 0 ->
  m_status (sqp_solve P st Q W hupd hreg pcc pcs pcu qps qpm s) = SqpMaxIter.
Proof. intros. apply negative_eps; assumption. Qed.
Print Assumptions C19_invalid_settings_partial.
Example C19_example : 0 <= tau (mkSqpSettings 1 1 1 (-1) 1 1 1 false) /\ eps_prim (mkSqpSettings 1 1 1 (-1) 1 1 1 false) < 0.
Proof. simpl; lra. Qed.

(** C52: the reported cost is the cost of the returned point if the last line search accepted a trial step
    ([k] below the budget).  Missing: runs whose last line search exhausted its budget. *)
Theorem C52_reported_cost_partial : forall (P : problem R) st Q W hupd hreg pcc pcs pcu qps qpm s grad jac,
  let r := sqp_solve P st Q W hupd hreg pcc pcs pcu qps qpm s in
  linearised_by P grad jac ->
  exists x0 lam0 t d p lk rs k, seen r = (m_x r, m_lam r) :: (x0, lam0) :: t /\ steps r = (d, (p, lk)) :: rs /\
    (forall j, (j < nx P)%nat -> m_x r j = x0 j + tau st ^ k * p j) /\
    (k <= Z.to_nat (ls_max_iter st - 1))%nat /\
    ((k < Z.to_nat (ls_max_iter st - 1))%nat -> m_cost r = p_cost P (m_x r)).
Proof. intros. eapply cost_lemma; eassumption. Qed.
Print Assumptions C52_reported_cost_partial.

(** C52 is false when the budget is exhausted: with line_search_max_iter = 2 the Newton step from 4/5 on x^4 - 3 x^2
    is halved without a test, the cost reported is that of the rejected full step (positive), the cost of the
    returned point is negative. *)
Theorem C52_reported_cost_refuted : let sc := SF_scalar in
  exists (st : sqp_settings spec_float) s, let r := ex_solve quartic st newton_qp s in
    validate st = true /\ sltb s0 (m_cost r) = true /\ sltb (p_cost quartic (m_x r)) s0 = true.
Proof.
  intros sc.
  exists (mkSqpSettings (scst 1 2) (scst 1 4) (scst 1 2) (scst 1 1000) (scst 1 1000) 1 2 false),
    (ex_start (scst 4 5) (fun _ => s0)).
  vm_compute. repeat split.
Qed.
Print Assumptions C52_reported_cost_refuted.
Example C52_example : linearised_by exP ex_grad ex_jac.
Proof. exact ex_lin. Qed.

(** C53: the feasible set of the QP subproblem is the linearised feasible set of the NLP, and the zero step is
    optimal for the subproblem exactly if the current point is a KKT point of the NLP (same multipliers). *)
Theorem C53_subproblem : forall (P : problem R) H h A x,
  (forall p, qp_feasible (sub_qp P H h A (constr_values P x) x) p <->
    (forall i, (i < ne P)%nat -> p_eq P x i + rmv (nx P) A p i = 0) /\
    (forall i, (i < ni P)%nat -> in_bounds (lbg P i) (ubg P i) (p_ineq P x i + rmv (nx P) A p (ne P + i)%nat)) /\
    (forall j, (j < nx P)%nat -> in_bounds (lbx P j) (ubx P j) (x j + p j))) /\
  (forall lam, kkt_pair (sub_qp P H h A (constr_values P x) x) (fun _ => 0) lam <-> nlp_kkt P h A x lam).
Proof. intros; split; intros; [apply sub_qp_feasible|apply sub_qp_kkt]. Qed.
Print Assumptions C53_subproblem.
Example C53_example : nlp_kkt exP (ex_grad (ex_x 1)) (ex_jac (ex_x 1)) (ex_x 1) (ex_l (-1)).
Proof. exact ex_kkt. Qed.

(** C54: started at a KKT point, with strictly convex subproblems solved exactly, the iterates never move;
    if the multipliers are unique and the guess is right, SOLVED is reported after one iteration. *)
Theorem C54_kkt_fixed_point : forall (P : problem R) st Q W hupd hreg pcc pcs pcu qps qpm s grad jac,
  let r := sqp_solve P st Q W hupd hreg pcc pcs pcu qps qpm s in
  linearised_by P grad jac -> (forall j, (nx P <= j)%nat -> m_x s j = 0) -> Forall exact_step (steps r) ->
  (forall lam, nlp_kkt P (grad (m_x s)) (jac (m_x s)) (m_x s) lam ->
     Forall (fun e => fst e = m_x s) (seen r) /\ m_x r = m_x s) /\
  (nlp_kkt P (grad (m_x s)) (jac (m_x s)) (m_x s) (m_lam s) ->
   (forall lam, nlp_kkt P (grad (m_x s)) (jac (m_x s)) (m_x s) lam ->
      forall i, (i < ne P + ni P + nx P)%nat -> lam i = m_lam s i) ->
   0 <= eps_prim st -> 0 <= eps_dual st ->
   m_status r = SqpSolved /\ m_iter r = 1%Z /\ m_x r = m_x s /\
   (forall i, (i < ne P + ni P + nx P)%nat -> m_lam r i = m_lam s i)).
Proof.
  intros. split; intros.
  - eapply stay_run; eassumption.
  - eapply stop_run; eassumption.
Qed.
Print Assumptions C54_kkt_fixed_point.

(** the example problem meets all hypotheses *)
Example C54_example : forall st,
  let s := ex_start 1 (ex_l (-1)) in
  linearised_by exP ex_grad ex_jac /\ (forall j, (nx exP <= j)%nat -> m_x s j = 0) /\
  Forall exact_step (steps (ex_solve exP st ex_qp s)) /\
  nlp_kkt exP (ex_grad (m_x s)) (ex_jac (m_x s)) (m_x s) (m_lam s) /\
  (forall lam, nlp_kkt exP (ex_grad (m_x s)) (ex_jac (m_x s)) (m_x s) lam -> forall i, (i < 3)%nat -> lam i = m_lam s i) /\
  (0 <= eps_prim st -> 0 <= eps_dual st -> m_status (ex_solve exP st ex_qp s) = SqpSolved).
Proof. exact c54_example_lemma. Qed.

(** C55 (the hypothesis on the preconditioner says that it restores the cost gradient, see C10): the step of a convex subproblem solved exactly is a descent direction of the linearised merit function, and a
    step accepted by the line search decreases the merit function by at least tau^k eta p'Hp. *)
Theorem C55_merit_descent : forall (P : problem R), proper_bounds P ->
  (forall H h A x p lam, kkt_pair (sub_qp P H h A (constr_values P x) x) p lam ->
     rdot (nx P) h p - rnorminf (ne P + ni P + nx P) lam * total_violation P x <= - qf (nx P) H p) /\
  (forall st Q W hupd hreg pcc pcs pcu qps qpm s grad jac,
   let r := sqp_solve P st Q W hupd hreg pcc pcs pcu qps qpm s in
   (forall w d w' d1, qn d = nx P -> qm d = (ne P + ni P)%nat -> pcc w d = (w', d1) ->
      forall j, (j < nx P)%nat -> qh (pcu w' d1) j = qh d j) -> linearised_by P grad jac ->
   0 <= tau st -> 0 <= eta st -> Forall exact_step (steps r) ->
   exists x0 lam0 t H p lk rs k, seen r = (m_x r, m_lam r) :: (x0, lam0) :: t /\
    steps r = (sub_qp P H (grad x0) (jac x0) (constr_values P x0) x0, (p, lk)) :: rs /\
    m_x r = along P x0 p (tau st ^ k) /\ (k <= Z.to_nat (ls_max_iter st - 1))%nat /\
    ((k < Z.to_nat (ls_max_iter st - 1))%nat ->
       merit P (rnorminf (ne P + ni P + nx P) lk) (m_x r) <=
       merit P (rnorminf (ne P + ni P + nx P) lk) x0 - tau st ^ k * eta st * qf (nx P) H p)).
Proof.
  intros P HB. split.
  - intros. rewrite <- l1_sum_total. pose proof (sub_qp_descent P H h A x p lam HB H0). lra.
  - intros. eapply merit_decrease_run; eassumption.
Qed.
Print Assumptions C55_merit_descent.
Example C55_example : proper_bounds exP /\ linearised_by exP ex_grad ex_jac /\
  (forall (w : unit) (d : qp_data R) w' d1, ex_pc w d = (w', d1) -> d1 = d) /\
  forall st v l, Forall exact_step (steps (ex_solve exP st ex_qp (ex_start v l))).
Proof.
  split; [exact ex_proper|]. split; [exact ex_lin|]. split; [|exact ex_all_exact].
  intros w d w' d1 E. injection E. auto.
Qed.

(** C56: after SOLVED, if the last QP was solved exactly and its step was a full step, the returned multipliers make
    the Lagrangian stationary at the previous iterate (at most eps_prim away) up to |H| eps_prim.
    Missing: last steps shortened by the line search. *)
Theorem C56_stationarity_partial : forall (P : problem R) st Q W hupd hreg pcc pcs pcu qps qpm s grad jac,
  let r := sqp_solve P st Q W hupd hreg pcc pcs pcu qps qpm s in
  linearised_by P grad jac -> 0 <= tau st -> m_status r = SqpSolved ->
  exists x0 lam0 t H p lk rs k, seen r = (m_x r, m_lam r) :: (x0, lam0) :: t /\
    steps r = (sub_qp P H (grad x0) (jac x0) (constr_values P x0) x0, (p, lk)) :: rs /\
    (forall j, (j < nx P)%nat -> m_x r j = x0 j + tau st ^ k * p j) /\
    (tau st ^ k = 1 -> kkt_pair (sub_qp P H (grad x0) (jac x0) (constr_values P x0) x0) p lk ->
     forall j, (j < nx P)%nat ->
     Rabs (grad x0 j + rsum (ne P + ni P) (fun i => jac x0 i j * m_lam r i) + m_lam r (ne P + ni P + j)%nat)
       <= rsum (nx P) (fun i => Rabs (H j i)) * eps_prim st).
Proof. intros. eapply stationarity_lemma; eassumption. Qed.
Print Assumptions C56_stationarity_partial.

(** C56 is false: valid settings, every QP solved exactly, started at the solution x = 1 with multiplier 0.  The
    line search rejects the zero step again and again because of the EPSILON in the violation, the multiplier is
    moved by tau^k only, the scaled dual step passes the stopping test: SOLVED is reported with multipliers within
    2^-51 of 0 where -1 is the only right one. *)
Theorem C56_stationarity_refuted : let sc := SF_scalar in
  let r := ex_solve exP ex_set ex_qp (ex_start (SF_ofZ 1) (fun _ => s0)) in
  validate (T := spec_float) ex_set = true /\ m_status r = SqpSolved /\
  forallb (fun i => sltb (sabs (m_lam r i)) (scst 1 (2 ^ 51))) [0; 1; 2]%nat = true /\
  forallb (fun j => sltb (scst 9 10) (ex_lagg (m_x r) (m_lam r) j)) [0%nat] = true.
Proof. vm_compute. repeat split. Qed.
Print Assumptions C56_stationarity_refuted.
Example C56_example : let sc := SF_scalar in
  let r := ex_solve exP ex_set ex_qp (ex_start (SF_ofZ 3) (fun _ => s0)) in
  m_status r = SqpSolved /\ ex_lagg (m_x r) (m_lam r) 0%nat = s0.
Proof. vm_compute. split; reflexivity. Qed.
