(** The SQP solver on strictly convex quadratic programs (property C93). *)
Require Import Reals Lra Lia List ZArith Bool Floats.SpecFloat.
Require Import Verif.Scal Verif.RSum Verif.Qp_Model Verif.Qp_Spec Verif.Hess_Model Verif.Sqp_Model Verif.Sqp_Spec Verif.Sqp_Proofs
  Verif.Sqp_ProofsR Verif.Sqp_Example Verif.SqpQp_Spec Verif.SqpQp_Proofs.
Import ListNotations.
Local Open Scope R_scope.

(** C93: quadratic cost, affine constraints, exact Hessians, subproblems solved exactly, eta below 1/2 and a line search
    that may test at least one step: there is a KKT pair (xs, ls), xs is the minimiser (cost grows quadratically around
    it), no iterate is further from xs than the starting point, and every iterate after the first step is within the
    rounding blur eta/(1/2 - eta) |ls| EPSILON of it.  If the starting point is further away than the blur, the first
    step goes to xs, the iterates stay there, and with unique multipliers SOLVED is reported by the second iteration
    with the multipliers ls. *)
Theorem C93_quadratic_program : forall (P : problem R) st Q W hupd hreg pcc pcs pcu qps qpm s grad jac G c c0 A b,
  let r := sqp_solve P st Q W hupd hreg pcc pcs pcu qps qpm s in
  let n := nx P in let nd := (ne P + ni P + nx P)%nat in
  quadratic_nlp P grad jac G c c0 A b -> proper_bounds P -> linearised_by P grad jac ->
  (forall w d w' d1, qn d = nx P -> qm d = (ne P + ni P)%nat -> pcc w d = (w', d1) ->
     forall j, (j < nx P)%nat -> qh (pcu w' d1) j = qh d j) ->
  0 <= tau st <= 1 -> 0 <= eta st < / 2 -> (2 <= ls_max_iter st)%Z ->
  Forall exact_step (steps r) -> Forall (hessian_is n G) (steps r) ->
  exists xs ls,
    nlp_kkt P (grad xs) (jac xs) xs ls /\
    (forall y, nlp_feasible P y -> p_cost P xs + / 2 * gdist2 n G y xs <= p_cost P y) /\
    exists l, seen r = l ++ [(m_x s, m_lam s)] /\ (0 < length l)%nat /\
      Forall (fun e => gdist2 n G (fst e) xs <= Rmin (blur (eta st) (rnorminf nd ls)) (gdist2 n G (m_x s) xs)) l /\
      (blur (eta st) (rnorminf nd ls) <= gdist2 n G (m_x s) xs ->
       Forall (fun e => forall j, (j < n)%nat -> fst e j = xs j) l /\
       (forall j, (j < n)%nat -> m_x r j = xs j) /\
       ((forall lam, nlp_kkt P (grad xs) (jac xs) xs lam -> forall i, (i < nd)%nat -> lam i = ls i) ->
        0 <= eps_prim st -> 0 <= eps_dual st -> (2 <= smax_iter st)%Z ->
        m_status r = SqpSolved /\ (m_iter r <= 2)%Z /\ (forall i, (i < nd)%nat -> m_lam r i = ls i))).
Proof. intros. eapply qp_run; eassumption. Qed.
Print Assumptions C93_quadratic_program.

(** the blur is not an artefact of the proof: from 1 - 10^-8 the full step to the solution 1 of the example problem is
    rejected (valid settings, exact subproblem, exact Hessian) and the iterate ends half way *)
Theorem C93_blur_refuted : let sc := SF_scalar in
  exists (st : sqp_settings spec_float) v, validate st = true /\
    let r := ex_solve exP st ex_qp (ex_start v (fun _ => s0)) in
    m_iter r = 1%Z /\ sltb (scst 1 1000000000) (ssub s1 (m_x r O)) = true.
Proof.
  intros sc.
  exists (mkSqpSettings (scst 1 2) (scst 1 4) (scst 1 2) (scst 1 1000) (scst 1 1000) 1 100 false), (scst 99999999 100000000).
  vm_compute. repeat split.
Qed.
Print Assumptions C93_blur_refuted.

Definition q_solve st v l :=
  sqp_solve exP st unit unit (fun B _ _ => B) (fun H => H) ex_pc (fun _ r => r) (fun _ d => d) ex_qp (fun q => q)
    (ex_start (v : R) l).

Lemma q_all : forall st v l, Forall (fun e => exact_step e /\ hessian_is 1 (fun _ _ => 2) e) (steps (q_solve st v l)).
Proof.
  intros st v l. destruct ex_c as [C2 _].
  assert (HP' : posdef 1 (fun _ _ : nat => @scst R R_scalar 2 1)).
  { intros x Hx. rewrite C2. destruct Hx as (i & Hi & Hx). assert (i = O) by lia. subst. unfold qf. rexpand. nra. }
  enough (X : m_H (q_solve st v l) = (fun _ _ => scst 2 1) /\
              Forall (fun e => exact_step e /\ hessian_is 1 (fun _ _ => 2) e) (steps (q_solve st v l))) by apply X.
  unfold q_solve.
  apply (solve_inv exP st unit unit (fun B _ _ => B) (fun H => H) ex_pc (fun _ r => r) (fun _ d => d) ex_qp
     (fun q => q) (fun s => m_H s = (fun _ _ => scst 2 1) /\ Forall (fun e => exact_step e /\ hessian_is 1 (fun _ _ => 2) e) (steps s))).
  - intros s s' (_ & _ & _ & E1 & _ & _ & _ & _ & _ & E2). rewrite E1, E2. auto.
  - intros s lagg h b A [HP HF] E. cbn [exP p_lag] in E. injection E as <- <- <- <-.
    unfold sqp_step, ex_pc.
    destruct (ex_qp (m_q s) _) as [q [[p0 l0] it]] eqn:EQ.
    destruct (step_size_selection _ _ _ _ _ _ _) as [[al c] ev]. cbn [m_H steps].
    split; [exact HP|]. constructor; [|exact HF]. rewrite HP in EQ |- *. split.
    + destruct (m_q s). pose proof (ex_exact _ (m_x s) HP') as X.
      match type of EQ with ex_qp tt ?d = _ => change (exact_step (d, (fst (fst (snd (ex_qp tt d))), snd (fst (snd (ex_qp tt d)))))) in X end.
      rewrite EQ in X. exact X.
    + intros i j _ _. exact C2.
  - unfold sqp_first. cbn [exP p_lag_full m_x m_lam].
    unfold sqp_step, ex_pc. cbn [m_q m_w ex_start].
    destruct (ex_qp tt _) as [q [[p0 l0] it]] eqn:EQ.
    destruct (step_size_selection _ _ _ _ _ _ _) as [[al c] ev]. cbn [m_H steps].
    split; [reflexivity|]. constructor; [|constructor]. split.
    + pose proof (ex_exact _ (fun j => match j with O => v | _ => 0 end) HP') as X.
      match type of EQ with ex_qp tt ?d = _ => change (exact_step (d, (fst (fst (snd (ex_qp tt d))), snd (fst (snd (ex_qp tt d)))))) in X end.
      rewrite EQ in X. exact X.
    + intros i j _ _. exact C2.
Qed.

(** the example problem meets the hypotheses for every start and all settings *)
Example C93_example :
  quadratic_nlp exP ex_grad ex_jac (fun _ _ => 2) (fun _ => -1) 0 (fun _ _ => 1) (fun i => match i with O => -1 | _ => 0 end) /\
  proper_bounds exP /\ linearised_by exP ex_grad ex_jac /\
  (forall st v l, Forall exact_step (steps (q_solve st v l)) /\ Forall (hessian_is 1 (fun _ _ => 2)) (steps (q_solve st v l))) /\
  nlp_kkt exP (ex_grad (ex_x 1)) (ex_jac (ex_x 1)) (ex_x 1) (ex_l (-1)) /\
  (forall lam, nlp_kkt exP (ex_grad (ex_x 1)) (ex_jac (ex_x 1)) (ex_x 1) lam -> forall i, (i < 3)%nat -> lam i = ex_l (-1) i) /\
  blur (/ 4) 1 <= gdist2 1 (fun _ _ => 2) (ex_x 3) (ex_x 1).
Proof.
  destruct ex_c as (C2 & _ & _).
  split; [|split; [exact ex_proper|split; [exact ex_lin|split; [|split; [exact ex_kkt|split; [exact ex_kkt_unique|]]]]]].
  - unfold quadratic_nlp, exP, ex_grad, ex_jac, constr_values, symmetric. cbn [nx ne ni p_cost p_eq p_ineq].
    split; [reflexivity|]. split; [|split; [|split]].
    + intros x. unfold qf. rexpand. cbn. lra.
    + intros x j Hj. assert (j = O) by lia. subst. rexpand. rewrite C2. cbn. lra.
    + intros x i Hi. destruct i as [|[|i]]; [| |lia]; rexpand; cbn; lra.
    + reflexivity.
  - intros st v l. pose proof (q_all st v l) as X. split; (eapply Forall_impl; [|exact X]); intros e [X1 X2]; assumption.
  - unfold blur, gdist2, qf, ex_x, sqp_eps, scst. rexpand. cbn. lra.
Qed.
