(** Linear-quadratic model predictive control from transcription to solution (property C102). *)
Require Import Arith ZArith List Bool Lia Reals Lra.
From Verif Require Import Scal RSum RNorm Poly_Spec Cheb_Model Ocp_Model Ocp_Spec Mpc_Model Mpc_Spec Mpc_Props
  Qp_Model Qp_Spec Sqp_Model Sqp_Spec SqpQp_Spec Msv_Model Msv_Spec LqMpc_Spec LqMpc_Proofs LqMpc_Example.
Import ListNotations.
Local Open Scope R_scope.

(** The nonlinear program that the wrapper hands to the SQP solver is a quadratic program when dynamics and constraints
    are affine and the cost terms quadratic in (x, u, p) (time varying coefficients, any discretisation matrices). *)
Theorem C102_transcription : forall U big lag_full lag s grad jac G,
  let o := prob s in let P := nlp_of U big lag_full lag s in
  (1 <= PO o)%nat -> (1 <= SG o)%nat -> linear_quadratic U o (m_par s) -> exact_derivatives P grad jac G ->
  exists c c0 A b, quadratic_nlp P grad jac G c c0 A b.
Proof. intros. eapply nlp_qp; eassumption. Qed.
Print Assumptions C102_transcription.

(** Its Hessian is positive definite when the weight of the running cost is and the weight of the terminal cost is
    positive semidefinite: the Clenshaw-Curtis weights are positive.  Problems without optimised parameters. *)
Theorem C102_strictly_convex : forall U big lag_full lag s grad jac G,
  let o := prob s in let P := nlp_of U big lag_full lag s in
  chebyshev_ocp o -> t_start o < t_stop o -> NP o = O ->
  linear_quadratic U o (m_par s) -> exact_derivatives P grad jac G ->
  forall g M, u_lag U (m_par s) = Some g -> quadratic_term o M (u_lag U (m_par s)) -> (forall t, posdef (zsize o) (M t)) ->
  forall M', quadratic_term o M' (u_may U (m_par s)) -> (forall t, psd (zsize o) (M' t)) ->
  posdef (VAR o) G.
Proof. intros. eapply (nlp_posdef U big lag_full lag s); eassumption. Qed.
Print Assumptions C102_strictly_convex.

(** One call of MPC::solve.  Exact derivatives, exact Hessians, exactly solved subproblems, eta below 1/2: the trajectory
    left in the wrapper is within the rounding blur of the unique optimal trajectory xs of the discretised problem (xs has
    least cost among all y that satisfy the collocation equations, constraints and bounds; the cost grows quadratically
    around it).  If the guess was further away than the blur, the stored trajectory is xs itself; with unique
    multipliers SOLVED is reported by the second iteration. *)
Theorem C102_solve : forall U big lag_full lag st Q W hupd hreg pcc pcs pcu qps qpm s (w : sqp_state Q W) s' w' grad jac G,
  mpc_solve U big lag_full lag st Q W hupd hreg pcc pcs pcu qps qpm (s, w) = (s', w') ->
  let o := prob s in let n := VAR o in let P := nlp_of U big lag_full lag s in let nd := (ne P + ni P + nx P)%nat in
  (1 <= PO o)%nat -> (1 <= SG o)%nat -> linear_quadratic U o (m_par s) ->
  (forall i, (i < VAR o)%nat -> m_lbx s i < big /\ - big < m_ubx s i) ->
  (forall i, (i < NUM_INEQ o)%nat -> m_lbg s i < big /\ - big < m_ubg s i) ->
  exact_derivatives P grad jac G -> linearised_by P grad jac ->
  (forall w d w' d1, qn d = nx P -> qm d = (ne P + ni P)%nat -> pcc w d = (w', d1) ->
     forall j, (j < nx P)%nat -> qh (pcu w' d1) j = qh d j) ->
  0 <= tau st <= 1 -> 0 <= eta st < / 2 -> (2 <= ls_max_iter st)%Z ->
  Forall exact_step (steps w') -> Forall (hessian_is n G) (steps w') ->
  exists xs ls,
    nlp_kkt P (grad xs) (jac xs) xs ls /\
    (forall y, nlp_feasible P y -> p_cost P xs + / 2 * gdist2 n G y xs <= p_cost P y) /\
    gdist2 n G (Mpc_Model.m_x s') xs <= blur (eta st) (rnorminf nd ls) /\
    (blur (eta st) (rnorminf nd ls) <= gdist2 n G (Mpc_Model.m_x s) xs ->
       (forall j, (j < n)%nat -> Mpc_Model.m_x s' j = xs j) /\ nlp_feasible P (Mpc_Model.m_x s') /\
       ((forall lam, nlp_kkt P (grad xs) (jac xs) xs lam -> forall i, (i < nd)%nat -> lam i = ls i) ->
        0 <= eps_prim st -> 0 <= eps_dual st -> (2 <= smax_iter st)%Z ->
        m_status w' = SqpSolved /\ (m_iter w' <= 2)%Z /\ (forall i, (i < nd)%nat -> Mpc_Model.m_lam s' i = ls i))).
Proof. intros U big lag_full lag st Q W hupd hreg pcc pcs pcu qps qpm s w s' w' grad jac G E. eapply lq_solve. exact E. Qed.
Print Assumptions C102_solve.

(** A stored trajectory that is feasible for the program satisfies the dynamics without error at the collocation nodes:
    the derivative of the segment polynomial is the right hand side (any dynamics). *)
Theorem C102_dynamics : forall U big lag_full lag s s',
  prob s' = prob s -> nlp_feasible (nlp_of U big lag_full lag s) (Mpc_Model.m_x s') ->
  let o := prob s in chebyshev_ocp o -> t_start o < t_stop o ->
  forall i c q q', (i < SG o)%nat -> (c < NX o)%nat -> state_polynomial s' i c q -> derivative_of q q' ->
  forall l, (l <= PO o)%nat -> (0 < l \/ i = 0)%nat ->
  let k := (i * PO o + l)%nat in
  q' (grid_of o k) = u_dyn U (m_par s) (node_x s' k) (node_u s' k) (node_p s') (grid_of o k) c.
Proof. intros. eapply dynamics_exact; eassumption. Qed.
Print Assumptions C102_dynamics.

(** x' = u on [0, 1] from x = 1, running cost x^2 + u^2: all hypotheses hold, and one call of solve from the zero guess
    stores the optimum 1, 2/3 with control -1/3 and reports SOLVED. *)
Example C102_example :
  linear_quadratic lq_user lq_ocp lq_par /\ chebyshev_ocp lq_ocp /\
  quadratic_term lq_ocp (fun _ i j => if (i =? j)%nat then 2 else 0) (u_lag lq_user lq_par) /\
  posdef 2 (fun i j => if (i =? j)%nat then 2 else 0) /\
  exact_derivatives lq_nlp (fun x => x) (fun _ => lq_jac) lq_id /\ linearised_by lq_nlp (fun x => x) (fun _ => lq_jac) /\
  Forall exact_step (steps (snd lq_run)) /\ Forall (hessian_is 4 lq_id) (steps (snd lq_run)) /\
  m_status (snd lq_run) = SqpSolved /\
  node_x (fst lq_run) 0 0 = 1 /\ node_x (fst lq_run) 1 0 = 2 / 3 /\
  node_u (fst lq_run) 0 0 = - / 3 /\ node_u (fst lq_run) 1 0 = - / 3.
Proof.
  destruct lq_steps as [S1 S2].
  split; [exact lq_lq|]. split; [exact lq_cheb|]. split.
  { destruct lq_lq as (_ & _ & (M & H) & _). split; [intros t i j _ _; rewrite Nat.eqb_sym; reflexivity|].
    exists (fun _ _ => 0), (fun _ => 0). intros x u p t. rewrite rdot0, qf_sum2. change (zsize lq_ocp) with 2%nat. rewrite !rsum_S, !rsum_0.
    unfold stacked. cbn. field. }
  split.
  { intros x (i & Hi & Hx). rewrite qf_sum2, !rsum_S, !rsum_0. cbn. apply Rsqr_pos_lt in Hx. unfold Rsqr in Hx.
    pose proof (Rle_0_sqr (x 0%nat)). pose proof (Rle_0_sqr (x 1%nat)). unfold Rsqr in *. destruct i as [|[|i]]; [lra|lra|lia]. }
  split; [exact lq_deriv|]. split; [exact lq_lin|]. split; [exact S1|]. split; [exact S2|].
  destruct lq_run as [s' w'] eqn:E. unfold lq_run in E. cbn [fst snd] in *.
  destruct (C102_solve lq_user 10 lq_lag_full lq_lag lq_set unit unit (fun H _ _ => H) (fun H => H) (fun w d => (w, d)) (fun _ v => v) (fun _ d => d) lq_qp (fun q => q)
     lq_mpc lq_sqp s' w' (fun x => x) (fun _ => lq_jac) lq_id E) as (xs & ls & K & Min & Bl & Far); fold lq_nlp.
  - cbn. lia.
  - cbn. lia.
  - exact lq_lq.
  - intros i _. cbn. destruct (i =? 1)%nat; lra.
  - intros i Hi. cbn in Hi. lia.
  - exact lq_deriv.
  - exact lq_lin.
  - intros w d w0 d1 _ _ H. injection H as _ <-. reflexivity.
  - cbn. lra.
  - cbn. lra.
  - cbn. lia.
  - exact S1.
  - exact S2.
  - fold lq_nlp in *. change (VAR (prob lq_mpc)) with 4%nat in *.
    change (ne lq_nlp + ni lq_nlp + nx lq_nlp)%nat with 6%nat in *.
    destruct (lq_unique xs ls K) as [Ex El].
    assert (Hb : blur (eta lq_set) (rnorminf 6 ls) <= gdist2 4 lq_id (Mpc_Model.m_x lq_mpc) xs).
    { assert (N : rnorminf 6 ls <= 2).
      { apply rnorminf_le; [lra|]. intros i Hi. rewrite El by exact Hi.
        do 6 (destruct i as [|i]; [unfold lq_ls; apply Rabs_le; lra|]). lia. }
      unfold gdist2. rewrite lq_id_qf. rewrite !Ex by lia. unfold blur, sqp_eps, scst. set (r := rnorminf 6 ls) in *. clearbody r. cbn. lra. }
    destruct (Far Hb) as (X & _ & Y).
    destruct Y as (Y & _).
    { intros lam KL i Hi. rewrite (proj2 (lq_unique xs lam KL)), El by exact Hi. reflexivity. }
    { cbn. lra. } { cbn. lra. } { cbn. lia. }
    split; [exact Y|].
    assert (Pr : prob s' = lq_ocp) by (cbv [mpc_solve] in E; injection E as <- _; reflexivity).
    unfold node_x, node_u. cbn [read]. rewrite Pr. unfold traj. cbn -[Rinv].
    rewrite !X, !Ex by lia. unfold lq_xs. repeat split; reflexivity.
Qed.
