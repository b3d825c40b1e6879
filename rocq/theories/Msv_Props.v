(** Property theorems about solved MPC problems (C73): wrapper, transcription and SQP solver together. *)
Require Import Arith ZArith List Bool Lia Reals Lra.
From Verif Require Import Scal RSum Poly_Spec Cheb_Model Ocp_Model Ocp_Spec Ocp_Cor_Proofs Mpc_Model Mpc_Spec Mpc_Proofs Mpc_Props
  Qp_Model Sqp_Model Sqp_Spec Sqp_ProofsR Msv_Model Msv_Spec Msv_Proofs.
Import ListNotations.
Local Open Scope R_scope.

(** A solve that reports SOLVED leaves a trajectory whose segment polynomials satisfy the dynamics at the
    collocation nodes up to 2 SG eps_prim / (tf - t0); every linearisation, QP solver, preconditioner,
    Hessian update, history. *)
Theorem C73_dynamics : forall U big lag_full lag st Q W hupd hreg pcc pcs pcu qps qpm s (w : sqp_state Q W) s' w',
  0 <= tau st -> 0 <= eps_prim st ->
  mpc_solve U big lag_full lag st Q W hupd hreg pcc pcs pcu qps qpm (s, w) = (s', w') -> m_status w' = SqpSolved ->
  let o := prob s in chebyshev_ocp o -> t_start o < t_stop o ->
  forall i c q q', (i < SG o)%nat -> (c < NX o)%nat -> state_polynomial s' i c q -> derivative_of q q' ->
  forall l, (l <= PO o)%nat -> (0 < l \/ i = 0)%nat ->
  let k := (i * PO o + l)%nat in
  Rabs (q' (grid_of o k) - u_dyn U (m_par s) (node_x s' k) (node_u s' k) (node_p s') (grid_of o k) c)
    <= eps_prim st * (2 * INR (SG o)) / (t_stop o - t_start o).
Proof. intros. eapply dynamics_ok; eassumption. Qed.
Print Assumptions C73_dynamics.

(** In a session of setters and solves ending in a SOLVED status every bound in force, i.e. the one given by the last
    setter that names it, holds up to eps_prim; in particular the initial condition. *)
Theorem C73_bounds : forall U big lag_full lag st Q W hupd hreg pcc pcs pcu qps qpm s (w : sqp_state Q W) l s' w',
  0 <= tau st -> 0 <= eps_prim st ->
  session U big lag_full lag st Q W hupd hreg pcc pcs pcu qps qpm (s, w) (l ++ [Solve]) = (s', w') -> m_status w' = SqpSolved ->
  let o := prob s in let e := eps_prim st in
  (forall d k c b, (k < nodes o)%nat -> (c < NX o)%nat -> in_force s l (x_bound d k c) b -> respects big e b (node_x s' k c) d) /\
  (forall d k c b, (k < nodes o)%nat -> (c < NU o)%nat -> in_force s l (u_bound d k c) b -> respects big e b (node_u s' k c) d) /\
  (forall d c b, (c < NP o)%nat -> in_force s l (p_bound d c) b -> respects big e b (node_p s' c) d) /\
  (forall d k c b, (k < nodes o)%nat -> (c < NG o)%nat -> in_force s l (g_bound d k c) b ->
     respects big e b (u_ine U (m_par s') (node_x s' k) (node_u s' k) (node_p s') (grid_of (prob s') k) c) d).
Proof.
  intros U big lag_full lag st Q W hupd hreg pcc pcs pcu qps qpm s w l s' w' Ht He E Hs o e.
  rewrite session_app in E. destruct (session U big lag_full lag st Q W hupd hreg pcc pcs pcu qps qpm (s, w) l) as [s1 w1] eqn:E1.
  cbn [do_op] in E.
  destruct (session_inv U big lag_full lag st Q W hupd hreg pcc pcs pcu qps qpm l s w s1 w1 E1) as ((a1 & a2 & a3 & a4 & a5 & a6) & B & _).
  destruct (bounds_ok U big lag_full lag st Q W hupd hreg pcc pcs pcu qps qpm Ht He s1 w1 s' w' E Hs) as (X & Y & Z & G). cbv zeta in *.
  destruct (solved_within U big lag_full lag st Q W hupd hreg pcc pcs pcu qps qpm Ht He s1 w1 s' w' E Hs) as (_ & x & lam & Es).
  assert (Ep : m_par s' = m_par s1) by (rewrite Es; reflexivity). assert (Eo : prob s' = prob s1) by (rewrite Es; reflexivity).
  assert (En : nodes (prob s1) = nodes o) by (unfold nodes; rewrite a5, a6; reflexivity).
  split; [|split; [|split]].
  - intros d k c b Hk Hc Hb. specialize (B (x_bound d k c) I (conj Hk Hc)). unfold in_force in *. rewrite <- Hb in B. rewrite <- B. apply X; fold o in a1; congruence.
  - intros d k c b Hk Hc Hb. specialize (B (u_bound d k c) I (conj Hk Hc)). unfold in_force in *. rewrite <- Hb in B. rewrite <- B. apply Y; fold o in a2; congruence.
  - intros d c b Hc Hb. specialize (B (p_bound d c) I Hc). unfold in_force in *. rewrite <- Hb in B. rewrite <- B. apply Z; fold o in a3; congruence.
  - intros d k c b Hk Hc Hb. specialize (B (g_bound d k c) I (conj Hk Hc)). unfold in_force in *. rewrite <- Hb in B. rewrite <- B. rewrite Ep, Eo.
    apply G; fold o in a4; congruence.
Qed.
Print Assumptions C73_bounds.

(** the measured state: initial_conditions(x0) followed by anything that does not mention the initial state *)
Theorem C73_initial_state : forall U big lag_full lag st Q W hupd hreg pcc pcs pcu qps qpm s (w : sqp_state Q W) l1 x0 l2 s' w',
  0 <= tau st -> 0 <= eps_prim st ->
  session U big lag_full lag st Q W hupd hreg pcc pcs pcu qps qpm (s, w) ((l1 ++ Set_ (initial_conditions x0) :: l2) ++ [Solve]) = (s', w') ->
  m_status w' = SqpSolved ->
  forall c, (c < NX (prob s))%nat -> Rabs (x0 c) < big ->
  (forall d, last_named (prob s) (setters l2) (x_bound d 0 c) = None) ->
  Rabs (node_x s' 0 c - x0 c) <= eps_prim st.
Proof.
  intros U big lag_full lag st Q W hupd hreg pcc pcs pcu qps qpm s w l1 x0 l2 s' w' Ht He E Hs c Hc Hb Hl.
  destruct (C73_bounds U big lag_full lag st Q W hupd hreg pcc pcs pcu qps qpm s w _ s' w' Ht He E Hs) as (X & _).
  assert (F : forall d, in_force s (l1 ++ Set_ (initial_conditions x0) :: l2) (x_bound d 0 c) (x0 c)).
  { intro d. unfold in_force.
    assert (A : forall l, last_named (prob s) (setters (l ++ Set_ (initial_conditions x0) :: l2)) (x_bound d 0 c) = Some (x0 c)).
    { induction l as [|[f|] l IH]; cbn [app setters last_named]; [|rewrite IH; reflexivity|exact IH].
      rewrite Hl. reflexivity. }
    rewrite A. reflexivity. }
  assert (Hn : (0 < nodes (prob s))%nat) by (unfold nodes; lia).
  pose proof (X lower 0%nat c (x0 c) Hn Hc (F lower) Hb) as L. pose proof (X upper 0%nat c (x0 c) Hn Hc (F upper) Hb) as Up. cbv iota in L, Up.
  apply Rabs_le. lra.
Qed.
Print Assumptions C73_initial_state.

(** and the getters evaluate exactly these polynomials at any time (the region where C37 holds) *)
Theorem C37_session_partial : forall U big lag_full lag st Q W hupd hreg pcc pcs pcu qps qpm
    o0 x lam par a b c d (w : sqp_state Q W) l s w',
  Forall not_behind (setters l) ->
  session U big lag_full lag st Q W hupd hreg pcc pcs pcu qps qpm (mpc_init o0 x lam par a b c d, w) l = (s, w') ->
  let o := prob s in
  chebyshev_ocp o -> t_start o < t_stop o -> (Z.of_nat (SG o) < 2 ^ 63)%Z -> supported_start o ->
  forall i t, in_segment o i t ->
  (exists v, solution_x_at s t = Some v /\ forall c q, (c < NX o)%nat -> state_polynomial s i c q -> v c = q t) /\
  (exists v, solution_u_at s t = Some v /\ forall c q, (c < NU o)%nat -> control_polynomial s i c q -> v c = q t).
Proof.
  intros U big lag_full lag st Q W hupd hreg pcc pcs pcu qps qpm o0 x lam par a b c d w l s w' HF E o Hch Ht Hsz Hsup i t Hin.
  pose proof (session_in_step _ _ _ _ _ _ _ _ _ _ _ _ _ _ l _ _ _ _ _ _ _ _ _ _ _ HF E) as Hst. pose proof (proj1 Hin) as Hi. split.
  - destruct (right_segment s (solution_x_reshaped s) Hst Hch Ht Hsz Hsup i t Hin) as (r & Er & V). exists r. split; [exact Er|].
    intros c' q Hc Hq. apply V; [apply Hq|]. apply values_x; auto.
  - destruct (right_segment s (solution_u_reshaped s) Hst Hch Ht Hsz Hsup i t Hin) as (r & Er & V). exists r. split; [exact Er|].
    intros c' q Hc Hq. apply V; [apply Hq|]. apply values_u; auto.
Qed.
Print Assumptions C37_session_partial.

(** Example: x' = u on [0,1] from x = 1, one segment of order 1; the guess is off by 1/20, the QP step corrects it *)
Definition si_user : user := User (fun _ _ u _ _ => u) (fun _ _ _ _ _ _ => 0) (fun _ => None) (fun _ => None).
Definition si : ocp R := mkOcp 1 1 0 0 1 1 (cheb_D 1) (cheb_nodes 1) (cheb_int_weights 1) 0 1
  (fun _ _ _ _ _ => 0) (fun _ _ _ _ _ _ => 0) (fun _ _ _ _ _ _ _ => 0) (fun _ _ _ _ _ => 0) (fun _ _ _ _ _ _ => 0) (fun _ _ _ _ _ _ _ => 0) None None.
Definition z1 : vec R := fun _ => 0.
Definition z2 : mat R := fun _ _ => 0.
Definition si_set : sqp_settings R := mkSqpSettings (1/2) (1/4) (1/2) (1/10) (1/10) 10 1 false.
Definition si_step : vec R := fun j => if (j =? 0)%nat then - (1/20) else 0.
Definition si_session := session si_user 10 (fun _ _ => (z1, z2, z1, z1, z2)) (fun _ _ => (z1, z1, z1, z2)) si_set unit unit
  (fun H _ _ => H) (fun H => H) (fun w d => (w, d)) (fun _ v => v) (fun _ d => d) (fun q _ => (q, (si_step, z1, 1%Z))) (fun q => q).
Definition si_start : mpc R * sqp_state unit unit :=
  (mpc_init si z1 z1 z1 (fun _ => -10) (fun _ => 10) z1 z1,
   mkSqp z1 z1 z1 z2 z1 0 0 (Fin 0) 0 SqpMaxIter 0 0 tt tt [] [] []).
Definition si_ops : list op :=
  [Set_ (initial_conditions (fun _ => 1)); Set_ (x_guess (fun j => if (j =? 0)%nat then 2 + 1/20 else 1)); Set_ (u_guess (fun _ => 1))].

Example C73_example : exists s w, si_session si_start (si_ops ++ [Solve]) = (s, w) /\ m_status w = SqpSolved /\
  chebyshev_ocp (prob s) /\ t_start (prob s) < t_stop (prob s) /\ node_x s 0 0 = 1 /\ node_x s 1 0 = 2.
Proof.
  destruct (si_session si_start (si_ops ++ [Solve])) as [s w] eqn:E. exists s, w. split; [reflexivity|].
  unfold si_session in E. rewrite session_app in E. cbn [do_op] in E.
  match type of E with mpc_solve _ _ _ _ _ _ _ _ _ _ _ _ _ _ ?q = _ => remember q as sw eqn:Esw; destruct sw as [s0 w0] end.
  unfold session, si_ops, si_start in Esw. cbn [fold_left do_op fst snd] in Esw. injection Esw as E0 Ew.
  assert (EP : prob s0 = si) by (rewrite E0; reflexivity).
  assert (Hx : forall j, (j < 4)%nat -> Mpc_Model.m_x s0 j = if (j =? 0)%nat then 2 + 1/20 else 1).
  { intros j Hj. rewrite E0. do 4 (destruct j as [|j]; [reflexivity|]). lia. }
  assert (Hl : forall j, (j < 4)%nat -> m_lbx s0 j = if (j =? 1)%nat then 1 else -10).
  { intros j Hj. rewrite E0. do 4 (destruct j as [|j]; [reflexivity|]). lia. }
  assert (Hu : forall j, (j < 4)%nat -> m_ubx s0 j = if (j =? 1)%nat then 1 else 10).
  { intros j Hj. rewrite E0. do 4 (destruct j as [|j]; [reflexivity|]). lia. }
  cbv [mpc_solve] in E. injection E as Es Er.
  set (P := nlp_of si_user 10 (fun _ _ => (z1, z2, z1, z1, z2)) (fun _ _ => (z1, z1, z1, z2)) s0) in *.
  match type of Er with ?r = _ => set (rr := r) in * end.
  set (x' := tab 4 (fun j => Mpc_Model.m_x s0 j + 1 * si_step j)).
  assert (Hx' : forall j, (j < 4)%nat -> x' j = if (j =? 0)%nat then 2 else 1).
  { intros j Hj. unfold x'. rewrite tab_spec by exact Hj. rewrite Hx by exact Hj. unfold si_step.
    do 4 (destruct j as [|j]; [cbn; lra|]). lia. }
  assert (EPn : nx P = 4%nat) by (unfold P; cbn; rewrite EP; reflexivity).
  assert (EPe : ne P = 2%nat) by (unfold P; cbn; rewrite EP; reflexivity).
  assert (EPi : ni P = 0%nat) by (unfold P; cbn; rewrite EP; reflexivity).
  assert (Wi : within (1/10) P x').
  { set (a := at_params si_user si (m_par s0)).
    assert (Hcha : chebyshev_ocp a) by (repeat split; try reflexivity; cbn; lia).
    split; [|split].
    - rewrite EPe. intros i Hi.
      assert (Z : equalities a x' i = 0).
      { revert i Hi. change 2%nat with (NUM_EQ a). apply (proj2 (collocation a Hcha ltac:(cbn; lra) x')).
        intros sg c Hs Hc. cbn in Hs, Hc. replace sg with 0%nat by lia. replace c with 0%nat by lia.
        exists (fun t => 1 + t), (fun _ => 1).
        assert (T0 : time_nodes a 0%nat = 1) by (apply (Ocp_Proofs.time_first a Hcha)).
        assert (T1 : time_nodes a 1%nat = 0) by (apply (Ocp_Proofs.time_last a Hcha)).
        split; [exists (fun _ => 1); intro t; cbn; ring|]. split.
        { intro t. pose proof (derivable_pt_lim_plus (fct_cte 1) id t 0 1 (derivable_pt_lim_const 1 t) (derivable_pt_lim_id t)) as D.
          rewrite Rplus_0_l in D. exact D. }
        cbn [PO a at_params si Nat.mul Nat.add]. split; intros j Hj.
        - assert (j = 0 \/ j = 1)%nat as [->| ->] by lia; [rewrite T0|rewrite T1]; unfold state, ix; cbn [a at_params si NX Nat.mul Nat.add].
          + rewrite Hx' by lia. cbn. lra.
          + rewrite Hx' by lia. cbn. lra.
        - intros _. change (o_dyn a) with (fun (_ u _ : vec R) (_ : R) => u). cbv beta. unfold control, iu. cbn [a at_params si NX NU PO SG].
          assert (j = 0 \/ j = 1)%nat as [->| ->] by lia; rewrite Hx' by lia; reflexivity. }
      unfold P. cbn [nlp_of p_eq]. rewrite EP. fold a. rewrite Z, Rabs_R0. lra.
    - rewrite EPi. intros i Hi. lia.
    - rewrite EPn. intros j Hj. unfold P. cbn [nlp_of lbx ubx]. rewrite Hl, Hu, Hx' by exact Hj. unfold as_bound.
      do 4 (destruct j as [|j]; [cbn [Nat.eqb]; repeat (destruct (Rle_dec _ _); try lra); cbn; lra|]). lia. }
  assert (El : Mpc_Model.m_lam s0 = z1) by (rewrite E0; reflexivity).
  set (f1 := sqp_first P si_set unit unit (fun H => H) (fun w d => (w, d)) (fun _ v => v) (fun _ d => d)
    (fun q _ => (q, (si_step, z1, 1%Z))) (fun q => q) (start_from unit unit (Mpc_Model.m_x s0) (Mpc_Model.m_lam s0) w0)).
  assert (Fi : Sqp_Model.m_x f1 = x' /\ m_primal_norm f1 = 1 * norminf 4 si_step /\
    m_dual_norm f1 = 1 * norminf 6 (tab 6 (fun i => z1 i - z1 i)) /\ m_max_violation f1 = max_violation P x').
  { unfold f1, sqp_first, sqp_step. rewrite El. unfold P at 1. cbn [p_lag_full nlp_of]. fold P. unfold step_size_selection, ls_budget.
    cbn [si_set ls_max_iter]. change (Z.to_nat (1 - 1)) with 0%nat.
    cbn [ls_loop Sqp_Model.m_x Sqp_Model.m_lam m_primal_norm m_dual_norm m_max_violation start_from]. rewrite EPn, EPe, EPi.
    repeat split. }
  destruct Fi as (F1 & F2 & F3 & F4).
  assert (Te : terminated si_set unit unit f1 = true).
  { unfold terminated, termination. rewrite F2, F3, F4. apply andb_true_intro. split; [apply andb_true_intro; split|].
    - apply Rleb_true. change (norminf 4 si_step) with (rnorminf 4 si_step). change (eps_prim si_set) with (1/10).
      rewrite Rmult_1_l. apply rnorminf_le; [lra|]. intros i _. unfold si_step. destruct (i =? 0)%nat.
      + rewrite Rabs_Ropp, Rabs_right; lra.
      + rewrite Rabs_R0. lra.
    - apply Rleb_true. change (eps_dual si_set) with (1/10). rewrite Rmult_1_l.
      match goal with |- norminf 6 ?v <= _ => change (rnorminf 6 v <= 1/10) end.
      apply rnorminf_le; [lra|]. intros i Hi. rewrite tab_spec by exact Hi. unfold z1. rsimp. replace (0 - 0) with 0 by ring. rewrite Rabs_R0. lra.
    - apply ext_leb_s_R. apply max_violation_le; [cbn; lra|exact Wi]. }
  assert (Rr : rr = set_status unit unit SqpSolved f1) by (unfold rr, sqp_solve; fold f1; rewrite Te; reflexivity).
  split; [rewrite <- Er, Rr; reflexivity|].
  assert (Ps : prob s = si) by (rewrite <- Es; exact EP). rewrite Ps.
  split; [repeat split; try reflexivity; cbn; lia|]. split; [cbn; lra|].
  assert (Ex : Mpc_Model.m_x s = x') by (rewrite <- Es, Rr; exact F1).
  unfold node_x. cbn [read]. rewrite Ps, Ex. cbn [si NX traj nodes PO SG Nat.mul Nat.add Nat.sub]. rewrite !Hx' by (cbn; lia). split; reflexivity.
Qed.
