(** The SQP solver with its own QP solver stops and reports success on quadratic programs and linear-quadratic control problems
    (property C106). *)
Require Import Arith ZArith List Bool Lia Reals Lra.
From Verif Require Import Scal RSum RNorm Qp_Model Qp_Spec Qp_Proofs Admm_Model Admm_Spec Admm_SpecR Gauss BoxAdmm_Model Sqp_Model Sqp_Spec
  Sqp_Proofs Sqp_ProofsR SqpQp_Spec SqpQp_Proofs Ocp_Model Mpc_Model Msv_Model LqMpc_Spec LqMpc_Proofs LqMpc_Example
  QpDist_Spec QpDist_Proofs QpDist_Example QpDist_Example2 SqpNear_Spec SqpNear_Proofs BoxUnif_Proofs SqpNative_Model SqpNative_Proofs SqpNear_Props
  SqpTerm_Spec SqpExact_Model SqpTerm_Model SqpTerm_Proofs.
Import ListNotations.
Local Open Scope R_scope.

(** The base class of the SQP solver with boxADMM.  If the active constraints at the optimum are linearly independent, then for
    every pair of tolerances of the termination test (eps_prim not below what the machine precision in the line search allows)
    and all starting points and multipliers at bounded distance D, some tolerances and iteration budgets make the solver stop
    after at most M iterations with the status SOLVED, as close to the optimum as wanted. *)
Theorem C106_native : forall (P : problem R) grad jac G c c0 A b mu xs ls lsolve full sg r0 D,
  let n := nx P in let m := (ne P + ni P)%nat in
  quadratic_nlp P grad jac G c c0 A b -> 0 < mu -> curvature n G mu -> linearised_by P grad jac ->
  nlp_kkt P (grad xs) (jac xs) xs ls -> licq P (jac xs) xs -> exact_solver full lsolve -> 0 < sg -> 0 < r0 ->
  exists L C, 0 <= L /\ 0 <= C /\ forall ta et lsm epr edu, 0 < ta <= 1 -> 0 <= et < / 2 -> 0 < edu ->
  C * sqrt (L * (et * sqp_eps) / (/ 2 - et)) < epr ->
  forall d, 0 < d -> exists M tol, 0 < tol /\ forall ea, 0 < ea <= tol -> exists K : nat,
  forall st qs hupd hreg ob s,
  tau st = ta -> eta st = et -> ls_max_iter st = lsm -> eps_prim st = epr -> eps_dual st = edu -> (M <= smax_iter st)%Z ->
  sigma qs = sg -> rho0 qs = r0 -> alpha qs = 1 -> adaptive_rho qs = false -> eps_abs qs = ea -> 0 <= eps_rel qs <= tol ->
  check_termination qs <> 0%Z -> (Z.abs (check_termination qs) * Z.of_nat K <= max_iter qs)%Z ->
  m_q s = Some ob -> box_reachable lsolve full n m ob -> gdist n G (Sqp_Model.m_x s) xs <= D ->
  (forall i, (i < m + n)%nat -> Rabs (Sqp_Model.m_lam s i - ls i) <= D) ->
  let r := native_solve lsolve full qs P st hupd hreg s in
  Forall (hessian_is n G) (steps r) ->
  m_status r = SqpSolved /\ (m_iter r <= M)%Z /\
  (exists o, m_q r = Some o /\ box_reachable lsolve full n m o /\ b_status o = SOLVED) /\
  gdist n G (Sqp_Model.m_x r) xs <= d + sqrt (L * (et * sqp_eps) / (/ 2 - et)).
Proof.
  intros P grad jac G c c0 A b mu xs ls lsolve full sg r0 D n m HQ Hmu HM HL HK HLI Hex Hsg Hr0.
  destruct (terminates P grad jac G c c0 A b mu xs ls lsolve full sg r0 D HQ Hmu HM HL HK HLI Hex Hsg Hr0) as (L & C & HL0 & HC & F).
  exists L, C. split; [exact HL0|]. split; [exact HC|]. intros ta et lsm epr edu H1 H2 H3 H4 d Hd.
  destruct (F ta et lsm epr edu H1 H2 H3 H4 d Hd) as (M & tol & Ht & F1). exists M, tol. split; [exact Ht|]. intros ea Hea.
  destruct (F1 ea Hea) as (K & F2). exists K. intros st qs hupd hreg ob s T1 T2 T3 T4 T5 T6 E1 E2 E3 E4 E5 E6 E7 E8 Eq Hr HD HDl r HG.
  unfold r in *. rewrite native_gsolve in *.
  exact (F2 st qs hupd hreg _ ob s T1 T2 T3 T4 T5 T6 E1 E2 E3 E4 E5 E6 E7 E8 (native_iteration P st hupd hreg lsolve full qs) Eq Hr HD HDl HG).
Qed.
Print Assumptions C106_native.

(** The solver classes that linearise exactly in every iteration, with the Hessian evaluated: nothing is assumed of the steps. *)
Theorem C106_exact : forall (P : problem R) grad jac G c c0 A b mu xs ls lsolve full sg r0 D hreg,
  let n := nx P in let m := (ne P + ni P)%nat in
  quadratic_nlp P grad jac G c c0 A b -> 0 < mu -> curvature n G mu -> linearised_by P grad jac ->
  (forall x lam lagg H h bb AA, p_lag_full P x lam = (lagg, H, h, bb, AA) -> forall i j, (i < n)%nat -> (j < n)%nat -> hreg H i j = G i j) ->
  nlp_kkt P (grad xs) (jac xs) xs ls -> licq P (jac xs) xs -> exact_solver full lsolve -> 0 < sg -> 0 < r0 ->
  exists L C, 0 <= L /\ 0 <= C /\ forall ta et lsm epr edu, 0 < ta <= 1 -> 0 <= et < / 2 -> 0 < edu ->
  C * sqrt (L * (et * sqp_eps) / (/ 2 - et)) < epr ->
  forall d, 0 < d -> exists M tol, 0 < tol /\ forall ea, 0 < ea <= tol -> exists K : nat,
  forall st qs ob s,
  tau st = ta -> eta st = et -> ls_max_iter st = lsm -> eps_prim st = epr -> eps_dual st = edu -> (M <= smax_iter st)%Z ->
  sigma qs = sg -> rho0 qs = r0 -> alpha qs = 1 -> adaptive_rho qs = false -> eps_abs qs = ea -> 0 <= eps_rel qs <= tol ->
  check_termination qs <> 0%Z -> (Z.abs (check_termination qs) * Z.of_nat K <= max_iter qs)%Z ->
  m_q s = Some ob -> box_reachable lsolve full n m ob -> gdist n G (Sqp_Model.m_x s) xs <= D ->
  (forall i, (i < m + n)%nat -> Rabs (Sqp_Model.m_lam s i - ls i) <= D) ->
  let r := native_exact lsolve full qs P st hreg s in
  m_status r = SqpSolved /\ (m_iter r <= M)%Z /\
  (exists o, m_q r = Some o /\ box_reachable lsolve full n m o /\ b_status o = SOLVED) /\
  gdist n G (Sqp_Model.m_x r) xs <= d + sqrt (L * (et * sqp_eps) / (/ 2 - et)).
Proof.
  intros P grad jac G c c0 A b mu xs ls lsolve full sg r0 D hreg n m HQ Hmu HM HL HH HK HLI Hex Hsg Hr0.
  destruct (terminates P grad jac G c c0 A b mu xs ls lsolve full sg r0 D HQ Hmu HM HL HK HLI Hex Hsg Hr0) as (L & C & HL0 & HC & F).
  exists L, C. split; [exact HL0|]. split; [exact HC|]. intros ta et lsm epr edu H1 H2 H3 H4 d Hd.
  destruct (F ta et lsm epr edu H1 H2 H3 H4 d Hd) as (M & tol & Ht & F1). exists M, tol. split; [exact Ht|]. intros ea Hea.
  destruct (F1 ea Hea) as (K & F2). exists K. intros st qs ob s T1 T2 T3 T4 T5 T6 E1 E2 E3 E4 E5 E6 E7 E8 Eq Hr HD HDl r.
  pose proof (exact_hessians P G st hreg lsolve full qs s HH) as HG. unfold r in *. rewrite exact_gsolve in *.
  exact (F2 st qs (fun B _ _ => B) hreg _ ob s T1 T2 T3 T4 T5 T6 E1 E2 E3 E4 E5 E6 E7 E8 (exact_iteration_step P st (fun B _ _ => B) hreg lsolve full qs) Eq Hr HD HDl HG).
Qed.
Print Assumptions C106_exact.

(** One call of MPC::solve for a linear-quadratic problem with such a solver: it stops within M iterations, reports SOLVED, and
    the stored trajectory is near the one of least cost in every coordinate. *)
Theorem C106_mpc : forall U big lag_full lag s grad jac G mu xs ls lsolve full sg r0 hreg,
  let o := prob s in let n := VAR o in let P := nlp_of U big lag_full lag s in let m := (ne P + ni P)%nat in
  (1 <= PO o)%nat -> (1 <= SG o)%nat -> linear_quadratic U o (m_par s) ->
  (forall i, (i < VAR o)%nat -> m_lbx s i < big /\ - big < m_ubx s i) ->
  (forall i, (i < NUM_INEQ o)%nat -> m_lbg s i < big /\ - big < m_ubg s i) ->
  exact_derivatives P grad jac G -> linearised_by P grad jac -> 0 < mu -> curvature n G mu ->
  (forall x lam lagg H h bb AA, lag_full x lam = (lagg, H, h, bb, AA) -> forall i j, (i < n)%nat -> (j < n)%nat -> hreg H i j = G i j) ->
  nlp_kkt P (grad xs) (jac xs) xs ls -> licq P (jac xs) xs -> exact_solver full lsolve -> 0 < sg -> 0 < r0 ->
  (forall y, nlp_feasible P y -> p_cost P xs + / 2 * gdist2 n G y xs <= p_cost P y) /\
  exists L C, 0 <= L /\ 0 <= C /\ forall ta et lsm epr edu, 0 < ta <= 1 -> 0 <= et < / 2 -> 0 < edu ->
  C * sqrt (L * (et * sqp_eps) / (/ 2 - et)) < epr ->
  forall d, 0 < d -> exists M tol, 0 < tol /\ forall ea, 0 < ea <= tol -> exists K : nat,
  forall st qs ob w s' w',
  tau st = ta -> eta st = et -> ls_max_iter st = lsm -> eps_prim st = epr -> eps_dual st = edu -> (M <= smax_iter st)%Z ->
  sigma qs = sg -> rho0 qs = r0 -> alpha qs = 1 -> adaptive_rho qs = false -> eps_abs qs = ea -> 0 <= eps_rel qs <= tol ->
  check_termination qs <> 0%Z -> (Z.abs (check_termination qs) * Z.of_nat K <= max_iter qs)%Z ->
  m_q w = Some ob -> box_reachable lsolve full n m ob ->
  mpc_exact U big lag_full lag st hreg lsolve full qs (s, w) = (s', w') ->
  m_status w' = SqpSolved /\ (m_iter w' <= M)%Z /\
  forall j, (j < n)%nat -> Rabs (Mpc_Model.m_x s' j - xs j) <= (d + sqrt (L * (et * sqp_eps) / (/ 2 - et))) / sqrt mu.
Proof.
  intros U big lag_full lag s grad jac G mu xs ls lsolve full sg r0 hreg o n P m HPo HS HLq HBx HBg HDv HL Hmu HM HH HK HLI Hex Hsg Hr0.
  destruct (nlp_qp U big lag_full lag s grad jac G HPo HS HLq HDv) as (c & c0 & A & b & HQ). fold P in HQ.
  split; [apply (kkt_optimal P grad jac G c c0 A b HQ (nlp_proper U big lag_full lag s HBx HBg) xs ls (curv_psd P G mu Hmu HM) HK)|].
  set (D := gdist n G (Mpc_Model.m_x s) xs + rnorm1 (m + n) (fun i => Mpc_Model.m_lam s i - ls i)).
  assert (D1 : 0 <= gdist n G (Mpc_Model.m_x s) xs) by apply sqrt_pos.
  assert (D2 : 0 <= rnorm1 (m + n) (fun i => Mpc_Model.m_lam s i - ls i)) by (rewrite rnorm1_def; apply rsum_nonneg; intros; apply Rabs_pos).
  destruct (C106_exact P grad jac G c c0 A b mu xs ls lsolve full sg r0 D hreg HQ Hmu HM HL HH HK HLI Hex Hsg Hr0) as (L & C & HL0 & HC & F).
  exists L, C. split; [exact HL0|]. split; [exact HC|]. intros ta et lsm epr edu H1 H2 H3 H4 d Hd.
  destruct (F ta et lsm epr edu H1 H2 H3 H4 d Hd) as (M & tol & Ht & F1). exists M, tol. split; [exact Ht|]. intros ea Hea.
  destruct (F1 ea Hea) as (K & F2). exists K. intros st qs ob w s' w' T1 T2 T3 T4 T5 T6 E1 E2 E3 E4 E5 E6 E7 E8 Eq Hr E.
  cbv [mpc_exact] in E. change (nlp_of U big lag_full lag s) with P in E. injection E as Es Er. set (w0 := start_from (option (box_obj R)) unit (Mpc_Model.m_x s) (Mpc_Model.m_lam s) w) in *.
  destruct (F2 st qs ob w0 T1 T2 T3 T4 T5 T6 E1 E2 E3 E4 E5 E6 E7 E8 Eq Hr) as (X1 & X2 & _ & X3).
  - change (gdist n G (Mpc_Model.m_x s) xs <= D). unfold D. lra.
  - intros i Hi. change (Rabs (Mpc_Model.m_lam s i - ls i) <= D).
    assert (Rabs (Mpc_Model.m_lam s i - ls i) <= rnorm1 (m + n) (fun i => Mpc_Model.m_lam s i - ls i)); [|unfold D; lra].
    rewrite rnorm1_def. apply (rsum_nonneg_term (m + n) (fun i => Rabs (Mpc_Model.m_lam s i - ls i)) i); [intros; apply Rabs_pos|exact Hi].
  - assert (Ex : Mpc_Model.m_x s' = Sqp_Model.m_x w') by (rewrite <- Es, <- Er; reflexivity). rewrite Ex, <- Er. clear Es Er Ex.
    split; [exact X1|]. split; [exact X2|]. intros j Hj. apply (coord_near P G mu Hmu HM xs _ _ X3 j Hj).
Qed.
Print Assumptions C106_mpc.

(** the problem of Sqp_Example, multipliers zero at the start, any starting point *)
Lemma ex_licq : licq Sqp_Example.exP (Sqp_Example.ex_jac (Sqp_Example.ex_x 1)) (Sqp_Example.ex_x 1).
Proof.
  intros v Hv Hs.
  assert (V1 : v 1%nat = 0). { apply Hv; [cbn; lia|]. intros [E|E]; [discriminate E|injection E; cbn; unfold scst; cbn; intro; lra]. }
  assert (V2 : v 2%nat = 0). { apply Hv; [cbn; lia|]. intros [E|E]; injection E; cbn; unfold scst; cbn; intro; lra. }
  specialize (Hs O ltac:(cbn; lia)). cbn [Sqp_Example.exP ne ni nx Nat.add] in Hs. rewrite !rsum_S, rsum_0 in Hs. unfold Sqp_Example.ex_jac in Hs. cbn in Hs.
  intros [|[|[|i]]] Hi; [lra|exact V1|exact V2|cbn in Hi; lia].
Qed.
Definition term_set (M : Z) : sqp_settings R := mkSqpSettings (1/2) 0 (1/2) (1/1000) (1/1000) M 10 false.
Example C106_native_example : forall v d, 0 < d -> exists st qs,
  let r := native_solve (gauss_solver false) false qs Sqp_Example.exP st (fun B _ _ => B) (fun H => H) (nat_start v) in
  m_status r = SqpSolved /\ Rabs (Sqp_Model.m_x r O - 1) <= d.
Proof.
  intros v d Hd.
  destruct (C106_native Sqp_Example.exP _ _ _ _ _ _ _ 2 (Sqp_Example.ex_x 1) (Sqp_Example.ex_l (-1)) (gauss_solver false) false 1 1
    (gdist 1 (fun _ _ => 2) (Sqp_Example.ex_x v) (Sqp_Example.ex_x 1) + 1) off_quadratic ltac:(lra) off_curv Sqp_Example.ex_lin Sqp_Example.ex_kkt ex_licq
    (gauss_solver_exact false) ltac:(lra) ltac:(lra)) as (L & C & HL & HC & F).
  assert (E0 : L * (0 * sqp_eps) / (/ 2 - 0) = 0) by field.
  destruct (F (1/2) 0 10%Z (1/1000) (1/1000) ltac:(lra) ltac:(lra) ltac:(lra) ltac:(rewrite E0, sqrt_0; lra) d Hd) as (M & tol & Ht & F1).
  destruct (F1 tol ltac:(lra)) as (K & F2). pose (qs := mkSettings 0 tol (Z.of_nat K) 1 1 1 1 false 0 0). exists (term_set M), qs. cbv zeta.
  destruct (F2 (term_set M) qs (fun B _ _ => B) (fun H => H) (box_new 1) (nat_start v)) as (X1 & _ & _ & X3); try reflexivity; try (split; cbn; lra);
    try (unfold qs; cbn [check_termination max_iter]; lia); try (cbn [term_set smax_iter]; lia).
  - apply reach_new.
  - cbn [nat_start Sqp_Model.m_x]. change (nx Sqp_Example.exP) with 1%nat. lra.
  - assert (0 <= gdist 1 (fun _ _ => 2) (Sqp_Example.ex_x v) (Sqp_Example.ex_x 1)) by apply sqrt_pos.
    intros [|[|[|i]]] Hi; cbn [nat_start Sqp_Model.m_lam Sqp_Example.ex_l]; [rewrite Rabs_right; lra|rewrite Rminus_0_r, Rabs_R0; lra|rewrite Rminus_0_r, Rabs_R0; lra|cbn in Hi; lia].
  - apply kept_hessian; [|auto]. intros x lam lagg H h bb AA E. cbn [Sqp_Example.exP p_lag_full] in E. injection E as _ <- _ _ _.
    intros i j _ _. exact (proj1 Sqp_Example.ex_c).
  - split; [exact X1|]. rewrite E0, sqrt_0, Rplus_0_r in X3. eapply Rle_trans; [|exact X3]. match goal with |- context [gdist _ _ ?y _] => set (y0 := y) end.
    unfold gdist, gdist2. rewrite qf_sum2. change (nx Sqp_Example.exP) with 1%nat. rewrite !rsum_S, !rsum_0. cbn [Sqp_Example.ex_x].
    rewrite <- (sqrt_Rsqr_abs (y0 O - 1)). apply sqrt_le_1_alt. unfold Rsqr. pose proof (Rle_0_sqr (y0 O - 1)) as Q. unfold Rsqr in Q. lra.
Qed.

(** the control problem of C102_example *)
Lemma lq_licq : licq lq_nlp lq_jac lq_xs.
Proof.
  intros v Hv Hs. change (nx lq_nlp) with 4%nat in *. change (ne lq_nlp + ni lq_nlp)%nat with 2%nat in *.
  assert (V : forall j, (j < 4)%nat -> j <> 1%nat -> v (2 + j)%nat = 0).
  { intros j Hj Hj1. apply Hv; [lia|]. unfold row_active. change (ne lq_nlp) with 2%nat. change (ni lq_nlp) with 0%nat.
    replace (2 + j - (2 + 0))%nat with j by lia. destruct (Nat.ltb_spec (2 + j) 2); [lia|]. destruct (Nat.ltb_spec (2 + j) (2 + 0)); [lia|].
    unfold hits, lq_nlp, nlp_of, lbx, ubx, lq_mpc, mpc_init, m_lbx, m_ubx, as_bound.
    destruct j as [|[|[|[|j]]]]; try lia; cbn; repeat match goal with |- context [Rle_dec ?a ?b] => destruct (Rle_dec a b) end; intros [E|E]; try discriminate E; injection E; intro; lra. }
  pose proof (V 0%nat ltac:(lia) ltac:(lia)) as V2. pose proof (V 2%nat ltac:(lia) ltac:(lia)) as V4. pose proof (V 3%nat ltac:(lia) ltac:(lia)) as V5.
  pose proof (Hs 0%nat ltac:(lia)) as S0. pose proof (Hs 1%nat ltac:(lia)) as S1. pose proof (Hs 2%nat ltac:(lia)) as S2. pose proof (Hs 3%nat ltac:(lia)) as S3.
  rewrite !rsum_S, rsum_0 in S0, S1, S2, S3. unfold lq_jac in S0, S1, S2, S3. cbn [Nat.add Nat.eqb] in *.
  intros i Hi. destruct i as [|[|[|[|[|[|i]]]]]]; try lia; lra.
Qed.
Example C106_mpc_example : forall d, 0 < d -> exists st qs,
  let r := mpc_exact lq_user 10 lq_lag_full lq_lag st (fun H => H) (gauss_solver false) false qs (lq_mpc, nat_mpc) in
  m_status (snd r) = SqpSolved /\ forall j, (j < 4)%nat -> Rabs (Mpc_Model.m_x (fst r) j - lq_xs j) <= d.
Proof.
  intros d Hd.
  destruct (C106_mpc lq_user 10 lq_lag_full lq_lag lq_mpc (fun x => x) (fun _ => lq_jac) lq_id 1 lq_xs lq_ls (gauss_solver false) false 1 1 (fun H => H)) as (_ & L & C & HL & HC & F); fold lq_nlp.
  - cbn. lia.
  - cbn. lia.
  - exact lq_lq.
  - intros i _. cbn. destruct (i =? 1)%nat; lra.
  - intros i Hi. cbn in Hi. lia.
  - exact lq_deriv.
  - exact lq_lin.
  - lra.
  - exact lo_curv.
  - intros x lam lagg H h bb AA E. injection E as _ <- _ _ _. intros i j _ _. reflexivity.
  - exact lq_kkt.
  - exact lq_licq.
  - apply gauss_solver_exact.
  - lra.
  - lra.
  - assert (E0 : L * (0 * sqp_eps) / (/ 2 - 0) = 0) by field.
    destruct (F (1/2) 0 10%Z (1/1000) (1/1000) ltac:(lra) ltac:(lra) ltac:(lra) ltac:(rewrite E0, sqrt_0; lra) d Hd) as (M & tol & Ht & F1).
    destruct (F1 tol ltac:(lra)) as (K & F2). pose (qs := mkSettings 0 tol (Z.of_nat K) 1 1 1 1 false 0 0). exists (term_set M), qs. cbv zeta.
    match goal with |- context [snd ?r] => destruct r as [s' w'] eqn:E end.
    destruct (F2 (term_set M) qs (box_new 1) nat_mpc s' w') as (X1 & _ & X3); try reflexivity; try (split; cbn; lra);
      try (unfold qs; cbn [check_termination max_iter]; lia); try (cbn [term_set smax_iter]; lia).
    + apply reach_new.
    + exact E.
    + cbn [fst snd]. split; [exact X1|]. intros j Hj. eapply Rle_trans; [apply X3; exact Hj|]. rewrite E0, sqrt_0, sqrt_1. right. field.
Qed.
