(** Convergence of the SQP solver on quadratic programs whose subproblems are not solved exactly, and of the SQP solver with
    its own QP solver (property C105). *)
Require Import Arith ZArith List Bool Lia Reals Lra.
From Verif Require Import Scal RSum RNorm Qp_Model Qp_Spec Qp_Proofs Admm_Model Admm_Spec Admm_SpecR Gauss BoxAdmm_Model Sqp_Model Sqp_Spec
  Sqp_Proofs Sqp_ProofsR SqpQp_Spec SqpQp_Proofs Ocp_Model Mpc_Model Msv_Model LqMpc_Spec LqMpc_Proofs LqMpc_Example
  QpDist_Spec QpDist_Proofs QpDist_Example QpDist_Example2 SqpNear_Spec SqpNear_Proofs BoxUnif_Proofs SqpNative_Model SqpNative_Proofs.
Import ListNotations.
Local Open Scope R_scope.

(** Any QP solver.  If every subproblem has the exact Hessian, is answered within the tolerances ep and ed, and its multipliers
    are within Y of those of the optimum, then every iterate but the starting point is near the optimum: the bound does not
    depend on the starting point. *)
Theorem C105_inexact : forall (P : problem R) st Q W hupd hreg pcc pcs pcu qps qpm s grad jac G c c0 A b ep ed xs ls mu Y,
  let r := sqp_solve P st Q W hupd hreg pcc pcs pcu qps qpm s in
  let n := nx P in let nd := (ne P + ni P + nx P)%nat in
  quadratic_nlp P grad jac G c c0 A b -> 0 < mu -> curvature n G mu -> linearised_by P grad jac -> restores P W pcc pcu ->
  0 <= tau st <= 1 -> 0 <= eta st < / 2 -> nlp_kkt P (grad xs) (jac xs) xs ls -> 0 <= ep -> 0 <= ed ->
  Forall (hessian_is n G) (steps r) -> Forall (inexact_step ep ed) (steps r) ->
  Forall (fun e => rnorm1 nd (fun i => snd (snd e) i - ls i) <= Y) (steps r) ->
  exists l, seen r = (Sqp_Model.m_x r, Sqp_Model.m_lam r) :: l ++ [(Sqp_Model.m_x s, Sqp_Model.m_lam s)] /\
    Forall (fun e => gdist n G (fst e) xs <= short_step n nd mu (eta st) ep ed (Y + rnorm1 nd ls) + target_error n mu ep ed Y)
      ((Sqp_Model.m_x r, Sqp_Model.m_lam r) :: l).
Proof.
  intros P st Q W hupd hreg pcc pcs pcu qps qpm s grad jac G c c0 A b ep ed xs ls mu Y r n nd HQ Hmu HM HL HR Ht He HK Hep Hed HG HI HY.
  apply (near_run P grad jac G c c0 A b HQ mu Hmu HM xs ls HK st Q W hupd hreg pcc pcs pcu qps qpm); auto.
  rewrite Forall_forall in *. intros e Hin. split; [|split]; [apply HG|apply HI|apply HY]; exact Hin.
Qed.
Print Assumptions C105_inexact.

(** The SQP solver with boxADMM, step size fixed and no relaxation.  For every set of starting points at bounded distance D
    there are tolerances and an iteration budget of the QP solver with which every subproblem is reported solved and every
    iterate after the starting point is within d of the optimum, up to what the machine precision in the line search allows. *)
Theorem C105_native : forall (P : problem R) grad jac G c c0 A b mu xs ls st lsolve full sg r0 D,
  let n := nx P in let m := (ne P + ni P)%nat in
  quadratic_nlp P grad jac G c c0 A b -> 0 < mu -> curvature n G mu -> linearised_by P grad jac ->
  nlp_kkt P (grad xs) (jac xs) xs ls -> 0 <= tau st <= 1 -> 0 <= eta st < / 2 -> exact_solver full lsolve -> 0 < sg -> 0 < r0 ->
  exists L, 0 <= L /\ forall d, 0 < d -> exists tol, 0 < tol /\ forall ea, 0 < ea <= tol -> exists K : nat,
  forall qs hupd hreg ob s,
  sigma qs = sg -> rho0 qs = r0 -> alpha qs = 1 -> adaptive_rho qs = false -> eps_abs qs = ea -> 0 <= eps_rel qs <= tol ->
  check_termination qs <> 0%Z -> (Z.abs (check_termination qs) * Z.of_nat K <= max_iter qs)%Z ->
  m_q s = Some ob -> box_reachable lsolve full n m ob -> gdist n G (Sqp_Model.m_x s) xs <= D ->
  let r := native_solve lsolve full qs P st hupd hreg s in
  Forall (hessian_is n G) (steps r) ->
  (exists o, m_q r = Some o /\ box_reachable lsolve full n m o /\ b_status o = SOLVED) /\
  exists l, seen r = (Sqp_Model.m_x r, Sqp_Model.m_lam r) :: l ++ [(Sqp_Model.m_x s, Sqp_Model.m_lam s)] /\
    Forall (fun e => gdist n G (fst e) xs <= d + sqrt (L * (eta st * sqp_eps) / (/ 2 - eta st)))
      ((Sqp_Model.m_x r, Sqp_Model.m_lam r) :: l).
Proof.
  intros P grad jac G c c0 A b mu xs ls st lsolve full sg r0 D n m HQ Hmu HM HL HK Ht He Hex Hsg Hr0.
  set (nd := (ne P + ni P + nx P)%nat). set (Rb := D * D + 1). set (B := sqrt (Rb / mu)).
  assert (N1 : forall k (v : vec R), 0 <= rnorm1 k v) by (intros; rewrite rnorm1_def; apply rsum_nonneg; intros; apply Rabs_pos).
  assert (HB : 0 <= B) by apply sqrt_pos. assert (Hcs : 0 <= col_sum P A) by (unfold col_sum; apply rsum_nonneg; intros; apply rsum_nonneg; intros; apply Rabs_pos).
  assert (HMa : forall k l M, 0 <= mass k l M) by (intros; apply mass_nonneg).
  destruct (uniform n m B (rnorm1 nd ls) (mass m n A) (col_sum P A) (mass n n G) (rnorm1 n (grad xs) + mass n n G * B) sg r0) as (Y & S & HY & HS & HU); auto.
  { apply Rplus_le_le_0_compat; [apply N1|apply Rmult_le_pos; auto]. }
  pose proof (N1 nd ls) as N2. exists (Y + rnorm1 nd ls). split; [lra|]. intros d Hd.
  destruct (small_tolerance n nd mu (eta st) (Y + rnorm1 nd ls) Y d Hmu He ltac:(lra) HY Hd) as (e0 & He0 & HE).
  exists (e0 / (1 + S)). split; [apply Rdiv_lt_0_compat; lra|]. intros ea [Hea1 Hea2]. destruct (HU ea Hea1) as (K & HK2). exists K.
  intros qs hupd hreg ob s E1 E2 E3 E4 E5 [E6 E7] E8 E9 Eq Hr HD r HG.
  set (e := ea + eps_rel qs * S).
  assert (HES : 0 <= eps_rel qs * S) by (apply Rmult_le_pos; assumption).
  assert (Hee : 0 <= e <= e0).
  { split; [unfold e; lra|]. unfold e. assert (eps_rel qs * S <= e0 / (1 + S) * S) by (apply Rmult_le_compat_r; assumption).
    replace e0 with (e0 / (1 + S) + e0 / (1 + S) * S) by (field; lra). lra. }
  destruct (HE e Hee) as (R1 & R2 & _).
  assert (HD2 : gdist2 n G (Sqp_Model.m_x s) xs <= Rb).
  { unfold gdist in HD. assert (Hp : 0 <= gdist2 n G (Sqp_Model.m_x s) xs) by (apply (curv_psd P G mu Hmu HM)).
    pose proof (sqrt_sqrt _ Hp) as Q. pose proof (sqrt_pos (gdist2 n G (Sqp_Model.m_x s) xs)) as Q2. unfold Rb. nra. }
  assert (HT : e * (INR n * e / mu + sqrt (INR n * e * Y / mu)) + e * Y <= Rb) by (unfold Rb; pose proof (Rle_0_sqr D) as Q; unfold Rsqr in Q; lra).
  destruct (native_run P grad jac G c c0 A b HQ mu Hmu HM xs ls HK st hupd hreg lsolve full qs HL Ht Rb e Y ltac:(lra) HT) with (s := s) (ob := ob) as (X & l & X1 & X2); auto.
  - intros H x o HH Hx Ho. pose proof (subproblems P grad jac G c c0 A b HQ mu Hmu HM xs ls HK Rb H x HH Hx) as F. cbv zeta in F. fold B n m nd in F.
    exact (HK2 lsolve full qs _ _ _ o Hex E1 E2 E3 E4 E5 E6 E8 E9 F Ho).
  - split; [exact X|]. exists l. split; [exact X1|]. eapply Forall_impl; [|exact X2]. cbv beta. intros w Hw. eapply Rle_trans; [exact Hw|exact R1].
Qed.
Print Assumptions C105_native.

(** One call of MPC::solve for a linear-quadratic problem, SQP and boxADMM as above: the stored trajectory is near the one of
    least cost, in every coordinate. *)
Theorem C105_mpc : forall U big lag_full lag st s grad jac G mu xs ls lsolve full sg r0,
  let o := prob s in let n := VAR o in let P := nlp_of U big lag_full lag s in let m := (ne P + ni P)%nat in
  (1 <= PO o)%nat -> (1 <= SG o)%nat -> linear_quadratic U o (m_par s) ->
  (forall i, (i < VAR o)%nat -> m_lbx s i < big /\ - big < m_ubx s i) ->
  (forall i, (i < NUM_INEQ o)%nat -> m_lbg s i < big /\ - big < m_ubg s i) ->
  exact_derivatives P grad jac G -> linearised_by P grad jac -> 0 < mu -> curvature n G mu ->
  nlp_kkt P (grad xs) (jac xs) xs ls -> 0 <= tau st <= 1 -> 0 <= eta st < / 2 -> exact_solver full lsolve -> 0 < sg -> 0 < r0 ->
  (forall y, nlp_feasible P y -> p_cost P xs + / 2 * gdist2 n G y xs <= p_cost P y) /\
  exists L, 0 <= L /\ forall d, 0 < d -> exists tol, 0 < tol /\ forall ea, 0 < ea <= tol -> exists K : nat,
  forall qs hupd hreg ob w s' w',
  sigma qs = sg -> rho0 qs = r0 -> alpha qs = 1 -> adaptive_rho qs = false -> eps_abs qs = ea -> 0 <= eps_rel qs <= tol ->
  check_termination qs <> 0%Z -> (Z.abs (check_termination qs) * Z.of_nat K <= max_iter qs)%Z ->
  m_q w = Some ob -> box_reachable lsolve full n m ob ->
  mpc_solve U big lag_full lag st (option (box_obj R)) unit hupd hreg (fun w d => (w, d)) (fun _ v => v) (fun _ d => d)
    (native_qp lsolve full qs) (fun q => q) (s, w) = (s', w') ->
  Forall (hessian_is n G) (steps w') ->
  (exists o', m_q w' = Some o' /\ box_reachable lsolve full n m o' /\ b_status o' = SOLVED) /\
  forall j, (j < n)%nat -> Rabs (Mpc_Model.m_x s' j - xs j) <= (d + sqrt (L * (eta st * sqp_eps) / (/ 2 - eta st))) / sqrt mu.
Proof.
  intros U big lag_full lag st s grad jac G mu xs ls lsolve full sg r0 o n P m HPo HS HLq HBx HBg HD HL Hmu HM HK Ht He Hex Hsg Hr0.
  destruct (nlp_qp U big lag_full lag s grad jac G HPo HS HLq HD) as (c & c0 & A & b & HQ). fold P in HQ.
  split; [apply (kkt_optimal P grad jac G c c0 A b HQ (nlp_proper U big lag_full lag s HBx HBg) xs ls (curv_psd P G mu Hmu HM) HK)|].
  destruct (C105_native P grad jac G c c0 A b mu xs ls st lsolve full sg r0 (gdist n G (Mpc_Model.m_x s) xs) HQ Hmu HM HL HK Ht He Hex Hsg Hr0) as (L & HL0 & F).
  exists L. split; [exact HL0|]. intros d Hd. destruct (F d Hd) as (tol & Htol & F1). exists tol. split; [exact Htol|]. intros ea Hea. destruct (F1 ea Hea) as (K & F2). exists K.
  intros qs hupd hreg ob w s' w' E1 E2 E3 E4 E5 E6 E7 E8 Eq Hr E HG.
  cbv [mpc_solve] in E. change (nlp_of U big lag_full lag s) with P in E. injection E as Es Er. rewrite <- Er in HG. set (w0 := start_from (option (box_obj R)) unit (Mpc_Model.m_x s) (Mpc_Model.m_lam s) w) in *.
  destruct (F2 qs hupd hreg ob w0 E1 E2 E3 E4 E5 E6 E7 E8 Eq Hr (Rle_refl _) HG) as (X & l & _ & X2).
  assert (Ex : Mpc_Model.m_x s' = Sqp_Model.m_x w') by (rewrite <- Es, <- Er; reflexivity). rewrite Ex, <- Er. clear Es Er Ex.
  split; [exact X|]. intros j Hj. inversion X2 as [|? ? X3 _]. cbn [fst] in X3. change (nx P) with n in X3. unfold native_solve in X3.
  match type of X3 with gdist _ _ ?y _ <= ?bd => set (y0 := y) in *; set (bd0 := bd) in * end. change (Rabs (y0 j - xs j) <= bd0 / sqrt mu).
  assert (Sm : 0 < sqrt mu) by (apply sqrt_lt_R0; exact Hmu).
  apply (Rmult_le_reg_l (sqrt mu)); [exact Sm|]. replace (sqrt mu * (bd0 / sqrt mu)) with bd0 by (field; lra). eapply Rle_trans; [|exact X3].
  rewrite <- (sqrt_Rsqr_abs (y0 j - xs j)), <- sqrt_mult by (try lra; apply Rle_0_sqr). unfold gdist. apply sqrt_le_1_alt. unfold gdist2. eapply Rle_trans; [|apply HM].
  apply Rmult_le_compat_l; [lra|]. rewrite rdot_def. apply (rsum_nonneg_term n (fun j => (y0 j - xs j) * (y0 j - xs j)) j); [intros; apply Rle_0_sqr|exact Hj].
Qed.
Print Assumptions C105_mpc.

(** the QP solver of C104_sqp_example, always off by 1/10: with eta = 0 the result is within 2 of the optimum from any starting point *)
Example C105_inexact_example : forall st v l, 0 <= tau st <= 1 -> eta st = 0 ->
  exists k, seen (off_solve st v l) = (Sqp_Model.m_x (off_solve st v l), Sqp_Model.m_lam (off_solve st v l)) :: k ++ [(Sqp_Example.ex_x v, l)] /\
    Rabs (Sqp_Model.m_x (off_solve st v l) O - 1) <= 2.
Proof.
  intros st v l Ht He. pose proof (off_all st v l) as F. unfold off_good in F.
  assert (F1 : Forall (inexact_step (/ 10) (/ 5)) (steps (off_solve st v l))) by (eapply Forall_impl; [|exact F]; intros e H; apply H).
  assert (F2 : Forall (hessian_is 1 (fun _ _ => 2)) (steps (off_solve st v l))) by (eapply Forall_impl; [|exact F]; intros e H; apply H).
  assert (F3 : Forall (fun e => rnorm1 3 (fun i => snd (snd e) i - Sqp_Example.ex_l (-1) i) <= 0) (steps (off_solve st v l))) by (eapply Forall_impl; [|exact F]; intros e H; apply H).
  destruct (C105_inexact Sqp_Example.exP st unit unit (fun B _ _ => B) (fun H => H) Sqp_Example.ex_pc (fun _ r => r) (fun _ d => d) off_qp (fun q => q)
    (Sqp_Example.ex_start v l) _ _ _ _ _ _ _ (/ 10) (/ 5) (Sqp_Example.ex_x 1) (Sqp_Example.ex_l (-1)) 2 0 off_quadratic ltac:(lra) off_curv Sqp_Example.ex_lin) as (k & X1 & X2); auto.
  - intros w d w' d1 _ _ Ew j Hj. injection Ew as _ <-. reflexivity.
  - rewrite He. lra.
  - exact Sqp_Example.ex_kkt.
  - lra.
  - lra.
  - exists k. split; [exact X1|]. inversion X2 as [|? ? X3 _]. cbn [fst] in X3. fold (off_solve st v l) in X3. unfold gdist, gdist2 in X3.
    set (y := Sqp_Model.m_x (off_solve st v l)) in *. rewrite qf_sum2 in X3. change (nx Sqp_Example.exP) with 1%nat in X3. rewrite !rsum_S, !rsum_0 in X3.
    change (ne Sqp_Example.exP + ni Sqp_Example.exP + 1)%nat with 3%nat in X3. cbn [Sqp_Example.ex_x] in X3. unfold short_step, target_error in X3. rewrite He in X3.
    replace (INR 1 * / 10 * 0 / 2) with 0 in X3 by field. rewrite sqrt_0 in X3.
    assert (El : rnorm1 3 (Sqp_Example.ex_l (-1)) = 1) by (rewrite rnorm1_def, !rsum_S, rsum_0; cbn; rewrite !Rabs_R0, Rabs_left; lra). rewrite El in X3. clear El X1 X2 F F1 F2 F3.
    replace (INR 1 / 2) with (/ 2) in X3 by (cbn; field). replace (INR 3) with 3 in X3 by (cbn; ring).
    assert (B1 : sqrt (/ 2) <= 3 / 4) by (rewrite <- (sqrt_square (3 / 4)) by lra; apply sqrt_le_1_alt; lra).
    assert (B2 : sqrt ((0 + 1) * (/ 10 * (1 + 2 * 3) + 0 * sqp_eps) / (/ 2 - 0)) <= 6 / 5) by (rewrite <- (sqrt_square (6 / 5)) by lra; apply sqrt_le_1_alt; lra).
    assert (B3 : sqrt (/ 5 * (INR 1 * / 5 / 2 + 0) + / 10 * 0) <= 3 / 20) by (rewrite <- (sqrt_square (3 / 20)) by lra; apply sqrt_le_1_alt; cbn; lra).
    assert (B4 : Rabs (y O - 1) <= sqrt (0 + (0 + 2 * (y O - 1) * (y O - 1)))) .
    { rewrite <- (sqrt_Rsqr_abs (y O - 1)). apply sqrt_le_1_alt. unfold Rsqr. pose proof (Rle_0_sqr (y O - 1)) as Q. unfold Rsqr in Q. lra. }
    match type of X3 with sqrt ?a <= _ => match type of B4 with _ <= sqrt ?b => replace a with b in X3 by ring end end. lra.
Qed.

(** the problem of Sqp_Example with its Hessian kept, Gaussian elimination, eta = 0: from any starting point the answer of the
    SQP solver with boxADMM comes as close to the optimum as wanted *)
Definition nat_set : sqp_settings R := mkSqpSettings (1/2) 0 (1/2) (1/1000) (1/1000) 10 10 false.
Definition nat_start (v : R) : @sqp_state R (option (box_obj R)) unit :=
  mkSqp (Sqp_Example.ex_x v) (fun _ => 0) (fun _ => 0) (fun _ _ => 0) (fun _ => 0) 0 0 (Fin 0) 0 SqpMaxIter 0 0 (Some (box_new 1)) tt [] [] [].
Example C105_native_example : forall v d, 0 < d -> exists qs,
  let r := native_solve (gauss_solver false) false qs Sqp_Example.exP nat_set (fun B _ _ => B) (fun H => H) (nat_start v) in
  (exists o, m_q r = Some o /\ b_status o = SOLVED) /\ Rabs (Sqp_Model.m_x r O - 1) <= d.
Proof.
  intros v d Hd.
  destruct (C105_native Sqp_Example.exP _ _ _ _ _ _ _ 2 (Sqp_Example.ex_x 1) (Sqp_Example.ex_l (-1)) nat_set (gauss_solver false) false 1 1
    (gdist 1 (fun _ _ => 2) (Sqp_Example.ex_x v) (Sqp_Example.ex_x 1)) off_quadratic ltac:(lra) off_curv Sqp_Example.ex_lin Sqp_Example.ex_kkt
    ltac:(cbn; lra) ltac:(cbn; lra) (gauss_solver_exact false) ltac:(lra) ltac:(lra)) as (L & HL & F).
  destruct (F d Hd) as (tol & Ht & F1). destruct (F1 tol ltac:(lra)) as (K & F2).
  pose (qs := mkSettings 0 tol (Z.of_nat K) 1 1 1 1 false 0 0).
  exists qs. 
  destruct (F2 qs (fun B _ _ => B) (fun H => H) (box_new 1) (nat_start v)) as (X & l & _ & X2); try reflexivity; try (cbn; lia); try (split; cbn; lra); try (unfold qs; cbn [check_termination max_iter]; lia).
  - apply reach_new.
  - apply Rle_refl.
  - apply kept_hessian; [|auto]. intros x lam lagg H h bb AA E. cbn [Sqp_Example.exP p_lag_full] in E. injection E as _ <- _ _ _.
    intros i j _ _. exact (proj1 Sqp_Example.ex_c).
  - cbv zeta. destruct X as (o & X0 & _ & X1). split; [exists o; split; assumption|].
    inversion X2 as [|? ? X3 _]. cbn [fst] in X3. match type of X3 with gdist _ _ ?y _ <= _ => set (y0 := y) in * end. 
    replace (L * (eta nat_set * sqp_eps) / (/ 2 - eta nat_set)) with 0 in X3 by (cbn; field). rewrite sqrt_0, Rplus_0_r in X3. eapply Rle_trans; [|exact X3].
    unfold gdist, gdist2. rewrite qf_sum2. change (nx Sqp_Example.exP) with 1%nat. rewrite !rsum_S, !rsum_0. cbn [Sqp_Example.ex_x].
    rewrite <- (sqrt_Rsqr_abs (y0 O - 1)). apply sqrt_le_1_alt. unfold Rsqr. pose proof (Rle_0_sqr (y0 O - 1)) as Q. unfold Rsqr in Q. lra.
Qed.

(** the control problem of C102_example, solved by SQP and boxADMM: any accuracy can be reached *)
Definition nat_mpc : @sqp_state R (option (box_obj R)) unit :=
  mkSqp (fun _ => 0) (fun _ => 0) (fun _ => 0) (fun _ _ => 0) (fun _ => 0) 0 0 (Fin 0) 0 SqpMaxIter 0 0 (Some (box_new 1)) tt [] [] [].
Example C105_mpc_example : forall d, 0 < d -> exists qs,
  let r := mpc_solve lq_user 10 lq_lag_full lq_lag nat_set (option (box_obj R)) unit (fun H _ _ => H) (fun H => H)
    (fun w d => (w, d)) (fun _ v => v) (fun _ d => d) (native_qp (gauss_solver false) false qs) (fun q => q) (lq_mpc, nat_mpc) in
  forall j, (j < 4)%nat -> Rabs (Mpc_Model.m_x (fst r) j - lq_xs j) <= d.
Proof.
  intros d Hd.
  destruct (C105_mpc lq_user 10 lq_lag_full lq_lag nat_set lq_mpc (fun x => x) (fun _ => lq_jac) lq_id 1 lq_xs lq_ls (gauss_solver false) false 1 1) as (_ & L & HL & F); fold lq_nlp.
  - cbn. lia.
  - cbn. lia.
  - exact lq_lq.
  - intros i _. cbn. destruct (i =? 1)%nat; lra.
  - intros i Hi. cbn in Hi. lia.
  - exact lq_deriv.
  - exact lq_lin.
  - lra.
  - exact lo_curv.
  - exact lq_kkt.
  - cbn. lra.
  - cbn. lra.
  - apply gauss_solver_exact.
  - lra.
  - lra.
  - destruct (F d Hd) as (tol & Ht & F1). destruct (F1 tol ltac:(lra)) as (K & F2).
    pose (qs := mkSettings 0 tol (Z.of_nat K) 1 1 1 1 false 0 0). exists qs. cbv zeta.
    match goal with |- context [fst ?r] => destruct r as [s' w'] eqn:E end.
    destruct (F2 qs (fun H _ _ => H) (fun H => H) (box_new 1) nat_mpc s' w') as (_ & X); try reflexivity; try (cbn; lia); try (split; cbn; lra); try (unfold qs; cbn [check_termination max_iter]; lia).
    + apply reach_new.
    + exact E.
    + cbv [mpc_solve] in E. injection E as _ <-. fold lq_nlp. apply (kept_hessian lq_nlp lq_id); [|auto].
      intros x lam lagg H h bb AA E. change (p_lag_full lq_nlp) with lq_lag_full in E. injection E as _ <- _ _ _. intros i j _ _. reflexivity.
    + cbn [fst]. intros j Hj. eapply Rle_trans; [apply X; exact Hj|].
      replace (L * (eta nat_set * sqp_eps) / (/ 2 - eta nat_set)) with 0 by (cbn; field). rewrite sqrt_0, sqrt_1. right. field.
Qed.
