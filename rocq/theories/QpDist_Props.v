(** How far the answers are from the optimum (property C104). *)
Require Import Arith ZArith List Bool Lia Reals Lra.
From Verif Require Import Scal RSum RNorm Qp_Model Qp_Spec Qp_Proofs Admm_Model Admm_Spec Admm_SpecR Admm_ProofsR Admm_Conv Admm_Props
  BoxAdmm_Model BoxAdmm_ProofsR BoxAdmm_Props Gauss Sqp_Model Sqp_Spec Sqp_Proofs Sqp_ProofsR SqpQp_Spec SqpQp_Proofs
  Ocp_Model Mpc_Model Msv_Model LqMpc_Spec LqMpc_Proofs LqMpc_Example QpDist_Spec QpDist_Proofs SqpDist_Proofs QpDist_Example QpDist_Example2.
From Verif Require Import Qp_Example.
Import ListNotations.
Local Open Scope R_scope.

(** ADMM: any linear solver, step size adaptation and relaxation *)
Theorem C104_admm : forall lsolve full s p xg yg o o' xs ys,
  0 < rho0 s -> 0 <= eps_abs s -> 0 <= eps_rel s -> symmetric (qn p) (qH p) -> psd (qn p) (qH p) -> kkt_pair p xs ys ->
  admm_solve lsolve full s p xg yg o = Some o' -> a_status o' = SOLVED ->
  let x := a_x o' in let y := a_y o' in let z := a_z o' in
  close_to_optimum p x y xs ys (eps_abs s + eps_rel s * admm_prim_scale p x z) (eps_abs s + eps_rel s * qp_dual_scale p x y).
Proof.
  intros lsolve full s p xg yg o o' xs ys Hr Ha He Hs Hp HK E St x y z.
  pose proof (C01_admm_solved_certificate lsolve full s p xg yg o o' (kkt_consistent p xs ys HK) Hr E St) as HC. cbv zeta in HC. fold x y z in HC.
  pose proof (prim_scale_nonneg p x z). pose proof (dual_scale_nonneg p x y).
  eapply close_cert; [exact Hs|exact Hp| | |exact HC|exact HK]; apply Rplus_le_le_0_compat; auto; apply Rmult_le_pos; auto.
Qed.
Print Assumptions C104_admm.

Theorem C104_box : forall lsolve full s p xg yg o o' xs ys,
  0 < rho0 s -> 0 <= eps_abs s -> 0 <= eps_rel s -> symmetric (qn p) (qH p) -> psd (qn p) (qH p) -> kkt_pair p xs ys ->
  box_solve lsolve full s p xg yg o = Some o' -> b_status o' = SOLVED ->
  let x := b_x o' in let y := b_y o' in let z := b_z o' in
  close_to_optimum p x y xs ys (eps_abs s + eps_rel s * box_prim_scale p x z) (eps_abs s + eps_rel s * qp_dual_scale p x y).
Proof.
  intros lsolve full s p xg yg o o' xs ys Hr Ha He Hs Hp HK E St x y z.
  destruct (C03_box_solved_certificate lsolve full s p xg yg o o' (kkt_consistent p xs ys HK) Hr E St) as (ea & ex & E1 & E2 & E3 & HC). fold x y z in E3, HC.
  pose proof (dual_scale_nonneg p x y) as Hd. set (ep := eps_abs s + eps_rel s * box_prim_scale p x z) in *. set (ed := eps_abs s + eps_rel s * qp_dual_scale p x y) in *.
  apply (close_cert p x y z (b_q o')); [exact Hs|exact Hp|lra|unfold ed; apply Rplus_le_le_0_compat; auto; apply Rmult_le_pos; auto| |exact HK].
  destruct HC as (Ca & Cx & Cd). split; [|split; [|exact Cd]].
  - intros i Hi. destruct (Ca i Hi) as (A1 & A2 & A3). split; [exact A1|]. split; [lra|exact A3].
  - intros j Hj. destruct (Cx j Hj) as (A1 & A2 & A3). split; [exact A1|]. split; [lra|exact A3].
Qed.
Print Assumptions C104_box.

(** The SQP solver on a convex quadratic program, exact Hessians.  If the last subproblem was answered within the tolerances,
    the returned point is on the segment between the previous iterate x0 and a point t close to the optimum (xs, ls); it is
    t if the full step was taken (tau^k = 1). *)
Theorem C104_sqp_result : forall (P : problem R) st Q W hupd hreg pcc pcs pcu qps qpm s grad jac G c c0 A b ep ed xs ls,
  let r := sqp_solve P st Q W hupd hreg pcc pcs pcu qps qpm s in
  let n := nx P in let nd := (ne P + ni P + nx P)%nat in
  quadratic_nlp P grad jac G c c0 A b -> psd n G -> linearised_by P grad jac -> 0 <= tau st <= 1 ->
  nlp_kkt P (grad xs) (jac xs) xs ls ->
  exists x0 lam0 sn d p lk rs k, seen r = (Sqp_Model.m_x r, Sqp_Model.m_lam r) :: (x0, lam0) :: sn /\ steps r = (d, (p, lk)) :: rs /\
    (forall j, (j < n)%nat -> Sqp_Model.m_x r j = x0 j + tau st ^ k * p j) /\
    (hessian_is n G (d, (p, lk)) -> inexact_step ep ed (d, (p, lk)) -> let t := fun j => x0 j + p j in
     gdist2 n G t xs <= slackness n nd ep ed t lk xs ls /\
     gdist2 n G (Sqp_Model.m_x r) xs <= (1 - tau st ^ k) * gdist2 n G x0 xs + tau st ^ k * gdist2 n G t xs).
Proof. intros P st Q W hupd hreg pcc pcs pcu qps qpm s grad jac G c c0 A b ep ed xs ls r n nd HQ HP HL Ht HK. eapply run_last; eassumption. Qed.
Print Assumptions C104_sqp_result.

(** All the iterates, if the curvature is at least mu: none is further from the optimum than the starting point or the
    distance that the tolerances allow. *)
Theorem C104_sqp_iterates : forall (P : problem R) st Q W hupd hreg pcc pcs pcu qps qpm s grad jac G c c0 A b ep ed xs ls mu Y,
  let r := sqp_solve P st Q W hupd hreg pcc pcs pcu qps qpm s in
  let n := nx P in let nd := (ne P + ni P + nx P)%nat in
  quadratic_nlp P grad jac G c c0 A b -> 0 < mu -> curvature n G mu -> linearised_by P grad jac -> 0 <= tau st <= 1 ->
  nlp_kkt P (grad xs) (jac xs) xs ls -> 0 <= ep -> 0 <= ed ->
  Forall (hessian_is n G) (steps r) -> Forall (inexact_step ep ed) (steps r) ->
  Forall (fun e => rnorm1 nd (fun i => snd (snd e) i - ls i) <= Y) (steps r) ->
  Forall (fun e => gdist2 n G (fst e) xs <=
    Rmax (gdist2 n G (Sqp_Model.m_x s) xs) (ed * (INR n * ed / mu + sqrt (INR n * ep * Y / mu)) + ep * Y)) (seen r).
Proof.
  intros P st Q W hupd hreg pcc pcs pcu qps qpm s grad jac G c c0 A b ep ed xs ls mu Y r n nd HQ Hmu HM HL Ht HK Hep Hed HG HI HY.
  assert (HP : psd n G) by (intro v; eapply Rle_trans; [|apply (HM v)]; apply Rmult_le_pos; [lra|rewrite rdot_def; apply rsum_nonneg; intros; apply Rle_0_sqr]).
  eapply (run_all P grad jac G c c0 A b HQ HP xs ls HK st Q W hupd hreg pcc pcs pcu qps qpm HL Ht ep ed); [apply Rmax_l| |exact HI|exact HG].
  intros d p lk x Hin. destruct (Rle_or_lt (gdist2 n G x xs) (slackness n nd ep ed x lk xs ls)) as [L|L]; [left|right; exact L].
  rewrite Forall_forall in HY. specialize (HY _ Hin). cbn [snd] in HY. fold n nd in HY |- *.
  assert (P0 : 0 <= rnorm1 nd (fun i => lk i - ls i)) by (rewrite rnorm1_def; apply rsum_nonneg; intros; apply Rabs_pos).
  assert (E : ep * rnorm1 nd (fun i => lk i - ls i) <= ep * Y) by (apply Rmult_le_compat_l; assumption).
  assert (B : rnorm1 n (fun j => x j - xs j) <= INR n * ed / mu + sqrt (INR n * ep * Y / mu)).
  { apply (strong_bound n G mu ep ed _ Y HM Hmu Hed Hep); [lra|]. unfold slackness in L. unfold gdist2 in L. lra. }
  eapply Rle_trans; [|apply Rmax_r]. unfold slackness. apply Rplus_le_compat; [apply Rmult_le_compat_l; assumption|exact E].
Qed.
Print Assumptions C104_sqp_iterates.

(** One call of MPC::solve for a linear-quadratic problem, exact Hessians, subproblems answered within the tolerances: the
    stored trajectory, compared with the trajectory xs of least cost *)
Theorem C104_mpc : forall U big lag_full lag st Q W hupd hreg pcc pcs pcu qps qpm s (w : sqp_state Q W) s' w' grad jac G ep ed mu Y xs ls,
  mpc_solve U big lag_full lag st Q W hupd hreg pcc pcs pcu qps qpm (s, w) = (s', w') ->
  let o := prob s in let n := VAR o in let P := nlp_of U big lag_full lag s in let nd := (ne P + ni P + nx P)%nat in
  (1 <= PO o)%nat -> (1 <= SG o)%nat -> linear_quadratic U o (m_par s) ->
  (forall i, (i < VAR o)%nat -> m_lbx s i < big /\ - big < m_ubx s i) ->
  (forall i, (i < NUM_INEQ o)%nat -> m_lbg s i < big /\ - big < m_ubg s i) ->
  exact_derivatives P grad jac G -> linearised_by P grad jac -> 0 < mu -> curvature n G mu -> 0 <= tau st <= 1 -> 0 <= ep -> 0 <= ed ->
  Forall (hessian_is n G) (steps w') -> Forall (inexact_step ep ed) (steps w') ->
  Forall (fun e => rnorm1 nd (fun i => snd (snd e) i - ls i) <= Y) (steps w') ->
  nlp_kkt P (grad xs) (jac xs) xs ls ->
  (forall y, nlp_feasible P y -> p_cost P xs + / 2 * gdist2 n G y xs <= p_cost P y) /\
  let D := ed * (INR n * ed / mu + sqrt (INR n * ep * Y / mu)) + ep * Y in
  mu * rdot n (fun j => Mpc_Model.m_x s' j - xs j) (fun j => Mpc_Model.m_x s' j - xs j) <= Rmax (gdist2 n G (Mpc_Model.m_x s) xs) D /\
  exists x0 p k, (forall j, (j < n)%nat -> Mpc_Model.m_x s' j = x0 j + tau st ^ k * p j) /\
    (tau st ^ k = 1 -> mu * rdot n (fun j => Mpc_Model.m_x s' j - xs j) (fun j => Mpc_Model.m_x s' j - xs j) <= D).
Proof.
  intros U big lag_full lag st Q W hupd hreg pcc pcs pcu qps qpm s w s' w' grad jac G ep ed mu Y xs ls E o n P nd HPo HS HLq HBx HBg HD HL Hmu HM Ht Hep Hed HG HI HY HK.
  destruct (nlp_qp U big lag_full lag s grad jac G HPo HS HLq HD) as (c & c0 & A & b & HQ). fold P in HQ.
  assert (HP : psd n G) by (intro v; eapply Rle_trans; [|apply (HM v)]; apply Rmult_le_pos; [lra|rewrite rdot_def; apply rsum_nonneg; intros; apply Rle_0_sqr]).
  split; [apply (kkt_optimal P grad jac G c c0 A b HQ (nlp_proper U big lag_full lag s HBx HBg) xs ls HP HK)|]. cbv zeta.
  cbv [mpc_solve] in E. change (nlp_of U big lag_full lag s) with P in E. injection E as Es Er. rewrite <- Er in HG, HI, HY. set (s0 := start_from Q W (Mpc_Model.m_x s) (Mpc_Model.m_lam s) w) in *.
  assert (Ex : Mpc_Model.m_x s' = Sqp_Model.m_x w') by (rewrite <- Es, <- Er; reflexivity). rewrite Ex, <- Er. clear Es Er Ex.
  pose proof (C104_sqp_iterates P st Q W hupd hreg pcc pcs pcu qps qpm s0 grad jac G c c0 A b ep ed xs ls mu Y HQ Hmu HM HL Ht HK Hep Hed HG HI HY) as F.
  destruct (C104_sqp_result P st Q W hupd hreg pcc pcs pcu qps qpm s0 grad jac G c c0 A b ep ed xs ls HQ HP HL Ht HK) as (x0 & lam0 & sn & d & p & lk & rs & k & A1 & A2 & A3 & A4).
  fold P. set (r := sqp_solve P st Q W hupd hreg pcc pcs pcu qps qpm s0) in *. cbv zeta in F. rewrite A1 in F. inversion F as [|? ? F1 _]. cbn [fst] in F1.
  change (nx P) with n in *. split; [eapply Rle_trans; [apply HM|exact F1]|].
  exists x0, p, k. split; [exact A3|]. intro Ek. rewrite A2 in HG, HI, HY. inversion HG as [|? ? G1 _]. inversion HI as [|? ? I1 _]. inversion HY as [|? ? Y1 _]. cbn [snd] in Y1.
  destruct (A4 G1 I1) as [T1 T2]. cbv zeta in T1, T2. rewrite Ek in T2. set (t := fun j => x0 j + p j) in *.
  assert (P0 : 0 <= rnorm1 nd (fun i => lk i - ls i)) by (rewrite rnorm1_def; apply rsum_nonneg; intros; apply Rabs_pos).
  assert (E' : ep * rnorm1 nd (fun i => lk i - ls i) <= ep * Y) by (apply Rmult_le_compat_l; assumption).
  assert (B : rnorm1 n (fun j => t j - xs j) <= INR n * ed / mu + sqrt (INR n * ep * Y / mu)).
  { apply (strong_bound n G mu ep ed _ Y HM Hmu Hed Hep); [lra|]. unfold slackness in T1. unfold gdist2 in T1. fold nd in T1. lra. }
  eapply Rle_trans; [apply HM|]. unfold gdist2 in T2 at 1. eapply Rle_trans; [exact T2|]. replace (1 - 1) with 0 by ring. rewrite Rmult_0_l, Rplus_0_l, Rmult_1_l.
  eapply Rle_trans; [exact T1|]. unfold slackness. fold nd. apply Rplus_le_compat; [apply Rmult_le_compat_l; assumption|exact E'].
Qed.
Print Assumptions C104_mpc.

(** ADMM: curvature 1, optimum (1/2, 1/2) *)
Example C104_qp_example : exists o',
  admm_solve (gauss_solver false) false (ex_settings 100 (16/10) 25 true) ex_qp ex_x ex_y (admm_new 1) = Some o' /\
  a_status o' = SOLVED /\ symmetric 2 (qH (ex_qp : qp_data R)) /\ curvature 2 (qH ex_qp) 1 /\ kkt_pair ex_qp ex_x ex_y.
Proof.
  destruct C01_example as (o' & E & Es & _). exists o'. split; [exact E|]. split; [exact Es|]. split; [exact ex_sym|]. split; [|exact ex_kkt].
  intro v. unfold qf, rmv, rdot, rsum. cbn -[Rmult Rplus]. rsimp. lra.
Qed.

(** SQP: the QP solver is off by 1/10 in every iteration.  With tolerances 1/10 and 1/5 and curvature 2 the bound is
    1/50 = 2 (1/10)^2, the distance of the answer: the theorem cannot be improved here. *)
Example C104_sqp_example :
  nlp_kkt Sqp_Example.exP (Sqp_Example.ex_grad (Sqp_Example.ex_x 1)) (Sqp_Example.ex_jac (Sqp_Example.ex_x 1)) (Sqp_Example.ex_x 1) (Sqp_Example.ex_l (-1)) /\
  forall st v l, 0 <= tau st <= 1 ->
  Forall (inexact_step (/ 10) (/ 5)) (steps (off_solve st v l)) /\ Forall (hessian_is 1 (fun _ _ => 2)) (steps (off_solve st v l)) /\
  Forall (fun e => 2 * ((fst e O - 1) * (fst e O - 1)) <= Rmax (2 * ((v - 1) * (v - 1))) (/ 50)) (seen (off_solve st v l)).
Proof.
  split; [exact Sqp_Example.ex_kkt|]. intros st v l Ht. pose proof (off_all st v l) as F. unfold off_good in F.
  assert (F1 : Forall (inexact_step (/ 10) (/ 5)) (steps (off_solve st v l))) by (eapply Forall_impl; [|exact F]; intros e H; apply H).
  assert (F2 : Forall (hessian_is 1 (fun _ _ => 2)) (steps (off_solve st v l))) by (eapply Forall_impl; [|exact F]; intros e H; apply H).
  assert (F3 : Forall (fun e => rnorm1 3 (fun i => snd (snd e) i - Sqp_Example.ex_l (-1) i) <= 0) (steps (off_solve st v l))) by (eapply Forall_impl; [|exact F]; intros e H; apply H).
  split; [exact F1|]. split; [exact F2|].
  pose proof (C104_sqp_iterates Sqp_Example.exP st unit unit (fun B _ _ => B) (fun H => H) Sqp_Example.ex_pc (fun _ r => r) (fun _ d => d) off_qp (fun q => q)
    (Sqp_Example.ex_start v l) _ _ _ _ _ _ _ (/ 10) (/ 5) (Sqp_Example.ex_x 1) (Sqp_Example.ex_l (-1)) 2 0 off_quadratic ltac:(lra) off_curv Sqp_Example.ex_lin Ht Sqp_Example.ex_kkt
    ltac:(lra) ltac:(lra) F2 F1 F3) as X.
  eapply Forall_impl; [|exact X]. cbv beta. intros [e0 e1] H. revert H. cbn [fst]. unfold gdist2. rewrite !qf_sum2. change (nx Sqp_Example.exP) with 1%nat. rewrite !rsum_S, !rsum_0.
  cbn [Sqp_Model.m_x Sqp_Example.ex_start Sqp_Example.ex_x]. replace (INR 1 * / 10 * 0 / 2) with 0 by field. rewrite sqrt_0. cbn [INR].
  intro H. eapply Rle_trans; [|eapply Rle_trans; [exact H|]]; [right; ring|]. apply Rmax_lub; [|eapply Rle_trans; [|apply Rmax_r]; right; field].
  eapply Rle_trans; [|apply Rmax_l]. right; ring.
Qed.

(** MPC: x' = u on [0, 1] as in C102_example, the last control of every QP answer off by 1/10: the stored trajectory is
    within the bound of the optimum 1, 2/3 with control -1/3 *)
Example C104_mpc_example :
  nlp_kkt lq_nlp lq_xs lq_jac lq_xs lq_ls /\ curvature 4 lq_id 1 /\
  Forall (inexact_step (/ 10) (/ 10)) (steps (snd lo_run)) /\ Forall (hessian_is 4 lq_id) (steps (snd lo_run)) /\
  forall j, (j < 4)%nat -> Rabs (Mpc_Model.m_x (fst lo_run) j - lq_xs j) <= 13 / 10.
Proof.
  pose proof lo_steps as F. unfold lo_good in F.
  assert (F1 : Forall (inexact_step (/ 10) (/ 10)) (steps (snd lo_run))) by (eapply Forall_impl; [|exact F]; intros e H; apply H).
  assert (F2 : Forall (hessian_is 4 lq_id) (steps (snd lo_run))) by (eapply Forall_impl; [|exact F]; intros e H; apply H).
  assert (F3 : Forall (fun e => rnorm1 6 (fun i => snd (snd e) i - lq_ls i) <= 0) (steps (snd lo_run))) by (eapply Forall_impl; [|exact F]; intros e H; apply H).
  split; [exact lq_kkt|]. split; [exact lo_curv|]. split; [exact F1|]. split; [exact F2|].
  destruct lo_run as [s' w'] eqn:E. unfold lo_run in E. cbn [fst snd] in *.
  destruct (C104_mpc lq_user 10 lq_lag_full lq_lag lq_set unit unit (fun H _ _ => H) (fun H => H) (fun w d => (w, d)) (fun _ v => v) (fun _ d => d) lo_qp (fun q => q)
     lq_mpc lq_sqp s' w' (fun x => x) (fun _ => lq_jac) lq_id (/ 10) (/ 10) 1 0 lq_xs lq_ls E) as (_ & X & _); fold lq_nlp.
  - cbn. lia.
  - cbn. lia.
  - exact lq_lq.
  - intros i _. cbn. destruct (i =? 1)%nat; lra.
  - intros i Hi. cbn in Hi. lia.
  - exact lq_deriv.
  - exact lq_lin.
  - lra.
  - exact lo_curv.
  - cbn. lra.
  - lra.
  - lra.
  - exact F2.
  - exact F1.
  - exact F3.
  - exact lq_kkt.
  - change (VAR (prob lq_mpc)) with 4%nat in X. intros j Hj.
    assert (B : rdot 4 (fun j => Mpc_Model.m_x s' j - lq_xs j) (fun j => Mpc_Model.m_x s' j - lq_xs j) <= 15 / 9).
    { rewrite Rmult_1_l in X. eapply Rle_trans; [exact X|]. unfold gdist2. rewrite lq_id_qf. apply Rmax_lub.
      - unfold lq_xs. cbn. lra.
      - replace (INR 4 * / 10 * 0 / 1) with 0 by field. rewrite sqrt_0. cbn. lra. }
    assert (C : (Mpc_Model.m_x s' j - lq_xs j) * (Mpc_Model.m_x s' j - lq_xs j) <= 15 / 9).
    { eapply Rle_trans; [|exact B]. rewrite rdot_def. apply (rsum_nonneg_term 4 (fun j => (Mpc_Model.m_x s' j - lq_xs j) * (Mpc_Model.m_x s' j - lq_xs j)) j); [|exact Hj].
      intros; apply Rle_0_sqr. }
    apply Rabs_le. nra.
Qed.
