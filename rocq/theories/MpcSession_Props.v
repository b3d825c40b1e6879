(** C109: sessions with the MPC wrapper. *)
Require Import Arith ZArith List Bool Lia Reals Lra.
From Verif Require Import Scal Blk RSum RNorm Qp_Model Qp_Spec Qp_Proofs Admm_Model Admm_Spec Admm_SpecR Gauss BoxAdmm_Model Sqp_Model Sqp_Spec
  Sqp_Proofs Sqp_ProofsR SqpQp_Spec SqpQp_Proofs Ocp_Model Mpc_Model Msv_Model LqMpc_Spec LqMpc_Proofs LqMpc_Example
  QpDist_Spec QpDist_Proofs QpDist_Example QpDist_Example2 SqpNear_Spec SqpNear_Proofs SqpNative_Model SqpNative_Proofs SqpNear_Props
  SqpTerm_Spec SqpExact_Model SqpTerm_Model SqpTerm_Proofs SqpTerm_Props MpcSession_Model MpcSession_Proofs.
Import ListNotations.
Local Open Scope R_scope.

(** A linear-quadratic problem and finitely many measured states, each given in [F] with the optimum and the multipliers of its
    problem.  Fixed settings of the solvers exist with which every call of every session, of any length and in any order of the
    measured states, warm started by the call before, reports SOLVED after at most M iterations and stores a trajectory within
    d + sqrt (L eta eps / (1/2 - eta)) / sqrt mu of the optimum of its own problem.  eps is the machine precision; the second term
    is what the sufficient decrease of the line search leaves, and for the default eta = 1/4 it is sqrt (L eps) / sqrt mu. *)
Theorem C109_eta : forall U big lag_full lag s grad jac G mu lsolve full sg r0 hreg (F : list (vec R * (vec R * vec R))),
  let o := prob s in let n := VAR o in let m := (NUM_EQ o + NUM_INEQ o)%nat in
  let P := fun x0 => nlp_of U big lag_full lag (exec s (initial_conditions x0)) in
  (1 <= PO o)%nat -> (1 <= SG o)%nat -> linear_quadratic U o (m_par s) ->
  exact_derivatives (nlp_of U big lag_full lag s) grad jac G -> linearised_by (nlp_of U big lag_full lag s) grad jac ->
  0 < mu -> curvature n G mu ->
  (forall x lam lagg H h bb AA, lag_full x lam = (lagg, H, h, bb, AA) -> forall i j, (i < n)%nat -> (j < n)%nat -> hreg H i j = G i j) ->
  (forall x0 xs ls, In (x0, (xs, ls)) F -> nlp_kkt (P x0) (grad xs) (jac xs) xs ls /\ licq (P x0) (jac xs) xs) ->
  exact_solver full lsolve -> 0 < sg -> 0 < r0 ->
  forall ta lsm edu, 0 < ta <= 1 -> 0 < edu ->
  exists L C, 0 <= L /\ 0 <= C /\ forall et epr d, 0 <= et < / 2 -> 0 < d -> C * sqrt (L * (et * sqp_eps) / (/ 2 - et)) < Rmin 1 epr ->
  exists M tol, 0 < tol /\ forall ea, 0 < ea <= tol -> exists K : nat,
  forall st qs ob w,
  tau st = ta -> eta st = et -> ls_max_iter st = lsm -> eps_prim st = epr -> eps_dual st = edu -> (M <= smax_iter st)%Z ->
  sigma qs = sg -> rho0 qs = r0 -> alpha qs = 1 -> adaptive_rho qs = false -> eps_abs qs = ea -> 0 <= eps_rel qs <= tol ->
  check_termination qs <> 0%Z -> (Z.abs (check_termination qs) * Z.of_nat K <= max_iter qs)%Z ->
  m_q w = Some ob -> box_reachable lsolve full n m ob ->
  forall l, incl l F ->
  Forall2 (fun q r => m_status (snd r) = SqpSolved /\ (m_iter (snd r) <= M)%Z /\
                      forall j, (j < n)%nat -> Rabs (Mpc_Model.m_x (fst r) j - fst (snd q) j) <= d + sqrt (L * (et * sqp_eps) / (/ 2 - et)) / sqrt mu)
    l (mpc_session U big lag_full lag st hreg lsolve full qs (map fst l) (s, w)).
Proof.
  intros U big lag_full lag s grad jac G mu lsolve full sg r0 hreg F o n m P HPo HS HLq HDv HL Hmu HM HH HF Hex Hsg Hr0 ta lsm edu Hta Hedu.
  assert (Sm : 0 < sqrt mu) by (apply sqrt_lt_R0; exact Hmu).
  set (a := ta ^ Z.to_nat (lsm - 1)).
  assert (Ha : 0 < a <= 1).
  { unfold a. split; [apply pow_lt; lra|]. rewrite <- (pow1 (Z.to_nat (lsm - 1))). apply pow_incr. lra. }
  destruct (nlp_qp U big lag_full lag s grad jac G HPo HS HLq HDv) as (c1 & c2 & c3 & c4 & HQ0).
  assert (Htri : forall u v w : vec R, gdist n G u w <= gdist n G u v + gdist n G v w).
  { intros u v w. unfold gdist, gdist2. apply (g_tri (nlp_of U big lag_full lag s) grad jac G c1 c2 c3 c4 HQ0 mu Hmu HM). intros j _. ring. }
  assert (N1 : forall k (v : vec R), 0 <= rnorm1 k v) by (intros; rewrite rnorm1_def; apply rsum_nonneg; intros; apply Rabs_pos).
  assert (NT : forall (x y : vec R) i, (i < m + n)%nat -> Rabs (x i - y i) <= rnorm1 (m + n) (fun i => x i - y i)).
  { intros x y i Hi. rewrite rnorm1_def. apply (rsum_nonneg_term (m + n) (fun i => Rabs (x i - y i)) i); [intros; apply Rabs_pos|exact Hi]. }
  destruct (list_bound F (fun q => gdist n G (Mpc_Model.m_x s) (fst (snd q)))) as (B1 & HB1 & F1).
  destruct (list_bound F (fun q => rnorm1 (m + n) (fun i => Mpc_Model.m_lam s i - snd (snd q) i))) as (B2 & HB2 & F2).
  destruct (list_bound2 F (fun q q' => gdist n G (fst (snd q)) (fst (snd q')))) as (B3 & HB3 & F3).
  destruct (list_bound2 F (fun q q' => rnorm1 (m + n) (fun i => snd (snd q) i - snd (snd q') i))) as (B4 & HB4 & F4).
  assert (Hai : 0 < / a) by (apply Rinv_0_lt_compat; lra).
  set (D := B1 + B2 + (2 + B3) + (B4 + edu / 2) / a).
  assert (HDa : 0 <= (B4 + edu / 2) / a) by (apply Rmult_le_pos; lra).
  destruct (list_choose2 F (fun q L C => one_problem G lsolve full sg r0 hreg ta lsm edu D (P (fst q)) (fst (snd q)) (snd (snd q)) L C)) as (L & C & HL0 & HC0 & HA0).
  { intros q L L' C C'. apply one_problem_mono. }
  { intros [x0 [xs ls]] Hin. cbn [fst snd]. destruct (HF x0 xs ls Hin) as [HK HLI].
    destruct (nlp_qp U big lag_full lag (exec s (initial_conditions x0)) grad jac G HPo HS HLq HDv) as (c & c0 & A & b & HQ).
    exact (one_call grad jac G mu lsolve full sg r0 hreg ta lsm edu D (P x0) xs ls c c0 A b HQ Hmu HM HL HH HK HLI Hex Hsg Hr0 Hta Hedu). }
  exists L, (C + 1). split; [exact HL0|]. split; [lra|]. intros et epr d Het Hd Hbase. fold (rest L et) in *.
  assert (R0 : 0 <= rest L et) by apply sqrt_pos.
  assert (HCR : 0 <= C * rest L et) by (apply Rmult_le_pos; assumption).
  pose proof (Rmin_l 1 epr). pose proof (Rmin_r 1 epr).
  assert (Hr1 : rest L et <= 1) by lra. assert (Hrc : C * rest L et < epr) by lra.
  set (d0 := Rmin 1 (d * sqrt mu)).
  assert (Hd0 : 0 < d0) by (apply Rmin_glb_lt; [lra|apply Rmult_lt_0_compat; assumption]).
  assert (Hd1 : d0 <= 1) by apply Rmin_l. assert (Hd2 : d0 <= d * sqrt mu) by apply Rmin_r.
  destruct (list_choose F (fun q M t => forall ea, 0 < ea <= t -> exists K,
     answers G lsolve full sg r0 hreg ta lsm edu et epr D (d0 + rest L et) (P (fst q)) (fst (snd q)) (snd (snd q)) M t ea K)) as (M & tol & Ht & HA).
  { intros q M M' t t' H1 HMM Ht' Htt ea Hea. destruct (H1 ea ltac:(lra)) as (K & HK). exists K. eapply answers_mono; [exact HK|lra|exact HMM|exact Htt|lia]. }
  { intros q Hin. exact (HA0 q Hin et epr Het Hrc d0 Hd0). }
  exists M, tol. split; [exact Ht|]. intros ea Hea.
  destruct (list_choose_nat F (fun q K => answers G lsolve full sg r0 hreg ta lsm edu et epr D (d0 + rest L et) (P (fst q)) (fst (snd q)) (snd (snd q)) M tol ea K)) as (K & HK).
  { intros q K K' H1 HKK. eapply answers_mono; [exact H1|lra|lia|lra|exact HKK]. }
  { intros q Hin. exact (HA q Hin ea Hea). }
  exists K. intros st qs ob w T1 T2 T3 T4 T5 T6 E1 E2 E3 E4 E5 E6 E7 E8 Eq Hr l Hl.
  assert (Hset : settings_are sg r0 ta lsm edu et epr M tol ea K st qs) by (unfold settings_are; repeat (split; [assumption|]); assumption).
  pose proof (session_ok U big lag_full lag s G lsolve full sg r0 hreg ta lsm edu et epr Hta Htri F D) as SO.
  assert (HDx : forall q q', In q F -> In q' F -> 2 + gdist n G (fst (snd q)) (fst (snd q')) <= D).
  { intros q q' Hq Hq'. pose proof (F3 q q' Hq Hq') as X. cbv beta in X. unfold D. lra. }
  assert (HDl : forall q q', In q F -> In q' F -> forall i, (i < m + n)%nat -> Rabs (snd (snd q) i - snd (snd q') i) + edu / 2 <= a * D).
  { intros q q' Hq Hq' i Hi. pose proof (F4 q q' Hq Hq') as X. cbv beta in X. pose proof (NT (snd (snd q)) (snd (snd q')) i Hi).
    assert (E : a * D = a * (B1 + B2 + (2 + B3)) + (B4 + edu / 2)) by (unfold D; field; lra).
    assert (0 <= a * (B1 + B2 + (2 + B3))) by (apply Rmult_le_pos; lra). lra. }
  specialize (SO HDx HDl (d0 + rest L et) M tol ea K ltac:(lra) HK st qs Hset l (s, w)).
  assert (SO2 : Forall2 (good_call s G (d0 + rest L et) M) l (mpc_session U big lag_full lag st hreg lsolve full qs (map fst l) (s, w))).
  { apply SO; [|exact Hl]. split; [apply same_refl|]. split; [exists ob; auto|]. intros q Hq. cbn [fst snd]. split.
    - pose proof (F1 q Hq) as X. cbv beta in X. change (gdist n G (Mpc_Model.m_x s) (fst (snd q)) <= D). unfold D. lra.
    - intros i Hi. pose proof (F2 q Hq) as X. cbv beta in X. pose proof (NT (Mpc_Model.m_lam s) (snd (snd q)) i Hi). unfold D. lra. }
  clear - SO2 Hmu HM Sm Hd2. induction SO2 as [|q r l' l'' (X1 & X2 & X3 & X4) _ IH]; constructor; [|exact IH].
  split; [exact X1|]. split; [exact X2|]. intros j Hj.
  eapply Rle_trans; [apply (coord_near (nlp_of U big lag_full lag s) G mu Hmu HM _ _ _ X4 j Hj)|].
  apply (Rmult_le_reg_r (sqrt mu)); [exact Sm|]. unfold Rdiv. rewrite Rmult_assoc, Rinv_l by lra. rewrite Rmult_1_r, Rmult_plus_distr_r, Rmult_assoc, Rinv_l by lra. lra.
Qed.
Print Assumptions C109_eta.

(** Without sufficient decrease (eta = 0) the distance can be made as small as one likes. *)
Theorem C109_session : forall U big lag_full lag s grad jac G mu lsolve full sg r0 hreg (F : list (vec R * (vec R * vec R))),
  let o := prob s in let n := VAR o in let m := (NUM_EQ o + NUM_INEQ o)%nat in
  let P := fun x0 => nlp_of U big lag_full lag (exec s (initial_conditions x0)) in
  (1 <= PO o)%nat -> (1 <= SG o)%nat -> linear_quadratic U o (m_par s) ->
  exact_derivatives (nlp_of U big lag_full lag s) grad jac G -> linearised_by (nlp_of U big lag_full lag s) grad jac ->
  0 < mu -> curvature n G mu ->
  (forall x lam lagg H h bb AA, lag_full x lam = (lagg, H, h, bb, AA) -> forall i j, (i < n)%nat -> (j < n)%nat -> hreg H i j = G i j) ->
  (forall x0 xs ls, In (x0, (xs, ls)) F -> nlp_kkt (P x0) (grad xs) (jac xs) xs ls /\ licq (P x0) (jac xs) xs) ->
  exact_solver full lsolve -> 0 < sg -> 0 < r0 ->
  forall ta lsm epr edu d, 0 < ta <= 1 -> 0 < epr -> 0 < edu -> 0 < d ->
  exists M tol, 0 < tol /\ forall ea, 0 < ea <= tol -> exists K : nat,
  forall st qs ob w,
  tau st = ta -> eta st = 0 -> ls_max_iter st = lsm -> eps_prim st = epr -> eps_dual st = edu -> (M <= smax_iter st)%Z ->
  sigma qs = sg -> rho0 qs = r0 -> alpha qs = 1 -> adaptive_rho qs = false -> eps_abs qs = ea -> 0 <= eps_rel qs <= tol ->
  check_termination qs <> 0%Z -> (Z.abs (check_termination qs) * Z.of_nat K <= max_iter qs)%Z ->
  m_q w = Some ob -> box_reachable lsolve full n m ob ->
  forall l, incl l F ->
  Forall2 (fun q r => m_status (snd r) = SqpSolved /\ (m_iter (snd r) <= M)%Z /\
                      forall j, (j < n)%nat -> Rabs (Mpc_Model.m_x (fst r) j - fst (snd q) j) <= d)
    l (mpc_session U big lag_full lag st hreg lsolve full qs (map fst l) (s, w)).
Proof.
  intros U big lag_full lag s grad jac G mu lsolve full sg r0 hreg F o n m P HPo HS HLq HDv HL Hmu HM HH HF Hex Hsg Hr0 ta lsm epr edu d Hta Hepr Hedu Hd.
  destruct (C109_eta U big lag_full lag s grad jac G mu lsolve full sg r0 hreg F HPo HS HLq HDv HL Hmu HM HH HF Hex Hsg Hr0 ta lsm edu Hta Hedu) as (L & C & _ & _ & H).
  assert (E : sqrt (L * (0 * sqp_eps) / (/ 2 - 0)) = 0) by (replace (L * (0 * sqp_eps) / (/ 2 - 0)) with 0 by field; exact sqrt_0).
  specialize (H 0 epr d ltac:(lra) Hd). rewrite E in H. replace (d + 0 / sqrt mu) with d in H by (unfold Rdiv; ring).
  apply H. rewrite Rmult_0_r. apply Rmin_glb_lt; lra.
Qed.
Print Assumptions C109_session.

(** What the calls approximate: the optimum of the problem of its measured state is the only one, and better than any feasible
    point by half the squared distance. *)
Theorem C109_optimum : forall U big lag_full lag s grad jac G mu x0 xs ls,
  let o := prob s in let n := VAR o in let P := nlp_of U big lag_full lag (exec s (initial_conditions x0)) in
  (1 <= PO o)%nat -> (1 <= SG o)%nat -> linear_quadratic U o (m_par s) ->
  (forall i, (i < VAR o)%nat -> m_lbx s i < big /\ - big < m_ubx s i) -> (forall i, (i < NX o)%nat -> - big < x0 i < big) ->
  (forall i, (i < NUM_INEQ o)%nat -> m_lbg s i < big /\ - big < m_ubg s i) ->
  exact_derivatives (nlp_of U big lag_full lag s) grad jac G -> 0 < mu -> curvature n G mu -> nlp_kkt P (grad xs) (jac xs) xs ls ->
  nlp_feasible P xs /\ (forall y, nlp_feasible P y -> p_cost P xs + / 2 * gdist2 n G y xs <= p_cost P y) /\
  forall i, (i < NX o)%nat -> xs (VARX o - NX o + i)%nat = x0 i.
Proof.
  intros U big lag_full lag s grad jac G mu x0 xs ls o n P HPo HS HLq HBx HB0 HBg HDv Hmu HM HK.
  destruct (nlp_qp U big lag_full lag (exec s (initial_conditions x0)) grad jac G HPo HS HLq HDv) as (c & c0 & A & b & HQ).
  split; [exact (proj1 HK)|]. split.
  - apply (kkt_optimal P grad jac G c c0 A b HQ) with (lam := ls); [|exact (curv_psd P G mu Hmu HM)|exact HK].
    apply nlp_proper; [|exact HBg]. intros i Hi. specialize (HBx i Hi). cbn. unfold vset, in_seg.
    destruct (_ && _) eqn:E; [|exact HBx]. apply andb_true_iff in E. destruct E as [E1 E2]. apply Nat.leb_le in E1. apply Nat.ltb_lt in E2.
    destruct (HB0 (i - (VARX (prob s) - NX (prob s)))%nat) as [Y1 Y2]; [unfold o; clear - E1 E2; lia|]. split; [exact Y2|exact Y1].
  - intros i Hi. destruct HK as ((_ & _ & Fb) & _).
    assert (HN : (NX o <= VARX o)%nat) by (unfold VARX, NUM_NODES; nia).
    assert (HV : (VARX o <= VAR o)%nat) by (unfold VAR; lia).
    destruct (Fb (VARX o - NX o + i)%nat ltac:(change (nx P) with (VAR o); lia)) as [L1 L2].
    unfold P, nlp_of, lbx, ubx in L1, L2. cbn in L1, L2. fold o in L1, L2. unfold vset, in_seg in L1, L2.
    destruct (Nat.leb_spec (VARX o - NX o) (VARX o - NX o + i)) in L1, L2; [|lia].
    destruct (Nat.ltb_spec (VARX o - NX o + i) (VARX o - NX o + NX o)) in L1, L2; [|lia].
    cbn in L1, L2. replace (VARX o - NX o + i - (VARX o - NX o))%nat with i in * by lia.
    pose proof (HB0 i Hi). unfold as_bound in L1, L2. repeat destruct (Rle_dec _ _); cbn in *; lra.
Qed.
Print Assumptions C109_optimum.

(** The control problem of C102_example, whose measured states are the numbers of a list: any session with them. *)
Definition at_v (v : R) : vec R * (vec R * vec R) := (fun _ => v, (fun j => v * lq_xs j, fun i => v * lq_ls i)).
Definition v_nlp (v : R) : problem R := nlp_of lq_user 10 lq_lag_full lq_lag (exec lq_mpc (initial_conditions (fst (at_v v)))).
Lemma v_bounds : forall v, -10 < v < 10 ->
  lbx (v_nlp v) 1%nat = Fin v /\ ubx (v_nlp v) 1%nat = Fin v /\ (forall j, j <> 1%nat -> lbx (v_nlp v) j = MInf /\ ubx (v_nlp v) j = PInf).
Proof.
  intros v Hv. unfold v_nlp, nlp_of, lbx, ubx, as_bound. cbn [exec m_lbx m_ubx at_v fst].
  change (VARX (prob lq_mpc)) with 2%nat. change (NX (prob lq_mpc)) with 1%nat. unfold set_lbx, set_ubx. cbn [lq_mpc mpc_init m_lbx m_ubx]. unfold vset, in_seg. split; [|split].
  - cbn. repeat destruct (Rle_dec _ _); try reflexivity; exfalso; lra.
  - cbn. repeat destruct (Rle_dec _ _); try reflexivity; exfalso; lra.
  - intros j Hj. replace ((2 - 1 <=? j) && (j <? 2 - 1 + 1))%nat with false.
    + destruct (Nat.eqb_spec j 1); [contradiction|]. split; repeat destruct (Rle_dec _ _); try reflexivity; exfalso; lra.
    + symmetry. apply andb_false_iff. destruct (Nat.leb_spec (2 - 1) j); [right|left; reflexivity]. apply Nat.ltb_ge. lia.
Qed.
Lemma v_kkt : forall v, -10 < v < 10 -> nlp_kkt (v_nlp v) (fun j => v * lq_xs j) lq_jac (fun j => v * lq_xs j) (fun i => v * lq_ls i).
Proof.
  intros v Hv. destruct (v_bounds v Hv) as (B1 & B2 & B3). unfold nlp_kkt, nlp_feasible.
  change (nx (v_nlp v)) with 4%nat. change (ne (v_nlp v)) with 2%nat. change (ni (v_nlp v)) with 0%nat. change (p_eq (v_nlp v)) with (equalities lq_full).
  split; [split; [|split]|split; [|split]].
  - intros i Hi. rewrite lq_eqs by exact Hi. revert i Hi. apply two; unfold lq_xs; cbn; lra.
  - intros i Hi. lia.
  - intros j Hj. destruct (Nat.eq_dec j 1) as [->|N]; [rewrite B1, B2; unfold lq_xs; cbn; split; cbn; lra|].
    destruct (B3 j N) as [-> ->]. split; exact I.
  - cbn [Nat.add]. apply four; rewrite !rsum_S, rsum_0; unfold lq_xs, lq_jac, lq_ls; cbn; lra.
  - intros i Hi. lia.
  - cbn [Nat.add]. intros j Hj. destruct (Nat.eq_dec j 1) as [->|N].
    + rewrite B1, B2. unfold lq_xs, lq_ls. split; intros; cbn; f_equal; reflexivity || lra.
    + assert (E : lq_ls (2 + j)%nat = 0) by (do 4 (destruct j as [|j]; [reflexivity || contradiction|]); lia). cbn [Nat.add] in E. rewrite E. split; lra.
Qed.
Lemma v_licq : forall v, -10 < v < 10 -> licq (v_nlp v) lq_jac (fun j => v * lq_xs j).
Proof.
  intros w Hw v Hv Hs. destruct (v_bounds w Hw) as (_ & _ & B3). change (nx (v_nlp w)) with 4%nat in *. change (ne (v_nlp w) + ni (v_nlp w))%nat with 2%nat in *.
  assert (V : forall j, (j < 4)%nat -> j <> 1%nat -> v (2 + j)%nat = 0).
  { intros j Hj Hj1. apply Hv; [lia|]. unfold row_active. change (ne (v_nlp w)) with 2%nat. change (ni (v_nlp w)) with 0%nat.
    replace (2 + j - (2 + 0))%nat with j by lia. destruct (Nat.ltb_spec (2 + j) 2); [lia|]. destruct (Nat.ltb_spec (2 + j) (2 + 0)); [lia|].
    unfold hits. destruct (B3 j Hj1) as [-> ->]. intros [E|E]; discriminate E. }
  pose proof (V 0%nat ltac:(lia) ltac:(lia)) as V2. pose proof (V 2%nat ltac:(lia) ltac:(lia)) as V4. pose proof (V 3%nat ltac:(lia) ltac:(lia)) as V5.
  pose proof (Hs 0%nat ltac:(lia)) as S0. pose proof (Hs 1%nat ltac:(lia)) as S1. pose proof (Hs 2%nat ltac:(lia)) as S2. pose proof (Hs 3%nat ltac:(lia)) as S3.
  rewrite !rsum_S, rsum_0 in S0, S1, S2, S3. unfold lq_jac in S0, S1, S2, S3. cbn [Nat.add Nat.eqb] in *.
  intros i Hi. destruct i as [|[|[|[|[|[|i]]]]]]; try lia; lra.
Qed.
Example C109_example : forall d vs, 0 < d -> (forall v, In v vs -> -10 < v < 10) -> exists st qs, forall l, incl l vs ->
  Forall2 (fun v r => m_status (snd r) = SqpSolved /\ forall j, (j < 4)%nat -> Rabs (Mpc_Model.m_x (fst r) j - v * lq_xs j) <= d)
    l (mpc_session lq_user 10 lq_lag_full lq_lag st (fun H => H) (gauss_solver false) false qs (map (fun v _ => v) l) (lq_mpc, nat_mpc)).
Proof.
  intros d vs Hd Hvs.
  destruct (C109_session lq_user 10 lq_lag_full lq_lag lq_mpc (fun x => x) (fun _ => lq_jac) lq_id 1 (gauss_solver false) false 1 1 (fun H => H) (map at_v vs)
    ltac:(cbn; lia) ltac:(cbn; lia) lq_lq lq_deriv lq_lin ltac:(lra) lo_curv) with (ta := 1/2) (lsm := 10%Z) (epr := 1/1000) (edu := 1/1000) (d := d) as (M & tol & Ht & F1); try lra.
  - intros x lam lagg H h bb AA E. injection E as _ <- _ _ _. intros i j _ _. reflexivity.
  - intros x0 xs ls Hin. apply in_map_iff in Hin. destruct Hin as (v & E & Hv). injection E as <- <- <-. specialize (Hvs v Hv). split.
    + exact (v_kkt v Hvs).
    + exact (v_licq v Hvs).
  - apply gauss_solver_exact.
  - destruct (F1 tol ltac:(lra)) as (K & F2). pose (qs := mkSettings 0 tol (Z.of_nat K) 1 1 1 1 false 0 0). exists (term_set M), qs. intros l Hl.
    assert (X : incl (map at_v l) (map at_v vs)).
    { intros q Hq. apply in_map_iff in Hq. destruct Hq as (v & <- & Hv). apply in_map. exact (Hl v Hv). }
    specialize (F2 (term_set M) qs (box_new 1) nat_mpc eq_refl eq_refl eq_refl eq_refl eq_refl).
    specialize (F2 ltac:(cbn [term_set smax_iter]; lia) eq_refl eq_refl eq_refl eq_refl eq_refl ltac:(split; cbn; lra) ltac:(cbn; lia) ltac:(unfold qs; cbn [check_termination max_iter]; lia) eq_refl (reach_new _ _ _ _ _) _ X).
    rewrite map_map in F2.
    refine ((_ : forall rs, Forall2 _ (map at_v l) rs -> Forall2 _ l rs) _ F2).
    clear. induction l as [|v l IH]; intros rs F2; inversion F2; subst; constructor.
    + destruct H1 as (X1 & _ & X3). split; [exact X1|exact X3].
    + apply IH. assumption.
Qed.

(** The same sessions with a positive eta. *)
Lemma small_eta : forall L C b, 0 <= L -> 0 <= C -> 0 < b -> exists et, 0 < et < / 2 /\
  C * sqrt (L * (et * sqp_eps) / (/ 2 - et)) < b /\ sqrt (L * (et * sqp_eps) / (/ 2 - et)) <= b.
Proof.
  intros L C b HL HC Hb. pose proof eps_pos as He. set (e := sqp_eps) in *. set (t := b / (C + 1)).
  assert (Ht : 0 < t) by (apply Rdiv_lt_0_compat; lra).
  assert (Et : (C + 1) * t = b) by (unfold t; field; lra).
  assert (Hk : 0 < 4 * (L * e) + 1) by (pose proof (Rmult_le_pos L e HL ltac:(lra)); lra).
  set (q := t * t / (4 * (L * e) + 1)).
  assert (Hq : 0 < q) by (apply Rdiv_lt_0_compat; [apply Rmult_lt_0_compat; lra|exact Hk]).
  exists (Rmin (/ 4) q). pose proof (Rmin_l (/ 4) q) as M1. pose proof (Rmin_r (/ 4) q) as M2.
  assert (M0 : 0 < Rmin (/ 4) q) by (apply Rmin_glb_lt; lra). set (et := Rmin (/ 4) q) in *.
  assert (Hs : sqrt (L * (et * e) / (/ 2 - et)) <= t).
  { rewrite <- (sqrt_square t) by lra. apply sqrt_le_1_alt. apply (Rmult_le_reg_r (/ 2 - et)); [lra|].
    unfold Rdiv. rewrite Rmult_assoc, Rinv_l by lra. rewrite Rmult_1_r.
    assert (Q : q * (4 * (L * e) + 1) = t * t) by (unfold q; field; lra).
    assert (LE : 0 <= L * e) by (apply Rmult_le_pos; lra).
    assert (L * e * et <= L * e * q) by (apply Rmult_le_compat_l; assumption).
    assert (0 <= t * t) by (apply Rmult_le_pos; lra).
    assert (t * t * (/ 4) <= t * t * (/ 2 - et)) by (apply Rmult_le_compat_l; lra). nra. }
  split; [lra|]. assert (0 <= sqrt (L * (et * e) / (/ 2 - et))) by apply sqrt_pos.
  assert (0 <= C * t) by (apply Rmult_le_pos; lra).
  assert (C * sqrt (L * (et * e) / (/ 2 - et)) <= C * t) by (apply Rmult_le_compat_l; assumption).
  split; lra.
Qed.
Example C109_eta_example : forall d vs, 0 < d -> (forall v, In v vs -> -10 < v < 10) -> exists st qs, 0 < eta st /\ forall l, incl l vs ->
  Forall2 (fun v r => m_status (snd r) = SqpSolved /\ forall j, (j < 4)%nat -> Rabs (Mpc_Model.m_x (fst r) j - v * lq_xs j) <= d)
    l (mpc_session lq_user 10 lq_lag_full lq_lag st (fun H => H) (gauss_solver false) false qs (map (fun v _ => v) l) (lq_mpc, nat_mpc)).
Proof.
  intros d vs Hd Hvs.
  destruct (C109_eta lq_user 10 lq_lag_full lq_lag lq_mpc (fun x => x) (fun _ => lq_jac) lq_id 1 (gauss_solver false) false 1 1 (fun H => H) (map at_v vs)
    ltac:(cbn; lia) ltac:(cbn; lia) lq_lq lq_deriv lq_lin ltac:(lra) lo_curv) with (ta := 1/2) (lsm := 10%Z) (edu := 1/1000) as (L & C & HL & HC & F0); try lra.
  - intros x lam lagg H h bb AA E. injection E as _ <- _ _ _. intros i j _ _. reflexivity.
  - intros x0 xs ls Hin. apply in_map_iff in Hin. destruct Hin as (v & E & Hv). injection E as <- <- <-. specialize (Hvs v Hv). split.
    + exact (v_kkt v Hvs).
    + exact (v_licq v Hvs).
  - apply gauss_solver_exact.
  - destruct (small_eta L C (Rmin (1/1000) (d/2)) HL HC ltac:(apply Rmin_glb_lt; lra)) as (et & He & B1 & B2).
    pose proof (Rmin_l (1/1000) (d/2)). pose proof (Rmin_r (1/1000) (d/2)).
    destruct (F0 et (1/1000) (d/2) ltac:(lra) ltac:(lra)) as (M & tol & Ht & F1). { rewrite Rmin_right by lra. lra. }
    destruct (F1 tol ltac:(lra)) as (K & F2). pose (qs := mkSettings 0 tol (Z.of_nat K) 1 1 1 1 false 0 0).
    pose (st := mkSqpSettings (1/2) et (1/2) (1/1000) (1/1000) M 10 false). exists st, qs. split; [exact (proj1 He)|]. intros l Hl.
    assert (X : incl (map at_v l) (map at_v vs)).
    { intros q Hq. apply in_map_iff in Hq. destruct Hq as (v & <- & Hv). apply in_map. exact (Hl v Hv). }
    specialize (F2 st qs (box_new 1) nat_mpc eq_refl eq_refl eq_refl eq_refl eq_refl).
    specialize (F2 ltac:(cbn [st smax_iter]; lia) eq_refl eq_refl eq_refl eq_refl eq_refl ltac:(split; cbn; lra) ltac:(cbn; lia) ltac:(unfold qs; cbn [check_termination max_iter]; lia) eq_refl (reach_new _ _ _ _ _) _ X).
    rewrite map_map in F2.
    refine ((_ : forall rs, Forall2 _ (map at_v l) rs -> Forall2 _ l rs) _ F2).
    rewrite sqrt_1. clear - B2 H H0. induction l as [|v l IH]; intros rs F2; inversion F2; subst; constructor.
    + match goal with X : _ /\ _ /\ _ |- _ => destruct X as (X1 & _ & X3) end. split; [exact X1|]. intros j Hj. specialize (X3 j Hj). cbn [at_v fst snd] in X3. eapply Rle_trans; [exact X3|]. lra.
    + apply IH. assumption.
Qed.
