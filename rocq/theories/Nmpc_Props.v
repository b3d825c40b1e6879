(** Property theorems for the CasADi tracking controller (C82, C83). *)
Require Import Arith List Bool Lia Reals Lra.
From Verif Require Import Scal RSum PolyR Poly_Spec Blk Cheb_Proofs Ocp_Proofs Cas_Model Cas_Spec Cas_Proofs Cas_Props Pso_Model Pso_Spec Pso_Proofs
  Nmpc_Model Nmpc_Spec Nmpc_Proofs.
Import ListNotations.
Local Open Scope R_scope.

Lemma map_nth_seq : forall n i (v : nat -> R), (i < n)%nat -> nth i (map v (seq 0 n)) 0 = v i.
Proof.
  intros n i v Hi. rewrite (nth_indep _ 0 (v 0%nat)) by (rewrite map_length, seq_length; auto). rewrite map_nth, seq_nth by auto. reflexivity.
Qed.

(** * C82: the problem that computeControl solves *)

(** after any sequence of setter and computeControl calls, the feasible points of the NLP are the feasible
    trajectories of the control problem from X0 with the bounds set last, in scaled coordinates *)
Theorem C82_problem : forall ipopt s t lbx ubx lbu ubu X0 x pv, regular s -> run ipopt s t lbx ubx lbu ubu -> length X0 = m_nx s ->
  feasible (nmpc_nlp s) (t_arg (fst (computeControl ipopt s t X0))) pv x <->
  ocp_feasible s X0 lbx ubx lbu ubu
    (fun k i => / ini_sx s i * x (k * m_nx s + i)%nat)
    (fun k i => / ini_su s i * x ((m_P s * m_S s + 1) * m_nx s + k * m_nu s + i)%nat).
Proof.
  intros ipopt s t lbx ubx lbu ubu X0 x pv Hreg Hr HX. rewrite (proj1 (compute_arg ipopt s t X0)).
  apply (feasible_ocp s Hreg); auto. apply (run_inv ipopt s t); auto.
Qed.
Print Assumptions C82_problem.

(** a feasible answer of the solver: the stored trajectory and control are feasible for the control problem,
    and getPathError is the tracking error of X0 *)
Theorem C82_result : forall ipopt s t lbx ubx lbu ubu X0 t', regular s -> run ipopt s t lbx ubx lbu ubu -> length X0 = m_nx s ->
  (forall l a lx lg x lx' lg' pv, ipopt l a lx lg = Some (x, lx', lg') -> feasible l a pv x) ->
  computeControl ipopt s t X0 = (t', true) ->
  exists W V, t_traj t' = Some W /\ t_ctrl t' = Some V /\ ocp_feasible s X0 lbx ubx lbu ubu W V /\
    getPathError s t' = sqrt (rsum (m_ny s) (fun i => (error s X0 i) ^ 2)).
Proof.
  intros ipopt s t lbx ubx lbu ubu X0 t' Hreg Hr HX Hip E.
  pose proof (C82_problem ipopt s t lbx ubx lbu ubu X0) as Hp. rewrite E in Hp. cbn [fst] in Hp.
  destruct (run_inv ipopt s t _ _ _ _ Hr) as (E1 & E2 & _).
  unfold computeControl in E. destruct (ipopt (nmpc_nlp s) _ _ _) as [[[x lx] lg]|] eqn:Ei; [|discriminate]. inversion E as [Et]. clear E.
  assert (F := Hip _ _ _ _ _ _ _ (fun _ => 0) Ei). subst t'. cbn [t_arg] in Hp. apply Hp in F; auto. clear Hp Hip Ei.
  cbn [t_traj t_ctrl t_sx t_su prepare]. rewrite E1, E2. eexists. eexists. split; [reflexivity|]. split; [reflexivity|]. split; [exact F|].
  unfold getPathError. cbn [t_traj t_sx]. f_equal. apply rsum_ext. intros i Hi. f_equal.
  destruct F as (F0 & _). unfold nodes in F0. cbv beta in F0.
  assert (L : map (fun i => dinv (ini_sx s) i * x (m_P s * m_S s * m_nx s + i)%nat) (seq 0 (m_nx s)) = X0).
  { apply nth_ext with 0 0; [rewrite map_length, seq_length; auto|]. intros j Hj. rewrite map_length, seq_length in Hj.
    rewrite (map_nth_seq _ _ (fun i => dinv (ini_sx s) i * x (m_P s * m_S s * m_nx s + i)%nat)) by auto. exact (F0 j Hj). }
  rewrite L. unfold residual, error. f_equal. f_equal. destruct (m_scale s) eqn:Es.
  - f_equal. apply nth_ext with 0 0; [unfold dmul; rewrite !map_length, !seq_length; reflexivity|].
    intros j Hj. unfold dmul in Hj. rewrite !map_length, !seq_length in Hj.
    rewrite dmul_nth by (unfold dmul; rewrite map_length, seq_length; auto). rewrite dmul_nth by auto. unfold dinv. field.
    pose proof (sx_pos s Hreg j). lra.
  - f_equal. destruct (unscaled_one s Es) as [-> _].
    apply nth_ext with 0 0; [unfold dmul; rewrite map_length, seq_length; reflexivity|].
    intros j Hj. unfold dmul in Hj. rewrite map_length, seq_length in Hj. rewrite dmul_nth by auto. ring.
Qed.
Print Assumptions C82_result.

(** which outputs the constructor accepts: without mpc.scale_x as many as states, or one (not in scaled mode) *)
Theorem C82_construct : forall s, regular s ->
  (nmpc_new s = None <-> m_ny s <> m_nx s /\ ~ (m_scale s = true /\ m_sx s <> None) /\ (m_scale s = true \/ m_ny s <> 1%nat)).
Proof.
  intros s Hreg. destruct (fun_ok s Hreg) as [F1 F2]. unfold nmpc_new. rewrite cas_dynamics_some by auto. unfold sizes_ok.
  destruct (m_scale s), (m_sx s) as [d|].
  - split; [discriminate|]. intros (_ & H & _). exfalso. apply H. split; [reflexivity|discriminate].
  - destruct (Nat.eqb_spec (m_ny s) (m_nx s)).
    + split; [discriminate|tauto].
    + split; [|reflexivity]. intros _. repeat split; auto. intros [_ H]. apply H. reflexivity.
  - destruct (Nat.eqb_spec (m_ny s) (m_nx s)); simpl; [split; [discriminate|tauto]|]. destruct (Nat.eqb_spec (m_ny s) 1).
    + split; [discriminate|]. intros (_ & _ & [H|H]); [discriminate|contradiction].
    + split; [|reflexivity]. intros _. repeat split; auto. intros [H _]. discriminate.
  - destruct (Nat.eqb_spec (m_ny s) (m_nx s)); simpl; [split; [discriminate|tauto]|]. destruct (Nat.eqb_spec (m_ny s) 1).
    + split; [discriminate|]. intros (_ & _ & [H|H]); [discriminate|contradiction].
    + split; [|reflexivity]. intros _. repeat split; auto. intros [H _]. discriminate.
Qed.
Print Assumptions C82_construct.

(** the initial guess: in the first call the (scaled) initial state at all nodes and zero controls; after a
    solution that solution and its multipliers, unless warm start is switched off *)
Theorem C82_guess : forall ipopt s t X0 t0, regular s -> length X0 = m_nx s -> nmpc_new s = Some t0 ->
  (forall k i, (k <= m_P s * m_S s)%nat -> (i < m_nx s)%nat ->
     a_x0 (t_arg (fst (computeControl ipopt s t0 X0))) (k * m_nx s + i)%nat = ini_sx s i * nth i X0 0) /\
  (forall i, a_x0 (t_arg (fst (computeControl ipopt s t0 X0))) ((m_P s * m_S s + 1) * m_nx s + i)%nat = 0) /\
  (forall X1 x lx lg t1, ipopt (nmpc_nlp s) (t_arg (prepare s t X0)) (t_lamx (prepare s t X0)) (t_lamg (prepare s t X0)) = Some (x, lx, lg) ->
     t1 = prepare s (fst (computeControl ipopt s t X0)) X1 -> a_x0 (t_arg t1) = x /\ t_lamx t1 = lx /\ t_lamg t1 = lg).
Proof.
  intros ipopt s t X0 t0 Hreg HX H0. rewrite (proj1 (compute_arg ipopt s t0 X0)). unfold nmpc_new in H0.
  destruct (sizes_ok s); [|discriminate]. destruct (cas_dynamics _ _ _ _ _ _ _ _); [|discriminate]. inversion H0. clear H0.
  pose proof Hreg as (_ & _ & Hnx & _).
  assert (L : length (dmul (ini_sx s) X0) = m_nx s) by (unfold dmul; rewrite map_length, seq_length; auto).
  split; [cbn [prepare t_arg a_x0 t_warm t_sx]|split; [cbn [prepare t_arg a_x0 t_warm t_sx]|]].
  - intros k i Hk Hi. rewrite in_seg_true by nia. rewrite <- L. rewrite repv_nth by lia. rewrite dmul_nth by lia. reflexivity.
  - intro i. rewrite in_seg_false by (right; lia). reflexivity.
  - intros X1 x lx lg t1 E ->. unfold computeControl. rewrite E. cbn. auto.
Qed.
Print Assumptions C82_guess.

(** one state, one control, x' = u, order 1, one segment, horizon 2, reference 1 *)
Definition out_id (l : list R) : vec R := fun i => nth i l 0.
Definition sys1 (sc : bool) (sx su : option (vec R)) : nmpc :=
  mkNmpc 1 1 1 1 1 2 (mkFun 2 1 (fun l _ => match l with _ :: (u :: nil) :: _ => u | _ => 0 end)) out_id (fun _ => 1)
    (fun _ _ => 1) (fun _ _ => 1) (fun _ _ => 1) sc sx su.
Lemma sys1_reg : forall sc, regular (sys1 sc (Some (fun _ => 2)) (Some (fun _ => 4))).
Proof. intro sc. repeat split; cbn; try lia; try lra; intros d E i; inversion E; lra. Qed.
Lemma sys1_reg' : regular (sys1 false None None).
Proof. repeat split; cbn; try lia; try lra; intros d E; discriminate. Qed.
(** a solver that keeps the initial state, with zero controls *)
Definition stay (l : nlp) (a : narg) (_ _ : vec R) : option (vec R * vec R * vec R) :=
  Some ((fun i => if (i <? 2)%nat then match a_lbx a 1%nat with Some v => v | None => 0 end else 0), fun _ => 0, fun _ => 0).
Lemma sys1_feasible : forall sc x0 x, x 0%nat = x 1%nat -> x 2%nat = 0 -> x 3%nat = 0 -> / ini_sx (sys1 sc (Some (fun _ => 2)) (Some (fun _ => 4))) 0%nat * x 1%nat = x0 ->
  -1 <= x0 <= 1 ->
  ocp_feasible (sys1 sc (Some (fun _ => 2)) (Some (fun _ => 4))) [x0] (fun _ => Some (-1)) free free free
    (fun k i => / ini_sx (sys1 sc (Some (fun _ => 2)) (Some (fun _ => 4))) i * x (k * 1 + i)%nat)
    (fun k i => / ini_su (sys1 sc (Some (fun _ => 2)) (Some (fun _ => 4))) i * x (2 + k * 1 + i)%nat).
Proof.
  intros sc x0 x E01 E2 E3 Ei Hx. assert (Q : ini_sx (sys1 sc (Some (fun _ => 2)) (Some (fun _ => 4))) = fun _ => if sc then 2 else 1) by (destruct sc; reflexivity).
  rewrite Q in *. cbn [nodes sys1 m_P m_S m_nx m_nu] in *. split; [|split; [|split]].
  - intros i Hi. cbn in Hi. assert (i = 0)%nat as -> by lia. exact Ei.
  - intros k i Hk Hi. cbn in Hk, Hi. assert (k = 0)%nat as -> by lia. assert (i = 0)%nat as -> by lia. simpl. rewrite E01. rewrite Ei. lra.
  - intros k i Hk Hi. simpl. auto.
  - intros sg i Hs Hi. cbn in Hs, Hi. assert (sg = 0)%nat as -> by lia. assert (i = 0)%nat as -> by lia.
    exists (fun t => 0 * t + x0), (fun _ => 0). split; [exact (lin_poly 0 x0)|]. split; [exact (lin_deriv 0 x0)|]. split.
    + intros j Hj. cbn in Hj. destruct j as [|[|]]; try lia; simpl; rewrite ?E01, Ei; ring.
    + intros l Hl. cbn in Hl. assert (l = 0)%nat as -> by lia. simpl. rewrite E2. ring.
Qed.
(** scaled controller, lower bound -1 on the state, X0 = 1/2 *)
Example C82_problem_ex : exists t, run stay (sys1 true (Some (fun _ => 2)) (Some (fun _ => 4))) t (fun _ => Some (-1)) free free free /\
  feasible (nmpc_nlp (sys1 true (Some (fun _ => 2)) (Some (fun _ => 4)))) (t_arg (fst (computeControl stay (sys1 true (Some (fun _ => 2)) (Some (fun _ => 4))) t [1 / 2])))
    (fun _ => 0) (fun i => if (i <? 2)%nat then 1 else 0).
Proof.
  set (s := sys1 true (Some (fun _ => 2)) (Some (fun _ => 4))).
  assert (E : exists t, nmpc_new s = Some t).
  { unfold nmpc_new. destruct (fun_ok s (sys1_reg true)) as [F1 F2]. rewrite cas_dynamics_some by auto. eexists. reflexivity. }
  destruct E as [t E]. exists (setLBX s t (fun _ => Some (-1))).
  assert (Hr : run stay s (setLBX s t (fun _ => Some (-1))) (fun _ => Some (-1)) free free free) by (apply run_lbx with free, run_new; auto).
  split; [exact Hr|]. apply (C82_problem stay s _ _ _ _ _ [1 / 2] _ _ (sys1_reg true) Hr eq_refl).
  apply (sys1_feasible true (1 / 2) (fun i => if (i <? 2)%nat then 1 else 0)); try reflexivity; cbn; lra.
Qed.
Example C82_construct_ex : nmpc_new (mkNmpc 1 1 3 1 2 2 (mkFun 2 3 (fun _ _ => 0)) out_id (fun _ => 1)
    (fun _ _ => 1) (fun _ _ => 1) (fun _ _ => 1) false None None) = None /\ nmpc_new (sys1 false None None) <> None.
Proof.
  split.
  - apply C82_construct; [repeat split; cbn; try lia; try lra; intros d E; discriminate|]. cbn. repeat split; [lia|intros [H _]; discriminate|right; lia].
  - intro H. apply C82_construct in H; [|exact sys1_reg']. cbn in H. lia.
Qed.

(** "the stored trajectory is feasible also after setStateScaling": false, the NLP keeps the scaling of the
    constructor.  x' = u, u = 1 by the bounds, X0 = 3: with the factor 2 set later the final state is 4. *)
Definition go (l : nlp) (a : narg) (_ _ : vec R) : option (vec R * vec R * vec R) :=
  Some ((fun i => match i with
                  | 0 => match a_lbx a 1%nat with Some v => v + 2 | None => 0 end
                  | 1 => match a_lbx a 1%nat with Some v => v | None => 0 end
                  | _ => 1 end), fun _ => 0, fun _ => 0).
Theorem C82_scaling_setter_refuted : exists ipopt s t X0 t' d W V, regular s /\ nmpc_new s = Some t /\ (forall i, 0 < d i) /\
  computeControl ipopt s (setStateScaling t d) X0 = (t', true) /\
  (exists x lx lg, ipopt (nmpc_nlp s) (t_arg t') (t_lamx t') (t_lamg t') = Some (x, lx, lg) /\ feasible (nmpc_nlp s) (t_arg t') (fun _ => 0) x) /\
  length X0 = m_nx s /\ t_traj t' = Some W /\ t_ctrl t' = Some V /\ ~ ocp_feasible s X0 free free free free W V.
Proof.
  set (s := sys1 false None None). assert (Hs : regular s) by exact sys1_reg'.
  assert (E : exists t, nmpc_new s = Some t /\ t_arg t = mkArg (fun _ => 0) (fun _ => None) (fun _ => None) [] /\ t_warm t = false /\ t_su t = fun _ => 1).
  { unfold nmpc_new. destruct (fun_ok s Hs) as [F1 F2]. rewrite cas_dynamics_some by auto. eexists. split; [reflexivity|]. auto. }
  destruct E as (t & E & Ea & Ew & Eu). exists go, s, t, [3]. eexists. exists (fun _ => 2). eexists. eexists.
  split; [exact Hs|]. split; [exact E|]. split; [intro; lra|]. split; [reflexivity|].
  split; [|split; [reflexivity|split; [reflexivity|split; [reflexivity|]]]].
  - cbn [go computeControl t_arg t_lamx t_lamg prepare setStateScaling t_sx]. rewrite ?Ea, ?Ew. cbn [a_lbx a_ubx a_x0].
    eexists. eexists. eexists. split; [reflexivity|]. cbn.
    assert (A : 2 * 3 = 6) by ring. split.
    + intros i Hi. cbn in Hi. destruct i as [|[|[|[|]]]]; try lia; cbn; auto. rewrite A. lra.
    + apply (colloc_iff s Hs). intros sg i Hsg Hi. cbn in Hsg, Hi. assert (sg = 0)%nat as -> by lia. assert (i = 0)%nat as -> by lia.
      exists (fun t => 1 * t + 6), (fun _ => 1). split; [exact (lin_poly 1 6)|]. split; [exact (lin_deriv 1 6)|].
      destruct (node_time1 0 2) as [T0 T1]. split.
      * intros j Hj. cbn in Hj. unfold nmpc_time. cbn [s sys1 m_P m_S m_nx m_nu m_tf].
        destruct (seg_ends (mkCas 1 1 1 1 0 0) 0 2 0) as [Z0 Z1]; [cbn; lia|]. cbn [cP] in Z1.
        destruct j as [|[|]]; [rewrite Z0|rewrite Z1|lia]; unfold seg_len, phys_x, dinv; cbn; field.
      * intros l Hl. cbn in Hl. assert (l = 0)%nat as -> by lia. unfold phys_u, dinv. cbn. field.
  - intros (_ & _ & _ & H). destruct (H 0%nat 0%nat ltac:(cbn; lia) ltac:(cbn; lia)) as (q & q' & Hq & Hq' & Hv & Hc).
    assert (Hc0 := Hc 0%nat ltac:(cbn; lia)). clear Hc.
    assert (V0 := Hv 0%nat ltac:(cbn; lia)). assert (V1 := Hv 1%nat ltac:(cbn; lia)). clear Hv H.
    cbn in V0, V1, Hc0. rewrite ?Ea, ?Eu in *. unfold dinv in *.
    destruct (is_poly_list 1 q Hq) as [cl [Hl Hcl]]. 
    assert (Hder : forall x, q' x = peval (pder cl) x).
    { intro x. apply (derivable_unique q x); [apply Hq'|]. apply derivable_pt_lim_ext with (peval cl); [intro; symmetry; auto|apply peval_derivable]. }
    unfold nmpc_time in *. cbn [s sys1 m_P m_S m_nx m_nu m_tf] in *.
    destruct (seg_ends (mkCas 1 1 1 1 0 0) 0 2 0) as [Z0 Z1]; [cbn; lia|]. cbn [cP] in Z1.
    rewrite Z0 in V0, Hc0. rewrite Z1 in V1. rewrite Hcl in V0, V1. rewrite Hder in Hc0. unfold seg_len in *. cbn in V0, V1, Hc0.
    destruct cl as [|c0 [|c1 [|c2 r]]]; simpl in Hl; try lia; cbn in V0, V1, Hc0; lra.
Qed.
Print Assumptions C82_scaling_setter_refuted.

(** "initialized() is true after a successful call": false, the flag never changes *)
Theorem C82_initialized_refuted : exists ipopt s t X0 t', regular s /\ nmpc_new s = Some t /\ computeControl ipopt s t X0 = (t', true) /\
  t_init t' = false.
Proof.
  set (s := sys1 false None None). assert (Hs : regular s) by exact sys1_reg'.
  assert (E : exists t, nmpc_new s = Some t). { unfold nmpc_new. destruct (fun_ok s Hs) as [F1 F2]. rewrite cas_dynamics_some by auto. eexists. reflexivity. }
  destruct E as [t E]. assert (I := run_inv stay s t _ _ _ _ (run_new stay s t E)). destruct I as (_ & _ & I & _).
  exists stay, s, t, [3]. eexists. split; [exact Hs|]. split; [exact E|]. split; [reflexivity|]. exact I.
Qed.
Print Assumptions C82_initialized_refuted.

(** * C83: the cost *)

(** diagonal weights and no control scaling: final weighted squares plus the exact integral of the weighted
    squares, when these are polynomials of degree at most P in time on every segment.
    Missing: other weights and scaled controls (refuted below). *)
Theorem C83_cost_partial : forall s x pv (r F : nat -> R -> R), regular s ->
  diagonal (m_ny s) (m_Q s) -> diagonal (m_ny s) (m_PW s) -> diagonal (m_nu s) (m_R s) -> (forall i, ini_su s i = 1) ->
  let W := fun k => map (fun i => / ini_sx s i * x (k * m_nx s + i)%nat) (seq 0 (m_nx s)) in
  let V := fun k i => x ((m_P s * m_S s + 1) * m_nx s + k * m_nu s + i)%nat in
  (forall sg, (sg < m_S s)%nat -> is_poly (m_P s) (r sg) /\ derivative_of (F sg) (r sg) /\
     forall k, (k <= m_P s)%nat ->
       wsq (m_ny s) (m_Q s) (error s (W (sg * m_P s + k)%nat)) + wsq (m_nu s) (m_R s) (V (sg * m_P s + k)%nat) = r sg (nmpc_time s sg k)) ->
  l_f (nmpc_nlp s) x pv = wsq (m_ny s) (m_PW s) (error s (W 0%nat)) +
    rsum (m_S s) (fun sg => F sg (nmpc_time s sg 0) - F sg (nmpc_time s sg (m_P s))).
Proof.
  intros s x pv r F Hreg HQ HP HR Hu W V H. cbn [l_f nmpc_nlp]. unfold nmpc_cost.
  assert (C := C78_cost (nmpc_cas s) (Some (nmpc_may s)) (nmpc_lag s) 0 (m_tf s) x (nmpc_U s x) r F (cas_dims s Hreg) eq_refl eq_refl).
  rewrite C.
  - cbn [term]. f_equal. etransitivity; [exact (may_val s x)|]. apply wsum_diag. auto.
  - intros sg Hs. destruct (H sg Hs) as (A & B & D). split; [exact A|]. split; [exact B|]. intros k Hk.
    etransitivity; [exact (lag_val s x (sg * m_P s + k)%nat)|]. unfold stage. rewrite !wsum_diag by auto. apply D. auto.
Qed.
Print Assumptions C83_cost_partial.

(** diagonal positive weights, any scaling: the cost is never negative, and zero exactly when the reference is met
    at all the nodes with zero controls *)
Theorem C83_zero : forall s x pv, regular s ->
  diagonal (m_ny s) (m_Q s) -> diagonal (m_ny s) (m_PW s) -> diagonal (m_nu s) (m_R s) ->
  (forall i, (i < m_ny s)%nat -> 0 < m_Q s i i /\ 0 <= m_PW s i i) -> (forall i, (i < m_nu s)%nat -> 0 < m_R s i i) ->
  let W := fun k => map (fun i => / ini_sx s i * x (k * m_nx s + i)%nat) (seq 0 (m_nx s)) in
  let V := fun k i => x ((m_P s * m_S s + 1) * m_nx s + k * m_nu s + i)%nat in
  0 <= l_f (nmpc_nlp s) x pv /\
  (l_f (nmpc_nlp s) x pv = 0 <->
   (forall k i, (k <= nodes s)%nat -> (i < m_ny s)%nat -> m_out s (W k) i = m_ref s i) /\
   (forall k i, (k <= nodes s)%nat -> (i < m_nu s)%nat -> V k i = 0)).
Proof.
  intros s x pv Hreg HQ HP HR Pq Pr W V. cbn [l_f nmpc_nlp]. rewrite cost_quad. pose proof Hreg as (P1 & S1 & X1 & Ht & _).
  assert (Hts : 0 < cas_ts (nmpc_cas s) 0 (m_tf s)) by (apply ts_pos; auto).
  assert (Hw : forall m, (m < S (m_P s))%nat -> 0 < cas_w (m_P s) m) by (intros m Hm; rewrite cas_w_eq; apply cc_positive; lia).
  assert (Q0 : forall n M v, (forall i, (i < n)%nat -> 0 <= M i i) -> 0 <= wsq n M v).
  { intros n M v HM. apply rsum_nonneg. intros i Hi. apply Rmult_le_pos; [auto|apply pow2_ge_0]. }
  assert (Qz : forall n M v, (forall i, (i < n)%nat -> 0 < M i i) -> wsq n M v = 0 -> forall i, (i < n)%nat -> v i = 0).
  { intros n M v HM Hz i Hi. assert (K := rsum_nonneg_zero n (fun i => M i i * v i ^ 2) (fun i Hi => Rmult_le_pos _ _ (Rlt_le _ _ (HM i Hi)) (pow2_ge_0 (v i))) Hz i Hi).
    cbv beta in K. apply Rmult_integral in K. destruct K as [K|K]; [specialize (HM i Hi); lra|]. nra. }
  set (st := fun k => wsq (m_ny s) (m_Q s) (error s (W k)) + wsq (m_nu s) (m_R s) (V k)).
  assert (Est : forall k, stage s x k = st k) by (intro k; unfold stage, st; rewrite !wsum_diag by auto; reflexivity).
  assert (Em : wsum (m_ny s) (m_PW s) (error s (map (phys_x s x 0) (seq 0 (m_nx s)))) = wsq (m_ny s) (m_PW s) (error s (W 0%nat))) by (rewrite wsum_diag by auto; reflexivity).
  rewrite Em. rewrite (rsum_ext (m_S s) _ (fun k => cas_ts (nmpc_cas s) 0 (m_tf s) * rsum (S (m_P s)) (fun m => cas_w (m_P s) m * st (k * m_P s + m)%nat)))
    by (intros k _; f_equal; apply rsum_ext; intros m _; rewrite Est; reflexivity).
  assert (A1 : 0 <= wsq (m_ny s) (m_PW s) (error s (W 0%nat))) by (apply Q0; intros i Hi; apply Pq; auto).
  assert (A2 : forall k, 0 <= st k).
  { intro k. unfold st. assert (0 <= wsq (m_ny s) (m_Q s) (error s (W k))) by (apply Q0; intros i Hi; apply Rlt_le, Pq; auto).
    assert (0 <= wsq (m_nu s) (m_R s) (V k)) by (apply Q0; intros i Hi; apply Rlt_le, Pr; auto). lra. }
  assert (A3 : forall k, 0 <= rsum (S (m_P s)) (fun m => cas_w (m_P s) m * st (k * m_P s + m)%nat)).
  { intro k. apply rsum_nonneg. intros m Hm. apply Rmult_le_pos; [apply Rlt_le; auto|auto]. }
  assert (A4 : forall k, (k < m_S s)%nat -> 0 <= cas_ts (nmpc_cas s) 0 (m_tf s) * rsum (S (m_P s)) (fun m => cas_w (m_P s) m * st (k * m_P s + m)%nat)).
  { intros k _. apply Rmult_le_pos; [lra|auto]. }
  assert (A5 := rsum_nonneg _ _ A4). cbv beta in A5. split; [lra|]. split.
  - intro Hz. assert (Z2 : rsum (m_S s) (fun k => cas_ts (nmpc_cas s) 0 (m_tf s) * rsum (S (m_P s)) (fun m => cas_w (m_P s) m * st (k * m_P s + m)%nat)) = 0) by lra.
    assert (K : forall k, (k <= nodes s)%nat -> st k = 0).
    { intros k Hk. unfold nodes in Hk.
      assert (D : exists g l, k = (g * m_P s + l)%nat /\ (g < m_S s)%nat /\ (l <= m_P s)%nat).
      { destruct (Nat.eq_dec k (m_P s * m_S s)) as [->|Hne].
        - exists (m_S s - 1)%nat, (m_P s). repeat split; try lia. nia.
        - destruct (index_split (m_P s) (m_S s) k ltac:(lia)) as (g & l & E & Hg & Hl). exists g, l. repeat split; auto. lia. }
      destruct D as (g & l & -> & Hg & Hl).
      pose proof (rsum_nonneg_zero _ _ A4 Z2 g Hg) as E. cbv beta in E. apply Rmult_integral in E. destruct E as [E|E]; [lra|].
      assert (E2 := rsum_nonneg_zero _ _ (fun m Hm => Rmult_le_pos _ _ (Rlt_le _ _ (Hw m Hm)) (A2 (g * m_P s + m)%nat)) E l ltac:(lia)).
      cbv beta in E2. apply Rmult_integral in E2. destruct E2 as [E2|E2]; [specialize (Hw l ltac:(lia)); lra|auto]. }
    assert (K1 : forall k, (k <= nodes s)%nat -> wsq (m_ny s) (m_Q s) (error s (W k)) = 0 /\ wsq (m_nu s) (m_R s) (V k) = 0).
    { intros k Hk. specialize (K k Hk). unfold st in K. assert (0 <= wsq (m_ny s) (m_Q s) (error s (W k))) by (apply Q0; intros i Hi; apply Rlt_le, Pq; auto).
      assert (0 <= wsq (m_nu s) (m_R s) (V k)) by (apply Q0; intros i Hi; apply Rlt_le, Pr; auto). lra. }
    split.
    + intros k i Hk Hi. destruct (K1 k Hk) as [E _]. assert (E' := Qz _ _ _ (fun i Hi => proj1 (Pq i Hi)) E i Hi). unfold error in E'. lra.
    + intros k i Hk Hi. destruct (K1 k Hk) as [_ E]. exact (Qz _ _ _ Pr E i Hi).
  - intros [Hx Hv].
    assert (Z : forall k, (k <= nodes s)%nat -> forall M, wsq (m_ny s) M (error s (W k)) = 0).
    { intros k Hk M. apply rsum_zero. intros i Hi. unfold error. rewrite Hx by auto. ring. }
    rewrite Z by lia. rewrite rsum_zero; [ring|]. intros g Hg. rewrite rsum_zero; [ring|]. intros m Hm. unfold st. assert (B : (g * m_P s + m <= nodes s)%nat) by (unfold nodes; nia). rewrite Z by auto.
    unfold wsq. rewrite (rsum_zero (m_nu s)); [ring|]. intros i Hi. rewrite Hv by auto. ring.
Qed.
Print Assumptions C83_zero.

(** x = t - 1, u = 1 on [0, 2]: the final error is 0, the running cost (2 - t)^2 + 1 is not linear; with u = 0 and
    x = 3 it is constant: 4 + 2 * 4 *)
Example C83_cost_ex : l_f (nmpc_nlp (sys1 false None None)) (fun i => if (i <? 2)%nat then 3 else 0) (fun _ => 0) = 12.
Proof.
  rewrite (C83_cost_partial (sys1 false None None) _ _ (fun _ t => 0 * t + 4) (fun _ t => 4 * t + 0)).
  - pose proof (seg_ends (mkCas 1 1 1 1 0 0) 0 2 0) as Z. unfold nmpc_time. cbn [sys1 m_P m_S m_nx m_nu m_tf].
    destruct Z as [Z0 Z1]; [cbn; lia|]. cbn [cP] in Z1. cbn [ssum]. cbn [R_scalar sadd s0]. rewrite Z0, Z1. unfold seg_len, wsq, error, ini_sx. cbn. unfold out_id. cbn. field.
  - exact sys1_reg'.
  - intros i j Hi Hj Hne. cbn in Hi, Hj. lia.
  - intros i j Hi Hj Hne. cbn in Hi, Hj. lia.
  - intros i j Hi Hj Hne. cbn in Hi, Hj. lia.
  - reflexivity.
  - intros sg Hs. split; [exact (lin_poly 0 4)|]. split.
    + intro t. replace (0 * t + 4) with 4 by ring. apply (lin_deriv 4 0).
    + intros k Hk. cbn in Hs, Hk. assert (sg = 0)%nat as -> by lia. destruct k as [|[|]]; try lia; unfold wsq, error, ini_sx; cbn; unfold out_id; cbn; field.
Qed.
Example C83_zero_ex : l_f (nmpc_nlp (sys1 true (Some (fun _ => 2)) (Some (fun _ => 4)))) (fun i => if (i <? 2)%nat then 2 else 0) (fun _ => 0) = 0.
Proof.
  apply (C83_zero (sys1 true (Some (fun _ => 2)) (Some (fun _ => 4)))).
  - apply sys1_reg.
  - intros i j Hi Hj Hne. cbn in Hi, Hj. lia.
  - intros i j Hi Hj Hne. cbn in Hi, Hj. lia.
  - intros i j Hi Hj Hne. cbn in Hi, Hj. lia.
  - intros i Hi. cbn. lra.
  - intros i Hi. cbn. lra.
  - split; intros k i Hk Hi; cbn in Hk, Hi; assert (i = 0)%nat as -> by lia; destruct k as [|[|]]; try lia; cbn; unfold out_id; cbn; try field; reflexivity.
Qed.

(** "with a positive definite Q the cost is bounded below by zero": false.  The code sums the entries of Q r^2 instead
    of r' Q r: Q = (1, -3/2; -3/2, 3) and an error in the first component give a negative cost. *)
Definition sys2 : nmpc :=
  mkNmpc 1 1 2 0 2 2 (mkFun 2 2 (fun _ _ => 0)) out_id (fun _ => 0)
    (fun i j => match i, j with 0, 0 => 1 | 1, 1 => 3 | _, _ => - (3 / 2) end) (fun _ _ => 0) (fun _ _ => 0) false None None.
Theorem C83_definite_refuted : exists s x pv, regular s /\
  (forall v : nat -> R, (exists i, (i < m_ny s)%nat /\ v i <> 0) -> 0 < rsum (m_ny s) (fun i => rsum (m_ny s) (fun j => v i * m_Q s i j * v j))) /\
  (forall i j, m_PW s i j = 0 /\ m_R s i j = 0) /\ l_f (nmpc_nlp s) x pv < 0.
Proof.
  exists sys2, (fun i => match i with 0 => 1 | 2 => 1 | _ => 0 end), (fun _ => 0).
  assert (Hs : regular sys2) by (repeat split; cbn; try lia; try lra; intros d E; discriminate).
  split; [exact Hs|]. split; [|split; [auto|]].
  - intros v (i & Hi & Hv). cbn in Hi. cbn. destruct i as [|[|]]; [| |lia].
    + assert (A : 0 < Rsqr (v 0%nat)) by (apply Rsqr_pos_lt; auto). assert (B := Rle_0_sqr (v 1%nat - v 0%nat / 2)). unfold Rsqr in A, B. nra.
    + assert (A : 0 < Rsqr (v 1%nat)) by (apply Rsqr_pos_lt; auto). assert (B := Rle_0_sqr (v 0%nat - 3 / 2 * v 1%nat)). unfold Rsqr in A, B. nra.
  - cbn [l_f nmpc_nlp]. rewrite cost_quad. cbn [m_S m_P sys2].
    assert (W0 : 0 < cas_w 1 0) by (rewrite cas_w_eq; apply cc_positive; lia). assert (W1 : 0 < cas_w 1 1) by (rewrite cas_w_eq; apply cc_positive; lia).
    assert (T : cas_ts (nmpc_cas sys2) 0 (m_tf sys2) = 1) by (unfold cas_ts; cbn; field). rewrite T.
    assert (St : forall k, (k <= 1)%nat -> stage sys2 (fun i => match i with 0 => 1 | 2 => 1 | _ => 0 end) k = - (1 / 2)).
    { intros k Hk. unfold stage, wsum, error, phys_x, dinv, ini_sx. destruct k as [|[|]]; try lia; cbn; unfold out_id; cbn; field. }
    cbn [ssum]. cbn [R_scalar sadd s0]. cbn [Nat.mul Nat.add]. rewrite !St by lia.
    match goal with |- ?m + _ < 0 => assert (M : m = 0); [|rewrite M] end.
    + unfold wsum. apply rsum_zero. intros i _. apply rsum_zero. intros j _. cbn. ring.
    + lra.
Qed.
Print Assumptions C83_definite_refuted.

(** "scaling does not change the cost of a trajectory": false, the control is penalised in scaled units *)
Theorem C83_scaled_control_refuted : exists s1 s2 x1 x2 pv, regular s1 /\ regular s2 /\
  m_dyn s1 = m_dyn s2 /\ m_out s1 = m_out s2 /\ m_ref s1 = m_ref s2 /\ m_Q s1 = m_Q s2 /\ m_R s1 = m_R s2 /\ m_PW s1 = m_PW s2 /\
  m_nx s1 = 1%nat /\ m_nx s2 = 1%nat /\ m_nu s1 = 1%nat /\ m_nu s2 = 1%nat /\ nodes s1 = 1%nat /\ nodes s2 = 1%nat /\ m_tf s1 = m_tf s2 /\
  (forall k, (k <= 1)%nat -> / ini_sx s1 0%nat * x1 k = / ini_sx s2 0%nat * x2 k /\ / ini_su s1 0%nat * x1 (2 + k)%nat = / ini_su s2 0%nat * x2 (2 + k)%nat) /\
  l_f (nmpc_nlp s1) x1 pv <> l_f (nmpc_nlp s2) x2 pv.
Proof.
  set (s1 := sys1 false (Some (fun _ => 2)) (Some (fun _ => 4))). set (s2 := sys1 true (Some (fun _ => 2)) (Some (fun _ => 4))).
  set (x1 := fun _ : nat => 1). set (x2 := fun i : nat => if (i <? 2)%nat then 2 else 4).
  exists s1, s2, x1, x2, (fun _ => 0). split; [apply sys1_reg|]. split; [apply sys1_reg|].
  do 13 (split; [reflexivity|]). split.
  - intros k Hk. unfold x1, x2. destruct k as [|[|]]; try lia; cbn; split; field.
  - assert (C1 : cas_ts (nmpc_cas s1) 0 2 = 1) by (unfold cas_ts; cbn; field).
    assert (Wp : 0 < cas_w 1 0) by (rewrite cas_w_eq; apply cc_positive; lia). assert (Wq : 0 < cas_w 1 1) by (rewrite cas_w_eq; apply cc_positive; lia).
    cbn [l_f nmpc_nlp]. rewrite !cost_quad.
    assert (A : forall k, (k <= 1)%nat -> stage s1 x1 k = 1) by (intros k Hk; unfold s1, x1, stage, wsum, error, phys_x, dinv, ini_sx; destruct k as [|[|]]; try lia; cbn; unfold out_id; cbn; field).
    assert (B : forall k, (k <= 1)%nat -> stage s2 x2 k = 16) by (intros k Hk; unfold s2, x2, stage, wsum, error, phys_x, dinv, ini_sx; destruct k as [|[|]]; try lia; cbn; unfold out_id; cbn; field).
    change (m_S s1) with 1%nat. change (m_S s2) with 1%nat. change (m_P s1) with 1%nat. change (m_P s2) with 1%nat.
    change (cas_ts (nmpc_cas s2) 0 (m_tf s2)) with (cas_ts (nmpc_cas s1) 0 2). change (m_tf s1) with 2. rewrite C1.
    cbn [ssum]. cbn [R_scalar sadd s0]. cbn [Nat.mul Nat.add]. rewrite !A, !B by lia.
    match goal with |- ?m + _ <> ?m' + _ => assert (M : m = 0); [|assert (M' : m' = 0); [|rewrite M, M'; lra]] end;
      unfold s1, s2, x1, x2, wsum, error, phys_x, dinv, ini_sx; cbn; unfold out_id; cbn; field.
Qed.
Print Assumptions C83_scaled_control_refuted.
