(** Properties of the second derivatives of transcribed optimal control problems (C34, C61). *)
Require Import Arith ZArith QArith List Bool Lia Reals Lra.
From Verif Require Import Scal RSum Blk Poly_Spec PolyR Cheb_Model Cheb_Proofs Ocp_Model Ocp_Spec Ocp_Proofs Ocp_Cost_Proofs
  Sparse Sparse_Proofs Ocp_Sparse_Model Ocp_Sparse_Proofs Ocp_Hes_Proofs Ocp_Hes_Asm_Proofs Ocp_Hes_Cor_Proofs Ocp_Example.
Local Open Scope R_scope.

(** * C34: cost Hessian *)

(** Dense.  The full property is for every dimension combination; excluded here are more controls
    than states and terminal costs curved in the parameters, see the refutations below. *)
Theorem C34_dense_partial : forall (o : ocp R), (1 <= PO o)%nat -> (1 <= SG o)%nat -> controls_fit o ->
  cost_gradients_exact o -> cost_hessians_exact o ->
  forall var, terminal_param_free o var ->
  exists g H, cost_gradient_hessian o var = Some (cost o var, g, H) /\
    (forall d, dir_deriv (cost o) var d (rsum (VAR o) (fun j => g j * d j))) /\
    is_hessian (VAR o) (cost o) var H.
Proof.
  intros o HP HS Hu HG HH var Hp.
  destruct (dense_hessian_ok o HG HH HP HS (mayer_u_fit o Hu) var (or_intror (param_free_no_p o var Hp))) as (g & H & E & Dg & EH).
  exists g, H. split; auto. split; auto. apply cost_hessian_of; auto.
Qed.

(** Sparse, after any history of calls on an initially empty matrix.  Missing compared with the full
    property: the value of the very first evaluation of a problem with parameters. *)
Theorem C34_sparse_partial : forall (o : ocp R), (1 <= NX o)%nat -> (1 <= PO o)%nat -> (1 <= SG o)%nat ->
  controls_fit o -> offsets_fit o -> cost_gradients_exact o -> cost_hessians_exact o ->
  forall points var, exists M M',
    run (hes_sparse o) points (sp_empty (VAR o) (VAR o)) = Some M /\ hes_sparse o var M = Some M' /\
    (NP o = 0%nat \/ points <> nil -> is_hessian (VAR o) (cost o) var (coeff M')).
Proof.
  intros o HX HP HS Hu Hrd HG HH points var. pose proof (mayer_u_fit o Hu) as Hu'.
  assert (HZ : (0 < NZ o)%nat) by (unfold NZ; lia).
  destruct (hes_run o HZ HP HS Hu' Hrd points (sp_empty (VAR o) (VAR o)) (or_introl eq_refl)) as (M & E & HM). exists M.
  pose proof (TOT_hessian o HG HH var) as HT.
  destruct HM as [[-> ->]|HM].
  - destruct (hes_first o var HZ HP HS Hu' Hrd) as (M' & E' & O' & V). exists M'. split; auto. split; auto.
    intros [Hn|Hn]; [|congruence]. apply is_hessian_ext with (2 := HT). intros. symmetry. apply V; auto.
  - destruct (hes_again o var M HP HS Hu' HM) as (M' & E' & O' & V). exists M'. split; auto. split; auto.
    intros _. apply is_hessian_ext with (2 := HT). intros. symmetry. apply V; auto.
Qed.

(** under the hypotheses of both, the two assemblies agree entry by entry *)
Theorem C34_dense_sparse_agree_partial : forall (o : ocp R), (1 <= NX o)%nat -> (1 <= PO o)%nat -> (1 <= SG o)%nat ->
  controls_fit o -> offsets_fit o -> cost_gradients_exact o -> cost_hessians_exact o ->
  forall points var, terminal_param_free o var -> (NP o = 0%nat \/ points <> nil) ->
  exists M M' g H,
    run (hes_sparse o) points (sp_empty (VAR o) (VAR o)) = Some M /\ hes_sparse o var M = Some M' /\
    cost_gradient_hessian o var = Some (cost o var, g, H) /\
    forall i j, (i < VAR o)%nat -> (j < VAR o)%nat -> coeff M' i j = H i j.
Proof.
  intros o HX HP HS Hu Hrd HG HH points var Hp Hn.
  destruct (C34_sparse_partial o HX HP HS Hu Hrd HG HH points var) as (M & M' & E & E' & H1).
  destruct (C34_dense_partial o HP HS Hu HG HH var Hp) as (g & H & E2 & _ & H2).
  exists M, M', g, H. repeat split; auto. intros. apply (is_hessian_unique (VAR o) (cost o) var); auto.
Qed.

(** more controls than states: neither assembly ever completes *)
Theorem C34_many_controls_refuted : forall T (sc : Scalar T) (o : ocp T) var, (NX o < NU o)%nat ->
  cost_gradient_hessian o var = None /\ forall M, hes_sparse o var M = None.
Proof. intros. split; [apply dense_fail; auto|]. intro. apply sparse_fail_u; auto. Qed.

(** more parameters than controls: the first sparse assembly never completes *)
Theorem C34_many_parameters_refuted : forall T (sc : Scalar T) (o : ocp T) var,
  (NU o < NP o)%nat -> (1 <= NX o)%nat -> (1 <= SG o)%nat ->
  hes_sparse o var (sp_empty (VAR o) (VAR o)) = None.
Proof.
  intros T sc o var H HX HS. apply sparse_fail_p; auto. unfold nonzeros.
  cbn [sp_c sp_empty]. generalize (VAR o) at 1 as n. intro n. induction n as [|n IH]; cbn [nsum]; auto. rewrite IH.
  unfold ncol. rewrite cnt_none; auto.
Qed.

(** a terminal cost p^2: the dense Hessian misses the curvature *)
Definition pp_ocp : ocp R := {|
  NX := 1%nat; NU := 0%nat; NP := 1%nat; NG := 0%nat; PO := 1%nat; SG := 1%nat;
  m_D := cheb_D 1; m_nodes := cheb_nodes 1; m_w := cheb_int_weights 1; t_start := 0; t_stop := 1;
  o_dyn := fun x u p t c => 0; o_dyn_jac := fun _ _ _ _ _ _ => 0; o_dyn_hes := fun _ _ _ _ _ _ _ => 0;
  o_ine := fun _ _ _ _ _ => 0; o_ine_jac := fun _ _ _ _ _ _ => 0; o_ine_hes := fun _ _ _ _ _ _ _ => 0;
  o_lag := None;
  o_may := Some ((fun x u p t => p 0%nat * p 0%nat), (fun x u p t i => match i with 1%nat => 2 * p 0%nat | _ => 0 end),
                 (fun x u p t i j => match i, j with 1%nat, 1%nat => 2 | _, _ => 0 end)) |}.
Lemma pp_cost1 : cost_gradients_exact pp_ocp.
Proof.
  split; [exact I|]. intros x u p t dx du dp. cbn.
  match goal with |- derivable_pt_lim _ _ ?a => replace a with (dp 0%nat * p 0%nat + p 0%nat * dp 0%nat)
    by (unfold node_dot; cbn [NX NU NP pp_ocp]; rewrite ?rsum_S, ?rsum_0; cbn; ring) end. apply prod_d.
Qed.
Lemma pp_cost2 : cost_hessians_exact pp_ocp.
Proof.
  split; [exact I|]. split; [intros i Hi x u p t dx du dp; cbn in Hi|intros x u p t i j Hi Hj; cbn in *;
    do 2 (destruct i as [|i]; [do 2 (destruct j as [|j]; [reflexivity|]); lia|]); lia].
  assert (i = 0 \/ i = 1)%nat as [->| ->] by lia; cbn.
  - apply cst_d. unfold node_dot; cbn [NX NU NP pp_ocp]; rewrite ?rsum_S, ?rsum_0; cbn; ring.
  - match goal with |- derivable_pt_lim _ _ ?a => replace a with (2 * dp 0%nat)
      by (unfold node_dot; cbn [NX NU NP pp_ocp]; rewrite ?rsum_S, ?rsum_0; cbn; ring) end. apply dbl_d.
Qed.
Theorem C34_dense_refuted : exists (o : ocp R) var c g H,
  chebyshev_ocp o /\ controls_fit o /\ cost_gradients_exact o /\ cost_hessians_exact o /\
  cost_gradient_hessian o var = Some (c, g, H) /\ ~ is_hessian (VAR o) (cost o) var H.
Proof.
  destruct (dense_hessian_eq pp_ocp (fun _ => 0) (Nat.le_refl 1) (Nat.le_refl 1) eq_refl) as (g & H & E & _ & EH).
  exists pp_ocp, (fun _ => 0), (cost pp_ocp (fun _ => 0)), g, H.
  split; [repeat split; try reflexivity; cbn; lia|]. split; [left; reflexivity|]. split; [apply pp_cost1|]. split; [apply pp_cost2|].
  split; [exact E|]. intro HI.
  pose proof (is_hessian_unique _ _ _ _ _ HI (TOT_hessian pp_ocp pp_cost1 pp_cost2 (fun _ => 0))) as U.
  pose proof (EH (fun i => if (i =? 2)%nat then 1 else 0) (fun i => if (i =? 2)%nat then 1 else 0)) as EE.
  rewrite (qf2_ext (VAR pp_ocp) H (TOT pp_ocp (fun _ => 0))) in EE by auto. rewrite TOT_qf in EE.
  cbn [NP pp_ocp] in EE. rewrite !rsum_S, !rsum_0 in EE. cbn in EE. lra.
Qed.

(** first sparse evaluation of a problem with parameters: running cost p u, two states, one control,
    one parameter.  The first call returns a different matrix from every later call at the same
    point and from the dense assembly. *)
Local Existing Instance Q_scalar.
Definition pu_ocp : ocp Q := {|
  NX := 2; NU := 1; NP := 1; NG := 0; PO := 1; SG := 1;
  m_D := fun i j => match j with O => 1#2 | _ => -(1#2) end; m_nodes := fun i => match i with O => 1 | _ => -(1) end;
  m_w := fun _ => 1; t_start := 0; t_stop := 2;
  o_dyn := fun x u p t c => 0; o_dyn_jac := fun _ _ _ _ _ _ => 0; o_dyn_hes := fun _ _ _ _ _ _ _ => 0;
  o_ine := fun _ _ _ _ _ => 0; o_ine_jac := fun _ _ _ _ _ _ => 0; o_ine_hes := fun _ _ _ _ _ _ _ => 0;
  o_lag := Some ((fun x u p t => p 0%nat * u 0%nat),
                 (fun x u p t i => match i with 2%nat => p 0%nat | 3%nat => u 0%nat | _ => 0 end),
                 (fun x u p t i j => match i, j with 2%nat, 3%nat => 1 | 3%nat, 2%nat => 1 | _, _ => 0 end));
  o_may := None |}%Q.
Theorem C34_sparse_refuted : exists (o : ocp Q) var i j M1 M2 c g H,
  (i < VAR o)%nat /\ (j < VAR o)%nat /\
  cost_gradient_hessian o var = Some (c, g, H) /\
  hes_sparse o var (sp_empty (VAR o) (VAR o)) = Some M1 /\ hes_sparse o var M1 = Some M2 /\
  ~ Qeq (coeff M1 i j) (H i j) /\ Qeq (coeff M2 i j) (H i j).
Proof.
  exists pu_ocp, (fun _ => 0%Q), 6%nat, 4%nat.
  assert (A : match cost_gradient_hessian pu_ocp (fun _ => 0%Q) with Some (_, _, H) => Some (Qred (H 6%nat 4%nat)) | None => None end = Some 1%Q)
    by (vm_compute; reflexivity).
  assert (B : match hes_sparse pu_ocp (fun _ => 0%Q) (sp_empty (VAR pu_ocp) (VAR pu_ocp)) with
    | Some M1 => match hes_sparse pu_ocp (fun _ => 0%Q) M1 with Some M2 => Some (Qred (coeff M1 6 4), Qred (coeff M2 6 4)) | None => None end
    | None => None end = Some (0, 1)%Q) by (vm_compute; reflexivity).
  destruct (hes_sparse pu_ocp (fun _ => 0%Q) (sp_empty (VAR pu_ocp) (VAR pu_ocp))) as [M1|]; [|discriminate].
  exists M1. destruct (hes_sparse pu_ocp (fun _ => 0%Q) M1) as [M2|]; [|discriminate]. exists M2.
  destruct (cost_gradient_hessian pu_ocp (fun _ => 0%Q)) as [[[c g] H]|]; [|discriminate]. exists c, g, H.
  injection A as A. injection B as B1 B2.
  split; [vm_compute; lia|]. split; [vm_compute; lia|]. split; [reflexivity|]. split; [reflexivity|]. split; [reflexivity|]. split.
  - intro E. rewrite <- (Qred_correct (coeff M1 6 4)), B1, <- (Qred_correct (H 6%nat 4%nat)), A in E. discriminate.
  - rewrite <- (Qred_correct (coeff M2 6 4)), B2, <- (Qred_correct (H 6%nat 4%nat)), A. reflexivity.
Qed.

(** * C61: Hessian of the Lagrangian *)

Theorem C61_dense_partial : forall (o : ocp R), chebyshev_ocp o -> controls_fit o ->
  cost_gradients_exact o -> cost_hessians_exact o ->
  jacobian_of o (NX o) (o_dyn o) (o_dyn_jac o) -> jacobian_of o (NG o) (o_ine o) (o_ine_jac o) -> constraint_hessians_exact o ->
  forall scale var lam, terminal_param_free o var ->
  exists H, lag_hes_dense o scale var lam = Some H /\
    is_hessian (VAR o) (scaled_lagrangian o scale lam) var H.
Proof.
  intros o Hch Hu HG HH HJ HI HC scale var lam Hp. pose proof Hch as (HP & HS & _).
  destruct (lag_dense_ok o lam scale HG HH HP HS (mayer_u_fit o Hu) var (or_intror (param_free_no_p o var Hp))) as (H & E & EH).
  exists H. split; auto. apply lagrangian_hessian_of; auto.
Qed.

(** a history is a list of (cost scale, (point, multipliers)) *)
Theorem C61_sparse_partial : forall (o : ocp R), chebyshev_ocp o -> controls_fit o -> offsets_fit o ->
  cost_gradients_exact o -> cost_hessians_exact o ->
  jacobian_of o (NX o) (o_dyn o) (o_dyn_jac o) -> jacobian_of o (NG o) (o_ine o) (o_ine_jac o) -> constraint_hessians_exact o ->
  forall history scale var lam, exists M M',
    run (fun q => lag_hes_sparse o (fst q) (fst (snd q)) (snd (snd q))) history (sp_empty (VAR o) (VAR o)) = Some M /\
    lag_hes_sparse o scale var lam M = Some M' /\
    (NP o = 0%nat \/ history <> nil -> is_hessian (VAR o) (scaled_lagrangian o scale lam) var (coeff M')).
Proof.
  intros o Hch Hu Hrd HG HH HJ HI HC history scale var lam. pose proof Hch as (HP & HS & HX & _). pose proof (mayer_u_fit o Hu) as Hu'.
  assert (HZ : (0 < NZ o)%nat) by (unfold NZ; lia).
  destruct (lag_hes_run o HZ HP HS Hu' Hrd history (sp_empty (VAR o) (VAR o)) (or_introl eq_refl)) as (M & E & HM). exists M.
  assert (H1 : exists M1, hes_sparse o var M = Some M1 /\ hok o M1 /\ (NP o = 0%nat \/ history <> nil ->
     forall i j, (i < VAR o)%nat -> (j < VAR o)%nat -> coeff M1 i j = TOT o var i j)).
  { destruct HM as [[-> ->]|HM].
    - destruct (hes_first o var HZ HP HS Hu' Hrd) as (M' & E' & O' & V). exists M'. split; auto. split; auto.
      intros [Hn|Hn]; [|congruence]. auto.
    - destruct (hes_again o var M HP HS Hu' HM) as (M' & E' & O' & V). exists M'. auto. }
  destruct H1 as (M1 & E1 & O1 & V1). destruct (lag_sparse_tail o lam scale var M1 O1) as (M' & E' & O' & V').
  exists M'. split; auto. split.
  - unfold lag_hes_sparse. rewrite E1. exact E'.
  - intro Hn. apply is_hessian_ext with (H := LTOT o lam scale var).
    + intros. symmetry. apply V'; auto.
    + apply lagrangian_hessian_of; auto. intros. apply LTOT_qf.
Qed.

(** with unit scale this is the Lagrangian the library itself evaluates *)
Theorem C61_lagrangian : forall (o : ocp R) var lam, scaled_lagrangian o 1 lam var = lagrangian o var lam.
Proof.
  intros o var lam. unfold scaled_lagrangian, lagrangian, dot, seg. rewrite Rmult_1_l. reflexivity.
Qed.

(** the restrictions cannot be dropped: a failing cost Hessian fails the Lagrangian Hessian *)
Theorem C61_many_controls_refuted : forall T (sc : Scalar T) (o : ocp T) scale var lam, (NX o < NU o)%nat ->
  lag_hes_dense o scale var lam = None /\ forall M, lag_hes_sparse o scale var lam M = None.
Proof.
  intros T sc o scale var lam H. unfold lag_hes_dense, lag_hes_sparse. rewrite dense_fail by auto. split; [reflexivity|].
  intro M. rewrite sparse_fail_u by auto. reflexivity.
Qed.

(** * examples *)
Lemma ex_fit : controls_fit ex_ocp /\ offsets_fit ex_ocp /\ forall var, terminal_param_free ex_ocp var.
Proof.
  split; [right; cbn; lia|]. split; [right; cbn; lia|]. intros var i j Hi Hj. cbn in *. reflexivity.
Qed.
Lemma ex_con2 : constraint_hessians_exact ex_ocp.
Proof.
  split; intros c Hc; cbn in Hc; (split; [intros i Hi x u p t dx du dp; cbn in Hi|intros x u p t i j Hi Hj; cbn in *;
    do 4 (destruct i as [|i]; [do 4 (destruct j as [|j]; [destruct c as [|[|c]]; [reflexivity|reflexivity|lia]|]); lia|]); lia]);
  (assert (i = 0 \/ i = 1 \/ i = 2 \/ i = 3)%nat as Hii by lia); (assert (c = 0 \/ c = 1)%nat as Hcc by lia);
  destruct Hcc as [->| ->]; destruct Hii as [->|[->|[->| ->]]]; cbn; try (apply cst_d; nd).
  - match goal with |- derivable_pt_lim _ _ ?a => replace a with (dp 0%nat) by nd end. apply line_d.
  - match goal with |- derivable_pt_lim _ _ ?a => replace a with (dx 0%nat) by nd end. apply line_d.
  - match goal with |- derivable_pt_lim _ _ ?a => replace a with (2 * dx 1%nat) by nd end. apply dbl_d.
Qed.

Example C34_example : exists M M' g H,
  run (hes_sparse ex_ocp) (ex_traj :: nil) (sp_empty (VAR ex_ocp) (VAR ex_ocp)) = Some M /\ hes_sparse ex_ocp ex_traj M = Some M' /\
  cost_gradient_hessian ex_ocp ex_traj = Some (cost ex_ocp ex_traj, g, H) /\
  is_hessian (VAR ex_ocp) (cost ex_ocp) ex_traj H /\
  forall i j, (i < VAR ex_ocp)%nat -> (j < VAR ex_ocp)%nat -> coeff M' i j = H i j.
Proof.
  destruct ex_fit as (F1 & F2 & F3). destruct ex_cheb as (HP & HS & HX & _).
  destruct (C34_dense_sparse_agree_partial ex_ocp HX HP HS F1 F2 ex_cost1 ex_cost2 (ex_traj :: nil) ex_traj (F3 ex_traj)
    (or_intror (fun e => nil_cons (eq_sym e)))) as (M & M' & g & H & E1 & E2 & E3 & V).
  exists M, M', g, H. split; [exact E1|]. split; [exact E2|]. split; [exact E3|]. split; [|exact V].
  destruct (C34_dense_partial ex_ocp HP HS F1 ex_cost1 ex_cost2 ex_traj (F3 ex_traj)) as (g' & H' & E' & _ & HH).
  rewrite E3 in E'. injection E' as <- <-. exact HH.
Qed.
Example C61_example : forall lam, exists H, lag_hes_dense ex_ocp 2 ex_traj lam = Some H /\
  is_hessian (VAR ex_ocp) (scaled_lagrangian ex_ocp 2 lam) ex_traj H.
Proof.
  intro lam. destruct ex_fit as (F1 & F2 & F3).
  apply (C61_dense_partial ex_ocp ex_cheb F1 ex_cost1 ex_cost2 ex_dyn_jac ex_ine_jac ex_con2 2 ex_traj lam (F3 ex_traj)).
Qed.
Example C61_sparse_example : forall lam, exists M M',
    run (fun q => lag_hes_sparse ex_ocp (fst q) (fst (snd q)) (snd (snd q))) ((1, (ex_traj, lam)) :: nil) (sp_empty (VAR ex_ocp) (VAR ex_ocp)) = Some M /\
    lag_hes_sparse ex_ocp 3 ex_traj lam M = Some M' /\
    is_hessian (VAR ex_ocp) (scaled_lagrangian ex_ocp 3 lam) ex_traj (coeff M').
Proof.
  intro lam. destruct ex_fit as (F1 & F2 & F3).
  destruct (C61_sparse_partial ex_ocp ex_cheb F1 F2 ex_cost1 ex_cost2 ex_dyn_jac ex_ine_jac ex_con2 ((1, (ex_traj, lam)) :: nil) 3 ex_traj lam)
    as (M & M' & E1 & E2 & H). exists M, M'. split; [exact E1|]. split; [exact E2|]. apply H. right. discriminate.
Qed.

Print Assumptions C34_dense_partial.
Print Assumptions C34_sparse_partial.
Print Assumptions C34_dense_sparse_agree_partial.
Print Assumptions C34_many_controls_refuted.
Print Assumptions C34_many_parameters_refuted.
Print Assumptions C34_dense_refuted.
Print Assumptions C34_sparse_refuted.
Print Assumptions C61_dense_partial.
Print Assumptions C61_sparse_partial.
Print Assumptions C61_lagrangian.
Print Assumptions C61_many_controls_refuted.
