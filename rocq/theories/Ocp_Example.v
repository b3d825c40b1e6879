(** A concrete problem meeting the hypotheses of the OCP theorems:
    x0' = x1, x1' = u + p x0; path constraints x0 + u, x1^2; running cost x0^2 + u^2, terminal
    cost x1^2; order 2, two segments, time interval [1, 3]. *)
Require Import Arith ZArith List Bool Lia Reals Lra.
From Verif Require Import Scal RSum PolyR Poly_Spec Blk Sparse Cheb_Model Cheb_Proofs Ocp_Model Ocp_Spec Ocp_Proofs Ocp_Sparse_Model Ocp_Sparse_Proofs.
Local Open Scope R_scope.

Definition ex_lag : ufun R R * ufun R (vec R) * ufun R (mat R) :=
  ((fun x u p t => x 0%nat * x 0%nat + u 0%nat * u 0%nat),
   (fun x u p t i => match i with 0 => 2 * x 0%nat | 2 => 2 * u 0%nat | _ => 0 end),
   (fun x u p t i j => match i, j with 0, 0 => 2 | 2, 2 => 2 | _, _ => 0 end)).
Definition ex_may : ufun R R * ufun R (vec R) * ufun R (mat R) :=
  ((fun x u p t => x 1%nat * x 1%nat),
   (fun x u p t i => match i with 1 => 2 * x 1%nat | _ => 0 end),
   (fun x u p t i j => match i, j with 1, 1 => 2 | _, _ => 0 end)).
Definition ex_ocp : ocp R := {|
  NX := 2%nat; NU := 1%nat; NP := 1%nat; NG := 2%nat; PO := 2%nat; SG := 2%nat;
  m_D := cheb_D 2; m_nodes := cheb_nodes 2; m_w := cheb_int_weights 2;
  t_start := 1; t_stop := 3;
  o_dyn := fun x u p t c => match c with 0 => x 1%nat | _ => u 0%nat + p 0%nat * x 0%nat end;
  o_dyn_jac := fun x u p t c j =>
    match c, j with 0, 1 => 1 | 0, _ => 0 | _, 0 => p 0%nat | _, 2 => 1 | _, 3 => x 0%nat | _, _ => 0 end;
  o_dyn_hes := fun x u p t c i j => match c, i, j with 1, 0, 3 => 1 | 1, 3, 0 => 1 | _, _, _ => 0 end;
  o_ine := fun x u p t c => match c with 0 => x 0%nat + u 0%nat | _ => x 1%nat * x 1%nat end;
  o_ine_jac := fun x u p t c j =>
    match c, j with 0, 0 => 1 | 0, 2 => 1 | 0, _ => 0 | _, 1 => 2 * x 1%nat | _, _ => 0 end;
  o_ine_hes := fun x u p t c i j => match c, i, j with 1, 1, 1 => 2 | _, _, _ => 0 end;
  o_lag := Some ex_lag; o_may := Some ex_may |}.

Lemma ex_cheb : chebyshev_ocp ex_ocp.
Proof. repeat split; try reflexivity; cbn; lia. Qed.
Lemma ex_time : t_start ex_ocp < t_stop ex_ocp.
Proof. cbn. lra. Qed.

Lemma line_d : forall a b, derivable_pt_lim (fun h => a + h * b) 0 b.
Proof. intros. apply derivable_line. Qed.
Lemma prod_d : forall a b c d, derivable_pt_lim (fun h => (a + h * b) * (c + h * d)) 0 (b * c + a * d).
Proof.
  intros. replace (b * c + a * d) with (b * (c + 0 * d) + (a + 0 * b) * d) by ring.
  apply (derivable_pt_lim_mult (fun h => a + h * b) (fun h => c + h * d)); apply line_d.
Qed.
Ltac nd := unfold node_dot; cbn [NX NU NP NG ex_ocp]; rewrite ?rsum_S, ?rsum_0; cbn; ring.

Lemma ex_dyn_jac : jacobian_of ex_ocp (NX ex_ocp) (o_dyn ex_ocp) (o_dyn_jac ex_ocp).
Proof.
  intros c Hc x u p t dx du dp. cbn in Hc. assert (c = 0 \/ c = 1)%nat as [->| ->] by lia; cbn.
  - match goal with |- derivable_pt_lim _ _ ?a => replace a with (dx 1%nat) by nd end. apply line_d.
  - match goal with |- derivable_pt_lim _ _ ?a => replace a with (du 0%nat + (dp 0%nat * x 0%nat + p 0%nat * dx 0%nat)) by nd end.
    apply (derivable_pt_lim_plus (fun h => u 0%nat + h * du 0%nat) (fun h => (p 0%nat + h * dp 0%nat) * (x 0%nat + h * dx 0%nat))); [apply line_d|apply prod_d].
Qed.
Lemma ex_ine_jac : jacobian_of ex_ocp (NG ex_ocp) (o_ine ex_ocp) (o_ine_jac ex_ocp).
Proof.
  intros c Hc x u p t dx du dp. cbn in Hc. assert (c = 0 \/ c = 1)%nat as [->| ->] by lia; cbn.
  - match goal with |- derivable_pt_lim _ _ ?a => replace a with (dx 0%nat + du 0%nat) by nd end.
    apply (derivable_pt_lim_plus (fun h => x 0%nat + h * dx 0%nat) (fun h => u 0%nat + h * du 0%nat)); apply line_d.
  - match goal with |- derivable_pt_lim _ _ ?a => replace a with (dx 1%nat * x 1%nat + x 1%nat * dx 1%nat) by nd end. apply prod_d.
Qed.
Lemma ex_cost1 : cost_gradients_exact ex_ocp.
Proof.
  split; intros x u p t dx du dp; cbn.
  - match goal with |- derivable_pt_lim _ _ ?a =>
      replace a with ((dx 0%nat * x 0%nat + x 0%nat * dx 0%nat) + (du 0%nat * u 0%nat + u 0%nat * du 0%nat)) by nd end.
    apply (derivable_pt_lim_plus (fun h => (x 0%nat + h * dx 0%nat) * (x 0%nat + h * dx 0%nat)) (fun h => (u 0%nat + h * du 0%nat) * (u 0%nat + h * du 0%nat))); apply prod_d.
  - match goal with |- derivable_pt_lim _ _ ?a => replace a with (dx 1%nat * x 1%nat + x 1%nat * dx 1%nat) by nd end. apply prod_d.
Qed.
Lemma cst_d : forall c x l, l = 0 -> derivable_pt_lim (fun _ => c) x l.
Proof. intros c x l ->. apply (derivable_pt_lim_const c). Qed.
Lemma dbl_d : forall a b, derivable_pt_lim (fun h => 2 * (a + h * b)) 0 (2 * b).
Proof. intros. apply (derivable_pt_lim_scal (fun h => a + h * b)). apply line_d. Qed.
Lemma ex_cost2 : cost_hessians_exact ex_ocp.
Proof.
  split; (split; [intros i Hi x u p t dx du dp; cbn in Hi|intros x u p t i j Hi Hj; cbn in *;
    do 4 (destruct i as [|i]; [do 4 (destruct j as [|j]; [reflexivity|]); lia|]); lia]);
  (assert (i = 0 \/ i = 1 \/ i = 2 \/ i = 3)%nat as [->|[->|[->| ->]]] by lia); cbn; try (apply cst_d; nd).
  - match goal with |- derivable_pt_lim _ _ ?a => replace a with (2 * dx 0%nat) by nd end. apply dbl_d.
  - match goal with |- derivable_pt_lim _ _ ?a => replace a with (2 * du 0%nat) by nd end. apply dbl_d.
  - match goal with |- derivable_pt_lim _ _ ?a => replace a with (2 * dx 1%nat) by nd end. apply dbl_d.
Qed.

(** the diagonal of the order 2 differentiation matrix is (3/2, 0, -3/2) *)
Lemma cheb2_nodes : cheb_nodes 2 0%nat = 1 /\ cheb_nodes 2 1%nat = 0 /\ cheb_nodes 2 2%nat = -1.
Proof. split; [apply nodes_first|]. split; [|apply nodes_last; lia]. pose proof (nodes_symmetric 2 1 ltac:(lia) ltac:(lia)). simpl in H. lra. Qed.
Lemma cheb2_diag : cheb_D 2 0%nat 0%nat = 3 / 2 /\ cheb_D 2 1%nat 1%nat = 0 /\ cheb_D 2 2%nat 2%nat = - 3 / 2.
Proof.
  destruct cheb2_nodes as (E0 & E1 & E2).
  assert (c0 : cheb_c 2 0%nat = 2) by (unfold cheb_c; simpl; ring). assert (c1 : cheb_c 2 1%nat = -1) by (unfold cheb_c; simpl; ring).
  assert (c2 : cheb_c 2 2%nat = 2) by (unfold cheb_c; simpl; ring).
  pose proof (D_row_sum 2 0 ltac:(lia)) as R0. pose proof (D_row_sum 2 1 ltac:(lia)) as R1. pose proof (D_row_sum 2 2 ltac:(lia)) as R2.
  rewrite !rsum_S, rsum_0 in R0, R1, R2.
  rewrite (D_off 2 0 1), (D_off 2 0 2) in R0 by lia. rewrite (D_off 2 1 0), (D_off 2 1 2) in R1 by lia. rewrite (D_off 2 2 0), (D_off 2 2 1) in R2 by lia.
  rewrite E0, E1, E2, c0, c1, c2 in *. repeat split; lra.
Qed.
Lemma ex_prune : prune_safe ex_ocp.
Proof.
  right. intros l Hl. cbn [m_D ex_ocp]. cbn in Hl. destruct cheb2_diag as (E0 & E1 & E2).
  assert (H : @prune_thr R R_scalar < 1).
  { unfold prune_thr. cbn [sdiv s1 sofZ R_scalar]. unfold Rdiv. rewrite Rmult_1_l.
    rewrite <- Rinv_1. apply Rinv_lt_contravar; [rewrite Rmult_1_l|]; apply IZR_lt; reflexivity. }
  assert (l = 0 \/ l = 1 \/ l = 2)%nat as [->|[->| ->]] by lia; [right; rewrite E0|left; exact E1|right; rewrite E2].
  - rewrite Rabs_right; lra.
  - rewrite Rabs_left; lra.
Qed.
Lemma ex_dyn_reads : reads_node ex_ocp (o_dyn ex_ocp) (NX ex_ocp).
Proof.
  intros x u p x' u' p' t c Hc Hx Hu Hp. cbn in *. assert (c = 0 \/ c = 1)%nat as [->| ->] by lia; cbn.
  - apply Hx; lia.
  - rewrite Hx, Hu, Hp by lia. reflexivity.
Qed.

(** the trajectory x0(t) = t, x1(t) = 1, u = 0, p = 0 *)
Definition ex_traj : vec R := fun i =>
  if (i <? 10)%nat then (if (i mod 2 =? 0)%nat then time_nodes ex_ocp (i / 2)%nat else 1) else 0.
