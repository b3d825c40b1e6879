(** x' = u on [0, 1] from x = 1 with running cost x^2 + u^2, one segment of order 1: the example problem of C102. *)
Require Import Arith ZArith List Bool Lia Reals Lra.
From Verif Require Import Scal RSum Poly_Spec Cheb_Model Cheb_Proofs Blk Ocp_Model Ocp_Spec Ocp_Proofs Ocp_Cost_Proofs Ocp_Cor_Proofs
  Mpc_Model Mpc_Spec Qp_Model Qp_Spec Sqp_Model Sqp_Spec Sqp_Proofs SqpQp_Spec Msv_Model LqMpc_Spec LqMpc_Proofs.
Import ListNotations.
Local Open Scope R_scope.

Definition lq_cost : ufun R R * ufun R (vec R) * ufun R (mat R) :=
  (fun x u _ _ => x O * x O + u O * u O, fun x u _ _ i => match i with O => 2 * x O | _ => 2 * u O end,
   fun _ _ _ _ i j => if (i =? j)%nat then 2 else 0).
Definition lq_user : user := User (fun _ _ u _ _ => u) (fun _ _ _ _ _ _ => 0) (fun _ => Some lq_cost) (fun _ => None).
Definition lq_ocp : ocp R := mkOcp 1 1 0 0 1 1 (cheb_D 1) (cheb_nodes 1) (cheb_int_weights 1) 0 1
  (fun _ _ _ _ _ => 0) (fun _ _ _ _ _ _ => 0) (fun _ _ _ _ _ _ _ => 0) (fun _ _ _ _ _ => 0) (fun _ _ _ _ _ _ => 0) (fun _ _ _ _ _ _ _ => 0) None None.
Definition lq_par : vec R := fun _ => 0.
Definition lq_full : ocp R := at_params lq_user lq_ocp lq_par.
(** the variables: x at the end, x at the beginning, u at the end, u at the beginning *)
Definition lq_jac : mat R := fun i j => match j with 0%nat => / 2 | 1%nat => - / 2 | S (S k) => if (k =? i)%nat then - / 2 else 0 end.
Definition lq_con : vec R -> vec R := fun x i => if (i <? 2)%nat then equalities lq_full x i else inequalities lq_full x (i - 2)%nat.
Definition lq_id : mat R := fun i j => if (i =? j)%nat then 1 else 0.
Definition lq_lag_full (x lam : vec R) : vec R * mat R * vec R * vec R * mat R := (fun _ => 0, lq_id, x, lq_con x, lq_jac).
Definition lq_lag (x lam : vec R) : vec R * vec R * vec R * mat R := (fun _ => 0, x, lq_con x, lq_jac).
Definition lq_xs : vec R := fun j => match j with 0%nat => 2 / 3 | 1%nat => 1 | _ => - / 3 end.
Definition lq_ls : vec R := fun i => match i with 0%nat | 1%nat => - (2 / 3) | 3%nat => - (5 / 3) | _ => 0 end.
Definition lq_qp (q : unit) (d : qp_data R) : unit * (vec R * vec R * Z) := (q, (fun j => lq_xs j - qh d j, lq_ls, 1%Z)).
Definition lq_set : sqp_settings R := mkSqpSettings (1/2) (1/4) (1/2) (1/1000) (1/1000) 10 10 false.
Definition lq_mpc : mpc R := mpc_init lq_ocp (fun _ => 0) (fun _ => 0) lq_par
  (fun j => if (j =? 1)%nat then 1 else -10) (fun j => if (j =? 1)%nat then 1 else 10) (fun _ => 0) (fun _ => 0).
Definition lq_sqp : sqp_state unit unit := mkSqp (fun _ => 0) (fun _ => 0) (fun _ => 0) (fun _ _ => 0) (fun _ => 0) 0 0 (Fin 0) 0 SqpMaxIter 0 0 tt tt [] [] [].
Definition lq_run : mpc R * sqp_state unit unit :=
  mpc_solve lq_user 10 lq_lag_full lq_lag lq_set unit unit (fun H _ _ => H) (fun H => H) (fun w d => (w, d)) (fun _ v => v) (fun _ d => d) lq_qp (fun q => q)
    (lq_mpc, lq_sqp).
Definition lq_nlp : problem R := nlp_of lq_user 10 lq_lag_full lq_lag lq_mpc.

Lemma lq_cheb : chebyshev_ocp lq_ocp.
Proof. repeat split; try reflexivity; cbn; lia. Qed.
Lemma lq_w : forall k, (k <= 1)%nat -> cheb_int_weights 1 k = 1.
Proof.
  pose proof (cc_sum 1 ltac:(lia)) as E. pose proof (cc_symmetric 1 0 ltac:(lia) ltac:(lia)) as E'. rewrite !rsum_S, rsum_0 in E. cbn [Nat.sub] in E'.
  intros k Hk. destruct k as [|[|k]]; [lra|lra|lia].
Qed.
Lemma lq_D : forall i, (i <= 1)%nat -> cheb_D 1 i 0%nat = / 2 /\ cheb_D 1 i 1%nat = - / 2.
Proof.
  intros i Hi. pose proof (D_row_sum 1 i Hi) as E. rewrite !rsum_S, rsum_0 in E.
  assert (P : is_poly 1 (fun t : R => t)) by (exists (fun k => match k with O => 0 | _ => 1 end); intro x; rewrite !rsum_S, rsum_0; cbn; ring).
  assert (Dv : derivative_of (fun t : R => t) (fun _ => 1)) by (intro x; apply derivable_pt_lim_id).
  pose proof (cheb_D_poly 1 _ _ ltac:(lia) P Dv i Hi) as E'. rewrite !rsum_S, rsum_0, nodes_first, nodes_last in E' by lia. lra.
Qed.

Lemma lq_scale : t_scale lq_full = / 2.
Proof. rewrite t_scale_eq by (cbn; lia). unfold tlen. cbn. field. Qed.
Lemma lq_eqs : forall x i, (i < 2)%nat -> equalities lq_full x i = / 2 * x O - / 2 * x 1%nat - / 2 * x (2 + i)%nat.
Proof.
  intros x i Hi.
  replace (equalities lq_full x i) with (equalities lq_full x (ix lq_full (0 * PO lq_full + i) 0)) by (f_equal; unfold ix; cbn; lia).
  rewrite equalities_eq by (cbn; lia). rewrite DX_eq by (cbn; lia). rewrite lq_scale.
  change (PO lq_full) with 1%nat. rewrite !rsum_S, rsum_0. change (m_D lq_full) with (cheb_D 1).
  destruct (lq_D i ltac:(lia)) as [-> ->]. unfold state, at_node, ix. cbn [lq_full at_params o_dyn lq_user u_dyn NX lq_ocp].
  unfold uk, seg. cbn [Nat.mul Nat.add]. replace (i * NU lq_full + VARX lq_full + 0)%nat with (2 + i)%nat by (cbn; lia).
  cbn [Nat.add]. ring.
Qed.
Lemma lq_cost_eq : forall x, cost lq_full x = / 2 * (x 0%nat * x 0%nat + x 1%nat * x 1%nat + x 2%nat * x 2%nat + x 3%nat * x 3%nat).
Proof.
  intros x. rewrite cost_formula, lq_scale. change (SG lq_full) with 1%nat. change (PO lq_full) with 1%nat. rewrite !rsum_S, !rsum_0.
  change (Ocp_Model.m_w lq_full) with (cheb_int_weights 1). rewrite !lq_w by lia.
  unfold running_cost, terminal_cost, state, control, ix, iu. cbn. field.
Qed.

Lemma four : forall (P : nat -> Prop), P 0%nat -> P 1%nat -> P 2%nat -> P 3%nat -> forall j, (j < 4)%nat -> P j.
Proof. intros P P0 P1 P2 P3 j Hj. do 4 (destruct j as [|j]; [assumption|]). lia. Qed.
Lemma two : forall (P : nat -> Prop), P 0%nat -> P 1%nat -> forall j, (j < 2)%nat -> P j.
Proof. intros P P0 P1 j Hj. do 2 (destruct j as [|j]; [assumption|]). lia. Qed.

Lemma lq_id_qf : forall x, qf 4 lq_id x = x 0%nat * x 0%nat + x 1%nat * x 1%nat + x 2%nat * x 2%nat + x 3%nat * x 3%nat.
Proof. intros. rewrite qf_sum2, !rsum_S, !rsum_0. unfold lq_id. cbn. ring. Qed.
Lemma lq_id_posdef : posdef 4 lq_id.
Proof.
  intros x (i & Hi & Hx). rewrite lq_id_qf. revert i Hi Hx.
  pose proof (Rle_0_sqr (x 0%nat)). pose proof (Rle_0_sqr (x 1%nat)). pose proof (Rle_0_sqr (x 2%nat)). pose proof (Rle_0_sqr (x 3%nat)). unfold Rsqr in *.
  apply (four (fun i => x i <> 0 -> 0 < x 0%nat * x 0%nat + x 1%nat * x 1%nat + x 2%nat * x 2%nat + x 3%nat * x 3%nat)); intros Hx;
    apply Rsqr_pos_lt in Hx; unfold Rsqr in Hx; lra.
Qed.
Lemma lq_rowdot : forall x i, (i < 2)%nat -> rdot 4 (lq_jac i) x = / 2 * x O - / 2 * x 1%nat - / 2 * x (2 + i)%nat.
Proof. intros x. apply two; rewrite rdot_def, !rsum_S, rsum_0; unfold lq_jac; cbn; ring. Qed.

Lemma lq_lq : linear_quadratic lq_user lq_ocp lq_par.
Proof.
  split; [|split; [|split]].
  - exists (fun _ _ j => match j with 1%nat => 1 | _ => 0 end), (fun _ _ => 0). intros x u p t c Hc. replace c with 0%nat by (cbn in Hc; lia).
    rewrite rmv_def. change (zsize lq_ocp) with 2%nat. rewrite !rsum_S, rsum_0. unfold stacked. cbn. ring.
  - exists (fun _ _ _ => 0), (fun _ _ => 0). intros x u p t c Hc. cbn in Hc. lia.
  - exists (fun _ i j => if (i =? j)%nat then 2 else 0). cbn [lq_user u_lag]. split.
    + intros t i j _ _. rewrite Nat.eqb_sym. reflexivity.
    + exists (fun _ _ => 0), (fun _ => 0). intros x u p t. rewrite rdot0, qf_sum2. change (zsize lq_ocp) with 2%nat. rewrite !rsum_S, !rsum_0.
      unfold stacked. cbn. field.
  - exists (fun _ _ _ => 0). exact I.
Qed.

Lemma lq_deriv : exact_derivatives lq_nlp (fun x => x) (fun _ => lq_jac) lq_id.
Proof.
  change (nx lq_nlp) with 4%nat. split; [|split].
  - intros x d. pose proof (dir_quad 4 lq_id (fun _ => 0) 0 (p_cost lq_nlp) x d) as X. change (nx lq_nlp) with 4%nat.
    rewrite (rdot_ext 4 x d (fun j => 0 + rmv 4 lq_id x j) d).
    + apply X; [intros i j _ _; unfold lq_id; rewrite Nat.eqb_sym; reflexivity|].
      intros y. rewrite rdot0, lq_id_qf. change (p_cost lq_nlp) with (cost lq_full). rewrite lq_cost_eq. ring.
    + apply four; rewrite rmv_def, !rsum_S, rsum_0; unfold lq_id; cbn; ring.
    + reflexivity.
  - intros i x d Hi. change (i < 2)%nat in Hi. change (nx lq_nlp) with 4%nat. apply (dir_aff 4 (lq_jac i) 0).
    intros y. unfold constr_values. change (ne lq_nlp) with 2%nat. destruct (Nat.ltb_spec i 2); [|lia].
    change (p_eq lq_nlp) with (equalities lq_full). rewrite lq_eqs, lq_rowdot by exact Hi. ring.
  - intros j x d Hj. change (j < 4)%nat in Hj. change (nx lq_nlp) with 4%nat. apply (dir_aff 4 (lq_id j) 0).
    intros y. revert j Hj. apply four; rewrite rdot_def, !rsum_S, rsum_0; unfold lq_id; cbn; ring.
Qed.
Lemma lq_lin : linearised_by lq_nlp (fun x => x) (fun _ => lq_jac).
Proof. split; intros x lam; repeat eexists; reflexivity. Qed.

Lemma lq_bounds : lbx lq_nlp 1%nat = Fin 1 /\ ubx lq_nlp 1%nat = Fin 1 /\ (forall j, j <> 1%nat -> lbx lq_nlp j = MInf /\ ubx lq_nlp j = PInf).
Proof.
  unfold lq_nlp, nlp_of, lbx, ubx, lq_mpc, mpc_init, m_lbx, m_ubx, as_bound. split; [|split].
  - cbn [Nat.eqb]. repeat destruct (Rle_dec _ _); try reflexivity; exfalso; lra.
  - cbn [Nat.eqb]. repeat destruct (Rle_dec _ _); try reflexivity; exfalso; lra.
  - intros j Hj. destruct (Nat.eqb_spec j 1); [contradiction|]. split; repeat destruct (Rle_dec _ _); try reflexivity; exfalso; lra.
Qed.

Lemma lq_kkt : nlp_kkt lq_nlp lq_xs lq_jac lq_xs lq_ls.
Proof.
  destruct lq_bounds as (B1 & B2 & B3). unfold nlp_kkt, nlp_feasible. change (nx lq_nlp) with 4%nat. change (ne lq_nlp) with 2%nat. change (ni lq_nlp) with 0%nat.
  change (p_eq lq_nlp) with (equalities lq_full).
  split; [split; [|split]|split; [|split]].
  - intros i Hi. rewrite lq_eqs by exact Hi. revert i Hi. apply two; unfold lq_xs; cbn; lra.
  - intros i Hi. lia.
  - intros j Hj. destruct (Nat.eq_dec j 1) as [->|N]; [rewrite B1, B2; unfold lq_xs; cbn; split; cbn; lra|].
    destruct (B3 j N) as [-> ->]. split; exact I.
  - cbn [Nat.add]. apply four; rewrite !rsum_S, rsum_0; unfold lq_xs, lq_jac, lq_ls; cbn; lra.
  - intros i Hi. lia.
  - cbn [Nat.add]. intros j Hj. destruct (Nat.eq_dec j 1) as [->|N].
    + rewrite B1, B2. unfold lq_xs, lq_ls. split; intros; cbn; f_equal; reflexivity || lra.
    + assert (E : lq_ls (2 + j)%nat = 0) by (do 4 (destruct j as [|j]; [reflexivity || contradiction|]); lia). cbn [Nat.add] in E. rewrite E. split; lra.
Qed.
Lemma lq_unique : forall x lam, nlp_kkt lq_nlp x lq_jac x lam ->
  (forall j, (j < 4)%nat -> x j = lq_xs j) /\ forall i, (i < 6)%nat -> lam i = lq_ls i.
Proof.
  destruct lq_bounds as (B1 & B2 & B3).
  intros x lam ((F1 & _ & F3) & K & _ & Sg). change (nx lq_nlp) with 4%nat in *. change (ne lq_nlp) with 2%nat in *. change (ni lq_nlp) with 0%nat in *.
  cbn [Nat.add] in *. change (p_eq lq_nlp) with (equalities lq_full) in F1.
  assert (Z : forall j, (j < 4)%nat -> j <> 1%nat -> lam (S (S j)) = 0).
  { intros j Hj N. destruct (Sg j Hj) as [S1 S2]. destruct (B3 j N) as [L U]. rewrite L in S2. rewrite U in S1.
    destruct (Rtotal_order (lam (S (S j))) 0) as [H|[H|H]]; [discriminate (S2 H)|exact H|discriminate (S1 H)]. }
  pose proof (Z 0 ltac:(lia) ltac:(lia))%nat. pose proof (Z 2 ltac:(lia) ltac:(lia))%nat. pose proof (Z 3 ltac:(lia) ltac:(lia))%nat.
  pose proof (K 0 ltac:(lia))%nat as K0. pose proof (K 1 ltac:(lia))%nat as K1. pose proof (K 2 ltac:(lia))%nat as K2. pose proof (K 3 ltac:(lia))%nat as K3.
  pose proof (F1 0 ltac:(lia))%nat as E0. pose proof (F1 1 ltac:(lia))%nat as E1. rewrite lq_eqs in E0, E1 by lia.
  pose proof (F3 1 ltac:(lia))%nat as [L1 L2]. rewrite B1 in L1. rewrite B2 in L2. cbn in L1, L2.
  rewrite !rsum_S, rsum_0 in *. unfold lq_jac in *. cbn in K0, K1, K2, K3, E0, E1.
  split; intros i Hi.
  - do 4 (destruct i as [|i]; [unfold lq_xs; lra|]). lia.
  - do 6 (destruct i as [|i]; [unfold lq_ls; lra|]). lia.
Qed.

(** the step of the example's QP solver is exact at every point *)
Lemma lq_exact : forall x, exact_step (sub_qp lq_nlp lq_id x lq_jac (lq_con x) x, (fun j => lq_xs j - x j, lq_ls)).
Proof.
  intros x. split; [exact lq_id_posdef|]. cbn [fst snd]. destruct lq_bounds as (B1 & B2 & B3). destruct lq_kkt as ((F1 & _ & F3) & St & _ & Sg).
  change (nx lq_nlp) with 4%nat in *. change (ne lq_nlp) with 2%nat in *. change (ni lq_nlp) with 0%nat in *. change (p_eq lq_nlp) with (equalities lq_full) in F1.
  assert (C : forall i, (i < 2)%nat -> rmv 4 lq_jac (fun j => lq_xs j - x j) i = - lq_con x i).
  { intros i Hi. specialize (F1 i Hi). rewrite lq_eqs in F1 by exact Hi. unfold lq_con. destruct (Nat.ltb_spec i 2); [|lia]. rewrite lq_eqs by exact Hi.
    change (rmv 4 lq_jac (fun j => lq_xs j - x j) i) with (rdot 4 (lq_jac i) (fun j => lq_xs j - x j)). rewrite lq_rowdot by exact Hi. lra. }
  unfold kkt_pair, qp_feasible, lag_grad. unfold sub_qp. cbn [qn qm qH qh qA qAlb qAub qxlb qxub]. change (nx lq_nlp) with 4%nat. change (ne lq_nlp) with 2%nat. change (ni lq_nlp) with 0%nat.
  cbn [Nat.add] in *. split; [|split; [split|split]].
  - intros j Hj. rewrite <- (St j Hj). replace (rmv 4 lq_id (fun j => lq_xs j - x j) j) with (lq_xs j - x j); [ring|].
    revert j Hj. apply four; rewrite rmv_def, !rsum_S, rsum_0; unfold lq_id; cbn; ring.
  - intros i Hi. rewrite C by exact Hi. destruct (Nat.ltb_spec i 2); [|lia]. split; cbn; lra.
  - intros j Hj. destruct (Nat.eq_dec j 1) as [->|N]; [rewrite B1, B2; unfold lq_xs; split; cbn; lra|]. destruct (B3 j N) as [-> ->]. split; exact I.
  - intros i Hi. rewrite C by exact Hi. destruct (Nat.ltb_spec i 2); [|lia]. split; reflexivity.
  - intros j Hj. destruct (Nat.eq_dec j 1) as [->|N].
    + rewrite B1, B2. unfold lq_xs. split; reflexivity.
    + specialize (Sg j Hj). destruct (B3 j N) as [L U]. rewrite L, U in *. destruct Sg as [S1 S2]. split; intros H; [discriminate (S1 H)|discriminate (S2 H)].
Qed.

Lemma lq_steps : Forall exact_step (steps (snd lq_run)) /\ Forall (hessian_is 4 lq_id) (steps (snd lq_run)).
Proof.
  unfold lq_run, mpc_solve. cbn [snd]. fold lq_nlp.
  match goal with |- Forall _ (steps ?r) /\ _ => enough (X : m_H r = lq_id /\ Forall (fun e => exact_step e /\ hessian_is 4 lq_id e) (steps r)) end.
  { destruct X as [_ X]. split; (eapply Forall_impl; [|exact X]); intros e [X1 X2]; assumption. }
  apply (solve_inv lq_nlp lq_set unit unit (fun H _ _ => H) (fun H => H) (fun w d => (w, d)) (fun _ v => v) (fun _ d => d) lq_qp (fun q => q)
    (fun s => m_H s = lq_id /\ Forall (fun e => exact_step e /\ hessian_is 4 lq_id e) (steps s))).
  - intros s s' (_ & _ & _ & E1 & _ & _ & _ & _ & _ & E2). rewrite E1, E2. auto.
  - intros s lagg h b A [HP HF] E. change (p_lag lq_nlp) with lq_lag in E. injection E as <- <- <- <-.
    unfold sqp_step. cbn [lq_qp]. destruct (step_size_selection _ _ _ _ _ _ _) as [[al c] ev]. cbn [m_H steps].
    split; [exact HP|]. constructor; [|exact HF]. rewrite HP. split; [apply lq_exact|]. intros i j _ _. reflexivity.
  - unfold sqp_first. change (p_lag_full lq_nlp) with lq_lag_full. unfold lq_lag_full.
    unfold sqp_step. cbn [lq_qp]. destruct (step_size_selection _ _ _ _ _ _ _) as [[al c] ev]. cbn [m_H steps].
    split; [reflexivity|]. constructor; [|constructor]. split; [apply lq_exact|]. intros i j _ _. reflexivity.
Qed.
