Require Import ZArith Bool List Reals Lra Lia.
From Verif Require Import Scal Qp_Model Qp_Spec RSum Qp_Proofs Admm_Model BoxAdmm_Model Rho_Spec.
Local Open Scope R_scope.

Lemma rho_rule_ok tol rho q : 1 <= tol -> 1 / 1000000 <= rho <= 1000000 ->
  let nr := Rmax (1 / 1000000) (Rmin (rho * sqrt q) 1000000) in
  (nr < rho / tol \/ rho * tol < nr -> rho_rule tol rho q nr) /\
  (~ (nr < rho / tol \/ rho * tol < nr) -> rho_rule tol rho q rho).
Proof.
  intros Ht Hr nr.
  assert (0 < tol * tol) as T2 by nra.
  assert (rho <= rho * tol) as G1 by nra.
  assert (rho / tol <= rho) as G2.
  { apply (Rmult_le_reg_r tol); [lra|]. unfold Rdiv. rewrite Rmult_assoc, Rinv_l by lra. nra. }
  assert (0 <= sqrt q) as Sq by apply sqrt_pos.
  assert (tol < sqrt q -> tol * tol < q) as A1.
  { intro L. destruct (Rle_dec q 0) as [N|N]; [rewrite sqrt_neg_0 in L by exact N; lra|].
    rewrite <- (sqrt_sqrt q) by lra. nra. }
  assert (tol * tol < q -> tol < sqrt q) as A2.
  { intro L. rewrite <- (sqrt_square tol) by lra. apply sqrt_lt_1; nra. }
  assert (1 / (tol * tol) = (1 / tol) * (1 / tol)) as I2 by (field; lra).
  assert (0 < 1 / tol) as I1 by (apply Rdiv_lt_0_compat; lra).
  assert (sqrt q < 1 / tol -> q < 1 / (tol * tol)) as B1.
  { intro L. rewrite I2. destruct (Rle_dec q 0) as [N|N]; [nra|]. rewrite <- (sqrt_sqrt q) by lra. nra. }
  assert (q < 1 / (tol * tol) -> sqrt q < 1 / tol) as B2.
  { intro L. destruct (Rle_dec q 0) as [N|N]; [rewrite sqrt_neg_0 by exact N; exact I1|].
    rewrite <- (sqrt_square (1 / tol)) by lra. apply sqrt_lt_1; [lra|nra|lra]. }
  assert (rho / tol = rho * (1 / tol)) as Q by (field; lra).
  set (m := 1 / 1000000) in *. assert (0 < m) as Hm by (unfold m; lra).
  assert (m <= nr <= 1000000) as Hn.
  { unfold nr. split; [apply Rmax_l|]. apply Rmax_lub; [unfold m; lra|apply Rmin_r]. }
  assert (rho < nr -> nr = Rmin (rho * sqrt q) 1000000 /\ nr <= rho * sqrt q) as U1.
  { intro L. unfold nr in *. assert (Rmax m (Rmin (rho * sqrt q) 1000000) = Rmin (rho * sqrt q) 1000000) as E.
    { apply Rmax_right. destruct (Rle_dec m (Rmin (rho * sqrt q) 1000000)); [assumption|]. rewrite Rmax_left in L; lra. }
    rewrite E. split; [reflexivity|apply Rmin_l]. }
  assert (nr < rho -> nr = Rmax m (rho * sqrt q) /\ rho * sqrt q <= nr) as U2.
  { intro L. unfold nr in *. assert (Rmin (rho * sqrt q) 1000000 = rho * sqrt q) as E.
    { apply Rmin_left. destruct (Rle_dec (rho * sqrt q) 1000000); [assumption|].
      rewrite Rmin_right in L by lra. pose proof (Rmax_r m 1000000). lra. }
    rewrite E in *. split; [reflexivity|apply Rmax_r]. }
  assert (rho * tol < nr -> tol * tol < q) as K1.
  { intro L. apply A1. destruct U1 as [_ U]; [lra|]. nra. }
  assert (nr < rho / tol -> q < 1 / (tol * tol)) as K2.
  { intro L. apply B1. destruct U2 as [_ U]; [lra|]. rewrite Q in L. nra. }
  assert (1 / (tol * tol) <= tol * tol) as T3.
  { rewrite I2. assert (1 / tol <= 1) by (apply (Rmult_le_reg_r tol); [lra|]; unfold Rdiv; rewrite Rmult_assoc, Rinv_l; lra). nra. }
  split; intro HC.
  - unfold rho_rule. split; [exact Hn|]. split; [intro X|].
    { exfalso. destruct HC as [L|L]; [apply K2 in L|apply K1 in L]; lra. }
    split; [intro X|]. { destruct HC as [L|L]; [lra|]. split; [apply K1, L|apply U1, X]. }
    split; [intro X|]. { destruct HC as [L|L]; [|lra]. split; [apply K2, L|apply U2, X]. }
    split; [intros X Y|intros X Y].
    { destruct HC as [L|L]; [|lra]. apply K2 in L. lra. }
    { destruct HC as [L|L]; [lra|]. apply K1 in L. lra. }
  - unfold rho_rule. split; [exact Hr|]. split; [reflexivity|]. split; [intro; lra|]. split; [intro; lra|].
    split; [intros X Y|intros X Y]; exfalso; apply HC.
    + right. unfold nr. apply Rlt_le_trans with (Rmin (rho * sqrt q) 1000000); [|apply Rmax_r].
      apply Rmin_glb_lt; [|exact Y]. apply A2 in X. nra.
    + left. unfold nr. apply Rmax_lub_lt; [exact Y|]. apply Rle_lt_trans with (rho * sqrt q); [apply Rmin_l|].
      rewrite Q. apply B2 in X. nra.
Qed.

Definition imb (r : residuals R) : R := imbalance (res_prim r) (max_Ax_z r) (res_dual r) (max_Hx r).

Lemma chosen_rho s (r : residuals R) rho : 1 <= adaptive_rho_tolerance s -> 1 / 1000000 <= rho <= 1000000 ->
  rho_rule (adaptive_rho_tolerance s) rho (imb r)
    (if rho_change_needed s (clamp_rho (estimate_rho r rho)) rho then clamp_rho (estimate_rho r rho) else rho).
Proof.
  intros Ht Hr. destruct (rho_rule_ok (adaptive_rho_tolerance s) rho (imb r) Ht Hr) as [A B].
  assert (clamp_rho (estimate_rho r rho) = Rmax (1 / 1000000) (Rmin (rho * sqrt (imb r)) 1000000)) as E.
  { unfold clamp_rho. rewrite sfmax_R, sfmin_R. unfold RHO_MIN, RHO_MAX, estimate_rho, imb, imbalance, DIV_BY_ZERO_REGUL, scst. rsimp. reflexivity. }
  rewrite E in *. unfold rho_change_needed. set (nr := Rmax (1 / 1000000) (Rmin (rho * sqrt (imb r)) 1000000)) in *.
  destruct (sltb nr (rho / adaptive_rho_tolerance s))%S eqn:E1; cbn [orb].
  - apply A. left. apply Rltb_true in E1. exact E1.
  - destruct (sltb (rho * adaptive_rho_tolerance s) nr)%S eqn:E2.
    + apply A. right. apply Rltb_true in E2. exact E2.
    + apply B. intros [X|X]; apply Rltb_true in X; cbn in *; congruence.
Qed.

(** the loop bodies *)
Lemma admm_body_rho lsolve s p k (o o' : admm_obj R) : admm_body lsolve s p k o = Cont o' ->
  1 <= adaptive_rho_tolerance s -> 1 / 1000000 <= a_rho o <= 1000000 ->
  (adaptive_rho s = false \/ Z.rem k (adaptive_rho_interval s) <> 0%Z -> a_rho o' = a_rho o) /\
  (adaptive_rho s = true -> Z.rem k (adaptive_rho_interval s) = 0%Z ->
   rho_rule (adaptive_rho_tolerance s) (a_rho o) (imb (compute_residuals p (a_x o') (a_y o') (a_z o'))) (a_rho o')).
Proof.
  unfold admm_body. intros E Ht Hr.
  set (o2 := if is_check_iter s k then residuals_update p (admm_update lsolve s p o) else admm_update lsolve s p o) in *.
  assert (a_rho o2 = a_rho o) as R2 by (unfold o2; destruct (is_check_iter s k); reflexivity).
  destruct (is_check_iter s k && termination_criteria s (a_res o2))%bool; [discriminate|].
  destruct (adaptive_rho s); [|injection E as <-; split; [auto|discriminate]].
  destruct (Z.eqb_spec (adaptive_rho_interval s) 0); [discriminate|].
  destruct (Z.eqb_spec (Z.rem k (adaptive_rho_interval s)) 0) as [Z0|Z0].
  2:{ injection E as <-. split; [auto|intros; contradiction]. }
  injection E as <-. split; [intros [X|X]; [discriminate|contradiction]|]. intros _ _.
  set (o3 := if is_check_iter s k then o2 else residuals_update p o2).
  assert (a_rho o3 = a_rho o) as R3 by (unfold o3; destruct (is_check_iter s k); exact R2).
  assert (a_res o3 = compute_residuals p (a_x o3) (a_y o3) (a_z o3)) as RS.
  { unfold o3, o2. destruct (is_check_iter s k); reflexivity. }
  pose proof (chosen_rho s (a_res o3) (a_rho o3) Ht) as C. rewrite <- R3 in Hr. specialize (C Hr).
  unfold adapt_rho. cbv zeta. cbn [set_rho_estimate a_rho].
  rewrite RS in C at 1.
  destruct (rho_change_needed s (clamp_rho (estimate_rho (a_res o3) (a_rho o3))) (a_rho o3)); cbn; rewrite <- R3; exact C.
Qed.
Lemma box_body_rho lsolve s p k (o o' : box_obj R) : box_body lsolve s p k o = Cont o' ->
  1 <= adaptive_rho_tolerance s -> 1 / 1000000 <= b_rho o <= 1000000 ->
  (adaptive_rho s = false \/ Z.rem k (adaptive_rho_interval s) <> 0%Z -> b_rho o' = b_rho o) /\
  (adaptive_rho s = true -> Z.rem k (adaptive_rho_interval s) = 0%Z ->
   rho_rule (adaptive_rho_tolerance s) (b_rho o) (imb (box_compute_residuals p (b_x o') (b_y o') (b_z o') (b_q o'))) (b_rho o')).
Proof.
  unfold box_body. intros E Ht Hr.
  set (o2 := if is_check_iter s k then box_residuals_update p (box_update lsolve s p o) else box_update lsolve s p o) in *.
  assert (b_rho o2 = b_rho o) as R2 by (unfold o2; destruct (is_check_iter s k); reflexivity).
  destruct (is_check_iter s k && termination_criteria s (b_res o2))%bool; [discriminate|].
  destruct (adaptive_rho s); [|injection E as <-; split; [auto|discriminate]].
  destruct (Z.eqb_spec (adaptive_rho_interval s) 0); [discriminate|].
  destruct (Z.eqb_spec (Z.rem k (adaptive_rho_interval s)) 0) as [Z0|Z0].
  2:{ injection E as <-. split; [auto|intros; contradiction]. }
  injection E as <-. split; [intros [X|X]; [discriminate|contradiction]|]. intros _ _.
  set (o3 := if is_check_iter s k then o2 else box_residuals_update p o2).
  assert (b_rho o3 = b_rho o) as R3 by (unfold o3; destruct (is_check_iter s k); exact R2).
  assert (b_res o3 = box_compute_residuals p (b_x o3) (b_y o3) (b_z o3) (b_q o3)) as RS.
  { unfold o3, o2. destruct (is_check_iter s k); reflexivity. }
  pose proof (chosen_rho s (b_res o3) (b_rho o3) Ht) as C. rewrite <- R3 in Hr. specialize (C Hr).
  unfold box_adapt_rho. cbv zeta. cbn [bset_rho_estimate b_rho].
  rewrite RS in C at 1.
  destruct (rho_change_needed s (clamp_rho (estimate_rho (b_res o3) (b_rho o3))) (b_rho o3)); cbn; rewrite <- R3; exact C.
Qed.
