(** C71: adaptation of the ADMM step size in both QP solvers; C19: what validate() accepts. *)
Require Import ZArith Bool List Reals Lra Lia.
From Verif Require Import Scal Qp_Model Qp_Spec RSum Qp_Proofs Qp_Example Admm_Model Admm_ProofsR BoxAdmm_Model BoxAdmm_ProofsR Sqp_Model Rho_Spec Rho_Proofs.
Local Open Scope R_scope.

Lemma range_of (rho r0 : R) : rho = r0 \/ RHO_MIN <= rho <= RHO_MAX -> 1 / 1000000 <= r0 <= 1000000 -> 1 / 1000000 <= rho <= 1000000.
Proof. intros [->|H] H0; [exact H0|]. unfold RHO_MIN, RHO_MAX, scst in H. revert H. rsimp. lra. Qed.

(** every pass of every run: the step size changes only in adaptation passes, and there according to the rule *)
Theorem C71_admm_rho : forall lsolve full s p xg yg o k o1 o2,
  visits (admm_body lsolve s p) (max_iter s) (admm_setup full s p xg yg o) k o1 -> admm_body lsolve s p k o1 = Cont o2 ->
  1 / 1000000 <= rho0 s <= 1000000 -> 1 <= adaptive_rho_tolerance s ->
  (a_rho o2 <> a_rho o1 -> adaptive_rho s = true /\ Z.rem k (adaptive_rho_interval s) = 0%Z) /\
  (adaptive_rho s = true -> Z.rem k (adaptive_rho_interval s) = 0%Z ->
   let r := compute_residuals p (a_x o2) (a_y o2) (a_z o2) in
   rho_rule (adaptive_rho_tolerance s) (a_rho o1) (imbalance (res_prim r) (max_Ax_z r) (res_dual r) (max_Hx r)) (a_rho o2)).
Proof.
  intros lsolve full s p xg yg o k o1 o2 Hv Hb Hr Ht.
  pose proof (range_of _ _ (visits_rho lsolve full s p xg yg o k o1 Hv) Hr) as R1.
  destruct (admm_body_rho lsolve s p k o1 o2 Hb Ht R1) as [A B]. split; [|exact B].
  intro N. destruct (adaptive_rho s) eqn:E; [|exfalso; apply N, A; left; reflexivity].
  split; [reflexivity|]. destruct (Z.eq_dec (Z.rem k (adaptive_rho_interval s)) 0); [assumption|exfalso; apply N, A; right; assumption].
Qed.
Theorem C71_box_rho : forall lsolve full s p xg yg o k o1 o2,
  visits (box_body lsolve s p) (max_iter s) (box_setup full s p xg yg o) k o1 -> box_body lsolve s p k o1 = Cont o2 ->
  1 / 1000000 <= rho0 s <= 1000000 -> 1 <= adaptive_rho_tolerance s ->
  (b_rho o2 <> b_rho o1 -> adaptive_rho s = true /\ Z.rem k (adaptive_rho_interval s) = 0%Z) /\
  (adaptive_rho s = true -> Z.rem k (adaptive_rho_interval s) = 0%Z ->
   let r := box_compute_residuals p (b_x o2) (b_y o2) (b_z o2) (b_q o2) in
   rho_rule (adaptive_rho_tolerance s) (b_rho o1) (imbalance (res_prim r) (max_Ax_z r) (res_dual r) (max_Hx r)) (b_rho o2)).
Proof.
  intros lsolve full s p xg yg o k o1 o2 Hv Hb Hr Ht.
  pose proof (range_of _ _ (bvisits_rho lsolve full s p xg yg o k o1 Hv) Hr) as R1.
  destruct (box_body_rho lsolve s p k o1 o2 Hb Ht R1) as [A B]. split; [|exact B].
  intro N. destruct (adaptive_rho s) eqn:E; [|exfalso; apply N, A; left; reflexivity].
  split; [reflexivity|]. destruct (Z.eq_dec (Z.rem k (adaptive_rho_interval s)) 0); [assumption|exfalso; apply N, A; right; assumption].
Qed.

(** ten times too large a primal residual: factor 10; a balanced pair: no change; far too small: bounded by 1e-6 *)
Example C71_rule : rho_rule 5 (1/10) 100 1 /\ rho_rule 5 (1/10) 4 (1/10) /\ ~ rho_rule 5 (1/10) 100 (1/10) /\ ~ rho_rule 5 1 4 2.
Proof.
  assert (sqrt 100 = 10) as S by (replace 100 with (10 * 10) by lra; apply sqrt_square; lra).
  split; [|split; [|split]].
  - unfold rho_rule. rewrite S. rewrite Rmin_left by lra. repeat split; intros; lra.
  - unfold rho_rule. repeat split; intros; lra.
  - intros (_ & _ & _ & _ & X & _). lra.
  - intros (_ & X & _). lra.
Qed.
(** adaptation passes exist *)
Example C71_hypotheses : exists s o1 o2, let p := ex_qp in
  visits (admm_body (fun _ _ _ _ => 0) s p) (max_iter s) (admm_setup false s p (fun _ => 0) (fun _ => 0) (admm_new 1)) 1 o1 /\
  admm_body (fun _ _ _ _ => 0) s p 1 o1 = Cont o2 /\ 1 / 1000000 <= rho0 s <= 1000000 /\ 1 <= adaptive_rho_tolerance s /\
  adaptive_rho s = true /\ Z.rem 1 (adaptive_rho_interval s) = 0%Z.
Proof.
  exists (mkSettings (1/10) (1/10) 100 (1/10) (1/10) 1 25 true 5 1). cbv zeta.
  eexists _, _. split; [apply visits_first|]. split; [reflexivity|]. cbn. repeat split; lra.
Qed.

(** validate() accepts exactly the parameter ranges of a line search and positive tolerances and budgets *)
Theorem C19_validate_partial : forall st : sqp_settings R,
  validate st = true <->
  (0 < tau st < 1 /\ 0 < eta st < 1 /\ 0 < srho st < 1) /\ 0 < eps_prim st /\ 0 < eps_dual st /\ (0 < smax_iter st)%Z /\ (0 < ls_max_iter st)%Z.
Proof.
  intro st. unfold validate. rewrite !andb_true_iff, !Z.ltb_lt. cbn [sltb R_scalar].
  rewrite !Rltb_true. cbn. tauto.
Qed.
Example C19_validate_example : validate (mkSqpSettings (1/2) (1/4) (1/2) 1 1 100 10 false : sqp_settings R) = true.
Proof. apply C19_validate_partial. cbn. repeat split; try lra; lia. Qed.

Print Assumptions C71_admm_rho.
Print Assumptions C71_box_rho.
Print Assumptions C19_validate_partial.
