(** C07 for every relaxation: convergence of ADMM with 0 < alpha < 2, and what happens at alpha = 2. *)
Require Import ZArith List Bool Lia Reals Lra Psatz.
From Verif Require Import Scal RSum Qp_Model Qp_Spec Qp_Proofs Gauss Qp_Example Admm_Model Admm_Spec Admm_SpecR Admm_Proofs Admm_ProofsR Admm_Conv AdmmRelax_Spec AdmmRelax_Proofs AdmmRelax_Two Qp_ExampleR.
Local Open Scope R_scope.

(** consecutive iterates never move away from an optimum (xs, ys), measured with the cross term *)
Theorem C07_relaxed_monotone : forall lsolve full, exact_solver full lsolve ->
  forall s p xg yg ob xs ys, symmetric (qn p) (qH p) -> psd (qn p) (qH p) -> 0 < sigma s -> 0 < rho0 s ->
  0 < alpha s < 2 -> adaptive_rho s = false -> kkt_pair p xs ys ->
  forall k o o', visits (admm_body lsolve s p) (max_iter s) (admm_setup full s p xg yg ob) k o ->
    admm_body lsolve s p k o = Cont o' ->
    rdist2 s p (rho_fix s p) (a_x o') (a_z o') (a_y o') xs (stackv p xs) ys
    <= rdist2 s p (rho_fix s p) (a_x o) (a_z o) (a_y o) xs (stackv p xs) ys.
Proof. exact rvisits_monotone. Qed.
Print Assumptions C07_relaxed_monotone.

(** the distance of the result to any optimum in terms of the distance of the guess *)
Theorem C07_relaxed_result_near : forall lsolve full, exact_solver full lsolve ->
  forall s p xg yg ob xs ys, symmetric (qn p) (qH p) -> psd (qn p) (qH p) -> 0 < sigma s -> 0 < rho0 s ->
  0 < alpha s < 2 -> adaptive_rho s = false -> kkt_pair p xs ys ->
  forall o', admm_solve lsolve full s p xg yg ob = Some o' ->
    Rmin (alpha s) (2 - alpha s) * dist2 s p (rho_fix s p) (a_x o') (a_z o') (a_y o') xs (stackv p xs) ys
    <= Rmax (alpha s) (2 - alpha s) * dist2 s p (rho_fix s p) xg (stackv p xg) yg xs (stackv p xs) ys.
Proof.
  intros lsolve full He s p xg yg ob xs ys H1 H2 H3 H4 H5 H6 HK o' Ho.
  eapply Rle_trans. apply rdist2_bounds; auto.
  eapply Rle_trans. apply (rresult_near lsolve full He s p xg yg ob xs ys H1 H2 H3 H4 H5 H6 HK o' Ho).
  apply rdist2_bounds; auto.
Qed.
Print Assumptions C07_relaxed_result_near.

(** eventually SOLVED, with an explicit bound on the number of iterations *)
Theorem C07_relaxed_solved : forall lsolve full, exact_solver full lsolve ->
  forall s p xg yg ob xs ys, symmetric (qn p) (qH p) -> psd (qn p) (qH p) -> 0 < sigma s -> 0 < rho0 s ->
  0 < alpha s < 2 -> adaptive_rho s = false -> kkt_pair p xs ys ->
  0 < eps_abs s -> 0 <= eps_rel s -> check_termination s <> 0%Z ->
  forall N : nat,
    Rmax (alpha s) (2 - alpha s) * dist2 s p (rho_fix s p) xg (stackv p xg) yg xs (stackv p xs) ys
      < INR N * relaxed_threshold (eps_abs s) s p ->
    (Z.abs (check_termination s) * (Z.of_nat N + 1) <= max_iter s)%Z ->
    exists o', admm_solve lsolve full s p xg yg ob = Some o' /\ a_status o' = SOLVED /\
      (a_iter o' <= Z.abs (check_termination s) * (Z.of_nat N + 1))%Z.
Proof. exact rsolved_eventually. Qed.
Print Assumptions C07_relaxed_solved.

(** such an N always exists *)
Theorem C07_relaxed_bound_exists : forall s p xg yg xs ys, 0 < sigma s -> 0 < rho0 s -> 0 < alpha s < 2 -> 0 < eps_abs s ->
  exists N : nat, Rmax (alpha s) (2 - alpha s) * dist2 s p (rho_fix s p) xg (stackv p xg) yg xs (stackv p xs) ys
    < INR N * relaxed_threshold (eps_abs s) s p.
Proof.
  intros s p xg yg xs ys Hs Hr Ha He. assert (T := thr_pos s p Hs Hr Ha He).
  set (B := Rmax _ _ * _). destruct (archimed (B / relaxed_threshold (eps_abs s) s p)) as [U _].
  exists (Z.to_nat (up (B / relaxed_threshold (eps_abs s) s p))).
  assert (U2 : B / relaxed_threshold (eps_abs s) s p < INR (Z.to_nat (up (B / relaxed_threshold (eps_abs s) s p)))).
  { eapply Rlt_le_trans; [apply U|]. rewrite INR_IZR_INZ. apply IZR_le. lia. }
  apply Rmult_lt_reg_r with (/ relaxed_threshold (eps_abs s) s p). apply Rinv_0_lt_compat; auto.
  rewrite Rmult_assoc, Rinv_r, Rmult_1_r by lra. exact U2.
Qed.
Print Assumptions C07_relaxed_bound_exists.

(** the range of alpha is sharp: with alpha = 2 a solvable problem with one variable is never solved, however many
    iterations are allowed *)
Theorem C07_alpha_two_refuted : exists p xg yg xs ys (st : Z -> qp_settings R),
  symmetric (qn p) (qH p) /\ psd (qn p) (qH p) /\ kkt_pair p xs ys /\
  (forall mx, max_iter (st mx) = mx /\ 0 < sigma (st mx) /\ 0 < rho0 (st mx) /\ alpha (st mx) = 2 /\ adaptive_rho (st mx) = false /\
     0 < eps_abs (st mx) /\ 0 <= eps_rel (st mx) /\ check_termination (st mx) = 1%Z) /\
  forall lsolve full, exact_solver full lsolve -> forall mx ob o',
    admm_solve lsolve full (st mx) p xg yg ob = Some o' -> a_status o' <> SOLVED.
Proof.
  exists circle_qp, (fun _ => 1), (fun _ => 0), (fun _ => 0), (fun _ => 0), circle_settings.
  split; [apply circle_sym|]. split; [apply circle_psd|]. split; [apply circle_kkt|]. split.
  - intros mx. cbn [max_iter sigma rho0 alpha adaptive_rho eps_abs eps_rel check_termination circle_settings].
    do 7 (split; [auto; lra|]). reflexivity.
  - intros lsolve full He mx ob o'. apply circle_never. exact He.
Qed.
Print Assumptions C07_alpha_two_refuted.

Example C07_relaxed_example : exists mx o',
  admm_solve_cold (gauss_solver false) false (ex_settings mx (16/10) 25 false) ex_qp (admm_new 1) = Some o' /\ a_status o' = SOLVED.
Proof.
  destruct (ex_settings_ok 0 (16/10) 25 false) as (H1 & H2 & H3 & H4 & _).
  assert (Ha : 0 < alpha (ex_settings 0 (16/10) 25 false) < 2) by (simpl; lra).
  destruct (C07_relaxed_bound_exists (ex_settings 0 (16/10) 25 false) ex_qp (fun _ => 0) (fun _ => 0) ex_x ex_y H1 H2 Ha H3) as [N HN].
  exists (25 * (Z.of_nat N + 1))%Z.
  destruct (C07_relaxed_solved (gauss_solver false) false (gauss_solver_exact false) (ex_settings (25 * (Z.of_nat N + 1)) (16/10) 25 false) ex_qp
    (fun _ => 0) (fun _ => 0) (admm_new 1) ex_x ex_y ex_sym ex_psd H1 H2 Ha eq_refl ex_kkt H3 H4) with (N := N) as (o' & E & Es & _).
  - simpl; lia.
  - exact HN.
  - simpl. lia.
  - exists o'. split; [exact E|exact Es].
Qed.
