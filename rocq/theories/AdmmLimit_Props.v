(** C94: the iterates of ADMM (0 < alpha < 2) and boxADMM (alpha = 1) converge to one optimum. *)
Require Import ZArith List Bool Lia Reals Lra.
From Verif Require Import Scal RSum Qp_Model Qp_Spec Qp_Proofs Gauss Qp_Example Admm_Model Admm_Spec Admm_SpecR Admm_Proofs Admm_ProofsR Admm_Conv
  AdmmRelax_Spec AdmmRelax_Proofs BoxAdmm_Model BoxAdmm_Proofs BoxAdmm_ProofsR BoxAdmm_Equiv AdmmLimit_Spec AdmmLimit_Proofs.
Local Open Scope R_scope.

(** One optimum (xl, yl), determined by the problem, the guess, sigma, rho and alpha, is approached by every run: whatever
    exact linear solver, storage mode, previous use of the object, check interval, iteration limit and tolerances, a run that
    made more than K iterations returns a point within e of it, and so does a run that stopped with SOLVED under
    tolerances of at most tol. *)
Theorem C94_limit : forall s p xg yg xs ys, symmetric (qn p) (qH p) -> psd (qn p) (qH p) ->
  0 < sigma s -> 0 < rho0 s -> 0 < alpha s < 2 -> kkt_pair p xs ys ->
  exists xl yl, kkt_pair p xl yl /\
  forall e, 0 < e -> exists (K : Z) tol, 0 < tol /\
    forall lsolve full, exact_solver full lsolve -> forall s', same_iteration s s' ->
    forall ob o', admm_solve lsolve full s' p xg yg ob = Some o' ->
      (K < a_iter o')%Z \/ (a_status o' = SOLVED /\ eps_abs s' <= tol /\ eps_rel s' <= tol) ->
      close p e (a_x o') (a_y o') (a_z o') xl yl.
Proof.
  intros s p xg yg xs ys H1 H2 H3 H4 H5 HK.
  destruct (limit_all (gauss_solver false) false (gauss_solver_exact false) s p xg yg (admm_new 1) H1 H2 H3 H4 H5 xs ys HK)
    as (xl & yl & HKl & HL).
  exists xl, yl. split; [exact HKl|]. intros e He. destruct (HL e He) as (K & tol & Ht & HA). exists K, tol. split; [exact Ht|].
  intros lsolve full He' s' HS. apply (HA lsolve full He' s' HS).
Qed.
Print Assumptions C94_limit.

(** With alpha = 1 boxADMM approaches the same optimum as ADMM. *)
Theorem C94_box_limit : forall s p xg yg xs ys, symmetric (qn p) (qH p) -> psd (qn p) (qH p) ->
  0 < sigma s -> 0 < rho0 s -> alpha s = 1 -> kkt_pair p xs ys ->
  exists xl yl, kkt_pair p xl yl /\
  forall e, 0 < e -> exists (K : Z) tol, 0 < tol /\
    forall lsolve full, exact_solver full lsolve -> forall s', same_iteration s s' ->
    (forall ob o', admm_solve lsolve full s' p xg yg ob = Some o' ->
       (K < a_iter o')%Z \/ (a_status o' = SOLVED /\ eps_abs s' <= tol /\ eps_rel s' <= tol) ->
       close p e (a_x o') (a_y o') (a_z o') xl yl) /\
    (forall ob o', box_reachable lsolve full (qn p) (qm p) ob -> box_solve lsolve full s' p xg yg ob = Some o' ->
       (K < b_iter o')%Z \/ (b_status o' = SOLVED /\ eps_abs s' <= tol /\ eps_rel s' <= tol) ->
       close p e (b_x o') (b_y o') (box_rows p o') xl yl).
Proof.
  intros s p xg yg xs ys H1 H2 H3 H4 H5 HK. assert (H5' : 0 < alpha s < 2) by lra.
  destruct (limit_all (gauss_solver false) false (gauss_solver_exact false) s p xg yg (admm_new 1) H1 H2 H3 H4 H5' xs ys HK)
    as (xl & yl & HKl & HL).
  exists xl, yl. split; [exact HKl|]. intros e He. destruct (HL e He) as (K & tol & Ht & HA). exists K, tol. split; [exact Ht|].
  intros lsolve full He' s' HS. destruct (HA lsolve full He' s' HS) as [HA1 HA2]. split; [exact HA1|].
  intros ob o' Hrb. apply (HA2 H5 ob o'). exact (reachable_boff _ _ _ _ _ Hrb).
Qed.
Print Assumptions C94_box_limit.

(** runs that make arbitrarily many iterations exist: without convergence checks *)
Example C94_limit_example : exists xl yl, kkt_pair (ex_qp : qp_data R) xl yl /\ forall e, 0 < e -> exists mx o',
  admm_solve (gauss_solver false) false (ex_settings mx (16/10) 0 false) ex_qp (fun _ => 0) (fun _ => 0) (admm_new 1) = Some o' /\
  close ex_qp e (a_x o') (a_y o') (a_z o') xl yl.
Proof.
  destruct (ex_settings_ok 0 (16/10) 0 false) as (H1 & H2 & _).
  assert (Ha : 0 < alpha (ex_settings 0 (16/10) 0 false) < 2) by (simpl; lra).
  destruct (C94_limit (ex_settings 0 (16/10) 0 false) ex_qp (fun _ => 0) (fun _ => 0) ex_x ex_y ex_sym ex_psd H1 H2 Ha ex_kkt) as (xl & yl & HK & HL).
  exists xl, yl. split; [exact HK|]. intros e He. destruct (HL e He) as (K & tol & Ht & HA).
  exists (Z.max 0 K + 1)%Z.
  destruct (solve_defined (gauss_solver false) false (ex_settings (Z.max 0 K + 1) (16/10) 0 false) ex_qp (fun _ => 0) (fun _ => 0) (admm_new 1)
    (or_introl eq_refl)) as [o' Ho].
  exists o'. split; [exact Ho|].
  apply (HA (gauss_solver false) false (gauss_solver_exact false) (ex_settings (Z.max 0 K + 1) (16/10) 0 false)) with (ob := admm_new 1).
  - repeat split.
  - exact Ho.
  - left. destruct (solve_status_truth _ _ _ _ _ _ _ _ Ho) as [(_ & _ & Hc & _)|(_ & Hi)].
    + exfalso. apply Hc. reflexivity.
    + rewrite Hi. simpl. lia.
Qed.

Example C94_box_limit_example : exists xl yl, kkt_pair (ex_qp : qp_data R) xl yl /\ forall e, 0 < e -> exists mx o',
  box_solve (gauss_solver false) false (ex_settings mx 1 0 false) ex_qp (fun _ => 0) (fun _ => 0) (box_new 1) = Some o' /\
  close ex_qp e (b_x o') (b_y o') (box_rows ex_qp o') xl yl.
Proof.
  destruct (ex_settings_ok 0 1 0 false) as (H1 & H2 & _).
  destruct (C94_box_limit (ex_settings 0 1 0 false) ex_qp (fun _ => 0) (fun _ => 0) ex_x ex_y ex_sym ex_psd H1 H2 eq_refl ex_kkt) as (xl & yl & HK & HL).
  exists xl, yl. split; [exact HK|]. intros e He. destruct (HL e He) as (K & tol & Ht & HA).
  exists (Z.max 0 K + 1)%Z.
  destruct (bsolve_defined (gauss_solver false) false (ex_settings (Z.max 0 K + 1) 1 0 false) ex_qp (fun _ => 0) (fun _ => 0) (box_new 1)
    (or_introl eq_refl)) as [o' Ho].
  exists o'. split; [exact Ho|].
  apply (HA (gauss_solver false) false (gauss_solver_exact false) (ex_settings (Z.max 0 K + 1) 1 0 false)) with (ob := box_new 1).
  - repeat split.
  - exact (reach_new _ _ 2 1 1).
  - exact Ho.
  - left. destruct (bsolve_status_truth _ _ _ _ _ _ _ _ Ho) as [(_ & _ & Hc & _)|(_ & Hi)].
    + exfalso. apply Hc. reflexivity.
    + rewrite Hi. simpl. lia.
Qed.
