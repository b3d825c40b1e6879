(** Property theorems about the dense ADMM solver (src/solvers/admm.hpp). *)
Require Import ZArith List Bool Reals Lra Lia Floats.SpecFloat.
From Verif Require Import Scal RSum Qp_Model Qp_Spec Qp_Proofs Admm_Model Admm_Spec Admm_SpecR Admm_Proofs Admm_ProofsR Admm_Conv
  BoxAdmm_Equiv Gauss Qp_Example Qp_ExampleR.
Local Open Scope R_scope.

(** ** C01 *)
Theorem C01_admm_solved_certificate : forall lsolve full s p xg yg o o',
  qp_consistent p -> 0 < rho0 s ->
  admm_solve lsolve full s p xg yg o = Some o' -> a_status o' = SOLVED ->
  let x := a_x o' in let y := a_y o' in let z := a_z o' in
  let ep := eps_abs s + eps_rel s * admm_prim_scale p x z in
  let ed := eps_abs s + eps_rel s * qp_dual_scale p x y in
  certificate p x y z (fun j => z (qm p + j)%nat) ep ep ed.
Proof. exact solved_certificate. Qed.
Print Assumptions C01_admm_solved_certificate.

Theorem C01_admm_solved_near_optimal : forall lsolve full s p xg yg o o',
  qp_consistent p -> 0 < rho0 s -> symmetric (qn p) (qH p) -> psd (qn p) (qH p) ->
  admm_solve lsolve full s p xg yg o = Some o' -> a_status o' = SOLVED ->
  let x := a_x o' in let y := a_y o' in let z := a_z o' in
  let ep := eps_abs s + eps_rel s * admm_prim_scale p x z in
  let ed := eps_abs s + eps_rel s * qp_dual_scale p x y in
  near_optimal p x y ep ed.
Proof. exact solved_near_optimal. Qed.
Print Assumptions C01_admm_solved_near_optimal.

Example C01_example : exists o',
  admm_solve (gauss_solver false) false (ex_settings 100 (16/10) 25 true) ex_qp ex_x ex_y (admm_new 1) = Some o' /\
  a_status o' = SOLVED /\ qp_consistent (ex_qp : qp_data R).
Proof.
  destruct (ex_settings_ok 100 (16/10) 25 true) as (H1 & H2 & H3 & H4 & _).
  destruct (warm_start _ _ (gauss_solver_exact false) (ex_settings 100 (16/10) 25 true) ex_qp ex_x ex_y (admm_new 1)
    ex_sym ex_psd H1 H2 ltac:(lra) H4 ex_kkt) as (o' & E & Es & _); try (simpl; lia).
  exists o'. split; [exact E|]. split; [exact Es|exact ex_consistent].
Qed.

(** ** C02: for every scalar arithmetic (reals, IEEE doubles with NaN, ...) *)
Theorem C02_admm_status : forall (T : Type) (ST : Scalar T) lsolve full s p xg yg o o',
  admm_solve lsolve full s p xg yg o = Some o' ->
  (a_status o' = SOLVED /\ (1 <= a_iter o' <= max_iter s)%Z /\ check_termination s <> 0%Z /\
     (Z.rem (a_iter o') (check_termination s) = 0)%Z)
  \/ (a_status o' = MAX_ITER_EXCEEDED /\ a_iter o' = (Z.max 0 (max_iter s) + 1)%Z).
Proof. exact @solve_status_truth. Qed.
Print Assumptions C02_admm_status.

Theorem C02_admm_defined : forall (T : Type) (ST : Scalar T) lsolve full s p xg yg o,
  (adaptive_rho s = false \/ adaptive_rho_interval s <> 0%Z) ->
  exists o', admm_solve lsolve full s p xg yg o = Some o'.
Proof. exact @solve_defined. Qed.
Print Assumptions C02_admm_defined.

(** a run in IEEE double arithmetic from the cold start *)
Example C02_example : let sc := SF_scalar in
  option_map (fun o => (a_status o, a_iter o))
    (admm_solve_cold (gauss_solver false) false (ex_settings 1000 s1 5 false) ex_qp (admm_new s1)) = Some (SOLVED, 35%Z) /\
  option_map (fun o => (a_status o, a_iter o))
    (admm_solve_cold (gauss_solver false) false (ex_settings 12 s1 5 true) ex_qp (admm_new s1)) = Some (MAX_ITER_EXCEEDED, 13%Z).
Proof. vm_compute. split; reflexivity. Qed.

(** ** C04 *)
Theorem C04_admm_matrix : forall (T : Type) (ST : Scalar T) lsolve full s p xg yg o k o1,
  visits (admm_body lsolve s p) (max_iter s) (admm_setup full s p xg yg o) k o1 ->
  forall i j, (i < qn p + (qm p + qn p))%nat -> (j < qn p + (qm p + qn p))%nat ->
    as_read full (a_Fact o1) i j = admm_kkt full s p (a_rho_vec o1) i j.
Proof. exact (fun T ST lsolve full s p xg yg o k o1 H => inv_fact _ _ _ _ (visits_admm_inv lsolve full s p xg yg o k o1 H)). Qed.
Print Assumptions C04_admm_matrix.

Theorem C04_admm_solvable : forall lsolve full s p xg yg o k o1,
  symmetric (qn p) (qH p) -> psd (qn p) (qH p) -> 0 < sigma s -> 0 < rho0 s ->
  visits (admm_body lsolve s p) (max_iter s) (admm_setup full s p xg yg o) k o1 ->
  nonsingular (qn p + (qm p + qn p)) (as_read full (a_Fact o1)).
Proof. exact visits_nonsingular. Qed.
Print Assumptions C04_admm_solvable.

Example C04_example : let s := ex_settings 100 1 25 true in
  0 < sigma s /\ 0 < rho0 s /\
  symmetric (qn (ex_qp : qp_data R)) (qH ex_qp) /\ psd (qn (ex_qp : qp_data R)) (qH ex_qp) /\
  visits (admm_body (gauss_solver false) s ex_qp) (max_iter s)
         (admm_setup false s ex_qp (fun _ => 0) (fun _ => 0) (admm_new 1)) 1
         (admm_setup false s ex_qp (fun _ => 0) (fun _ => 0) (admm_new 1)).
Proof.
  destruct (ex_settings_ok 100 1 25 true) as (H1 & H2 & _). cbv zeta. repeat split; auto using ex_sym, ex_psd.
  constructor.
Qed.

(** ** C05 *)
Theorem C05_admm_warm_start : forall lsolve full, exact_solver full lsolve ->
  forall s p xg yg o, symmetric (qn p) (qH p) -> psd (qn p) (qH p) -> 0 < sigma s -> 0 < rho0 s ->
  0 <= eps_abs s -> 0 <= eps_rel s -> kkt_pair p xg yg ->
  (1 <= Z.abs (check_termination s) <= max_iter s)%Z ->
  (adaptive_rho s = false \/ adaptive_rho_interval s <> 0%Z) ->
  exists o', admm_solve lsolve full s p xg yg o = Some o' /\ a_status o' = SOLVED /\
    a_iter o' = Z.abs (check_termination s) /\
    (forall j, (j < qn p)%nat -> a_x o' j = xg j) /\ (forall i, (i < qm p + qn p)%nat -> a_y o' i = yg i).
Proof. exact warm_start. Qed.
Print Assumptions C05_admm_warm_start.

(** a triple (x, y, z) that an iteration of a run leaves unchanged is optimal *)
Theorem C05_admm_fixed_points : forall lsolve full, exact_solver full lsolve ->
  forall s p xg yg ob k o, symmetric (qn p) (qH p) -> psd (qn p) (qH p) -> 0 < sigma s -> 0 < rho0 s ->
  qp_consistent p -> alpha s <> 0 ->
  visits (admm_body lsolve s p) (max_iter s) (admm_setup full s p xg yg ob) k o ->
  let o' := admm_update lsolve s p o in
  (forall j, (j < qn p)%nat -> a_x o' j = a_x o j) ->
  (forall i, (i < qm p + qn p)%nat -> a_y o' i = a_y o i) ->
  (forall i, (i < qm p + qn p)%nat -> a_z o' i = a_z o i) ->
  kkt_pair p (a_x o) (a_y o).
Proof. exact visits_fixed_point. Qed.
Print Assumptions C05_admm_fixed_points.

Example C05_example : exact_solver false (gauss_solver false) /\
  symmetric 2 (qH (ex_qp : qp_data R)) /\ psd 2 (qH (ex_qp : qp_data R)) /\ kkt_pair ex_qp ex_x ex_y /\
  let s := ex_settings 100 (16/10) 25 true in
  exists o, visits (admm_body (gauss_solver false) s ex_qp) (max_iter s)
              (admm_setup false s ex_qp ex_x ex_y (admm_new 1)) 1 o /\
    (forall j, (j < 2)%nat -> a_x (admm_update (gauss_solver false) s ex_qp o) j = a_x o j).
Proof.
  split; [apply gauss_solver_exact|]. split; [apply ex_sym|]. split; [apply ex_psd|]. split; [apply ex_kkt|].
  intro s. eexists. split; [constructor|]. intros j Hj.
  destruct (ex_settings_ok 100 (16/10) 25 true) as (H1 & H2 & _). fold s in H1, H2.
  assert (Hv : visits (admm_body (gauss_solver false) s ex_qp) (max_iter s)
      (admm_setup false s ex_qp ex_x ex_y (admm_new 1)) 1 (admm_setup false s ex_qp ex_x ex_y (admm_new 1))) by constructor.
  destruct (setup_at_pair false s ex_qp ex_x ex_y (admm_new 1)) as (Hx & _). rewrite Hx by exact Hj.
  destruct (kkt_fixed (gauss_solver false) false (gauss_solver_exact false) s ex_qp (admm_setup false s ex_qp ex_x ex_y (admm_new 1)) ex_x ex_y
    (visits_admm_inv _ _ _ _ _ _ _ _ _ Hv) ex_sym ex_psd H1 ex_kkt (visits_rho_pos _ _ _ _ _ _ _ _ _ H2 Hv)
    (setup_at_pair _ _ _ _ _ _)) as (Hx' & _). apply Hx'. exact Hj.
Qed.

(** ** C07 *)
(** consecutive iterates never move away from an optimum (xs, ys) *)
Theorem C07_admm_monotone : forall lsolve full, exact_solver full lsolve ->
  forall s p xg yg ob xs ys, symmetric (qn p) (qH p) -> psd (qn p) (qH p) -> 0 < sigma s -> 0 < rho0 s ->
  alpha s = 1 -> adaptive_rho s = false -> kkt_pair p xs ys ->
  forall k o o', visits (admm_body lsolve s p) (max_iter s) (admm_setup full s p xg yg ob) k o ->
    admm_body lsolve s p k o = Cont o' ->
    dist2 s p (rho_fix s p) (a_x o') (a_z o') (a_y o') xs (stackv p xs) ys
    <= dist2 s p (rho_fix s p) (a_x o) (a_z o) (a_y o) xs (stackv p xs) ys.
Proof. exact visits_monotone. Qed.
Print Assumptions C07_admm_monotone.

(** the returned triple is not farther from any optimum than the guess *)
Theorem C07_admm_result_near : forall lsolve full, exact_solver full lsolve ->
  forall s p xg yg xs ys, symmetric (qn p) (qH p) -> psd (qn p) (qH p) -> 0 < sigma s -> 0 < rho0 s ->
  alpha s = 1 -> adaptive_rho s = false -> kkt_pair p xs ys ->
  forall ob o', admm_solve lsolve full s p xg yg ob = Some o' ->
    dist2 s p (rho_fix s p) (a_x o') (a_z o') (a_y o') xs (stackv p xs) ys
    <= dist2 s p (rho_fix s p) xg (stackv p xg) yg xs (stackv p xs) ys.
Proof. exact result_near. Qed.
Print Assumptions C07_admm_result_near.

(** eventually SOLVED, with an explicit bound on the number of iterations *)
Theorem C07_admm_solved : forall lsolve full, exact_solver full lsolve ->
  forall s p xg yg ob xs ys, symmetric (qn p) (qH p) -> psd (qn p) (qH p) -> 0 < sigma s -> 0 < rho0 s ->
  alpha s = 1 -> adaptive_rho s = false -> kkt_pair p xs ys ->
  0 < eps_abs s -> 0 <= eps_rel s -> check_termination s <> 0%Z ->
  forall N : nat,
    dist2 s p (rho_fix s p) xg (stackv p xg) yg xs (stackv p xs) ys < INR N * threshold (sigma s) (eps_abs s) s p ->
    (Z.abs (check_termination s) * (Z.of_nat N + 1) <= max_iter s)%Z ->
    exists o', admm_solve lsolve full s p xg yg ob = Some o' /\ a_status o' = SOLVED /\
      (a_iter o' <= Z.abs (check_termination s) * (Z.of_nat N + 1))%Z.
Proof. exact solved_eventually_guess. Qed.
Print Assumptions C07_admm_solved.

(** such an N always exists *)
Theorem C07_bound_exists : forall s p xg yg xs ys, 0 < sigma s -> 0 < rho0 s -> 0 < eps_abs s ->
  exists N : nat, dist2 s p (rho_fix s p) xg (stackv p xg) yg xs (stackv p xs) ys
                  < INR N * threshold (sigma s) (eps_abs s) s p.
Proof. exact bound_exists. Qed.
Print Assumptions C07_bound_exists.

Example C07_example : exists mx o',
  admm_solve_cold (gauss_solver false) false (ex_settings mx 1 25 false) ex_qp (admm_new 1) = Some o' /\ a_status o' = SOLVED.
Proof.
  destruct (ex_settings_ok 0 1 25 false) as (H1 & H2 & H3 & H4 & _).
  destruct (C07_bound_exists (ex_settings 0 1 25 false) ex_qp (fun _ => 0) (fun _ => 0) ex_x ex_y H1 H2 H3) as [N HN].
  exists (25 * (Z.of_nat N + 1))%Z.
  destruct (C07_admm_solved (gauss_solver false) false (gauss_solver_exact false) (ex_settings (25 * (Z.of_nat N + 1)) 1 25 false) ex_qp
    (fun _ => 0) (fun _ => 0) (admm_new 1) ex_x ex_y ex_sym ex_psd H1 H2 eq_refl eq_refl ex_kkt H3 H4) with (N := N) as (o' & E & Es & _).
  - simpl; lia.
  - exact HN.
  - simpl. lia.
  - exists o'. split; [exact E|exact Es].
Qed.

(** ** C08 *)
Theorem C08_admm_history : forall (T : Type) (ST : Scalar T) lsolve full, reads_only lsolve full ->
  forall s p xg yg o1 o2,
  match admm_solve lsolve full s p xg yg o1, admm_solve lsolve full s p xg yg o2 with
  | Some a, Some b =>
      a_x a = a_x b /\ a_y a = a_y b /\ a_z a = a_z b /\ a_status a = a_status b /\ a_iter a = a_iter b /\
      (a_rho_updates a - a_rho_updates o1 = a_rho_updates b - a_rho_updates o2)%Z /\
      (a_res a = a_res b \/ (a_res a = a_res o1 /\ a_res b = a_res o2)) /\
      (a_rho_estimate a = a_rho_estimate b \/ (a_rho_estimate a = a_rho_estimate o1 /\ a_rho_estimate b = a_rho_estimate o2))
  | None, None => True
  | _, _ => False
  end.
Proof. exact @solve_history. Qed.
Print Assumptions C08_admm_history.

(** two different histories, in IEEE double arithmetic *)
Example C08_example : reads_only (@gauss_solver _ SF_scalar false) false /\
  let sc := SF_scalar in
  match admm_solve_cold (gauss_solver false) false (ex_settings 7 s1 5 false) ex_qp (admm_new s1) with
  | Some o => option_map (fun a => (a_status a, a_iter a, a_rho_updates a))
                (admm_solve_cold (gauss_solver false) false (ex_settings 1000 s1 5 true) ex_qp o)
              = Some (SOLVED, 30%Z, 3%Z) /\
              option_map (fun a => (a_status a, a_iter a, a_rho_updates a))
                (admm_solve_cold (gauss_solver false) false (ex_settings 1000 s1 5 true) ex_qp (admm_new s1))
              = Some (SOLVED, 30%Z, 2%Z)
  | None => False
  end.
Proof. split; [apply gauss_reads_only|]. vm_compute. split; reflexivity. Qed.

(** ** C09 *)
(** classification of one row with bounds lb, ub *)
Theorem C09_classification : forall lb ub : ext R,
  (parse_row lb ub = LOOSE_BOUNDS <-> far_below lb (- 10000000000) /\ far_above ub 10000000000) /\
  (parse_row lb ub = EQUALITY_CONSTRAINT <->
     ~ (far_below lb (- 10000000000) /\ far_above ub 10000000000) /\ gap_below lb ub (1 / 10000)).
Proof. exact parse_row_R. Qed.
Print Assumptions C09_classification.

(** the row types used in a run are those of the bounds of the problem, and the step sizes are
    determined by them and stay in range *)
Theorem C09_admm_step_sizes : forall lsolve full s p xg yg o k o1,
  visits (admm_body lsolve s p) (max_iter s) (admm_setup full s p xg yg o) k o1 ->
  (forall i, (i < qm p)%nat -> a_ctype o1 i = parse_row (qAlb p i) (qAub p i)) /\
  (forall j, (j < qn p)%nat -> a_ctype o1 (qm p + j)%nat = parse_row (qxlb p j) (qxub p j)) /\
  (forall i, (i < qm p + qn p)%nat -> a_rho_vec o1 i =
      match a_ctype o1 i with
      | LOOSE_BOUNDS => 1 / 1000000 | EQUALITY_CONSTRAINT => 1000 * a_rho o1 | INEQUALITY_CONSTRAINT => a_rho o1 end) /\
  (0 < rho0 s -> forall i, (i < qm p + qn p)%nat -> 0 < a_rho_vec o1 i) /\
  (1 / 1000000 <= rho0 s <= 1000000 ->
     forall i, (i < qm p + qn p)%nat -> 1 / 1000000 <= a_rho_vec o1 i <= 1000000000).
Proof. exact step_sizes. Qed.
Print Assumptions C09_admm_step_sizes.

Example C09_example :
  parse_row (MInf : ext R) (Fin (2 * 10000000000)) = LOOSE_BOUNDS /\ parse_row (Fin 1) (Fin 1 : ext R) = EQUALITY_CONSTRAINT /\
  parse_row (Fin 1) (PInf : ext R) = INEQUALITY_CONSTRAINT /\
  (let s := ex_settings 100 1 25 true in 1 / 1000000 <= rho0 s <= 1000000).
Proof.
  repeat split; try (unfold ex_settings, scst; simpl; rsimp; lra).
  - apply parse_row_R. simpl. split; auto. lra.
  - apply parse_row_R. simpl. split; [|lra]. intros [H _]. lra.
  - destruct (parse_row (Fin 1) PInf) eqn:E; auto.
    + apply parse_row_R in E. destruct E as [_ E]. destruct E.
    + apply parse_row_R in E. destruct E as [E _]. simpl in E. lra.
Qed.

(** ** C49 *)
(** after SOLVED the residuals in info are those of the returned point *)
Theorem C49_admm_residuals_partial : forall (T : Type) (ST : Scalar T) lsolve full s p xg yg o o',
  admm_solve lsolve full s p xg yg o = Some o' -> a_status o' = SOLVED ->
  a_res o' = compute_residuals p (a_x o') (a_y o') (a_z o').
Proof. exact (fun T ST lsolve full s p xg yg o o' H Hs => proj1 (solve_fresh lsolve full s p xg yg o o' H Hs)). Qed.
Print Assumptions C49_admm_residuals_partial.

(** in general they are not: here the solver stops after one iteration at the exact optimum and reports residual 1 *)
Theorem C49_admm_residuals_refuted : exists s p xg yg o',
  admm_solve (gauss_solver false) false s p xg yg (admm_new 1) = Some o' /\
  res_prim (a_res o') = 1 /\ res_dual (a_res o') = 1 /\
  (forall i, (i < qm p)%nat -> rmv (qn p) (qA p) (a_x o') i - a_z o' i = 0) /\
  (forall j, (j < qn p)%nat -> a_x o' j - a_z o' (qm p + j)%nat = 0) /\
  (forall j, (j < qn p)%nat -> lag_grad p (a_x o') (a_y o') j = 0).
Proof. exact stale_residuals. Qed.
Print Assumptions C49_admm_residuals_refuted.
