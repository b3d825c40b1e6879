(** C95: ADMM and boxADMM with adaptive step sizes (adaptive_rho = true). *)
Require Import ZArith List Bool Lia Reals Lra Psatz.
From Verif Require Import Scal RSum Qp_Model Qp_Spec Qp_Proofs Gauss Qp_Example Admm_Model Admm_Spec Admm_SpecR Admm_Proofs Admm_ProofsR Admm_Conv
  BoxAdmm_Model BoxAdmm_Proofs BoxAdmm_ProofsR BoxAdmm_Equiv AdmmRelax_Spec AdmmRelax_Proofs AdmmRelax_Props Qp_ExampleR
  AdmmAdapt_Spec AdmmAdapt_Proofs AdmmCycle_Traj AdmmCycle_Proofs.
Local Open Scope R_scope.

(** ADMM: with a budget of iterations that grows with U, either the problem is SOLVED or the step sizes were changed more than U
    times.  Missing for a full proof: that the number of changes stays bounded, which C95_cycle_refuted shows to be false. *)
Theorem C95_solved_or_changes_partial : forall lsolve full, exact_solver full lsolve ->
  forall s p xs ys xg yg, symmetric (qn p) (qH p) -> psd (qn p) (qH p) -> 0 < sigma s -> 0 < rho0 s -> kkt_pair p xs ys ->
  0 < eps_abs s -> 0 <= eps_rel s -> (adaptive_rho s = false \/ adaptive_rho_interval s <> 0%Z) -> check_termination s <> 0%Z ->
  0 < alpha s < 2 -> forall ob (U N : nat),
    adapt_factor s ^ U * (Rmax (alpha s) (2 - alpha s) * dist2 s p (rho_fix s p) xg (stackv p xg) yg xs (stackv p xs) ys)
      < INR N * adapt_threshold (eps_abs s) s p ->
    (Z.abs (check_termination s) * (Z.of_nat N + 1) <= max_iter s)%Z ->
    exists o', admm_solve lsolve full s p xg yg ob = Some o' /\
      ((a_status o' = SOLVED /\ (a_iter o' <= max_iter s)%Z) \/ (a_rho_updates ob + 1 + Z.of_nat U < a_rho_updates o')%Z).
Proof. exact adapt_result. Qed.
Print Assumptions C95_solved_or_changes_partial.

(** boxADMM, with alpha = 1 *)
Theorem C95_box_solved_or_changes_partial : forall lsolve full, exact_solver full lsolve ->
  forall s p xs ys xg yg, symmetric (qn p) (qH p) -> psd (qn p) (qH p) -> 0 < sigma s -> 0 < rho0 s -> kkt_pair p xs ys ->
  0 < eps_abs s -> 0 <= eps_rel s -> (adaptive_rho s = false \/ adaptive_rho_interval s <> 0%Z) -> check_termination s <> 0%Z ->
  alpha s = 1 -> forall ob, boff (qn p) (qm p) (b_K ob) -> forall U N : nat,
    adapt_factor s ^ U * (Rmax (alpha s) (2 - alpha s) * dist2 s p (rho_fix s p) xg (stackv p xg) yg xs (stackv p xs) ys)
      < INR N * adapt_threshold (eps_abs s / 2) s p ->
    (Z.abs (check_termination s) * (Z.of_nat N + 1) <= max_iter s)%Z ->
    exists o', box_solve lsolve full s p xg yg ob = Some o' /\
      ((b_status o' = SOLVED /\ (b_iter o' <= max_iter s)%Z) \/ (b_rho_updates ob + 1 + Z.of_nat U < b_rho_updates o')%Z).
Proof. exact badapt_result. Qed.
Print Assumptions C95_box_solved_or_changes_partial.

(** for every U there is such a budget *)
Theorem C95_budget_exists : forall s p xs ys xg yg, 0 < sigma s -> 0 < rho0 s -> 0 < alpha s < 2 -> forall e, 0 < e ->
  forall U : nat, exists N : nat,
    adapt_factor s ^ U * (Rmax (alpha s) (2 - alpha s) * dist2 s p (rho_fix s p) xg (stackv p xg) yg xs (stackv p xs) ys)
      < INR N * adapt_threshold e s p.
Proof. intros. apply adapt_count_exists. apply athr_pos; auto. Qed.
Print Assumptions C95_budget_exists.

(** The step sizes need not settle: with every setting at its default except adaptive_rho = true, ADMM run from zero on
    min x^2/2 + 100 x, -10 <= 2 x <= 10, -1 <= x <= 3 (optimum -1) never stops with SOLVED, whatever max_iter, object and exact linear
    solver; after every 25 iterations the step sizes change again, and x is more than 0.18 away from the optimum.  With
    adaptive_rho = false the same settings solve the same problem. *)
Theorem C95_cycle_refuted : exists p xs ys (st : bool -> Z -> qp_settings R),
  symmetric (qn p) (qH p) /\ psd (qn p) (qH p) /\ kkt_pair p xs ys /\ qn p = 1%nat /\ qm p = 1%nat /\
  (forall ad mx, st ad mx = mkSettings (1/1000) (1/1000) mx (1/10) (1/1000000) 1 25 ad 5 25) /\
  (forall lsolve full, exact_solver full lsolve -> forall mx ob, exists o',
     admm_solve lsolve full (st true mx) p (fun _ => 0) (fun _ => 0) ob = Some o' /\ a_status o' = MAX_ITER_EXCEEDED /\
     forall N : nat, mx = (25 * Z.of_nat N)%Z ->
       18 / 100 < Rabs (a_x o' 0%nat - xs 0%nat) /\ a_rho_updates o' = (a_rho_updates ob + 1 + Z.of_nat N)%Z) /\
  (forall lsolve full, exact_solver full lsolve -> exists mx, forall ob, exists o',
     admm_solve lsolve full (st false mx) p (fun _ => 0) (fun _ => 0) ob = Some o' /\ a_status o' = SOLVED).
Proof.
  exists cycle_qp, (fun _ => -1), (fun i => if Nat.eqb i 0 then 0 else -99), default_qp_settings.
  split; [apply cycle_sym|]. split; [apply cycle_psd|]. split; [apply cycle_kkt|]. do 3 (split; [reflexivity|]). split.
  - intros lsolve full He mx ob. exact (cycle_result lsolve full He mx ob).
  - intros lsolve full He.
    destruct (C07_relaxed_bound_exists (default_qp_settings false 0) cycle_qp (fun _ => 0) (fun _ => 0) (fun _ => -1)
      (fun i => if Nat.eqb i 0 then 0 else -99) ltac:(simpl; lra) ltac:(simpl; lra) ltac:(simpl; lra) ltac:(simpl; lra)) as [N HN].
    exists (25 * (Z.of_nat N + 1))%Z. intros ob.
    destruct (C07_relaxed_solved lsolve full He (default_qp_settings false (25 * (Z.of_nat N + 1))) cycle_qp (fun _ => 0) (fun _ => 0) ob
      (fun _ => -1) (fun i => if Nat.eqb i 0 then 0 else -99) cycle_sym cycle_psd ltac:(simpl; lra) ltac:(simpl; lra) ltac:(simpl; lra)
      eq_refl cycle_kkt ltac:(simpl; lra) ltac:(simpl; lra) ltac:(simpl; lia) N HN ltac:(simpl; lia)) as (o' & E & Es & _).
    exists o'. split; [exact E|exact Es].
Qed.
Print Assumptions C95_cycle_refuted.

(** the same for boxADMM *)
Theorem C95_box_cycle_refuted : exists p xs ys (st : bool -> Z -> qp_settings R),
  symmetric (qn p) (qH p) /\ psd (qn p) (qH p) /\ kkt_pair p xs ys /\ qn p = 1%nat /\ qm p = 1%nat /\
  (forall ad mx, st ad mx = mkSettings (1/1000) (1/1000) mx (1/10) (1/1000000) 1 25 ad 5 25) /\
  (forall lsolve full, exact_solver full lsolve -> forall mx ob, exists o',
     box_solve lsolve full (st true mx) p (fun _ => 0) (fun _ => 0) ob = Some o' /\ b_status o' = MAX_ITER_EXCEEDED /\
     forall N : nat, mx = (25 * Z.of_nat N)%Z ->
       18 / 100 < Rabs (b_x o' 0%nat - xs 0%nat) /\ b_rho_updates o' = (b_rho_updates ob + 1 + Z.of_nat N)%Z) /\
  (forall lsolve full, exact_solver full lsolve -> exists mx, forall ob, exists o',
     box_solve lsolve full (st false mx) p (fun _ => 0) (fun _ => 0) ob = Some o' /\ b_status o' = SOLVED).
Proof.
  exists cycle_qp, (fun _ => -1), (fun i => if Nat.eqb i 0 then 0 else -99), default_qp_settings.
  split; [apply cycle_sym|]. split; [apply cycle_psd|]. split; [apply cycle_kkt|]. do 3 (split; [reflexivity|]). split.
  - intros lsolve full He mx ob. exact (bcycle_result lsolve full He mx ob).
  - intros lsolve full He.
    set (sh := mkSettings (1/1000) (1/1000/2) 0 (1/10) (1/1000000) 1 25 false 5 25 : qp_settings R).
    destruct (bound_exists sh cycle_qp (fun _ => 0) (fun _ => 0) (fun _ => -1)
      (fun i => if Nat.eqb i 0 then 0 else -99) ltac:(simpl; lra) ltac:(simpl; lra) ltac:(simpl; lra)) as [N HN].
    exists (25 * (Z.of_nat N + 1))%Z. intros ob.
    destruct (bsolved_eventually_guess lsolve full He (default_qp_settings false (25 * (Z.of_nat N + 1))) cycle_qp (fun _ => 0) (fun _ => 0) ob
      (fun _ => -1) (fun i => if Nat.eqb i 0 then 0 else -99) (cycle_boff _) cycle_sym cycle_psd ltac:(simpl; lra) ltac:(simpl; lra) eq_refl
      eq_refl cycle_kkt ltac:(simpl; lra) ltac:(simpl; lra) ltac:(simpl; lia) N HN ltac:(simpl; lia)) as (o' & E & Es & _).
    exists o'. split; [exact E|exact Es].
Qed.
Print Assumptions C95_box_cycle_refuted.

(** the hypotheses of the positive theorem are met, with the alternative that occurs: on cycle_qp more than U changes for every U *)
Example C95_example : forall U : nat, exists mx o',
  admm_solve (gauss_solver false) false (default_qp_settings true mx) cycle_qp (fun _ => 0) (fun _ => 0) (admm_new 1) = Some o' /\
  a_status o' = MAX_ITER_EXCEEDED /\ (1 + Z.of_nat U < a_rho_updates o')%Z.
Proof.
  intros U. assert (H25 : (25 <> 0)%Z) by lia. destruct (C95_budget_exists (default_qp_settings true 0) cycle_qp (fun _ => -1) (fun i => if Nat.eqb i 0 then 0 else -99)
    (fun _ => 0) (fun _ => 0) ltac:(simpl; lra) ltac:(simpl; lra) ltac:(simpl; lra) (1/1000) ltac:(lra) U) as [N HN].
  exists (25 * (Z.of_nat N + 1))%Z.
  destruct (C95_solved_or_changes_partial (gauss_solver false) false (gauss_solver_exact false) (default_qp_settings true (25 * (Z.of_nat N + 1)))
    cycle_qp (fun _ => -1) (fun i => if Nat.eqb i 0 then 0 else -99) (fun _ => 0) (fun _ => 0) cycle_sym cycle_psd ltac:(simpl; lra)
    ltac:(simpl; lra) cycle_kkt ltac:(simpl; lra) ltac:(simpl; lra) (or_intror H25) ltac:(simpl; lia) ltac:(simpl; lra)
    (admm_new 1) U N HN ltac:(simpl; lia)) as (o' & E & H).
  exists o'. split; [exact E|]. destruct (cycle_result (gauss_solver false) false (gauss_solver_exact false) (25 * (Z.of_nat N + 1)) (admm_new 1)) as (o2 & E2 & S2 & _).
  rewrite E in E2. injection E2 as <-. split; [exact S2|]. destruct H as [[H _]|H]; [congruence|exact H].
Qed.
(** and with a problem that is solved: the example of C07, changes of the step sizes allowed *)
Example C95_solved_example : forall U : nat, exists mx o',
  admm_solve (gauss_solver false) false (ex_settings mx 1 25 true) ex_qp (fun _ => 0) (fun _ => 0) (admm_new 1) = Some o' /\
  (a_status o' = SOLVED \/ (1 + Z.of_nat U < a_rho_updates o')%Z).
Proof.
  intros U. assert (H25 : (25 <> 0)%Z) by lia. destruct (ex_settings_ok 0 1 25 true) as (H1 & H2 & H3 & H4 & _).
  assert (Ha : 0 < alpha (ex_settings 0 1 25 true) < 2) by (simpl; lra).
  destruct (C95_budget_exists (ex_settings 0 1 25 true) ex_qp ex_x ex_y (fun _ => 0) (fun _ => 0) H1 H2 Ha _ H3 U) as [N HN].
  exists (25 * (Z.of_nat N + 1))%Z.
  destruct (C95_solved_or_changes_partial (gauss_solver false) false (gauss_solver_exact false) (ex_settings (25 * (Z.of_nat N + 1)) 1 25 true)
    ex_qp ex_x ex_y (fun _ => 0) (fun _ => 0) ex_sym ex_psd H1 H2 ex_kkt H3 H4 (or_intror H25) ltac:(simpl; lia) Ha
    (admm_new 1) U N HN ltac:(simpl; lia)) as (o' & E & H).
  exists o'. split; [exact E|]. destruct H as [[H _]|H]; [left|right]; exact H.
Qed.
