(** Property theorems about the dense boxADMM solver (src/solvers/box_admm.hpp). *)
Require Import ZArith List Bool Reals Lra Lia Floats.SpecFloat.
From Verif Require Import Scal RSum Qp_Model Qp_Spec Qp_Proofs Admm_Model Admm_Spec Admm_SpecR Admm_Proofs
  BoxAdmm_Model BoxAdmm_Proofs BoxAdmm_ProofsR BoxAdmm_Equiv Gauss Qp_Example Qp_ExampleR.
Local Open Scope R_scope.

(** ** C02 *)
Theorem C02_box_status : forall (T : Type) (ST : Scalar T) lsolve full s p xg yg o o',
  box_solve lsolve full s p xg yg o = Some o' ->
  (b_status o' = SOLVED /\ (1 <= b_iter o' <= max_iter s)%Z /\ check_termination s <> 0%Z /\
     (Z.rem (b_iter o') (check_termination s) = 0)%Z)
  \/ (b_status o' = MAX_ITER_EXCEEDED /\ b_iter o' = (Z.max 0 (max_iter s) + 1)%Z).
Proof. exact @bsolve_status_truth. Qed.
Print Assumptions C02_box_status.

Theorem C02_box_defined : forall (T : Type) (ST : Scalar T) lsolve full s p xg yg o,
  (adaptive_rho s = false \/ adaptive_rho_interval s <> 0%Z) ->
  exists o', box_solve lsolve full s p xg yg o = Some o'.
Proof. exact @bsolve_defined. Qed.
Print Assumptions C02_box_defined.

Example C02_box_example : let sc := SF_scalar in
  option_map (fun o => (b_status o, b_iter o))
    (box_solve_cold (gauss_solver false) false (ex_settings 1000 s1 5 false) ex_qp (box_new s1)) = Some (SOLVED, 35%Z) /\
  option_map (fun o => (b_status o, b_iter o))
    (box_solve_cold (gauss_solver false) false (ex_settings 12 s1 5 true) ex_qp (box_new s1)) = Some (MAX_ITER_EXCEEDED, 13%Z).
Proof. vm_compute. split; reflexivity. Qed.

(** ** C03 *)
Theorem C03_box_solved_certificate : forall lsolve full s p xg yg o o',
  qp_consistent p -> 0 < rho0 s ->
  box_solve lsolve full s p xg yg o = Some o' -> b_status o' = SOLVED ->
  let x := b_x o' in let y := b_y o' in let z := b_z o' in let q := b_q o' in
  let ep := eps_abs s + eps_rel s * box_prim_scale p x z in
  let ed := eps_abs s + eps_rel s * qp_dual_scale p x y in
  exists ep_a ep_x, 0 <= ep_a /\ 0 <= ep_x /\ ep_a + ep_x <= ep /\ certificate p x y z q ep_a ep_x ed.
Proof. exact bsolved_certificate. Qed.
Print Assumptions C03_box_solved_certificate.

Theorem C03_box_solved_near_optimal : forall lsolve full s p xg yg o o',
  qp_consistent p -> 0 < rho0 s -> symmetric (qn p) (qH p) -> psd (qn p) (qH p) ->
  box_solve lsolve full s p xg yg o = Some o' -> b_status o' = SOLVED ->
  let x := b_x o' in let y := b_y o' in let z := b_z o' in
  near_optimal p x y (eps_abs s + eps_rel s * box_prim_scale p x z) (eps_abs s + eps_rel s * qp_dual_scale p x y).
Proof. exact bsolved_near_optimal. Qed.
Print Assumptions C03_box_solved_near_optimal.

Example C03_example : exists o',
  box_solve (gauss_solver false) false (ex_settings 100 1 25 true) ex_qp ex_x ex_y (box_new 1) = Some o' /\
  b_status o' = SOLVED /\ qp_consistent (ex_qp : qp_data R).
Proof.
  destruct (ex_settings_ok 100 1 25 true) as (H1 & H2 & H3 & H4 & _).
  destruct (bwarm_start _ _ (gauss_solver_exact false) (ex_settings 100 1 25 true) ex_qp ex_x ex_y (box_new 1)
    ltac:(intros i j _ _ _; reflexivity) ex_sym ex_psd H1 H2 eq_refl ltac:(lra) H4 ex_kkt) as (o' & E & Es & _); try (simpl; lia).
  exists o'. split; [exact E|]. split; [exact Es|exact ex_consistent].
Qed.

(** ** C04 *)
(** [box_reachable]: objects obtained from the constructor by any sequence of solves *)
Theorem C04_box_matrix : forall lsolve full s p xg yg o k o1,
  box_reachable lsolve full (qn p) (qm p) o ->
  visits (box_body lsolve s p) (max_iter s) (box_setup full s p xg yg o) k o1 ->
  forall i j, (i < qn p + qm p)%nat -> (j < qn p + qm p)%nat ->
    as_read full (b_Fact o1) i j = box_kkt full s p (b_rho_vec o1) (b_rho_box o1) i j.
Proof. exact (fun lsolve full s p xg yg o k o1 Hr => bvisits_fact lsolve full s p xg yg o k o1 (reachable_boff _ _ _ _ _ Hr)). Qed.
Print Assumptions C04_box_matrix.

Theorem C04_box_solvable : forall lsolve full s p xg yg o k o1,
  box_reachable lsolve full (qn p) (qm p) o ->
  symmetric (qn p) (qH p) -> psd (qn p) (qH p) -> 0 < sigma s -> 0 < rho0 s ->
  visits (box_body lsolve s p) (max_iter s) (box_setup full s p xg yg o) k o1 ->
  nonsingular (qn p + qm p) (as_read full (b_Fact o1)).
Proof. exact (fun lsolve full s p xg yg o k o1 Hr => bvisits_nonsingular lsolve full s p xg yg o k o1 (reachable_boff _ _ _ _ _ Hr)). Qed.
Print Assumptions C04_box_solvable.

Example C04_box_example : box_reachable (gauss_solver false) false 2 1 (box_new 1 : box_obj R) /\
  let s := ex_settings 100 1 25 true in 0 < sigma s /\ 0 < rho0 s.
Proof.
  split; [constructor|]. destruct (ex_settings_ok 100 1 25 true) as (H1 & H2 & _). auto.
Qed.

(** ** C06: holds for alpha = 1 *)
Theorem C06_box_warm_start_partial : forall lsolve full, exact_solver full lsolve ->
  forall s p xg yg o, box_reachable lsolve full (qn p) (qm p) o ->
  symmetric (qn p) (qH p) -> psd (qn p) (qH p) -> 0 < sigma s -> 0 < rho0 s -> alpha s = 1 ->
  0 <= eps_abs s -> 0 <= eps_rel s -> kkt_pair p xg yg ->
  (1 <= Z.abs (check_termination s) <= max_iter s)%Z ->
  (adaptive_rho s = false \/ adaptive_rho_interval s <> 0%Z) ->
  exists o', box_solve lsolve full s p xg yg o = Some o' /\ b_status o' = SOLVED /\
    b_iter o' = Z.abs (check_termination s) /\
    (forall j, (j < qn p)%nat -> b_x o' j = xg j) /\ (forall i, (i < qm p + qn p)%nat -> b_y o' i = yg i).
Proof. exact (fun lsolve full He s p xg yg o Hr => bwarm_start lsolve full He s p xg yg o (reachable_boff _ _ _ _ _ Hr)). Qed.
Print Assumptions C06_box_warm_start_partial.

(** for every other alpha one iteration replaces the optimum x by alpha (2 - alpha) x *)
Theorem C06_box_alpha_scales : forall lsolve full, exact_solver full lsolve ->
  forall s p xg yg o, box_reachable lsolve full (qn p) (qm p) o ->
  symmetric (qn p) (qH p) -> psd (qn p) (qH p) -> 0 < sigma s -> 0 < rho0 s -> kkt_pair p xg yg ->
  max_iter s = 1%Z -> check_termination s = 0%Z -> adaptive_rho s = false ->
  exists o', box_solve lsolve full s p xg yg o = Some o' /\
    forall j, (j < qn p)%nat -> b_x o' j = alpha s * (2 - alpha s) * xg j.
Proof. exact (fun lsolve full He s p xg yg o Hr => box_one_iteration lsolve full He s p xg yg o (reachable_boff _ _ _ _ _ Hr)). Qed.
Print Assumptions C06_box_alpha_scales.

Theorem C06_box_warm_start_refuted : exists lsolve s p xg yg o o',
  exact_solver false lsolve /\ symmetric (qn p) (qH p) /\ psd (qn p) (qH p) /\ kkt_pair p xg yg /\
  0 < sigma s /\ 0 < rho0 s /\ 0 < alpha s < 2 /\
  box_solve lsolve false s p xg yg o = Some o' /\ xg 0%nat = 1 / 2 /\ b_x o' 0%nat = 8 / 25.
Proof.
  destruct (ex_settings_ok 1 (8/5) 0 false) as (H1 & H2 & _).
  destruct (C06_box_alpha_scales (gauss_solver false) false (gauss_solver_exact false) (ex_settings 1 (8/5) 0 false) ex_qp ex_x ex_y
    (box_new 1) (reach_new _ _ 2 1 1) ex_sym ex_psd H1 H2 ex_kkt eq_refl eq_refl eq_refl) as (o' & E & Hx).
  exists (gauss_solver false), (ex_settings 1 (8/5) 0 false), ex_qp, ex_x, ex_y, (box_new 1), o'.
  split; [apply gauss_solver_exact|]. split; [apply ex_sym|]. split; [apply ex_psd|]. split; [apply ex_kkt|].
  split; [exact H1|]. split; [exact H2|]. split; [simpl; lra|]. split; [exact E|].
  split; [unfold ex_x, scst; rsimp; reflexivity|].
  rewrite Hx by (simpl; lia). unfold ex_x, scst. simpl. rsimp. lra.
Qed.
Print Assumptions C06_box_warm_start_refuted.

(** ** C08 *)
Theorem C08_box_history : forall (T : Type) (ST : Scalar T) lsolve full, reads_only lsolve full ->
  forall s p xg yg o1 o2,
  box_reachable lsolve full (qn p) (qm p) o1 -> box_reachable lsolve full (qn p) (qm p) o2 ->
  match box_solve lsolve full s p xg yg o1, box_solve lsolve full s p xg yg o2 with
  | Some a, Some b =>
      b_x a = b_x b /\ b_y a = b_y b /\ b_z a = b_z b /\ b_q a = b_q b /\ b_status a = b_status b /\ b_iter a = b_iter b /\
      (b_rho_updates a - b_rho_updates o1 = b_rho_updates b - b_rho_updates o2)%Z /\
      (b_res a = b_res b \/ (b_res a = b_res o1 /\ b_res b = b_res o2)) /\
      (b_rho_estimate a = b_rho_estimate b \/ (b_rho_estimate a = b_rho_estimate o1 /\ b_rho_estimate b = b_rho_estimate o2))
  | None, None => True
  | _, _ => False
  end.
Proof. exact @bsolve_history. Qed.
Print Assumptions C08_box_history.

Example C08_box_example : reads_only (@gauss_solver _ SF_scalar false) false /\
  exists o, @box_reachable _ SF_scalar (@gauss_solver _ SF_scalar false) false 2 1 o /\ b_rho_updates o = 1%Z.
Proof.
  split; [apply gauss_reads_only|].
  destruct (@C02_box_defined _ SF_scalar (@gauss_solver _ SF_scalar false) false (@ex_settings _ SF_scalar 7 (@s1 _ SF_scalar) 5 false)
    (@ex_qp _ SF_scalar) (fun _ => @s0 _ SF_scalar) (fun _ => @s0 _ SF_scalar) (@box_new _ SF_scalar (@s1 _ SF_scalar)) (or_introl eq_refl)) as [o E].
  exists o. split.
  - eapply reach_solve; [apply (reach_new _ _ 2 1 (@s1 _ SF_scalar))| | |exact E]; reflexivity.
  - vm_compute in E. injection E. intros; subst. reflexivity.
Qed.

(** ** C09 *)
Theorem C09_box_step_sizes : forall lsolve full s p xg yg o k o1,
  visits (box_body lsolve s p) (max_iter s) (box_setup full s p xg yg o) k o1 ->
  (forall i, (i < qm p)%nat -> b_ctype o1 i = parse_row (qAlb p i) (qAub p i)) /\
  (forall j, (j < qn p)%nat -> b_ctype o1 (qm p + j)%nat = parse_row (qxlb p j) (qxub p j)) /\
  (forall i, (i < qm p)%nat -> b_rho_vec o1 i =
      match b_ctype o1 i with
      | LOOSE_BOUNDS => 1 / 1000000 | EQUALITY_CONSTRAINT => 1000 * b_rho o1 | INEQUALITY_CONSTRAINT => b_rho o1 end) /\
  (forall j, (j < qn p)%nat -> b_rho_box o1 j =
      match b_ctype o1 (qm p + j)%nat with
      | LOOSE_BOUNDS => 1 / 1000000 | EQUALITY_CONSTRAINT => 1000 * b_rho o1 | INEQUALITY_CONSTRAINT => b_rho o1 end) /\
  (1 / 1000000 <= rho0 s <= 1000000 ->
     (forall i, (i < qm p)%nat -> 1 / 1000000 <= b_rho_vec o1 i <= 1000000000) /\
     (forall j, (j < qn p)%nat -> 1 / 1000000 <= b_rho_box o1 j <= 1000000000)).
Proof. exact bstep_sizes. Qed.
Print Assumptions C09_box_step_sizes.

(** ** C49 *)
Theorem C49_box_residuals_partial : forall (T : Type) (ST : Scalar T) lsolve full s p xg yg o o',
  box_solve lsolve full s p xg yg o = Some o' -> b_status o' = SOLVED ->
  b_res o' = box_compute_residuals p (b_x o') (b_y o') (b_z o') (b_q o').
Proof. exact (fun T ST lsolve full s p xg yg o o' H Hs => proj1 (bsolve_fresh lsolve full s p xg yg o o' H Hs)). Qed.
Print Assumptions C49_box_residuals_partial.

(** ** C50 *)
(** same problem, guess, settings (alpha = 1, no adaptation): the k-th iterates coincide *)
Theorem C50_same_iterates : forall lA lB fA fB, exact_solver fA lA -> exact_solver fB lB ->
  forall s p xg yg oA oB, box_reachable lB fB (qn p) (qm p) oB ->
  symmetric (qn p) (qH p) -> psd (qn p) (qH p) -> 0 < sigma s -> 0 < rho0 s -> alpha s = 1 -> adaptive_rho s = false ->
  forall k a b,
  visits (admm_body lA s p) (max_iter s) (admm_setup fA s p xg yg oA) k a ->
  visits (box_body lB s p) (max_iter s) (box_setup fB s p xg yg oB) k b ->
  (forall j, (j < qn p)%nat -> b_x b j = a_x a j) /\
  (forall i, (i < qm p + qn p)%nat -> b_y b i = a_y a i) /\
  (forall i, (i < qm p)%nat -> b_z b i = a_z a i) /\
  (forall j, (j < qn p)%nat -> b_q b j = a_z a (qm p + j)%nat).
Proof. exact (fun lA lB fA fB EA EB s p xg yg oA oB Hr => visits_agree lA lB fA fB EA EB s p xg yg oA oB (reachable_boff _ _ _ _ _ Hr)). Qed.
Print Assumptions C50_same_iterates.

(** run without convergence checks the two solvers return the same point and multipliers *)
Theorem C50_same_results : forall lA lB fA fB, exact_solver fA lA -> exact_solver fB lB ->
  forall s p xg yg oA oB, box_reachable lB fB (qn p) (qm p) oB ->
  symmetric (qn p) (qH p) -> psd (qn p) (qH p) -> 0 < sigma s -> 0 < rho0 s -> alpha s = 1 -> adaptive_rho s = false ->
  check_termination s = 0%Z -> forall a b,
  admm_solve lA fA s p xg yg oA = Some a -> box_solve lB fB s p xg yg oB = Some b ->
  ((forall j, (j < qn p)%nat -> b_x b j = a_x a j) /\
   (forall i, (i < qm p + qn p)%nat -> b_y b i = a_y a i) /\
   (forall i, (i < qm p)%nat -> b_z b i = a_z a i) /\
   (forall j, (j < qn p)%nat -> b_q b j = a_z a (qm p + j)%nat)) /\
  a_status a = b_status b /\ a_iter a = b_iter b.
Proof. exact (fun lA lB fA fB EA EB s p xg yg oA oB Hr => results_agree lA lB fA fB EA EB s p xg yg oA oB (reachable_boff _ _ _ _ _ Hr)). Qed.
Print Assumptions C50_same_results.

Example C50_example : exact_solver true (gauss_solver true) /\ exact_solver false (gauss_solver false) /\
  let s := ex_settings 40 1 0 false in
  0 < sigma s /\ 0 < rho0 s /\ alpha s = 1 /\
  exists a b, admm_solve_cold (gauss_solver true) true s ex_qp (admm_new 1) = Some a /\
              box_solve_cold (gauss_solver false) false s ex_qp (box_new 1) = Some b.
Proof.
  split; [apply gauss_solver_exact|]. split; [apply gauss_solver_exact|]. intro s.
  destruct (ex_settings_ok 40 1 0 false) as (H1 & H2 & _). fold s in H1, H2.
  split; [exact H1|]. split; [exact H2|]. split; [reflexivity|].
  destruct (solve_defined (gauss_solver true) true s ex_qp (fun _ => 0) (fun _ => 0) (admm_new 1) (or_introl eq_refl)) as [a Ea].
  destruct (bsolve_defined (gauss_solver false) false s ex_qp (fun _ => 0) (fun _ => 0) (box_new 1) (or_introl eq_refl)) as [b Eb].
  exists a, b. split; [exact Ea|exact Eb].
Qed.

(** ** C51: boxADMM never diverges and eventually reports SOLVED (alpha = 1, fixed step sizes) *)
Theorem C51_box_result_near : forall lsolve full, exact_solver full lsolve ->
  forall s p xg yg xs ys, symmetric (qn p) (qH p) -> psd (qn p) (qH p) -> 0 < sigma s -> 0 < rho0 s ->
  alpha s = 1 -> adaptive_rho s = false -> kkt_pair p xs ys ->
  forall ob o', box_reachable lsolve full (qn p) (qm p) ob -> box_solve lsolve full s p xg yg ob = Some o' ->
    dist2 s p (rho_fix s p) (b_x o') (fun i => if Nat.ltb i (qm p) then b_z o' i else b_q o' (i - qm p)%nat) (b_y o') xs (stackv p xs) ys
    <= dist2 s p (rho_fix s p) xg (stackv p xg) yg xs (stackv p xs) ys.
Proof.
  exact (fun lsolve full He s p xg yg xs ys Hs Hp Hg Hr Ha Hd HK ob o' Hrb =>
    bresult_near lsolve full He s p xg yg xs ys Hs Hp Hg Hr Ha Hd HK ob o' (reachable_boff _ _ _ _ _ Hrb)).
Qed.
Print Assumptions C51_box_result_near.

Theorem C51_box_solved : forall lsolve full, exact_solver full lsolve ->
  forall s p xg yg ob xs ys, box_reachable lsolve full (qn p) (qm p) ob ->
  symmetric (qn p) (qH p) -> psd (qn p) (qH p) -> 0 < sigma s -> 0 < rho0 s ->
  alpha s = 1 -> adaptive_rho s = false -> kkt_pair p xs ys ->
  0 < eps_abs s -> 0 <= eps_rel s -> check_termination s <> 0%Z ->
  forall N : nat,
    dist2 s p (rho_fix s p) xg (stackv p xg) yg xs (stackv p xs) ys < INR N * threshold (sigma s) (eps_abs s / 2) s p ->
    (Z.abs (check_termination s) * (Z.of_nat N + 1) <= max_iter s)%Z ->
    exists o', box_solve lsolve full s p xg yg ob = Some o' /\ b_status o' = SOLVED /\
      (b_iter o' <= Z.abs (check_termination s) * (Z.of_nat N + 1))%Z.
Proof.
  exact (fun lsolve full He s p xg yg ob xs ys Hrb =>
    bsolved_eventually_guess lsolve full He s p xg yg ob xs ys (reachable_boff _ _ _ _ _ Hrb)).
Qed.
Print Assumptions C51_box_solved.

Example C51_example : exists mx o',
  box_solve_cold (gauss_solver false) false (ex_settings mx 1 25 false) ex_qp (box_new 1) = Some o' /\ b_status o' = SOLVED.
Proof.
  destruct (ex_settings_ok 0 1 25 false) as (H1 & H2 & H3 & H4 & _).
  assert (H5 : 0 < eps_abs (ex_settings 0 1 25 false : qp_settings R) / 2) by lra.
  destruct (bound_exists (mkSettings (scst 1 1000) (scst 1 1000 / 2) 0 (scst 1 10) (scst 1 1000000) 1 25 false 5 25) ex_qp
     (fun _ => 0) (fun _ => 0) ex_x ex_y H1 H2 H5) as [N HN].
  exists (25 * (Z.of_nat N + 1))%Z.
  destruct (C51_box_solved (gauss_solver false) false (gauss_solver_exact false) (ex_settings (25 * (Z.of_nat N + 1)) 1 25 false) ex_qp
    (fun _ => 0) (fun _ => 0) (box_new 1) ex_x ex_y (reach_new _ _ 2 1 1) ex_sym ex_psd H1 H2 eq_refl eq_refl ex_kkt H3 H4)
    with (N := N) as (o' & E & Es & _).
  - simpl; lia.
  - exact HN.
  - simpl. lia.
  - exists o'. split; [exact E|exact Es].
Qed.
