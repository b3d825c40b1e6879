(** QPs without a solution are not reported as solved (property C101). *)
Require Import ZArith List Bool Lia Reals Lra Psatz Floats.SpecFloat.
From Verif Require Import Scal RSum Qp_Model Qp_Spec Qp_Proofs Admm_Model Admm_Spec Admm_SpecR Admm_Proofs Admm_ProofsR
  BoxAdmm_Model Gauss Qp_Example QpInf_Spec QpInf_Proofs.
Local Open Scope R_scope.

(** C101: for every infeasible QP there is a tolerance below which no call of either solver ends with SOLVED - whatever the
    linear solver returns, whatever the guesses, the history of the object and the remaining settings. The relative tolerance
    has to be zero ... *)
Theorem C101_infeasible : forall p, qp_consistent p -> infeasible p ->
  exists e0, 0 < e0 /\ forall s, 0 < rho0 s -> eps_rel s = 0 -> eps_abs s < e0 -> forall lsolve full xg yg,
    (forall o o', admm_solve lsolve full s p xg yg o = Some o' -> a_status o' <> SOLVED) /\
    (forall o o', box_solve lsolve full s p xg yg o = Some o' -> b_status o' <> SOLVED).
Proof. exact infeasible_never. Qed.
Print Assumptions C101_infeasible.

(** ... or small as well when all bounds are finite. *)
Theorem C101_infeasible_relative : forall p, qp_consistent p -> infeasible p -> bounds_finite p ->
  exists e0, 0 < e0 /\ forall s, 0 < rho0 s -> 0 <= eps_rel s < e0 -> eps_abs s < e0 -> forall lsolve full xg yg,
    (forall o o', admm_solve lsolve full s p xg yg o = Some o' -> a_status o' <> SOLVED) /\
    (forall o o', box_solve lsolve full s p xg yg o = Some o' -> b_status o' <> SOLVED).
Proof. exact infeasible_never_rel. Qed.
Print Assumptions C101_infeasible_relative.

(** The same for convex QPs whose cost is unbounded below over the feasible points. *)
Theorem C101_unbounded : forall p, symmetric (qn p) (qH p) -> psd (qn p) (qH p) -> unbounded_below p ->
  exists e0, 0 < e0 /\ forall s, 0 < rho0 s -> eps_rel s = 0 -> eps_abs s < e0 -> forall lsolve full xg yg,
    (forall o o', admm_solve lsolve full s p xg yg o = Some o' -> a_status o' <> SOLVED) /\
    (forall o o', box_solve lsolve full s p xg yg o = Some o' -> b_status o' <> SOLVED).
Proof. exact unbounded_never. Qed.
Print Assumptions C101_unbounded.

(** What ADMM does instead: on infeasible problems the multipliers grow by a fixed amount per iteration, ... *)
Theorem C101_multipliers_diverge : forall lsolve full, exact_solver full lsolve -> forall s p,
  qp_consistent p -> infeasible p -> symmetric (qn p) (qH p) -> psd (qn p) (qH p) ->
  0 < sigma s -> 0 < rho0 s -> 1 <= alpha s < 2 -> adaptive_rho s = false ->
  exists c, 0 < c /\ forall xg yg ob k o,
    visits (admm_body lsolve s p) (max_iter s) (admm_setup full s p xg yg ob) k o ->
    c * IZR (k - 1) - rnorminf (qm p + qn p) yg <= rnorminf (qm p + qn p) (a_y o).
Proof.
  intros lsolve full He s p Hc HI Hs Hp Hsg Hr Ha Had. destruct (infeasible_cert p Hc HI) as (v & dl & F).
  exists (dl / (rnorm1 (qm p + qn p) (fun i => v i / rho_fix s p i) + 1)). split.
  - destruct F as (_ & _ & Hd). assert (N := rnorm1_nonneg (qm p + qn p) (fun i => v i / rho_fix s p i)). apply Rdiv_lt_0_compat; lra.
  - intros xg yg ob k o Hv. eapply mult_diverge; eauto.
Qed.
Print Assumptions C101_multipliers_diverge.

(** ... and on unbounded ones the point or the slacks do. *)
Theorem C101_iterates_diverge : forall lsolve full, exact_solver full lsolve -> forall s p,
  unbounded_below p -> symmetric (qn p) (qH p) -> psd (qn p) (qH p) ->
  0 < sigma s -> 0 < rho0 s -> 1 <= alpha s < 2 -> adaptive_rho s = false ->
  exists c, 0 < c /\ forall xg yg ob, exists c0, forall k o,
    visits (admm_body lsolve s p) (max_iter s) (admm_setup full s p xg yg ob) k o ->
    c * IZR (k - 1) - c0 <= Rmax (rnorminf (qn p) (a_x o)) (rnorminf (qm p + qn p) (a_z o)).
Proof.
  intros lsolve full He s p HU Hs Hp Hsg Hr Ha Had. assert (Hc := unbounded_consistent p HU).
  destruct (unbounded_cert p Hc Hs Hp HU) as (d & D).
  exists (alpha s * - rdot (qn p) (qh p) d / (sigma s * rnorm1 (qn p) d + rnorm1 (qm p + qn p) (fun i => rho_fix s p i * stackv p d i) + 1)). split.
  - destruct D as (_ & _ & Hd). assert (N1 := rnorm1_nonneg (qn p) d). assert (N2 := rnorm1_nonneg (qm p + qn p) (fun i => rho_fix s p i * stackv p d i)).
    apply Rdiv_lt_0_compat; nra.
  - intros xg yg ob. eapply iter_diverge; eauto.
Qed.
Print Assumptions C101_iterates_diverge.

(** minimise - x1 / 1000 subject to x0 = 0 and x0 = 1, with a box of half-width b (none when b is infinite) *)
Definition inf_qp {T : Type} {ST : Scalar T} (lo hi : ext T) : qp_data T :=
  mkQP 2 2 (fun _ _ => s0) (fun j => if Nat.eqb j 0 then s0 else scst (-1) 1000) (fun _ j => if Nat.eqb j 0 then s1 else s0)
    (fun i => if Nat.eqb i 0 then Fin s0 else Fin s1) (fun i => if Nat.eqb i 0 then Fin s0 else Fin s1) (fun _ => lo) (fun _ => hi).
(** minimise 1000 x0 - x1 / 2 subject to 0 <= x0 *)
Definition unb_qp {T : Type} {ST : Scalar T} : qp_data T :=
  mkQP 2 0 (fun _ _ => s0) (fun j => if Nat.eqb j 0 then sofZ 1000 else scst (-1) 2) (fun _ _ => s0)
    (fun _ => MInf) (fun _ => PInf) (fun j => if Nat.eqb j 0 then Fin s0 else MInf) (fun _ => PInf).

Lemma inf_infeasible lo hi : infeasible (inf_qp lo hi).
Proof.
  intros (x & F & _). assert (F0 := F 0%nat ltac:(simpl; lia)). assert (F1 := F 1%nat ltac:(simpl; lia)). unfold inf_qp in F0, F1. cbn [qm qn qA qAlb qAub Nat.eqb] in F0, F1.
  rewrite !rmv_def in F0, F1. unfold rsum in F0, F1. cbn -[Rmult Rplus] in F0, F1. unfold in_bounds, above, below in F0, F1. rsimp. lra.
Qed.
Lemma inf_consistent lo hi : consistent lo hi -> qp_consistent (inf_qp lo hi).
Proof.
  intros H. split; intros i Hi; simpl.
  - destruct (Nat.eqb i 0); eexists; split; simpl; apply Rle_refl.
  - exact H.
Qed.
Lemma unb_unbounded : unbounded_below unb_qp.
Proof.
  intros B. exists (fun j => if Nat.eqb j 0 then 0 else 2 * Rabs B + 2). split; [split|].
  - intros i Hi. simpl in Hi. lia.
  - intros j Hj. simpl. destruct (Nat.eqb j 0); split; simpl; rsimp; auto; lra.
  - unfold qp_obj, qf. rewrite !rdot_def. unfold unb_qp. cbn [qn qH qh]. unfold rsum. cbn -[Rmult Rplus Rabs]. unfold scst. rsimp.
    assert (A := Rle_abs (- B)). rewrite Rabs_Ropp in A. lra.
Qed.

(** With a positive relative tolerance and a variable without bounds the property is false: with the default settings, from the
    cold start, both solvers report SOLVED on the infeasible problem after 25 iterations (x0 is close to 1/2, 0 and 1 were asked for),
    since the tolerance is relative to x1, which runs away. *)
Theorem C101_infeasible_refuted : infeasible (inf_qp MInf PInf : qp_data R) /\ qp_consistent (inf_qp MInf PInf : qp_data R) /\
  let sc := SF_scalar in let s := ex_settings 1000 s1 25 false in
  option_map (fun o => (a_status o, a_iter o, sltb (scst 4 10) (a_x o 0%nat) && sltb (a_x o 0%nat) (scst 6 10)))
    (admm_solve_cold (gauss_solver false) false s (inf_qp MInf PInf) (admm_new s1)) = Some (SOLVED, 25%Z, true) /\
  option_map (fun o => (b_status o, b_iter o, sltb (scst 4 10) (b_x o 0%nat) && sltb (b_x o 0%nat) (scst 6 10)))
    (box_solve_cold (gauss_solver false) false s (inf_qp MInf PInf) (box_new s1)) = Some (SOLVED, 25%Z, true).
Proof.
  split; [apply inf_infeasible|]. split; [apply inf_consistent; exists 0; split; simpl; auto|].
  vm_compute. split; reflexivity.
Qed.
Print Assumptions C101_infeasible_refuted.

(** Likewise an unbounded problem is reported SOLVED with the default settings: the tolerance of the stationarity test is relative to
    the largest entry of the cost. *)
Theorem C101_unbounded_refuted : unbounded_below (unb_qp : qp_data R) /\
  let sc := SF_scalar in let s := ex_settings 1000 s1 25 false in
  option_map (fun o => (a_status o, a_iter o)) (admm_solve_cold (gauss_solver false) false s unb_qp (admm_new s1)) = Some (SOLVED, 25%Z) /\
  option_map (fun o => (b_status o, b_iter o)) (box_solve_cold (gauss_solver false) false s unb_qp (box_new s1)) = Some (SOLVED, 25%Z).
Proof. split; [exact unb_unbounded|]. vm_compute. split; reflexivity. Qed.
Print Assumptions C101_unbounded_refuted.

Example C101_example : qp_consistent (inf_qp (Fin (-10)) (Fin 10)) /\ infeasible (inf_qp (Fin (-10)) (Fin 10)) /\ bounds_finite (inf_qp (Fin (-10)) (Fin 10)) /\
  unbounded_below unb_qp /\ symmetric 2 (qH (unb_qp : qp_data R)) /\ psd 2 (qH (unb_qp : qp_data R)) /\
  let s := ex_settings 100 1 25 false : qp_settings R in 0 < sigma s /\ 0 < rho0 s /\ 1 <= alpha s < 2 /\ adaptive_rho s = false /\
    exact_solver false (gauss_solver false).
Proof.
  assert (B : -10 <= 10) by lra.
  split; [apply inf_consistent; exists 0; split; simpl; lra|]. split; [apply inf_infeasible|].
  split; [split; intros i _; simpl; destruct (Nat.eqb i 0); split; eexists; reflexivity|]. split; [exact unb_unbounded|].
  split; [intros i j _ _; reflexivity|]. split.
  - intros x. unfold qf. rewrite rdot_def. apply rsum_nonneg. intros i _. rewrite rmv_def. rewrite rsum_zero by (intros; simpl; rsimp; ring). lra.
  - cbv zeta. unfold ex_settings, scst. cbn [sigma rho0 alpha adaptive_rho]. rsimp. repeat split; try lra. apply gauss_solver_exact.
Qed.
