(** Example for property C104: the control problem of LqMpc_Example with a QP solver whose last control is off by 1/10. *)
Require Import Reals Lra Lia List ZArith Bool.
From Verif Require Import Scal RSum RNorm Ocp_Model Mpc_Model Qp_Model Qp_Spec Sqp_Model Sqp_Spec Sqp_Proofs SqpQp_Spec Msv_Model
  LqMpc_Spec LqMpc_Example QpDist_Spec.
Import ListNotations.
Local Open Scope R_scope.

(** a perturbed solution of a QP meets the certificate *)
Lemma perturbed : forall (p : qp_data R) x y e ep ed, kkt_pair p x y ->
  (forall i, (i < qm p)%nat -> Rabs (rmv (qn p) (qA p) e i) <= ep) -> (forall j, (j < qn p)%nat -> Rabs (e j) <= ep) ->
  (forall j, (j < qn p)%nat -> Rabs (rmv (qn p) (qH p) e j) <= ed) -> inexact_step ep ed (p, (fun j => x j + e j, y)).
Proof.
  intros p x y e ep ed (L & (F1 & F2) & S1 & S2) HA Hx HH. exists (rmv (qn p) (qA p) x), x. cbn [fst snd]. split; [|split].
  - intros i Hi. split; [apply F1, Hi|]. split; [|apply S1, Hi].
    replace (rmv (qn p) (qA p) (fun j => x j + e j) i - rmv (qn p) (qA p) x i) with (rmv (qn p) (qA p) e i); [apply HA, Hi|].
    rewrite !rmv_def, <- rsum_minus. apply rsum_ext. intros. ring.
  - intros j Hj. split; [apply F2, Hj|]. split; [|apply S2, Hj]. replace (x j + e j - x j) with (e j) by ring. apply Hx, Hj.
  - intros j Hj. replace (lag_grad p (fun j => x j + e j) y j) with (rmv (qn p) (qH p) e j); [apply HH, Hj|].
    specialize (L j Hj). unfold lag_grad in *.
    replace (rmv (qn p) (qH p) (fun j => x j + e j) j) with (rmv (qn p) (qH p) x j + rmv (qn p) (qH p) e j).
    + set (a := rmv (qn p) (qH p) x j) in *. set (b := rmv (qn p) (qH p) e j) in *. clearbody a b. lra.
    + rewrite !rmv_def, <- rsum_plus. apply rsum_ext. intros. ring.
Qed.

Definition lo_e : vec R := fun j => if (j =? 3)%nat then / 10 else 0.
Definition lo_qp (q : unit) (d : qp_data R) : unit * (vec R * vec R * Z) := (q, (fun j => lq_xs j - qh d j + lo_e j, lq_ls, 1%Z)).
Definition lo_run : mpc R * sqp_state unit unit :=
  mpc_solve lq_user 10 lq_lag_full lq_lag lq_set unit unit (fun H _ _ => H) (fun H => H) (fun w d => (w, d)) (fun _ v => v) (fun _ d => d) lo_qp (fun q => q)
    (lq_mpc, lq_sqp).
Definition lo_good (e : qp_data R * (vec R * vec R)) : Prop :=
  inexact_step (/ 10) (/ 10) e /\ hessian_is 4 lq_id e /\ rnorm1 6 (fun i => snd (snd e) i - lq_ls i) <= 0.

Lemma lo_step : forall x, lo_good (sub_qp lq_nlp lq_id x lq_jac (lq_con x) x, (fun j => lq_xs j - x j + lo_e j, lq_ls)).
Proof.
  intro x. split; [|split].
  - destruct (lq_exact x) as [_ K]. apply perturbed; [exact K| | |].
    + change (qm _) with 2%nat. change (qn _) with 4%nat. cbn [qA sub_qp]. intros i Hi. 
      rewrite rmv_def, !rsum_S, rsum_0. unfold lo_e. cbn [Nat.eqb]. apply Rabs_le. destruct i as [|[|i]]; [| |lia]; unfold lq_jac; cbn; lra.
    + intros j _. unfold lo_e. destruct (j =? 3)%nat; apply Rabs_le; lra.
    + change (qn _) with 4%nat. cbn [qH sub_qp]. intros j Hj. rewrite rmv_def, !rsum_S, rsum_0. unfold lo_e, lq_id. cbn [Nat.eqb].
      apply Rabs_le. repeat match goal with |- context [if ?b then _ else _] => destruct b end; lra.
  - intros i j _ _. reflexivity.
  - cbn [snd]. rewrite rnorm1_def. rewrite (rsum_ext 6 _ (fun _ => 0)); [rewrite rsum_zero; [lra|reflexivity]|].
    intros i _. rewrite Rminus_diag_eq by reflexivity. apply Rabs_R0.
Qed.

Lemma lo_steps : Forall lo_good (steps (snd lo_run)).
Proof.
  unfold lo_run, mpc_solve. cbn [snd]. fold lq_nlp.
  match goal with |- Forall _ (steps ?r) => enough (X : m_H r = lq_id /\ Forall lo_good (steps r)) by apply X end.
  apply (solve_inv lq_nlp lq_set unit unit (fun H _ _ => H) (fun H => H) (fun w d => (w, d)) (fun _ v => v) (fun _ d => d) lo_qp (fun q => q)
    (fun s => m_H s = lq_id /\ Forall lo_good (steps s))).
  - intros s s' (_ & _ & _ & E1 & _ & _ & _ & _ & _ & E2). rewrite E1, E2. auto.
  - intros s lagg h b A [HP HF] E. change (p_lag lq_nlp) with lq_lag in E. injection E as <- <- <- <-.
    unfold sqp_step. cbn [lo_qp]. destruct (step_size_selection _ _ _ _ _ _ _) as [[al c] ev]. cbn [m_H steps].
    split; [exact HP|]. constructor; [|exact HF]. rewrite HP. apply lo_step.
  - unfold sqp_first. change (p_lag_full lq_nlp) with lq_lag_full. unfold lq_lag_full.
    unfold sqp_step. cbn [lo_qp]. destruct (step_size_selection _ _ _ _ _ _ _) as [[al c] ev]. cbn [m_H steps].
    split; [reflexivity|]. constructor; [|constructor]. apply lo_step.
Qed.

Lemma lo_curv : curvature 4 lq_id 1.
Proof. intro v. rewrite lq_id_qf, rdot_def, !rsum_S, rsum_0. lra. Qed.
