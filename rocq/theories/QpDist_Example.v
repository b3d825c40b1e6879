(** Example for property C104: the problem of Sqp_Example (optimum 1, multiplier -1) with a QP solver that is off by 1/10. *)
Require Import Reals Lra Lia List ZArith Bool.
Require Import Verif.Scal Verif.RSum Verif.Qp_Model Verif.Qp_Spec Verif.Sqp_Model Verif.Sqp_Spec Verif.Sqp_Proofs Verif.Sqp_ProofsR
  Verif.SqpQp_Spec Verif.Sqp_Example Verif.QpDist_Spec Verif.QpDist_Proofs.
Import ListNotations.
Local Open Scope R_scope.

Definition off_qp (q : unit) (d : qp_data R) : unit * (vec R * vec R * Z) :=
  let a := ex_qp q d in (tt, ((fun j => fst (fst (snd a)) j + / 10), snd (fst (snd a)), 1%Z)).
Definition off_solve st v l :=
  sqp_solve exP st unit unit (fun B _ _ => B) (fun H => H) ex_pc (fun _ r => r) (fun _ d => d) off_qp (fun q => q)
    (ex_start (v : R) l).
Definition off_good (e : qp_data R * (vec R * vec R)) : Prop :=
  inexact_step (/ 10) (/ 5) e /\ hessian_is 1 (fun _ _ => 2) e /\ rnorm1 3 (fun i => snd (snd e) i - ex_l (-1) i) <= 0.

Lemma off_step : forall x,
  let d := sub_qp exP (fun _ _ => scst 2 1) (ex_grad x) (ex_jac x) (fun i => if Nat.ltb i 1 then x O - 1 else x O) x in
  off_good (d, (fst (fst (snd (off_qp tt d))), snd (fst (snd (off_qp tt d))))).
Proof.
  intros x d. destruct ex_c as (C2 & C5 & C3). split; [|split].
  - exists (fun i => match i with O => 1 - x O | _ => 1 - x O end), (fun _ => 1 - x O). unfold d. cbn [fst snd off_qp ex_qp].
    unfold certificate, lag_grad, in_bounds, sign_ok. unfold exP, sub_qp. rewrite C2, C5, C3.
    cbn -[Nat.ltb rmv rsum ex_grad Rabs].
    repeat (split || intro); intros;
    try (destruct i as [|[|?]]; [| |lia]); try (assert (j = O) by lia; subst); try apply Rabs_le;
    unfold ex_jac, ex_grad in *; rewrite ?C2 in *; rexpand; cbn in *; rewrite ?rmv_def, ?rsum_S, ?rsum_0 in *; try lra; try exact I; auto;
    try (f_equal; lra).
  - intros i j _ _. exact C2.
  - rewrite rnorm1_def. unfold d, ex_grad. cbn [fst snd off_qp ex_qp]. unfold exP, sub_qp, ex_grad. cbn -[Nat.ltb rsum Rabs scst]. rewrite !rsum_S, !rsum_0, C2. cbn -[Rabs].
    match goal with |- 0 + Rabs ?a + Rabs ?b + Rabs ?c <= 0 => replace a with 0 by ring; replace b with 0 by ring; replace c with 0 by ring end.
    rewrite Rabs_R0. lra.
Qed.

Lemma off_all : forall st v l, Forall off_good (steps (off_solve st v l)).
Proof.
  intros st v l. 
  enough (X : m_H (off_solve st v l) = (fun _ _ => scst 2 1) /\ Forall off_good (steps (off_solve st v l))) by apply X.
  unfold off_solve.
  apply (solve_inv exP st unit unit (fun B _ _ => B) (fun H => H) ex_pc (fun _ r => r) (fun _ d => d) off_qp
     (fun q => q) (fun s => m_H s = (fun _ _ => scst 2 1) /\ Forall off_good (steps s))).
  - intros s s' (_ & _ & _ & E1 & _ & _ & _ & _ & _ & E2). rewrite E1, E2. auto.
  - intros s lagg h b A [HP HF] E. cbn [exP p_lag] in E. injection E as <- <- <- <-.
    unfold sqp_step, ex_pc.
    destruct (off_qp (m_q s) _) as [q [[p0 l0] it]] eqn:EQ.
    destruct (step_size_selection _ _ _ _ _ _ _) as [[al c] ev]. cbn [m_H steps].
    split; [exact HP|]. constructor; [|exact HF]. rewrite HP in EQ |- *.
    destruct (m_q s). pose proof (off_step (m_x s)) as X. cbv zeta in X.
    match type of EQ with off_qp tt ?d = _ => change (off_good (d, (fst (fst (snd (off_qp tt d))), snd (fst (snd (off_qp tt d)))))) in X end.
    rewrite EQ in X. exact X.
  - unfold sqp_first. cbn [exP p_lag_full m_x m_lam].
    unfold sqp_step, ex_pc. cbn [m_q m_w ex_start].
    destruct (off_qp tt _) as [q [[p0 l0] it]] eqn:EQ.
    destruct (step_size_selection _ _ _ _ _ _ _) as [[al c] ev]. cbn [m_H steps].
    split; [reflexivity|]. constructor; [|constructor].
    pose proof (off_step (fun j => match j with O => v | _ => 0 end)) as X. cbv zeta in X.
    match type of EQ with off_qp tt ?d = _ => change (off_good (d, (fst (fst (snd (off_qp tt d))), snd (fst (snd (off_qp tt d)))))) in X end.
    rewrite EQ in X. exact X.
Qed.

(** C93_example's facts about the problem *)
Lemma off_quadratic :
  quadratic_nlp exP ex_grad ex_jac (fun _ _ => 2) (fun _ => -1) 0 (fun _ _ => 1) (fun i => match i with O => -1 | _ => 0 end).
Proof.
  destruct ex_c as (C2 & _ & _). unfold quadratic_nlp, exP, ex_grad, ex_jac, constr_values, symmetric. cbn [nx ne ni p_cost p_eq p_ineq].
    split; [reflexivity|]. split; [|split; [|split]].
    + intros x. unfold qf. rexpand. cbn. lra.
    + intros x j Hj. assert (j = O) by lia. subst. rexpand. rewrite C2. cbn. lra.
    + intros x i Hi. destruct i as [|[|i]]; [| |lia]; rexpand; cbn; lra.
    + reflexivity.
Qed.
Lemma off_curv : curvature 1 (fun _ _ => 2) 2.
Proof. intro v. unfold qf. rexpand. cbn. lra. Qed.
