(** A small NLP used in the examples:
      minimise (x-1) + (x-1)^2  subject to  x - 1 = 0,  x <= 3,  0 <= x <= 5,
    with a QP oracle that returns the exact solution of every subproblem. *)
Require Import Reals Lra Lia List ZArith Bool.
Require Import Verif.Scal Verif.RSum Verif.Qp_Model Verif.Qp_Spec Verif.Hess_Model Verif.Hess_Proofs
  Verif.Sqp_Model Verif.Sqp_Spec Verif.Sqp_Proofs Verif.Sqp_ProofsR.
Import ListNotations.

Section Ex.
Context {T : Type} {ST : Scalar T}.
Local Open Scope S_scope.
Definition x0_of (x : vec T) : T := x O.
Definition ex_grad (x : vec T) : vec T := fun j => match j with O => 1 + scst 2 1 * (x O - 1) | _ => 0 end.
Definition ex_vals (x : vec T) : vec T := fun i => match i with O => x O - 1 | S O => x O | _ => 0 end.
Definition ex_jac (x : vec T) : mat T := fun _ _ => 1.
Definition ex_lagg (x l : vec T) : vec T := fun j => ex_grad x j + l O + l 1%nat + l 2%nat.
Definition exP : problem T := {|
  nx := 1; ne := 1; ni := 1;
  p_cost := fun x => (x O - 1) + (x O - 1) * (x O - 1);
  p_eq := fun x i => x O - 1;
  p_ineq := fun x i => x O;
  p_lag_full := fun x l => (ex_lagg x l, (fun _ _ => scst 2 1), ex_grad x,
     (fun i => if Nat.ltb i 1 then x O - 1 else x O), ex_jac x);
  p_lag := fun x l => (ex_lagg x l, ex_grad x, (fun i => if Nat.ltb i 1 then x O - 1 else x O), ex_jac x);
  lbx := fun _ => Fin 0; ubx := fun _ => Fin (scst 5 1); lbg := fun _ => MInf; ubg := fun _ => Fin (scst 3 1) |}.
(** the exact solution: the equality fixes the step *)
Definition ex_qp (q : unit) (d : qp_data T) : unit * (vec T * vec T * Z) :=
  let p := match qAlb d O with Fin v => v | _ => 0 end in
  (tt, ((fun j => match j with O => p | _ => 0 end),
        (fun i => match i with O => - (qH d O O * p + qh d O) | _ => 0 end), 1%Z)).
Definition ex_pc (w : unit) (d : qp_data T) : unit * qp_data T := (w, d).
Definition ex_start (v : T) (l : vec T) : @sqp_state T unit unit :=
  mkSqp (fun j => match j with O => v | _ => 0 end) l (fun _ => 0) (fun _ _ => scst 2 1) (fun _ => 0) 0 0 (Fin 0) 0
    SqpMaxIter 0 0 tt tt [] [] [].
Definition ex_solve (P : problem T) (st : sqp_settings T) qp (s : @sqp_state T unit unit) :=
  sqp_solve P st unit unit (bfgs_update (nx P)) (fun H => H) ex_pc (fun _ r => r) (fun _ d => d) qp (fun q => q) s.
Definition ex_set : sqp_settings T :=
  mkSqpSettings (scst 1 2) (scst 1 4) (scst 1 2) (scst 1 1000) (scst 1 1000) 100 100 true.
End Ex.

(** minimise x^4 - 3 x^2 without constraints *)
Definition quartic_grad {T} {ST : Scalar T} (x : vec T) : vec T :=
  fun _ => ssub (smul (scst 4 1) (smul (x O) (smul (x O) (x O)))) (smul (scst 6 1) (x O)).
Definition quartic {T} {ST : Scalar T} : problem T :=
  {| nx := 1; ne := 0; ni := 0;
     p_cost := fun x => let v := smul (x O) (x O) in ssub (smul v v) (smul (scst 3 1) v);
     p_eq := fun _ _ => s0; p_ineq := fun _ _ => s0;
     p_lag_full := fun x l => (quartic_grad x, fun _ _ => ssub (smul (scst 12 1) (smul (x O) (x O))) (scst 6 1),
                               quartic_grad x, fun _ => s0, fun _ _ => s0);
     p_lag := fun x l => (quartic_grad x, quartic_grad x, fun _ => s0, fun _ _ => s0);
     lbx := fun _ => MInf; ubx := fun _ => PInf; lbg := fun _ => MInf; ubg := fun _ => PInf |}.
Definition newton_qp {T} {ST : Scalar T} (q : unit) (d : qp_data T) : unit * (vec T * vec T * Z) :=
  (q, (fun j => sopp (sdiv (qh d j) (qH d j j)), fun _ => s0, 1%Z)).

Local Open Scope R_scope.

Lemma ex_lin : linearised_by exP ex_grad ex_jac.
Proof.
  split; intros x lam.
  - exists (ex_lagg x lam), (fun _ _ => scst 2 1). reflexivity.
  - exists (ex_lagg x lam). reflexivity.
Qed.

Lemma ex_c : scst 2 1 = 2 /\ scst 5 1 = 5 /\ scst 3 1 = 3.
Proof. unfold scst; simpl; repeat split; lra. Qed.

Lemma ex_proper : proper_bounds exP.
Proof. split; intros; split; discriminate. Qed.


Definition ex_x (v : R) : vec R := fun j => match j with O => v | _ => 0 end.
Definition ex_l (v : R) : vec R := fun j => match j with O => v | _ => 0 end.

Lemma ex_kkt : nlp_kkt exP (ex_grad (ex_x 1)) (ex_jac (ex_x 1)) (ex_x 1) (ex_l (-1)).
Proof.
  destruct ex_c as (C2 & C5 & C3).
  unfold nlp_kkt, nlp_feasible, in_bounds, sign_ok, exP, ex_grad, ex_jac. rewrite C2, C5, C3. simpl.
  repeat (split || intro); intros; try lra; try exact I; try (destruct i as [|i]; [|lia]); try (destruct j as [|j]; [|lia]);
    simpl in *; try lra.
Qed.

Lemma ex_kkt_unique : forall l, nlp_kkt exP (ex_grad (ex_x 1)) (ex_jac (ex_x 1)) (ex_x 1) l ->
  forall i, (i < 3)%nat -> l i = ex_l (-1) i.
Proof.
  destruct ex_c as (C2 & C5 & C3).
  intros l (_ & K & G & B). unfold sign_ok, exP, ex_grad, ex_jac, ex_x in *. rewrite C2 in K. rewrite ?C3, ?C5 in *.
  specialize (K O (Nat.lt_0_succ _)). specialize (G O (Nat.lt_0_succ _)). specialize (B O (Nat.lt_0_succ _)).
  cbn [ne ni nx Nat.add] in *. rewrite !rsum_S, rsum_0 in K. simpl in *.
  destruct G as [G1 G2], B as [B1 B2].
  assert (L1 : l 1%nat = 0).
  { destruct (Rtotal_order (l 1%nat) 0) as [H|[H|H]]; auto; [specialize (G2 H)|specialize (G1 H)]; try discriminate.
    injection G1; intros; lra. }
  assert (L2 : l 2%nat = 0).
  { destruct (Rtotal_order (l 2%nat) 0) as [H|[H|H]]; auto.
    - specialize (B2 H). injection B2; intros; lra.
    - specialize (B1 H). injection B1; intros; lra. }
  intros i Hi. destruct i as [|[|[|i]]]; simpl; try lia; try lra.
Qed.

Lemma ex_exact : forall H x, posdef 1 H ->
  exact_step (sub_qp exP H (ex_grad x) (ex_jac x) (fun i => if Nat.ltb i 1 then x O - 1 else x O) x,
    (fst (fst (snd (ex_qp tt (sub_qp exP H (ex_grad x) (ex_jac x) (fun i => if Nat.ltb i 1 then x O - 1 else x O) x)))),
     snd (fst (snd (ex_qp tt (sub_qp exP H (ex_grad x) (ex_jac x) (fun i => if Nat.ltb i 1 then x O - 1 else x O) x)))))).
Proof.
  intros H x HP. split; [exact HP|]. cbn [fst snd ex_qp].
  destruct ex_c as (C2 & C5 & C3).
  unfold kkt_pair, qp_feasible, lag_grad, in_bounds, sign_ok. unfold exP, sub_qp. rewrite C5, C3.
  cbn -[Nat.ltb rmv rsum ex_grad].
  repeat (split || intro); intros;
    try (destruct i as [|[|?]]; [| |lia]); try (assert (j = O) by lia; subst);
    unfold ex_jac in *; rexpand; cbn in *; rewrite ?rmv_def, ?rsum_S, ?rsum_0 in *; try lra; try exact I; auto;
    try (f_equal; lra).
Qed.

Lemma ex_sym1 : forall H : mat R, symmetric 1 H.
Proof. intros H i j Hi Hj. assert (i = O) by lia. assert (j = O) by lia. subst. reflexivity. Qed.

(** every QP subproblem of every run is strictly convex and solved exactly *)
Lemma ex_all_exact : forall st v l, Forall exact_step (steps (ex_solve exP st ex_qp (ex_start v l))).
Proof.
  intros st v l.
  enough (G : posdef 1 (m_H (ex_solve exP st ex_qp (ex_start v l))) /\
              Forall exact_step (steps (ex_solve exP st ex_qp (ex_start v l)))) by apply G.
  unfold ex_solve.
  apply (solve_inv exP st unit unit (bfgs_update (nx exP)) (fun H => H) ex_pc (fun _ r => r) (fun _ d => d) ex_qp
     (fun q => q) (fun s => posdef 1 (m_H s) /\ Forall exact_step (steps s))).
  - intros s s' (_ & _ & _ & E1 & _ & _ & _ & _ & _ & E2). rewrite E1, E2. auto.
  - intros s lagg h b A [HP HF] E. cbn [exP p_lag] in E. injection E as <- <- <- <-.
    unfold sqp_step, ex_pc.
    destruct (ex_qp (m_q s) _) as [q [[p0 l0] it]] eqn:EQ.
    destruct (step_size_selection _ _ _ _ _ _ _) as [[al c] ev]. cbn [m_H steps].
    assert (HP' : posdef 1 (bfgs_update (nx exP) (m_H s) (m_step_prev s)
         (tab (nx exP) (fun j => ssub (ex_lagg (m_x s) (m_lam s) j) (m_lag_gradient s j))))).
    { apply bfgs_spd; auto. apply ex_sym1. }
    split; [exact HP'|]. constructor; [|exact HF].
    destruct (m_q s). pose proof (ex_exact _ (m_x s) HP') as X. 
    match type of EQ with ex_qp tt ?d = _ => change (exact_step (d, (fst (fst (snd (ex_qp tt d))), snd (fst (snd (ex_qp tt d)))))) in X end.
    rewrite EQ in X. exact X.
  - unfold sqp_first. cbn [exP p_lag_full m_x m_lam].
    unfold sqp_step, ex_pc. cbn [m_q m_w ex_start].
    destruct (ex_qp tt _) as [q [[p0 l0] it]] eqn:EQ.
    destruct (step_size_selection _ _ _ _ _ _ _) as [[al c] ev]. cbn [m_H steps].
    assert (HP' : posdef 1 (fun _ _ : nat => @scst R R_scalar 2 1)).
    { intros x Hx. destruct ex_c as [C2 _]. rewrite C2. destruct Hx as (i & Hi & Hx). assert (i = O) by lia. subst.
      unfold qf. rexpand. nra. }
    split; [exact HP'|]. constructor; [|constructor].
    pose proof (ex_exact _ (fun j => match j with O => v | _ => 0 end) HP') as X.
    match type of EQ with ex_qp tt ?d = _ => change (exact_step (d, (fst (fst (snd (ex_qp tt d))), snd (fst (snd (ex_qp tt d)))))) in X end.
    rewrite EQ in X. exact X.
Qed.
