(** C10, C11, C57, C58: preconditioning of QPs. *)
Require Import Reals Lra Lia List ZArith Bool Floats.SpecFloat.
Require Import Verif.Scal Verif.RSum Verif.Qp_Model Verif.Qp_Spec Verif.Precond_Model Verif.Precond_Spec Verif.Precond_Proofs
  Verif.Sqp_Model Verif.Sqp_Spec Verif.Precond_Sqp.
Import ListNotations.
Local Open Scope R_scope.

(** C10: for every QP with at least one variable and one constraint row (maxCoeff needs them), dense compute
    is defined, all scaling factors are positive, unscale restores the QP; scale with any positive factors
    followed by unscale restores the QP; scale and unscale of primal-dual pairs are mutually inverse. *)
Theorem C10_ruiz_round_trip : forall d : qp_data R, (0 < qn d)%nat -> (0 < qm d)%nat ->
  exists w d', dense_compute d = Some (w, d') /\
    positive (qn d) (rD w) /\ positive (qm d) (rE w) /\ 0 < rc w /\
    qp_same (ruiz_unscale w d') d.
Proof.
  intros d Hn Hm. destruct (dense_compute_defined d Hn Hm) as (w & d' & E). exists w, d'.
  destruct (dense_compute_scaled d w d' E) as (PD & PE & Pc & S).
  repeat (split; [assumption|]). apply unscale_scaled; assumption.
Qed.
Print Assumptions C10_ruiz_round_trip.

Theorem C10_scale_round_trip : forall (w : ruiz R) (d : qp_data R),
  positive (qn d) (rD w) -> positive (qm d) (rE w) -> 0 < rc w ->
  qp_same (ruiz_unscale w (ruiz_scale w d)) d /\
  forall x y, let a := ruiz_unscale_sol (qn d) (qm d) w (ruiz_scale_sol (qn d) (qm d) w (x, y)) in
    let b := ruiz_scale_sol (qn d) (qm d) w (ruiz_unscale_sol (qn d) (qm d) w (x, y)) in
    (forall j, (j < qn d)%nat -> fst a j = x j /\ fst b j = x j) /\
    (forall i, (i < qm d + qn d)%nat -> snd a i = y i /\ snd b i = y i).
Proof.
  intros w d PD PE Pc. split.
  - apply unscale_scaled; auto. apply ruiz_scale_scaled.
  - intros x y. apply sol_round_trip; assumption.
Qed.
Print Assumptions C10_scale_round_trip.

(** a QP with a zero row and a zero column *)
Definition pc_ex {T} {ST : Scalar T} : qp_data T :=
  {| qn := 2; qm := 2; qH := fun i j => match i, j with O, O => sofZ 4 | _, _ => s0 end;
     qh := fun j => match j with O => sofZ 8 | _ => s0 end;
     qA := fun i j => match i, j with O, O => s1 | _, _ => s0 end;
     qAlb := fun _ => MInf; qAub := fun _ => Fin (sofZ 2); qxlb := fun _ => Fin s0; qxub := fun _ => PInf |}.
Example C10_example : let sc := SF_scalar in
  match dense_compute pc_ex with
  | Some (w, d') => rc w = scst 1 4 /\ rD w 0%nat = scst 1 2 /\ rD w 1%nat = s1 /\ qh d' 0%nat = s1 /\
      qH (ruiz_unscale w d') 0%nat 0%nat = sofZ 4 /\ qh (ruiz_unscale w d') 0%nat = sofZ 8
  | None => False end.
Proof. vm_compute. repeat split. Qed.

(** C11: KKT pairs, feasibility and objective correspond, for the scaling found by compute and for any
    positive scaling. *)
Theorem C11_scaled_kkt : forall (w : ruiz R) (d d' : qp_data R),
  dense_compute d = Some (w, d') \/
  (d' = ruiz_scale w d /\ positive (qn d) (rD w) /\ positive (qm d) (rE w) /\ 0 < rc w) ->
  0 < rc w /\
  forall x y, let u := ruiz_unscale_sol (qn d) (qm d) w (x, y) in
    (kkt_pair d' x y <-> kkt_pair d (fst u) (snd u)) /\
    (qp_feasible d' x <-> qp_feasible d (fst u)) /\
    qp_obj d' x = rc w * qp_obj d (fst u).
Proof.
  intros w d d' [E|(-> & PD & PE & Pc)].
  - destruct (dense_compute_scaled d w d' E) as (PD & PE & Pc & S). split; [exact Pc|].
    intros x y. apply scaled_solutions; assumption.
  - split; [exact Pc|]. intros x y. apply scaled_solutions; auto. apply ruiz_scale_scaled.
Qed.
Print Assumptions C11_scaled_kkt.

(** C11 inside the SQP solver: with the Ruiz preconditioner, a QP solver that returns a KKT pair of every QP
    that has one gives the SQP solver a KKT pair of every unscaled subproblem that has one. *)
Theorem C11_sqp_preconditioned : forall (P : problem R) st (Q : Type) hupd hreg qps (qpm : Q -> Q) s,
  (0 < nx P)%nat -> (0 < ne P + ni P)%nat ->
  (forall q d, (exists x y, kkt_pair d x y) -> kkt_pair d (fst (fst (snd (qps q d)))) (snd (fst (snd (qps q d))))) ->
  Forall (fun e => (exists x y, kkt_pair (fst e) x y) -> kkt_pair (fst e) (fst (snd e)) (snd (snd e)))
    (steps (sqp_solve P st Q (ruiz R) hupd hreg ruiz_pc_compute (ruiz_unscale_sol (nx P) (ne P + ni P)) ruiz_unscale qps qpm s)) /\
  (forall (w : ruiz R) d w' d1, qn d = nx P -> qm d = (ne P + ni P)%nat -> ruiz_pc_compute w d = (w', d1) ->
     forall j, (j < nx P)%nat -> qh (ruiz_unscale w' d1) j = qh d j).
Proof.
  intros. split; [apply preconditioned_steps; assumption|apply ruiz_pc_restores; assumption].
Qed.
Print Assumptions C11_sqp_preconditioned.

(** the QP  min x^2/2 + x, x >= 0 has the KKT pair 0, -1 *)
Definition pc_ex1 : qp_data R :=
  {| qn := 1; qm := 1; qH := fun _ _ => 1; qh := fun _ => 1; qA := fun _ _ => 1;
     qAlb := fun _ => MInf; qAub := fun _ => PInf; qxlb := fun _ => Fin 0; qxub := fun _ => PInf |}.
Example C11_example : kkt_pair pc_ex1 (fun _ => 0) (fun i => match i with O => 0 | _ => -1 end) /\
  exists w d', dense_compute pc_ex1 = Some (w, d').
Proof.
  split; [|apply dense_compute_defined; simpl; lia].
  unfold kkt_pair, qp_feasible, lag_grad, in_bounds, sign_ok, pc_ex1. cbn [qn qm qH qh qA qAlb qAub qxlb qxub].
  repeat (split || intro); intros; try (destruct j; [|lia]); try (destruct i; [|lia]);
    rexpand; cbn in *; try lra; try exact I.
Qed.

(** C57: sparse compute restores the QP if the cost gradient is not zero, or if H has a stored entry in
    every column and a nonzero one.  Missing: h = 0 with a zero or partly empty H. *)
Theorem C57_sparse_round_trip_partial : forall nzH nzA (d : qp_data R), (0 < qn d)%nat -> (0 < qm d)%nat ->
  nonzero_vec (qn d) (qh d) \/
  ((forall j, (j < qn d)%nat -> exists i, (i < qn d)%nat /\ nzH i j = true) /\
   exists i j, (i < qn d)%nat /\ (j < qn d)%nat /\ nzH i j = true /\ qH d i j <> 0) ->
  exists w d', sparse_compute nzH nzA d = Some (w, d') /\
    positive (qn d) (rD w) /\ positive (qm d) (rE w) /\ 0 < rc w /\ qp_same (ruiz_unscale w d') d.
Proof.
  intros nzH nzA d Hn Hm Hyp. destruct (sparse_compute_defined nzH nzA d Hn Hm) as (w & d' & E). exists w, d'.
  destruct (sparse_compute_scaled nzH nzA d w d' Hyp E) as (PD & PE & Pc & S).
  repeat (split; [assumption|]). apply unscale_scaled; assumption.
Qed.
Print Assumptions C57_sparse_round_trip_partial.
Example C57_example : nonzero_vec (qn pc_ex1) (qh pc_ex1).
Proof. exists O. split; [simpl; lia|simpl; lra]. Qed.

(** C57 is false for a feasibility problem (H = 0 without entries, h = 0): the cost scaling is 1/0 and the restored
    gradient is NaN; the dense code returns it unchanged. *)
Definition feas_ex : qp_data spec_float := let sc := SF_scalar in
  {| qn := 1; qm := 1; qH := fun _ _ => s0; qh := fun _ => s0; qA := fun _ _ => s1;
     qAlb := fun _ => Fin s1; qAub := fun _ => Fin s1; qxlb := fun _ => MInf; qxub := fun _ => PInf |}.
Theorem C57_sparse_round_trip_refuted : let sc := SF_scalar in
  (match sparse_compute (fun _ _ => false) (fun _ _ => true) feas_ex with
   | Some (w, d') => rc w = S754_infinity false /\ qh d' 0%nat = S754_nan /\ qh (ruiz_unscale w d') 0%nat = S754_nan
   | None => False end) /\
  (match dense_compute feas_ex with
   | Some (w, d') => rc w = s1 /\ qh (ruiz_unscale w d') 0%nat = s0
   | None => False end).
Proof. vm_compute. repeat split. Qed.
Print Assumptions C57_sparse_round_trip_refuted.

(** C58: update of a fresh object restores the constraint matrix and all bounds.  Missing: Hessian and gradient, and
    objects that hold a scaling already. *)
Theorem C58_update_partial : forall (d : qp_data R) w d', dense_update ruiz_new d = Some (w, d') ->
  positive (qn d) (rD w) /\ positive (qm d) (rE w) /\
  (forall i j, (i < qm d)%nat -> (j < qn d)%nat -> qA (ruiz_unscale w d') i j = qA d i j) /\
  (forall i, (i < qm d)%nat -> qAlb (ruiz_unscale w d') i = qAlb d i /\ qAub (ruiz_unscale w d') i = qAub d i) /\
  (forall j, (j < qn d)%nat -> qxlb (ruiz_unscale w d') j = qxlb d j /\ qxub (ruiz_unscale w d') j = qxub d j).
Proof. exact dense_update_A. Qed.
Print Assumptions C58_update_partial.

(** C58 is false: update multiplies the Hessian by the accumulated cost factor again in every sweep; the Hessian entry 4
    comes back as 1. *)
Theorem C58_update_refuted : let sc := SF_scalar in
  exists d : qp_data spec_float,
  match dense_update ruiz_new d with
  | Some (w, d') => qH d 0%nat 0%nat = sofZ 4 /\ qH (ruiz_unscale w d') 0%nat 0%nat = s1
  | None => False end.
Proof.
  intros sc. exists {| qn:=1; qm:=1; qH := fun _ _ => sofZ 4; qh := fun _ => sofZ 8; qA := fun _ _ => s1;
    qAlb := fun _ => MInf; qAub := fun _ => Fin (sofZ 2); qxlb := fun _ => MInf; qxub := fun _ => PInf |}.
  vm_compute. split; reflexivity.
Qed.
Print Assumptions C58_update_refuted.
Example C58_example : exists w d', dense_update ruiz_new pc_ex1 = Some (w, d').
Proof.
  unfold dense_update. cbn [pc_ex1 qn qm Nat.eqb orb]. destruct (sweeps _ _ _ _ _ _ _ _). eauto.
Qed.
