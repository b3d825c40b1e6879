(** SQP with the Ruiz preconditioner. *)
Require Import Reals Lra Lia List ZArith Bool.
Require Import Verif.Scal Verif.RSum Verif.Qp_Model Verif.Qp_Spec Verif.Precond_Model Verif.Precond_Spec Verif.Precond_Proofs
  Verif.Sqp_Model Verif.Sqp_Spec Verif.Sqp_Proofs Verif.Sqp_ProofsR.
Import ListNotations.
Local Open Scope R_scope.

Lemma ruiz_pc_restores : forall P : problem R, (0 < nx P)%nat -> (0 < ne P + ni P)%nat ->
  forall (w : ruiz R) d w' d1, qn d = nx P -> qm d = (ne P + ni P)%nat -> ruiz_pc_compute w d = (w', d1) ->
  forall j, (j < nx P)%nat -> qh (ruiz_unscale w' d1) j = qh d j.
Proof.
  intros P Hn Hm w d w' d1 En Em C j Hj. unfold ruiz_pc_compute in C.
  destruct (dense_compute_defined d) as (w2 & d2 & E); [lia|lia|]. rewrite E in C. injection C as -> ->.
  destruct (dense_compute_scaled d w' d1 E) as (PD & PE & Pc & S).
  destruct (unscale_scaled w' d d1 PD PE Pc S) as (E1 & _ & _ & Eh & _). apply Eh. rewrite E1. lia.
Qed.

(** a QP solver that finds a KKT pair whenever there is one finds one of the original problem behind the preconditioner *)
Section Run.
Variable P : problem R.
Variable st : sqp_settings R.
Variables Q : Type.
Variable hupd : mat R -> vec R -> vec R -> mat R.
Variable hreg : mat R -> mat R.
Variable qp_solve : Q -> qp_data R -> Q * (vec R * vec R * Z).
Variable qp_mark : Q -> Q.
Hypothesis Hn : (0 < nx P)%nat.
Hypothesis Hm : (0 < ne P + ni P)%nat.
Hypothesis good_qp : forall q d, (exists x y, kkt_pair d x y) ->
  kkt_pair d (fst (fst (snd (qp_solve q d)))) (snd (fst (snd (qp_solve q d)))).

Lemma preconditioned_steps : forall s,
  Forall (fun e => (exists x y, kkt_pair (fst e) x y) -> kkt_pair (fst e) (fst (snd e)) (snd (snd e)))
    (steps (sqp_solve P st Q (ruiz R) hupd hreg ruiz_pc_compute (ruiz_unscale_sol (nx P) (ne P + ni P)) ruiz_unscale qp_solve qp_mark s)).
Proof.
  intros s.
  set (good := fun e : qp_data R * (vec R * vec R) => (exists x y, kkt_pair (fst e) x y) -> kkt_pair (fst e) (fst (snd e)) (snd (snd e))).
  assert (G : forall mark (s : @sqp_state R Q (ruiz R)) lagg H h A b, Forall good (steps s) ->
    Forall good (steps (sqp_step P st Q (ruiz R) ruiz_pc_compute (ruiz_unscale_sol (nx P) (ne P + ni P)) ruiz_unscale qp_solve mark s lagg H h A b))).
  { intros mark s1 lagg H h A b F. unfold sqp_step.
    set (d := sub_qp P H h A b (m_x s1)).
    destruct (dense_compute_defined d) as (w2 & d2 & E); [exact Hn|exact Hm|].
    unfold ruiz_pc_compute. rewrite E.
    pose proof (good_qp (m_q s1) d2) as GQ.
    destruct (qp_solve (m_q s1) d2) as [q [[p0 l0] it]]. cbn [fst snd] in GQ.
    destruct (ruiz_unscale_sol (nx P) (ne P + ni P) w2 (p0, l0)) as [p lk] eqn:EU.
    destruct (step_size_selection _ _ _ _ _ _ _) as [[al c] ev]. cbn [steps].
    constructor; [|exact F]. unfold good. cbn [fst snd]. intros (x & y & K).
    destruct (dense_compute_scaled d w2 d2 E) as (PD & PE & Pc & S).
    pose proof (scaled_solutions w2 d d2 p0 l0 PD PE Pc S) as (KK & _). cbn [sub_qp qn qm d] in KK.
    change (qn d) with (nx P) in KK. change (qm d) with (ne P + ni P)%nat in KK.
    rewrite EU in KK. cbn [fst snd] in KK. apply KK. apply GQ.
    destruct (ruiz_scale_sol (nx P) (ne P + ni P) w2 (x, y)) as [x' y'] eqn:ES.
    exists x', y'.
    pose proof (scaled_solutions w2 d d2 x' y' PD PE Pc S) as (KK' & _).
    apply KK'. pose proof (sol_round_trip (nx P) (ne P + ni P) w2 x y PD PE Pc) as (RX & RY).
    rewrite ES in RX, RY.
    eapply kkt_pair_ext; [| |exact K].
    - intros j Hj. symmetry. apply RX. exact Hj.
    - intros i Hi. symmetry. apply RY. exact Hi. }
  apply (solve_inv P st Q (ruiz R) hupd hreg ruiz_pc_compute (ruiz_unscale_sol (nx P) (ne P + ni P)) ruiz_unscale qp_solve qp_mark
    (fun s => Forall good (steps s))).
  - intros s1 s2 (_ & _ & _ & _ & _ & _ & _ & _ & _ & E). rewrite E. auto.
  - intros. apply G. assumption.
  - unfold sqp_first. destruct (p_lag_full _ _ _) as [[[[lagg H] h] b] A]. apply G. constructor.
Qed.
End Run.
