(** C92: LinearSystem::is_controllable decides controllability. *)
Require Import Arith Reals Lia Lra Classical.
From Verif Require Import Scal RSum Lqr_Model Lqr_Spec Lqr_Proofs Ctr_Model Ctr_Spec Ctr_Proofs.
Local Open Scope R_scope.

(** the matrix whose rank is taken: the first block is G, each next block is F times the one before *)
Theorem C92_matrix : forall s i r, (i < sys_n s)%nat -> (r < sys_m s)%nat ->
  ctrb s i r = sys_G s i r /\
  forall k, (S k < sys_n s)%nat ->
    ctrb s i (S k * sys_m s + r)%nat = rsum (sys_n s) (fun j => sys_F s i j * ctrb s j (k * sys_m s + r)%nat).
Proof.
  intros s i r Hi Hr. split.
  - pose proof (ctrb_entry s 0 r i) as E. cbn [Nat.mul Nat.add mpow] in E. rewrite E by lia. apply (meye_l _ (S r)); auto.
  - intros k Hk. rewrite ctrb_entry by auto. cbn [mpow]. rewrite mmul_assoc, mmul_rsum. apply rsum_ext. intros j Hj.
    rewrite ctrb_entry by (auto; lia). reflexivity.
Qed.
Print Assumptions C92_matrix.

(** with a rank decision that is right for that matrix, the answer is right: true means that every state can be steered
    to every state in any given time, false that this is not possible *)
Theorem C92_decides : forall lu_rank s, tells_full_rank lu_rank (sys_n s) (sys_n s * sys_m s) (ctrb s) ->
  (is_controllable lu_rank s = true <-> controllable s).
Proof.
  intros lu_rank s HR. unfold is_controllable. rewrite Nat.eqb_eq. unfold tells_full_rank in HR. rewrite HR. split.
  - apply can_steer.
  - intros C v Hv. destruct (classic (exists i, (i < sys_n s)%nat /\ v i <> 0)) as [N|N].
    + destruct (C (fun _ => 0) v 1 Rlt_0_1) as [x [u [Tr [_ B]]]].
      assert (Z : rsum (sys_n s) (fun i => v i * x 1 i) = 0).
      { apply (cannot_steer s v Hv N 1 x u Rlt_0_1 Tr). intros i Hi. apply (B i Hi). }
      rewrite (rsum_ext _ _ (fun i => v i * v i)) in Z by (intros i Hi; destruct (B i Hi) as [_ ->]; reflexivity).
      intros i Hi. apply Rsqr_0_uniq. exact (rsum_nonneg_zero _ _ (fun j _ => Rle_0_sqr _) Z i Hi).
    + intros i Hi. apply NNPP. intros X. apply N. exists i. auto.
Qed.
Print Assumptions C92_decides.

(** when the answer is false there is a direction that no input moves: from rest, at all times, for every input
    whatsoever, the state stays orthogonal to it *)
Theorem C92_unreachable : forall lu_rank s, tells_full_rank lu_rank (sys_n s) (sys_n s * sys_m s) (ctrb s) ->
  is_controllable lu_rank s = false ->
  exists v, (exists i, (i < sys_n s)%nat /\ v i <> 0) /\
    forall T x u, 0 < T -> trajectory s T x u -> (forall i, (i < sys_n s)%nat -> x 0 i = 0) ->
      rsum (sys_n s) (fun i => v i * x T i) = 0.
Proof.
  intros lu_rank s HR Hf. apply Nat.eqb_neq in Hf. unfold tells_full_rank in HR. rewrite HR in Hf.
  apply not_all_ex_not in Hf. destruct Hf as [v Hf]. exists v.
  apply imply_to_and in Hf. destruct Hf as [Hv Nz].
  assert (N : exists i, (i < sys_n s)%nat /\ v i <> 0).
  { apply not_all_ex_not in Nz. destruct Nz as [i Nz]. exists i. apply imply_to_and in Nz. exact Nz. }
  split. auto. apply cannot_steer; auto.
Qed.
Print Assumptions C92_unreachable.

(** a double integrator with a force: controllable; two equal integrators with one input: not *)
Definition double_integrator : linear_system :=
  {| sys_n := 2; sys_m := 1; sys_p := 0; sys_F := fun i j => if andb (i =? 0)%nat (j =? 1)%nat then 1 else 0;
     sys_G := fun i _ => if (i =? 1)%nat then 1 else 0; sys_H := mzero |}.
Example C92_decides_example : controllable double_integrator.
Proof.
  apply (C92_decides (fun _ _ _ => 2%nat)). 2: reflexivity. split; [|reflexivity]. intros _ v Hv i Hi.
  pose proof (Hv 0%nat) as H0. pose proof (Hv 1%nat) as H1. cbn in H0, H1, Hi.
  specialize (H0 ltac:(lia)). specialize (H1 ltac:(lia)).
  destruct i as [|[|i]]; [lra|lra|lia].
Qed.
Definition twins : linear_system :=
  {| sys_n := 2; sys_m := 1; sys_p := 0; sys_F := mzero; sys_G := fun _ _ => 1; sys_H := mzero |}.
Example C92_unreachable_example : ~ controllable twins /\ tells_full_rank (fun _ _ _ => 1%nat) 2 2 (ctrb twins).
Proof.
  assert (T : tells_full_rank (fun _ _ _ => 1%nat) 2 2 (ctrb twins)).
  { split. discriminate. intros H. exfalso. specialize (H (fun i => if (i =? 0)%nat then 1 else -1)).
    assert (E : (if (0 =? 0)%nat then 1 else -1) = 0).
    { apply (H ltac:(intros j Hj; destruct j as [|[|j]]; [cbn; unfold mzero; ring|cbn; unfold mzero; ring|lia])). lia. }
    cbn in E. lra. }
  split; [|exact T]. intros C. apply (proj2 (C92_decides (fun _ _ _ => 1%nat) twins T)) in C. discriminate.
Qed.
