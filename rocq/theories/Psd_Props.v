(** Property theorems for is_psd (C89). *)
Require Import Arith Bool Lia Reals Lra.
From Verif Require Import Scal RSum Psd_Model Psd_Spec.
Local Open Scope R_scope.

Lemma all_nonneg_iff : forall k re, all_nonneg k re = true <-> forall i, (i < k)%nat -> 0 <= re i.
Proof.
  induction k; intros re; cbn.
  - split; [intros; lia|auto].
  - rewrite andb_true_iff, IHk. split.
    + intros [A B] i Hi. destruct (Rlt_dec (re k) 0); [discriminate|]. destruct (Nat.eq_dec i k) as [->|]; [lra|]. apply A. lia.
    + intro H. split; [intros; apply H; lia|]. destruct (Rlt_dec (re k) 0); auto. specialize (H k ltac:(lia)). lra.
Qed.
Lemma quad_spectrum : forall n h e V, (forall i j, (i < n)%nat -> (j < n)%nat -> h i j = rsum n (fun k => e k * (V i k * V j k))) ->
  forall v, quad n h v = rsum n (fun k => e k * (rsum n (fun i => v i * V i k)) ^ 2).
Proof.
  intros n h e V Hh v. unfold quad.
  rewrite (rsum_ext n _ (fun i => rsum n (fun k => e k * (v i * V i k) * rsum n (fun j => v j * V j k)))).
  - rewrite rsum_swap. apply rsum_ext. intros k _. rewrite (rsum_ext n _ (fun i => e k * rsum n (fun j => v j * V j k) * (v i * V i k))) by (intros; ring). rewrite rsum_scal. ring.
  - intros i Hi. rewrite (rsum_ext n _ (fun j => rsum n (fun k => e k * (v i * V i k) * (v j * V j k)))).
    + rewrite rsum_swap. apply rsum_ext. intros k _. rewrite rsum_scal. reflexivity.
    + intros j Hj. rewrite Hh by auto. rewrite (Rmult_comm (v i)), Rmult_assoc, Rmult_comm, <- rsum_scal. apply rsum_ext. intros. ring.
Qed.

(** symmetric matrices of a size known at compile time: is_psd is positive semidefiniteness *)
Theorem C89_fixed : forall n h e, spectrum n h e -> (is_psd (Some n) e = true <-> psd n h).
Proof.
  intros n h e (V & HO & Hh). unfold is_psd. cbn [compile_rows]. rewrite all_nonneg_iff. split.
  - intros He v. rewrite (quad_spectrum n h e V Hh). apply rsum_nonneg. intros k Hk. apply Rmult_le_pos; [auto|apply pow2_ge_0].
  - intros Hp k Hk. specialize (Hp (fun i => V i k)). rewrite (quad_spectrum n h e V Hh) in Hp.
    rewrite (rsum_ext n _ (fun l => if (l =? k)%nat then e l else 0)) in Hp.
    + rewrite (rsum_delta n k e Hk) in Hp. exact Hp.
    + intros l Hl. rewrite HO by auto. rewrite Nat.eqb_sym. destruct (l =? k)%nat; ring.
Qed.
Print Assumptions C89_fixed.
(** (2, 1; 1, 2) has the eigenvalues 3 and 1 *)
Example C89_fixed_ex : spectrum 2 (fun i j => if (i =? j)%nat then 2 else 1) (fun k => if (k =? 0)%nat then 3 else 1) /\ psd 2 (fun i j => if (i =? j)%nat then 2 else 1).
Proof.
  assert (Hs : spectrum 2 (fun i j => if (i =? j)%nat then 2 else 1) (fun k => if (k =? 0)%nat then 3 else 1)).
  { assert (S := sqrt_sqrt 2 ltac:(lra)). assert (P := sqrt_lt_R0 2 ltac:(lra)).
    assert (I2 : / sqrt 2 * / sqrt 2 = / 2) by (rewrite <- Rinv_mult; rewrite S; reflexivity). set (c := / sqrt 2) in *.
    exists (fun i k => if (i =? 1)%nat && (k =? 1)%nat then - c else c). split.
    - intros k l Hk Hl. destruct k as [|[|]]; [| |lia]; destruct l as [|[|]]; try lia; cbn; lra.
    - intros i j Hi Hj. destruct i as [|[|]]; [| |lia]; destruct j as [|[|]]; try lia; cbn; lra. }
  split; [exact Hs|]. apply (C89_fixed 2 _ _ Hs). apply all_nonneg_iff. intros i Hi. cbn in Hi. destruct (i =? 0)%nat; lra.
Qed.

(** "is_psd decides positive semidefiniteness for matrices of dynamic size": false, the answer is always true *)
Theorem C89_dynamic_refuted : exists n h e, spectrum n h e /\ is_psd None e = true /\ ~ psd n h.
Proof.
  exists 1%nat, (fun _ _ => -1), (fun _ => -1). split; [|split; [reflexivity|]].
  - exists (fun _ _ => 1). split.
    + intros k l Hk Hl. assert (k = l) as -> by lia. rewrite Nat.eqb_refl. cbn. lra.
    + intros i j Hi Hj. cbn. lra.
  - intro H. specialize (H (fun _ => 1)). unfold quad in H. cbn in H. lra.
Qed.
Print Assumptions C89_dynamic_refuted.
(** "is_psd decides 0 <= v' h v for matrices that are not symmetric": false for (1, 4; 0, 1) *)
Theorem C89_symmetric_refuted : exists h e, spectrum2 h e /\ is_psd (Some 2%nat) e = true /\ ~ psd 2 h.
Proof.
  exists (fun i j => match i, j with 0%nat, 1%nat => 4 | 1%nat, 0%nat => 0 | _, _ => 1 end), (fun _ => 1). split; [|split].
  - intro x. ring.
  - apply all_nonneg_iff. intros. lra.
  - intro H. specialize (H (fun i => if (i =? 0)%nat then 1 else -1)). unfold quad in H. cbn in H. lra.
Qed.
Print Assumptions C89_symmetric_refuted.
