(** Bolzano-Weierstrass for sequences of vectors. *)
Require Import Reals Lra Lia List ConstructiveEpsilon.
From Verif Require Import Scal RSum.
Local Open Scope R_scope.

(** a bounded sequence of reals has a convergent subsequence *)
Lemma bw_real : forall (u : nat -> R) B, (forall k, Rabs (u k) <= B) ->
  exists (phi : nat -> nat) l, (forall k, (phi k < phi (S k))%nat) /\ Un_cv (fun k => u (phi k)) l.
Proof.
  intros u B HB.
  assert (HX : forall k, - B <= u k <= B).
  { intros k. specialize (HB k). split; [|eapply Rle_trans; [apply Rle_abs|exact HB]].
    assert (H := Rle_abs (- u k)). rewrite Rabs_Ropp in H. lra. }
  destruct (Bolzano_Weierstrass u (fun c => - B <= c <= B) (compact_P3 (- B) B) HX) as [l Hl].
  assert (Ex : forall N k, exists q, (N <= q)%nat /\ Rabs (u q - l) < / (INR k + 1)).
  { intros N k. assert (Hk : 0 < / (INR k + 1)) by (apply Rinv_0_lt_compat; pose proof (pos_INR k); lra).
    destruct (Hl (fun c => Rabs (c - l) < / (INR k + 1)) N) as (q & Hq1 & Hq2).
    - exists (mkposreal _ Hk). intros c Hc. exact Hc.
    - exists q. split; assumption. }
  assert (Dec : forall N k q, {(N <= q)%nat /\ Rabs (u q - l) < / (INR k + 1)} + {~ ((N <= q)%nat /\ Rabs (u q - l) < / (INR k + 1))}).
  { intros N k q. destruct (Compare_dec.le_dec N q); [|right; tauto].
    destruct (Rlt_dec (Rabs (u q - l)) (/ (INR k + 1))); [left; tauto|right; tauto]. }
  pose (pick := fun N k => proj1_sig (constructive_indefinite_ground_description_nat _ (Dec N k) (Ex N k))).
  assert (Hp : forall N k, (N <= pick N k)%nat /\ Rabs (u (pick N k) - l) < / (INR k + 1)).
  { intros N k. unfold pick. destruct (constructive_indefinite_ground_description_nat _ _ _) as [q Hq]. exact Hq. }
  pose (phi := fix f k := match k with O => pick O O | S j => pick (S (f j)) (S j) end).
  exists phi, l.
  assert (Hphi : forall k, Rabs (u (phi k) - l) < / (INR k + 1)).
  { intros [|k]; cbn [phi]; apply Hp. }
  split.
  - intros k. change (phi (S k)) with (pick (S (phi k)) (S k)). apply (Hp (S (phi k)) (S k)).
  - intros eps He. destruct (archimed (/ eps)) as [U _].
    exists (Z.to_nat (up (/ eps))). intros k Hk. unfold R_dist. eapply Rlt_trans; [apply Hphi|].
    assert (Hi : 0 < / eps) by (apply Rinv_0_lt_compat; assumption).
    assert (L : / eps < INR k + 1).
    { apply Rlt_trans with (IZR (up (/ eps))); [exact U|].
      assert (0 <= up (/ eps))%Z by (apply le_IZR; lra).
      assert (IZR (up (/ eps)) <= INR k); [|lra].
      rewrite INR_IZR_INZ. apply IZR_le. lia. }
    rewrite <- (Rinv_inv eps). apply Rinv_lt_contravar; [|exact L].
    apply Rmult_lt_0_compat; [exact Hi|lra].
Qed.

Lemma phi_ge : forall phi : nat -> nat, (forall k, (phi k < phi (S k))%nat) -> forall k, (k <= phi k)%nat.
Proof. intros phi H k. induction k as [|k IH]; [lia|]. specialize (H k). lia. Qed.
Lemma phi_mono : forall phi : nat -> nat, (forall k, (phi k < phi (S k))%nat) -> forall j k, (j < k)%nat -> (phi j < phi k)%nat.
Proof.
  intros phi H j k Hjk. induction Hjk as [|k Hjk IH]; [apply H|]. specialize (H k). lia.
Qed.

Lemma cv_sub : forall u l (phi : nat -> nat), (forall k, (phi k < phi (S k))%nat) -> Un_cv u l -> Un_cv (fun k => u (phi k)) l.
Proof.
  intros u l phi H C eps He. destruct (C eps He) as [N HN]. exists N. intros k Hk. apply HN.
  pose proof (phi_ge phi H k). lia.
Qed.

(** a bounded sequence of vectors has a subsequence that converges in the first [N] components *)
Lemma bw_vec : forall N (u : nat -> nat -> R) B, (forall k i, (i < N)%nat -> Rabs (u k i) <= B) ->
  exists (phi : nat -> nat) (l : nat -> R), (forall k, (phi k < phi (S k))%nat) /\
    forall i, (i < N)%nat -> Un_cv (fun k => u (phi k) i) (l i).
Proof.
  induction N as [|N IH]; intros u B HB.
  - exists (fun k => k), (fun _ => 0). split; [intros; lia|intros; lia].
  - destruct (IH u B) as (phi & l & Hphi & Hl); [intros; apply HB; lia|].
    destruct (bw_real (fun k => u (phi k) N) B) as (psi & lN & Hpsi & HlN); [intros; apply HB; lia|].
    exists (fun k => phi (psi k)), (fun i => if Nat.eqb i N then lN else l i). split.
    + intros k. apply phi_mono; auto.
    + intros i Hi. destruct (Nat.eqb_spec i N) as [->|Ne]; [exact HlN|].
      apply (cv_sub (fun k => u (phi k) i)); auto. apply Hl. lia.
Qed.

(** limits of finite sums *)
Lemma cv_rsum : forall n (f : nat -> nat -> R) l, (forall i, (i < n)%nat -> Un_cv (fun k => f k i) (l i)) ->
  Un_cv (fun k => rsum n (f k)) (rsum n l).
Proof.
  induction n as [|n IH]; intros f l H.
  - intros eps He. exists O. intros. rewrite !rsum_0. unfold R_dist. rewrite Rminus_diag_eq, Rabs_R0; auto.
  - intros eps He.
    assert (C := CV_plus _ _ _ _ (IH f l (fun i Hi => H i ltac:(lia))) (H n ltac:(lia))).
    destruct (C eps He) as [K HK]. exists K. intros k Hk. rewrite !rsum_S. apply HK. exact Hk.
Qed.
Lemma cv_const : forall c, Un_cv (fun _ => c) c.
Proof. intros c eps He. exists O. intros. unfold R_dist. rewrite Rminus_diag_eq, Rabs_R0; auto. Qed.
Lemma cv_ext : forall u v l, (forall k, u k = v k) -> Un_cv u l -> Un_cv v l.
Proof. intros u v l E C eps He. destruct (C eps He) as [N HN]. exists N. intros k Hk. rewrite <- E. auto. Qed.
Lemma cv_rmv : forall n A (x : nat -> vec R) l i, (forall j, (j < n)%nat -> Un_cv (fun k => x k j) (l j)) ->
  Un_cv (fun k => rmv n A (x k) i) (rmv n A l i).
Proof.
  intros. rewrite rmv_def. apply (cv_ext (fun k => rsum n (fun j => A i j * x k j))); [intros; rewrite rmv_def; reflexivity|].
  apply (cv_rsum n (fun k j => A i j * x k j)). intros j Hj. apply CV_mult; [apply cv_const|auto].
Qed.
Lemma cv_squeeze0 : forall (u v : nat -> R), (forall k, Rabs (u k) <= v k) -> Un_cv v 0 -> Un_cv u 0.
Proof.
  intros u v H C eps He. destruct (C eps He) as [N HN]. exists N. intros k Hk. specialize (HN k Hk).
  unfold R_dist in *. rewrite Rminus_0_r in *. eapply Rle_lt_trans; [apply H|]. eapply Rle_lt_trans; [apply Rle_abs|exact HN].
Qed.
Lemma cv_eventually_pos : forall u l, Un_cv u l -> 0 < l -> exists N, forall k, (N <= k)%nat -> 0 < u k.
Proof.
  intros u l C Hl. destruct (C l Hl) as [N HN]. exists N. intros k Hk. specialize (HN k ltac:(lia)).
  unfold R_dist in HN. apply Rabs_def2 in HN. lra.
Qed.
Lemma cv_eventually_neg : forall u l, Un_cv u l -> l < 0 -> exists N, forall k, (N <= k)%nat -> u k < 0.
Proof.
  intros u l C Hl. destruct (C (- l) ltac:(lra)) as [N HN]. exists N. intros k Hk. specialize (HN k ltac:(lia)).
  unfold R_dist in HN. apply Rabs_def2 in HN. lra.
Qed.
Lemma cv_le : forall u l c, Un_cv u l -> (forall k, u k <= c) -> l <= c.
Proof.
  intros u l c C H. apply Rnot_lt_le. intro L. destruct (C (l - c) ltac:(lra)) as [N HN]. specialize (HN N (le_n N)).
  specialize (H N). unfold R_dist in HN. apply Rabs_def2 in HN. lra.
Qed.
Lemma cv_ge : forall u l c, Un_cv u l -> (forall k, c <= u k) -> c <= l.
Proof.
  intros u l c C H. apply Rnot_lt_le. intro L. destruct (C (c - l) ltac:(lra)) as [N HN]. specialize (HN N (le_n N)).
  specialize (H N). unfold R_dist in HN. apply Rabs_def2 in HN. lra.
Qed.
(** non-increasing, bounded below, with a subsequence tending to 0: tends to 0 *)
Lemma cv_mono_sub : forall (u : nat -> R) (phi : nat -> nat), (forall k, 0 <= u k) -> (forall k, u (S k) <= u k) ->
  Un_cv (fun k => u (phi k)) 0 -> Un_cv u 0.
Proof.
  intros u phi H0 Hd C eps He. destruct (C eps He) as [N HN]. specialize (HN N (le_n N)). unfold R_dist in HN.
  assert (M : forall j k, (j <= k)%nat -> u k <= u j).
  { intros j k Hjk. induction Hjk as [|k Hjk IH]; [lra|]. specialize (Hd k). lra. }
  exists (phi N). intros k Hk. unfold R_dist. rewrite Rminus_0_r in *. specialize (M (phi N) k ltac:(lia)).
  rewrite Rabs_right by (apply Rle_ge, H0). apply Rabs_def2 in HN. lra.
Qed.
(** the terms of a series of non-negative numbers with bounded partial sums tend to 0 *)
Lemma cv_summable : forall (u d : nat -> R), (forall k, 0 <= u k) -> (forall k, 0 <= d k) -> (forall k, u (S k) + d k <= u k) ->
  Un_cv d 0.
Proof.
  intros u d Hu Hd H eps He.
  assert (Hdec : Un_decreasing u) by (intros k; specialize (H k); specialize (Hd k); lra).
  destruct (decreasing_cv u Hdec) as [l Hl].
  { exists 0. intros y (k & Hk). subst. unfold opp_seq. specialize (Hu k). lra. }
  destruct (Hl (eps / 2) ltac:(lra)) as [N HN]. exists N. intros k Hk.
  assert (A1 := HN k Hk). assert (A2 := HN (S k) ltac:(lia)). unfold R_dist in *. rewrite Rminus_0_r.
  rewrite Rabs_right by (apply Rle_ge, Hd). apply Rabs_def2 in A1. apply Rabs_def2 in A2. specialize (H k). lra.
Qed.
