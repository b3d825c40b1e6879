(** Positive definiteness of block diagonal matrices under a damped rank two correction that is
    restricted to the blocks. *)
Require Import Arith ZArith List Bool Lia Reals Lra.
From Verif Require Import Scal RSum.
Local Open Scope R_scope.

Lemma classic_nz : forall n (x : vec R), nonzero_vec n x \/ forall i, (i < n)%nat -> x i = 0.
Proof.
  induction n; intros x; [right; intros; lia|]. destruct (IHn x) as [(i & Hi & H)|H].
  - left. exists i. split; auto; lia.
  - destruct (Req_dec (x n) 0) as [E|E]; [right|left; exists n; auto].
    intros i Hi. destruct (Nat.eq_dec i n) as [->|]; auto. apply H. lia.
Qed.
Lemma qf_zero : forall n A x, (forall i, (i < n)%nat -> x i = 0) -> qf n A x = 0.
Proof. intros. unfold qf. rewrite rdot_def. apply rsum_zero. intros. rewrite H by auto. lra. Qed.

Section B.
Variables n K : nat.
Variable nd : nat -> nat.
Hypothesis Hnd : forall i, (i < n)%nat -> (nd i < K)%nat.
Definition mask (k : nat) (z : vec R) : vec R := fun i => if (nd i =? k)%nat then z i else 0.

Lemma bf_sum : forall A x y, bf n A x y = rsum n (fun i => rsum n (fun j => x i * A i j * y j)).
Proof.
  intros. unfold bf. rewrite rdot_def. apply rsum_ext. intros i Hi. transitivity (x i * rsum n (fun j => A i j * y j)); [reflexivity|]. rewrite <- rsum_scal. apply rsum_ext. intros. ring.
Qed.
Lemma bf_block : forall A x y, (forall i j, (i < n)%nat -> (j < n)%nat -> nd i <> nd j -> A i j = 0) ->
  bf n A x y = rsum K (fun k => bf n A (mask k x) (mask k y)).
Proof.
  intros A x y HA. rewrite bf_sum.
  rewrite (rsum_ext K _ (fun k => rsum n (fun i => rsum n (fun j => mask k x i * A i j * mask k y j)))) by (intros; apply bf_sum).
  rewrite (rsum_swap K n). apply rsum_ext. intros i Hi. rewrite (rsum_swap K n). apply rsum_ext. intros j Hj.
  rewrite (rsum_ext K _ (fun k => if (nd i =? k)%nat then x i * A i j * y j else 0)).
  - symmetry. rewrite (rsum_isolate K (nd i)) by (apply Hnd; auto). rewrite Nat.eqb_refl. rewrite rsum_zero; [lra|].
    intros k Hk. destruct (k =? nd i)%nat eqn:E1; auto. rewrite Nat.eqb_sym, E1. reflexivity.
  - intros k Hk. unfold mask. destruct (Nat.eqb_spec (nd i) k) as [<-|]; [|lra].
    destruct (Nat.eqb_spec (nd j) (nd i)); auto. rewrite HA by auto. lra.
Qed.

Lemma mask_at : forall k z i, nd i = k -> mask k z i = z i.
Proof. intros. unfold mask. rewrite H, Nat.eqb_refl. reflexivity. Qed.
Lemma mask_off : forall k z i, nd i <> k -> mask k z i = 0.
Proof. intros. unfold mask. rewrite (proj2 (Nat.eqb_neq _ _)) by auto. reflexivity. Qed.

Variables (A : mat R) (s r : vec R).
Hypothesis Asym : symmetric n A.
Hypothesis Apd : posdef n A.
Hypothesis Ablk : forall i j, (i < n)%nat -> (j < n)%nat -> nd i <> nd j -> A i j = 0.
Let v := rmv n A s.
Let sg := rdot n s v.
Let rh := rdot n s r.
Hypothesis Hs : nonzero_vec n s.
Hypothesis Hrh : 0 < rh.
Definition blk_upd (i j : nat) : R :=
  if (nd i =? nd j)%nat then A i j - v i * v j / sg + r i * r j / rh else 0.

Lemma qf_blocks : forall z, qf n A z = rsum K (fun k => qf n A (mask k z)).
Proof. intro z. exact (bf_block A z z Ablk). Qed.
Lemma psdA : psd n A.
Proof.
  intro x. destruct (classic_nz n x) as [H|H].
  - apply Rlt_le. apply Apd; auto.
  - rewrite qf_zero; auto; lra.
Qed.
Lemma mask_v : forall k z, rdot n (mask k z) v = bf n A (mask k z) (mask k s).
Proof.
  intros k z. unfold v. change (rdot n (mask k z) (rmv n A s)) with (bf n A (mask k z) s). rewrite !bf_sum.
  apply rsum_ext. intros i Hi. apply rsum_ext. intros j Hj. destruct (Nat.eq_dec (nd i) k) as [Ei|Ei].
  - destruct (Nat.eq_dec (nd j) k) as [Ej|Ej].
    + rewrite (mask_at k s) by auto. reflexivity.
    + rewrite Ablk by (auto; congruence). lra.
  - rewrite (mask_off k z) by auto. lra.
Qed.
Lemma blk_upd_qf : forall z, qf n blk_upd z =
  rsum K (fun k => qf n A (mask k z) - rdot n (mask k z) v * rdot n (mask k z) v / sg
                   + rdot n (mask k z) r * rdot n (mask k z) r / rh).
Proof.
  intro z. change (qf n blk_upd z) with (bf n blk_upd z z). rewrite bf_block.
  2:{ intros i j Hi Hj H. unfold blk_upd. rewrite (proj2 (Nat.eqb_neq _ _)) by auto. reflexivity. }
  apply rsum_ext. intros k Hk. change (qf n A (mask k z)) with (bf n A (mask k z) (mask k z)). rewrite !bf_sum.
  assert (Q : forall w c, rdot n (mask k z) w * rdot n (mask k z) w / c =
     rsum n (fun i => rsum n (fun j => mask k z i * (w i * w j / c) * mask k z j))).
  { intros w c. rewrite rdot_def. unfold Rdiv. rewrite Rmult_assoc, <- rsum_scal_r. apply rsum_ext. intros i Hi.
    rewrite <- rsum_scal_r, <- rsum_scal. apply rsum_ext. intros. ring. }
  rewrite !Q, <- rsum_minus, <- rsum_plus. apply rsum_ext. intros i Hi. rewrite <- rsum_minus, <- rsum_plus. apply rsum_ext. intros j Hj.
  unfold blk_upd. destruct (Nat.eq_dec (nd i) k) as [Ei|Ei].
  - destruct (Nat.eq_dec (nd j) k) as [Ej|Ej].
    + rewrite Ei, Ej, Nat.eqb_refl. ring.
    + rewrite (mask_off k z j) by auto. ring.
  - rewrite (mask_off k z i) by auto. ring.
Qed.

Lemma sg_pos : 0 < sg.
Proof. apply Apd; auto. Qed.

Theorem blk_upd_posdef : symmetric n blk_upd /\ posdef n blk_upd.
Proof.
  split.
  - intros i j Hi Hj. unfold blk_upd. rewrite (Nat.eqb_sym (nd j)). destruct (nd i =? nd j)%nat; auto.
    rewrite (Asym i j) by auto. unfold Rdiv. ring.
  - intros z (i0 & Hi0 & Hz). rewrite blk_upd_qf. pose proof sg_pos as Hsg.
    assert (T1 : forall k z, rdot n (mask k z) v * rdot n (mask k z) v / sg <= qf n A (mask k z) * (qf n A (mask k s) / sg)).
    { intros k w. rewrite mask_v. unfold Rdiv. rewrite <- Rmult_assoc. apply Rmult_le_compat_r.
      - apply Rlt_le, Rinv_0_lt_compat; auto.
      - apply cauchy_schwarz; auto. apply psdA. }
    assert (Ssum : sg = rsum K (fun k => qf n A (mask k s))) by (rewrite <- qf_blocks; reflexivity).
    assert (T2 : forall k, (k < K)%nat -> qf n A (mask k s) <= sg).
    { intros k Hk. rewrite Ssum. apply (rsum_nonneg_term K (fun k => qf n A (mask k s)) k); auto. intros; apply psdA. }
    assert (T3 : forall k, (k < K)%nat -> rdot n (mask k z) v * rdot n (mask k z) v / sg <= qf n A (mask k z)).
    { intros k Hk. eapply Rle_trans; [apply T1|]. rewrite <- (Rmult_1_r (qf n A (mask k z))) at 2.
      apply Rmult_le_compat_l; [apply psdA|]. apply (Rmult_le_reg_r sg); auto. unfold Rdiv.
      rewrite Rmult_assoc, Rinv_l, Rmult_1_r, Rmult_1_l by lra. auto. }
    assert (T4 : forall k, 0 <= rdot n (mask k z) r * rdot n (mask k z) r / rh).
    { intro k. apply Rmult_le_pos; [apply Rle_0_sqr|]. apply Rlt_le, Rinv_0_lt_compat; auto. }
    set (f := fun k => qf n A (mask k z) - rdot n (mask k z) v * rdot n (mask k z) v / sg + rdot n (mask k z) r * rdot n (mask k z) r / rh).
    assert (Hf : forall k, (k < K)%nat -> 0 <= f k).
    { intros k Hk. unfold f. specialize (T3 k Hk). specialize (T4 k). lra. }
    set (k := nd i0). assert (Hk : (k < K)%nat) by (apply Hnd; auto).
    apply Rlt_le_trans with (f k); [|apply rsum_nonneg_term; auto].
    assert (Hzk : nonzero_vec n (mask k z)) by (exists i0; split; auto; rewrite mask_at; auto).
    pose proof (Apd _ Hzk) as Hqz. specialize (T4 k).
    destruct (Rlt_dec (qf n A (mask k s)) sg) as [Hlt|Hge].
    + specialize (T1 k z). assert (qf n A (mask k z) * (qf n A (mask k s) / sg) < qf n A (mask k z)).
      { rewrite <- (Rmult_1_r (qf n A (mask k z))) at 2. apply Rmult_lt_compat_l; auto.
        apply (Rmult_lt_reg_r sg); auto. unfold Rdiv. rewrite Rmult_assoc, Rinv_l, Rmult_1_r, Rmult_1_l by lra. auto. }
      unfold f. lra.
    + assert (Hz0 : forall i, (i < n)%nat -> mask k s i = s i).
      { intros i Hi. destruct (Nat.eq_dec (nd i) k) as [E|E]; [apply mask_at; auto|]. rewrite mask_off by auto.
        destruct (Req_dec (s i) 0) as [|Hne]; auto. exfalso.
        assert (P : 0 < qf n A (mask (nd i) s)). { apply Apd. exists i. split; auto. rewrite mask_at; auto. }
        rewrite (rsum_isolate K k) in Ssum by auto.
        assert (qf n A (mask (nd i) s) <= rsum K (fun j => if (j =? k)%nat then 0 else qf n A (mask j s))).
        { replace (qf n A (mask (nd i) s)) with (if (nd i =? k)%nat then 0 else qf n A (mask (nd i) s)).
          - apply (rsum_nonneg_term K (fun j => if (j =? k)%nat then 0 else qf n A (mask j s))); [|apply Hnd; auto].
            intros j _. destruct (j =? k)%nat; [lra|apply psdA].
          - rewrite (proj2 (Nat.eqb_neq _ _)) by auto. reflexivity. }
        lra. }
      set (t := rdot n (mask k z) v / sg).
      assert (Q : qf n A (fun i => mask k z i + (- t) * s i) = qf n A (mask k z) - rdot n (mask k z) v * rdot n (mask k z) v / sg).
      { rewrite qf_plus_scal by auto. change (bf n A (mask k z) s) with (rdot n (mask k z) v).
        change (qf n A s) with sg. unfold t. field. lra. }
      destruct (classic_nz n (fun i => mask k z i + (- t) * s i)) as [Hw|Hw].
      * pose proof (Apd _ Hw). unfold f. rewrite <- Q. lra.
      * assert (E : rdot n (mask k z) r = t * rh).
        { unfold rh. rewrite <- rdot_scal_l. apply rdot_ext; auto. intros i Hi. specialize (Hw i Hi). cbn in Hw. lra. }
        assert (Ht : t <> 0).
        { intro H0. assert (mask k z i0 = 0) by (specialize (Hw i0 Hi0); cbn in Hw; rewrite H0 in Hw; lra).
          rewrite mask_at in H by auto. auto. }
        assert (P : 0 < rdot n (mask k z) r * rdot n (mask k z) r / rh).
        { rewrite E. replace (t * rh * (t * rh) / rh) with (t * t * rh) by (field; lra).
          apply Rmult_lt_0_compat; auto. destruct (Rdichotomy _ _ Ht); nra. }
        specialize (T3 k Hk). unfold f. lra.
Qed.
End B.
