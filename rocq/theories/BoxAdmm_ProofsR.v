(** Lemmas about the boxADMM model over the reals. *)
Require Import ZArith List Bool Lia Reals Lra Psatz.
From Verif Require Import Scal RSum Qp_Model Qp_Spec Qp_Proofs Admm_Model Admm_Spec Admm_SpecR Admm_Proofs Admm_ProofsR Admm_Conv
  BoxAdmm_Model BoxAdmm_Proofs.
Local Open Scope R_scope.

Section R.
Variable lsolve : nat -> mat R -> vec R -> vec R.
Variable full : bool.
Notation body := (box_body lsolve).
Notation solve := (box_solve lsolve full).

(** ** rows of the KKT system *)
Lemma bkkt_row_top : forall s p rho rb v j, symmetric (qn p) (qH p) -> (j < qn p)%nat ->
  rmv (qn p + qm p) (box_kkt full s p rho rb) v j =
  rmv (qn p) (qH p) v j + (sigma s + rb j) * v j + rsum (qm p) (fun i => qA p i j * v (qn p + i)%nat).
Proof.
  intros s p rho rb v j Hs Hj. rewrite rmv_def, rsum_split. f_equal.
  - transitivity (rsum (qn p) (fun k => qH p j k * v k + (if Nat.eqb k j then (sigma s + rb j) * v k else 0))).
    + apply rsum_ext. intros k Hk. unfold box_kkt.
      rewrite (proj2 (Nat.ltb_lt j (qn p))), (proj2 (Nat.ltb_lt k (qn p))) by auto.
      rewrite (Nat.eqb_sym k j). destruct (Nat.eqb_spec j k).
      * subst. rsimp. ring.
      * rewrite (as_read_sym full (qn p)) by auto. ring.
    + rewrite rsum_plus, rsum_delta by auto. rewrite rmv_def. reflexivity.
  - apply rsum_ext. intros i Hi. unfold box_kkt.
    rewrite (proj2 (Nat.ltb_lt j (qn p))) by auto. destruct (Nat.ltb_spec (qn p + i) (qn p)); [lia|].
    replace (qn p + i - qn p)%nat with i by lia. reflexivity.
Qed.

Lemma bkkt_row_bottom : forall s p rho rb v i, (i < qm p)%nat ->
  rmv (qn p + qm p) (box_kkt full s p rho rb) v (qn p + i)%nat = rmv (qn p) (qA p) v i - / rho i * v (qn p + i)%nat.
Proof.
  intros s p rho rb v i Hi. rewrite rmv_def, rsum_split.
  replace (rmv (qn p) (qA p) v i - / rho i * v (qn p + i)%nat) with (rmv (qn p) (qA p) v i + - (/ rho i * v (qn p + i)%nat)) by ring. f_equal.
  - rewrite rmv_def. apply rsum_ext. intros k Hk. unfold box_kkt.
    destruct (Nat.ltb_spec (qn p + i) (qn p)); [lia|]. rewrite (proj2 (Nat.ltb_lt k (qn p))) by auto.
    replace (qn p + i - qn p)%nat with i by lia. reflexivity.
  - transitivity (rsum (qm p) (fun k => if Nat.eqb k i then - (/ rho k * v (qn p + k)%nat) else 0)).
    + apply rsum_ext. intros k Hk. unfold box_kkt.
      destruct (Nat.ltb_spec (qn p + i) (qn p)), (Nat.ltb_spec (qn p + k) (qn p)); try lia.
      destruct (Nat.eqb_spec (qn p + i) (qn p + k)), (Nat.eqb_spec k i); try lia; rsimp; try ring.
      subst k. replace (qn p + i - qn p)%nat with i by lia. unfold Rdiv. ring.
    + rewrite rsum_delta by auto. reflexivity.
Qed.

Lemma box_kkt_nonsingular : forall s p rho rb, symmetric (qn p) (qH p) -> psd (qn p) (qH p) -> 0 < sigma s ->
  (forall i, (i < qm p)%nat -> 0 < rho i) -> (forall j, (j < qn p)%nat -> 0 < rb j) ->
  nonsingular (qn p + qm p) (box_kkt full s p rho rb).
Proof.
  intros s p rho rb Hs Hp Hsig Hrho Hrb v Hv.
  assert (Hb : forall i, (i < qm p)%nat -> rmv (qn p) (qA p) v i = / rho i * v (qn p + i)%nat).
  { intros i Hi. specialize (Hv (qn p + i)%nat ltac:(lia)). rewrite bkkt_row_bottom in Hv by auto. lra. }
  assert (Ht : forall j, (j < qn p)%nat -> rmv (qn p) (qH p) v j + (sigma s + rb j) * v j +
            rsum (qm p) (fun i => qA p i j * v (qn p + i)%nat) = 0).
  { intros j Hj. specialize (Hv j ltac:(lia)). rewrite bkkt_row_top in Hv by auto. lra. }
  assert (E : qf (qn p) (qH p) v + rsum (qn p) (fun j => (sigma s + rb j) * (v j * v j)) +
              rsum (qm p) (fun i => / rho i * (v (qn p + i)%nat * v (qn p + i)%nat)) = 0).
  { assert (E1 : rdot (qn p) v (fun j => rmv (qn p) (qH p) v j + (sigma s + rb j) * v j +
                   rsum (qm p) (fun i => qA p i j * v (qn p + i)%nat)) = 0).
    { rewrite rdot_def. apply rsum_zero. intros j Hj. rewrite Ht by auto. ring. }
    rewrite (rdot_plus_r (qn p) (fun j => rmv (qn p) (qH p) v j + (sigma s + rb j) * v j)) in E1.
    rewrite (rdot_plus_r (qn p) (rmv (qn p) (qH p) v)) in E1.
    assert (E2 : rdot (qn p) v (fun j => (sigma s + rb j) * v j) = rsum (qn p) (fun j => (sigma s + rb j) * (v j * v j))).
    { rewrite rdot_def. apply rsum_ext. intros. ring. }
    assert (E3 : rdot (qn p) v (fun j => rsum (qm p) (fun i => qA p i j * v (qn p + i)%nat)) =
                 rsum (qm p) (fun i => / rho i * (v (qn p + i)%nat * v (qn p + i)%nat))).
    { rewrite rdot_comm.
      change (fun j => rsum (qm p) (fun i => qA p i j * v (qn p + i)%nat)) with (rmv (qm p) (mtr (qA p)) (fun i => v (qn p + i)%nat)).
      rewrite <- rdot_mv_adj. rewrite rdot_def. apply rsum_ext. intros i Hi. rewrite Hb by auto. ring. }
    rewrite E2, E3 in E1. exact E1. }
  assert (H1 : 0 <= qf (qn p) (qH p) v) by apply Hp.
  assert (H2 : forall j, (j < qn p)%nat -> 0 <= (sigma s + rb j) * (v j * v j)).
  { intros j Hj. apply Rmult_le_pos; [specialize (Hrb j Hj); lra|apply Rle_0_sqr]. }
  assert (H3 : forall i, (i < qm p)%nat -> 0 <= / rho i * (v (qn p + i)%nat * v (qn p + i)%nat)).
  { intros i Hi. apply Rmult_le_pos; [left; apply Rinv_0_lt_compat; auto|apply Rle_0_sqr]. }
  assert (S2 := rsum_nonneg _ _ H2). assert (S3 := rsum_nonneg _ _ H3).
  assert (Z2 : rsum (qn p) (fun j => (sigma s + rb j) * (v j * v j)) = 0) by (cbv beta in *; lra).
  assert (Z3 : rsum (qm p) (fun i => / rho i * (v (qn p + i)%nat * v (qn p + i)%nat)) = 0) by (cbv beta in *; lra).
  intros i Hi. destruct (Nat.lt_ge_cases i (qn p)) as [Hin|Hin].
  - assert (Hz := rsum_nonneg_zero _ _ H2 Z2 i Hin). cbv beta in Hz. specialize (Hrb i Hin).
    apply Rsqr_0_uniq. unfold Rsqr. nra.
  - assert (Hz := rsum_nonneg_zero _ _ H3 Z3 (i - qn p)%nat ltac:(lia)). cbv beta in Hz.
    replace (qn p + (i - qn p))%nat with i in Hz by lia.
    assert (0 < / rho (i - qn p)%nat) by (apply Rinv_0_lt_compat, Hrho; lia).
    apply Rsqr_0_uniq. unfold Rsqr. nra.
Qed.

(** ** step sizes *)
Lemma bbody_cont_rho : forall s p k o o', body s p k o = Cont o' ->
  b_rho o' = b_rho o \/ (RHO_MIN <= b_rho o' <= RHO_MAX).
Proof.
  intros s p k o o'. unfold box_body. cbv zeta.
  destruct (_ && _); [discriminate|].
  assert (E : forall b : bool, b_rho (if b then box_residuals_update p (box_update lsolve s p o) else box_update lsolve s p o) = b_rho o)
    by (intros [|]; reflexivity).
  destruct (adaptive_rho s); [|intros HH; injection HH; intros; subst; left; auto].
  destruct (adaptive_rho_interval s =? 0)%Z; [discriminate|].
  destruct (Z.rem k (adaptive_rho_interval s) =? 0)%Z; [|intros HH; injection HH; intros; subst; left; auto].
  intros HH; injection HH; intros; subst. unfold box_adapt_rho. cbv zeta.
  match goal with |- context [if rho_change_needed s ?a ?b then _ else _] => destruct (rho_change_needed s a b) end.
  - right. apply clamp_rho_range.
  - left. destruct (is_check_iter s k); reflexivity.
Qed.

Lemma bvisits_rho : forall s p xg yg o k o1,
  visits (body s p) (max_iter s) (box_setup full s p xg yg o) k o1 ->
  b_rho o1 = rho0 s \/ (RHO_MIN <= b_rho o1 <= RHO_MAX).
Proof.
  intros s p xg yg o k o1 Hv. revert k o1 Hv.
  apply (visits_inv _ _ _ (fun o1 => b_rho o1 = rho0 s \/ (RHO_MIN <= b_rho o1 <= RHO_MAX))); [left; reflexivity|].
  intros k o1 o2 _ _ Hr Hb. apply bbody_cont_rho in Hb. destruct Hb as [->|]; auto.
Qed.

Definition rho_good (p : qp_data R) (o : box_obj R) : Prop :=
  (forall i, (i < qm p)%nat -> 0 < b_rho_vec o i /\ b_rho_inv o i = / b_rho_vec o i) /\
  (forall j, (j < qn p)%nat -> 0 < b_rho_box o j /\ b_rho_box_inv o j = / b_rho_box o j).

Lemma bvisits_rho_pos : forall s p xg yg o k o1, 0 < rho0 s ->
  visits (body s p) (max_iter s) (box_setup full s p xg yg o) k o1 -> rho_good p o1.
Proof.
  intros s p xg yg o k o1 H0 Hv. assert (HI := bvisits_inv lsolve full _ _ _ _ _ _ _ Hv).
  assert (Hr : 0 < b_rho o1).
  { destruct (bvisits_rho _ _ _ _ _ _ _ Hv) as [->|[]]; auto. generalize RHO_MIN_pos; lra. }
  split; intros; split.
  - rewrite (bi_rvec _ _ HI) by auto. apply rho_of_type_pos; auto.
  - rewrite (bi_rinv _ _ HI) by auto. rsimp. unfold Rdiv. ring.
  - rewrite (bi_rbox _ _ HI) by auto. apply rho_of_type_pos; auto.
  - rewrite (bi_rboxi _ _ HI) by auto. rsimp. unfold Rdiv. ring.
Qed.

Lemma bvisits_rho_range : forall s p xg yg o k o1, RHO_MIN <= rho0 s <= RHO_MAX ->
  visits (body s p) (max_iter s) (box_setup full s p xg yg o) k o1 ->
  (forall i, (i < qm p)%nat -> RHO_MIN <= b_rho_vec o1 i <= 1000 * RHO_MAX) /\
  (forall i, (i < qn p)%nat -> RHO_MIN <= b_rho_box o1 i <= 1000 * RHO_MAX).
Proof.
  intros s p xg yg o k o1 H0 Hv.
  assert (HI := bvisits_inv lsolve full _ _ _ _ _ _ _ Hv).
  assert (Hr : RHO_MIN <= b_rho o1 <= RHO_MAX) by (destruct (bvisits_rho _ _ _ _ _ _ _ Hv) as [->|]; auto).
  generalize RHO_MIN_pos RHO_MIN_le_MAX; intros.
  split; intros i Hi; [rewrite (bi_rvec _ _ HI) by auto; destruct (b_ctype o1 i)
                      |rewrite (bi_rbox _ _ HI) by auto; destruct (b_ctype o1 (qm p + i)%nat)];
   simpl; unfold RHO_EQ_FACTOR, RHO_MIN, RHO_MAX, scst in *; rsimp; lra.
Qed.

(** ** the factorised matrix is the KKT matrix of the current step sizes *)
Definition fact_ok (s : qp_settings R) (p : qp_data R) (o : box_obj R) : Prop :=
  forall i j, (i < qn p + qm p)%nat -> (j < qn p + qm p)%nat ->
    as_read full (b_Fact o) i j = box_kkt full s p (b_rho_vec o) (b_rho_box o) i j.

Lemma bupdate_kkt_as_read : forall s p ri rv rb rvp rbp K i j,
  (forall i, (i < qm p)%nat -> ri i = sdiv s1 (rv i)) ->
  (forall i j, (i < qn p + qm p)%nat -> (j < qn p + qm p)%nat -> as_read full K i j = box_kkt full s p rvp rbp i j) ->
  (i < qn p + qm p)%nat -> (j < qn p + qm p)%nat ->
  as_read full (box_update_kkt_rho p ri rb rbp K) i j = box_kkt full s p rv rb i j.
Proof.
  intros s p ri rv rb rvp rbp K i j Hr HK Hi Hj.
  assert (E := HK i j Hi Hj). unfold box_kkt in *. unfold as_read, box_update_kkt_rho in *.
  destruct full.
  - rewrite tab2_spec by auto. destruct (Nat.eqb_spec i j) as [->|].
    + destruct (Nat.ltb_spec j (qn p)); [rewrite E; rsimp; ring|rewrite Hr by lia; reflexivity].
    + rewrite E. reflexivity.
  - destruct (Nat.ltb_spec i j).
    + rewrite tab2_spec by auto. destruct (Nat.eqb_spec j i); [lia|]. destruct (Nat.eqb_spec i j); [lia|]. exact E.
    + rewrite tab2_spec by auto. destruct (Nat.eqb_spec i j) as [->|].
      * destruct (Nat.ltb_spec j (qn p)); [rewrite E; rsimp; ring|rewrite Hr by lia; reflexivity].
      * exact E.
Qed.

Lemma bvisits_fact : forall s p xg yg o k o1, boff (qn p) (qm p) (b_K o) ->
  visits (body s p) (max_iter s) (box_setup full s p xg yg o) k o1 -> fact_ok s p o1.
Proof.
  intros s p xg yg o k o1 H0 Hv. induction Hv as [|k o1 o2 Hv IH Hk Hb].
  - intros i j Hi Hj. unfold box_setup. cbv zeta. cbn [b_Fact box_factorise bset_K bset_status b_K b_rho_vec b_rho_box].
    apply bconstruct_as_read; auto. intros. simpl. rewrite tab_spec by auto. reflexivity.
  - assert (HI := bvisits_inv lsolve full _ _ _ _ _ _ _ Hv).
    revert Hb. unfold box_body. cbv zeta.
    set (u := box_update lsolve s p o1).
    assert (Eu : fact_ok s p u) by exact IH.
    assert (EK : b_K u = b_Fact u) by apply (bi_K _ _ HI). clearbody u.
    assert (E : forall b : bool, let v := if b then box_residuals_update p u else u in fact_ok s p v /\ b_K v = b_Fact v) by (intros [|]; auto).
    destruct (_ && _); [discriminate|].
    destruct (adaptive_rho s); [|intros HH; injection HH; intros; subst; apply E].
    destruct (adaptive_rho_interval s =? 0)%Z; [discriminate|].
    destruct (Z.rem k (adaptive_rho_interval s) =? 0)%Z; [|intros HH; injection HH; intros; subst; apply E].
    intros HH; injection HH; intros; subst. clear HH.
    match goal with |- fact_ok s p (box_adapt_rho s p ?X) => assert (EX : fact_ok s p X /\ b_K X = b_Fact X) by (destruct (is_check_iter s k); auto);
      generalize dependent X end.
    intros X [EX KX]. unfold box_adapt_rho. cbv zeta.
    match goal with |- context [if rho_change_needed s ?a ?b then _ else _] => destruct (rho_change_needed s a b) end; [|exact EX].
    intros i j Hi Hj. cbn [b_Fact box_factorise bset_K b_K b_rho_vec b_rho_box].
    apply bupdate_kkt_as_read with (rvp := b_rho_vec X); auto.
    + intros. simpl. rewrite tab_spec by auto. reflexivity.
    + intros. cbn [b_K box_rho_vec_update bset_rho_estimate]. rewrite KX. apply EX; auto.
Qed.

(** ** one iteration *)
Definition btilde (s : qp_settings R) (p : qp_data R) (o : box_obj R) : vec R :=
  lsolve (qn p + qm p) (b_Fact o) (box_kkt_rhs s p o).
Definition brelaxed (s : qp_settings R) (p : qp_data R) (o : box_obj R) (i : nat) : R :=
  alpha s * (b_z o i + b_rho_inv o i * (btilde s p o (qn p + i)%nat - b_y o i)) + (1 - alpha s) * b_z o i.

Lemma bupdate_x : forall s p o j, (j < qn p)%nat ->
  b_x (box_update lsolve s p o) j = alpha s * (2 - alpha s) * btilde s p o j.
Proof. intros. unfold box_update. cbn [b_x]. rewrite !tab_spec by lia. fold (btilde s p o). rsimp. ring. Qed.

Lemma bupdate_z : forall s p o i, (i < qm p)%nat ->
  b_z (box_update lsolve s p o) i = proj_row (brelaxed s p o i + b_rho_inv o i * b_y o i) (qAlb p i) (qAub p i).
Proof.
  intros. unfold box_update, brelaxed. cbn [b_z]. rewrite !tab_spec by lia. fold (btilde s p o). rsimp. f_equal. ring.
Qed.

Lemma bupdate_q : forall s p o j, (j < qn p)%nat ->
  b_q (box_update lsolve s p o) j =
  proj_row (b_x (box_update lsolve s p o) j + b_rho_box_inv o j * b_y o (qm p + j)%nat) (qxlb p j) (qxub p j).
Proof. intros. unfold box_update. cbn [b_q b_x]. rewrite !tab_spec by lia. rsimp. reflexivity. Qed.

Lemma bupdate_yh : forall s p o i, (i < qm p)%nat ->
  b_y (box_update lsolve s p o) i = b_y o i + b_rho_vec o i * (brelaxed s p o i - b_z (box_update lsolve s p o) i).
Proof.
  intros. unfold box_update, brelaxed. cbn [b_y b_z]. rewrite !tab_spec by lia.
  rewrite (proj2 (Nat.ltb_lt i (qm p))) by auto. fold (btilde s p o). rsimp. reflexivity.
Qed.
Lemma bupdate_yt : forall s p o j, (j < qn p)%nat ->
  b_y (box_update lsolve s p o) (qm p + j)%nat =
  b_y o (qm p + j)%nat + b_rho_box o j * (b_x (box_update lsolve s p o) j - b_q (box_update lsolve s p o) j).
Proof.
  intros. unfold box_update. cbn [b_y b_x b_q].
  assert (E : forall f : vec R, tab (qm p + qn p) f (qm p + j)%nat = f (qm p + j)%nat) by (intros; apply tab_spec; lia).
  rewrite E. destruct (Nat.ltb_spec (qm p + j) (qm p)); [lia|]. replace (qm p + j - qm p)%nat with j by lia. rsimp. reflexivity.
Qed.

Lemma bupdate_normal : forall s p o, qp_consistent p -> rho_good p o ->
  let u := box_update lsolve s p o in
  (forall i, (i < qm p)%nat -> in_bounds (qAlb p i) (qAub p i) (b_z u i) /\ sign_ok (qAlb p i) (qAub p i) (b_z u i) (b_y u i)) /\
  (forall j, (j < qn p)%nat -> in_bounds (qxlb p j) (qxub p j) (b_q u j) /\ sign_ok (qxlb p j) (qxub p j) (b_q u j) (b_y u (qm p + j)%nat)).
Proof.
  intros s p o [Hca Hcx] [Hr Hb] u. unfold u. split.
  - intros i Hi. destruct (Hr i Hi) as [Hp Hinv]. rewrite bupdate_yh, bupdate_z by auto.
    split; [apply proj_in_bounds; auto|].
    set (v := brelaxed s p o i + b_rho_inv o i * b_y o i).
    replace (b_y o i + b_rho_vec o i * (brelaxed s p o i - proj_row v (qAlb p i) (qAub p i)))
      with (b_rho_vec o i * (v - proj_row v (qAlb p i) (qAub p i))); [apply proj_sign; auto|].
    unfold v. rewrite Hinv. field. lra.
  - intros j Hj. destruct (Hb j Hj) as [Hp Hinv]. rewrite bupdate_yt by auto. rewrite bupdate_q by auto.
    split; [apply proj_in_bounds; auto|].
    set (x := b_x (box_update lsolve s p o) j).
    set (v := x + b_rho_box_inv o j * b_y o (qm p + j)%nat).
    replace (b_y o (qm p + j)%nat + b_rho_box o j * (x - proj_row v (qxlb p j) (qxub p j)))
      with (b_rho_box o j * (v - proj_row v (qxlb p j) (qxub p j))); [apply proj_sign; auto|].
    unfold v. rewrite Hinv. field. lra.
Qed.

(** ** certificate *)
Lemma bresiduals_R : forall p x y z q,
  box_compute_residuals p x y z q =
  mkRes (rnorminf (qm p) (fun i => rmv (qn p) (qA p) x i - z i) + rnorminf (qn p) (fun j => x j - q j))
        (rnorminf (qn p) (lag_grad p x y)) (box_prim_scale p x z) (qp_dual_scale p x y).
Proof. intros. unfold box_compute_residuals. rewrite !sfmax_R. reflexivity. Qed.

Lemma bsolved_certificate : forall s p xg yg o o', qp_consistent p -> 0 < rho0 s ->
  solve s p xg yg o = Some o' -> b_status o' = SOLVED ->
  let x := b_x o' in let y := b_y o' in let z := b_z o' in let q := b_q o' in
  let ep := eps_abs s + eps_rel s * box_prim_scale p x z in
  let ed := eps_abs s + eps_rel s * qp_dual_scale p x y in
  exists ep_a ep_x, 0 <= ep_a /\ 0 <= ep_x /\ ep_a + ep_x <= ep /\ certificate p x y z q ep_a ep_x ed.
Proof.
  intros s p xg yg o o' Hc Hr H Hs x y z q ep ed.
  destruct (bsolve_fresh lsolve full _ _ _ _ _ _ H Hs) as [Eres Ht].
  unfold termination_criteria, eps_prim, eps_dual in Ht. apply andb_prop in Ht. destruct Ht as [Ht1 Ht2].
  rewrite Eres, bresiduals_R in Ht1, Ht2. rsimp. cbn [res_prim res_dual max_Ax_z max_Hx] in *.
  apply Rleb_true in Ht1, Ht2. fold x y z q in Ht1, Ht2. fold ep in Ht1. fold ed in Ht2.
  assert (HN : (forall i, (i < qm p)%nat -> in_bounds (qAlb p i) (qAub p i) (z i) /\ sign_ok (qAlb p i) (qAub p i) (z i) (y i)) /\
   (forall j, (j < qn p)%nat -> in_bounds (qxlb p j) (qxub p j) (q j) /\ sign_ok (qxlb p j) (qxub p j) (q j) (y (qm p + j)%nat))).
  { destruct (bsolve_cases _ _ _ _ _ _ _ _ H) as [[k [o1 [Hv [Hk ->]]]]|[k [o1 [o2 [Hv [Hk [Hb ->]]]]]]]; [discriminate|].
    apply bbody_stop in Hb. destruct Hb as (_ & _ & -> & _).
    apply (bupdate_normal s p o1 Hc). eapply bvisits_rho_pos; eauto. }
  destruct HN as [HNa HNx].
  exists (rnorminf (qm p) (fun i => rmv (qn p) (qA p) x i - z i)), (rnorminf (qn p) (fun j => x j - q j)).
  split; [apply rnorminf_nonneg|]. split; [apply rnorminf_nonneg|]. split; [exact Ht1|].
  split; [|split].
  - intros i Hi. destruct (HNa i Hi). repeat split; try apply H0; try apply H1.
    apply (rnorminf_ub (qm p) (fun i => rmv (qn p) (qA p) x i - z i)); auto.
  - intros j Hj. destruct (HNx j Hj). repeat split; try apply H0; try apply H1.
    apply (rnorminf_ub (qn p) (fun j => x j - q j)); auto.
  - intros j Hj. eapply Rle_trans; [|apply Ht2]. apply (rnorminf_ub (qn p) (lag_grad p x y)); auto.
Qed.

Lemma bsolved_near_optimal : forall s p xg yg o o', qp_consistent p -> 0 < rho0 s ->
  symmetric (qn p) (qH p) -> psd (qn p) (qH p) ->
  solve s p xg yg o = Some o' -> b_status o' = SOLVED ->
  let x := b_x o' in let y := b_y o' in let z := b_z o' in
  near_optimal p x y (eps_abs s + eps_rel s * box_prim_scale p x z) (eps_abs s + eps_rel s * qp_dual_scale p x y).
Proof.
  intros s p xg yg o o' Hc Hr Hsym Hpsd H Hs x y z x' Hf.
  destruct (bsolved_certificate s p xg yg o o' Hc Hr H Hs) as (ea & ex & H1 & H2 & H3 & Ha & Hx & Hd).
  fold x y z in H3, Ha, Hx, Hd.
  apply approx_kkt_optimal with (za := z) (zx := b_q o'); auto; intros.
  - eapply Rle_trans; [apply Ha; auto|lra].
  - eapply Rle_trans; [apply Hx; auto|lra].
  - apply Ha; auto.
  - apply Hx; auto.
Qed.

(** ** equivalence with ADMM *)
Hypothesis Hexact : exact_solver full lsolve.

Lemma btilde_solves : forall s p o, fact_ok s p o -> symmetric (qn p) (qH p) -> psd (qn p) (qH p) -> 0 < sigma s -> rho_good p o ->
  (forall j, (j < qn p)%nat ->
     rmv (qn p) (qH p) (btilde s p o) j + (sigma s + b_rho_box o j) * btilde s p o j +
     rsum (qm p) (fun i => qA p i j * btilde s p o (qn p + i)%nat)
     = sigma s * b_x o j - qh p j + b_rho_box o j * b_q o j - b_y o (qm p + j)%nat) /\
  (forall i, (i < qm p)%nat ->
     rmv (qn p) (qA p) (btilde s p o) i - / b_rho_vec o i * btilde s p o (qn p + i)%nat = b_z o i - / b_rho_vec o i * b_y o i).
Proof.
  intros s p o HF Hs Hp Hsig [Hr Hb].
  assert (HNS : nonsingular (qn p + qm p) (as_read full (b_Fact o))).
  { apply nonsingular_ext with (K := box_kkt full s p (b_rho_vec o) (b_rho_box o)).
    - intros. symmetry. apply HF; auto.
    - apply box_kkt_nonsingular; auto; intros; [apply Hr|apply Hb]; auto. }
  assert (HE := Hexact _ _ (box_kkt_rhs s p o) HNS). fold (btilde s p o) in HE.
  assert (HE' : forall i, (i < qn p + qm p)%nat ->
     rmv (qn p + qm p) (box_kkt full s p (b_rho_vec o) (b_rho_box o)) (btilde s p o) i = box_kkt_rhs s p o i).
  { intros i Hi. rewrite <- HE by auto. apply rmv_ext; auto. intros. symmetry. apply HF; auto. }
  split.
  - intros j Hj. rewrite <- (bkkt_row_top s p (b_rho_vec o) (b_rho_box o)) by auto. rewrite HE' by lia.
    unfold box_kkt_rhs. rewrite tab_spec by lia. rewrite (proj2 (Nat.ltb_lt j (qn p))) by auto. reflexivity.
  - intros i Hi. rewrite <- (bkkt_row_bottom s p (b_rho_vec o) (b_rho_box o)) by auto. rewrite HE' by lia.
    unfold box_kkt_rhs. rewrite tab_spec by lia. destruct (Nat.ltb_spec (qn p + i) (qn p)); [lia|].
    replace (qn p + i - qn p)%nat with i by lia. rsimp.
    destruct (Hr i Hi) as [_ ->]. reflexivity.
Qed.

Lemma btilde_unique : forall s p o v, fact_ok s p o -> symmetric (qn p) (qH p) -> psd (qn p) (qH p) -> 0 < sigma s -> rho_good p o ->
  (forall j, (j < qn p)%nat ->
     rmv (qn p) (qH p) v j + (sigma s + b_rho_box o j) * v j + rsum (qm p) (fun i => qA p i j * v (qn p + i)%nat)
     = sigma s * b_x o j - qh p j + b_rho_box o j * b_q o j - b_y o (qm p + j)%nat) ->
  (forall i, (i < qm p)%nat ->
     rmv (qn p) (qA p) v i - / b_rho_vec o i * v (qn p + i)%nat = b_z o i - / b_rho_vec o i * b_y o i) ->
  forall i, (i < qn p + qm p)%nat -> btilde s p o i = v i.
Proof.
  intros s p o v HF Hs Hp Hsig Hrg Hv1 Hv2 i Hi.
  destruct (btilde_solves s p o HF Hs Hp Hsig Hrg) as [HT HB]. destruct Hrg as [Hr Hb].
  set (d := fun i => btilde s p o i - v i).
  assert (Hd : d i = 0); [|unfold d in Hd; lra].
  apply (box_kkt_nonsingular s p (b_rho_vec o) (b_rho_box o) Hs Hp Hsig); auto; try (intros; apply Hr || apply Hb; auto).
  - intros k Hk. destruct (Nat.lt_ge_cases k (qn p)) as [Hkn|Hkn].
    + rewrite bkkt_row_top by auto. unfold d. rewrite rmv_minus.
      rewrite (rsum_ext (qm p) _ (fun i => qA p i k * btilde s p o (qn p + i)%nat - qA p i k * v (qn p + i)%nat)) by (intros; ring).
      rewrite rsum_minus. specialize (HT k Hkn). specialize (Hv1 k Hkn). lra.
    + replace k with (qn p + (k - qn p))%nat by lia. rewrite bkkt_row_bottom by lia. unfold d. rewrite rmv_minus.
      specialize (HB (k - qn p)%nat ltac:(lia)). specialize (Hv2 (k - qn p)%nat ltac:(lia)). lra.
Qed.

Definition stk (p : qp_data R) (a b : vec R) : vec R := fun i => if Nat.ltb i (qm p) then a i else b (i - qm p)%nat.
Lemma stk_l : forall p a b i, (i < qm p)%nat -> stk p a b i = a i.
Proof. intros. unfold stk. rewrite (proj2 (Nat.ltb_lt _ _)) by auto. reflexivity. Qed.
Lemma stk_r : forall p a b j, stk p a b (qm p + j)%nat = b j.
Proof. intros. unfold stk. destruct (Nat.ltb_spec (qm p + j) (qm p)); [lia|]. f_equal. lia. Qed.

(** the ADMM state with the same content *)
Definition toA (s : qp_settings R) (p : qp_data R) (o : box_obj R) : admm_obj R :=
  let rho := stk p (b_rho_vec o) (b_rho_box o) in
  mkAdmm (b_x o) (b_y o) (stk p (b_z o) (b_q o)) rho (stk p (b_rho_inv o) (b_rho_box_inv o)) (b_rho o)
         (admm_kkt full s p rho) (admm_kkt full s p rho) (b_ctype o) (b_res o) (b_status o) (b_iter o) (b_rho_updates o) (b_rho_estimate o).

Lemma admm_kkt_as_read : forall s p rho i j, as_read full (admm_kkt full s p rho) i j = admm_kkt full s p rho i j.
Proof.
  clear Hexact. intros s p rho i j. unfold as_read. destruct full; auto. destruct (Nat.ltb_spec i j); auto.
  unfold admm_kkt, as_read.
  destruct (Nat.ltb_spec i (qn p)), (Nat.ltb_spec j (qn p)); auto;
  rewrite (Nat.eqb_sym j i); destruct (Nat.eqb_spec i j); try lia; auto.
  destruct (Nat.ltb_spec j i), (Nat.ltb_spec i j); auto; lia.
Qed.

Lemma toA_inv : forall s p o, box_inv p o -> admm_inv full s p (toA s p o).
Proof.
  intros s p o [H1 H2 H3 H4 H5 H6]. constructor; auto.
  - intros i Hi. cbn [a_rho_vec toA a_ctype a_rho]. unfold stk. destruct (Nat.ltb_spec i (qm p)); auto.
    rewrite H4 by lia. f_equal. f_equal. lia.
  - intros i Hi. cbn [a_rho_vec toA a_rho_inv]. unfold stk. destruct (Nat.ltb_spec i (qm p)); auto. apply H5. lia.
  - intros. cbn [a_Fact toA a_rho_vec]. apply admm_kkt_as_read.
Qed.

Lemma toA_rho : forall s p o, rho_good p o ->
  forall i, (i < qm p + qn p)%nat -> 0 < a_rho_vec (toA s p o) i /\ a_rho_inv (toA s p o) i = / a_rho_vec (toA s p o) i.
Proof.
  intros s p o [Hr Hb] i Hi. cbn [a_rho_vec toA a_rho_inv]. unfold stk. destruct (Nat.ltb_spec i (qm p)); [apply Hr; auto|apply Hb; lia].
Qed.

(** the two linear systems have the same solution *)
Lemma btilde_eq : forall s p o, box_inv p o -> fact_ok s p o -> rho_good p o ->
  symmetric (qn p) (qH p) -> psd (qn p) (qH p) -> 0 < sigma s ->
  forall i, (i < qn p + qm p)%nat -> btilde s p o i = tilde lsolve s p (toA s p o) i.
Proof.
  intros s p o HI HF Hrg Hs Hp Hsig.
  destruct (tilde_solves lsolve full Hexact s p (toA s p o) (toA_inv s p o HI) Hs Hp Hsig (toA_rho s p o Hrg)) as [HT HB].
  apply btilde_unique; auto.
  - intros j Hj. specialize (HT j Hj). specialize (HB (qm p + j)%nat ltac:(lia)).
    set (t := tilde lsolve s p (toA s p o)) in *.
    cbn [toA a_x a_z a_y a_rho_vec] in HT, HB. rewrite !stk_r in HB.
    unfold stackv in HB. destruct (Nat.ltb_spec (qm p + j) (qm p)); [lia|]. replace (qm p + j - qm p)%nat with j in HB by lia.
    destruct Hrg as [_ Hb]. destruct (Hb j Hj) as [Hpos _].
    assert (E : t (qn p + (qm p + j))%nat = b_y o (qm p + j)%nat + b_rho_box o j * (t j - b_q o j)).
    { assert (E : b_rho_box o j * (t j - / b_rho_box o j * t (qn p + (qm p + j))%nat) = b_rho_box o j * (b_q o j - / b_rho_box o j * b_y o (qm p + j)%nat))
        by (rewrite HB; reflexivity).
      replace (b_rho_box o j * (t j - / b_rho_box o j * t (qn p + (qm p + j))%nat)) with (b_rho_box o j * t j - t (qn p + (qm p + j))%nat) in E by (field; lra).
      replace (b_rho_box o j * (b_q o j - / b_rho_box o j * b_y o (qm p + j)%nat)) with (b_rho_box o j * b_q o j - b_y o (qm p + j)%nat) in E by (field; lra).
      lra. }
    rewrite E in HT. lra.
  - intros i Hi. specialize (HB i ltac:(lia)).
    cbn [toA a_z a_y a_rho_vec] in HB. rewrite !stk_l in HB by auto.
    unfold stackv in HB. rewrite (proj2 (Nat.ltb_lt i (qm p))) in HB by auto. exact HB.
Qed.

(** with alpha = 1 one boxADMM iteration is one ADMM iteration *)
Lemma box_update_sim : forall s p o, box_inv p o -> fact_ok s p o -> rho_good p o ->
  symmetric (qn p) (qH p) -> psd (qn p) (qH p) -> 0 < sigma s -> alpha s = 1 ->
  let u := box_update lsolve s p o in let v := admm_update lsolve s p (toA s p o) in
  (forall j, (j < qn p)%nat -> b_x u j = a_x v j) /\
  (forall i, (i < qm p + qn p)%nat -> b_y u i = a_y v i) /\
  (forall i, (i < qm p + qn p)%nat -> stk p (b_z u) (b_q u) i = a_z v i).
Proof.
  intros s p o HI HF Hrg Hs Hp Hsig Hal u v.
  assert (HT := btilde_eq s p o HI HF Hrg Hs Hp Hsig).
  assert (HAi := toA_inv s p o HI). assert (HAr := toA_rho s p o Hrg).
  assert (Ex : forall j, (j < qn p)%nat -> b_x u j = a_x v j).
  { intros j Hj. unfold u, v. rewrite bupdate_x by auto. rewrite step_x by auto. rewrite HT by lia. rewrite Hal. ring. }
  assert (Ez : forall i, (i < qm p + qn p)%nat -> stk p (b_z u) (b_q u) i = a_z v i).
  { intros i Hi. unfold v. rewrite update_z by auto. destruct (Nat.lt_ge_cases i (qm p)) as [Him|Him].
    - rewrite stk_l by auto. unfold u. rewrite bupdate_z by auto.
      unfold lbS, ubS. rewrite (proj2 (Nat.ltb_lt i (qm p))) by auto. cbn [toA a_rho_inv a_y]. rewrite stk_l by auto.
      f_equal. f_equal. unfold brelaxed, relaxed. fold (tilde lsolve s p (toA s p o)). rewrite HT by lia.
      cbn [toA a_z a_rho_inv a_y]. rewrite !stk_l by auto. reflexivity.
    - replace i with (qm p + (i - qm p))%nat by lia. rewrite stk_r. unfold u. rewrite bupdate_q by lia. fold u.
      unfold lbS, ubS. destruct (Nat.ltb_spec (qm p + (i - qm p)) (qm p)); [lia|].
      replace (qm p + (i - qm p) - qm p)%nat with (i - qm p)%nat by lia.
      cbn [toA a_rho_inv a_y]. rewrite stk_r. f_equal. f_equal.
      rewrite step_w with (full := full) by (auto; lia). fold v. unfold stackv.
      destruct (Nat.ltb_spec (qm p + (i - qm p)) (qm p)); [lia|].
      replace (qm p + (i - qm p) - qm p)%nat with (i - qm p)%nat by lia. apply Ex. lia. }
  split; [exact Ex|]. split; [|exact Ez].
  intros i Hi. specialize (Ez i Hi). unfold v. rewrite update_y by auto. fold v. rewrite <- Ez.
  destruct (Nat.lt_ge_cases i (qm p)) as [Him|Him].
  - rewrite stk_l by auto. unfold u. rewrite bupdate_yh by auto. cbn [toA a_rho_vec a_y]. rewrite stk_l by auto.
    f_equal. f_equal. f_equal. unfold brelaxed, relaxed. fold (tilde lsolve s p (toA s p o)). rewrite HT by lia.
    cbn [toA a_z a_rho_inv a_y]. rewrite !stk_l by auto. reflexivity.
  - replace i with (qm p + (i - qm p))%nat by lia. unfold u. rewrite bupdate_yt by lia. fold u.
    cbn [toA a_rho_vec a_y]. rewrite !stk_r. f_equal. f_equal. f_equal.
    rewrite step_w with (full := full) by (auto; lia). fold v. unfold stackv.
    destruct (Nat.ltb_spec (qm p + (i - qm p)) (qm p)); [lia|].
    replace (qm p + (i - qm p) - qm p)%nat with (i - qm p)%nat by lia. apply Ex. lia.
Qed.

(** ** warm start *)
Definition b_at_pair (p : qp_data R) (x y : vec R) (o : box_obj R) : Prop :=
  (forall j, (j < qn p)%nat -> b_x o j = x j) /\
  (forall i, (i < qm p + qn p)%nat -> b_y o i = y i) /\
  (forall i, (i < qm p)%nat -> b_z o i = rmv (qn p) (qA p) x i) /\
  (forall j, (j < qn p)%nat -> b_q o j = x j).

Lemma b_at_pair_A : forall s p x y o, b_at_pair p x y o <-> at_pair p x y (toA s p o).
Proof.
  intros s p x y o. unfold b_at_pair, at_pair. cbn [toA a_x a_y a_z]. split.
  - intros (Hx & Hy & Hz & Hq). repeat split; auto. intros i Hi. unfold stk, stackv. destruct (Nat.ltb_spec i (qm p)); auto. apply Hq. lia.
  - intros (Hx & Hy & Hz). repeat split; auto.
    + intros i Hi. specialize (Hz i ltac:(lia)). unfold stk, stackv in Hz. rewrite (proj2 (Nat.ltb_lt i (qm p))) in Hz by auto. exact Hz.
    + intros j Hj. specialize (Hz (qm p + j)%nat ltac:(lia)). rewrite stk_r in Hz. unfold stackv in Hz.
      destruct (Nat.ltb_spec (qm p + j) (qm p)); [lia|]. replace (qm p + j - qm p)%nat with j in Hz by lia. exact Hz.
Qed.

(** at a KKT pair the linear system returns the primal point, for every alpha *)
Lemma btilde_at_pair : forall s p o x y, fact_ok s p o -> rho_good p o ->
  symmetric (qn p) (qH p) -> psd (qn p) (qH p) -> 0 < sigma s -> kkt_pair p x y -> b_at_pair p x y o ->
  (forall j, (j < qn p)%nat -> btilde s p o j = x j).
Proof.
  intros s p o x y HF Hrg Hs Hp Hsig HK (Hx & Hy & Hz & Hq) j Hj.
  set (v := fun i => if Nat.ltb i (qn p) then x i else y (i - qn p)%nat).
  assert (Ev1 : forall j, (j < qn p)%nat -> v j = x j) by (intros; unfold v; rewrite (proj2 (Nat.ltb_lt _ _)) by auto; reflexivity).
  assert (Ev2 : forall i, v (qn p + i)%nat = y i).
  { intros; unfold v. destruct (Nat.ltb_spec (qn p + i) (qn p)); [lia|]. f_equal. lia. }
  rewrite <- Ev1 by auto. apply btilde_unique; auto; try lia.
  - intros k Hk. rewrite Ev1, Hx, Hq, Hy by lia. destruct HK as (Hst & _). specialize (Hst k Hk). unfold lag_grad in Hst.
    rewrite (rmv_ext _ _ (qH p) v x) by auto.
    rewrite (rsum_ext (qm p) _ (fun i => qA p i k * y i)) by (intros; rewrite Ev2; reflexivity). lra.
  - intros i Hi. rewrite Ev2, Hz, Hy by lia. rewrite (rmv_ext _ _ (qA p) v x) by auto. reflexivity.
Qed.

Lemma bsetup_at_pair : forall s p xg yg o, b_at_pair p xg yg (box_setup full s p xg yg o).
Proof.
  intros. unfold box_setup. cbv zeta. repeat split; intros; simpl; rewrite ?tab_spec by auto; auto.
Qed.

Lemma b_kkt_fixed : forall s p o x y, box_inv p o -> fact_ok s p o -> rho_good p o ->
  symmetric (qn p) (qH p) -> psd (qn p) (qH p) -> 0 < sigma s -> alpha s = 1 ->
  kkt_pair p x y -> b_at_pair p x y o -> b_at_pair p x y (box_update lsolve s p o).
Proof.
  intros s p o x y HI HF Hrg Hs Hp Hsig Hal HK HP. apply (b_at_pair_A s).
  destruct (box_update_sim s p o HI HF Hrg Hs Hp Hsig Hal) as (Ex & Ey & Ez).
  apply (b_at_pair_A s) in HP.
  destruct (kkt_fixed lsolve full Hexact s p (toA s p o) x y (toA_inv s p o HI) Hs Hp Hsig HK (toA_rho s p o Hrg) HP) as (Hx & Hy & Hz).
  cbn [toA a_x a_y a_z]. repeat split; intros; cbn [toA a_x a_y a_z]; rewrite ?Ex, ?Ey, ?Ez by auto; auto.
Qed.

Lemma bterminates_small : forall s p x y z q, 0 <= eps_abs s -> 0 <= eps_rel s ->
  (forall i, (i < qm p)%nat -> Rabs (rmv (qn p) (qA p) x i - z i) <= eps_abs s / 2) ->
  (forall j, (j < qn p)%nat -> Rabs (x j - q j) <= eps_abs s / 2) ->
  (forall j, (j < qn p)%nat -> Rabs (lag_grad p x y j) <= eps_abs s) ->
  termination_criteria s (box_compute_residuals p x y z q) = true.
Proof.
  intros s p x y z q Ha Hr H1 H2 H3. rewrite bresiduals_R. unfold termination_criteria, eps_prim, eps_dual.
  cbn [res_prim res_dual max_Ax_z max_Hx]. rsimp.
  assert (0 <= eps_rel s * box_prim_scale p x z).
  { apply Rmult_le_pos; auto. unfold box_prim_scale. eapply Rle_trans; [|apply Rmax_l]. apply rnorminf_nonneg. }
  assert (0 <= eps_rel s * qp_dual_scale p x y) by (apply Rmult_le_pos; auto; apply dual_scale_nonneg).
  apply andb_true_intro; split; apply Rleb_true.
  - assert (rnorminf (qm p) (fun i => rmv (qn p) (qA p) x i - z i) <= eps_abs s / 2) by (apply rnorminf_le; auto; lra).
    assert (rnorminf (qn p) (fun j => x j - q j) <= eps_abs s / 2) by (apply rnorminf_le; auto; lra). lra.
  - apply Rle_trans with (eps_abs s); [|lra]. apply rnorminf_le; auto.
Qed.

Lemma bbody_check_stop : forall s p k o, is_check_iter s k = true ->
  let u := box_update lsolve s p o in
  termination_criteria s (box_compute_residuals p (b_x u) (b_y u) (b_z u) (b_q u)) = true ->
  exists o', body s p k o = Stop o'.
Proof.
  intros s p k o Hc u Ht. unfold box_body. cbv zeta. rewrite Hc. fold u. cbn [andb b_res box_residuals_update].
  rewrite Ht. eauto.
Qed.

Lemma bwarm_start : forall s p xg yg o, boff (qn p) (qm p) (b_K o) ->
  symmetric (qn p) (qH p) -> psd (qn p) (qH p) -> 0 < sigma s -> 0 < rho0 s -> alpha s = 1 ->
  0 <= eps_abs s -> 0 <= eps_rel s -> kkt_pair p xg yg ->
  (1 <= Z.abs (check_termination s) <= max_iter s)%Z ->
  (adaptive_rho s = false \/ adaptive_rho_interval s <> 0%Z) ->
  exists o', solve s p xg yg o = Some o' /\ b_status o' = SOLVED /\ b_iter o' = Z.abs (check_termination s) /\
    (forall j, (j < qn p)%nat -> b_x o' j = xg j) /\ (forall i, (i < qm p + qn p)%nat -> b_y o' i = yg i).
Proof.
  intros s p xg yg o H0 Hs Hp Hsig Hr Hal Ha Hrel HK Hct Had.
  set (ct := Z.abs (check_termination s)) in *.
  set (init := box_setup full s p xg yg o).
  assert (Hpair : forall k o1, visits (body s p) (max_iter s) init k o1 -> b_at_pair p xg yg o1).
  { intros k o1 Hv. induction Hv as [|k o1 o2 Hv IH Hk Hb]; [apply bsetup_at_pair|].
    destruct (bbody_cont _ _ _ _ _ _ Hb) as (Ex & Ey & Ez & Eq & _).
    destruct (b_kkt_fixed s p o1 xg yg) as (Hx & Hy & Hz & Hq); auto.
    - eapply bvisits_inv; eauto.
    - eapply bvisits_fact; eauto.
    - eapply bvisits_rho_pos; eauto.
    - repeat split; intros; rewrite ?Ex, ?Ey, ?Ez, ?Eq; auto. }
  assert (Hupd : forall k o1, visits (body s p) (max_iter s) init k o1 -> b_at_pair p xg yg (box_update lsolve s p o1)).
  { intros k o1 Hv. apply b_kkt_fixed; auto.
    - eapply bvisits_inv; eauto.
    - eapply bvisits_fact; eauto.
    - eapply bvisits_rho_pos; eauto.
    - eauto. }
  assert (Hstop : forall k o1, visits (body s p) (max_iter s) init k o1 -> is_check_iter s k = true -> exists o2, body s p k o1 = Stop o2).
  { intros k o1 Hv Hc. apply bbody_check_stop; auto. destruct (Hupd _ _ Hv) as (Hx & Hy & Hz & Hq).
    set (u := box_update lsolve s p o1) in *. destruct HK as (Hst & _).
    apply bterminates_small; auto; intros.
    - rewrite Hz by lia. rewrite (rmv_ext _ _ (qA p) _ xg) by auto. rewrite Rminus_eq_0, Rabs_R0. lra.
    - rewrite Hq, Hx by auto. rewrite Rminus_eq_0, Rabs_R0. lra.
    - assert (E : lag_grad p (b_x u) (b_y u) j = lag_grad p xg yg j).
      { unfold lag_grad. rewrite (rmv_ext _ _ (qH p) _ xg) by auto. rewrite Hy by lia.
        f_equal. f_equal. apply rsum_ext. intros. rewrite Hy by lia. reflexivity. }
      rewrite E, Hst, Rabs_R0 by auto. auto. }
  assert (Hctc : is_check_iter s ct = true).
  { apply is_check_mult. split; [lia|]. unfold ct. destruct (Z.abs_eq_or_opp (check_termination s)) as [->| ->].
    - apply Z.rem_same. lia.
    - rewrite Z.rem_opp_l by lia. rewrite Z.rem_same by lia. reflexivity. }
  assert (Hlate : forall k o1, visits (body s p) (max_iter s) init k o1 -> (k <= ct)%Z).
  { intros k o1 Hv. destruct (Z_le_gt_dec k ct); auto.
    destruct (visits_prefix _ _ _ _ _ Hv ct ltac:(lia)) as (oj & oj' & Hvj & _ & Hb).
    destruct (Hstop _ _ Hvj Hctc) as [o2 E]. congruence. }
  destruct (bsolve_defined lsolve full s p xg yg o Had) as [o' Ho']. exists o'. split; auto.
  destruct (bsolve_cases _ _ _ _ _ _ _ _ Ho') as [[k [o1 [Hv [Hk ->]]]]|[k [o1 [o2 [Hv [Hk [Hb ->]]]]]]].
  - apply Hlate in Hv. lia.
  - assert (Hkl := Hlate _ _ Hv). destruct (Hupd _ _ Hv) as (Hx & Hy & _).
    apply bbody_stop in Hb. destruct Hb as (Hc & Est & Eo2 & _).
    repeat split; auto.
    + simpl. apply is_check_mult in Hc. destruct Hc as [Hc0 Hc].
      apply visits_range in Hv. apply Z.rem_divide in Hc; auto.
      apply Z.divide_abs_l in Hc. apply Z.divide_pos_le in Hc; [|lia]. fold ct in Hc. lia.
    + intros. rewrite Eo2. apply Hx; auto.
    + intros. rewrite Eo2. apply Hy; auto.
Qed.

(** with alpha <> 1 the first iteration leaves every nonzero optimum *)
Lemma b_alpha_moves : forall s p xg yg o, boff (qn p) (qm p) (b_K o) ->
  symmetric (qn p) (qH p) -> psd (qn p) (qH p) -> 0 < sigma s -> 0 < rho0 s -> kkt_pair p xg yg ->
  forall j, (j < qn p)%nat ->
  b_x (box_update lsolve s p (box_setup full s p xg yg o)) j = alpha s * (2 - alpha s) * xg j.
Proof.
  intros s p xg yg o H0 Hs Hp Hsig Hr HK j Hj. rewrite bupdate_x by auto.
  assert (Hv : visits (body s p) (max_iter s) (box_setup full s p xg yg o) 1 (box_setup full s p xg yg o)) by constructor.
  rewrite (btilde_at_pair s p _ xg yg); auto.
  - eapply bvisits_fact; eauto.
  - eapply bvisits_rho_pos; eauto.
  - apply bsetup_at_pair.
Qed.

(** ** convergence, alpha = 1, fixed step sizes *)
Section Whole.
Variables (s : qp_settings R) (p : qp_data R) (xg yg : vec R) (ob : box_obj R) (xs ys : vec R).
Hypothesis Hoff : boff (qn p) (qm p) (b_K ob).
Hypothesis Hsym : symmetric (qn p) (qH p).
Hypothesis Hpsd : psd (qn p) (qH p).
Hypothesis Hsig : 0 < sigma s.
Hypothesis Hr0 : 0 < rho0 s.
Hypothesis Hal : alpha s = 1.
Hypothesis Had : adaptive_rho s = false.
Hypothesis HK : kkt_pair p xs ys.
Notation init := (box_setup full s p xg yg ob).
Notation mn := (qm p + qn p)%nat.

Lemma bvisits_rho_fix : forall k o, visits (body s p) (max_iter s) init k o ->
  forall i, (i < mn)%nat -> a_rho_vec (toA s p o) i = rho_fix s p i.
Proof.
  intros k o Hv i Hi. assert (HI := bvisits_inv lsolve full _ _ _ _ _ _ _ Hv).
  assert (HA := toA_inv s p o HI). rewrite (inv_rvec _ _ _ _ HA) by auto. rewrite (inv_ctype _ _ _ _ HA). unfold rho_fix. f_equal.
  cbn [toA a_rho]. clear HA HI Hi i. induction Hv as [|k o o' Hv IH Hk Hb]; [reflexivity|]. rewrite <- IH.
  revert Hb. unfold box_body. cbv zeta. rewrite Had.
  destruct (_ && _); [discriminate|]. intros HH; injection HH; intros; subst. destruct (is_check_iter s k); reflexivity.
Qed.

Definition bpotential (o : box_obj R) : R := potential s p xs ys (toA s p o).

Lemma dist2_ext_l : forall r x z y x' z' y' x0 z0 y0,
  (forall j, (j < qn p)%nat -> x j = x' j) -> (forall i, (i < mn)%nat -> z i = z' i) -> (forall i, (i < mn)%nat -> y i = y' i) ->
  dist2 s p r x z y x0 z0 y0 = dist2 s p r x' z' y' x0 z0 y0.
Proof.
  intros r x z y x' z' y' x0 z0 y0 Hx Hz Hy. unfold dist2, wsq.
  f_equal; [f_equal|]; apply rsum_ext; intros; rewrite ?Hx, ?Hz, ?Hy by auto; reflexivity.
Qed.

Lemma bpot_step : forall k o o', visits (body s p) (max_iter s) init k o -> body s p k o = Cont o' ->
  bpotential o' = potential s p xs ys (admm_update lsolve s p (toA s p o)).
Proof.
  intros k o o' Hv Hb. destruct (bbody_cont _ _ _ _ _ _ Hb) as (Ex & Ey & Ez & Eq & _).
  destruct (box_update_sim s p o) as (Sx & Sy & Sz); auto.
  - eapply bvisits_inv; eauto.
  - eapply bvisits_fact; eauto.
  - eapply bvisits_rho_pos; eauto.
  - unfold bpotential, potential. cbn [toA a_x a_y a_z]. rewrite Ex, Ey, Ez, Eq. apply dist2_ext_l; auto.
Qed.

Lemma bvisits_monotone : forall k o o', visits (body s p) (max_iter s) init k o -> body s p k o = Cont o' ->
  bpotential o' <= bpotential o.
Proof.
  intros k o o' Hv Hb. rewrite (bpot_step _ _ _ Hv Hb).
  assert (HI := bvisits_inv lsolve full _ _ _ _ _ _ _ Hv).
  assert (H := step_decrease_gen lsolve full Hexact s p (toA s p o) (toA_inv s p o HI) Hsym Hpsd Hsig Hal (kkt_consistent _ _ _ HK)
    (toA_rho s p o (bvisits_rho_pos _ _ _ _ _ _ _ Hr0 Hv)) xs ys 0 HK (or_introl eq_refl)).
  rewrite !(dist2_ext s p (a_rho_vec (toA s p o)) (rho_fix s p)) in H by (eapply bvisits_rho_fix; eauto).
  unfold bpotential, potential. lra.
Qed.

Lemma bvisits_normal : forall k o, visits (body s p) (max_iter s) init k o -> (2 <= k)%Z -> normal_at p (toA s p o).
Proof.
  intros k o Hv Hk. inversion Hv as [|k0 o0 o1 Hv0 Hk0 Hb]; subst; [lia|].
  destruct (bbody_cont _ _ _ _ _ _ Hb) as (_ & Ey & Ez & Eq & _).
  destruct (box_update_sim s p o0) as (Sx & Sy & Sz); auto.
  - eapply bvisits_inv; eauto.
  - eapply bvisits_fact; eauto.
  - eapply bvisits_rho_pos; eauto.
  - intros i Hi. cbn [toA a_y a_z]. rewrite Ey, Ez, Eq. rewrite Sy, Sz by auto.
    apply (step_normal lsolve s p (toA s p o0)); auto; [eapply kkt_consistent; eauto|].
    apply toA_rho. eapply bvisits_rho_pos; eauto.
Qed.

(** half of the tolerance is enough for each of the two parts of the primal residual *)
Definition half_eps : qp_settings R :=
  mkSettings (eps_rel s) (eps_abs s / 2) (max_iter s) (rho0 s) (sigma s) (alpha s) (check_termination s)
             (adaptive_rho s) (adaptive_rho_tolerance s) (adaptive_rho_interval s).
Definition box_step_threshold : R := step_threshold half_eps p.

Hypothesis Heps : 0 < eps_abs s.
Hypothesis Hrel : 0 <= eps_rel s.

Lemma bstep_threshold_pos : 0 < box_step_threshold.
Proof. apply step_threshold_pos; simpl; auto. lra. Qed.

Lemma bcheck_step_long : forall k o o', visits (body s p) (max_iter s) init k o -> body s p k o = Cont o' ->
  is_check_iter s k = true -> (2 <= k)%Z -> bpotential o' + box_step_threshold <= bpotential o.
Proof.
  intros k o o' Hv Hb Hc Hk. rewrite (bpot_step _ _ _ Hv Hb).
  assert (HI := bvisits_inv lsolve full _ _ _ _ _ _ _ Hv).
  assert (HFa := bvisits_fact _ _ _ _ _ _ _ Hoff Hv).
  assert (HG := bvisits_rho_pos _ _ _ _ _ _ _ Hr0 Hv).
  assert (HA := toA_inv s p o HI). assert (HR := toA_rho s p o HG). assert (HF := bvisits_rho_fix _ _ Hv).
  assert (H := step_decrease_gen lsolve full Hexact s p (toA s p o) HA Hsym Hpsd Hsig Hal (kkt_consistent _ _ _ HK)
    HR xs ys 1 HK (or_intror (conj eq_refl (bvisits_normal _ _ Hv Hk)))).
  set (v := admm_update lsolve s p (toA s p o)) in *.
  destruct (Rle_dec (dist2 s p (a_rho_vec (toA s p o)) (a_x v) (a_z v) (a_y v) (a_x (toA s p o)) (a_z (toA s p o)) (a_y (toA s p o)))
             box_step_threshold) as [Hle|Hgt].
  - exfalso.
    assert (He2 : 0 < eps_abs half_eps) by (simpl; lra).
    assert (HT := step_tau_pos half_eps p He2).
    assert (HM := col_mass_nonneg p).
    assert (Hmx : 0 < Rmax (sigma s) (rho_high s)) by (eapply Rlt_le_trans; [apply Hsig|apply Rmax_l]).
    assert (Hdiv : Rmax (sigma s) (rho_high s) * box_step_threshold <= step_tau half_eps p * step_tau half_eps p).
    { apply Rle_trans with (Rmax (sigma s) (rho_high s) * (step_tau half_eps p * step_tau half_eps p / Rmax (sigma s) (rho_high s))).
      - apply Rmult_le_compat_l; [lra|]. unfold box_step_threshold, step_threshold. apply Rmin_r.
      - right. field. lra. }
    assert (HTP := bstep_threshold_pos).
    destruct (step_small lsolve full Hexact s p (toA s p o) HA Hsym Hpsd Hsig Hal HR (eps_abs s / 2) (rho_low s) (rho_high s) (col_mass p)
       (step_tau half_eps p) box_step_threshold) as (S1 & S2 & S3); auto; try lra.
    + apply rho_low_pos; auto.
    + intros i Hi. rewrite HF by auto. apply rho_fix_range; auto.
    + intros j Hj. unfold col_mass.
      apply (rsum_nonneg_term (qn p) (fun j => rsum mn (fun i => Rabs (stacked (qm p) (qA p) i j)))); auto.
      intros. apply rsum_nonneg. intros. apply Rabs_pos.
    + unfold step_tau. simpl. right. field. lra.
    + apply (Rmin_l (rho_low s * (eps_abs s / 2 * (eps_abs s / 2)))).
    + eapply Rle_trans; [|apply Hdiv]. apply Rmult_le_compat_r; [lra|apply Rmax_l].
    + eapply Rle_trans; [|apply Hdiv]. apply Rmult_le_compat_r; [lra|apply Rmax_r].
    + destruct (bbody_check_stop s p k o Hc) as [o2 E]; [|congruence].
      destruct (box_update_sim s p o HI HFa HG Hsym Hpsd Hsig Hal) as (Sx & Sy & Sz). fold v in S1, S2, S3, Sx, Sy, Sz.
      set (u := box_update lsolve s p o) in *.
      apply bterminates_small; auto; try lra.
      * intros i Hi. specialize (Sz i ltac:(lia)). rewrite stk_l in Sz by auto. rewrite Sz.
        rewrite (rmv_ext _ _ (qA p) (b_x u) (a_x v)) by auto. apply S1; auto.
      * intros j Hj. specialize (Sz (qm p + j)%nat ltac:(lia)). rewrite stk_r in Sz. rewrite Sz, Sx by auto. apply S2; auto.
      * intros j Hj. assert (E : lag_grad p (b_x u) (b_y u) j = lag_grad p (a_x v) (a_y v) j).
        { unfold lag_grad. rewrite (rmv_ext _ _ (qH p) (b_x u) (a_x v)) by auto. rewrite Sy by lia.
          f_equal. f_equal. apply rsum_ext. intros. rewrite Sy by lia. reflexivity. }
        rewrite E. eapply Rle_trans; [apply S3; auto|lra].
  - rewrite !(dist2_ext s p (a_rho_vec (toA s p o)) (rho_fix s p)) in H by auto.
    rewrite (dist2_ext s p (a_rho_vec (toA s p o)) (rho_fix s p)) in Hgt by auto.
    unfold bpotential, potential. lra.
Qed.

Hypothesis Hct : check_termination s <> 0%Z.
Let ct := Z.abs (check_termination s).

Lemma bvisits_budget : forall k o, visits (body s p) (max_iter s) init k o ->
  bpotential o <= bpotential init /\
  bpotential o + box_step_threshold * (IZR ((k - 1) / ct) - 1) <= bpotential init.
Proof.
  assert (Hctp : (0 < ct)%Z) by (unfold ct; lia). assert (HTP := bstep_threshold_pos).
  intros k o Hv. induction Hv as [|k o o' Hv [IH1 IH2] Hk Hb].
  - replace ((1 - 1) / ct)%Z with 0%Z by (rewrite Z.div_0_l; lia). lra.
  - assert (Hm := bvisits_monotone _ _ _ Hv Hb). split; [lra|].
    assert (Hk1 := proj1 (visits_range _ _ _ _ _ Hv)).
    replace (k + 1 - 1)%Z with k by lia.
    destruct (is_check_iter s k) eqn:Hc.
    + destruct (Z_le_gt_dec 2 k) as [H2|H2].
      * assert (Hd := bcheck_step_long _ _ _ Hv Hb Hc H2).
        assert (E : ((k - 1) / ct + 1 >= k / ct)%Z).
        { replace ((k - 1) / ct + 1)%Z with ((k - 1 + 1 * ct) / ct)%Z by (rewrite Z.div_add; lia).
          apply Z.le_ge, Z.div_le_mono; lia. }
        assert (IZR (k / ct) <= IZR ((k - 1) / ct) + 1) by (rewrite <- plus_IZR; apply IZR_le; lia). nra.
      * assert (k = 1)%Z by lia. subst k.
        assert (IZR (1 / ct) <= 1). { apply IZR_le. apply Z.div_le_upper_bound; lia. } nra.
    + assert (E : (k / ct = (k - 1) / ct)%Z).
      { assert (Hn : (k mod ct <> 0)%Z).
        { intro E. rewrite <- Z.rem_mod_nonneg in E by lia. apply (check_iff s Hct) in E. congruence. }
        assert (D := Z.div_mod k ct ltac:(lia)). assert (B := Z.mod_pos_bound k ct Hctp).
        apply Z.div_unique with (r := (k mod ct - 1)%Z); lia. }
      rewrite E. lra.
Qed.

Lemma bsolved_eventually : forall N : nat, bpotential init < INR N * box_step_threshold ->
  (ct * (Z.of_nat N + 1) <= max_iter s)%Z ->
  exists o', solve s p xg yg ob = Some o' /\ b_status o' = SOLVED /\ (b_iter o' <= ct * (Z.of_nat N + 1))%Z.
Proof.
  intros N HN Hmx. assert (Hctp : (0 < ct)%Z) by (unfold ct; lia). assert (HTP := bstep_threshold_pos).
  assert (HB : forall k o, visits (body s p) (max_iter s) init k o -> (k <= ct * (Z.of_nat N + 1))%Z).
  { intros k o Hv. destruct (bvisits_budget _ _ Hv) as [_ H2]. assert (H0 := potential_nonneg s p xs ys Hsig Hr0 (toA s p o)). fold (bpotential o) in H0.
    destruct (Z_le_gt_dec k (ct * (Z.of_nat N + 1))); auto. exfalso.
    assert (Z.of_nat N + 1 <= (k - 1) / ct)%Z by (apply Z.div_le_lower_bound; lia).
    assert (IZR (Z.of_nat N + 1) <= IZR ((k - 1) / ct)) by (apply IZR_le; auto).
    rewrite plus_IZR, <- INR_IZR_INZ in H1. nra. }
  destruct (bsolve_defined lsolve full s p xg yg ob (or_introl Had)) as [o' Ho']. exists o'. split; auto.
  destruct (bsolve_cases _ _ _ _ _ _ _ _ Ho') as [[k [o1 [Hv [Hk ->]]]]|[k [o1 [o2 [Hv [Hk [Hb ->]]]]]]].
  - apply HB in Hv. lia.
  - apply bbody_stop in Hb. destruct Hb as (_ & Hs & _). split; auto. simpl. eapply HB; eauto.
Qed.
End Whole.
End R.
