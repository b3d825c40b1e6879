(** C97: what the Hessian regularisations used with the SQP solver do to a matrix. *)
Require Import Reals Lra Lia ZArith Bool Arith.
Require Import Verif.Scal Verif.RSum Verif.HessReg_Model Verif.HessReg_Spec Verif.HessReg_Proofs.
Local Open Scope R_scope.

(** Whatever the symmetric matrix, the Gershgorin regularisation returns a symmetric positive definite one, with every
    disc strictly to the right of zero. *)
Theorem C97_gershgorin_positive_definite : forall n c H, 0 < c -> symmetric n H ->
  symmetric n (gershgorin n c H) /\ posdef n (gershgorin n c H) /\
  forall i, (i < n)%nat -> dominant n (gershgorin n c H) i.
Proof.
  intros n c H Hc Hs. split; [apply gersh_symmetric; auto|split]; [apply gersh_posdef; auto|]. intros; apply gersh_dominant; auto.
Qed.

(** It only touches diagonal entries of columns that are not strictly dominant; those become the radius plus [c].  This
    needs no symmetry.  Hence applying it twice is the same as applying it once. *)
Theorem C97_gershgorin_changes : forall n c H, 0 < c ->
  (forall i j, i <> j -> gershgorin n c H i j = H i j) /\
  (forall i, (i < n)%nat -> dominant n H i -> gershgorin n c H i i = H i i) /\
  (forall i, (i < n)%nat -> ~ dominant n H i -> gershgorin n c H i i = radius n H i + c) /\
  same_matrix n (gershgorin n c (gershgorin n c H)) (gershgorin n c H).
Proof.
  intros n c H Hc. split; [|split; [|split]].
  - intros; apply gersh_off; auto.
  - intros; apply gersh_keep; auto.
  - intros i Hi Hd. rewrite gersh_diag by auto. unfold fixed. unfold dominant in Hd. destruct (Rle_dec _ _); [reflexivity|lra].
  - intros i j Hi Hj. destruct (Nat.eq_dec i j) as [<-|N]; [|apply gersh_off; auto]. apply gersh_keep; auto. apply gersh_dominant; auto.
Qed.

Definition mat2 (a b c d : R) : mat R := fun i j => match i, j with O, O => a | O, _ => b | _, O => c | _, _ => d end.
Lemma two (P : nat -> Prop) : P 0%nat -> P 1%nat -> forall i, (i < 2)%nat -> P i.
Proof. intros A B [|[|i]] Hi; auto; lia. Qed.
Lemma three (P : nat -> Prop) : P 0%nat -> P 1%nat -> P 2%nat -> forall i, (i < 3)%nat -> P i.
Proof. intros A B C [|[|[|i]]] Hi; auto; lia. Qed.
Lemma two2 (P : nat -> nat -> Prop) : P 0%nat 0%nat -> P 0%nat 1%nat -> P 1%nat 0%nat -> P 1%nat 1%nat ->
  forall i j, (i < 2)%nat -> (j < 2)%nat -> P i j.
Proof. intros A B C D [|[|i]] [|[|j]] Hi Hj; auto; lia. Qed.
Lemma three2 (P : nat -> nat -> Prop) : P 0%nat 0%nat -> P 0%nat 1%nat -> P 0%nat 2%nat -> P 1%nat 0%nat -> P 1%nat 1%nat -> P 1%nat 2%nat ->
  P 2%nat 0%nat -> P 2%nat 1%nat -> P 2%nat 2%nat -> forall i j, (i < 3)%nat -> (j < 3)%nat -> P i j.
Proof. intros A B C D E F G H I [|[|[|i]]] [|[|[|j]]] Hi Hj; auto; lia. Qed.
Lemma mat2_posdef a b d : 0 < a -> b * b < a * d -> posdef 2 (mat2 a b b d).
Proof.
  intros Ha Hd x (i & Hi & Hx). rewrite qf_double. unfold rsum, ssum, mat2. simpl.
  assert (E : forall u v, 0 < u * u + v * v -> 0 < a * (u * u) + 2 * b * (u * v) + d * (v * v)).
  { intros u v Huv. apply (Rmult_lt_reg_l a); auto. rewrite Rmult_0_r.
    replace (a * (a * (u * u) + 2 * b * (u * v) + d * (v * v))) with ((a * u + b * v) * (a * u + b * v) + (a * d - b * b) * (v * v)) by ring.
    assert (S1 := Rle_0_sqr (a * u + b * v)). unfold Rsqr in S1. destruct (Req_dec v 0) as [->|Nv].
    - assert (0 < (a * a) * (u * u)) by (apply Rmult_lt_0_compat; [apply Rmult_lt_0_compat; auto|lra]). lra.
    - assert (0 < v * v) by (apply (Rsqr_pos_lt v Nv)). assert (0 < (a * d - b * b) * (v * v)) by (apply Rmult_lt_0_compat; lra). lra. }
  assert (P : 0 < x 0%nat * x 0%nat + x 1%nat * x 1%nat).
  { assert (A := Rle_0_sqr (x 0%nat)). assert (B := Rle_0_sqr (x 1%nat)). unfold Rsqr in *. destruct i as [|[|i]]; [| |lia]; assert (Q := Rsqr_pos_lt _ Hx); unfold Rsqr in Q; lra. }
  specialize (E _ _ P). lra.
Qed.

(** A matrix that is already positive definite need not survive: the regularisation also changes Hessians that need no
    regularisation. *)
Theorem C97_positive_definite_kept_refuted : exists n H, symmetric n H /\ posdef n H /\
  forall c, 0 < c -> ~ same_matrix n (gershgorin n c H) H.
Proof.
  exists 2%nat, (mat2 1 1 1 (3/2)). split; [|split].
  - red; refine (two2 _ _ _ _ _); reflexivity.
  - apply mat2_posdef; lra.
  - intros c Hc S. specialize (S 0%nat 0%nat ltac:(lia) ltac:(lia)). rewrite gersh_diag in S by lia. revert S.
    assert (E : radius 2 (mat2 1 1 1 (3/2)) 0 = 1) by (unfold radius, rsum, ssum, mat2; simpl; rewrite Rabs_R1; ring).
    unfold fixed. rewrite E. change (mat2 1 1 1 (3/2) 0%nat 0%nat) with 1. destruct (Rle_dec 1 1); lra.
Qed.
(** The loop looks at columns only: a matrix that is not symmetric can come back unchanged and indefinite. *)
Theorem C97_not_symmetric_refuted : exists n H, (forall c, 0 < c -> same_matrix n (gershgorin n c H) H) /\
  exists x, qf n H x < 0.
Proof.
  exists 2%nat, (mat2 1 100 0 101). split.
  - intros c Hc. assert (E0 : radius 2 (mat2 1 100 0 101) 0 = 0) by (unfold radius, rsum, ssum, mat2; simpl; rewrite Rabs_R0; ring).
    assert (E1 : radius 2 (mat2 1 100 0 101) 1 = 100) by (unfold radius, rsum, ssum, mat2; simpl; rewrite Rabs_right by lra; ring).
    intros i j Hi Hj. destruct (Nat.eq_dec i j) as [<-|N]; [|apply gersh_off; auto]. apply gersh_keep; auto.
    clear Hj. revert i Hi. apply two; unfold dominant; [rewrite E0|rewrite E1]; simpl; lra.
  - exists (fun i => match i with O => -50 | _ => 1 end). rewrite qf_double. unfold rsum, ssum, mat2. simpl. lra.
Qed.

(** Mirroring the eigenvalues returns a symmetric positive definite matrix if the eigenvectors span the space (they need
    not be orthogonal), and the matrix itself if its eigenvalues are positive. *)
Theorem C97_mirror_positive_definite : forall eig n H, (0 < n)%nat -> symmetric n H ->
  eigenpairs n H (fst (eig H)) (snd (eig H)) -> spanning n (snd (eig H)) ->
  symmetric n (mirror eig n H) /\ posdef n (mirror eig n H) /\
  ((forall k, (k < n)%nat -> 0 < fst (eig H) k) -> mirror eig n H = H).
Proof.
  intros eig n H Hn Hs He HV. split; [apply mirror_symmetric; auto|split]; [apply mirror_posdef; auto|apply mirror_keep; auto].
Qed.
(** With orthonormal eigenvectors the result has the same eigenvectors: positive eigenvalues stay, the others change sign
    and move away from zero by 0.1. *)
Theorem C97_mirror_spectrum : forall eig n H, (0 < n)%nat ->
  eigenpairs n H (fst (eig H)) (snd (eig H)) -> orthonormal n (snd (eig H)) ->
  eigenpairs n (mirror eig n H) (flipped (fst (eig H))) (snd (eig H)).
Proof. intros eig n H Hn He Ho. apply mirror_eigenpairs; auto. Qed.

(** ** examples *)
(** an indefinite matrix: eigenvalues 3 and -1 *)
Definition saddle : mat R := mat2 1 2 2 1.
Lemma saddle_symmetric : symmetric 2 saddle.
Proof. red; refine (two2 _ _ _ _ _); reflexivity. Qed.
Example C97_example_gershgorin : symmetric 2 saddle /\ (exists x, qf 2 saddle x < 0) /\
  gershgorin 2 (/100) saddle 0%nat 0%nat = 2 + /100 /\ gershgorin 2 (/100) saddle 0%nat 1%nat = 2.
Proof.
  split; [exact saddle_symmetric|split; [|split]].
  - exists (fun i => match i with O => 1 | _ => -1 end). rewrite qf_double. unfold rsum, ssum, saddle, mat2. simpl. lra.
  - destruct (C97_gershgorin_changes 2 (/100) saddle ltac:(lra)) as (_ & _ & A & _).
    assert (E : radius 2 saddle 0 = 2) by (unfold radius, rsum, ssum, saddle, mat2; simpl; rewrite Rabs_right by lra; ring).
    rewrite A; [rewrite E; reflexivity|lia|]. unfold dominant. rewrite E. unfold saddle, mat2. lra.
  - destruct (C97_gershgorin_changes 2 (/100) saddle ltac:(lra)) as (A & _). rewrite A by lia. reflexivity.
Qed.

(** H = diag(2, 2, -1): the eigenvectors for the double eigenvalue 2 may be any two independent unit vectors *)
Definition diag3 : mat R := fun i j => if Nat.eqb i j then match i with 2%nat => -1 | _ => 2 end else 0.
Definition skew3 : mat R := fun i j => match i, j with 0%nat, 0%nat => 1 | 0%nat, 1%nat => 3/5 | 1%nat, 1%nat => 4/5 | 2%nat, 2%nat => 1 | _, _ => 0 end.
Definition eye3 : mat R := fun i j => if Nat.eqb i j then 1 else 0.
Definition eig3 (V : mat R) (_ : mat R) : vec R * mat R := (fun k => match k with 2%nat => -1 | _ => 2 end, V).
Lemma diag3_symmetric : symmetric 3 diag3.
Proof. red; refine (three2 _ _ _ _ _ _ _ _ _ _); reflexivity. Qed.
Lemma skew3_eigen : eigenpairs 3 diag3 (fst (eig3 skew3 diag3)) skew3.
Proof.
  red; refine (three2 _ _ _ _ _ _ _ _ _ _); unfold rsum, ssum, diag3, skew3, eig3; simpl; lra.
Qed.
Lemma skew3_spanning : spanning 3 skew3.
Proof.
  intros x. exists (fun k => match k with 0%nat => x 0%nat - 3 / 4 * x 1%nat | 1%nat => 5 / 4 * x 1%nat | _ => x 2%nat end).
  apply three; unfold rsum, ssum, skew3; simpl; lra.
Qed.
Lemma eye3_eigen : eigenpairs 3 diag3 (fst (eig3 eye3 diag3)) eye3.
Proof.
  red; refine (three2 _ _ _ _ _ _ _ _ _ _); unfold rsum, ssum, diag3, eye3, eig3; simpl; lra.
Qed.
Lemma eye3_orthonormal : orthonormal 3 eye3.
Proof.
  red; refine (three2 _ _ _ _ _ _ _ _ _ _); unfold rsum, ssum, eye3; simpl; lra.
Qed.
Example C97_example_mirror : symmetric 3 diag3 /\ (exists x, qf 3 diag3 x < 0) /\
  eigenpairs 3 diag3 (fst (eig3 skew3 diag3)) (snd (eig3 skew3 diag3)) /\ spanning 3 (snd (eig3 skew3 diag3)) /\
  eigenpairs 3 diag3 (fst (eig3 eye3 diag3)) (snd (eig3 eye3 diag3)) /\ orthonormal 3 (snd (eig3 eye3 diag3)).
Proof.
  split; [exact diag3_symmetric|split]; [|split; [exact skew3_eigen|split; [exact skew3_spanning|split; [exact eye3_eigen|exact eye3_orthonormal]]]].
  exists (fun i => match i with 2%nat => 1 | _ => 0 end). rewrite qf_double. unfold rsum, ssum, diag3. simpl. lra.
Qed.

(** Without orthogonality the positive part of the matrix is not preserved: the code multiplies by the transpose where
    the inverse is needed.  Eigen's EigenSolver promises unit eigenvectors, not orthogonal ones; for a repeated eigenvalue
    the result depends on which ones it returns. *)
Theorem C97_mirror_keeps_positive_part_refuted : exists eig n H,
  (0 < n)%nat /\ symmetric n H /\ eigenpairs n H (fst (eig H)) (snd (eig H)) /\ spanning n (snd (eig H)) /\
  unit_columns n (snd (eig H)) /\
  exists k, (k < n)%nat /\ 0 < fst (eig H) k /\
    ~ (forall i, (i < n)%nat -> rsum n (fun j => mirror eig n H i j * snd (eig H) j k) = fst (eig H) k * snd (eig H) i k).
Proof.
  exists (eig3 skew3), 3%nat, diag3. split; [lia|]. split; [exact diag3_symmetric|]. split; [exact skew3_eigen|]. split; [exact skew3_spanning|]. split.
  - intros k. revert k. apply three; unfold rsum, ssum, skew3; simpl; lra.
  - exists 0%nat. split; [lia|]. split; [simpl; lra|]. intros A. specialize (A 0%nat ltac:(lia)).
    assert (D : decomposes 3 (mirror (eig3 skew3) 3 diag3) (flipped (fst (eig3 skew3 diag3))) skew3).
    { apply (mirror_flip (eig3 skew3) 3 diag3); [lia|]. exists 2%nat. split; [lia|simpl; lra]. }
    rewrite (rsum_ext 3 _ (fun j => rsum 3 (fun k => skew3 0%nat k * flipped (fst (eig3 skew3 diag3)) k * skew3 j k) * skew3 j 0%nat)) in A.
    + revert A. unfold rsum, ssum, skew3, flipped, eig3. simpl. destruct (Rle_dec 2 0); [lra|]. destruct (Rle_dec (-1) 0); lra.
    + intros j Hj. rewrite D by lia. reflexivity.
Qed.

Print Assumptions C97_gershgorin_positive_definite.
Print Assumptions C97_gershgorin_changes.
Print Assumptions C97_positive_definite_kept_refuted.
Print Assumptions C97_not_symmetric_refuted.
Print Assumptions C97_mirror_positive_definite.
Print Assumptions C97_mirror_spectrum.
Print Assumptions C97_mirror_keeps_positive_part_refuted.
