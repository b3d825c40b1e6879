(** Regularised Hessians are positive definite. *)
Require Import Reals Lra Lia ZArith Bool Arith.
Require Import Verif.Scal Verif.RSum Verif.HessReg_Model Verif.HessReg_Spec.
Local Open Scope R_scope.

Lemma qf_double n H x : qf n H x = rsum n (fun i => rsum n (fun j => x i * H i j * x j)).
Proof.
  unfold qf. rewrite rdot_def. apply rsum_ext. intros i Hi. rewrite rmv_def, <- rsum_scal. apply rsum_ext. intros. ring.
Qed.

Lemma term_bound a u v : - (Rabs a * (u * u) / 2 + Rabs a * (v * v) / 2) <= u * a * v.
Proof.
  assert (A := Rabs_pos a). assert (H := Rle_0_sqr (u + v)). assert (H' := Rle_0_sqr (u - v)). unfold Rsqr in *.
  unfold Rabs in *. destruct (Rcase_abs a); nra.
Qed.

Lemma dominant_form n H x : symmetric n H -> rsum n (fun i => (H i i - radius n H i) * (x i * x i)) <= qf n H x.
Proof.
  intros Hs. rewrite qf_double.
  pose (D := fun i j => if Nat.eqb i j then H i i * (x i * x i) else 0).
  pose (E := fun i j => if Nat.eqb i j then 0 else Rabs (H i j)).
  apply Rle_trans with (rsum n (fun i => rsum n (fun j => D i j - (E i j * (x i * x i) / 2 + E i j * (x j * x j) / 2)))).
  - assert (E1 : rsum n (fun i => rsum n (fun j => E i j * (x i * x i) / 2)) = rsum n (fun i => radius n H i * (x i * x i) / 2)).
    { apply rsum_ext. intros i Hi. unfold radius.
      rewrite (rsum_ext n _ (fun j => E i j * ((x i * x i) / 2))) by (intros; field).
      rewrite rsum_scal_r. replace (rsum n (E i)) with (rsum n (fun k => if Nat.eqb k i then 0 else Rabs (H k i))); [field|].
      apply rsum_ext. intros k Hk. unfold E. rewrite Nat.eqb_sym. destruct (Nat.eqb i k); auto. rewrite Hs; auto. }
    assert (E2 : rsum n (fun i => rsum n (fun j => E i j * (x j * x j) / 2)) = rsum n (fun i => radius n H i * (x i * x i) / 2)).
    { rewrite rsum_swap. apply rsum_ext. intros j Hj. unfold radius.
      rewrite (rsum_ext n _ (fun i => E i j * ((x j * x j) / 2))) by (intros; field).
      rewrite (rsum_scal_r n _ (fun i => E i j)). unfold E. field. }
    assert (E3 : rsum n (fun i => rsum n (fun j => D i j)) = rsum n (fun i => H i i * (x i * x i))).
    { apply rsum_ext. intros i Hi. unfold D. 
      rewrite (rsum_ext n _ (fun j => if Nat.eqb j i then (fun j => H j j * (x j * x j)) j else 0)).
      - rewrite rsum_delta by auto. reflexivity.
      - intros j Hj. rewrite Nat.eqb_sym. destruct (Nat.eqb_spec j i); subst; auto. }
    rewrite (rsum_ext n (fun i => rsum n _) (fun i => rsum n (fun j => D i j) - (rsum n (fun j => E i j * (x i * x i) / 2) + rsum n (fun j => E i j * (x j * x j) / 2)))).
    2: { intros i Hi. rewrite rsum_minus, rsum_plus. reflexivity. }
    rewrite rsum_minus, rsum_plus, E1, E2, E3, <- rsum_plus, <- rsum_minus. right. apply rsum_ext. intros. field.
  - apply rsum_le. intros i Hi. apply rsum_le. intros j Hj. unfold D, E. destruct (Nat.eqb_spec i j); [subst; lra|].
    assert (B := term_bound (H i j) (x i) (x j)). lra.
Qed.

Lemma dominant_posdef n H : symmetric n H -> (forall i, (i < n)%nat -> dominant n H i) -> posdef n H.
Proof.
  intros Hs Hd x (i & Hi & Hx). eapply Rlt_le_trans; [|apply dominant_form; auto].
  assert (N : forall j, (j < n)%nat -> 0 <= (H j j - radius n H j) * (x j * x j)).
  { intros j Hj. specialize (Hd j Hj). unfold dominant in Hd. apply Rmult_le_pos; [lra|apply Rle_0_sqr]. }
  eapply Rlt_le_trans; [|apply (rsum_nonneg_term n (fun j => (H j j - radius n H j) * (x j * x j)) i); auto].
  specialize (Hd i Hi). unfold dominant in Hd. apply Rmult_lt_0_compat; [lra|]. assert (P := Rsqr_pos_lt _ Hx). exact P.
Qed.

(** ** the loop *)
Definition fixed (n : nat) (c : R) (H : mat R) (i : nat) : R := if Rle_dec (H i i) (radius n H i) then radius n H i + c else H i i.
Lemma col_sum n H i : (i < n)%nat -> rsum n (fun k => Rabs (H k i)) = radius n H i + Rabs (H i i).
Proof.
  intros Hi. unfold radius. rewrite <- (rsum_delta n i (fun k => Rabs (H k i))) by auto. rewrite <- rsum_plus.
  apply rsum_ext. intros k Hk. destruct (Nat.eqb_spec k i); subst; ring.
Qed.
Lemma gersh_loop_spec n c H k : (k <= n)%nat -> forall a b,
  gersh_loop n c k H a b = if Nat.eqb a b && Nat.ltb a k then fixed n c H a else H a b.
Proof.
  induction k as [|k IH]; intros Hk a b; cbn [gersh_loop].
  - rewrite andb_false_r. reflexivity.
  - specialize (IH ltac:(lia)). set (G := gersh_loop n c k H) in *.
    assert (Gkk : G k k = H k k) by (rewrite IH, Nat.ltb_irrefl, andb_false_r; reflexivity).
    assert (Gr : radius n G k = radius n H k).
    { unfold radius. apply rsum_ext. intros j Hj. destruct (Nat.eqb_spec j k) as [|N]; auto. rewrite IH. destruct (Nat.eqb_spec j k); [contradiction|]. reflexivity. }
    unfold gersh_row. change (@ssum R R_scalar) with rsum. change (@sabs R R_scalar) with Rabs.
    rewrite (col_sum n G k) by lia. rewrite Gkk, Gr. cbn [ssub sadd sleb s0 R_scalar].
    unfold Rleb. destruct (Rle_dec (H k k - (radius n H k + Rabs (H k k) - Rabs (H k k))) 0) as [C|C].
    + destruct (Nat.eqb_spec a k) as [->|Na]; [destruct (Nat.eqb_spec b k) as [->|Nb]|]; cbn [andb].
      * rewrite Nat.eqb_refl. destruct (Nat.ltb_spec k (S k)); [|lia]. cbn [andb]. unfold fixed.
        destruct (Rle_dec (H k k) (radius n H k)); [ring|lra].
      * rewrite IH. destruct (Nat.eqb_spec k b); [congruence|]. reflexivity.
      * rewrite IH. destruct (Nat.eqb_spec a b) as [->|]; cbn [andb]; auto.
        destruct (Nat.ltb_spec b k), (Nat.ltb_spec b (S k)); auto; lia.
    + rewrite IH. destruct (Nat.eqb_spec a b) as [->|]; cbn [andb]; auto.
      destruct (Nat.ltb_spec b k), (Nat.ltb_spec b (S k)); auto; try lia. assert (b = k) by lia. subst b. unfold fixed.
      destruct (Rle_dec (H k k) (radius n H k)); [lra|reflexivity].
Qed.

Section Gersh.
Variable n : nat.
Variable c : R.
Hypothesis Hc : 0 < c.
Variable H : mat R.
Notation G := (gershgorin n c H).
Lemma gersh_off a b : a <> b -> G a b = H a b.
Proof. intros N. unfold gershgorin. rewrite gersh_loop_spec by lia. destruct (Nat.eqb_spec a b); [contradiction|reflexivity]. Qed.
Lemma gersh_diag a : (a < n)%nat -> G a a = fixed n c H a.
Proof. intros Ha. unfold gershgorin. rewrite gersh_loop_spec by lia. rewrite Nat.eqb_refl. destruct (Nat.ltb_spec a n); [reflexivity|lia]. Qed.
Lemma gersh_radius a : radius n G a = radius n H a.
Proof. unfold radius. apply rsum_ext. intros k Hk. destruct (Nat.eqb_spec k a); auto. rewrite gersh_off; auto. Qed.
Lemma gersh_dominant a : (a < n)%nat -> dominant n G a.
Proof. intros Ha. unfold dominant. rewrite gersh_radius, gersh_diag by auto. unfold fixed. destruct (Rle_dec _ _); lra. Qed.
Lemma gersh_symmetric : symmetric n H -> symmetric n G.
Proof. intros Hs i j Hi Hj. destruct (Nat.eq_dec i j); [subst; reflexivity|]. rewrite !gersh_off; auto. Qed.
Lemma gersh_posdef : symmetric n H -> posdef n G.
Proof. intros Hs. apply dominant_posdef; [apply gersh_symmetric; auto|apply gersh_dominant]. Qed.
Lemma gersh_keep a : (a < n)%nat -> dominant n H a -> G a a = H a a.
Proof. intros Ha Hd. rewrite gersh_diag by auto. unfold fixed. unfold dominant in Hd. destruct (Rle_dec _ _); [lra|reflexivity]. Qed.
Lemma gersh_grow a : (a < n)%nat -> H a a <= G a a <= Rmax (H a a) (radius n H a + c).
Proof.
  intros Ha. rewrite gersh_diag by auto. unfold fixed. destruct (Rle_dec _ _).
  - split; [lra|]. apply Rmax_r.
  - split; [lra|apply Rmax_l].
Qed.
End Gersh.

(** ** mirrored eigenvalues *)
Lemma min_coeff_le n d : (0 < n)%nat -> (forall k, (k < n)%nat -> min_coeff n d <= d k) /\ exists k, (k < n)%nat /\ min_coeff n d = d k.
Proof.
  induction n as [|n IH]; intros Hn; [lia|]. destruct n as [|n].
  - split; [|exists O; split; [lia|reflexivity]]. intros k Hk. assert (k = O) by lia. subst. simpl. lra.
  - destruct (IH ltac:(lia)) as (A & k & Hk & B).
    assert (E : min_coeff (S (S n)) d = Rmin (min_coeff (S n) d) (d (S n))).
    { change (min_coeff (S (S n)) d) with (smin (min_coeff (S n) d) (d (S n))). unfold smin. simpl. unfold Rltb.
      destruct (Rlt_dec _ _); [rewrite Rmin_right|rewrite Rmin_left]; auto; lra. }
    rewrite E. split.
    + intros j Hj. destruct (Nat.eq_dec j (S n)) as [->|]; [apply Rmin_r|]. eapply Rle_trans; [apply Rmin_l|apply A; lia].
    + destruct (Rle_dec (min_coeff (S n) d) (d (S n))).
      * exists k. split; [lia|]. rewrite Rmin_left by auto. exact B.
      * exists (S n). split; [lia|]. rewrite Rmin_right; lra.
Qed.

Lemma form_decomposed n d V x H : decomposes n H d V -> qf n H x = rsum n (fun k => d k * (rsum n (fun i => V i k * x i) * rsum n (fun i => V i k * x i))).
Proof.
  intros HD. rewrite qf_double.
  rewrite (rsum_ext n _ (fun i => rsum n (fun k => (V i k * x i) * (d k * rsum n (fun j => V j k * x j))))).
  - rewrite rsum_swap. apply rsum_ext. intros k Hk. rewrite rsum_scal_r. ring.
  - intros i Hi. rewrite (rsum_ext n _ (fun j => rsum n (fun k => (V i k * x i * d k) * (V j k * x j)))).
    + rewrite rsum_swap. apply rsum_ext. intros k Hk. rewrite rsum_scal. ring.
    + intros j Hj. rewrite HD by auto. rewrite <- rsum_scal, <- rsum_scal_r. apply rsum_ext. intros; ring.
Qed.
Lemma spanning_regular n V x : spanning n V -> (forall k, (k < n)%nat -> rsum n (fun i => V i k * x i) = 0) -> forall i, (i < n)%nat -> x i = 0.
Proof.
  intros HV Hz. destruct (HV x) as [y Hy].
  assert (E : rsum n (fun i => x i * x i) = 0).
  { rewrite (rsum_ext n _ (fun i => rsum n (fun k => y k * (V i k * x i)))).
    - rewrite rsum_swap. apply rsum_zero. intros k Hk. rewrite rsum_scal, Hz by auto. ring.
    - intros i Hi. rewrite (Hy i Hi) at 1. rewrite <- rsum_scal_r. apply rsum_ext. intros; ring. }
  intros i Hi. assert (B := rsum_nonneg_term n (fun i => x i * x i) i (fun j _ => Rle_0_sqr (x j)) Hi). cbv beta in B. rewrite E in B.
  apply Rsqr_0_uniq. apply Rle_antisym; [exact B|apply Rle_0_sqr].
Qed.
Lemma decomposed_posdef n d V H : decomposes n H d V -> spanning n V -> (forall k, (k < n)%nat -> 0 < d k) -> posdef n H.
Proof.
  intros HD HV Hd x (i & Hi & Hx). rewrite (form_decomposed n d V x H HD). set (y := fun k => rsum n (fun i => V i k * x i)).
  assert (N : forall k, (k < n)%nat -> 0 <= d k * (y k * y k)).
  { intros k Hk. apply Rmult_le_pos; [left; auto|apply Rle_0_sqr]. }
  destruct (nonzero_dec n y) as [(k & Hk & Hy)|Hz].
  - eapply Rlt_le_trans; [|apply (rsum_nonneg_term n (fun k => d k * (y k * y k)) k); auto].
    apply Rmult_lt_0_compat; auto. exact (Rsqr_pos_lt _ Hy).
  - exfalso. apply Hx. apply (spanning_regular n V x); auto.
Qed.

Section Eigen.
Variables (n : nat) (H : mat R) (d : vec R) (V : mat R).
Hypothesis Hs : symmetric n H.
Hypothesis He : eigenpairs n H d V.
Lemma eigen_orthogonal k l : (k < n)%nat -> (l < n)%nat -> d k <> d l -> rsum n (fun i => V i k * V i l) = 0.
Proof.
  intros Hk Hl Hd.
  assert (E : d k * rsum n (fun i => V i k * V i l) = d l * rsum n (fun i => V i k * V i l)).
  { rewrite <- !rsum_scal.
    rewrite (rsum_ext n _ (fun i => rsum n (fun j => V i l * H i j * V j k))).
    2: { intros i Hi. rewrite <- Rmult_assoc, <- (He i k Hi Hk), <- rsum_scal_r. apply rsum_ext. intros; ring. }
    rewrite rsum_swap. apply rsum_ext. intros j Hj.
    replace (d l * (V j k * V j l)) with (V j k * (d l * V j l)) by ring.
    rewrite <- (He j l Hj Hl), <- rsum_scal. apply rsum_ext. intros i Hi. rewrite (Hs j i) by auto. ring. }
  destruct (Req_dec (rsum n (fun i => V i k * V i l)) 0) as [|N]; auto. exfalso. apply Hd. apply (Rmult_eq_reg_r _ _ _ E N).
Qed.
Lemma eigen_form m x y : (forall k, (k < n)%nat -> m <= d k) -> (forall i, (i < n)%nat -> x i = rsum n (fun k => V i k * y k)) ->
  m * rdot n x x <= qf n H x.
Proof.
  intros Hm Hy. set (z := fun i => rsum n (fun k => V i k * (sqrt (d k - m) * y k))).
  assert (G : forall (f : nat -> R) , rsum n (fun i => x i * rsum n (fun k => V i k * (f k * y k))) =
              rsum n (fun k => rsum n (fun l => (y k * y l) * (f l * rsum n (fun i => V i k * V i l))))).
  { intros f. rewrite (rsum_ext n _ (fun i => rsum n (fun k => rsum n (fun l => y k * y l * f l * (V i k * V i l))))).
    - rewrite rsum_swap. apply rsum_ext. intros k Hk. rewrite rsum_swap. apply rsum_ext. intros l Hl. rewrite rsum_scal. ring.
    - intros i Hi. rewrite (Hy i Hi), <- rsum_scal_r. apply rsum_ext. intros k Hk. rewrite <- rsum_scal. apply rsum_ext. intros; ring. }
  assert (Q : qf n H x - m * rdot n x x = rsum n (fun i => z i * z i)).
  { assert (E1 : qf n H x = rsum n (fun i => x i * rsum n (fun k => V i k * (d k * y k)))).
    { unfold qf. rewrite rdot_def. apply rsum_ext. intros i Hi. rewrite rmv_def. f_equal.
      rewrite (rsum_ext n _ (fun j => rsum n (fun k => H i j * V j k * y k))).
      - rewrite rsum_swap. apply rsum_ext. intros k Hk. rewrite rsum_scal_r, (He i k Hi Hk). ring.
      - intros j Hj. rewrite (Hy j Hj), <- rsum_scal. apply rsum_ext. intros; ring. }
    assert (E2 : rdot n x x = rsum n (fun i => x i * rsum n (fun k => V i k * (1 * y k)))).
    { rewrite rdot_def. apply rsum_ext. intros i Hi. f_equal. rewrite (Hy i Hi). apply rsum_ext. intros; ring. }
    rewrite E1, E2, (G d), (G (fun _ => 1)), <- rsum_scal, <- rsum_minus.
    rewrite (rsum_ext n (fun i => z i * z i) (fun i => rsum n (fun k => rsum n (fun l => (sqrt (d k - m) * y k) * (sqrt (d l - m) * y l) * (V i k * V i l))))).
    2: { intros i Hi. unfold z at 1. rewrite <- rsum_scal_r. apply rsum_ext. intros k Hk. unfold z. rewrite <- rsum_scal. apply rsum_ext. intros; ring. }
    rewrite rsum_swap. apply rsum_ext. intros k Hk. rewrite <- rsum_scal, <- rsum_minus, rsum_swap. apply rsum_ext. intros l Hl.
    rewrite rsum_scal. destruct (Req_dec (d k) (d l)) as [E|N].
    - rewrite E. assert (S := sqrt_sqrt (d l - m)). specialize (Hm l Hl). specialize (S ltac:(lra)).
      replace (sqrt (d l - m) * y k * (sqrt (d l - m) * y l)) with ((sqrt (d l - m) * sqrt (d l - m)) * (y k * y l)) by ring. rewrite S. ring.
    - rewrite (eigen_orthogonal k l Hk Hl N). ring. }
  assert (P : 0 <= rsum n (fun i => z i * z i)) by (apply rsum_nonneg; intros; apply Rle_0_sqr). lra.
Qed.
Lemma eigen_posdef : spanning n V -> (forall k, (k < n)%nat -> 0 < d k) -> posdef n H.
Proof.
  intros HV Hd x Hx. destruct (HV x) as [y Hy]. assert (Hn : (0 < n)%nat) by (destruct Hx as (i & Hi & _); lia).
  destruct (min_coeff_le n d Hn) as (A & k0 & Hk0 & B).
  eapply Rlt_le_trans; [|apply (eigen_form (min_coeff n d) x y A Hy)].
  rewrite B. apply Rmult_lt_0_compat; auto. rewrite rdot_def. destruct Hx as (i & Hi & Hx).
  eapply Rlt_le_trans; [|apply (rsum_nonneg_term n (fun i => x i * x i) i (fun j _ => Rle_0_sqr (x j)) Hi)]. exact (Rsqr_pos_lt _ Hx).
Qed.
End Eigen.

Lemma mirrored_R d k : mirrored d k = if Rle_dec (d k) 0 then - d k + / 10 else d k.
Proof. unfold mirrored, scst. simpl. unfold Rleb. destruct (Rle_dec _ _); [lra|reflexivity]. Qed.
Section Mirror.
Variables (eig : mat R -> vec R * mat R) (n : nat) (H : mat R).
Hypothesis Hn : (0 < n)%nat.
Notation d := (fst (eig H)).
Notation V := (snd (eig H)).
Notation M := (mirror eig n H).
Lemma flipped_pos e k : 0 < flipped e k.
Proof. unfold flipped. destruct (Rle_dec _ _); lra. Qed.
Lemma mirror_keep : (forall k, (k < n)%nat -> 0 < d k) -> M = H.
Proof.
  unfold mirror. destruct (eig H) as [e W]. cbn [fst snd]. intros Hp. destruct (min_coeff_le n e Hn) as (A & k0 & Hk0 & B).
  cbn [sleb s0 R_scalar]. unfold Rleb. destruct (Rle_dec (min_coeff n e) 0) as [C|C]; auto. specialize (Hp k0 Hk0). lra.
Qed.
Lemma mirror_flip : (exists k, (k < n)%nat /\ d k <= 0) -> decomposes n M (flipped d) V.
Proof.
  unfold mirror. destruct (eig H) as [e W]. cbn [fst snd]. intros (k & Hk & Hp). destruct (min_coeff_le n e Hn) as (A & _).
  specialize (A k Hk). cbn [sleb s0 R_scalar]. unfold Rleb. destruct (Rle_dec (min_coeff n e) 0) as [C|C]; [|lra].
  intros i j Hi Hj. apply rsum_ext. intros l Hl. rewrite mirrored_R. reflexivity.
Qed.
Lemma flip_cases : (forall k, (k < n)%nat -> 0 < d k) \/ (exists k, (k < n)%nat /\ d k <= 0).
Proof.
  destruct (min_coeff_le n d Hn) as (A & k & Hk & B). destruct (Rle_dec (d k) 0); [right; eauto|left].
  intros j Hj. specialize (A j Hj). lra.
Qed.
Lemma mirror_posdef : symmetric n H -> eigenpairs n H d V -> spanning n V -> posdef n M.
Proof.
  intros Hs He HV. destruct flip_cases as [C|C].
  - rewrite (mirror_keep C). apply (eigen_posdef n H d V); auto.
  - apply (decomposed_posdef n (flipped d) V); auto using mirror_flip. intros; apply flipped_pos.
Qed.
Lemma mirror_symmetric : symmetric n H -> symmetric n M.
Proof.
  intros Hs. destruct flip_cases as [C|C]; [rewrite (mirror_keep C); auto|].
  intros i j Hi Hj. rewrite !(mirror_flip C) by auto. apply rsum_ext. intros; ring.
Qed.
(** with orthonormal eigenvectors the result has the same eigenvectors and the flipped eigenvalues *)
Lemma mirror_eigenpairs : eigenpairs n H d V -> orthonormal n V -> eigenpairs n M (flipped d) V.
Proof.
  intros He Ho. destruct flip_cases as [C|C].
  - rewrite (mirror_keep C). intros i k Hi Hk. rewrite He by auto. unfold flipped. destruct (Rle_dec _ _); [|reflexivity].
    specialize (C k Hk). lra.
  - intros i k Hi Hk. rewrite (rsum_ext n _ (fun j => rsum n (fun l => V i l * flipped d l * (V j l * V j k)))).
    + rewrite rsum_swap. rewrite (rsum_ext n _ (fun l => if Nat.eqb l k then (fun l => V i l * flipped d l) l else 0)).
      * rewrite rsum_delta by auto. ring.
      * intros l Hl. rewrite rsum_scal, (Ho l k Hl Hk). destruct (Nat.eqb l k); ring.
    + intros j Hj. rewrite (mirror_flip C i j Hi Hj), <- rsum_scal_r. apply rsum_ext. intros; ring.
Qed.
End Mirror.
