(** Finite sums, dot products, norms and quadratic forms over the reals. *)
Require Import ZArith List Bool Lia Reals Lra.
From Verif Require Import Scal.
Local Open Scope R_scope.

(** normalise the scalar operations of the real instance *)
Ltac rsimp := cbn [s0 s1 sadd ssub smul sdiv sopp sabs ssqrt sofZ sleb sltb R_scalar] in *.

Notation rsum := (@ssum R R_scalar).

Lemma rsum_S : forall n f, rsum (S n) f = rsum n f + f n.
Proof. reflexivity. Qed.
Lemma rsum_0 : forall f, rsum 0 f = 0.
Proof. reflexivity. Qed.

Lemma rsum_ext : forall n f g, (forall i, (i < n)%nat -> f i = g i) -> rsum n f = rsum n g.
Proof. intros; apply ssum_ext; auto. Qed.

Lemma rsum_plus : forall n f g, rsum n (fun i => f i + g i) = rsum n f + rsum n g.
Proof. induction n; intros; [rewrite !rsum_0; lra|rewrite !rsum_S, IHn; lra]. Qed.
Lemma rsum_minus : forall n f g, rsum n (fun i => f i - g i) = rsum n f - rsum n g.
Proof. induction n; intros; [rewrite !rsum_0; lra|rewrite !rsum_S, IHn; lra]. Qed.
Lemma rsum_opp : forall n f, rsum n (fun i => - f i) = - rsum n f.
Proof. induction n; intros; [rewrite !rsum_0; lra|rewrite !rsum_S, IHn; lra]. Qed.
Lemma rsum_scal : forall n c f, rsum n (fun i => c * f i) = c * rsum n f.
Proof. induction n; intros; [rewrite !rsum_0; lra|rewrite !rsum_S, IHn; lra]. Qed.
Lemma rsum_scal_r : forall n c f, rsum n (fun i => f i * c) = rsum n f * c.
Proof. induction n; intros; [rewrite !rsum_0; lra|rewrite !rsum_S, IHn; lra]. Qed.
Lemma rsum_zero : forall n f, (forall i, (i < n)%nat -> f i = 0) -> rsum n f = 0.
Proof. induction n; intros; [reflexivity|rewrite rsum_S, IHn, H; auto; lra]. Qed.
Lemma rsum_const : forall n c, rsum n (fun _ => c) = INR n * c.
Proof. induction n; intros; [rewrite rsum_0; simpl; lra|rewrite rsum_S, IHn, S_INR; lra]. Qed.

Lemma rsum_le : forall n f g, (forall i, (i < n)%nat -> f i <= g i) -> rsum n f <= rsum n g.
Proof.
  induction n; intros; [rewrite !rsum_0; lra|rewrite !rsum_S].
  assert (rsum n f <= rsum n g) by (apply IHn; auto). specialize (H n (Nat.lt_succ_diag_r n)); lra.
Qed.
Lemma rsum_nonneg : forall n f, (forall i, (i < n)%nat -> 0 <= f i) -> 0 <= rsum n f.
Proof.
  intros. apply Rle_trans with (rsum n (fun _ => 0)); [|apply rsum_le; auto].
  rewrite rsum_zero; auto; lra.
Qed.
Lemma rsum_abs : forall n f, Rabs (rsum n f) <= rsum n (fun i => Rabs (f i)).
Proof.
  induction n; intros; [rewrite !rsum_0, Rabs_R0; lra|rewrite !rsum_S].
  eapply Rle_trans; [apply Rabs_triang|]. specialize (IHn f); lra.
Qed.
Lemma rsum_nonneg_term : forall n f i, (forall j, (j < n)%nat -> 0 <= f j) -> (i < n)%nat -> f i <= rsum n f.
Proof.
  induction n; intros f i H Hi; [lia|]. rewrite rsum_S.
  destruct (Nat.eq_dec i n) as [->|Hne].
  - assert (0 <= rsum n f) by (apply rsum_nonneg; auto). lra.
  - assert (f i <= rsum n f) by (apply IHn; auto; lia). assert (0 <= f n) by (apply H; lia). lra.
Qed.
Lemma rsum_nonneg_zero : forall n f, (forall j, (j < n)%nat -> 0 <= f j) -> rsum n f = 0 ->
  forall i, (i < n)%nat -> f i = 0.
Proof.
  intros. assert (f i <= rsum n f) by (apply rsum_nonneg_term; auto). specialize (H i H1). lra.
Qed.

Lemma rsum_swap : forall m n (f : nat -> nat -> R),
  rsum m (fun i => rsum n (fun j => f i j)) = rsum n (fun j => rsum m (fun i => f i j)).
Proof.
  induction m; intros.
  - rewrite rsum_0, rsum_zero; auto.
  - rewrite rsum_S, IHm, <- rsum_plus. apply rsum_ext. intros. rewrite rsum_S. reflexivity.
Qed.

Lemma rsum_delta : forall n k f, (k < n)%nat ->
  rsum n (fun i => if Nat.eqb i k then f i else 0) = f k.
Proof.
  induction n; intros; [lia|]. rewrite rsum_S.
  destruct (Nat.eq_dec k n) as [->|Hne].
  - rewrite Nat.eqb_refl, rsum_zero; [lra|]. intros. destruct (Nat.eqb_spec i n); auto; lia.
  - rewrite IHn by lia. destruct (Nat.eqb_spec n k); [lia|lra].
Qed.
Lemma rsum_delta_out : forall n k f, (n <= k)%nat ->
  rsum n (fun i => if Nat.eqb i k then f i else 0) = 0.
Proof. intros. apply rsum_zero. intros. destruct (Nat.eqb_spec i k); auto; lia. Qed.

Lemma rsum_split : forall a b f, rsum (a + b) f = rsum a f + rsum b (fun i => f (a + i)%nat).
Proof.
  induction b; intros.
  - rewrite Nat.add_0_r, rsum_0; lra.
  - rewrite Nat.add_succ_r, !rsum_S, IHb. lra.
Qed.
Lemma rsum_first : forall n f, rsum (S n) f = f O + rsum n (fun i => f (S i)).
Proof. intros. change (S n) with (1 + n)%nat. rewrite rsum_split, rsum_S, rsum_0. simpl. lra. Qed.

Lemma rsum_rev : forall n f, rsum n f = rsum n (fun i => f (n - 1 - i)%nat).
Proof.
  induction n; intros; [reflexivity|].
  rewrite rsum_S, rsum_first. rewrite (IHn f).
  replace (S n - 1 - 0)%nat with n by lia. rewrite Rplus_comm. f_equal.
  apply rsum_ext. intros. f_equal. lia.
Qed.

(** isolate one term *)
Lemma rsum_isolate : forall n k f, (k < n)%nat ->
  rsum n f = f k + rsum n (fun i => if Nat.eqb i k then 0 else f i).
Proof.
  intros n k f Hk.
  rewrite <- (rsum_delta n k f Hk) at 1. rewrite <- rsum_plus.
  apply rsum_ext; intros. destruct (Nat.eqb_spec i k); lra.
Qed.

(** ** dot products *)
Notation rdot := (@dot R R_scalar).
Notation rmv := (@mv R R_scalar).

Lemma rdot_def : forall n u v, rdot n u v = rsum n (fun i => u i * v i).
Proof. reflexivity. Qed.
Lemma rdot_comm : forall n u v, rdot n u v = rdot n v u.
Proof. intros; rewrite !rdot_def; apply rsum_ext; intros; ring. Qed.
Lemma rdot_plus_l : forall n u v w, rdot n (fun i => u i + v i) w = rdot n u w + rdot n v w.
Proof. intros; rewrite !rdot_def, <- rsum_plus; apply rsum_ext; intros; ring. Qed.
Lemma rdot_minus_l : forall n u v w, rdot n (fun i => u i - v i) w = rdot n u w - rdot n v w.
Proof. intros; rewrite !rdot_def, <- rsum_minus; apply rsum_ext; intros; ring. Qed.
Lemma rdot_plus_r : forall n u v w, rdot n w (fun i => u i + v i) = rdot n w u + rdot n w v.
Proof. intros; rewrite !rdot_def, <- rsum_plus; apply rsum_ext; intros; ring. Qed.
Lemma rdot_minus_r : forall n u v w, rdot n w (fun i => u i - v i) = rdot n w u - rdot n w v.
Proof. intros; rewrite !rdot_def, <- rsum_minus; apply rsum_ext; intros; ring. Qed.
Lemma rdot_scal_l : forall n c u w, rdot n (fun i => c * u i) w = c * rdot n u w.
Proof. intros; rewrite !rdot_def, <- rsum_scal; apply rsum_ext; intros; ring. Qed.
Lemma rdot_scal_r : forall n c u w, rdot n w (fun i => c * u i) = c * rdot n w u.
Proof. intros; rewrite !rdot_def, <- rsum_scal; apply rsum_ext; intros; ring. Qed.
Lemma rdot_opp_l : forall n u w, rdot n (fun i => - u i) w = - rdot n u w.
Proof. intros; rewrite !rdot_def, <- rsum_opp; apply rsum_ext; intros; ring. Qed.
Lemma rdot_ext : forall n u v u' v', (forall i, (i < n)%nat -> u i = u' i) ->
  (forall i, (i < n)%nat -> v i = v' i) -> rdot n u v = rdot n u' v'.
Proof. intros; apply dot_ext; auto. Qed.
Lemma rdot_self_nonneg : forall n u, 0 <= rdot n u u.
Proof. intros. rewrite rdot_def. apply rsum_nonneg. intros. apply Rle_0_sqr. Qed.
Lemma rdot_self_zero : forall n u, rdot n u u = 0 -> forall i, (i < n)%nat -> u i = 0.
Proof.
  intros n u H i Hi. rewrite rdot_def in H.
  assert (u i * u i = 0).
  { apply (rsum_nonneg_zero n (fun i => u i * u i)); auto. intros. apply Rle_0_sqr. }
  apply Rsqr_0_uniq. exact H0.
Qed.

Lemma rmv_def : forall n A x i, rmv n A x i = rsum n (fun j => A i j * x j).
Proof. reflexivity. Qed.
Lemma rmv_plus : forall n A x y i, rmv n A (fun j => x j + y j) i = rmv n A x i + rmv n A y i.
Proof. intros. unfold mv. apply rdot_plus_r. Qed.
Lemma rmv_minus : forall n A x y i, rmv n A (fun j => x j - y j) i = rmv n A x i - rmv n A y i.
Proof. intros. unfold mv. apply rdot_minus_r. Qed.
Lemma rmv_scal : forall n A c x i, rmv n A (fun j => c * x j) i = c * rmv n A x i.
Proof. intros. unfold mv. apply rdot_scal_r. Qed.
Lemma rmv_ext : forall n A A' x x' i, (forall j, (j < n)%nat -> A i j = A' i j) ->
  (forall j, (j < n)%nat -> x j = x' j) -> rmv n A x i = rmv n A' x' i.
Proof. intros. unfold mv. apply rdot_ext; auto. Qed.

(** adjoint identity: u'(A x) = (A' u)'x, A is m x n *)
Lemma rdot_mv_adj : forall m n A u x,
  rdot m u (rmv n A x) = rdot n (rmv m (mtr A) u) x.
Proof.
  intros. unfold mv, mtr. rewrite !rdot_def.
  transitivity (rsum m (fun i => rsum n (fun j => u i * A i j * x j))).
  - apply rsum_ext; intros. rewrite rdot_def, <- rsum_scal. apply rsum_ext; intros; ring.
  - rewrite rsum_swap. apply rsum_ext; intros. rewrite rdot_def, <- rsum_scal_r.
    apply rsum_ext; intros; ring.
Qed.

(** ** quadratic forms *)
Definition symmetric (n : nat) (A : mat R) : Prop :=
  forall i j, (i < n)%nat -> (j < n)%nat -> A i j = A j i.
Definition qf (n : nat) (A : mat R) (x : vec R) : R := rdot n x (rmv n A x).
Definition bf (n : nat) (A : mat R) (x y : vec R) : R := rdot n x (rmv n A y).
Definition psd (n : nat) (A : mat R) : Prop := forall x, 0 <= qf n A x.
Definition nonzero_vec (n : nat) (x : vec R) : Prop := exists i, (i < n)%nat /\ x i <> 0.
Definition posdef (n : nat) (A : mat R) : Prop := forall x, nonzero_vec n x -> 0 < qf n A x.

Lemma bf_sym : forall n A x y, symmetric n A -> bf n A x y = bf n A y x.
Proof.
  intros. unfold bf. rewrite rdot_mv_adj, rdot_comm. apply rdot_ext; auto.
  intros. apply rmv_ext; auto. intros. unfold mtr. auto.
Qed.

Lemma qf_zero_vec : forall n A x, (forall i, (i < n)%nat -> x i = 0) -> qf n A x = 0.
Proof.
  intros. unfold qf. rewrite rdot_def. apply rsum_zero. intros. rewrite H; auto. ring.
Qed.

Lemma nonzero_dec : forall n x, nonzero_vec n x \/ (forall i, (i < n)%nat -> x i = 0).
Proof.
  induction n; intros x.
  - right. intros; lia.
  - destruct (Req_dec (x n) 0) as [E|E].
    + destruct (IHn x) as [[i [Hi Hx]]|H].
      * left. exists i. split; auto; lia.
      * right. intros. destruct (Nat.eq_dec i n); subst; auto. apply H; lia.
    + left. exists n. split; auto; lia.
Qed.

Lemma posdef_psd : forall n A, posdef n A -> psd n A.
Proof.
  intros n A H x. destruct (nonzero_dec n x) as [Hx|Hx].
  - left. apply H; auto.
  - right. symmetry. apply qf_zero_vec; auto.
Qed.

Lemma qf_plus_scal : forall n A x y t, symmetric n A ->
  qf n A (fun i => x i + t * y i) = qf n A x + 2 * t * bf n A x y + t * t * qf n A y.
Proof.
  intros n A x y t HA. unfold qf.
  assert (E : forall i, rmv n A (fun i => x i + t * y i) i = rmv n A x i + t * rmv n A y i).
  { intros. rewrite rmv_plus, rmv_scal. reflexivity. }
  rewrite (rdot_ext n _ (rmv n A (fun i => x i + t * y i)) (fun i => x i + t * y i)
             (fun i => rmv n A x i + t * rmv n A y i)); auto.
  rewrite rdot_plus_l, !rdot_plus_r, !rdot_scal_r, !rdot_scal_l.
  change (rdot n x (rmv n A y)) with (bf n A x y).
  change (rdot n y (rmv n A x)) with (bf n A y x).
  rewrite (bf_sym n A y x HA). ring.
Qed.

(** Cauchy-Schwarz for a positive semidefinite form *)
Lemma cauchy_schwarz : forall n A x y, symmetric n A -> psd n A ->
  bf n A x y * bf n A x y <= qf n A x * qf n A y.
Proof.
  intros n A x y HA HP.
  assert (Hpoly : forall t, 0 <= qf n A x + 2 * t * bf n A x y + t * t * qf n A y).
  { intros t. rewrite <- qf_plus_scal by auto. apply HP. }
  assert (Hy : 0 <= qf n A y) by apply HP.
  assert (Hx : 0 <= qf n A x) by apply HP.
  destruct (Req_dec (qf n A y) 0) as [E|E].
  - rewrite E in *. assert (bf n A x y = 0).
    { destruct (Req_dec (bf n A x y) 0) as [|Nz]; auto. exfalso.
      specialize (Hpoly (- (qf n A x + 1) / (2 * bf n A x y))).
      replace (2 * (- (qf n A x + 1) / (2 * bf n A x y)) * bf n A x y) with (- (qf n A x + 1)) in Hpoly
        by (field; auto). lra. }
    rewrite H. lra.
  - assert (Hpos : 0 < qf n A y) by lra.
    specialize (Hpoly (- bf n A x y / qf n A y)).
    apply (Rmult_le_compat_r (qf n A y)) in Hpoly; [|lra].
    replace ((qf n A x + 2 * (- bf n A x y / qf n A y) * bf n A x y +
             - bf n A x y / qf n A y * (- bf n A x y / qf n A y) * qf n A y) * qf n A y)
      with (qf n A x * qf n A y - bf n A x y * bf n A x y) in Hpoly by (field; auto).
    lra.
Qed.

(** ** norms *)
Notation rnorminf := (@norminf R R_scalar).
Notation rnorm1 := (@norm1 R R_scalar).

Lemma rnorminf_S : forall n f, rnorminf (S n) f = Rmax (rnorminf n f) (Rabs (f n)).
Proof. intros. simpl. rewrite smax_R. reflexivity. Qed.
Lemma rnorminf_nonneg : forall n f, 0 <= rnorminf n f.
Proof.
  induction n; intros; [simpl; lra|rewrite rnorminf_S].
  eapply Rle_trans; [apply (IHn f)|apply Rmax_l].
Qed.
Lemma rnorminf_ub : forall n f i, (i < n)%nat -> Rabs (f i) <= rnorminf n f.
Proof.
  induction n; intros; [lia|rewrite rnorminf_S].
  destruct (Nat.eq_dec i n) as [->|]; [apply Rmax_r|].
  eapply Rle_trans; [apply IHn; lia|apply Rmax_l].
Qed.
Lemma rnorminf_le : forall n f c, 0 <= c -> (forall i, (i < n)%nat -> Rabs (f i) <= c) -> rnorminf n f <= c.
Proof.
  induction n; intros; [simpl; lra|rewrite rnorminf_S].
  apply Rmax_lub; [apply IHn; auto|apply H0; lia].
Qed.
Lemma rnorminf_le_iff : forall n f c, 0 <= c ->
  (rnorminf n f <= c <-> forall i, (i < n)%nat -> Rabs (f i) <= c).
Proof.
  intros; split; intros.
  - eapply Rle_trans; [apply rnorminf_ub; eassumption|auto].
  - apply rnorminf_le; auto.
Qed.
Lemma rnorm1_def : forall n f, rnorm1 n f = rsum n (fun i => Rabs (f i)).
Proof. reflexivity. Qed.
Lemma rnorm1_nonneg : forall n f, 0 <= rnorm1 n f.
Proof. intros. rewrite rnorm1_def. apply rsum_nonneg. intros; apply Rabs_pos. Qed.

(** Hoelder *)
Lemma rdot_holder : forall n u v, Rabs (rdot n u v) <= rnorminf n u * rnorm1 n v.
Proof.
  intros. rewrite rdot_def, rnorm1_def. eapply Rle_trans; [apply rsum_abs|].
  rewrite <- rsum_scal. apply rsum_le. intros. rewrite Rabs_mult.
  apply Rmult_le_compat_r; [apply Rabs_pos|apply rnorminf_ub; auto].
Qed.

(** concatenation of vectors: first [m] entries from [u], then [v] *)
Definition vcat {A : Type} (m : nat) (u v : nat -> A) : nat -> A :=
  fun i => if Nat.ltb i m then u i else v (i - m)%nat.
Lemma vcat_l : forall A m (u v : nat -> A) i, (i < m)%nat -> vcat m u v i = u i.
Proof. intros. unfold vcat. rewrite (proj2 (Nat.ltb_lt i m)); auto. Qed.
Lemma vcat_r : forall A m (u v : nat -> A) i, vcat m u v (m + i)%nat = v i.
Proof. intros. unfold vcat. destruct (Nat.ltb_spec (m+i) m); [lia|]. f_equal; lia. Qed.

(** expand sums of a concrete length *)
Ltac rexpand := repeat (progress (rewrite ?rdot_def, ?rmv_def, ?rsum_S, ?rsum_0; cbv beta)).
