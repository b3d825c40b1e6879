(** Proofs about QpDist_Spec.v. *)
Require Import Reals Lra Lia List.
From Verif Require Import Scal RSum RNorm Qp_Model Qp_Spec Qp_Proofs QpDist_Spec.
Local Open Scope R_scope.

Lemma mono_err : forall lb ub a z y z' y' ep, in_bounds lb ub z -> in_bounds lb ub z' -> sign_ok lb ub z y -> sign_ok lb ub z' y' ->
  Rabs (a - z) <= ep -> - (ep * Rabs (y - y')) <= (y - y') * (a - z').
Proof.
  intros lb ub a z y z' y' ep B B' S S' H. pose proof (sign_monotone lb ub z y z' y' B B' S S') as M.
  replace ((y - y') * (a - z')) with ((y - y') * (a - z) + (y - y') * (z - z')) by ring.
  assert (K : Rabs ((y - y') * (a - z)) <= ep * Rabs (y - y')) by (rewrite Rabs_mult, Rmult_comm; apply Rmult_le_compat_r; [apply Rabs_pos|exact H]).
  generalize (Rle_abs (- ((y - y') * (a - z)))). rewrite Rabs_Ropp. lra.
Qed.

Lemma cert_dist : forall p x y za zx ep ed xs ys, certificate p x y za zx ep ep ed -> kkt_pair p xs ys ->
  qf (qn p) (qH p) (fun j => x j - xs j) <= slackness (qn p) (qm p + qn p) ep ed x y xs ys.
Proof.
  intros p x y za zx ep ed xs ys (Ca & Cx & Cd) (K & [F F'] & S & B). set (v := fun j => x j - xs j).
  assert (Z1 : rdot (qn p) (lag_grad p x y) v <= ed * rnorm1 (qn p) v).
  { rewrite rnorm1_def, <- rsum_scal, rdot_def. apply rsum_le. intros j Hj. specialize (Cd j Hj).
    eapply Rle_trans; [apply Rle_abs|]. rewrite Rabs_mult. apply Rmult_le_compat_r; auto. apply Rabs_pos. }
  assert (Z2 : rdot (qn p) (lag_grad p xs ys) v = 0) by (rewrite rdot_def; apply rsum_zero; intros; rewrite K by auto; ring).
  rewrite lag_grad_dot in Z1, Z2.
  assert (Q : rdot (qn p) (rmv (qn p) (qH p) x) v - rdot (qn p) (rmv (qn p) (qH p) xs) v = qf (qn p) (qH p) v).
  { rewrite <- rdot_minus_l. unfold qf. rewrite rdot_comm. apply rdot_ext; auto. intros j Hj. unfold v. rewrite rmv_minus. reflexivity. }
  assert (M1 : - (ep * rsum (qm p) (fun i => Rabs (y i - ys i))) <= rdot (qm p) y (rmv (qn p) (qA p) v) - rdot (qm p) ys (rmv (qn p) (qA p) v)).
  { rewrite <- rdot_minus_l, rdot_def, <- rsum_scal, <- rsum_opp. apply rsum_le. intros i Hi. unfold v. rewrite rmv_minus.
    destruct (Ca i Hi) as (A1 & A2 & A3). eapply mono_err; eauto. }
  assert (M2 : - (ep * rsum (qn p) (fun j => Rabs (y (qm p + j)%nat - ys (qm p + j)%nat))) <=
               rdot (qn p) (fun j => y (qm p + j)%nat) v - rdot (qn p) (fun j => ys (qm p + j)%nat) v).
  { rewrite <- rdot_minus_l, rdot_def, <- rsum_scal, <- rsum_opp. apply rsum_le. intros j Hj. unfold v.
    destruct (Cx j Hj) as (A1 & A2 & A3). eapply mono_err; eauto. }
  unfold slackness. fold v. rewrite (rnorm1_def (qm p + qn p)), rsum_split. lra.
Qed.

Lemma obj_expand : forall p x xs, symmetric (qn p) (qH p) ->
  qp_obj p x = qp_obj p xs + rdot (qn p) (fun j => rmv (qn p) (qH p) xs j + qh p j) (fun j => x j - xs j) + / 2 * qf (qn p) (qH p) (fun j => x j - xs j).
Proof.
  intros p x xs Hs. set (v := fun j => x j - xs j). unfold qp_obj.
  assert (E : forall j, (j < qn p)%nat -> x j = xs j + v j) by (intros; unfold v; ring).
  assert (Sy : rdot (qn p) xs (rmv (qn p) (qH p) v) = rdot (qn p) v (rmv (qn p) (qH p) xs)) by (exact (bf_sym (qn p) (qH p) xs v Hs)).
  assert (X : qf (qn p) (qH p) x = qf (qn p) (qH p) xs + 2 * rdot (qn p) v (rmv (qn p) (qH p) xs) + qf (qn p) (qH p) v).
  { unfold qf. rewrite (rdot_ext (qn p) x (rmv (qn p) (qH p) x) (fun j => xs j + v j) (fun i => rmv (qn p) (qH p) xs i + rmv (qn p) (qH p) v i)).
    - rewrite rdot_plus_l, !rdot_plus_r. rewrite Sy. ring.
    - exact E.
    - intros i Hi. rewrite <- rmv_plus. apply rmv_ext; auto. }
  rewrite X, (rdot_ext (qn p) (qh p) x (qh p) (fun j => xs j + v j)) by auto. rewrite rdot_plus_r, rdot_plus_l.
  rewrite (rdot_comm (qn p) (rmv (qn p) (qH p) xs) v). field.
Qed.

Lemma cert_value : forall p x y za zx ep ed xs ys, symmetric (qn p) (qH p) -> psd (qn p) (qH p) ->
  certificate p x y za zx ep ep ed -> kkt_pair p xs ys ->
  qp_obj p xs - ep * rnorm1 (qm p + qn p) ys <= qp_obj p x.
Proof.
  intros p x y za zx ep ed xs ys Hs Hp (Ca & Cx & Cd) (K & [F F'] & S & B). set (v := fun j => x j - xs j).
  rewrite (obj_expand p x xs Hs). fold v. pose proof (Hp v) as Hq.
  assert (Z2 : rdot (qn p) (lag_grad p xs ys) v = 0) by (rewrite rdot_def; apply rsum_zero; intros; rewrite K by auto; ring).
  rewrite lag_grad_dot in Z2. rewrite rdot_plus_l.
  assert (G : forall lb ub a z z' y', in_bounds lb ub z -> sign_ok lb ub z' y' -> Rabs (a - z) <= ep -> y' * (a - z') <= ep * Rabs y').
  { intros lb ub a z z' y' Bz Sz H. pose proof (sign_normal lb ub z' y' z Sz Bz) as M.
    assert (E : Rabs (y' * (a - z)) <= ep * Rabs y') by (rewrite Rabs_mult, Rmult_comm; apply Rmult_le_compat_r; [apply Rabs_pos|exact H]).
    pose proof (Rle_abs (y' * (a - z))). lra. }
  assert (M1 : rdot (qm p) ys (rmv (qn p) (qA p) v) <= ep * rsum (qm p) (fun i => Rabs (ys i))).
  { rewrite rdot_def, <- rsum_scal. apply rsum_le. intros i Hi. unfold v. rewrite rmv_minus. destruct (Ca i Hi) as (A1 & A2 & A3). eapply G; eauto. }
  assert (M2 : rdot (qn p) (fun j => ys (qm p + j)%nat) v <= ep * rsum (qn p) (fun j => Rabs (ys (qm p + j)%nat))).
  { rewrite rdot_def, <- rsum_scal. apply rsum_le. intros j Hj. unfold v. destruct (Cx j Hj) as (A1 & A2 & A3). eapply G; eauto. }
  rewrite (rnorm1_def (qm p + qn p)), rsum_split. lra.
Qed.

Lemma norm1_sq : forall n v, rnorm1 n v * rnorm1 n v <= INR n * rdot n v v.
Proof.
  intros n v. rewrite rnorm1_def. set (w := fun j => Rabs (v j)). assert (E : rsum n w = rdot n (fun _ => 1) w) by (rewrite rdot_def; apply rsum_ext; intros; ring).
  pose proof (rdot_norms n (fun _ => 1) w) as C. rewrite <- E in C.
  assert (P0 : 0 <= rsum n w) by (apply rsum_nonneg; intros; apply Rabs_pos).
  assert (E1 : rdot n (fun _ => 1) (fun _ => 1) = INR n) by (rewrite rdot_def; rewrite (rsum_ext n _ (fun _ => 1)) by (intros; ring); rewrite rsum_const; ring).
  assert (E2 : rdot n w w = rdot n v v) by (rewrite !rdot_def; apply rsum_ext; intros; unfold w; rewrite <- Rabs_mult, Rabs_pos_eq; [ring|apply Rle_0_sqr]).
  rewrite <- E1, <- E2, <- !enorm_sq. pose proof (enorm_nonneg n (fun _ => 1)). pose proof (enorm_nonneg n w).
  assert (rsum n w * rsum n w <= (enorm n (fun _ => 1) * enorm n w) * (enorm n (fun _ => 1) * enorm n w)) by (apply Rmult_le_compat; assumption).
  lra.
Qed.

Lemma quad_bound : forall t a b, 0 <= t -> 0 <= a -> 0 <= b -> t * t <= a * t + b -> t <= a + sqrt b.
Proof.
  intros t a b Ht Ha Hb H. destruct (Rle_or_lt t (a + sqrt b)) as [|L]; [assumption|exfalso].
  pose proof (sqrt_pos b) as S. pose proof (sqrt_sqrt b Hb) as Q.
  assert (t * (t - a) <= b) by lra. assert (sqrt b < t - a) by lra. assert (sqrt b <= t) by lra.
  assert (sqrt b * sqrt b < t * (t - a)).
  { destruct (Req_dec t 0) as [E|E]; [lra|]. apply Rle_lt_trans with (t * sqrt b); [apply Rmult_le_compat_r; lra|apply Rmult_lt_compat_l; lra]. }
  lra.
Qed.

Lemma strong_bound : forall n H mu ep ed v Y, curvature n H mu -> 0 < mu -> 0 <= ed -> 0 <= ep -> 0 <= Y ->
  qf n H v <= ed * rnorm1 n v + ep * Y -> rnorm1 n v <= INR n * ed / mu + sqrt (INR n * ep * Y / mu).
Proof.
  intros n H mu ep ed v Y C Hmu Hed Hep HY Hq. assert (Hn : 0 <= INR n) by apply pos_INR. assert (Hi : 0 < / mu) by (apply Rinv_0_lt_compat; exact Hmu).
  apply quad_bound.
  - rewrite rnorm1_def. apply rsum_nonneg. intros. apply Rabs_pos.
  - unfold Rdiv. apply Rmult_le_pos; [apply Rmult_le_pos|lra]; assumption.
  - unfold Rdiv. apply Rmult_le_pos; [apply Rmult_le_pos; [apply Rmult_le_pos|]|lra]; assumption.
  - eapply Rle_trans; [apply norm1_sq|]. pose proof (C v) as Cv.
    assert (D : rdot n v v <= (ed * rnorm1 n v + ep * Y) / mu) by (apply (Rmult_le_reg_l mu); [exact Hmu|]; replace (mu * ((ed * rnorm1 n v + ep * Y) / mu)) with (ed * rnorm1 n v + ep * Y) by (field; lra); lra).
    apply (Rmult_le_compat_l (INR n)) in D; [|exact Hn]. eapply Rle_trans; [exact D|]. right. field. lra.
Qed.

Lemma close_cert : forall p x y za zx ep ed xs ys, symmetric (qn p) (qH p) -> psd (qn p) (qH p) -> 0 <= ep -> 0 <= ed ->
  certificate p x y za zx ep ep ed -> kkt_pair p xs ys -> close_to_optimum p x y xs ys ep ed.
Proof.
  intros p x y za zx ep ed xs ys Hs Hp Hep Hed HC HK. pose proof (cert_dist p x y za zx ep ed xs ys HC HK) as D.
  split; [exact D|]. split; [split|].
  - eapply cert_value; eassumption.
  - destruct HC as (Ha & Hx & Hd). apply approx_kkt_optimal with (za := za) (zx := zx); auto; intros; try (apply Ha; assumption); try (apply Hx; assumption). apply HK.
  - intros mu Hmu HM j Hj. set (v := fun j => x j - xs j) in *.
    assert (Y : 0 <= rnorm1 (qm p + qn p) (fun i => y i - ys i)) by (rewrite rnorm1_def; apply rsum_nonneg; intros; apply Rabs_pos).
    pose proof (strong_bound (qn p) (qH p) mu ep ed v _ HM Hmu Hed Hep Y D) as B. eapply Rle_trans; [|exact B].
    rewrite rnorm1_def. change (Rabs (x j - xs j)) with ((fun j => Rabs (v j)) j). apply rsum_nonneg_term; [intros; apply Rabs_pos|exact Hj].
Qed.
