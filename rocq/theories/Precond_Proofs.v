(** The Ruiz preconditioner over the reals. *)
Require Import Reals Lra Lia List ZArith Bool.
Require Import Verif.Scal Verif.RSum Verif.Qp_Model Verif.Qp_Spec Verif.Precond_Model Verif.Precond_Spec.
Import ListNotations.
Local Open Scope R_scope.

(** ** scaling by positive diagonals *)
Section Scaling.
Variables (D E : vec R) (c : R) (d d' : qp_data R).
Hypothesis HD : positive (qn d) D.
Hypothesis HE : positive (qm d) E.
Hypothesis Hc : 0 < c.
Hypothesis S : scaled_by D E c d d'.

(** x = D x', y = (E y'_A, y'_x / D) / c *)
Definition un_x (x : vec R) : vec R := fun j => D j * x j.
Definition un_y (y : vec R) : vec R :=
  fun i => if Nat.ltb i (qm d) then E i * y i / c else y i / (c * D (i - qm d)%nat).

Lemma scaled_rows : forall x i, (i < qm d)%nat -> rmv (qn d') (qA d') x i = E i * rmv (qn d) (qA d) (un_x x) i.
Proof.
  destruct S as (En & Em & _ & _ & SA & _). intros x i Hi.
  rewrite !rmv_def, <- rsum_scal, En. apply rsum_ext. intros j Hj. rewrite SA by assumption. unfold un_x. ring.
Qed.

Lemma in_bounds_scale : forall e lb ub t, 0 < e ->
  (in_bounds (ext_scale e lb) (ext_scale e ub) (e * t) <-> in_bounds lb ub t).
Proof.
  intros e lb ub t He. unfold in_bounds.
  assert (L : forall a b, a <= b <-> e * a <= e * b).
  { intros a b. split; intros. apply Rmult_le_compat_l; lra. apply Rmult_le_reg_l with e; lra. }
  destruct lb, ub; cbn; rewrite <- ?L; tauto.
Qed.

Lemma sign_ok_scale : forall e k lb ub t y, 0 < e -> 0 < k ->
  (sign_ok (ext_scale e lb) (ext_scale e ub) (e * t) y <-> sign_ok lb ub t (k * y)).
Proof.
  intros e k lb ub t y He Hk.
  assert (P : 0 < y <-> 0 < k * y).
  { split; intros. apply Rmult_lt_0_compat; lra. apply Rmult_lt_reg_l with k; lra. }
  assert (N : y < 0 <-> k * y < 0).
  { split; intros. assert (0 < k * - y) by (apply Rmult_lt_0_compat; lra). lra.
    apply Rmult_lt_reg_l with k; lra. }
  assert (X : forall b, ext_scale e b = Fin (e * t) <-> b = Fin t).
  { intros [u| |]; cbn; split; intros Q; try discriminate.
    - injection Q as Q. apply Rmult_eq_reg_l in Q; [rewrite Q; reflexivity|lra].
    - injection Q as ->. reflexivity. }
  unfold sign_ok. rewrite !X, <- P, <- N. tauto.
Qed.

Lemma un_x_bound : forall x j, (j < qn d)%nat -> x j = / D j * un_x x j.
Proof. intros x j Hj. unfold un_x. field. apply Rgt_not_eq, HD, Hj. Qed.

Lemma scaled_feasible : forall x, qp_feasible d' x <-> qp_feasible d (un_x x).
Proof.
  intros x. pose proof S as (En & Em & _ & _ & _ & SB & SX). unfold qp_feasible. rewrite Em, En.
  assert (K1 : forall i, (i < qm d)%nat ->
    (in_bounds (qAlb d' i) (qAub d' i) (rmv (qn d') (qA d') x i) <-> in_bounds (qAlb d i) (qAub d i) (rmv (qn d) (qA d) (un_x x) i))).
  { intros i Hi. destruct (SB i Hi) as [-> ->]. rewrite scaled_rows by exact Hi. apply in_bounds_scale, HE, Hi. }
  assert (K2 : forall j, (j < qn d)%nat ->
    (in_bounds (qxlb d' j) (qxub d' j) (x j) <-> in_bounds (qxlb d j) (qxub d j) (un_x x j))).
  { intros j Hj. destruct (SX j Hj) as [-> ->]. rewrite (un_x_bound x j Hj). apply in_bounds_scale.
    apply Rinv_0_lt_compat, HD, Hj. }
  rewrite En in K1.
  split; intros [F1 F2]; split; intros k Hk; try (apply K1; auto); try (apply K2; auto).
Qed.

Lemma scaled_Hx : forall x j, (j < qn d)%nat -> rmv (qn d') (qH d') x j = c * D j * rmv (qn d) (qH d) (un_x x) j.
Proof.
  destruct S as (En & Em & SH & _). intros x j Hj.
  rewrite !rmv_def, <- rsum_scal, En. apply rsum_ext. intros k Hk. rewrite SH by assumption. unfold un_x. ring.
Qed.

Lemma scaled_obj : forall x, qp_obj d' x = c * qp_obj d (un_x x).
Proof.
  intros x. pose proof S as (En & _ & _ & Sh & _). unfold qp_obj, qf.
  rewrite !rdot_def, En.
  rewrite (rsum_ext (qn d) (fun i => x i * rmv (qn d) (qH d') x i) (fun i => c * (un_x x i * rmv (qn d) (qH d) (un_x x) i))).
  2:{ intros i Hi. pose proof (scaled_Hx x i Hi) as K. rewrite En in K. rewrite K. unfold un_x. ring. }
  rewrite (rsum_ext (qn d) (fun i => qh d' i * x i) (fun i => c * (qh d i * un_x x i))).
  2:{ intros i Hi. rewrite Sh by exact Hi. unfold un_x. ring. }
  rewrite !rsum_scal. ring.
Qed.

Lemma scaled_kkt : forall x y, kkt_pair d' x y <-> kkt_pair d (un_x x) (un_y y).
Proof.
  intros x y. pose proof S as (En & Em & SH & Sh & SA & SB & SX). unfold kkt_pair.
  rewrite scaled_feasible, Em, En.
  assert (G : forall j, (j < qn d)%nat -> lag_grad d' x y j = c * D j * lag_grad d (un_x x) (un_y y) j).
  { intros j Hj. unfold lag_grad. rewrite scaled_Hx, Sh, Em by exact Hj.
    rewrite (rsum_ext (qm d) (fun i => qA d' i j * y i) (fun i => c * D j * (qA d i j * un_y y i))).
    2:{ intros i Hi. rewrite SA by assumption. unfold un_y. replace (Nat.ltb i (qm d)) with true by (symmetry; apply Nat.ltb_lt; exact Hi).
        field. lra. }
    assert (U : un_y y (qm d + j)%nat = y (qm d + j)%nat / (c * D j)).
    { unfold un_y. replace (Nat.ltb (qm d + j) (qm d)) with false by (symmetry; apply Nat.ltb_ge; lia).
      replace (qm d + j - qm d)%nat with j by lia. reflexivity. }
    rewrite rsum_scal, U. field. split; [apply Rgt_not_eq, HD, Hj|lra]. }
  assert (G' : forall j, (j < qn d)%nat -> (lag_grad d' x y j = 0 <-> lag_grad d (un_x x) (un_y y) j = 0)).
  { intros j Hj. rewrite G by exact Hj. pose proof (HD j Hj).
    assert (0 < c * D j) by (apply Rmult_lt_0_compat; assumption). split; intros Q; [|rewrite Q; ring].
    apply Rmult_integral in Q. lra. }
  assert (K1 : forall i, (i < qm d)%nat ->
    (sign_ok (qAlb d' i) (qAub d' i) (rmv (qn d') (qA d') x i) (y i) <->
     sign_ok (qAlb d i) (qAub d i) (rmv (qn d) (qA d) (un_x x) i) (un_y y i))).
  { intros i Hi. destruct (SB i Hi) as [-> ->]. rewrite scaled_rows by exact Hi. pose proof (HE i Hi).
    unfold un_y. replace (Nat.ltb i (qm d)) with true by (symmetry; apply Nat.ltb_lt; exact Hi).
    replace (E i * y i / c) with (E i / c * y i) by (field; lra). apply sign_ok_scale; auto.
    apply Rdiv_lt_0_compat; assumption. }
  assert (K2 : forall j, (j < qn d)%nat ->
    (sign_ok (qxlb d' j) (qxub d' j) (x j) (y (qm d + j)%nat) <->
     sign_ok (qxlb d j) (qxub d j) (un_x x j) (un_y y (qm d + j)%nat))).
  { intros j Hj. destruct (SX j Hj) as [-> ->]. rewrite (un_x_bound x j Hj). pose proof (HD j Hj).
    unfold un_y. replace (Nat.ltb (qm d + j) (qm d)) with false by (symmetry; apply Nat.ltb_ge; lia).
    replace (qm d + j - qm d)%nat with j by lia.
    assert (0 < c * D j) by (apply Rmult_lt_0_compat; assumption).
    replace (y (qm d + j)%nat / (c * D j)) with (/ (c * D j) * y (qm d + j)%nat) by (field; lra).
    apply sign_ok_scale; apply Rinv_0_lt_compat; assumption. }
  rewrite En in K1.
  split; intros (F1 & F2 & F3 & F4); (split; [|split; [exact F2|split]]); intros k Hk;
    try (apply G'; auto); try (apply K1; auto); try (apply K2; auto).
Qed.
End Scaling.

(** ** the sweeps *)
Lemma vec_pos_inv_sqrt : forall e n (f : vec R) k, 0 < e -> (k < n)%nat -> 0 < inv_sqrt n (unzero e n f) k.
Proof.
  intros e n f k He Hk. unfold inv_sqrt. rewrite tab_spec by exact Hk. unfold unzero. rewrite tab_spec by exact Hk.
  change (0 < 1 / sqrt (if Rltb (f k) e then 1 else f k)). apply Rdiv_lt_0_compat; [lra|]. apply sqrt_lt_R0.
  unfold Rltb. destruct (Rlt_dec (f k) e); lra.
Qed.

Lemma ruiz_eps_pos : 0 < (ruiz_eps : R).
Proof. unfold ruiz_eps, scst. simpl. apply Rdiv_lt_0_compat; lra. Qed.
Lemma ruiz_eps_sparse_pos : 0 < (ruiz_eps_sparse : R).
Proof. unfold ruiz_eps_sparse, scst. simpl. lra. Qed.

Lemma norminf_pos : forall n (f : vec R), nonzero_vec n f -> 0 < norminf n f.
Proof.
  intros n f (i & Hi & Hn). apply (Rlt_le_trans _ (Rabs (f i))); [apply Rabs_pos_lt, Hn|].
  exact (rnorminf_ub n f i Hi).
Qed.

Section Sweeps.
Variables (n m : nat) (eps : R) (guard : bool).
Variables (colH rowA colA : mat R -> nat -> R).
Hypothesis eps_pos : 0 < eps.
Variables (H0 : mat R) (h0 : vec R) (A0 : mat R).
(** the divisor of the cost scaling is positive *)
Hypothesis div_ok : guard = true \/ nonzero_vec n h0 \/
  (forall (D : vec R) (c : R) (H : mat R), positive n D -> 0 < c ->
    (forall i j, (i < n)%nat -> (j < n)%nat -> H i j = c * D i * H0 i j * D j) -> 0 < rsum n (colH H) / IZR (Z.of_nat n)).

Definition Inv (w : ruiz R) (H : mat R) (h : vec R) (A : mat R) : Prop :=
  positive n (rD w) /\ positive m (rE w) /\ 0 < rc w /\
  (forall i j, (i < n)%nat -> (j < n)%nat -> H i j = rc w * rD w i * H0 i j * rD w j) /\
  (forall j, (j < n)%nat -> h j = rc w * rD w j * h0 j) /\
  (forall i j, (i < m)%nat -> (j < n)%nat -> A i j = rE w i * A0 i j * rD w j).

Lemma sweep_inv : forall w H h A, Inv w H h A ->
  let '(w', (H', h', A'), _) := sweep eps guard n m colH rowA colA false w H h A in Inv w' H' h' A'.
Proof.
  intros w H h A (PD & PE & Pc & IH & Ih & IA). unfold sweep. cbv zeta.
  set (d0 := tab n (fun j => smax (colH H j) (colA A j))).
  set (e0 := tab m (rowA A)).
  set (dd := inv_sqrt n (unzero eps n d0)). set (ee := inv_sqrt m (unzero eps m e0)).
  set (H1 := tab2 n n (fun i j => smul (smul (dd i) (H i j)) (dd j))).
  set (h1 := tab n (fun j => smul (h j) (dd j))).
  set (hinf := if guard then _ else _).
  set (gamma := sdiv s1 _).
  assert (Pdd : forall k, (k < n)%nat -> 0 < dd k) by (intros; apply vec_pos_inv_sqrt; auto).
  assert (Pee : forall k, (k < m)%nat -> 0 < ee k) by (intros; apply vec_pos_inv_sqrt; auto).
  assert (E1 : forall i j, (i < n)%nat -> (j < n)%nat -> H1 i j = rc w * (rD w i * dd i) * H0 i j * (rD w j * dd j)).
  { intros i j Hi Hj. unfold H1. rewrite tab2_spec by assumption. simpl. rewrite IH by assumption. ring. }
  assert (PDd : positive n (fun j => rD w j * dd j)).
  { intros j Hj. apply Rmult_lt_0_compat; [apply PD|apply Pdd]; exact Hj. }
  assert (Pg : 0 < gamma).
  { unfold gamma. rewrite smax_R. simpl. apply Rdiv_lt_0_compat; [lra|].
    destruct div_ok as [G|[G|G]].
    - eapply Rlt_le_trans; [|apply Rmax_r]. unfold hinf. rewrite G. simpl. unfold Rltb.
      pose proof ruiz_eps_pos. match goal with |- context [Rlt_dec ?a ?b] => destruct (Rlt_dec a b) end; lra.
    - eapply Rlt_le_trans; [|apply Rmax_r].
      assert (N : 0 < norminf n h1).
      { apply norminf_pos. destruct G as (k & Hk & Hn). exists k. split; [exact Hk|].
        unfold h1. rewrite tab_spec by exact Hk. simpl. rewrite Ih by exact Hk. pose proof (PD k Hk). pose proof (Pdd k Hk).
        intros Q. repeat (apply Rmult_integral in Q; destruct Q as [Q|Q]); try lra. }
      unfold hinf. destruct guard; [|exact N]. simpl. unfold Rltb.
      match goal with |- context [Rlt_dec ?a ?b] => destruct (Rlt_dec a b) end; [exact N|lra].
    - eapply Rlt_le_trans; [|apply Rmax_l].
      assert (X : @ssum R R_scalar n (tab n (colH H1)) = rsum n (colH H1)).
      { unfold rsum. apply ssum_ext. intros i Hi. apply tab_spec, Hi. }
      rewrite X. apply (G (fun j => rD w j * dd j) (rc w) H1); auto. }
  unfold Inv. cbn [rD rE rc].
  split; [intros j Hj; rewrite tab_spec by exact Hj; apply PDd, Hj|].
  split; [intros j Hj; rewrite tab_spec by exact Hj; simpl; apply Rmult_lt_0_compat; [apply PE|apply Pee]; exact Hj|].
  split; [apply Rmult_lt_0_compat; assumption|].
  split; [|split].
  - intros i j Hi Hj. rewrite tab2_spec, !tab_spec by assumption. simpl. rewrite E1 by assumption. ring.
  - intros j Hj. rewrite !tab_spec by assumption. simpl. unfold h1. rewrite tab_spec by assumption. simpl.
    rewrite Ih by assumption. ring.
  - intros i j Hi Hj. rewrite tab2_spec, !tab_spec by assumption. simpl. rewrite IA by assumption. ring.
Qed.

Lemma sweeps_inv : forall go fuel w H h A norm, Inv w H h A ->
  let '(w', (H', h', A')) := sweeps go (sweep eps guard n m colH rowA colA false) fuel w H h A norm in Inv w' H' h' A'.
Proof.
  intros go. induction fuel as [|f IHf]; intros w H h A norm HI; cbn [sweeps]; [exact HI|].
  destruct (go norm); [|exact HI].
  pose proof (sweep_inv w H h A HI) as K.
  destruct (sweep eps guard n m colH rowA colA false w H h A) as [[w' [[H' h'] A']] norm'].
  apply IHf, K.
Qed.

Lemma Inv_new : Inv ruiz_new H0 h0 A0.
Proof.
  unfold Inv, ruiz_new, positive. cbn. repeat split; intros; try lra; ring.
Qed.
End Sweeps.

Lemma finish_scaled : forall w d H h A, Inv (qn d) (qm d) (qH d) (qh d) (qA d) w H h A ->
  positive (qn d) (rD w) /\ positive (qm d) (rE w) /\ 0 < rc w /\
  scaled_by (rD w) (rE w) (rc w) d (finish w d (H, h, A)).
Proof.
  intros w d H h A (PD & PE & Pc & IH & Ih & IA). do 3 (split; [assumption|]).
  unfold scaled_by, finish; cbn. repeat split; auto.
  - replace (1 / rD w j) with (/ rD w j) by lra. reflexivity.
  - replace (1 / rD w j) with (/ rD w j) by lra. reflexivity.
Qed.

Lemma dense_compute_scaled : forall (d : qp_data R) w d', dense_compute d = Some (w, d') ->
  positive (qn d) (rD w) /\ positive (qm d) (rE w) /\ 0 < rc w /\ scaled_by (rD w) (rE w) (rc w) d d'.
Proof.
  intros d w d' C. unfold dense_compute in C. destruct (Nat.eqb (qn d) 0 || Nat.eqb (qm d) 0); [discriminate|].
  pose proof (sweeps_inv (qn d) (qm d) ruiz_eps true (dense_colH (qn d)) (dense_rowA (qn d)) (dense_colA (qm d))
    ruiz_eps_pos (qH d) (qh d) (qA d) (or_introl eq_refl) go_compute 4 ruiz_new (qH d) (qh d) (qA d) ruiz_norm0
    (Inv_new _ _ _ _ _)) as K.
  destruct (sweeps _ _ _ _ _ _ _ _) as [w' [[H h] A]]. injection C as <- <-. apply finish_scaled, K.
Qed.

Lemma dense_compute_defined : forall (d : qp_data R), (0 < qn d)%nat -> (0 < qm d)%nat -> exists w d', dense_compute d = Some (w, d').
Proof.
  intros d Hn Hm. unfold dense_compute. replace (Nat.eqb (qn d) 0) with false by (symmetry; apply Nat.eqb_neq; lia).
  replace (Nat.eqb (qm d) 0) with false by (symmetry; apply Nat.eqb_neq; lia). cbn [orb].
  destruct (sweeps _ _ _ _ _ _ _ _) as [w r]. eauto.
Qed.

Lemma ext_scale_inv : forall a b (e : ext R), a * b = 1 -> ext_scale a (ext_scale b e) = e.
Proof. intros a b [t| |] Hab; cbn; auto. f_equal. rewrite <- Rmult_assoc, Hab. ring. Qed.

Lemma unscale_scaled : forall w d d', positive (qn d) (rD w) -> positive (qm d) (rE w) -> 0 < rc w ->
  scaled_by (rD w) (rE w) (rc w) d d' -> qp_same (ruiz_unscale w d') d.
Proof.
  intros w d d' PD PE Pc (En & Em & SH & Sh & SA & SB & SX).
  unfold qp_same, ruiz_unscale. cbn. rewrite En, Em. do 2 (split; [reflexivity|]).
  split; [|split; [|split; [|split]]].
  - intros i j Hi Hj. rewrite tab2_spec, SH by assumption. pose proof (PD i Hi). pose proof (PD j Hj). field. lra.
  - intros j Hj. rewrite tab_spec, Sh by assumption. pose proof (PD j Hj). field. lra.
  - intros i j Hi Hj. rewrite tab2_spec, SA by assumption. pose proof (PE i Hi). pose proof (PD j Hj). field. lra.
  - intros i Hi. destruct (SB i Hi) as [-> ->]. pose proof (PE i Hi). split; apply ext_scale_inv; field; lra.
  - intros j Hj. destruct (SX j Hj) as [-> ->]. pose proof (PD j Hj). split; apply ext_scale_inv; field; lra.
Qed.

Lemma ruiz_scale_scaled : forall w (d : qp_data R), scaled_by (rD w) (rE w) (rc w) d (ruiz_scale w d).
Proof.
  intros w d. unfold scaled_by, ruiz_scale. cbn. repeat split; intros.
  - rewrite tab2_spec by assumption. ring.
  - rewrite tab_spec by assumption. ring.
  - rewrite tab2_spec by assumption. ring.
  - replace (1 / rD w j) with (/ rD w j) by lra. reflexivity.
  - replace (1 / rD w j) with (/ rD w j) by lra. reflexivity.
Qed.

Lemma ltb_t : forall i m, (i < m)%nat -> Nat.ltb i m = true. Proof. intros; apply Nat.ltb_lt; lia. Qed.
Lemma ltb_f : forall i m, (m <= i)%nat -> Nat.ltb i m = false. Proof. intros; apply Nat.ltb_ge; lia. Qed.

Lemma sol_round_trip : forall n m w (x y : vec R), positive n (rD w) -> positive m (rE w) -> 0 < rc w ->
  let a := ruiz_unscale_sol n m w (ruiz_scale_sol n m w (x, y)) in
  let b := ruiz_scale_sol n m w (ruiz_unscale_sol n m w (x, y)) in
  (forall j, (j < n)%nat -> fst a j = x j /\ fst b j = x j) /\
  (forall i, (i < m + n)%nat -> snd a i = y i /\ snd b i = y i).
Proof.
  intros n m w x y PD PE Pc. cbn [ruiz_unscale_sol ruiz_scale_sol fst snd smul sdiv s1 R_scalar]. split.
  - intros j Hj. rewrite !tab_spec by assumption. pose proof (PD j Hj). split; field; lra.
  - intros i Hi. rewrite !tab_spec by assumption. destruct (lt_dec i m) as [L|L].
    + rewrite (ltb_t i m L). pose proof (PE i L). split; field; lra.
    + rewrite (ltb_f i m) by lia. assert (P : 0 < rD w (i - m)%nat) by (apply PD; lia). split; field; lra.
Qed.

Lemma kkt_pair_ext : forall (d : qp_data R) x y x' y',
  (forall j, (j < qn d)%nat -> x j = x' j) -> (forall i, (i < qm d + qn d)%nat -> y i = y' i) ->
  kkt_pair d x y -> kkt_pair d x' y'.
Proof.
  intros d x y x' y' Ex Ey (K1 & (F1 & F2) & K3 & K4).
  assert (M : forall A i, rmv (qn d) A x' i = rmv (qn d) A x i).
  { intros A i. rewrite !rmv_def. apply rsum_ext. intros j Hj. rewrite Ex by exact Hj. reflexivity. }
  split; [|split; [split|split]].
  - intros j Hj. specialize (K1 j Hj). unfold lag_grad in *. rewrite M, <- (Ey (qm d + j)%nat) by lia. rewrite <- K1. f_equal. f_equal.
    apply rsum_ext. intros i Hi. rewrite Ey by lia. reflexivity.
  - intros i Hi. rewrite M. apply F1, Hi.
  - intros j Hj. rewrite <- Ex by exact Hj. apply F2, Hj.
  - intros i Hi. rewrite M, <- Ey by lia. apply K3, Hi.
  - intros j Hj. rewrite <- Ex by exact Hj. rewrite <- Ey by lia. apply K4, Hj.
Qed.
Lemma feasible_ext : forall (d : qp_data R) x x', (forall j, (j < qn d)%nat -> x j = x' j) -> qp_feasible d x -> qp_feasible d x'.
Proof.
  intros d x x' Ex (F1 & F2).
  assert (M : forall A i, rmv (qn d) A x' i = rmv (qn d) A x i).
  { intros A i. rewrite !rmv_def. apply rsum_ext. intros j Hj. rewrite Ex by exact Hj. reflexivity. }
  split; intros; rewrite ?M; [apply F1|rewrite <- Ex by assumption; apply F2]; assumption.
Qed.
Lemma obj_ext : forall (d : qp_data R) x x', (forall j, (j < qn d)%nat -> x j = x' j) -> qp_obj d x = qp_obj d x'.
Proof.
  intros d x x' Ex.
  assert (M : forall A i, rmv (qn d) A x' i = rmv (qn d) A x i).
  { intros A i. rewrite !rmv_def. apply rsum_ext. intros j Hj. rewrite Ex by exact Hj. reflexivity. }
  unfold qp_obj, qf. rewrite !rdot_def. f_equal; [f_equal|]; apply rsum_ext; intros; rewrite ?M, Ex by assumption; reflexivity.
Qed.

Lemma scaled_solutions : forall w (d d' : qp_data R) x y,
  positive (qn d) (rD w) -> positive (qm d) (rE w) -> 0 < rc w -> scaled_by (rD w) (rE w) (rc w) d d' ->
  let u := ruiz_unscale_sol (qn d) (qm d) w (x, y) in
  (kkt_pair d' x y <-> kkt_pair d (fst u) (snd u)) /\
  (qp_feasible d' x <-> qp_feasible d (fst u)) /\
  qp_obj d' x = rc w * qp_obj d (fst u).
Proof.
  intros w d d' x y PD PE Pc S u.
  assert (X : forall j, (j < qn d)%nat -> fst u j = un_x (rD w) x j).
  { intros j Hj. unfold u; cbn [ruiz_unscale_sol fst snd smul sdiv s1 R_scalar]. rewrite tab_spec by exact Hj. unfold un_x. ring. }
  assert (Y : forall i, (i < qm d + qn d)%nat -> snd u i = un_y (rD w) (rE w) (rc w) d y i).
  { intros i Hi. unfold u; cbn [ruiz_unscale_sol fst snd smul sdiv s1 R_scalar]. rewrite tab_spec by exact Hi. unfold un_y. destruct (lt_dec i (qm d)) as [L|L].
    - rewrite (ltb_t _ _ L). field. lra.
    - rewrite ltb_f by lia. assert (P : 0 < rD w (i - qm d)%nat) by (apply PD; lia). field. lra. }
  rewrite (scaled_kkt _ _ _ d d' PD PE Pc S), (scaled_feasible _ _ _ d d' PD PE S), (scaled_obj _ _ _ d d' S).
  split; [|split].
  - split; apply kkt_pair_ext; intros; symmetry; auto; symmetry; auto.
  - split; apply feasible_ext; intros; symmetry; auto; symmetry; auto.
  - f_equal. apply obj_ext. intros; symmetry; auto.
Qed.

(** ** sparse compute *)
Lemma maxx_ge : forall n nz (f : vec R) k, (k < n)%nat -> nz k = true -> Rabs (f k) <= maxx n nz f.
Proof.
  induction n as [|n IH]; intros nz f k Hk Hn; [lia|]. cbn [maxx].
  change (@sabs R R_scalar) with Rabs. change (@sltb R R_scalar) with Rltb. cbv zeta.
  destruct (Nat.eq_dec k n) as [->|Hne].
  - rewrite Hn. unfold Rltb. destruct (Rlt_dec _ _); lra.
  - specialize (IH nz f k ltac:(lia) Hn). destruct (nz n); [|exact IH]. unfold Rltb. destruct (Rlt_dec _ _); lra.
Qed.

Lemma sparse_compute_scaled : forall nzH nzA (d : qp_data R) w d',
  nonzero_vec (qn d) (qh d) \/
  ((forall j, (j < qn d)%nat -> exists i, (i < qn d)%nat /\ nzH i j = true) /\
   exists i j, (i < qn d)%nat /\ (j < qn d)%nat /\ nzH i j = true /\ qH d i j <> 0) ->
  sparse_compute nzH nzA d = Some (w, d') ->
  positive (qn d) (rD w) /\ positive (qm d) (rE w) /\ 0 < rc w /\ scaled_by (rD w) (rE w) (rc w) d d'.
Proof.
  intros nzH nzA d w d' Hyp C. unfold sparse_compute in C.
  destruct (Nat.eqb (qn d) 0 || Nat.eqb (qm d) 0); [discriminate|]. cbv zeta in C.
  assert (K : false = true \/ nonzero_vec (qn d) (qh d) \/
    (forall (D : vec R) (c : R) (H : mat R), positive (qn d) D -> 0 < c ->
    (forall i j, (i < qn d)%nat -> (j < qn d)%nat -> H i j = c * D i * qH d i j * D j) ->
      0 < rsum (qn d) (fun j => maxx (qn d) (fun i => nzH i j) (fun i => H i j)) / IZR (Z.of_nat (qn d)))).
  { right. destruct Hyp as [Hh|[Hcol (i & j & Hi & Hj & Hs & Hn)]]; [left; exact Hh|right].
    intros D c H PD Pc E.
    apply Rdiv_lt_0_compat; [|apply (IZR_lt 0); lia].
    assert (P : 0 < maxx (qn d) (fun i => nzH i j) (fun i => H i j)).
    { eapply Rlt_le_trans; [|apply (maxx_ge (qn d) (fun i => nzH i j) (fun i => H i j) i Hi Hs)]. apply Rabs_pos_lt.
      rewrite E by assumption. pose proof (PD i Hi). pose proof (PD j Hj). repeat apply Rmult_integral_contrapositive_currified; lra. }
    eapply Rlt_le_trans; [exact P|].
    apply (rsum_nonneg_term (qn d) (fun j => maxx (qn d) (fun i => nzH i j) (fun i => H i j)) j); [|exact Hj].
    intros k Hk. destruct (Hcol k Hk) as (r & Hr & Hrs).
    eapply Rle_trans; [|apply (maxx_ge (qn d) (fun i => nzH i k) (fun i => H i k) r Hr Hrs)]. apply Rabs_pos. }
  pose proof (sweeps_inv (qn d) (qm d) ruiz_eps_sparse false (fun H j => maxx (qn d) (fun i => nzH i j) (fun i => H i j))
    (fun A i => maxx (qn d) (nzA i) (A i)) (fun A j => maxx (qm d) (fun i => nzA i j) (fun i => A i j))
    ruiz_eps_sparse_pos (qH d) (qh d) (qA d) K go_compute 4 ruiz_new (qH d) (qh d) (qA d) ruiz_norm0
    (Inv_new _ _ _ _ _)) as I.
  destruct (sweeps _ _ _ _ _ _ _ _) as [w' [[H h] A]]. injection C as <- <-. apply finish_scaled, I.
Qed.

Lemma sparse_compute_defined : forall nzH nzA (d : qp_data R), (0 < qn d)%nat -> (0 < qm d)%nat ->
  exists w d', sparse_compute nzH nzA d = Some (w, d').
Proof.
  intros nzH nzA d Hn Hm. unfold sparse_compute. replace (Nat.eqb (qn d) 0) with false by (symmetry; apply Nat.eqb_neq; lia).
  replace (Nat.eqb (qm d) 0) with false by (symmetry; apply Nat.eqb_neq; lia). cbn [orb]. cbv zeta.
  destruct (sweeps _ _ _ _ _ _ _ _) as [w r]. eauto.
Qed.

(** ** update: what survives *)
Section Update.
Variables (n m : nat) (eps : R) (guard : bool) (mc : bool).
Variables (colH rowA colA : mat R -> nat -> R).
Hypothesis eps_pos : 0 < eps.
Variable (A0 : mat R).
Definition InvA (w : ruiz R) (A : mat R) : Prop :=
  positive n (rD w) /\ positive m (rE w) /\ (forall i j, (i < m)%nat -> (j < n)%nat -> A i j = rE w i * A0 i j * rD w j).

Lemma sweep_invA : forall w H h A, InvA w A ->
  let '(w', (H', h', A'), _) := sweep eps guard n m colH rowA colA mc w H h A in InvA w' A'.
Proof.
  intros w H h A (PD & PE & IA). unfold sweep. cbv zeta.
  set (dd := inv_sqrt n _). set (ee := inv_sqrt m _).
  assert (Pdd : forall k, (k < n)%nat -> 0 < dd k) by (intros; apply vec_pos_inv_sqrt; auto).
  assert (Pee : forall k, (k < m)%nat -> 0 < ee k) by (intros; apply vec_pos_inv_sqrt; auto).
  unfold InvA. cbn [rD rE]. split; [|split].
  - intros j Hj. rewrite tab_spec by exact Hj. apply Rmult_lt_0_compat; [apply PD|apply Pdd]; exact Hj.
  - intros j Hj. rewrite tab_spec by exact Hj. apply Rmult_lt_0_compat; [apply PE|apply Pee]; exact Hj.
  - intros i j Hi Hj. rewrite tab2_spec, !tab_spec by assumption. simpl. rewrite IA by assumption. ring.
Qed.

Lemma sweeps_invA : forall go fuel w H h A norm, InvA w A ->
  let '(w', (H', h', A')) := sweeps go (sweep eps guard n m colH rowA colA mc) fuel w H h A norm in InvA w' A'.
Proof.
  intros go. induction fuel as [|f IHf]; intros w H h A norm HI; cbn [sweeps]; [exact HI|].
  destruct (go norm); [|exact HI].
  pose proof (sweep_invA w H h A HI) as K.
  destruct (sweep eps guard n m colH rowA colA mc w H h A) as [[w' [[H' h'] A']] norm'].
  apply IHf, K.
Qed.
End Update.

Lemma dense_update_A : forall (d : qp_data R) w d', dense_update ruiz_new d = Some (w, d') ->
  positive (qn d) (rD w) /\ positive (qm d) (rE w) /\
  (forall i j, (i < qm d)%nat -> (j < qn d)%nat -> qA (ruiz_unscale w d') i j = qA d i j) /\
  (forall i, (i < qm d)%nat -> qAlb (ruiz_unscale w d') i = qAlb d i /\ qAub (ruiz_unscale w d') i = qAub d i) /\
  (forall j, (j < qn d)%nat -> qxlb (ruiz_unscale w d') j = qxlb d j /\ qxub (ruiz_unscale w d') j = qxub d j).
Proof.
  intros d w d' C. unfold dense_update in C. destruct (Nat.eqb (qn d) 0 || Nat.eqb (qm d) 0); [discriminate|].
  assert (I0 : InvA (qn d) (qm d) (qA d) ruiz_new (qA d)).
  { unfold InvA, ruiz_new, positive. cbn. repeat split; intros; try lra; ring. }
  pose proof (sweeps_invA (qn d) (qm d) ruiz_eps false true (dense_colH (qn d)) (dense_rowA (qn d)) (dense_colA (qm d))
    ruiz_eps_pos (qA d) go_update 4 ruiz_new (qH d) (qh d) (qA d)
    (smax (vmax (qn d) (wD (T:=R) ruiz_new)) (vmax (qm d) (wE (T:=R) ruiz_new))) I0) as K.
  destruct (sweeps _ _ _ _ _ _ _ _) as [w' [[H h] A]]. injection C as <- <-.
  destruct K as (PD & PE & IA). do 2 (split; [assumption|]).
  unfold ruiz_unscale, finish. cbn [qA qAlb qAub qxlb qxub qn qm smul sdiv s1 R_scalar]. split; [|split].
  - intros i j Hi Hj. rewrite tab2_spec, IA by assumption. pose proof (PE i Hi). pose proof (PD j Hj). field. lra.
  - intros i Hi. pose proof (PE i Hi). split; apply ext_scale_inv; field; lra.
  - intros j Hj. pose proof (PD j Hj). split; apply ext_scale_inv; field; lra.
Qed.
