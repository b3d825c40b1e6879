Require Import ZArith List Bool Lia Reals Lra Psatz.
From Verif Require Import Scal RSum RNorm GradProj_Model GradProj_Spec HessReg_Proofs.
Local Open Scope R_scope.

Lemma form_below_exists n H : exists L, 0 < L /\ form_below n H L.
Proof.
  exists (1 + rsum n (fun i => rsum n (fun j => Rabs (H i j)))).
  assert (P : 0 <= rsum n (fun i => rsum n (fun j => Rabs (H i j)))) by (apply rsum_nonneg; intros; apply rsum_nonneg; intros; apply Rabs_pos).
  split; [lra|]. intros v. rewrite qf_double. set (q := rdot n v v). assert (Q0 : 0 <= q) by apply rdot_self_nonneg.
  assert (E : forall i, (i < n)%nat -> v i * v i <= q) by (intros i Hi; unfold q; rewrite rdot_def; apply (rsum_nonneg_term n (fun j => v j * v j)); auto; intros; apply Rle_0_sqr).
  apply Rle_trans with (rsum n (fun i => rsum n (fun j => Rabs (H i j))) * q).
  - rewrite <- rsum_scal_r. apply rsum_le. intros i Hi. rewrite <- rsum_scal_r. apply rsum_le. intros j Hj. assert (Ei := E i Hi). assert (Ej := E j Hj).
    replace (v i * H i j * v j) with (H i j * (v i * v j)) by ring.
    apply Rle_trans with (Rabs (H i j) * Rabs (v i * v j)); [rewrite <- Rabs_mult; apply Rle_abs|].
    apply Rmult_le_compat_l; [apply Rabs_pos|]. apply Rabs_le. split; nra.
  - nra.
Qed.

Section Search.
Variable n : nat.
Variable H : mat R.
Variables h l u : vec R.
Notation cost := (gp_cost n H h).
Notation slope := (gp_slope n H h).
(** the projected step *)
Definition pstep (x : vec R) (a : R) (i : nat) : R := Rmin (Rmax (a * slope x i) (l i)) (u i).

Lemma gp_f_R x : gp_f n H h x = cost x.
Proof. unfold gp_f, gp_cost, scst, qf. simpl. change (ssum n (fun i => x i * mv n H x i)) with (rdot n x (rmv n H x)). change (ssum n (fun i => h i * x i)) with (rdot n h x). f_equal. f_equal. lra. Qed.
Lemma gp_trial_R x a i : (i < n)%nat -> gp_trial n l u x (gp_grad n H h x) a i = x i - pstep x a i.
Proof. intros Hi. unfold gp_trial, gp_project, gp_grad, pstep, gp_slope. rewrite !tab_spec by auto. rewrite smin_R, smax_R. reflexivity. Qed.
Lemma cost_ext x y : (forall i, (i < n)%nat -> x i = y i) -> cost x = cost y.
Proof. intros E. unfold gp_cost, qf. rewrite (rdot_ext n h x h y), (rdot_ext n x (rmv n H x) y (rmv n H y)); auto. intros; apply rmv_ext; auto. Qed.

Hypothesis HS : symmetric n H.
Lemma cost_move x p : cost (fun i => x i - p i) = cost x - rdot n (slope x) p + / 2 * qf n H p.
Proof.
  unfold gp_cost. rewrite (rdot_minus_r n x p h).
  replace (qf n H (fun i => x i - p i)) with (qf n H (fun i => x i + -1 * p i)).
  2:{ unfold qf. apply rdot_ext; [intros; ring|]. intros. apply rmv_ext; auto. intros; ring. }
  rewrite qf_plus_scal by auto. rewrite (bf_sym n H x p HS). unfold bf. rewrite (rdot_comm n p (rmv n H x)).
  replace (rdot n (slope x) p) with (rdot n (rmv n H x) p + rdot n h p); [lra|]. rewrite <- rdot_plus_l. reflexivity.
Qed.
Lemma cst_R a b : scst a b = IZR a / IZR b. Proof. reflexivity. Qed.

(** the test of the line search, in exact arithmetic *)
Lemma accept_iff x a : gp_accept n H h l u x (gp_grad n H h x) (gp_f n H h x) a = true <->
  / 2 * qf n H (pstep x a) <= (1 + a / 100000) * rdot n (slope x) (pstep x a).
Proof.
  unfold gp_accept. change (@sleb R R_scalar) with Rleb. rewrite Rleb_true, !gp_f_R.
  rewrite (cost_ext _ (fun i => x i - pstep x a i)) by (apply gp_trial_R). rewrite cost_move.
  rewrite (rdot_ext n (gp_grad n H h x) _ (slope x) (fun i => - pstep x a i)).
  - rewrite (rdot_comm n (slope x) (fun i => - pstep x a i)), rdot_opp_l, (rdot_comm n (pstep x a)). rewrite cst_R.
    cbn [smul ssub R_scalar]. unfold Rdiv. split; intros; lra.
  - intros i Hi. unfold gp_grad, gp_slope. rewrite tab_spec; auto.
  - intros i Hi. rewrite tab_spec, gp_trial_R by auto. cbn [ssub R_scalar]. ring.
Qed.

(** an accepted step is the first accepted one *)
Lemma search_spec fuel x a r : gp_search n H h l u fuel x (gp_grad n H h x) (gp_f n H h x) a = Some r ->
  exists j, (j < fuel)%nat /\ r = gp_trial n l u x (gp_grad n H h x) ((3 / 10) ^ j * a) /\
    gp_accept n H h l u x (gp_grad n H h x) (gp_f n H h x) ((3 / 10) ^ j * a) = true /\
    forall k, (k < j)%nat -> gp_accept n H h l u x (gp_grad n H h x) (gp_f n H h x) ((3 / 10) ^ k * a) = false.
Proof.
  revert a. induction fuel as [|f IH]; intros a; cbn [gp_search]; [discriminate|].
  destruct (gp_accept n H h l u x (gp_grad n H h x) (gp_f n H h x) a) eqn:E.
  - intros [= <-]. exists 0%nat. rewrite pow_O, Rmult_1_l. split; [lia|]. split; [auto|]. split; [auto|]. intros; lia.
  - rewrite cst_R. cbn [smul R_scalar]. intros X. destruct (IH _ X) as (j & J1 & J2 & J3 & J4).
    assert (F : forall k, (3 / 10) ^ k * (3 / 10 * a) = (3 / 10) ^ S k * a) by (intros; simpl; ring).
    exists (S j). rewrite <- F. split; [lia|]. split; [auto|]. split; [auto|].
    intros [|k] Hk; [rewrite pow_O, Rmult_1_l; auto|]. rewrite <- F. apply J4. lia.
Qed.
Lemma search_more fuel fuel' x g f a r : gp_search n H h l u fuel x g f a = Some r -> (fuel <= fuel')%nat -> gp_search n H h l u fuel' x g f a = Some r.
Proof.
  revert fuel' a. induction fuel as [|k IH]; intros fuel' a X L; [discriminate|]. destruct fuel' as [|k']; [lia|]. cbn [gp_search] in *.
  destruct (gp_accept n H h l u x g f a); auto. apply (IH k'); auto. lia.
Qed.
Lemma search_ends x a j : gp_accept n H h l u x (gp_grad n H h x) (gp_f n H h x) ((3 / 10) ^ j * a) = true ->
  exists r, gp_search n H h l u (S j) x (gp_grad n H h x) (gp_f n H h x) a = Some r.
Proof.
  revert a. induction j as [|j IH]; intros a E.
  - rewrite pow_O, Rmult_1_l in E. cbn [gp_search]. rewrite E. eauto.
  - remember (S j) as m. cbn [gp_search]. destruct (gp_accept n H h l u x (gp_grad n H h x) (gp_f n H h x) a); [eauto|]. subst m.
    apply IH. rewrite cst_R. cbn [smul R_scalar]. replace ((3 / 10) ^ j * (3 / 10 * a)) with ((3 / 10) ^ S j * a) by (simpl; ring). auto.
Qed.

(** ** zero is between the bounds *)
Hypothesis HB : forall i, (i < n)%nat -> l i <= 0 <= u i.
Lemma pstep_slope x a i : 0 < a -> (i < n)%nat -> pstep x a i * pstep x a i <= a * (slope x i * pstep x a i).
Proof.
  intros Ha Hi. destruct (HB i Hi) as [B1 B2]. unfold pstep. set (g := slope x i). unfold Rmax. destruct (Rle_dec (a * g) (l i)) as [C|C]; unfold Rmin.
  - destruct (Rle_dec (l i) (u i)); [|lra]. nra.
  - destruct (Rle_dec (a * g) (u i)) as [D|D]; [nra|]. nra.
Qed.
Lemma pstep_dot x a : 0 < a -> rdot n (pstep x a) (pstep x a) <= a * rdot n (slope x) (pstep x a).
Proof. intros Ha. rewrite !rdot_def, <- rsum_scal. apply rsum_le. intros i Hi. apply pstep_slope; auto. Qed.
Lemma small_accepted L x a : form_below n H L -> 0 < a -> L * a <= 2 -> gp_accept n H h l u x (gp_grad n H h x) (gp_f n H h x) a = true.
Proof.
  intros HL Ha La. apply accept_iff. assert (D := pstep_dot x a Ha). assert (Q := HL (pstep x a)).
  set (q := rdot n (pstep x a) (pstep x a)) in *. set (g := rdot n (slope x) (pstep x a)) in *. assert (Q0 : 0 <= q) by apply rdot_self_nonneg.
  assert (G0 : 0 <= g) by nra. assert (X : L * q <= 2 * g); [|assert (0 <= a / 100000 * g) by (apply Rmult_le_pos; lra); lra].
  destruct (Rle_dec L 0); [nra|]. apply Rle_trans with (L * (a * g)); [apply Rmult_le_compat_l; lra|]. replace (L * (a * g)) with (L * a * g) by ring. apply Rmult_le_compat_r; auto.
Qed.
(** the accepted step size is bounded below *)
Lemma search_step L fuel x a r : 0 < L -> form_below n H L -> 0 < a -> gp_search n H h l u fuel x (gp_grad n H h x) (gp_f n H h x) a = Some r ->
  exists b, Rmin a (6 / 10 / L) <= b <= a /\ r = gp_trial n l u x (gp_grad n H h x) b /\ gp_accept n H h l u x (gp_grad n H h x) (gp_f n H h x) b = true.
Proof.
  intros L0 HL Ha X. destruct (search_spec _ _ _ _ X) as (j & _ & E & A & Rj). exists ((3 / 10) ^ j * a). split; [|split; auto].
  assert (P : forall k, 0 < (3 / 10) ^ k <= 1).
  { intros k. split; [apply pow_lt; lra|]. rewrite <- (pow1 k). apply pow_incr. lra. }
  split; [|assert (Q := P j); nra].
  destruct j as [|j]; [rewrite pow_O, Rmult_1_l; apply Rmin_l|]. assert (F := Rj j ltac:(lia)). assert (Q := P j).
  apply Rle_trans with (6 / 10 / L); [apply Rmin_r|]. apply Rnot_lt_le. intros C.
  rewrite (small_accepted L x) in F; [discriminate|auto|nra|]. simpl in C.
  apply (Rmult_lt_compat_l L) in C; auto. replace (L * (6 / 10 / L)) with (6 / 10) in C by (field; lra). nra.
Qed.
Lemma search_exists x a : 0 < a -> exists fuel r, gp_search n H h l u fuel x (gp_grad n H h x) (gp_f n H h x) a = Some r.
Proof.
  intros Ha. destruct (form_below_exists n H) as (L & L0 & HL).
  assert (E : exists j, L * ((3 / 10) ^ j * a) <= 2).
  { destruct (pow_lt_1_zero (3 / 10) ltac:(rewrite Rabs_right; lra) (2 / (L * a))) as [N HN]; [apply Rdiv_lt_0_compat; nra|].
    exists N. assert (B := HN N (Nat.le_refl N)). rewrite Rabs_right in B by (left; apply Rgt_lt, pow_lt; lra).
    assert (C : 0 < L * a) by nra. apply (Rmult_lt_compat_l (L * a)) in B; auto. replace (L * a * (2 / (L * a))) with 2 in B by (field; lra). lra. }
  destruct E as [j Ej]. destruct (search_ends x a j) as [r Er]; [|eauto].
  apply (small_accepted L); auto. apply Rmult_lt_0_compat; auto. apply pow_lt; lra.
Qed.
Lemma solve_more fuel fuel' k x r : gp_solve n H h l u fuel k x = Some r -> (fuel <= fuel')%nat -> gp_solve n H h l u fuel' k x = Some r.
Proof.
  revert x. induction k as [|k IH]; intros x X L; cbn [gp_solve] in *; auto.
  destruct (gp_iteration n H h l u fuel x) as [y|] eqn:E; [|discriminate]. unfold gp_iteration in *. rewrite (search_more _ _ _ _ _ _ _ E L). auto.
Qed.
Lemma nine : scst 9 10 = 9 / 10. Proof. reflexivity. Qed.
Lemma solve_exists k x : exists fuel r, gp_solve n H h l u fuel k x = Some r.
Proof.
  revert x. induction k as [|k IH]; intros x; cbn [gp_solve]; [exists 0%nat; eauto|].
  destruct (search_exists x (9 / 10) ltac:(lra)) as (f1 & y & E1). destruct (IH y) as (f2 & r & E2).
  exists (Nat.max f1 f2), r. unfold gp_iteration. rewrite nine. rewrite (search_more _ _ _ _ _ _ _ E1 (Nat.le_max_l _ _)).
  apply (solve_more f2); auto. apply Nat.le_max_r.
Qed.
End Search.

Section Steps.
Variable n : nat.
Variable H : mat R.
Variables h l u : vec R.
Lemma iteration_move fuel x r : gp_iteration n H h l u fuel x = Some r -> exists a, forall i, (i < n)%nat -> r i = x i - pstep n H h l u x a i.
Proof.
  unfold gp_iteration. intros X. destruct (search_spec n H h l u _ _ _ _ X) as (j & _ & -> & _). eexists. intros i Hi. apply gp_trial_R; auto.
Qed.
Lemma solve_move fuel k x r : (forall i, (i < n)%nat -> l i <= u i) -> gp_solve n H h l u fuel k x = Some r ->
  forall i, (i < n)%nat -> x i - INR k * u i <= r i <= x i - INR k * l i.
Proof.
  intros HB. revert x. induction k as [|k IH]; intros x E i Hi.
  - cbn [gp_solve] in E. injection E as <-. simpl. lra.
  - cbn [gp_solve] in E. destruct (gp_iteration n H h l u fuel x) as [y|] eqn:Ey; [|discriminate].
    assert (A := IH y E i Hi). destruct (iteration_move _ _ _ Ey) as [a Ea]. rewrite (Ea i Hi) in A. rewrite S_INR.
    assert (B : l i <= pstep n H h l u x a i <= u i). { unfold pstep. assert (C := HB i Hi). split; [apply Rmin_glb; [apply Rmax_r|auto]|apply Rmin_r]. }
    nra.
Qed.
End Steps.

(** ** infinite runs *)
Lemma cv_const c : Un_cv (fun _ => c) c.
Proof. intros e He. exists 0%nat. intros. unfold R_dist. rewrite Rminus_diag_eq, Rabs_R0; auto. Qed.
Lemma cv_ext f g a : (forall k, f k = g k) -> Un_cv f a -> Un_cv g a.
Proof. intros E C e He. destruct (C e He) as [N HN]. exists N. intros m Hm. rewrite <- E. auto. Qed.
Lemma cv_shift f a : Un_cv f a -> Un_cv (fun k => f (S k)) a.
Proof. intros C e He. destruct (C e He) as [N HN]. exists N. intros m Hm. apply HN. lia. Qed.
Lemma cv_rsum n (f : nat -> nat -> R) (a : nat -> R) : (forall i, (i < n)%nat -> Un_cv (fun k => f k i) (a i)) -> Un_cv (fun k => rsum n (f k)) (rsum n a).
Proof.
  induction n as [|n IH]; intros C.
  - apply (cv_ext (fun _ => 0)); [reflexivity|]. apply cv_const.
  - rewrite rsum_S. apply (cv_ext (fun k => rsum n (f k) + f k n)); [intros; rewrite rsum_S; reflexivity|].
    apply CV_plus; [apply IH; intros; apply C; lia|apply C; lia].
Qed.
Lemma cv_slope n H h xs y i : converges n xs y -> Un_cv (fun k => gp_slope n H h (xs k) i) (gp_slope n H h y i).
Proof.
  intros C. unfold gp_slope. apply CV_plus; [|apply cv_const].
  rewrite rmv_def. apply (cv_ext (fun k => rsum n (fun j => H i j * xs k j))); [intros; rewrite rmv_def; reflexivity|].
  apply cv_rsum. intros j Hj. apply CV_mult; [apply cv_const|apply C; auto].
Qed.
Lemma cv_squeeze f g : (forall k, 0 <= f k <= g k) -> Un_cv g 0 -> Un_cv f 0.
Proof.
  intros E C e He. destruct (C e He) as [N HN]. exists N. intros m Hm. assert (A := HN m Hm). unfold R_dist in *. rewrite Rminus_0_r in *.
  assert (B := E m). rewrite Rabs_right in * by lra. lra.
Qed.
Lemma cv_sq f : Un_cv (fun k => f k * f k) 0 -> Un_cv f 0.
Proof.
  intros C e He. destruct (C (e * e) ltac:(nra)) as [N HN]. exists N. intros m Hm. assert (A := HN m Hm). unfold R_dist in *. rewrite Rminus_0_r in *.
  rewrite Rabs_right in A by (apply Rle_ge, Rle_0_sqr). apply Rabs_def1; nra.
Qed.

Section Runs.
Variable n : nat.
Variable H : mat R.
Variables h l u : vec R.
Hypothesis HS : symmetric n H.
Hypothesis HB : forall i, (i < n)%nat -> l i < 0 < u i.
Variable xs : nat -> vec R.
Hypothesis Hrun : forall k, exists fuel, gp_iteration n H h l u fuel (xs k) = Some (xs (S k)).

Lemma pstep_size x a i : 0 <= a -> (i < n)%nat -> Rmin (Rmin (u i) (- l i)) (a * Rabs (gp_slope n H h x i)) <= Rabs (pstep n H h l u x a i).
Proof.
  intros Ha Hi. assert (B := HB i Hi). unfold pstep. set (g := gp_slope n H h x i).
  assert (M1 := Rmin_l (Rmin (u i) (- l i)) (a * Rabs g)). assert (M2 := Rmin_r (Rmin (u i) (- l i)) (a * Rabs g)). set (m := Rmin (Rmin (u i) (- l i)) (a * Rabs g)) in *.
  assert (M3 := Rmin_l (u i) (- l i)). assert (M4 := Rmin_r (u i) (- l i)). set (m' := Rmin (u i) (- l i)) in *.
  assert (Eg : a * Rabs g = Rabs (a * g)) by (rewrite Rabs_mult, (Rabs_right a); lra). rewrite Eg in M2.
  unfold Rmax. destruct (Rle_dec (a * g) (l i)) as [C|C]; unfold Rmin; [destruct (Rle_dec (l i) (u i)) as [D|D]|destruct (Rle_dec (a * g) (u i)) as [D|D]]; try lra; rewrite ?Rabs_left, ?Rabs_right by lra; lra.
Qed.
Lemma run_step : exists amin, 0 < amin /\ forall k, exists a, amin <= a <= 9 / 10 /\ (forall i, (i < n)%nat -> xs (S k) i = xs k i - pstep n H h l u (xs k) a i).
Proof.
  destruct (form_below_exists n H) as (L & L0 & HL). exists (Rmin (9 / 10) (6 / 10 / L)). split; [apply Rmin_glb_lt; [lra|apply Rdiv_lt_0_compat; lra]|].
  intros k. destruct (Hrun k) as [fuel E]. unfold gp_iteration in E. rewrite nine in E.
  destruct (search_step n H h l u HS (fun i Hi => let B := HB i Hi in conj (Rlt_le _ _ (proj1 B)) (Rlt_le _ _ (proj2 B))) L fuel (xs k) (9 / 10) _ L0 HL ltac:(lra) E) as (b & Hb & -> & _).
  exists b. split; auto. intros i Hi. apply gp_trial_R; auto.
Qed.
(** when the steps vanish, so does the gradient *)
Lemma slope_vanishes i : (i < n)%nat -> Un_cv (fun k => xs k i - xs (S k) i) 0 -> Un_cv (fun k => gp_slope n H h (xs k) i) 0.
Proof.
  intros Hi C. destruct run_step as (amin & A0 & HA). assert (B := HB i Hi).
  intros e He. assert (D0 : 0 < Rmin (u i) (- l i)) by (apply Rmin_glb_lt; lra).
  destruct (C (Rmin (Rmin (u i) (- l i)) (amin * e))) as [N HN]; [apply Rmin_glb_lt; [auto|nra]|].
  exists N. intros k Hk. assert (E := HN k Hk). unfold R_dist in *. rewrite Rminus_0_r in *. destruct (HA k) as (a & Ha & Hx). rewrite (Hx i Hi) in E.
  replace (xs k i - (xs k i - pstep n H h l u (xs k) a i)) with (pstep n H h l u (xs k) a i) in E by ring.
  assert (F := pstep_size (xs k) a i ltac:(lra) Hi). set (g := gp_slope n H h (xs k) i) in *. set (d := Rmin (u i) (- l i)) in *.
  apply Rnot_le_lt. intros X. assert (Y : amin * e <= a * Rabs g) by (apply Rmult_le_compat; lra).
  assert (Z : Rmin d (amin * e) <= Rmin d (a * Rabs g)) by (apply Rle_min_compat_l; auto). lra.
Qed.
Lemma limit_stationary y : converges n xs y -> stationary n H h y.
Proof.
  intros C i Hi. apply (UL_sequence (fun k => gp_slope n H h (xs k) i)); [apply cv_slope; auto|].
  apply slope_vanishes; auto. replace 0 with (y i - y i) by ring. apply CV_minus; [apply C; auto|apply (cv_shift (fun k => xs k i)), C; auto].
Qed.

(** ** a small upper bound on the form: descent and convergence *)
Variables mm L : R.
Hypothesis Hmm : 0 < mm.
Hypothesis HM : form_above n H mm.
Hypothesis HL : form_below n H L.
Hypothesis L2 : L < 20 / 9.
Variable y : vec R.
Hypothesis Hy : stationary n H h y.
Notation cost := (gp_cost n H h).
Lemma run_descent k : let p := fun i => xs k i - xs (S k) i in cost (xs (S k)) + (10 / 9 - L / 2) * rdot n p p <= cost (xs k).
Proof.
  intros p. destruct run_step as (amin & A0 & HA). destruct (HA k) as (a & Ha & Hx).
  rewrite (cost_ext n H h (xs (S k)) (fun i => xs k i - pstep n H h l u (xs k) a i)) by auto. rewrite cost_move by auto.
  assert (E : rdot n p p = rdot n (pstep n H h l u (xs k) a) (pstep n H h l u (xs k) a)) by (apply rdot_ext; intros i Hi; unfold p; rewrite (Hx i Hi); ring).
  rewrite E. set (q := pstep n H h l u (xs k) a). assert (Q := HL q).
  assert (D := pstep_dot n H h l u (fun i Hi => let B := HB i Hi in conj (Rlt_le _ _ (proj1 B)) (Rlt_le _ _ (proj2 B))) (xs k) a ltac:(lra)). fold q in D.
  assert (Q0 := rdot_self_nonneg n q). set (g := rdot n (gp_slope n H h (xs k)) q) in *. set (qq := rdot n q q) in *.
  assert (G : 10 / 9 * qq <= g). { assert (G0 : 0 <= g) by nra. assert (qq <= 9 / 10 * g) by nra. lra. }
  lra.
Qed.
Lemma cost_above x : cost y <= cost x.
Proof.
  rewrite (cost_ext n H h x (fun i => y i - (y i - x i))) by (intros; ring). rewrite cost_move by auto.
  replace (rdot n (gp_slope n H h y) (fun i => y i - x i)) with 0.
  - assert (A := HM (fun i => y i - x i)). assert (B := rdot_self_nonneg n (fun i => y i - x i)). nra.
  - symmetry. rewrite rdot_def. apply rsum_zero. intros i Hi. rewrite (Hy i Hi). ring.
Qed.
Lemma steps_vanish i : (i < n)%nat -> Un_cv (fun k => xs k i - xs (S k) i) 0.
Proof.
  intros Hi. set (kap := 10 / 9 - L / 2). assert (K0 : 0 < kap) by (unfold kap; lra).
  assert (Dec : forall k, cost (xs (S k)) + kap * ((xs k i - xs (S k) i) * (xs k i - xs (S k) i)) <= cost (xs k)).
  { intros k. assert (A := run_descent k). cbv zeta in A. fold kap in A.
    assert (B := rsum_nonneg_term n (fun j => (xs k j - xs (S k) j) * (xs k j - xs (S k) j)) i (fun j _ => Rle_0_sqr _) Hi). rewrite rdot_def in A. cbv beta in *. nra. }
  destruct (decreasing_cv (fun k => cost (xs k))) as [c Hc].
  - intros k. assert (A := Dec k). assert (B := Rle_0_sqr (xs k i - xs (S k) i)). unfold Rsqr in B. nra.
  - exists (- cost y). intros z [k ->]. unfold opp_seq. assert (A := cost_above (xs k)). lra.
  - apply cv_sq. apply (cv_squeeze _ (fun k => / kap * (cost (xs k) - cost (xs (S k))))).
    + intros k. split; [apply Rle_0_sqr|]. apply Rmult_le_reg_l with kap; auto. replace (kap * (/ kap * (cost (xs k) - cost (xs (S k))))) with (cost (xs k) - cost (xs (S k))) by (field; lra). assert (A := Dec k). lra.
    + replace 0 with (/ kap * (c - c)) by ring. apply CV_mult; [apply cv_const|]. apply CV_minus; [exact Hc|apply (cv_shift (fun k => cost (xs k))); exact Hc].
Qed.
Lemma run_converges : converges n xs y.
Proof.
  intros i Hi.
  assert (G : Un_cv (fun k => rsum n (fun j => gp_slope n H h (xs k) j * gp_slope n H h (xs k) j)) 0).
  { replace 0 with (rsum n (fun _ => 0 * 0)) by (apply rsum_zero; intros; ring). apply (cv_rsum n (fun k j => gp_slope n H h (xs k) j * gp_slope n H h (xs k) j)). intros j Hj. apply CV_mult; apply slope_vanishes, steps_vanish; auto. }
  assert (D : Un_cv (fun k => xs k i - y i) 0).
  { apply cv_sq. apply (cv_squeeze _ (fun k => / (mm * mm) * rsum n (fun j => gp_slope n H h (xs k) j * gp_slope n H h (xs k) j))).
    - intros k. split; [apply Rle_0_sqr|]. set (d := fun j => xs k j - y j).
      assert (A := HM d). assert (B := rsum_nonneg_term n (fun j => d j * d j) i (fun j _ => Rle_0_sqr (d j)) Hi). rewrite <- rdot_def in B. cbv beta in B.
      assert (E : qf n H d = rdot n d (gp_slope n H h (xs k))).
      { unfold qf. apply rdot_ext; auto. intros j Hj. unfold d. rewrite rmv_minus. assert (Z := Hy j Hj). unfold gp_slope in *. lra. }
      rewrite E in A. set (g := gp_slope n H h (xs k)) in *.
      assert (C : 0 <= rdot n (fun j => mm * d j - g j) (fun j => mm * d j - g j)) by apply rdot_self_nonneg.
      rewrite rdot_minus_l, !rdot_minus_r, !rdot_scal_l, !rdot_scal_r, (rdot_comm n g d) in C.
      change (rsum n (fun j => g j * g j)) with (rdot n g g). fold (d i). apply Rmult_le_reg_l with (mm * mm); [nra|]. replace (mm * mm * (/ (mm * mm) * rdot n g g)) with (rdot n g g) by (field; lra).
      set (dd := rdot n d d) in *. set (dg := rdot n d g) in *. set (gg := rdot n g g) in *.
      assert (mm * mm * (d i * d i) <= mm * mm * dd) by (apply Rmult_le_compat_l; [nra|auto]). assert (mm * (mm * dd) <= mm * dg) by (apply Rmult_le_compat_l; lra). nra.
    - replace 0 with (/ (mm * mm) * 0) by ring. apply CV_mult; [apply cv_const|exact G]. }
  apply (cv_ext (fun k => xs k i - y i + y i)); [intros; ring|]. rewrite <- (Rplus_0_l (y i)) at 1. apply (CV_plus (fun k => xs k i - y i) (fun _ => y i)); [exact D|apply cv_const].
Qed.
End Runs.
