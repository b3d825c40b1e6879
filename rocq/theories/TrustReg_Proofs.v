Require Import ZArith List Bool Lia Reals Lra Psatz.
From Verif Require Import Scal RSum RNorm GradProj_Spec GradProj_Model GradProj_Proofs TrustReg_Model TrustReg_Spec.
Local Open Scope R_scope.

Section Any.
Variable n : nat.
Variable cost : vec R -> R.
Variable grad : vec R -> vec R.
Variable hess : vec R -> mat R.
Variable llt : mat R -> bool * (vec R -> vec R) * (vec R -> vec R).
Lemma radius_rule rho r p : 0 < r -> let r' := tr_radius n rho r p in
  0 < r' <= Rmax r 1000 /\ (1 / 10 <= rho -> r <= r' \/ r' = 1000) /\ (rho < 1 / 10 -> r' = r / 2) /\ (1 / 10 <= rho <= 3 / 4 -> r' = r) /\
  (3 / 4 < rho -> r' = if Rlt_dec (tr_norm n p) (8 / 10 * r) then r else Rmin (2 * r) 1000).
Proof.
  intros Hr r'. unfold r', tr_radius. change (@sltb R R_scalar) with Rltb. rewrite !cst_R, sfmin_R. cbn [smul sofZ R_scalar].
  assert (M1 := Rmax_l r 1000). assert (M2 := Rmax_r r 1000). assert (M3 := Rmin_l (2 * r) 1000). assert (M4 := Rmin_r (2 * r) 1000).
  assert (M5 : 0 < Rmin (2 * r) 1000) by (apply Rmin_glb_lt; lra).
  assert (M6 : r <= Rmin (2 * r) 1000 \/ Rmin (2 * r) 1000 = 1000) by (unfold Rmin; destruct (Rle_dec (2 * r) 1000); [left; lra|right; auto]).
  unfold Rltb. destruct (Rlt_dec rho (1 / 10)); [split; [split; lra|repeat split; intros; try (exfalso; lra); lra]|].
  destruct (Rlt_dec (3 / 4) rho); [|split; [split; lra|repeat split; intros; try (exfalso; lra); try (left; lra); lra]].
  destruct (Rlt_dec (tr_norm n p) (8 / 10 * r)); (split; [split; lra|repeat split; intros; try (exfalso; lra); auto]); left; lra.
Qed.
Notation iter1 := (tr_iteration n cost grad hess llt).
Lemma loop_run fuel : forall i x r x' r' k, tr_loop n cost grad hess llt fuel i x r = (x', r', k) ->
  exists (xs : nat -> vec R) (rs : nat -> R), (i <= k <= i + fuel)%nat /\ xs i = x /\ rs i = r /\
    (forall j, (i <= j < k)%nat -> iter1 (xs j) (rs j) = (xs (S j), rs (S j), false)) /\
    ((k = (i + fuel)%nat /\ x' = xs k /\ r' = rs k) \/ ((k < i + fuel)%nat /\ iter1 (xs k) (rs k) = (x', r', true))).
Proof.
  induction fuel as [|f IH]; intros i x r x' r' k E; cbn [tr_loop] in E.
  - injection E as <- <- <-. exists (fun _ => x), (fun _ => r). repeat split; try lia. left. repeat split; lia.
  - destruct (iter1 x r) as [[x1 r1] stop] eqn:E1. destruct stop.
    + injection E as <- <- <-. exists (fun _ => x), (fun _ => r). repeat split; try lia. right. split; [lia|auto].
    + destruct (IH _ _ _ _ _ _ E) as (xs & rs & L & X0 & R0 & St & Fin).
      exists (fun j => if Nat.leb j i then x else xs j), (fun j => if Nat.leb j i then r else rs j).
      assert (Le : forall j, (i < j)%nat -> Nat.leb j i = false) by (intros; apply Nat.leb_gt; auto).
      split; [lia|]. rewrite Nat.leb_refl. split; [auto|]. split; [auto|]. split.
      * intros j Hj. rewrite (Le (S j)) by lia. destruct (Nat.eq_dec j i) as [->|Hn].
        -- rewrite Nat.leb_refl. rewrite X0, R0. exact E1.
        -- rewrite Le by lia. apply St. lia.
      * rewrite !Le by lia. destruct Fin as [(A & B & C)|(A & B)]; [left; repeat split; auto; lia|right; split; [lia|auto]].
Qed.
Lemma stop_small x r x' r' : iter1 x r = (x', r', true) -> rnorminf n (grad x) < 1 / 10000.
Proof.
  intros E. assert (E' := f_equal (fun q => snd q) E). unfold tr_iteration in E'. cbn [snd] in E'. change (@sltb R R_scalar) with Rltb in E'. rewrite cst_R in E'. apply Rltb_true in E'. exact E'.
Qed.
Lemma go_large x r x' r' : iter1 x r = (x', r', false) -> 1 / 10000 <= rnorminf n (grad x).
Proof.
  intros E. assert (E' := f_equal (fun q => snd q) E). unfold tr_iteration in E'. cbn [snd] in E'. change (@sltb R R_scalar) with Rltb in E'. rewrite cst_R in E'. apply Rltb_false in E'. exact E'.
Qed.
End Any.

Section Quad.
Variable n : nat.
Variable H : mat R.
Variable h : vec R.
Variable llt : mat R -> bool * (vec R -> vec R) * (vec R -> vec R).
Hypothesis HS : symmetric n H.
Notation slope := (gp_slope n H h).
Lemma sq_cost_R x : sq_cost n H h x = gp_cost n H h x.
Proof. apply gp_f_R. Qed.
Lemma sq_grad_R x i : (i < n)%nat -> sq_grad n H h x i = slope x i.
Proof. intros Hi. unfold sq_grad. rewrite tab_spec; auto. Qed.
Lemma pred_R x p : tr_pred n H (sq_grad n H h x) p = - (rdot n (slope x) p + / 2 * qf n H p).
Proof.
  unfold tr_pred. rewrite cst_R. cbn [sopp sadd smul R_scalar]. rewrite (rdot_ext n (sq_grad n H h x) p (slope x) p) by (auto; apply sq_grad_R).
  unfold qf, Rdiv. rewrite Rmult_1_l. reflexivity.
Qed.
(** on a quadratic the two reductions agree *)
Lemma ared_pred x p : sq_cost n H h x - sq_cost n H h (tr_add n x p) = tr_pred n H (sq_grad n H h x) p.
Proof.
  rewrite !sq_cost_R, pred_R.
  rewrite (cost_ext n H h (tr_add n x p) (fun i => x i - - p i)) by (intros i Hi; unfold tr_add; rewrite tab_spec by auto; cbn [sadd R_scalar]; ring).
  rewrite cost_move by auto.
  replace (qf n H (fun i => - p i)) with (qf n H p).
  - rewrite (rdot_comm n (slope x) (fun i => - p i)), rdot_opp_l, (rdot_comm n p). lra.
  - unfold qf. rewrite rdot_opp_l. rewrite (rdot_ext n p (rmv n H (fun i => - p i)) p (fun i => -1 * rmv n H p i)); [rewrite rdot_scal_r; ring|auto|].
    intros i Hi. rewrite <- rmv_scal. apply rmv_ext; auto. intros; ring.
Qed.
Lemma quad_iteration x r : 0 < r -> let p := tr_step n llt H (sq_grad n H h x) r in tr_pred n H (sq_grad n H h x) p <> 0 ->
  exists stop, tr_iteration n (sq_cost n H h) (sq_grad n H h) (sq_hess H) llt x r =
    (tr_add n x p, if Rlt_dec (tr_norm n p) (8 / 10 * r) then r else Rmin (2 * r) 1000, stop).
Proof.
  intros Hr p Hp. eexists. unfold tr_iteration. cbv zeta. change (sq_hess H x) with H. fold p. rewrite ared_pred.
  change (@sdiv R R_scalar) with Rdiv. replace (tr_pred n H (sq_grad n H h x) p / tr_pred n H (sq_grad n H h x) p) with 1 by (field; auto).
  change (@sltb R R_scalar) with Rltb. cbn [s0 R_scalar]. rewrite (proj2 (Rltb_true 0 1)) by lra.
  destruct (radius_rule n 1 r p Hr) as (_ & _ & _ & _ & E). rewrite E by lra. reflexivity.
Qed.
Lemma shift_mv B lam x i : (i < n)%nat -> rmv n (tr_shift n B lam) x i = rmv n B x i + lam * x i.
Proof.
  intros Hi. rewrite !rmv_def. rewrite (rsum_ext n _ (fun j => B i j * x j + (if Nat.eqb j i then lam * x j else 0))).
  - rewrite rsum_plus. rewrite (rsum_delta n i (fun j => lam * x j) Hi). reflexivity.
  - intros j Hj. unfold tr_shift. rewrite tab2_spec by auto. cbn [sadd smul s1 s0 R_scalar]. rewrite (Nat.eqb_sym i j). destruct (Nat.eqb j i); ring.
Qed.
Lemma shift_sym lam : symmetric n (tr_shift n H lam).
Proof. intros i j Hi Hj. unfold tr_shift. rewrite !tab2_spec by auto. rewrite (HS i j Hi Hj), (Nat.eqb_sym i j). reflexivity. Qed.
Lemma shift_qf lam x : qf n (tr_shift n H lam) x = qf n H x + lam * rdot n x x.
Proof.
  unfold qf. rewrite (rdot_ext n x _ x (fun i => rmv n H x i + lam * x i)); [|auto|intros; apply shift_mv; auto]. rewrite rdot_plus_r, rdot_scal_r. reflexivity.
Qed.
Hypothesis HL : llt_exact n llt.
(** the step solves the shifted system if its matrix is positive definite *)
Lemma step_solves g r : posdef n (tr_shift n H (tr_lambda n llt H g r)) ->
  forall i, (i < n)%nat -> rmv n H (tr_step n llt H g r) i + tr_lambda n llt H g r * tr_step n llt H g r i = - g i.
Proof.
  intros HP i Hi. rewrite <- shift_mv by auto. unfold tr_step. set (M := tr_shift n H (tr_lambda n llt H g r)) in *.
  assert (A := HL M (shift_sym _)). destruct (llt M) as [[ok s] ls]. destruct A as [A1 A2]. destruct (A2 (proj2 A1 HP)) as [A3 _].
  unfold tr_newton. rewrite (rmv_ext n M M _ (s (tab n (fun i => - g i)))); auto; [|intros; rewrite tab_spec; auto].
  rewrite A3 by auto. rewrite tab_spec; auto.
Qed.
Lemma quad_descent x r : posdef n H -> 0 <= tr_lambda n llt H (sq_grad n H h x) r -> ~ stationary n H h x ->
  let p := tr_step n llt H (sq_grad n H h x) r in 0 < tr_pred n H (sq_grad n H h x) p.
Proof.
  intros HP Hl Hns p. set (lam := tr_lambda n llt H (sq_grad n H h x) r) in *.
  assert (PD : posdef n (tr_shift n H lam)). { intros v Hv. rewrite shift_qf. assert (A := HP v Hv). assert (B := rdot_self_nonneg n v). nra. }
  assert (E := step_solves _ _ PD). fold lam p in E.
  assert (NZ : nonzero_vec n p).
  { destruct (nonzero_dec n p) as [A|A]; auto. exfalso. apply Hns. intros i Hi. rewrite <- sq_grad_R by auto.
    assert (B := E i Hi). rewrite (A i Hi) in B. rewrite (rmv_ext n H H p (fun _ => 0)) in B by auto. rewrite rmv_def, rsum_zero in B by (intros; ring). lra. }
  rewrite pred_R. assert (A := HP p NZ). assert (B := rdot_self_nonneg n p).
  replace (rdot n (slope x) p) with (- (qf n H p + lam * rdot n p p)); [nra|].
  unfold qf. rewrite (rdot_comm n (slope x) p). rewrite (rdot_ext n p (slope x) p (fun i => -1 * (rmv n H p i + lam * p i))).
  - rewrite rdot_scal_r, rdot_plus_r, rdot_scal_r. ring.
  - auto.
  - intros i Hi. rewrite (E i Hi), sq_grad_R by auto. ring.
Qed.
End Quad.

(** ** one variable *)
Section One.
Variables b c : R.
Hypothesis Hb : 0 < b.
Variable llt : mat R -> bool * (vec R -> vec R) * (vec R -> vec R).
Hypothesis HL : llt_exact 1 llt.
Notation H := (fun _ _ : nat => b).
Lemma one_rsum f : rsum 1 f = f O. Proof. unfold rsum, ssum. simpl. ring. Qed.
Lemma sym1 M : symmetric 1 M. Proof. intros i j Hi Hj. assert (i = O) by lia. assert (j = O) by lia. subst. reflexivity. Qed.
Lemma posdef1 M : posdef 1 M <-> 0 < M O O.
Proof.
  split.
  - intros P. assert (A := P (fun _ => 1) (ex_intro _ O (conj Nat.lt_0_1 R1_neq_R0))). unfold qf in A. rewrite rdot_def, one_rsum, rmv_def, one_rsum in A. lra.
  - intros P v (i & Hi & Hv). assert (i = O) by lia. subst i. unfold qf. rewrite rdot_def, one_rsum, rmv_def, one_rsum.
    replace (v O * (M O O * v O)) with (M O O * (v O * v O)) by ring. apply Rmult_lt_0_compat; auto. exact (Rsqr_pos_lt _ Hv).
Qed.
Lemma shift1 lam : tr_shift 1 H lam O O = b + lam. Proof. unfold tr_shift. rewrite tab2_spec by lia. simpl. ring. Qed.
Lemma lambda_step1 g r lam : 0 < r -> g O <> 0 -> 0 < b + lam -> tr_lambda_step 1 llt H g r lam = Rabs (g O) / r - b.
Proof.
  intros Hr Hg Hm. unfold tr_lambda_step. assert (A := HL (tr_shift 1 H lam) (sym1 _)). assert (S := shift1 lam).
  destruct (llt (tr_shift 1 H lam)) as [[ok s] ls]. destruct A as [A1 A2]. assert (Ok : ok = true) by (apply A1, posdef1; rewrite S; auto).
  destruct (A2 Ok) as [A3 A4]. rewrite Ok. set (p := tr_newton 1 s g). set (m := b + lam) in *.
  assert (P : m * p O = - g O).
  { assert (X := A3 (tab 1 (fun i => - g i)) O ltac:(lia)). rewrite rmv_def, one_rsum, S in X. rewrite tab_spec in X by lia. unfold p, tr_newton. rewrite tab_spec by lia. exact X. }
  assert (P0 : p O <> 0) by (intros Z; rewrite Z in P; lra).
  assert (Q : rdot 1 (tab 1 (ls p)) (tab 1 (ls p)) = p O * p O / m).
  { rewrite (rdot_ext 1 _ _ (ls p) (ls p)) by (intros; apply tab_spec; auto). rewrite (A4 (fun _ => p O / m) p).
    - rewrite rdot_def, one_rsum. field. lra.
    - intros i Hi. assert (i = O) by lia. subst i. rewrite rmv_def, one_rsum, S. field. lra. }
  assert (N : tr_norm 1 p = Rabs (g O) / m).
  { unfold tr_norm. cbn [ssqrt R_scalar]. rewrite rdot_def, one_rsum. change (p O * p O) with (Rsqr (p O)). rewrite sqrt_Rsqr_abs.
    replace (p O) with (- g O / m) by (rewrite <- P; field; lra). unfold Rdiv. rewrite Rabs_mult, Rabs_Ropp, (Rabs_right (/ m)); auto. left. apply Rinv_0_lt_compat; auto. }
  rewrite N, Q. cbn [sadd smul sdiv ssub R_scalar]. rewrite rdot_def, one_rsum. unfold m. field. unfold m in *. repeat split; lra.
Qed.
Lemma lambda1 g r : 0 < r -> g O <> 0 -> tr_lambda 1 llt H g r = Rabs (g O) / r - b.
Proof.
  intros Hr Hg. unfold tr_lambda. cbn [Nat.iter nat_rect]. rewrite cst_R.
  assert (G : 0 < Rabs (g O) / r) by (apply Rdiv_lt_0_compat; [apply Rabs_pos_lt|]; auto).
  rewrite (lambda_step1 g r (1 / 10)) by (auto; lra). rewrite !(lambda_step1 g r (Rabs (g O) / r - b)) by (auto; lra). reflexivity.
Qed.
(** the step has the length of the radius *)
Lemma step1 g r : 0 < r -> g O <> 0 -> tr_step 1 llt H g r O = - (r * (g O / Rabs (g O))).
Proof.
  intros Hr Hg. assert (G0 : 0 < Rabs (g O)) by (apply Rabs_pos_lt; auto).
  assert (X := step_solves 1 H llt (sym1 _) HL g r). rewrite lambda1 in X by auto.
  assert (Y := X ltac:(apply posdef1; rewrite shift1; assert (0 < Rabs (g O) / r) by (apply Rdiv_lt_0_compat; auto); lra) O ltac:(lia)).
  rewrite rmv_def, one_rsum in Y. set (p := tr_step 1 llt H g r O) in *.
  assert (Z : Rabs (g O) / r * p = - g O) by lra.
  replace p with (r / Rabs (g O) * (Rabs (g O) / r * p)) by (field; lra). rewrite Z. field. lra.
Qed.
End One.
