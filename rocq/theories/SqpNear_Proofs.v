(** Proofs about SqpNear_Spec.v. *)
Require Import Reals Lra Lia List ZArith Bool.
From Verif Require Import Scal RSum RNorm Qp_Model Qp_Spec Qp_Proofs Sqp_Model Sqp_Spec Sqp_Proofs Sqp_ProofsR SqpQp_Spec SqpQp_Proofs
  QpDist_Spec QpDist_Proofs SqpDist_Proofs SqpNear_Spec.
Import ListNotations.
Local Open Scope R_scope.

Lemma rabs_inv : forall x a, Rabs x <= a -> - a <= x <= a.
Proof. intros x a H. pose proof (Rle_abs x). pose proof (Rle_abs (- x)) as K. rewrite Rabs_Ropp in K. lra. Qed.

(** ** rows of the subproblem *)
Lemma row_push : forall lb ub g z l mu, sign_ok (ext_add (- g) lb) (ext_add (- g) ub) z l -> Rabs l <= mu ->
  - (l * z) <= mu * (viol_lo lb g + viol_up ub g).
Proof.
  intros lb ub g z l mu [S1 S2] Hl.
  assert (V1 := proj1 (viol_lo_R lb g)). assert (V2 := proj1 (viol_up_R ub g)). assert (0 <= Rabs l) by apply Rabs_pos.
  destruct (Rtotal_order l 0) as [Hn|[Hz|Hp]].
  - specialize (S2 Hn). destruct lb as [lb| |]; simpl in S2; try discriminate. injection S2 as S2.
    assert (Hv : lb - g <= viol_lo (Fin lb) g) by (simpl; rewrite smax_R; apply Rmax_l). rewrite Rabs_left in * by auto.
    replace (- (l * z)) with ((- l) * (lb - g)) by (rewrite <- S2; ring).
    apply Rle_trans with (- l * viol_lo (Fin lb) g); [apply Rmult_le_compat_l; lra|].
    apply Rle_trans with (mu * viol_lo (Fin lb) g); [apply Rmult_le_compat_r; lra|]. apply Rmult_le_compat_l; lra.
  - rewrite Hz. replace (- (0 * z)) with 0 by ring. apply Rmult_le_pos; lra.
  - specialize (S1 Hp). destruct ub as [ub| |]; simpl in S1; try discriminate. injection S1 as S1.
    assert (Hv : g - ub <= viol_up (Fin ub) g) by (simpl; rewrite smax_R; apply Rmax_l). rewrite Rabs_right in * by lra.
    replace (- (l * z)) with (l * (g - ub)) by (rewrite <- S1; ring).
    apply Rle_trans with (l * viol_up (Fin ub) g); [apply Rmult_le_compat_l; lra|].
    apply Rle_trans with (mu * viol_up (Fin ub) g); [apply Rmult_le_compat_r; lra|]. apply Rmult_le_compat_l; lra.
Qed.
Lemma ext_sub_add : forall (e : ext R) x, ext_sub e x = ext_add (- x) e.
Proof. intros [l| |] x; simpl; try reflexivity. f_equal. rsimp. ring. Qed.

(** a value near a point inside the bounds violates them by little *)
Lemma row_viol : forall lb ub g a z ep, 0 <= ep -> in_bounds (ext_add (- g) lb) (ext_add (- g) ub) z -> Rabs (a - z) <= ep ->
  viol_lo lb (g + a) + viol_up ub (g + a) <= 2 * ep.
Proof.
  intros lb ub g a z ep He [B1 B2] H. apply rabs_inv in H.
  assert (viol_lo lb (g + a) <= ep).
  { destruct lb as [l| |]; simpl in *; rsimp; try lra. rewrite smax_R. apply Rmax_lub; lra. }
  assert (viol_up ub (g + a) <= ep).
  { destruct ub as [l| |]; simpl in *; rsimp; try lra. rewrite smax_R. apply Rmax_lub; lra. }
  lra.
Qed.

Section Near.
Variable P : problem R.
Variable grad : vec R -> vec R.
Variable jac : vec R -> mat R.
Variable G : mat R.
Variable c : vec R.
Variable c0 : R.
Variable A : mat R.
Variable b : vec R.
Hypothesis HQ : quadratic_nlp P grad jac G c c0 A b.
Notation n := (nx P).
Notation m := (ne P + ni P)%nat.
Notation nd := (ne P + ni P + nx P)%nat.

(** descent along an inexact step *)
Lemma inexact_descent : forall H h J x p lam za zx ep ed, 
  certificate (sub_qp P H h J (constr_values P x) x) p lam za zx ep ep ed ->
  rdot n h p <= - qf n H p + rnorminf nd lam * total_violation P x + ed * rnorm1 n p + ep * rnorm1 nd lam.
Proof.
  intros H h J x p lam za zx ep ed (Ca & Cx & Cd). rewrite <- l1_sum_total.
  set (mu := rnorminf nd lam).
  assert (Hub : forall i, (i < nd)%nat -> Rabs (lam i) <= mu) by (intros; apply rnorminf_ub; auto).
  cbn [sub_qp qm qn qAlb qAub qA qxlb qxub] in *.
  assert (E : rdot n h p <= - qf n H p - rsum m (fun i => lam i * rmv n J p i) - rsum n (fun j => lam (m + j)%nat * p j) + ed * rnorm1 n p).
  { assert (Z : rdot n (lag_grad (sub_qp P H h J (constr_values P x) x) p lam) p <= ed * rnorm1 n p).
    { rewrite rnorm1_def, <- rsum_scal, rdot_def. apply rsum_le. intros j Hj. specialize (Cd j Hj).
      eapply Rle_trans; [apply Rle_abs|]. rewrite Rabs_mult. apply Rmult_le_compat_r; auto. apply Rabs_pos. }
    rewrite (lag_grad_dot (sub_qp P H h J (constr_values P x) x)) in Z. cbn [sub_qp qm qn qH qh qA] in Z.
    unfold qf. rewrite !rdot_def in *. rewrite (rsum_ext n (fun i => rmv n H p i * p i) (fun i => p i * rmv n H p i)) in Z by (intros; ring). lra. }
  assert (Q : forall a z l, Rabs (a - z) <= ep -> - (l * a) <= - (l * z) + ep * Rabs l).
  { intros a z l Hz. assert (K : Rabs (l * (a - z)) <= ep * Rabs l) by (rewrite Rabs_mult, Rmult_comm; apply Rmult_le_compat_r; [apply Rabs_pos|exact Hz]).
    pose proof (Rle_abs (- (l * (a - z)))) as K2. rewrite Rabs_Ropp in K2. lra. }
  assert (B1 : - rsum m (fun i => lam i * rmv n J p i) <=
      mu * (rsum (ne P) (fun i => Rabs (p_eq P x i)) +
            rsum (ni P) (fun i => viol_lo (lbg P i) (p_ineq P x i)) + rsum (ni P) (fun i => viol_up (ubg P i) (p_ineq P x i))) +
      ep * rsum m (fun i => Rabs (lam i))).
  { assert (C1 : rsum (ne P) (fun i => - (lam i * rmv n J p i)) <= mu * rsum (ne P) (fun i => Rabs (p_eq P x i)) + ep * rsum (ne P) (fun i => Rabs (lam i))).
    { rewrite <- !rsum_scal, <- rsum_plus. apply rsum_le. intros i Hi. destruct (Ca i ltac:(lia)) as (Bz & Hz & _).
      destruct (Nat.ltb_spec i (ne P)); [|lia]. destruct Bz as [Z1 Z2]. simpl in Z1, Z2.
      assert (Ez : za i = - p_eq P x i) by (unfold constr_values in Z1, Z2; destruct (Nat.ltb_spec i (ne P)); [|lia]; rsimp; lra).
      eapply Rle_trans; [apply (Q _ (za i)); exact Hz|]. rewrite Ez. replace (- (lam i * - p_eq P x i)) with (lam i * p_eq P x i) by ring.
      apply Rplus_le_compat_r. eapply Rle_trans; [apply Rle_abs|]. rewrite Rabs_mult. apply Rmult_le_compat_r; [apply Rabs_pos|apply Hub; lia]. }
    assert (C2 : rsum (ni P) (fun i => - (lam (ne P + i)%nat * rmv n J p (ne P + i)%nat)) <=
        mu * rsum (ni P) (fun i => viol_lo (lbg P i) (p_ineq P x i) + viol_up (ubg P i) (p_ineq P x i)) + ep * rsum (ni P) (fun i => Rabs (lam (ne P + i)%nat))).
    { rewrite <- !rsum_scal, <- rsum_plus. apply rsum_le. intros i Hi.
      destruct (Ca (ne P + i)%nat ltac:(lia)) as (_ & Hz & Sz). destruct (Nat.ltb_spec (ne P + i) (ne P)); [lia|].
      unfold constr_values in Sz. destruct (Nat.ltb_spec (ne P + i) (ne P)); [lia|]. replace (ne P + i - ne P)%nat with i in * by lia.
      eapply Rle_trans; [apply (Q _ (za (ne P + i)%nat)); exact Hz|]. apply Rplus_le_compat_r. apply row_push; [exact Sz|apply Hub; lia]. }
    rewrite rsum_plus in C2. rewrite rsum_opp in C1, C2. rewrite !rsum_split. lra. }
  assert (B2 : - rsum n (fun j => lam (m + j)%nat * p j) <=
      mu * (rsum n (fun j => viol_lo (lbx P j) (x j)) + rsum n (fun j => viol_up (ubx P j) (x j))) + ep * rsum n (fun j => Rabs (lam (m + j)%nat))).
  { rewrite <- rsum_opp, <- rsum_plus, <- !rsum_scal, <- rsum_plus. apply rsum_le. intros j Hj.
    destruct (Cx j Hj) as (_ & Hz & Sz). rewrite !ext_sub_add in Sz.
    eapply Rle_trans; [apply (Q _ (zx j)); exact Hz|]. apply Rplus_le_compat_r. apply row_push; [exact Sz|apply Hub; lia]. }
  unfold l1_sum. rewrite (rnorm1_def nd), rsum_split. lra.
Qed.

(** violation at the target *)
Lemma target_viol : forall H x p lam za zx ep ed t, 0 <= ep ->
  certificate (sub_qp P H (grad x) (jac x) (constr_values P x) x) p lam za zx ep ep ed -> (forall j, (j < n)%nat -> t j = x j + p j) ->
  total_violation P t <= 2 * INR nd * ep.
Proof.
  intros H x p lam za zx ep ed t He (Ca & Cx & _) Et. rewrite <- l1_sum_total. unfold l1_sum. cbn [sub_qp qm qn qAlb qAub qA qxlb qxub] in *.
  assert (V : forall i, (i < m)%nat -> constr_values P t i = constr_values P x i + rmv n (jac x) p i) by (intros; apply (value_at P grad jac G c c0 A b HQ); assumption).
  assert (B1 : rsum (ne P) (fun i => Rabs (p_eq P t i)) <= INR (ne P) * (2 * ep)).
  { rewrite <- rsum_const. apply rsum_le. intros i Hi. destruct (Ca i ltac:(lia)) as ([Z1 Z2] & Hz & _).
    destruct (Nat.ltb_spec i (ne P)); [|lia]. simpl in Z1, Z2. specialize (V i ltac:(lia)). unfold constr_values in V, Z1, Z2. destruct (Nat.ltb_spec i (ne P)); [|lia].
    apply rabs_inv in Hz. rsimp. apply Rabs_le. lra. }
  assert (B2 : rsum (ni P) (fun i => viol_lo (lbg P i) (p_ineq P t i) + viol_up (ubg P i) (p_ineq P t i)) <= INR (ni P) * (2 * ep)).
  { rewrite <- rsum_const. apply rsum_le. intros i Hi. destruct (Ca (ne P + i)%nat ltac:(lia)) as (Bz & Hz & _).
    destruct (Nat.ltb_spec (ne P + i) (ne P)); [lia|]. specialize (V (ne P + i)%nat ltac:(lia)). unfold constr_values in V, Bz. destruct (Nat.ltb_spec (ne P + i) (ne P)); [lia|].
    replace (ne P + i - ne P)%nat with i in * by lia. rewrite V. eapply row_viol; eauto. }
  assert (B3 : rsum n (fun j => viol_lo (lbx P j) (t j) + viol_up (ubx P j) (t j)) <= INR n * (2 * ep)).
  { rewrite <- rsum_const. apply rsum_le. intros j Hj. destruct (Cx j Hj) as (Bz & Hz & _). rewrite !ext_sub_add in Bz. rewrite Et by exact Hj. eapply row_viol; eauto. }
  rewrite rsum_plus in B2, B3. rewrite !plus_INR. lra.
Qed.

Variable mu : R.
Hypothesis Hmu : 0 < mu.
Hypothesis HM : curvature n G mu.
Lemma curv_psd : psd n G.
Proof. intro v. eapply Rle_trans; [|apply (HM v)]. apply Rmult_le_pos; [lra|]. rewrite rdot_def. apply rsum_nonneg. intros. apply Rle_0_sqr. Qed.

Lemma norm1_g : forall v, rnorm1 n v <= sqrt (INR n / mu) * sqrt (qf n G v).
Proof.
  intro v. assert (P1 : 0 <= rnorm1 n v) by (rewrite rnorm1_def; apply rsum_nonneg; intros; apply Rabs_pos).
  pose proof (curv_psd v) as Q1. assert (Hn : 0 <= INR n / mu) by (apply Rmult_le_pos; [apply pos_INR|apply Rlt_le, Rinv_0_lt_compat; exact Hmu]).
  rewrite <- sqrt_mult by assumption. rewrite <- (sqrt_Rsqr (rnorm1 n v) P1). apply sqrt_le_1_alt. unfold Rsqr.
  eapply Rle_trans; [apply norm1_sq|]. pose proof (HM v) as C. unfold Rdiv. rewrite Rmult_assoc. apply Rmult_le_compat_l; [apply pos_INR|].
  apply (Rmult_le_reg_l mu); [exact Hmu|]. rewrite <- Rmult_assoc, Rinv_r by lra. lra.
Qed.

(** triangle inequality *)
Lemma g_tri : forall u v w, (forall j, (j < n)%nat -> w j = u j + v j) -> sqrt (qf n G w) <= sqrt (qf n G u) + sqrt (qf n G v).
Proof.
  intros u v w E. destruct HQ as (Hs & _).
  rewrite (qf_ext2 P G w (fun j => u j + 1 * v j)) by (intros j Hj; rewrite E by exact Hj; ring). rewrite (qf_plus_scal n G u v 1 Hs).
  pose proof (curv_psd u) as U. pose proof (curv_psd v) as V. pose proof (sqrt_pos (qf n G u)) as SU. pose proof (sqrt_pos (qf n G v)) as SV.
  pose proof (cauchy_schwarz n G u v Hs curv_psd) as C.
  assert (B : bf n G u v <= sqrt (qf n G u) * sqrt (qf n G v)).
  { rewrite <- sqrt_mult by assumption. eapply Rle_trans; [apply Rle_abs|]. rewrite <- (sqrt_Rsqr_abs (bf n G u v)). apply sqrt_le_1_alt. exact C. }
  rewrite <- (sqrt_Rsqr (sqrt (qf n G u) + sqrt (qf n G v))) by lra. apply sqrt_le_1_alt. unfold Rsqr.
  pose proof (sqrt_sqrt _ U). pose proof (sqrt_sqrt _ V). lra.
Qed.
Lemma g_scal : forall a v w, 0 <= a -> (forall j, (j < n)%nat -> w j = a * v j) -> sqrt (qf n G w) = a * sqrt (qf n G v).
Proof.
  intros a v w Ha E. replace (qf n G w) with (a * a * qf n G v).
  - rewrite sqrt_mult, sqrt_square; [reflexivity|exact Ha|nra|apply curv_psd].
  - unfold qf. rewrite (rdot_ext n w (rmv n G w) (fun j => a * v j) (fun i => a * rmv n G v i)).
    + rewrite rdot_scal_l, rdot_scal_r. ring.
    + exact E.
    + intros i Hi. rewrite <- rmv_scal. apply rmv_ext; auto.
Qed.

Variables xs ls : vec R.
Hypothesis HK : nlp_kkt P (grad xs) (jac xs) xs ls.

(** the line search accepts a long full step *)
Lemma full_step_near : forall eta H x p lk ep ed L, 0 <= eta < / 2 -> 0 <= ep -> 0 <= ed -> hess_ok P G H ->
  inexact_step ep ed (sub_qp P H (grad x) (jac x) (constr_values P x) x, (p, lk)) -> rnorm1 nd lk <= L ->
  short_step n nd mu eta ep ed L <= sqrt (qf n G p) ->
  let k := rnorminf nd lk in
  merit P k (along P x p 1) <= merit P k x + 1 * eta * (rdot n (grad x) p - k * (sqp_eps + total_violation P x)).
Proof.
  intros eta H x p lk ep ed L Heta Hep Hed HH (za & zx & HC) HL Hw k. cbn [fst snd] in HC.
  assert (E : forall j, (j < n)%nat -> along P x p 1 j = x j + p j) by (intros j Hj; unfold along; rewrite tab_spec by auto; ring).
  pose proof (target_viol H x p lk za zx ep ed _ Hep HC E) as V. pose proof (inexact_descent H (grad x) (jac x) x p lk za zx ep ed HC) as D. fold k in D.
  rewrite (qf_eq P G H p HH) in D. unfold merit. rewrite (cost_at P grad jac G c c0 A b HQ x p _ E).
  pose proof (norm1_g p) as N1. pose proof (curv_psd p) as Q0. pose proof (sqrt_sqrt _ Q0) as Q1. pose proof (sqrt_pos (qf n G p)) as Q2.
  set (q := qf n G p) in *. set (w := sqrt q) in *. set (g := rdot n (grad x) p) in *. set (v := total_violation P x) in *. set (v' := total_violation P (along P x p 1)) in *.
  pose proof eps_pos as Hs. set (e := (sqp_eps : R)) in *.
  assert (K0 : 0 <= k) by apply rnorminf_nonneg.
  assert (KL : k <= L).
  { eapply Rle_trans; [|exact HL]. apply rnorminf_le; [rewrite rnorm1_def; apply rsum_nonneg; intros; apply Rabs_pos|]. intros i Hi. rewrite rnorm1_def.
    apply (rsum_nonneg_term nd (fun i => Rabs (lk i)) i); [intros; apply Rabs_pos|exact Hi]. }
  set (cc := / 2 - eta) in *. assert (Hc : 0 < cc) by (unfold cc; lra).
  assert (Hd : 0 <= INR nd) by apply pos_INR.
  set (a := ed * sqrt (INR n / mu)). set (bb := L * (ep * (1 + 2 * INR nd) + eta * e)).
  assert (Ha : 0 <= a) by (apply Rmult_le_pos; [exact Hed|apply sqrt_pos]).
  assert (Hbb : 0 <= bb) by (apply Rmult_le_pos; [lra|]; apply Rplus_le_le_0_compat; apply Rmult_le_pos; lra).
  assert (W : a * w + bb <= cc * q).
  { unfold short_step in Hw. fold cc a e bb in Hw. assert (Hbc : 0 <= bb / cc) by (apply Rmult_le_pos; [exact Hbb|apply Rlt_le, Rinv_0_lt_compat, Hc]).
    pose proof (sqrt_sqrt _ Hbc) as S1. pose proof (sqrt_pos (bb / cc)) as S2. set (r := sqrt (bb / cc)) in *.
    assert (X1 : cc * (a / cc) = a) by (field; lra). assert (X2 : cc * (bb / cc) = bb) by (field; lra).
    assert (X3 : 0 <= a / cc) by (apply Rmult_le_pos; [exact Ha|apply Rlt_le, Rinv_0_lt_compat, Hc]). set (ac := a / cc) in *.
    rewrite <- Q1. rewrite <- X2, <- S1, <- X1.
    assert (r * r <= (w - ac) * w) by (apply Rmult_le_compat; lra).
    assert (cc * (r * r) <= cc * ((w - ac) * w)) by (apply Rmult_le_compat_l; lra). lra. }
  assert (Er : ed * rnorm1 n p <= a * w) by (unfold a; rewrite Rmult_assoc; apply Rmult_le_compat_l; assumption).
  assert (E2 : ep * rnorm1 nd lk <= ep * L) by (apply Rmult_le_compat_l; assumption).
  assert (E3 : k * v' <= L * (2 * INR nd * ep)).
  { apply Rmult_le_compat; try assumption. unfold v'. rewrite <- l1_sum_total. destruct (l1_parts P (along P x p 1)) as (_ & A1 & A2 & A3 & A4 & A5). unfold l1_sum. lra. }
  assert (E4 : eta * (k * e) <= eta * (L * e)) by (apply Rmult_le_compat_l; [lra|]; apply Rmult_le_compat_r; lra).
  assert (E5 : (1 - eta) * (g - k * v) <= (1 - eta) * (- q + a * w + ep * L)) by (apply Rmult_le_compat_l; lra).
  assert (E6 : 0 <= eta * (a * w + ep * L)) by (apply Rmult_le_pos; [lra|]; apply Rplus_le_le_0_compat; apply Rmult_le_pos; lra).
  unfold bb in W. unfold cc in W. lra.
Qed.

(** the target of a step *)
Lemma target_near : forall H x p lk ep ed Y, 0 <= ep -> 0 <= ed -> hess_ok P G H ->
  inexact_step ep ed (sub_qp P H (grad x) (jac x) (constr_values P x) x, (p, lk)) -> rnorm1 nd (fun i => lk i - ls i) <= Y ->
  gdist n G (fun j => x j + p j) xs <= target_error n mu ep ed Y.
Proof.
  intros H x p lk ep ed Y Hep Hed HH HI HY. pose proof (inexact_target P grad jac G c c0 A b HQ xs ls HK H x p lk ep ed HH HI) as T.
  unfold gdist, target_error. apply sqrt_le_1_alt. eapply Rle_trans; [exact T|]. unfold slackness in *.
  assert (P0 : 0 <= rnorm1 nd (fun i => lk i - ls i)) by (rewrite rnorm1_def; apply rsum_nonneg; intros; apply Rabs_pos).
  assert (E : ep * rnorm1 nd (fun i => lk i - ls i) <= ep * Y) by (apply Rmult_le_compat_l; assumption).
  apply Rplus_le_compat; [|exact E]. apply Rmult_le_compat_l; [exact Hed|].
  apply (strong_bound n G mu ep ed _ Y HM Hmu Hed Hep); [lra|]. unfold gdist2 in T. lra.
Qed.

Section Run.
Variable st : sqp_settings R.
Variables Q W : Type.
Variable hupd : mat R -> vec R -> vec R -> mat R.
Variable hreg : mat R -> mat R.
Variable pc_compute : W -> qp_data R -> W * qp_data R.
Variable pc_unscale_sol : W -> vec R * vec R -> vec R * vec R.
Variable pc_unscale : W -> qp_data R -> qp_data R.
Variable qp_solve : Q -> qp_data R -> Q * (vec R * vec R * Z).
Variable qp_mark : Q -> Q.
Notation state := (@sqp_state R Q W).
Notation solve := (sqp_solve P st Q W hupd hreg pc_compute pc_unscale_sol pc_unscale qp_solve qp_mark).
Hypothesis HR : restores P W pc_compute pc_unscale.
Hypothesis HL : linearised_by P grad jac.
Hypothesis Htau : 0 <= tau st <= 1.
Hypothesis Heta : 0 <= eta st < / 2.
Variables ep ed Y : R.
Hypothesis Hep : 0 <= ep.
Hypothesis Hed : 0 <= ed.

Definition good (e : qp_data R * (vec R * vec R)) : Prop :=
  hessian_is n G e /\ inexact_step ep ed e /\ rnorm1 nd (fun i => snd (snd e) i - ls i) <= Y.
Definition reach : R := short_step n nd mu (eta st) ep ed (Y + rnorm1 nd ls) + target_error n mu ep ed Y.

(** wherever a step starts, it ends near the optimum *)
Lemma near_step : forall (s s' : state) H h AA bb, linearised P Q W hupd hreg s H h AA bb ->
  stepped P st Q W (round_trip W pc_compute pc_unscale (sub_qp P H h AA bb (m_x s))) s s' (sub_qp P H h AA bb (m_x s)) ->
  seen s' = (m_x s', m_lam s') :: seen s /\
  exists p lk, steps s' = (sub_qp P H h AA bb (m_x s), (p, lk)) :: steps s /\
    (good (sub_qp P H h AA bb (m_x s), (p, lk)) -> gdist n G (m_x s') xs <= reach).
Proof.
  intros s s' H h AA bb Hlin Hst.
  destruct Hst as (p & lk & d2 & i & (w & w' & d1 & Ec & Eu) & Hi & Hrej & _ & Hx & Hl & _ & _ & _ & _ & _ & _ & _ & Hseen & _ & Hsteps).
  split; [exact Hseen|]. exists p, lk. split; [exact Hsteps|]. intros (HG & HI & HY). cbn [snd] in HY.
  assert (E : h = grad (m_x s) /\ AA = jac (m_x s) /\ bb = constr_values P (m_x s)).
  { destruct HL as [L1 L2]. destruct Hlin as [(lagg & H0 & E & _)|(lagg & y & E & _)].
    - destruct (L1 (m_x s) (m_lam s)) as (lg & H1 & E'). rewrite E in E'. injection E' as _ _ -> -> ->. auto.
    - destruct (L2 (m_x s) (m_lam s)) as (lg & E'). rewrite E in E'. injection E' as _ -> -> ->. auto. }
  destruct E as (-> & -> & ->).
  assert (Ra : 0 <= spow (tau st) i <= 1) by (apply spow_range; exact Htau).
  assert (X : forall j, (j < n)%nat -> m_x s' j = m_x s j + spow (tau st) i * p j) by (intros j Hj; rewrite Hx, tab_spec by auto; reflexivity).
  pose proof (target_near H (m_x s) p lk ep ed Y Hep Hed HG HI HY) as T. unfold gdist, gdist2 in *. set (t := fun j => m_x s j + p j - xs j) in *.
  set (Lb := Y + rnorm1 nd ls).
  assert (HLb : rnorm1 nd lk <= Lb).
  { unfold Lb. eapply Rle_trans; [|apply Rplus_le_compat_r; exact HY]. rewrite !rnorm1_def, <- rsum_plus. apply rsum_le. intros k Hk.
    replace (lk k) with ((lk k - ls k) + ls k) at 1 by ring. apply Rabs_triang. }
  destruct (Rle_or_lt (short_step n nd mu (eta st) ep ed Lb) (sqrt (qf n G p))) as [Lg|Sh].
  - assert (i = O).
    { destruct i as [|i]; [reflexivity|exfalso]. specialize (Hrej O ltac:(lia)). cbn [spow] in Hrej.
      assert (Eh : rdot n (qh d2) p = rdot n (grad (m_x s)) p).
      { rewrite !rdot_def. apply rsum_ext. intros j Hj. rewrite Eu, (HR w (sub_qp P H (grad (m_x s)) (jac (m_x s)) (constr_values P (m_x s)) (m_x s)) w' d1 eq_refl eq_refl Ec j Hj). reflexivity. }
      rewrite Eh in Hrej. pose proof (full_step_near (eta st) H (m_x s) p lk ep ed Lb Heta Hep Hed HG HI HLb Lg) as FS. cbv zeta in FS. apply accept_R in FS.
      assert (Eacc : forall x, x = false -> x = true -> False) by (intros; congruence).
      refine (Eacc _ Hrej _). exact FS. }
    subst i. cbn [spow] in X.
    rewrite (qf_ext2 P G (fun j => m_x s' j - xs j) t) by (intros j Hj; rewrite X by exact Hj; unfold t; simpl; ring).
    unfold reach. fold Lb. assert (0 <= short_step n nd mu (eta st) ep ed Lb); [|lra].
    unfold short_step. apply Rplus_le_le_0_compat; [|apply sqrt_pos]. apply Rmult_le_pos; [|apply Rlt_le, Rinv_0_lt_compat; lra].
    apply Rmult_le_pos; [exact Hed|apply sqrt_pos].
  - set (a := spow (tau st) i) in *.
    pose proof (g_tri t (fun j => (1 - a) * (- p j)) (fun j => m_x s' j - xs j)) as TR.
    assert (E1 : sqrt (qf n G (fun j => (1 - a) * - p j)) = (1 - a) * sqrt (qf n G p)).
    { rewrite (g_scal (1 - a) (fun j => - p j) _ ltac:(lra) ltac:(reflexivity)). f_equal. f_equal.
      unfold qf. rewrite (rdot_ext n (fun j => - p j) (rmv n G (fun j => - p j)) (fun j => (-1) * p j) (fun i => (-1) * rmv n G p i)); [rewrite rdot_scal_l, rdot_scal_r; ring|intros; ring|].
      intros k Hk. rewrite <- rmv_scal. apply rmv_ext; auto. intros; ring. }
    rewrite E1 in TR. eapply Rle_trans; [apply TR; intros j Hj; rewrite X by exact Hj; unfold t; ring|].
    unfold reach. fold Lb. pose proof (sqrt_pos (qf n G p)) as Sp. assert ((1 - a) * sqrt (qf n G p) <= 1 * sqrt (qf n G p)) by (apply Rmult_le_compat_r; lra). lra.
Qed.

Lemma near_run : forall s : state, Forall good (steps (solve s)) ->
  exists l, seen (solve s) = (m_x (solve s), m_lam (solve s)) :: l ++ [(m_x s, m_lam s)] /\
    Forall (fun e => gdist n G (fst e) xs <= reach) ((m_x (solve s), m_lam (solve s)) :: l).
Proof.
  intro s.
  pose (J := fun r : state => Forall good (steps r) -> exists l, seen r = (m_x r, m_lam r) :: l ++ [(m_x s, m_lam s)] /\
    Forall (fun e => gdist n G (fst e) xs <= reach) ((m_x r, m_lam r) :: l)).
  change (J (solve s)). apply (solve_inv3 P st Q W hupd hreg pc_compute pc_unscale_sol pc_unscale qp_solve qp_mark J).
  - intros s1 s2 (A1 & A2 & A3 & A4 & A5 & A6 & A7 & A8 & A9 & A10) H. unfold J in *. rewrite <- A1, <- A2, <- A9, <- A10. exact H.
  - intros s0 s' lagg h AA bb y E Hst HJ HF.
    destruct (near_step s0 s' _ h AA bb ltac:(right; exists lagg; eexists; split; [exact E|reflexivity]) Hst) as (B1 & p & lk & B2 & B3).
    rewrite B2 in HF. inversion HF as [|? ? F1 F2]; subst. destruct (HJ F2) as (l & E1 & E2).
    exists ((m_x s0, m_lam s0) :: l). split; [rewrite B1, E1; reflexivity|]. constructor; [exact (B3 F1)|exact E2].
  - intros s' lagg H0 h bb AA E Hst HF.
    destruct (near_step (start Q W s) s' (hreg H0) h AA bb ltac:(left; exists lagg, H0; split; [exact E|reflexivity]) Hst) as (B1 & p & lk & B2 & B3).
    rewrite B2 in HF. inversion HF as [|? ? F1 F2]; subst. exists []. split; [rewrite B1; reflexivity|]. constructor; [exact (B3 F1)|constructor].
Qed.
End Run.
End Near.
