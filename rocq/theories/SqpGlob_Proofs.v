(** Global convergence of the SQP solver on smooth problems with linear constraints. *)
Require Import Reals Lra Lia List ZArith Bool Psatz Sorted.
Require Import Verif.Scal Verif.RSum Verif.Qp_Model Verif.Qp_Spec Verif.Sqp_Model Verif.Sqp_Spec Verif.Sqp_Proofs Verif.Sqp_ProofsR
  Verif.SqpQp_Proofs Verif.SqpGlob_Spec.
Import ListNotations.
Local Open Scope R_scope.

Section Glob.
Variable P : problem R.
Variable grad : vec R -> vec R.
Variable jac : vec R -> mat R.
Variables L mm : R.
Notation n := (nx P).
Notation m := (ne P + ni P)%nat.
Notation nd := (ne P + ni P + nx P)%nat.
Hypothesis HB : proper_bounds P.
Hypothesis HA : linear_constraints P jac.
Hypothesis HS : smooth_cost P grad L.
Hypothesis HL0 : 0 < L.
Hypothesis Hmm : 0 < mm.

Lemma row_at x p y a r : (r < m)%nat -> (forall j, (j < n)%nat -> y j = x j + a * p j) ->
  row_value P r y = row_value P r x + a * rmv n (jac x) p r.
Proof.
  intros Hr E. destruct (HA r Hr) as (v & c & H). rewrite (proj1 (H y)), (proj1 (H x)).
  rewrite (rdot_ext n v y v (fun j => x j + a * p j)) by auto. rewrite rdot_plus_r, rdot_scal_r.
  rewrite rmv_def, !rdot_def. rewrite (rsum_ext n (fun j => jac x r j * p j) (fun j => v j * p j)); [ring|].
  intros j Hj. rewrite (proj2 (H x)) by auto. reflexivity.
Qed.
Lemma in_bounds_mix lb ub t q a : 0 <= a <= 1 -> in_bounds lb ub t -> in_bounds lb ub (t + q) -> in_bounds lb ub (t + a * q).
Proof. intros Ha [H1 H2] [H3 H4]. split; [destruct lb|destruct ub]; simpl in *; auto; nra. Qed.

Lemma feas_along H x p y a : nlp_feasible P x -> qp_feasible (sub_qp P H (grad x) (jac x) (constr_values P x) x) p ->
  0 <= a <= 1 -> (forall j, (j < n)%nat -> y j = x j + a * p j) -> nlp_feasible P y.
Proof.
  intros (F1 & F2 & F3) Q Ha E. apply sub_qp_feasible in Q. destruct Q as (Q1 & Q2 & Q3). split; [|split].
  - intros i Hi. assert (V := row_at x p y a i ltac:(lia) E). unfold row_value, constr_values in V.
    destruct (Nat.ltb_spec i (ne P)); [|lia]. rewrite V. specialize (Q1 i Hi). rewrite F1 in * by auto. replace (rmv n (jac x) p i) with 0 by lra. ring.
  - intros i Hi. assert (V := row_at x p y a (ne P + i) ltac:(lia) E). unfold row_value, constr_values in V.
    destruct (Nat.ltb_spec (ne P + i) (ne P)); [lia|]. replace (ne P + i - ne P)%nat with i in V by lia. rewrite V. apply in_bounds_mix; auto.
  - intros j Hj. rewrite E by auto. apply in_bounds_mix; auto.
Qed.

Variable st : sqp_settings R.
Hypothesis Htau : 0 < tau st < 1.
Hypothesis Heta : 0 < eta st < 1.
Notation ta := (tau st).
Notation et := (eta st).
Hypothesis Hbud : ta ^ ls_budget st <= (1 - et) * mm / L.
Notation amin := (least_step ta et mm L).

Lemma q_pos : 0 < (1 - et) * mm / L.
Proof. apply Rdiv_lt_0_compat; auto. apply Rmult_lt_0_compat; lra. Qed.
Lemma amin_pos : 0 < amin.
Proof. unfold least_step. assert (H := q_pos). apply Rmin_glb_lt; [lra|]. apply Rmult_lt_0_compat; lra. Qed.
Lemma amin_le1 : amin <= 1.
Proof. apply Rmin_l. Qed.

Section Step.
Variables (H : mat R) (x p lk : vec R).
Hypothesis HF : nlp_feasible P x.
Hypothesis HK : kkt_pair (sub_qp P H (grad x) (jac x) (constr_values P x) x) p lk.
Hypothesis HH : mm * rdot n p p <= qf n H p.
Notation mu := (rnorminf nd lk).
Notation g := (rdot n (grad x) p).
Notation p2 := (rdot n p p).

Lemma tv_zero y : nlp_feasible P y -> total_violation P y = 0.
Proof. intros F. rewrite <- l1_sum_total. apply l1_zero; auto. Qed.
Lemma slope : g <= - (mm * p2).
Proof.
  assert (D := sub_qp_descent P H (grad x) (jac x) x p lk HB HK). rewrite l1_sum_total, (tv_zero x HF) in D. lra.
Qed.
Lemma along_feasible a : 0 <= a <= 1 -> nlp_feasible P (along P x p a).
Proof. intros Ha. apply (feas_along H x p _ a HF); auto; [apply HK|]. intros j Hj. unfold along. rewrite tab_spec by auto. reflexivity. Qed.
Lemma cost_along a : 0 <= a <= 1 -> p_cost P (along P x p a) <= p_cost P x + a * g + L / 2 * (a * a * p2).
Proof.
  intros Ha. eapply Rle_trans; [apply HS; [exact HF|apply along_feasible; auto]|].
  assert (E : forall j, (j < n)%nat -> along P x p a j - x j = a * p j).
  { intros j Hj. unfold along. rewrite tab_spec by auto. ring. }
  rewrite (rdot_ext n (grad x) _ (grad x) (fun j => a * p j)) by auto.
  rewrite (rdot_ext n (fun j => along P x p a j - x j) _ (fun j => a * p j) (fun j => a * p j)) by auto.
  rewrite rdot_scal_l, !rdot_scal_r. right. ring.
Qed.
Lemma p2_nonneg : 0 <= p2.
Proof. apply rdot_self_nonneg. Qed.
Lemma mu_eps : 0 <= mu * sqp_eps.
Proof. apply Rmult_le_pos; [apply rnorminf_nonneg|]. left. unfold sqp_eps, scst. simpl. apply Rdiv_lt_0_compat; lra. Qed.

(** the acceptance test at a feasible point *)
Definition acc (a : R) : Prop := p_cost P (along P x p a) <= p_cost P x + a * et * (g - mu * sqp_eps).

Lemma accepted_decrease a : 0 <= a -> acc a -> p_cost P (along P x p a) <= p_cost P x - a * et * mm * p2.
Proof.
  unfold acc. intros Ha Hc. assert (S := slope). assert (E := mu_eps).
  assert (a * et * (g - mu * sqp_eps) <= a * et * - (mm * p2)) by (apply Rmult_le_compat_l; [apply Rmult_le_pos; lra|lra]). lra.
Qed.
Lemma short_decrease a : 0 <= a <= 1 -> a <= (1 - et) * mm / L -> p_cost P (along P x p a) <= p_cost P x - a * et * mm * p2.
Proof.
  intros Ha Hq. assert (S := slope). assert (E := p2_nonneg). eapply Rle_trans; [apply cost_along; auto|].
  assert (Lq : L * a <= (1 - et) * mm).
  { apply Rle_trans with (L * ((1 - et) * mm / L)); [apply Rmult_le_compat_l; lra|right; field; lra]. }
  assert (A1 : a * g <= a * - (mm * p2)) by (apply Rmult_le_compat_l; lra).
  assert (A2 : L / 2 * (a * a * p2) <= a * (1 - et) * mm * p2).
  { replace (L / 2 * (a * a * p2)) with ((L * a) * (a * p2 / 2)) by field.
    apply Rle_trans with ((1 - et) * mm * (a * p2 / 2)).
    - apply Rmult_le_compat_r; auto. assert (0 <= a * p2) by (apply Rmult_le_pos; lra). lra.
    - assert (0 <= (1 - et) * mm * (a * p2)) by (apply Rmult_le_pos; [apply Rmult_le_pos; lra|apply Rmult_le_pos; lra]). lra. }
  lra.
Qed.
(** a step size that is rejected is long, unless the step is tiny *)
Lemma rejected_long a : 0 < a <= 1 -> ~ acc a -> (1 - et) * mm / L < a \/ (1 - et) * mm * p2 < 2 * (et * (mu * sqp_eps)).
Proof.
  intros Ha Hr. destruct (Rlt_dec ((1 - et) * mm / L) a) as [Hl|Hl]; [left; auto|right]. apply Rnot_lt_le in Hl.
  apply Rnot_le_lt. intros Hb. apply Hr. unfold acc. assert (S := slope). assert (E := p2_nonneg).
  eapply Rle_trans; [apply cost_along; lra|].
  assert (Lq : L * a <= (1 - et) * mm).
  { apply Rle_trans with (L * ((1 - et) * mm / L)); [apply Rmult_le_compat_l; lra|right; field; lra]. }
  assert (A2 : L * a * p2 <= (1 - et) * mm * p2) by (apply Rmult_le_compat_r; auto).
  assert (A3 : (1 - et) * g <= (1 - et) * - (mm * p2)) by (apply Rmult_le_compat_l; lra).
  assert (A4 : g + L / 2 * (a * p2) <= et * (g - mu * sqp_eps)) by lra.
  assert (A5 : a * (g + L / 2 * (a * p2)) <= a * (et * (g - mu * sqp_eps))) by (apply Rmult_le_compat_l; lra). lra.
Qed.

(** the step size found by the line search *)
Lemma search_result i : (i <= ls_budget st)%nat -> (forall j, (j < i)%nat -> ~ acc (ta ^ j)) -> ((i < ls_budget st)%nat -> acc (ta ^ i)) ->
  let a := ta ^ i in 0 < a <= 1 /\ p_cost P (along P x p a) <= p_cost P x - a * et * mm * p2 /\
  (amin <= a \/ (1 - et) * mm * p2 < 2 * (et * (mu * sqp_eps))).
Proof.
  intros Hi Hrej Hacc a. assert (Ha : 0 < a <= 1).
  { split; [apply pow_lt; lra|]. unfold a. rewrite <- (pow1 i). apply pow_incr. lra. }
  split; auto. split.
  - destruct (Nat.lt_ge_cases i (ls_budget st)) as [H1|H1]; [apply accepted_decrease; [lra|apply Hacc; auto]|].
    assert (i = ls_budget st) by lia. apply short_decrease; [lra|]. unfold a. subst i. exact Hbud.
  - destruct i as [|i]; [left; unfold a; simpl; apply amin_le1|].
    destruct (rejected_long (ta ^ i)) as [Hl|Hs]; [|apply Hrej; lia| |right; exact Hs].
    + split; [apply pow_lt; lra|]. rewrite <- (pow1 i). apply pow_incr. lra.
    + left. unfold least_step, a. eapply Rle_trans; [apply Rmin_r|]. simpl. apply Rmult_le_compat_l; lra.
Qed.
End Step.

(** ** runs *)
Variables Q W : Type.
Variable hupd : mat R -> vec R -> vec R -> mat R.
Variable hreg : mat R -> mat R.
Variable pc_compute : W -> qp_data R -> W * qp_data R.
Variable pc_unscale_sol : W -> vec R * vec R -> vec R * vec R.
Variable pc_unscale : W -> qp_data R -> qp_data R.
Variable qp_solve : Q -> qp_data R -> Q * (vec R * vec R * Z).
Variable qp_mark : Q -> Q.
Notation state := (@sqp_state R Q W).
Notation solve := (sqp_solve P st Q W hupd hreg pc_compute pc_unscale_sol pc_unscale qp_solve qp_mark).
Notation first := (sqp_first P st Q W hreg pc_compute pc_unscale_sol pc_unscale qp_solve qp_mark).
Notation iteration := (sqp_iteration P st Q W hupd pc_compute pc_unscale_sol pc_unscale qp_solve).
Notation loop := (sqp_loop P st Q W hupd pc_compute pc_unscale_sol pc_unscale qp_solve).
Notation rtrip := (round_trip W pc_compute pc_unscale).
Hypothesis HR : restores P W pc_compute pc_unscale.
Hypothesis HL : linearised_by P grad jac.

Definition ok_step (e : qp_data R * (vec R * vec R)) : Prop := exact_step e /\ hessian_above mm e.
Notation subd H x := (sub_qp P H (grad x) (jac x) (constr_values P x) x).

(** one step from a feasible point *)
Lemma glob_step (s s' : state) H : let d := subd H (m_x s) in stepped P st Q W (rtrip d) s s' d -> nlp_feasible P (m_x s) ->
  Forall ok_step (steps s') ->
  exists p lk a, steps s' = (d, (p, lk)) :: steps s /\ kkt_pair d p lk /\ 0 < a <= 1 /\
    (amin <= a \/ (1 - et) * mm * rdot n p p < 2 * (et * (rnorminf nd lk * sqp_eps))) /\
    nlp_feasible P (m_x s') /\ p_cost P (m_x s') <= p_cost P (m_x s) - a * et * mm * rdot n p p /\
    m_primal_norm s' = a * rnorminf n p /\ m_dual_norm s' = a * rnorminf nd (fun i => lk i - m_lam s i) /\
    (forall i, (i < nd)%nat -> m_lam s' i = m_lam s i + a * (lk i - m_lam s i)) /\
    m_max_violation s' = max_violation P (m_x s') /\ m_iter s' = m_iter s /\ m_status s' = m_status s /\
    seen s' = (m_x s', m_lam s') :: seen s /\ (forall j, (j < n)%nat -> m_x s' j = m_x s j + a * p j).
Proof.
  intros d Hst HF HO.
  destruct Hst as (p & lk & d2 & i & (w & w' & d1 & Ec & Eu) & Hi & Hrej & Hacc & Hx & Hl & _ & Hpn & Hdn & Hmv & _ & Hs1 & Hs2 & Hseen & _ & Hst).
  rewrite Hst in HO. assert (HO1 := Forall_inv HO). destruct HO1 as [[_ HK] HH].
  assert (Eh : rdot n (qh d2) p = rdot n (grad (m_x s)) p).
  { rewrite !rdot_def. apply rsum_ext. intros j Hj. rewrite Eu, (HR w d w' d1 eq_refl eq_refl Ec j Hj). reflexivity. }
  rewrite Eh in *.
  assert (Eacc : forall j, accept P st (m_x s) p (rnorminf nd lk) (p_cost P (m_x s) + rnorminf nd lk * l1_violation P (m_x s))
     (rdot n (grad (m_x s)) p - rnorminf nd lk * l1_violation P (m_x s)) (spow ta j) = true <-> acc (m_x s) p lk (ta ^ j)).
  { intros j. rewrite <- spow_pow. rewrite accept_R. unfold acc, merit. rewrite (tv_zero (m_x s) HF).
    rewrite (tv_zero (along P (m_x s) p (spow ta j))).
    - rewrite Rplus_0_r, !Rmult_0_r, !Rplus_0_r. reflexivity.
    - apply (along_feasible H (m_x s) p lk HF HK). apply spow_range. lra. }
  destruct (search_result H (m_x s) p lk HF HK (HH p) i Hi) as (A1 & A2 & A3).
  { intros j Hj Ha. apply Eacc in Ha. assert (X := Hrej j Hj). assert (C : forall b, b = false -> b = true -> False) by (intros; congruence). exact (C _ X Ha). }
  { intros Hlt. apply Eacc. exact (proj1 (Hacc Hlt)). }
  assert (Ex : m_x s' = along P (m_x s) p (ta ^ i)) by (rewrite Hx, <- spow_pow; reflexivity).
  exists p, lk, (ta ^ i). rewrite <- Ex in A2.
  split; [exact Hst|]. split; [exact HK|]. split; [exact A1|]. split; [exact A3|].
  split; [rewrite Ex; apply (along_feasible H (m_x s) p lk HF HK); lra|]. split; [exact A2|].
  split; [rewrite Hpn, spow_pow; reflexivity|].
  split; [rewrite Hdn, spow_pow; apply (f_equal (Rmult (ta ^ i))); apply rnorminf_ext; intros k Hk; rewrite tab_spec by auto; reflexivity|].
  split; [intros k Hk; rewrite Hl, !tab_spec, spow_pow by auto; reflexivity|].
  split; [exact Hmv|]. split; [exact Hs2|]. split; [exact Hs1|]. split; [exact Hseen|].
  intros j Hj. rewrite Ex. unfold along. rewrite tab_spec by auto. reflexivity.
Qed.

Lemma linearised_is (s : state) H h A b : linearised P Q W hupd hreg s H h A b -> h = grad (m_x s) /\ A = jac (m_x s) /\ b = constr_values P (m_x s).
Proof.
  destruct HL as [L1 L2]. intros [(lagg & H0 & E & _)|(lagg & y & E & _)].
  - destruct (L1 (m_x s) (m_lam s)) as (? & ? & E'). rewrite E in E'. injection E'. auto.
  - destruct (L2 (m_x s) (m_lam s)) as (? & E'). rewrite E in E'. injection E'. auto.
Qed.

(** an exact step of size at most e gives an approximate KKT point *)
Lemma near_step M e H x p lk : nlp_feasible P x -> kkt_pair (subd H x) p lk -> hessian_below M (subd H x, (p, lk)) -> rnorminf n p <= e ->
  near_kkt P grad jac M e x (along P x p 1) lk.
Proof.
  intros HF HK HM He. assert (E : forall j, (j < n)%nat -> along P x p 1 j = x j + p j).
  { intros j Hj. unfold along. rewrite tab_spec by auto. simpl. ring. }
  assert (E1 : forall j, (j < n)%nat -> along P x p 1 j = x j + 1 * p j) by (intros; rewrite E by auto; ring).
  assert (He0 : 0 <= e) by (eapply Rle_trans; [apply rnorminf_nonneg|exact He]).
  assert (Hp : forall j, (j < n)%nat -> Rabs (p j) <= e) by (intros j Hj; eapply Rle_trans; [apply (rnorminf_ub n p j Hj)|exact He]).
  destruct HK as (K1 & K2 & K3 & K4). cbn [sub_qp qm qn qAlb qAub qA qxlb qxub] in *. unfold near_kkt. cbv zeta.
  split; [apply (feas_along H x p _ 1 HF K2); [lra|exact E1]|]. split; [|split; [|split]].
  - intros j Hj. rewrite E by auto. replace (x j + p j - x j) with (p j) by ring. auto.
  - intros j Hj. specialize (K1 j Hj). unfold lag_grad in K1. cbn [sub_qp qm qn qH qh qA] in K1.
    replace (grad x j + rsum m (fun i => jac x i j * lk i) + lk (m + j)%nat) with (- rmv n H p j) by lra.
    rewrite Rabs_Ropp, rmv_def. eapply Rle_trans; [apply rsum_abs|].
    apply Rle_trans with (rsum n (fun k => Rabs (H j k) * e)).
    + apply rsum_le. intros k Hk. rewrite Rabs_mult. apply Rmult_le_compat_l; [apply Rabs_pos|auto].
    + rewrite rsum_scal_r. apply Rmult_le_compat_r; [exact He0|exact (HM j Hj)].
  - intros i Hi. specialize (K3 (ne P + i)%nat ltac:(lia)). unfold constr_values in K3. destruct (Nat.ltb_spec (ne P + i) (ne P)); [lia|].
    replace (ne P + i - ne P)%nat with i in K3 by lia.
    assert (V := row_at x p _ 1 (ne P + i) ltac:(lia) E1). unfold row_value, constr_values in V.
    destruct (Nat.ltb_spec (ne P + i) (ne P)); [lia|]. replace (ne P + i - ne P)%nat with i in V by lia. rewrite V, Rmult_1_l.
    exact (proj1 (sign_ok_move_add _ _ _ _ _) K3).
  - intros j Hj. rewrite E by auto. exact (proj1 (sign_ok_move _ _ _ _ _) (K4 j Hj)).
Qed.

Definition longb (e : R) (s : qp_data R * (vec R * vec R)) : bool :=
  if Rle_dec (e * e) (rdot n (fst (snd s)) (fst (snd s))) then true else false.
Lemma longb_true e s : longb e s = true <-> e * e <= rdot n (fst (snd s)) (fst (snd s)).
Proof. unfold longb. destruct (Rle_dec _ _); split; intros; auto; discriminate. Qed.
Definition tiny_ok (e : R) (s : qp_data R * (vec R * vec R)) : Prop :=
  2 * (et * (rnorminf nd (snd (snd s)) * sqp_eps)) <= (1 - et) * mm * (e * e).

Record inv (x0 : vec R) (s : state) : Prop := {
  i_from : Forall (fun t => exists H x, nlp_feasible P x /\ fst t = subd H x) (steps s);
  i_feas : Forall (fun e => nlp_feasible P (fst e)) (seen s);
  i_hd : exists r, seen s = (m_x s, m_lam s) :: r;
  i_sort : StronglySorted (fun e e' => p_cost P (fst e) <= p_cost P (fst e')) (seen s);
  i_long : forall e, Forall (tiny_ok e) (steps s) ->
    INR (length (filter (longb e) (steps s))) * (et * mm * amin * (e * e)) <= p_cost P x0 - p_cost P (m_x s);
  i_near : Forall (fun t => forall M e, hessian_below M t -> rnorminf n (fst (snd t)) <= e ->
     exists x lam z, In (x, lam) (seen s) /\ near_kkt P grad jac M e x z (snd (snd t))) (steps s);
  i_last : forall t r, steps s = t :: r -> exists x lam r2 a, seen s = (m_x s, m_lam s) :: (x, lam) :: r2 /\ 0 < a <= 1 /\
     m_primal_norm s = a * rnorminf n (fst (snd t)) /\ (forall j, (j < n)%nat -> m_x s j = x j + a * fst (snd t) j) /\
     (amin <= a \/ (1 - et) * mm * rdot n (fst (snd t)) (fst (snd t)) < 2 * (et * (rnorminf nd (snd (snd t)) * sqp_eps))) /\
     (forall M e, hessian_below M t -> rnorminf n (fst (snd t)) <= e -> near_kkt P grad jac M e x (along P x (fst (snd t)) 1) (snd (snd t)))
}.

Lemma run_inv (s : state) : nlp_feasible P (m_x s) -> Forall ok_step (steps (solve s)) -> inv (m_x s) (solve s).
Proof.
  intros HF. apply (solve_inv2 P st Q W hupd hreg pc_compute pc_unscale_sol pc_unscale qp_solve qp_mark
    (fun s' => Forall ok_step (steps s') -> inv (m_x s) s')).
  - intros s1 s2 (A1 & A2 & A3 & A4 & A5 & A6 & A7 & A8 & A9 & A10) HI HO. rewrite <- A10 in HO. destruct (HI HO) as [I0 I1 I2 I3 I4 I5 I6].
    constructor; rewrite <- ?A1, <- ?A2, <- ?A6, <- ?A9, <- ?A10; auto.
  - intros s1 s2 H h A b Hlin Hst HI HO. destruct (linearised_is _ _ _ _ _ Hlin) as (-> & -> & ->).
    assert (HO1 : Forall ok_step (steps s1)).
    { destruct Hst as (p & lk & d2 & i & _ & _ & _ & _ & _ & _ & _ & _ & _ & _ & _ & _ & _ & _ & _ & Hst). rewrite Hst in HO. exact (Forall_inv_tail HO). }
    destruct (HI HO1) as [I0 I1 (r0 & I2) I3 I4 I5 I6].
    assert (HF1 : nlp_feasible P (m_x s1)) by (rewrite I2 in I1; exact (Forall_inv I1)).
    destruct (glob_step s1 s2 H Hst HF1 HO) as (p & lk & a & Es & HK & Ha & Hlong & HF2 & Hc & Hpn & Hdn & Hl & Hv & _ & _ & Hseen & Hx).
    assert (P2 := rdot_self_nonneg n p).
    assert (Hc0 : p_cost P (m_x s2) <= p_cost P (m_x s1)).
    { assert (0 <= a * et * mm * rdot n p p) by (repeat apply Rmult_le_pos; lra). lra. }
    constructor.
    + rewrite Es. constructor; auto. exists H, (m_x s1). split; [exact HF1|reflexivity].
    + rewrite Hseen. constructor; auto.
    + exists (seen s1). exact Hseen.
    + rewrite Hseen. constructor; auto. rewrite I2 in I3 |- *. apply StronglySorted_inv in I3. destruct I3 as [_ I3].
      constructor; [exact Hc0|]. eapply Forall_impl; [|exact I3]. intros y Hy. cbn [fst] in *. lra.
    + intros e HT. rewrite Es in HT |- *. assert (HT1 := Forall_inv HT). specialize (I4 e (Forall_inv_tail HT)).
      cbn [filter]. destruct (longb e (subd H (m_x s1), (p, lk))) eqn:El; [|lra].
      apply longb_true in El. cbn [fst snd] in El. unfold tiny_ok in HT1. cbn [snd] in HT1.
      assert (Ham : amin <= a).
      { destruct Hlong as [Hlong|Hlong]; auto. exfalso.
        assert ((1 - et) * mm * (e * e) <= (1 - et) * mm * rdot n p p) by (apply Rmult_le_compat_l; [apply Rmult_le_pos; lra|auto]). lra. }
      cbn [length]. rewrite S_INR, Rmult_plus_distr_r.
      assert (1 * (et * mm * amin * (e * e)) <= a * et * mm * rdot n p p).
      { rewrite Rmult_1_l. replace (a * et * mm * rdot n p p) with (et * mm * a * rdot n p p) by ring.
        assert (X := amin_pos). apply Rmult_le_compat; auto; [repeat apply Rmult_le_pos; lra|nra|]. apply Rmult_le_compat_l; [apply Rmult_le_pos; lra|auto]. }
      lra.
    + rewrite Es, Hseen. constructor.
      * intros M e HM He. cbn [fst snd] in *. exists (m_x s1), (m_lam s1), (along P (m_x s1) p 1).
        split; [right; rewrite I2; left; reflexivity|]. apply (near_step M e H); auto.
      * eapply Forall_impl; [|exact I5]. intros t Ht M e HM He. destruct (Ht M e HM He) as (x & lam & z & T1 & T2).
        exists x, lam, z. split; [right; exact T1|exact T2].
    + intros t r Et. rewrite Es in Et. injection Et as <- <-. cbn [fst snd]. exists (m_x s1), (m_lam s1), r0, a.
      split; [rewrite Hseen, I2; reflexivity|]. split; [exact Ha|]. split; [exact Hpn|]. split; [exact Hx|]. split; [exact Hlong|].
      intros M e HM He. apply (near_step M e H); auto.
  - intros _. constructor; cbn [start seen steps m_x m_lam]; auto.
    + exists []. reflexivity.
    + repeat constructor.
    + intros e _. cbn [filter length INR]. lra.
    + discriminate.
Qed.

Lemma small_norm p e : 0 <= e -> rdot n p p <= e * e -> rnorminf n p <= e.
Proof.
  intros He Hp. apply rnorminf_le; auto. intros j Hj. apply Rnot_lt_le. intros Hlt.
  assert (p j * p j <= rdot n p p).
  { rewrite rdot_def. apply (rsum_nonneg_term n (fun j => p j * p j) j); [intros; nra|exact Hj]. }
  assert (Rabs (p j) * Rabs (p j) = p j * p j) by (rewrite <- Rabs_mult; apply Rabs_right; nra).
  nra.
Qed.
Lemma norm_below p : rnorminf n p * rnorminf n p <= rdot n p p.
Proof.
  assert (S0 := rdot_self_nonneg n p). assert (E := sqrt_sqrt _ S0). assert (S1 := sqrt_pos (rdot n p p)).
  assert (rnorminf n p <= sqrt (rdot n p p)) by (apply small_norm; lra).
  assert (X := rnorminf_nonneg n p). nra.
Qed.

Lemma final_steps (s : state) : exists s', (Z.of_nat (length (steps s')) = m_iter s')%Z /\ steps (solve s) = steps s' /\ (1 <= m_iter s')%Z /\
   m_primal_norm (solve s) = m_primal_norm s' /\
   (m_status (solve s) = SqpSolved /\ terminated st Q W s' = true \/ m_iter s' = Z.max 1 (smax_iter st) /\ m_status (solve s) = SqpMaxIter).
Proof.
  destruct (solve_result P st Q W hupd hreg pc_compute pc_unscale_sol pc_unscale qp_solve qp_mark s) as (s' & G & Hi & D).
  exists s'. destruct G as (G1 & G2 & G3 & G4 & _). split; [exact G4|]. destruct D as [(D1 & D2)|(D1 & D2 & D3)].
  - rewrite D2. cbn [set_status steps m_status m_primal_norm]. split; [auto|]. split; [auto|]. split; [auto|]. left. auto.
  - rewrite D3. split; [auto|]. split; [auto|]. split; [auto|]. right. auto.
Qed.
Lemma term_primal (s : state) : terminated st Q W s = true -> m_primal_norm s <= eps_prim st.
Proof. unfold terminated, termination. rewrite !andb_true_iff. simpl. rewrite Rleb_true. tauto. Qed.

(** SOLVED: the last step started at an approximate KKT point *)
Lemma solved_near (s : state) e M : nlp_feasible P (m_x s) -> Forall ok_step (steps (solve s)) -> 0 <= e ->
  Forall (tiny_ok e) (steps (solve s)) -> Forall (hessian_below M) (steps (solve s)) ->
  m_status (solve s) = SqpSolved -> exists x lam r z lk, seen (solve s) = (m_x (solve s), m_lam (solve s)) :: (x, lam) :: r /\
    (forall j, (j < n)%nat -> Rabs (m_x (solve s) j - x j) <= eps_prim st) /\ near_kkt P grad jac M (Rmax e (eps_prim st / amin)) x z lk.
Proof.
  intros HF HO He HT HM Hst. destruct (run_inv s HF HO) as [_ I1 I2 I3 I4 I5 I6].
  destruct (final_steps s) as (s' & F1 & F2 & F3 & F4 & F5).
  destruct F5 as [[_ F5]|[_ F5]]; [|rewrite Hst in F5; discriminate]. apply term_primal in F5. rewrite <- F4 in F5. rewrite <- F2 in F1.
  destruct (steps (solve s)) as [|t r] eqn:Est; [cbn in F1; lia|]. destruct (I6 t r eq_refl) as (x & lam & r2 & a & J1 & J2 & J3 & J4 & J5 & J6).
  rewrite J3 in F5. assert (N0 := rnorminf_nonneg n (fst (snd t))). exists x, lam, r2. do 2 eexists. split; [exact J1|]. split.
  - intros j Hj. rewrite J4 by auto. replace (x j + a * fst (snd t) j - x j) with (a * fst (snd t) j) by ring. rewrite Rabs_mult, (Rabs_right a) by lra.
    eapply Rle_trans; [|exact F5]. apply Rmult_le_compat_l; [lra|]. apply (rnorminf_ub n _ j Hj).
  - apply J6; [exact (Forall_inv HM)|]. assert (A0 := amin_pos). destruct J5 as [J5|J5].
    + eapply Rle_trans; [|apply Rmax_r]. apply Rmult_le_reg_l with amin; auto. replace (amin * (eps_prim st / amin)) with (eps_prim st) by (field; lra).
      eapply Rle_trans; [|exact F5]. apply Rmult_le_compat_r; auto.
    + eapply Rle_trans; [|apply Rmax_l]. apply small_norm; auto. assert (HT1 := Forall_inv HT). unfold tiny_ok in HT1.
      apply Rmult_le_reg_l with ((1 - et) * mm); [apply Rmult_lt_0_compat; lra|]. lra.
Qed.

Lemma run_near (s : state) e M fmin N : nlp_feasible P (m_x s) -> Forall ok_step (steps (solve s)) -> 0 < e ->
  Forall (tiny_ok e) (steps (solve s)) -> Forall (hessian_below M) (steps (solve s)) -> bounded_below P fmin ->
  p_cost P (m_x s) - fmin < INR N * (et * mm * amin * (e * e)) -> (Z.of_nat N <= smax_iter st)%Z ->
  exists x lam z lk, In (x, lam) (seen (solve s)) /\ near_kkt P grad jac M (Rmax e (eps_prim st / amin)) x z lk.
Proof.
  intros HF HO He HT HM Hb HN Hmax. destruct (final_steps s) as (s' & F1 & F2 & F3 & F4 & [[F5 _]|[F5 _]]).
  - destruct (solved_near s e M HF HO ltac:(lra) HT HM F5) as (x & lam & r & z & lk & S1 & _ & S2).
    exists x, lam, z, lk. split; auto. rewrite S1. right. left. reflexivity.
  - destruct (run_inv s HF HO) as [_ I1 (r0 & I2) I3 I4 I5 I6].
    assert (Hlen : (N <= length (steps (solve s)))%nat) by (rewrite F2; lia).
    destruct (forallb (longb e) (steps (solve s))) eqn:Ef.
    + exfalso. specialize (I4 e HT).
      assert (filter (longb e) (steps (solve s)) = steps (solve s)).
      { clear - Ef. induction (steps (solve s)) as [|t l IH]; auto. cbn [forallb filter] in *. apply andb_true_iff in Ef.
        destruct Ef as [E1 E2]. rewrite E1, IH; auto. }
      rewrite H in I4. assert (fmin <= p_cost P (m_x (solve s))).
      { apply Hb. rewrite I2 in I1. exact (Forall_inv I1). }
      assert (0 < et * mm * amin * (e * e)).
      { assert (X := amin_pos). repeat apply Rmult_lt_0_compat; lra. }
      apply le_INR in Hlen. assert (INR N * (et * mm * amin * (e * e)) <= INR (length (steps (solve s))) * (et * mm * amin * (e * e))) by (apply Rmult_le_compat_r; lra).
      lra.
    + assert (exists t, In t (steps (solve s)) /\ longb e t = false) as (t & Hin & Hs).
      { clear - Ef. induction (steps (solve s)) as [|t l IH]; [discriminate|]. cbn [forallb] in Ef. destruct (longb e t) eqn:E.
        - destruct (IH Ef) as (u & U1 & U2). exists u. split; [right; auto|auto].
        - exists t. split; [left; auto|auto]. }
      rewrite Forall_forall in I5, HM. destruct (I5 t Hin M (Rmax e (eps_prim st / amin)) (HM t Hin)) as (x & lam & z & T1 & T2).
      { eapply Rle_trans; [|apply Rmax_l]. apply small_norm; [lra|]. apply Rnot_lt_le. intros Hq.
        assert (longb e t = true) by (apply longb_true; lra). congruence. }
      exists x, lam, z, (snd (snd t)). auto.
Qed.

(** ** problems without constraints *)
Section Free.
Hypothesis HU : unconstrained P.
Lemma free_mult H x p lk : kkt_pair (subd H x) p lk -> forall i, (i < nd)%nat -> lk i = 0.
Proof.
  intros (_ & _ & _ & K4) i Hi. destruct HU as (U1 & U2 & U3). cbn [sub_qp qm qn qxlb qxub] in K4. rewrite U1, U2 in *.
  specialize (K4 i ltac:(lia)). destruct (U3 i ltac:(lia)) as [E1 E2]. rewrite E1, E2 in K4. unfold sign_ok in K4. simpl in K4.
  destruct K4 as [K1 K2]. destruct (Rtotal_order (lk i) 0) as [H0|[H0|H0]]; auto; [specialize (K2 H0)|specialize (K1 H0)]; discriminate.
Qed.
Lemma free_feas x : nlp_feasible P x.
Proof.
  destruct HU as (U1 & U2 & U3). split; [intros; lia|split; [intros; lia|]]. intros j Hj. destruct (U3 j Hj) as [-> ->]. split; exact I.
Qed.

Variable l0 f0 : R.
Variables K N : nat.
Variable fmin : R.
Hypothesis Hep : 0 < eps_prim st.
Hypothesis Hed : (1 - amin) ^ K * l0 <= eps_dual st.
Hypothesis Hbelow : bounded_below P fmin.
Notation cc := (et * mm * (eps_prim st * eps_prim st)).
Hypothesis HN : f0 - fmin < INR N * cc.
Hypothesis Hl0 : 0 <= l0.

Record live (k : nat) (s : state) : Prop := {
  l_lam : rnorminf nd (m_lam s) <= (1 - amin) ^ k * l0;
  l_cost : p_cost P (m_x s) <= f0 - INR (k - K) * cc
}.

Lemma cc_pos : 0 < cc.
Proof. repeat apply Rmult_lt_0_compat; lra. Qed.
Lemma live_bound k s : live k s -> (k < K + N)%nat.
Proof.
  intros [_ Hc]. assert (F := Hbelow _ (free_feas (m_x s))). assert (X := cc_pos).
  destruct (Nat.lt_ge_cases k (K + N)) as [|Hge]; auto. exfalso.
  assert (INR N <= INR (k - K)) by (apply le_INR; lia). assert (INR N * cc <= INR (k - K) * cc) by (apply Rmult_le_compat_r; lra). lra.
Qed.

Lemma live_step k (s s' : state) H : stepped P st Q W (rtrip (subd H (m_x s))) s s' (subd H (m_x s)) -> Forall ok_step (steps s') ->
  live k s -> terminated st Q W s' = false -> live (S k) s'.
Proof.
  intros Hst HO [Hl Hc] Ht.
  destruct (glob_step s s' H Hst (free_feas _) HO) as (p & lk & a & Es & HK & Ha & Hlong & HF2 & Hc2 & Hpn & Hdn & Hl2 & Hv & _ & _ & _ & _).
  assert (Z := free_mult _ _ _ _ HK). assert (Nz : rnorminf nd lk = 0) by (apply rnorminf_zero; auto).
  assert (P2 := rdot_self_nonneg n p). assert (A0 := amin_pos). assert (A1 := amin_le1).
  assert (Ham : amin <= a).
  { destruct Hlong as [Hlong|Hlong]; auto. exfalso. rewrite Nz in Hlong.
    assert (0 <= (1 - et) * mm * rdot n p p) by (repeat apply Rmult_le_pos; lra). lra. }
  assert (El : rnorminf nd (m_lam s') = (1 - a) * rnorminf nd (m_lam s)).
  { rewrite <- rnorminf_scal by lra. apply rnorminf_ext. intros i Hi. rewrite Hl2, Z by auto. ring. }
  assert (Ed : m_dual_norm s' = a * rnorminf nd (m_lam s)).
  { rewrite Hdn. f_equal. rewrite (rnorminf_ext nd _ (fun i => - m_lam s i)) by (intros i Hi; rewrite Z by auto; ring).
    clear. induction nd as [|k IH]; [reflexivity|]. rewrite !rnorminf_S, IH, Rabs_Ropp. reflexivity. }
  assert (N0 := rnorminf_nonneg nd (m_lam s)). assert (Np := rnorminf_nonneg n p).
  constructor.
  - rewrite El. simpl. rewrite Rmult_assoc. apply Rmult_le_compat; auto; lra.
  - eapply Rle_trans; [exact Hc2|]. destruct (Nat.lt_ge_cases k K) as [Hk|Hk].
    + replace (S k - K)%nat with 0%nat by lia. replace (k - K)%nat with 0%nat in Hc by lia. simpl in Hc |- *.
      assert (0 <= a * et * mm * rdot n p p) by (repeat apply Rmult_le_pos; lra). lra.
    + replace (S k - K)%nat with (S (k - K)) by lia. rewrite S_INR.
      assert (Hlam : rnorminf nd (m_lam s) <= eps_dual st).
      { eapply Rle_trans; [exact Hl|]. eapply Rle_trans; [|exact Hed]. apply Rmult_le_compat_r; auto.
        replace k with (K + (k - K))%nat by lia. rewrite pow_add. rewrite <- (Rmult_1_r ((1 - amin) ^ K)) at 2. apply Rmult_le_compat_l; [apply pow_le; lra|].
        assert (U : (1 - amin) ^ (k - K) <= 1 ^ (k - K)) by (apply pow_incr; split; lra). rewrite pow1 in U. exact U. }
      assert (Hap : eps_prim st < a * rnorminf n p).
      { apply Rnot_le_lt. intros Hle. unfold terminated, termination in Ht. rewrite Hpn, Ed, Hv in Ht.
        assert (X : sleb (a * rnorminf n p) (eps_prim st) && sleb (a * rnorminf nd (m_lam s)) (eps_dual st) && ext_leb_s (max_violation P (m_x s')) (eps_prim st) = true).
        { rewrite !andb_true_iff. simpl. rewrite !Rleb_true. split; [split; [exact Hle|]|].
          - apply Rle_trans with (1 * rnorminf nd (m_lam s)); [apply Rmult_le_compat_r; lra|lra].
          - apply ext_leb_s_R. apply max_violation_le; [lra|]. apply within_mono with 0; [lra|]. apply within_zero. exact HF2. }
        congruence. }
      assert (Hnb := norm_below p).
      assert (Hq : eps_prim st * eps_prim st <= a * rdot n p p).
      { apply Rle_trans with (a * (rnorminf n p * rnorminf n p)); [|apply Rmult_le_compat_l; lra].
        apply Rle_trans with ((a * rnorminf n p) * (a * rnorminf n p)); [apply Rmult_le_compat; lra|].
        replace ((a * rnorminf n p) * (a * rnorminf n p)) with (a * (a * (rnorminf n p * rnorminf n p))) by ring.
        apply Rmult_le_compat_l; [lra|]. assert (0 <= rnorminf n p * rnorminf n p) by (apply Rmult_le_pos; auto). nra. }
      assert (et * mm * (eps_prim st * eps_prim st) <= et * mm * (a * rdot n p p)) by (apply Rmult_le_compat_l; [apply Rmult_le_pos; lra|auto]).
      lra.
Qed.

Lemma iteration_stepped (s : state) : exists s1 s2 H, m_x s1 = m_x s /\ m_lam s1 = m_lam s /\ stepped P st Q W (rtrip (subd H (m_x s1))) s1 s2 (subd H (m_x s1)) /\
  m_x (iteration s) = m_x s2 /\ m_lam (iteration s) = m_lam s2 /\ steps (iteration s) = steps s2 /\ terminated st Q W (iteration s) = terminated st Q W s2.
Proof.
  destruct HL as [_ L2]. destruct (L2 (m_x s) (m_lam s)) as (lagg & El).
  set (s1 := set_iter Q W (m_iter s + 1) s).
  set (H1 := hupd (m_H s1) (m_step_prev s1) (tab n (fun j : nat => ssub (lagg j) (m_lag_gradient s1 j)))).
  set (s2 := sqp_step P st Q W pc_compute pc_unscale_sol pc_unscale qp_solve (fun q : Q => q) s1 lagg H1
                (grad (m_x s1)) (jac (m_x s1)) (constr_values P (m_x s1))).
  exists s1, s2, H1. split; [reflexivity|]. split; [reflexivity|]. split; [apply step_spec|].
  assert (Ei : iteration s = callback st Q W s2).
  { unfold sqp_iteration. fold s1. change (m_x s1) with (m_x s). change (m_lam s1) with (m_lam s). rewrite El. reflexivity. }
  rewrite Ei. unfold callback. destruct (has_callback st); repeat split.
Qed.

Lemma steps_grow (s : state) : exists l, steps (iteration s) = l ++ steps s.
Proof.
  destruct (step_mono P st Q W hupd pc_compute pc_unscale_sol pc_unscale qp_solve s) as (l & E & _). exists l. exact E.
Qed.

Lemma live_loop fuel : forall (s : state) k, good P st Q W s -> m_iter s = Z.of_nat k -> live k s -> terminated st Q W s = false ->
  (K + N <= k + fuel)%nat -> (Z.of_nat (K + N) <= smax_iter st)%Z -> Forall ok_step (steps (loop fuel s)) ->
  m_status (loop fuel s) = SqpSolved /\ (m_iter (loop fuel s) <= Z.of_nat (K + N))%Z.
Proof.
  induction fuel as [|f IH]; intros s k G Ek Hl Ht Hf Hm HO; assert (B := live_bound k s Hl); [lia|].
  cbn [sqp_loop] in *. destruct (Z.ltb_spec (m_iter s) (smax_iter st)) as [Hlt|]; [|lia].
  destruct (iteration_good P st Q W hupd pc_compute pc_unscale_sol pc_unscale qp_solve s G) as [G' Hi].
  destruct (terminated st Q W (iteration s)) eqn:Et.
  - split; [reflexivity|]. change (m_iter (iteration s) <= Z.of_nat (K + N))%Z. lia.
  - apply (IH (iteration s) (S k)); auto; [lia| |lia].
    destruct (loop_steps P st Q W hupd pc_compute pc_unscale_sol pc_unscale qp_solve f (iteration s)) as (l & El). rewrite El in HO. apply Forall_app in HO. destruct HO as [_ HO].
    destruct (iteration_stepped s) as (s1 & s2 & H & X1 & X2 & Hst & X3 & X4 & X5 & X6).
    rewrite X5 in HO. rewrite X6 in Et.
    assert (Hl1 : live k s1) by (destruct Hl as [L1 L2]; constructor; [rewrite X2; exact L1|rewrite X1; exact L2]).
    destruct (live_step k s1 s2 H Hst HO Hl1 Et) as [L1 L2]. constructor; [rewrite X4; exact L1|rewrite X3; exact L2].
Qed.

Lemma free_solved (s : state) : l0 = rnorminf nd (m_lam s) -> f0 = p_cost P (m_x s) -> Forall ok_step (steps (solve s)) ->
  (1 <= K + N)%nat -> (Z.of_nat (K + N) <= smax_iter st)%Z -> m_status (solve s) = SqpSolved /\ (m_iter (solve s) <= Z.of_nat (K + N))%Z.
Proof.
  intros E1 E2 HO H1 Hm.
  destruct (solve_steps P st Q W hupd hreg pc_compute pc_unscale_sol pc_unscale qp_solve qp_mark s) as (l & El).
  assert (HO1 : Forall ok_step (steps (first s))) by (rewrite El in HO; apply Forall_app in HO; apply HO).
  destruct (first_good P st Q W hreg pc_compute pc_unscale_sol pc_unscale qp_solve qp_mark s) as [G Hi].
  unfold sqp_solve in *. destruct (terminated st Q W (first s)) eqn:Et.
  - split; [reflexivity|]. change (m_iter (first s) <= Z.of_nat (K + N))%Z. lia.
  - apply (live_loop _ _ 1); auto; [|lia].
    destruct (first_stepped P grad jac st Q W hreg pc_compute pc_unscale_sol pc_unscale qp_solve qp_mark HL s) as (H & Hst).
    apply (live_step 0 (start Q W s) (first s) H Hst HO1); [|exact Et].
    constructor; cbn [start m_lam m_x].
    + simpl. rewrite <- E1. lra.
    + simpl. rewrite <- E2. lra.
Qed.
End Free.
End Glob.

(** the descent lemma *)
Lemma segment_feasible (P : problem R) jac x y t : linear_constraints P jac -> nlp_feasible P x -> nlp_feasible P y -> 0 <= t <= 1 ->
  nlp_feasible P (fun j => x j + t * (y j - x j)).
Proof.
  intros HA (F1 & F2 & F3) (G1 & G2 & G3) Ht.
  assert (V : forall r, (r < ne P + ni P)%nat -> row_value P r (fun j => x j + t * (y j - x j)) = row_value P r x + t * (row_value P r y - row_value P r x)).
  { intros r Hr. destruct (HA r Hr) as (v & c & E). rewrite !(proj1 (E _)). rewrite rdot_plus_r, rdot_scal_r, rdot_minus_r. ring. }
  split; [|split].
  - intros i Hi. specialize (V i ltac:(lia)). unfold row_value, constr_values in V. destruct (Nat.ltb_spec i (ne P)); [|lia].
    rewrite V, F1, G1 by auto. ring.
  - intros i Hi. specialize (V (ne P + i)%nat ltac:(lia)). unfold row_value, constr_values in V. destruct (Nat.ltb_spec (ne P + i) (ne P)); [lia|].
    replace (ne P + i - ne P)%nat with i in V by lia. rewrite V. apply in_bounds_mix; auto.
    replace (p_ineq P x i + (p_ineq P y i - p_ineq P x i)) with (p_ineq P y i) by ring. auto.
  - intros j Hj. apply in_bounds_mix; auto. replace (x j + (y j - x j)) with (y j) by ring. auto.
Qed.
Lemma descent_lemma (P : problem R) grad jac L : linear_constraints P jac -> cost_derivative P grad -> reads_entries P ->
  lipschitz_gradient P grad L -> smooth_cost P grad L.
Proof.
  intros HA HD HE HLip x y HF HG. set (n := nx P) in *. set (d := fun j => y j - x j).
  set (g0 := rdot n (grad x) d). set (q := rdot n d d).
  destruct (MVT_cor2 (fun u => p_cost P (fun j => x j + u * d j) - g0 * u - L * q / 2 * (u * u))
     (fun u => rdot n (grad (fun j => x j + u * d j)) d - g0 * 1 - L * q / 2 * (1 * u + u * 1)) 0 1) as (t & E & Ht); [lra| |].
  - intros c Hc. apply derivable_pt_lim_minus; [apply derivable_pt_lim_minus; [apply HD|]|].
    + apply (derivable_pt_lim_scal (fun u => u) g0 c 1). apply derivable_pt_lim_id.
    + apply (derivable_pt_lim_scal (fun u => u * u) (L * q / 2) c). apply (derivable_pt_lim_mult id id); apply derivable_pt_lim_id.
  - set (z := fun j => x j + t * d j) in *.
    assert (Fz : nlp_feasible P z) by (apply (segment_feasible P jac); auto; lra).
    assert (Z := HLip x z HF Fz). fold n in Z.
    assert (Ez : forall j, (j < n)%nat -> z j - x j = t * d j) by (intros; unfold z; ring).
    rewrite (rdot_ext n (fun j => grad z j - grad x j) (fun j => z j - x j) (fun j => grad z j - grad x j) (fun j => t * d j)) in Z by auto.
    rewrite (rdot_ext n (fun j => z j - x j) (fun j => z j - x j) (fun j => t * d j) (fun j => t * d j)) in Z by auto.
    rewrite rdot_scal_l, !rdot_scal_r in Z. fold q in Z.
    rewrite (rdot_comm n (fun j => grad z j - grad x j) d), rdot_minus_r, !(rdot_comm n d) in Z. fold g0 in Z.
    assert (Z2 : rdot n (grad z) d - g0 <= L * t * q) by (apply Rmult_le_reg_l with t; [lra|]; nra).
    cbv beta in E. rewrite (HE (fun j => x j + 1 * d j) y) in E by (intros; unfold d; ring).
    rewrite (HE (fun j => x j + 0 * d j) x) in E by (intros; ring).
    fold d. fold g0. fold q. fold d. fold q. nra.
Qed.

Section Setting.
Variable P : problem R.
Variable st : sqp_settings R.
Variables Q W : Type.
Variable hupd : mat R -> vec R -> vec R -> mat R.
Variable hreg : mat R -> mat R.
Variable pcc : W -> qp_data R -> W * qp_data R.
Variable pcs : W -> vec R * vec R -> vec R * vec R.
Variable pcu : W -> qp_data R -> qp_data R.
Variable qps : Q -> qp_data R -> Q * (vec R * vec R * Z).
Variable qpm : Q -> Q.
Notation n := (nx P).
Notation nd := (ne P + ni P + nx P)%nat.
Notation solve := (sqp_solve P st Q W hupd hreg pcc pcs pcu qps qpm).
Notation amin mm L := (least_step (tau st) (eta st) mm L).

Notation setting := (setting P st Q W hupd hreg pcc pcs pcu qps qpm).

Lemma setting_ok grad jac L mm s : setting grad jac L mm s ->
  0 < (1 - eta st) * mm /\ Forall (ok_step mm) (steps (solve s)) /\ inv P grad jac L mm st Q W (m_x s) (solve s).
Proof.
  intros (H1 & H2 & H3 & H4 & H5 & H6 & H7 & H8 & H9 & H10 & H11 & H12 & H13).
  assert (HO : Forall (ok_step mm) (steps (solve s))).
  { rewrite Forall_forall in *. intros t Ht. split; auto. }
  split; [apply Rmult_lt_0_compat; lra|]. split; [exact HO|]. apply run_inv; auto.
Qed.
Lemma tiny_of mm mu e s : 0 < eta st -> 2 * (eta st * (mu * sqp_eps)) <= (1 - eta st) * mm * (e * e) ->
  (forall t, In t (steps (solve s)) -> qm (fst t) = (ne P + ni P)%nat /\ qn (fst t) = nx P) ->
  Forall (multipliers_below mu) (steps (solve s)) -> Forall (tiny_ok P mm st e) (steps (solve s)).
Proof.
  intros He Hq Hd HM. rewrite Forall_forall in *. intros t Ht. unfold tiny_ok. specialize (HM t Ht). unfold multipliers_below in HM.
  destruct (Hd t Ht) as [-> ->] in HM. eapply Rle_trans; [|exact Hq]. apply Rmult_le_compat_l; [lra|]. apply Rmult_le_compat_l; [lra|].
  apply Rmult_le_compat_r; auto. left. unfold sqp_eps, scst. simpl. apply Rdiv_lt_0_compat; lra.
Qed.
Lemma dims s : forall t, In t (steps (solve s)) -> qm (fst t) = (ne P + ni P)%nat /\ qn (fst t) = nx P.
Proof.
  enough (X : Forall (fun t => qm (fst t) = (ne P + ni P)%nat /\ qn (fst t) = nx P) (steps (solve s))) by (rewrite Forall_forall in X; exact X).
  apply (solve_inv2 P st Q W hupd hreg pcc pcs pcu qps qpm (fun s => Forall (fun t => qm (fst t) = (ne P + ni P)%nat /\ qn (fst t) = nx P) (steps s))).
  - intros s1 s2 (_ & _ & _ & _ & _ & _ & _ & _ & _ & <-). auto.
  - intros s1 s2 H h A b _ (p & lk & d2 & i & _ & _ & _ & _ & _ & _ & _ & _ & _ & _ & _ & _ & _ & _ & _ & E) HI. rewrite E.
    constructor; auto.
  - constructor.
Qed.
End Setting.
