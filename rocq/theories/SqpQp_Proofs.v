(** The SQP solver on a strictly convex quadratic program. *)
Require Import Reals Lra Lia List ZArith Bool FunctionalExtensionality.
Require Import Verif.Scal Verif.RSum Verif.Qp_Model Verif.Qp_Spec Verif.Sqp_Model Verif.Sqp_Spec Verif.Sqp_Proofs Verif.Sqp_ProofsR
  Verif.SqpQp_Spec.
Import ListNotations.
Local Open Scope R_scope.

Section Qp.
Variable P : problem R.
Variable grad : vec R -> vec R.
Variable jac : vec R -> mat R.
Variable G : mat R.
Variable c : vec R.
Variable c0 : R.
Variable A : mat R.
Variable b : vec R.
Hypothesis HQ : quadratic_nlp P grad jac G c c0 A b.
Notation n := (nx P).
Notation m := (ne P + ni P)%nat.
Notation nd := (ne P + ni P + nx P)%nat.

Definition hess_ok (H : mat R) : Prop := forall i j, (i < n)%nat -> (j < n)%nat -> H i j = G i j.

(** values at the end of a step *)
Lemma value_at : forall x p xs i, (forall j, (j < n)%nat -> xs j = x j + p j) -> (i < m)%nat ->
  constr_values P xs i = constr_values P x i + rmv n (jac x) p i.
Proof.
  intros x p xs i E Hi. destruct HQ as (_ & _ & _ & V & J).
  rewrite !V by exact Hi.
  rewrite (rmv_ext n (jac x) A p p i) by (intros; auto).
  rewrite (rmv_ext n A A xs (fun j => x j + p j) i) by auto. rewrite rmv_plus. ring.
Qed.

Lemma eq_at : forall x p xs i, (forall j, (j < n)%nat -> xs j = x j + p j) -> (i < ne P)%nat ->
  p_eq P xs i = p_eq P x i + rmv n (jac x) p i.
Proof.
  intros x p xs i E Hi. pose proof (value_at x p xs i E ltac:(lia)) as V. unfold constr_values in V.
  destruct (Nat.ltb_spec i (ne P)); [exact V|lia].
Qed.

Lemma ineq_at : forall x p xs i, (forall j, (j < n)%nat -> xs j = x j + p j) -> (i < ni P)%nat ->
  p_ineq P xs i = p_ineq P x i + rmv n (jac x) p (ne P + i)%nat.
Proof.
  intros x p xs i E Hi. pose proof (value_at x p xs (ne P + i)%nat E ltac:(lia)) as V. unfold constr_values in V.
  destruct (Nat.ltb_spec (ne P + i) (ne P)); [lia|]. replace (ne P + i - ne P)%nat with i in V by lia. exact V.
Qed.

Lemma grad_at : forall H x p xs j, hess_ok H -> (forall j, (j < n)%nat -> xs j = x j + p j) -> (j < n)%nat ->
  grad xs j = rmv n H p j + grad x j.
Proof.
  intros H x p xs j HH E Hj. destruct HQ as (_ & _ & D & _ & _). rewrite !D by exact Hj.
  rewrite (rmv_ext n H G p p j) by (intros; auto).
  rewrite (rmv_ext n G G xs (fun j => x j + p j) j) by auto. rewrite rmv_plus. ring.
Qed.

Lemma sign_ok_move : forall lb ub (t z y : R), sign_ok (ext_sub lb t) (ext_sub ub t) z y <-> sign_ok lb ub (t + z) y.
Proof.
  intros [l| |] [u| |] t z y; unfold sign_ok; simpl; split; intros [H1 H2]; split; intros Hy;
    try (specialize (H1 Hy)); try (specialize (H2 Hy)); try discriminate; f_equal;
    try (injection H1; lra); try (injection H2; lra).
Qed.
Lemma sign_ok_move_add : forall lb ub (t z y : R),
  sign_ok (ext_add (sopp t) lb) (ext_add (sopp t) ub) z y <-> sign_ok lb ub (t + z) y.
Proof.
  intros [l| |] [u| |] t z y; unfold sign_ok; simpl; split; intros [H1 H2]; split; intros Hy;
    try (specialize (H1 Hy)); try (specialize (H2 Hy)); try discriminate; f_equal;
    try (injection H1; lra); try (injection H2; lra).
Qed.

(** a step solves the subproblem exactly when it leads to a KKT point of the NLP *)
Lemma step_kkt : forall H x p xs lam, hess_ok H -> (forall j, (j < n)%nat -> xs j = x j + p j) ->
  (kkt_pair (sub_qp P H (grad x) (jac x) (constr_values P x) x) p lam <-> nlp_kkt P (grad xs) (jac xs) xs lam).
Proof.
  intros H x p xs lam HH E. unfold kkt_pair, nlp_kkt. rewrite sub_qp_feasible.
  cbn [sub_qp qm qn qAlb qAub qA qxlb qxub].
  assert (Lg : forall j, (j < n)%nat -> lag_grad (sub_qp P H (grad x) (jac x) (constr_values P x) x) p lam j =
      grad xs j + rsum m (fun i => jac xs i j * lam i) + lam (m + j)%nat).
  { intros j Hj. unfold lag_grad. cbn [sub_qp qm qn qH qh qA]. rewrite (grad_at H x p xs j HH E Hj).
    destruct HQ as (_ & _ & _ & _ & J).
    rewrite (rsum_ext m (fun i => jac x i j * lam i) (fun i => jac xs i j * lam i)); [ring|].
    intros i Hi. rewrite !J by auto. reflexivity. }
  assert (F : ((forall i, (i < ne P)%nat -> p_eq P x i + rmv n (jac x) p i = 0) /\
     (forall i, (i < ni P)%nat -> in_bounds (lbg P i) (ubg P i) (p_ineq P x i + rmv n (jac x) p (ne P + i)%nat)) /\
     (forall j, (j < n)%nat -> in_bounds (lbx P j) (ubx P j) (x j + p j))) <-> nlp_feasible P xs).
  { unfold nlp_feasible. split; intros (H1 & H2 & H3); (split; [|split]); intros k Hk.
    - rewrite (eq_at x p xs) by auto. auto.
    - rewrite (ineq_at x p xs) by auto. auto.
    - rewrite E by auto. auto.
    - rewrite <- (eq_at x p xs) by auto. auto.
    - rewrite <- (ineq_at x p xs) by auto. auto.
    - rewrite <- E by auto. auto. }
  rewrite F. clear F.
  split.
  - intros (K1 & K2 & K3 & K4). split; [exact K2|]. split; [|split].
    + intros j Hj. rewrite <- Lg by auto. apply K1; auto.
    + intros i Hi. specialize (K3 (ne P + i)%nat ltac:(lia)).
      unfold constr_values in K3. destruct (Nat.ltb_spec (ne P + i) (ne P)); [lia|].
      replace (ne P + i - ne P)%nat with i in K3 by lia.
      rewrite (ineq_at x p xs) by auto. exact (proj1 (sign_ok_move_add _ _ _ _ _) K3).
    + intros j Hj. rewrite E by auto. exact (proj1 (sign_ok_move _ _ _ _ _) (K4 j Hj)).
  - intros (K2 & K1 & K3 & K4). split; [|split; [exact K2|split]].
    + intros j Hj. rewrite Lg by auto. apply K1; auto.
    + intros i Hi. unfold constr_values. destruct (Nat.ltb_spec i (ne P)) as [Hlt|Hge].
      * destruct K2 as (Ez & _). specialize (Ez i Hlt). rewrite (eq_at x p xs) in Ez by auto.
        unfold sign_ok. simpl. split; intros; f_equal; lra.
      * apply (proj2 (sign_ok_move_add _ _ _ _ _)).
        assert (K := K3 (i - ne P)%nat ltac:(lia)). rewrite (ineq_at x p xs) in K by (auto; lia).
        replace (ne P + (i - ne P))%nat with i in K by lia. exact K.
    + intros j Hj. apply (proj2 (sign_ok_move _ _ _ _ _)). rewrite <- E by auto. apply K4; auto.
Qed.

(** change of cost along a step *)
Lemma cost_at : forall x p xs, (forall j, (j < n)%nat -> xs j = x j + p j) ->
  p_cost P xs = p_cost P x + rdot n (grad x) p + / 2 * qf n G p.
Proof.
  intros x p xs E. destruct HQ as (S & C & D & _ & _). rewrite !C.
  rewrite (rdot_ext n c xs c (fun j => x j + 1 * p j)) by (intros; rewrite ?E; auto; ring).
  assert (Eq : qf n G xs = qf n G (fun j => x j + 1 * p j)).
  { unfold qf. apply rdot_ext; intros i Hi; [rewrite E by auto; ring|]. apply rmv_ext; auto.
    intros j Hj. rewrite E by auto. ring. }
  rewrite Eq, qf_plus_scal by exact S. rewrite rdot_plus_r, rdot_scal_r.
  rewrite (rdot_ext n (grad x) p (fun j => c j + rmv n G x j) p) by (intros; auto).
  rewrite rdot_plus_l. rewrite (rdot_comm n (rmv n G x) p).
  change (rdot n p (rmv n G x)) with (bf n G p x). rewrite (bf_sym n G p x S). field.
Qed.

Hypothesis HB : proper_bounds P.

(** a KKT point is optimal *)
Lemma kkt_optimal : forall xs lam, psd n G -> nlp_kkt P (grad xs) (jac xs) xs lam ->
  forall y, nlp_feasible P y -> p_cost P xs + / 2 * gdist2 n G y xs <= p_cost P y.
Proof.
  intros xs lam HP HK y Hy.
  assert (E : forall j, (j < n)%nat -> xs j = y j + (xs j - y j)) by (intros; ring).
  apply (step_kkt G y (fun j => xs j - y j) xs lam (fun i j _ _ => eq_refl) E) in HK.
  pose proof (sub_qp_descent P G (grad y) (jac y) y _ lam HB HK) as D.
  apply (l1_zero P y HB) in Hy. rewrite Hy, Rmult_0_r, Rplus_0_r in D.
  rewrite (cost_at y (fun j => xs j - y j) xs E).
  assert (Es : gdist2 n G y xs = qf n G (fun j => xs j - y j)).
  { unfold gdist2, qf. 
    rewrite (rdot_ext n (fun j => y j - xs j) (rmv n G (fun j => y j - xs j)) (fun j => (-1) * (xs j - y j))
       (fun i => (-1) * rmv n G (fun j => xs j - y j) i)).
    - rewrite rdot_scal_l, rdot_scal_r. ring.
    - intros; ring.
    - intros i Hi. rewrite <- rmv_scal. apply rmv_ext; auto. intros; ring. }
  rewrite Es. lra.
Qed.

Section Run.
Variable st : sqp_settings R.
Variables Q W : Type.
Variable hupd : mat R -> vec R -> vec R -> mat R.
Variable hreg : mat R -> mat R.
Variable pc_compute : W -> qp_data R -> W * qp_data R.
Variable pc_unscale_sol : W -> vec R * vec R -> vec R * vec R.
Variable pc_unscale : W -> qp_data R -> qp_data R.
Variable qp_solve : Q -> qp_data R -> Q * (vec R * vec R * Z).
Variable qp_mark : Q -> Q.
Notation state := (@sqp_state R Q W).
Notation solve := (sqp_solve P st Q W hupd hreg pc_compute pc_unscale_sol pc_unscale qp_solve qp_mark).
Notation first := (sqp_first P st Q W hreg pc_compute pc_unscale_sol pc_unscale qp_solve qp_mark).
Notation iteration := (sqp_iteration P st Q W hupd pc_compute pc_unscale_sol pc_unscale qp_solve).
Notation loop := (sqp_loop P st Q W hupd pc_compute pc_unscale_sol pc_unscale qp_solve).
Notation rtrip := (round_trip W pc_compute pc_unscale).
Hypothesis HR : restores P W pc_compute pc_unscale.
Hypothesis HL : linearised_by P grad jac.
Hypothesis Htau : 0 <= tau st <= 1.
Hypothesis Heta : 0 <= eta st < / 2.
Hypothesis Hls : (2 <= ls_max_iter st)%Z.

Lemma budget_pos : (1 <= ls_budget st)%nat.
Proof. unfold ls_budget. lia. Qed.

Lemma eps_pos : 0 < (sqp_eps : R).
Proof. unfold sqp_eps, scst. simpl. apply Rdiv_lt_0_compat; lra. Qed.

(** the Armijo test at the full step *)
Lemma full_step : forall H x p lk, hess_ok H ->
  kkt_pair (sub_qp P H (grad x) (jac x) (constr_values P x) x) p lk ->
  blur (eta st) (rnorminf nd lk) <= qf n G p ->
  let mu := rnorminf nd lk in
  merit P mu (along P x p 1) <= merit P mu x + 1 * eta st * (rdot n (grad x) p - mu * (sqp_eps + total_violation P x)).
Proof.
  intros H x p lk HH HK Hb mu.
  assert (E : forall j, (j < n)%nat -> along P x p 1 j = x j + p j).
  { intros j Hj. unfold along. rewrite tab_spec by auto. ring. }
  assert (F : nlp_feasible P (along P x p 1)).
  { apply (step_kkt H x p (along P x p 1) lk HH E) in HK. apply HK. }
  pose proof (sub_qp_descent P H (grad x) (jac x) x p lk HB HK) as D. fold mu in D. rewrite l1_sum_total in D.
  assert (Eq : qf n H p = qf n G p).
  { unfold qf. apply rdot_ext; auto. intros i Hi. apply rmv_ext; auto. }
  rewrite Eq in D. apply (l1_zero P _ HB) in F. rewrite l1_sum_total in F.
  unfold merit. rewrite F, (cost_at x p (along P x p 1) E).
  unfold blur in Hb. fold mu in Hb.
  assert (B : eta st * (mu * sqp_eps) <= (/ 2 - eta st) * qf n G p).
  { apply (Rmult_le_compat_l (/ 2 - eta st)) in Hb; [|lra].
    replace ((/ 2 - eta st) * (eta st / (/ 2 - eta st) * (mu * sqp_eps))) with (eta st * (mu * sqp_eps)) in Hb by (field; lra).
    exact Hb. }
  set (g := rdot n (grad x) p) in *. set (v := total_violation P x) in *. set (q := qf n G p) in *.
  set (D0 := g - mu * v).
  assert (D1 : D0 <= - q) by (unfold D0; lra).
  assert (X : (1 - eta st) * D0 <= (1 - eta st) * - q) by (apply Rmult_le_compat_l; lra).
  unfold D0 in X. lra.
Qed.

(** what one step from [s] does, given the exact Hessian *)
Lemma qp_step : forall (s s' : state) H xs ls,
  let d := sub_qp P H (grad (m_x s)) (jac (m_x s)) (constr_values P (m_x s)) (m_x s) in
  hess_ok H -> posdef n G -> nlp_kkt P (grad xs) (jac xs) xs ls ->
  stepped P st Q W (rtrip d) s s' d ->
  forall p lk rest, steps s' = (d, (p, lk)) :: rest -> kkt_pair d p lk ->
  (forall j, (j < n)%nat -> xs j = m_x s j + p j) /\
  (exists a, 0 <= a <= 1 /\ forall j, (j < n)%nat -> m_x s' j = m_x s j + a * p j) /\
  (blur (eta st) (rnorminf nd lk) <= qf n G p ->
     (forall j, (j < n)%nat -> m_x s' j = xs j) /\ (forall i, (i < nd)%nat -> m_lam s' i = lk i)).
Proof.
  intros s s' H xs ls d HH HP HK Hst p lk rest Es HE.
  destruct Hst as (p1 & lk1 & d2 & i & (w & w' & d1 & Ec & Eu) & Hi & Hrej & Hacc & Hx & Hl & _ & Hpn & Hdn & _ & _ & _ & _ & Hseen & _ & Hst).
  rewrite Es in Hst. injection Hst as <- <- _.
  assert (E : forall j, (j < n)%nat -> xs j = m_x s j + p j).
  { assert (E0 : forall j, (j < n)%nat -> xs j = m_x s j + (xs j - m_x s j)) by (intros; ring).
    apply (step_kkt H (m_x s) (fun j => xs j - m_x s j) xs ls HH E0) in HK.
    intros j Hj. assert (Hpd : posdef (qn d) (qH d)).
    { intros v Hv. change (qf (qn d) (qH d) v) with (qf n H v).
      replace (qf n H v) with (qf n G v); [apply HP; exact Hv|].
      unfold qf. apply rdot_ext; auto. intros k Hk. apply rmv_ext; auto. intros; symmetry; auto. }
    pose proof (kkt_unique d _ _ _ _ Hpd HE HK j Hj) as X. cbv beta in X. lra. }
  split; [exact E|]. split.
  { exists (spow (tau st) i). split; [apply spow_range; exact Htau|]. intros j Hj. rewrite Hx, tab_spec by auto. reflexivity. }
  intros Hb.
  assert (i = O).
  { destruct i as [|i]; [reflexivity|exfalso].
    specialize (Hrej O ltac:(lia)). cbn [spow] in Hrej.
    assert (Eh : rdot n (qh d2) p = rdot n (grad (m_x s)) p).
    { rewrite !rdot_def. apply rsum_ext. intros j Hj. rewrite Eu, (HR w d w' d1 eq_refl eq_refl Ec j Hj). reflexivity. }
    rewrite Eh in Hrej.
    pose proof (full_step H (m_x s) p lk HH HE Hb) as FS. cbv zeta in FS. apply accept_R in FS.
    assert (Eacc : forall x, x = false -> x = true -> False) by (intros; congruence).
    refine (Eacc _ Hrej _). exact FS. }
  subst i. cbn [spow] in *. split.
  - intros j Hj. rewrite Hx, tab_spec, E by auto. simpl. ring.
  - intros k Hk. rewrite Hl, !tab_spec by auto. simpl. ring.
Qed.

(** distance to the solution after a step *)
Lemma dist_step : forall x p xs y a, 0 <= a <= 1 -> psd n G -> (forall j, (j < n)%nat -> xs j = x j + p j) ->
  (forall j, (j < n)%nat -> y j = x j + a * p j) -> gdist2 n G y xs <= gdist2 n G x xs.
Proof.
  intros x p xs y a Ha HP E Ey. unfold gdist2.
  assert (S : forall k u v, (forall j, (j < n)%nat -> u j = k * v j) -> qf n G u = k * k * qf n G v).
  { intros k u v Hu. unfold qf.
    rewrite (rdot_ext n u (rmv n G u) (fun j => k * v j) (fun i => k * rmv n G v i)).
    - rewrite rdot_scal_l, rdot_scal_r. ring.
    - auto.
    - intros i Hi. rewrite <- rmv_scal. apply rmv_ext; auto. }
  rewrite (S (1 - a) (fun j => y j - xs j) (fun j => x j - xs j)).
  - assert (0 <= qf n G (fun j => x j - xs j)) by apply HP.
    assert ((1 - a) * (1 - a) <= 1) by nra.
    rewrite <- (Rmult_1_l (qf n G (fun j => x j - xs j))) at 2. apply Rmult_le_compat_r; assumption.
  - intros j Hj. rewrite Ey, E by auto. ring.
Qed.

(** the step data of the first iteration *)
Lemma first_stepped : forall s : state, exists H,
  let d := sub_qp P H (grad (m_x s)) (jac (m_x s)) (constr_values P (m_x s)) (m_x s) in
  stepped P st Q W (rtrip d) (start Q W s) (first s) d.
Proof.
  intros s. destruct HL as [L1 _]. destruct (L1 (m_x s) (m_lam s)) as (lagg & H0 & E). exists (hreg H0). cbv zeta.
  pose proof (step_spec P st Q W pc_compute pc_unscale_sol pc_unscale qp_solve qp_mark
                (start Q W s) lagg (hreg H0) (grad (m_x s)) (jac (m_x s)) (constr_values P (m_x s))) as Hstep.
  assert (Ef : first s = sqp_step P st Q W pc_compute pc_unscale_sol pc_unscale qp_solve qp_mark
                (start Q W s) lagg (hreg H0) (grad (m_x s)) (jac (m_x s)) (constr_values P (m_x s))).
  { unfold sqp_first. fold (start Q W s). change (m_x (start Q W s)) with (m_x s).
    change (m_lam (start Q W s)) with (m_lam s). rewrite E. reflexivity. }
  rewrite Ef. exact Hstep.
Qed.

Lemma step_mono : forall s0 : state, exists l, steps (iteration s0) = l ++ steps s0 /\ (0 < length l)%nat.
Proof.
  intros s0. unfold sqp_iteration.
  set (s1 := set_iter Q W (m_iter s0 + 1) s0).
  destruct (p_lag P (m_x s1) (m_lam s1)) as [[[lagg h] bb] AA].
  match goal with |- context [sqp_step _ _ _ _ _ _ _ _ ?mk s1 ?lg ?H ?h ?A ?b] =>
    destruct (step_spec P st Q W pc_compute pc_unscale_sol pc_unscale qp_solve mk s1 lg H h A b)
      as (p1 & lk1 & d3 & i1 & _ & _ & _ & _ & _ & _ & _ & _ & _ & _ & _ & _ & _ & _ & _ & Hst1) end.
  destruct (callback_core st Q W (sqp_step P st Q W pc_compute pc_unscale_sol pc_unscale qp_solve (fun q : Q => q) s1 lagg
     (hupd (m_H s1) (m_step_prev s1) (tab n (fun j : nat => ssub (lagg j) (m_lag_gradient s1 j)))) h AA bb))
     as (_ & _ & _ & _ & _ & _ & _ & _ & _ & Es).
  rewrite Es, Hst1. eexists [_]. split; [reflexivity|cbn; lia].
Qed.

Lemma loop_steps : forall f (s0 : state), exists l, steps (loop f s0) = l ++ steps s0.
Proof.
  induction f as [|f IH]; intros s0; cbn [sqp_loop]; [exists []; reflexivity|].
  destruct (m_iter s0 <? smax_iter st)%Z; [|exists []; reflexivity].
  destruct (step_mono s0) as (l1 & E1 & _).
  destruct (terminated st Q W (iteration s0)).
  - exists l1. exact E1.
  - destruct (IH (iteration s0)) as (l2 & E2). exists (l2 ++ l1). rewrite E2, E1, app_assoc. reflexivity.
Qed.

Lemma solve_steps : forall s : state, exists l, steps (solve s) = l ++ steps (first s).
Proof.
  intros s. unfold sqp_solve. destruct (terminated st Q W (first s)); [exists []; reflexivity|apply loop_steps].
Qed.

(** distances never grow *)
Lemma run_dist : forall (s : state) xs ls, posdef n G -> nlp_kkt P (grad xs) (jac xs) xs ls ->
  Forall exact_step (steps (solve s)) -> Forall (hessian_is n G) (steps (solve s)) ->
  exists l, seen (solve s) = l ++ [(m_x s, m_lam s)] /\ (0 < length l)%nat /\
    (exists lam, hd_error l = Some (m_x (solve s), lam)) /\
    Forall (fun e => gdist2 n G (fst e) xs <= gdist2 n G (m_x (first s)) xs) l.
Proof.
  intros s xs ls HP HK.
  pose (J := fun s' : state => Forall exact_step (steps s') -> Forall (hessian_is n G) (steps s') ->
    exists l, seen s' = l ++ [(m_x s, m_lam s)] /\ (0 < length l)%nat /\
    (exists lam, hd_error l = Some (m_x s', lam)) /\
    Forall (fun e => gdist2 n G (fst e) xs <= gdist2 n G (m_x (first s)) xs) l).
  apply (solve_inv P st Q W hupd hreg pc_compute pc_unscale_sol pc_unscale qp_solve qp_mark J).
  - intros s1 s2 (A1 & A2 & A3 & A4 & A5 & A6 & A7 & A8 & A9 & A10) H. unfold J in *. rewrite <- A1, <- A9, <- A10. exact H.
  - intros s0 lagg h bb AA HJ E.
    destruct HL as [_ L2]. destruct (L2 (m_x s0) (m_lam s0)) as (lagg' & E'). rewrite E in E'. injection E' as _ -> -> ->.
    match goal with |- J (sqp_step _ _ _ _ _ _ _ _ ?mk ?s1 ?lg ?H ?h ?A ?b) =>
      pose proof (step_spec P st Q W pc_compute pc_unscale_sol pc_unscale qp_solve mk s1 lg H h A b) as Hst;
      set (s' := sqp_step P st Q W pc_compute pc_unscale_sol pc_unscale qp_solve mk s1 lg H h A b) in *; set (H1 := H) in * end.
    intros HE HG.
    assert (Hst0 := Hst).
    destruct Hst0 as (p & lk & d2 & i & _ & _ & _ & _ & Hx & Hl & _ & _ & _ & _ & _ & _ & _ & Hseen & _ & Hsteps).
    rewrite Hsteps in HE, HG. inversion HE as [|? ? HE1 HE2]; subst. inversion HG as [|? ? HG1 HG2]; subst.
    destruct (HJ HE2 HG2) as (l & E1 & E2 & (lam & E3) & E4).
    exists ((m_x s', m_lam s') :: l). split; [rewrite Hseen, E1; reflexivity|]. split; [cbn; lia|].
    split; [exists (m_lam s'); reflexivity|]. constructor; [|exact E4]. cbn [fst].
    destruct (qp_step s0 s' H1 xs ls HG1 HP HK Hst p lk _ Hsteps (proj2 HE1)) as (Q1 & (a & Ha & Q2) & _).
    eapply Rle_trans; [apply (dist_step (m_x s0) p xs (m_x s') a Ha (posdef_psd _ _ HP) Q1 Q2)|].
    destruct l as [|e l']; [cbn in E2; lia|]. cbn in E3. injection E3 as E3. inversion E4 as [|? ? X _]; subst. exact X.
  - destruct (first_stepped s) as (H & Hst). cbv zeta in Hst.
    destruct Hst as (p & lk & d2 & i & _ & _ & _ & _ & Hx & Hl & _ & _ & _ & _ & _ & _ & _ & Hseen & _ & Hsteps).
    intros _ _. exists [(m_x (first s), m_lam (first s))]. split; [exact Hseen|]. split; [cbn; lia|].
    split; [exists (m_lam (first s)); reflexivity|]. constructor; [cbn [fst]; lra|constructor].
Qed.

(** at a KKT point with the unique multipliers one more iteration reports SOLVED *)
Lemma kkt_terminates : forall (s s' : state) H,
  let d := sub_qp P H (grad (m_x s)) (jac (m_x s)) (constr_values P (m_x s)) (m_x s) in
  stepped P st Q W (rtrip d) s s' d -> nlp_kkt P (grad (m_x s)) (jac (m_x s)) (m_x s) (m_lam s) ->
  (forall lam, nlp_kkt P (grad (m_x s)) (jac (m_x s)) (m_x s) lam -> forall i, (i < nd)%nat -> lam i = m_lam s i) ->
  0 <= eps_prim st -> 0 <= eps_dual st -> hess_ok H ->
  (forall e rest, steps s' = e :: rest -> exact_step e) ->
  terminated st Q W s' = true /\ (forall i, (i < nd)%nat -> m_lam s' i = m_lam s i).
Proof.
  intros s s' H d (p & lk & d2 & i & _ & _ & _ & _ & Hx & Hl & _ & Hpn & Hdn & Hv & _ & _ & Hit & Hseen & _ & Hsteps) HK Hu He1 He2 HH HE.
  specialize (HE _ _ Hsteps).
  assert (Hp := zero_step P grad jac H (m_x s) (m_lam s) p lk HK HE).
  assert (E : forall j, (j < n)%nat -> m_x s j = m_x s j + p j) by (intros j Hj; rewrite Hp by auto; ring).
  assert (Hlk : forall i, (i < nd)%nat -> lk i = m_lam s i).
  { apply Hu. apply (step_kkt H (m_x s) p (m_x s) lk HH E). apply (proj2 HE). }
  assert (Bx : forall j, (j < n)%nat -> m_x s' j = m_x s j + 0).
  { intros j Hj. rewrite Hx, tab_spec by auto. rewrite Hp by auto. simpl. ring. }
  split.
  - unfold terminated, termination. rewrite Hpn, Hdn, Hv.
    assert (N1 : norminf n p = 0) by (apply rnorminf_zero; auto).
    assert (N2 : norminf nd (tab nd (fun i => ssub (lk i) (m_lam s i))) = 0).
    { apply rnorminf_zero. intros k Hk. rewrite tab_spec by auto. rewrite Hlk by auto. simpl. ring. }
    rewrite N1, N2. rewrite !andb_true_iff. simpl. rewrite !Rleb_true.
    split; [split; rewrite Rmult_0_r; auto|]. apply ext_leb_s_R. apply max_violation_le; auto.
    apply within_mono with 0; auto. apply within_zero.
    assert (HK' := HK). apply (sub_qp_kkt P G) in HK'.
    apply (step_kkt G (m_x s) (fun _ => 0) (m_x s') (m_lam s) (fun i j _ _ => eq_refl) Bx) in HK'. apply HK'.
  - intros k Hk. rewrite Hl, !tab_spec by auto. rewrite Hlk by auto. simpl. ring.
Qed.

Lemma qf_scal : forall k u v, (forall j, (j < n)%nat -> u j = k * v j) -> qf n G u = k * k * qf n G v.
Proof.
  intros k u v Hu. unfold qf.
  rewrite (rdot_ext n u (rmv n G u) (fun j => k * v j) (fun i => k * rmv n G v i)).
  - rewrite rdot_scal_l, rdot_scal_r. ring.
  - auto.
  - intros i Hi. rewrite <- rmv_scal. apply rmv_ext; auto.
Qed.

Lemma gdist_zero : forall x y, posdef n G -> gdist2 n G x y <= 0 -> forall j, (j < n)%nat -> x j = y j.
Proof.
  intros x y HP H j Hj. destruct (nonzero_dec n (fun j => x j - y j)) as [N|N].
  - specialize (HP _ N). unfold gdist2 in H. lra.
  - specialize (N j Hj). cbv beta in N. lra.
Qed.

Theorem qp_run : forall s : state,
  Forall exact_step (steps (solve s)) -> Forall (hessian_is n G) (steps (solve s)) ->
  exists xs ls,
    nlp_kkt P (grad xs) (jac xs) xs ls /\
    (forall y, nlp_feasible P y -> p_cost P xs + / 2 * gdist2 n G y xs <= p_cost P y) /\
    exists l, seen (solve s) = l ++ [(m_x s, m_lam s)] /\ (0 < length l)%nat /\
      Forall (fun e => gdist2 n G (fst e) xs <= Rmin (blur (eta st) (rnorminf nd ls)) (gdist2 n G (m_x s) xs)) l /\
      (blur (eta st) (rnorminf nd ls) <= gdist2 n G (m_x s) xs ->
       Forall (fun e => forall j, (j < n)%nat -> fst e j = xs j) l /\
       (forall j, (j < n)%nat -> m_x (solve s) j = xs j) /\
       ((forall lam, nlp_kkt P (grad xs) (jac xs) xs lam -> forall i, (i < nd)%nat -> lam i = ls i) ->
        0 <= eps_prim st -> 0 <= eps_dual st -> (2 <= smax_iter st)%Z ->
        m_status (solve s) = SqpSolved /\ (m_iter (solve s) <= 2)%Z /\
        (forall i, (i < nd)%nat -> m_lam (solve s) i = ls i))).
Proof.
  intros s HE HG.
  destruct (first_stepped s) as (H & Hst). cbv zeta in Hst.
  assert (Hst0 := Hst).
  destruct Hst0 as (p & lk & d2 & i & _ & _ & _ & _ & Hx & Hl & _ & _ & _ & _ & _ & _ & Hit & Hseen & _ & Hsteps).
  change (steps (start Q W s)) with (@nil (qp_data R * (vec R * vec R))) in *.
  change (m_x (start Q W s)) with (m_x s) in *. change (m_lam (start Q W s)) with (m_lam s) in *.
  assert (HE1 : exact_step (sub_qp P H (grad (m_x s)) (jac (m_x s)) (constr_values P (m_x s)) (m_x s), (p, lk)) /\ hess_ok H).
  { destruct (solve_steps s) as (l & El). rewrite El, Hsteps in HE, HG.
    apply Forall_app in HE. apply Forall_app in HG. destruct HE as [_ HE], HG as [_ HG].
    inversion HE; subst. inversion HG; subst. split; assumption. }
  destruct HE1 as [HE1 HH].
  assert (HP : posdef n G).
  { intros v Hv. destruct HE1 as [HP _]. specialize (HP v Hv). change (0 < qf n H v) in HP.
    replace (qf n G v) with (qf n H v); [exact HP|].
    unfold qf. apply rdot_ext; auto. intros k Hk. apply rmv_ext; auto. }
  set (xs := tab n (fun j => m_x s j + p j)).
  assert (E : forall j, (j < n)%nat -> xs j = m_x s j + p j).
  { intros j Hj. unfold xs. rewrite tab_spec by auto. reflexivity. }
  assert (HK : nlp_kkt P (grad xs) (jac xs) xs lk).
  { apply (step_kkt H (m_x s) p xs lk HH E). apply (proj2 HE1). }
  exists xs, lk. split; [exact HK|].
  split; [apply (kkt_optimal xs lk (posdef_psd _ _ HP) HK)|].
  destruct (qp_step (start Q W s) (first s) H xs lk HH HP HK Hst p lk [] Hsteps (proj2 HE1)) as (_ & (a & Ha & Q2) & Q3).
  change (m_x (start Q W s)) with (m_x s) in *.
  assert (Ed : gdist2 n G (m_x s) xs = qf n G p).
  { unfold gdist2. rewrite (qf_scal (-1) (fun j => m_x s j - xs j) p); [ring|]. intros j Hj. rewrite E by auto. ring. }
  destruct (run_dist s xs lk HP HK HE HG) as (l & E1 & E2 & (lam & E3) & E4).
  assert (N : 0 <= blur (eta st) (rnorminf nd lk)).
  { unfold blur. apply Rmult_le_pos; [apply Rmult_le_pos; [lra|apply Rlt_le, Rinv_0_lt_compat; lra]|].
    apply Rmult_le_pos; [apply rnorminf_nonneg|pose proof eps_pos; lra]. }
  assert (Dl : gdist2 n G (m_x (first s)) xs <= gdist2 n G (m_x s) xs).
  { apply (dist_step (m_x s) p xs (m_x (first s)) a Ha (posdef_psd _ _ HP) E Q2). }
  assert (F0 : blur (eta st) (rnorminf nd lk) <= gdist2 n G (m_x s) xs -> gdist2 n G (m_x (first s)) xs = 0).
  { intros Hb. rewrite Ed in Hb. destruct (Q3 Hb) as [Q4 _]. unfold gdist2. apply qf_zero_vec.
    intros j Hj. rewrite Q4 by auto. ring. }
  exists l. split; [exact E1|]. split; [exact E2|]. split.
  - eapply Forall_impl; [|exact E4]. intros e X. cbv beta in X. apply Rmin_glb; [|lra].
    destruct (Rle_dec (blur (eta st) (rnorminf nd lk)) (gdist2 n G (m_x s) xs)) as [Hb|Hb].
    + rewrite (F0 Hb) in X. lra.
    + apply Rnot_le_lt in Hb. lra.
  - intros Hb. specialize (F0 Hb). rewrite F0 in E4.
    assert (Fx : Forall (fun e => forall j, (j < n)%nat -> fst e j = xs j) l).
    { eapply Forall_impl; [|exact E4]. intros e X. cbv beta in X. apply gdist_zero; assumption. }
    split; [exact Fx|].
    split.
    { destruct l as [|e l']; [cbn in E2; lia|]. cbn in E3. injection E3 as E3. inversion Fx as [|? ? X _]; subst. exact X. }
    intros Hu He1 He2 Hmax. rewrite Ed in Hb. destruct (Q3 Hb) as [Q4 Q5].
    assert (Hi1 : m_iter (first s) = 1%Z) by exact Hit.
    (* at the solution the next iteration terminates *)
    assert (KK : forall lm, nlp_kkt P (grad (m_x (first s))) (jac (m_x (first s))) (m_x (first s)) lm <->
                            nlp_kkt P (grad xs) (jac xs) xs lm).
    { intros lm. assert (E' : forall j, (j < n)%nat -> m_x (first s) j = m_x s j + p j) by (intros; rewrite Q4; auto).
      rewrite <- (step_kkt H (m_x s) p xs lm HH E), <- (step_kkt H (m_x s) p _ lm HH E'). reflexivity. }
    assert (KL : forall a1 b1, (forall i, (i < nd)%nat -> a1 i = b1 i) -> nlp_kkt P (grad xs) (jac xs) xs a1 -> nlp_kkt P (grad xs) (jac xs) xs b1).
    { intros a1 b1 Eab (K1 & K2 & K3 & K4). split; [exact K1|]. split; [|split].
      - intros j Hj. rewrite <- (Eab (m + j)%nat) by lia. rewrite <- (K2 j Hj). f_equal. f_equal. apply rsum_ext.
        intros k Hk. rewrite Eab by lia. reflexivity.
      - intros k Hk. rewrite <- Eab by lia. auto.
      - intros j Hj. rewrite <- Eab by lia. auto. }
    unfold sqp_solve in *. destruct (terminated st Q W (first s)) eqn:Et.
    { split; [reflexivity|]. split; [change (m_iter (first s) <= 2)%Z; lia|]. exact Q5. }
    assert (Hf : exists f, Z.to_nat (smax_iter st - 1) = S f) by (exists (Z.to_nat (smax_iter st - 2)); lia).
    destruct Hf as (f & Hf). rewrite Hf in *. cbn [sqp_loop] in *.
    rewrite Hi1 in *. destruct (Z.ltb_spec 1 (smax_iter st)) as [_|]; [|lia].
    assert (It : exists H1 s1, m_x s1 = m_x (first s) /\ m_lam s1 = m_lam (first s) /\
        (let d := sub_qp P H1 (grad (m_x s1)) (jac (m_x s1)) (constr_values P (m_x s1)) (m_x s1) in
         exists s2, stepped P st Q W (rtrip d) s1 s2 d /\ same_core Q W s2 (iteration (first s)) /\
           terminated st Q W s2 = terminated st Q W (iteration (first s)) /\ m_iter (iteration (first s)) = 2%Z)).
    { destruct HL as [_ L2]. destruct (L2 (m_x (first s)) (m_lam (first s))) as (lagg & El).
      set (s1 := set_iter Q W (m_iter (first s) + 1) (first s)).
      set (H1 := hupd (m_H s1) (m_step_prev s1) (tab n (fun j : nat => ssub (lagg j) (m_lag_gradient s1 j)))).
      exists H1, s1. split; [reflexivity|]. split; [reflexivity|]. cbv zeta.
      exists (sqp_step P st Q W pc_compute pc_unscale_sol pc_unscale qp_solve (fun q : Q => q) s1 lagg H1
                (grad (m_x s1)) (jac (m_x s1)) (constr_values P (m_x s1))).
      split; [apply step_spec|].
      assert (Ei : iteration (first s) = callback st Q W (sqp_step P st Q W pc_compute pc_unscale_sol pc_unscale qp_solve (fun q : Q => q) s1 lagg H1
                (grad (m_x s1)) (jac (m_x s1)) (constr_values P (m_x s1)))).
      { unfold sqp_iteration. fold s1. change (m_x s1) with (m_x (first s)). change (m_lam s1) with (m_lam (first s)).
        rewrite El. reflexivity. }
      rewrite Ei. split; [apply core_sym, callback_core|].
      match goal with |- _ /\ m_iter (callback _ _ _ ?t) = _ =>
        pose proof (step_spec P st Q W pc_compute pc_unscale_sol pc_unscale qp_solve (fun q : Q => q) s1 lagg H1
                (grad (m_x s1)) (jac (m_x s1)) (constr_values P (m_x s1))) as Z1; set (s2 := t) in * end.
      destruct Z1 as (z1 & z2 & z3 & z4 & _ & _ & _ & _ & _ & _ & _ & _ & _ & _ & _ & _ & Zi & _).
      assert (Z2 : m_iter s2 = 2%Z) by (rewrite Zi; unfold s1; cbn [set_iter m_iter]; rewrite Hi1; reflexivity).
      unfold callback. destruct (has_callback st); split; auto. }
    destruct It as (H1 & s1 & Ex1 & El1 & s2 & Hst2 & Hc & Ht2 & Hi2).
    assert (Hsuf : exists l, (if terminated st Q W (iteration (first s)) then steps (set_status Q W SqpSolved (iteration (first s)))
        else steps (loop f (iteration (first s)))) = l ++ steps s2).
    { destruct Hc as (_ & _ & _ & _ & _ & _ & _ & _ & _ & ->).
      destruct (terminated st Q W (iteration (first s))); [exists []; reflexivity|apply loop_steps]. }
    assert (Hall : forall e rest, steps s2 = e :: rest -> exact_step e /\ hessian_is n G e).
    { intros e rest Ee. destruct Hsuf as (ll & Ell). rewrite Ee in Ell.
      assert (X1 : Forall exact_step (ll ++ e :: rest)) by (rewrite <- Ell; destruct (terminated st Q W (iteration (first s))); exact HE).
      assert (X2 : Forall (hessian_is n G) (ll ++ e :: rest)) by (rewrite <- Ell; destruct (terminated st Q W (iteration (first s))); exact HG).
      apply Forall_app in X1. apply Forall_app in X2. destruct X1 as [_ X1], X2 as [_ X2].
      inversion X1; inversion X2; auto. }
    assert (HH1 : hess_ok H1).
    { destruct Hst2 as (y1 & y2 & y3 & y4 & _ & _ & _ & _ & _ & _ & _ & _ & _ & _ & _ & _ & _ & _ & _ & Ys).
      exact (proj2 (Hall _ _ Ys)). }
    destruct (kkt_terminates s1 s2 H1 Hst2) as [Tt Tl].
    { rewrite Ex1, El1. apply KK. apply (KL lk); [intros; symmetry; apply Q5; auto|exact HK]. }
    { rewrite Ex1, El1. intros lm Hlm k Hk. apply KK in Hlm. rewrite (Hu lm Hlm k Hk). symmetry. apply Q5; auto. }
    { exact He1. } { exact He2. } { exact HH1. } { intros e rest Ee. apply (Hall e rest Ee). }
    rewrite Ht2 in Tt. rewrite Tt. split; [reflexivity|]. split; [change (m_iter (iteration (first s)) <= 2)%Z; lia|].
    intros k Hk. change (m_lam (iteration (first s)) k = lk k).
    destruct Hc as (_ & <- & _). rewrite Tl, El1 by auto. apply Q5; auto.
Qed.

End Run.
End Qp.
