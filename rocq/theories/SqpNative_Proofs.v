(** Proofs about SqpNative_Model.v (property C105). *)
Require Import Arith ZArith List Bool Lia Reals Lra.
From Verif Require Import Scal RSum RNorm Qp_Model Qp_Spec Qp_Proofs Admm_Model Admm_Spec Admm_SpecR Admm_Conv
  BoxAdmm_Model BoxUnif_Proofs Sqp_Model Sqp_Spec Sqp_Proofs Sqp_ProofsR SqpQp_Spec SqpQp_Proofs
  QpDist_Spec QpDist_Proofs SqpDist_Proofs SqpNear_Spec SqpNear_Proofs SqpNative_Model.
Import ListNotations.
Local Open Scope R_scope.

Lemma sqrt_add : forall u v, 0 <= u -> 0 <= v -> sqrt (u + v) <= sqrt u + sqrt v.
Proof.
  intros u v Hu Hv. pose proof (sqrt_pos u) as A. pose proof (sqrt_pos v) as B.
  rewrite <- (sqrt_Rsqr (sqrt u + sqrt v)) by lra. apply sqrt_le_1_alt. unfold Rsqr. pose proof (sqrt_sqrt u Hu). pose proof (sqrt_sqrt v Hv).
  assert (0 <= sqrt u * sqrt v) by (apply Rmult_le_pos; assumption). lra.
Qed.

Lemma small_tolerance : forall n nd mu eta L Y d, 0 < mu -> 0 <= eta < / 2 -> 0 <= L -> 0 <= Y -> 0 < d ->
  exists e0, 0 < e0 /\ forall e, 0 <= e <= e0 ->
    short_step n nd mu eta e e L + target_error n mu e e Y <= d + sqrt (L * (eta * sqp_eps) / (/ 2 - eta)) /\
    e * (INR n * e / mu + sqrt (INR n * e * Y / mu)) + e * Y <= 1 /\ target_error n mu e e Y <= d /\ e <= d.
Proof.
  intros n nd mu eta L Y d Hmu Heta HL HY Hd. pose proof eps_pos as Hs. set (eps := (sqp_eps : R)) in *. set (c := / 2 - eta) in *.
  assert (Hc : 0 < c) by (unfold c; lra). assert (Hci : 0 < / c) by (apply Rinv_0_lt_compat; exact Hc).
  pose proof (pos_INR n) as Hn. pose proof (pos_INR nd) as Hnd. assert (Hmi : 0 < / mu) by (apply Rinv_0_lt_compat; exact Hmu).
  set (a := sqrt (INR n / mu) / c). set (k1 := L * (1 + 2 * INR nd) / c). set (k2 := INR n / mu + sqrt (INR n * Y / mu) + Y).
  assert (Ha : 0 <= a) by (apply Rmult_le_pos; [apply sqrt_pos|lra]).
  assert (Hnm : 0 <= INR n / mu) by (apply Rmult_le_pos; lra).
  assert (Hk1 : 0 <= k1) by (apply Rmult_le_pos; [apply Rmult_le_pos; lra|lra]).
  assert (Hk2 : 0 <= k2) by (unfold k2; pose proof (sqrt_pos (INR n * Y / mu)); lra).
  pose proof (sqrt_pos k1) as S1. pose proof (sqrt_pos k2) as S2. set (C := a + sqrt k1 + sqrt k2). assert (HC : 0 <= C) by (unfold C; lra).
  assert (Hdc : 0 < d / (C + 1)) by (apply Rdiv_lt_0_compat; lra). assert (Hk : 0 < / (k2 + 1)) by (apply Rinv_0_lt_compat; lra).
  set (w := Rmin (Rmin 1 (d / (C + 1))) (/ (k2 + 1))).
  assert (Hw : 0 < w) by (unfold w; repeat apply Rmin_glb_lt; lra).
  assert (W1 : w <= 1) by (unfold w; eapply Rle_trans; [apply Rmin_l|apply Rmin_l]).
  assert (W2 : w <= d / (C + 1)) by (unfold w; eapply Rle_trans; [apply Rmin_l|apply Rmin_r]).
  assert (W3 : w <= / (k2 + 1)) by (unfold w; apply Rmin_r).
  exists (w * w). split; [nra|]. intros e [He0 He].
  assert (Q0 := sqrt_sqrt e He0). assert (Q1 := sqrt_pos e). set (q := sqrt e) in *.
  assert (Qw : q <= w) by (unfold q; rewrite <- (sqrt_square w) by lra; apply sqrt_le_1_alt; exact He).
  assert (He1 : e <= 1) by nra. assert (Heq : e <= q) by nra.
  assert (T : e * (INR n * e / mu + sqrt (INR n * e * Y / mu)) + e * Y <= e * k2).
  { unfold k2. rewrite !Rmult_plus_distr_l. apply Rplus_le_compat_r. apply Rplus_le_compat; apply Rmult_le_compat_l; try assumption.
    - unfold Rdiv. apply Rmult_le_compat_r; [lra|]. nra.
    - apply sqrt_le_1_alt. unfold Rdiv. apply Rmult_le_compat_r; [lra|]. apply Rmult_le_compat_r; [exact HY|]. nra. }
  assert (B3 : target_error n mu e e Y <= q * sqrt k2) by (unfold target_error, q; rewrite <- sqrt_mult by assumption; apply sqrt_le_1_alt; exact T).
  assert (B4 : q * C <= d).
  { apply Rle_trans with (d / (C + 1) * C); [apply Rmult_le_compat_r; [exact HC|lra]|].
    replace d with (d / (C + 1) * (C + 1)) at 2 by (field; lra). apply Rmult_le_compat_l; lra. }
  assert (Hqa : 0 <= q * a) by (apply Rmult_le_pos; assumption). assert (Hq1 : 0 <= q * sqrt k1) by (apply Rmult_le_pos; assumption). assert (Hq2 : 0 <= q * sqrt k2) by (apply Rmult_le_pos; assumption).
  assert (Hqd : q <= d).
  { apply Rle_trans with (d / (C + 1)); [lra|]. replace d with (d / (C + 1) * (C + 1)) at 2 by (field; lra). rewrite <- (Rmult_1_r (d / (C + 1))) at 1. apply Rmult_le_compat_l; lra. }
  split; [|split; [|split; [unfold C in B4; lra|lra]]].
  - unfold short_step. fold eps c.
    assert (B1 : e * sqrt (INR n / mu) / c <= q * a) by (unfold a, Rdiv; rewrite Rmult_assoc; apply Rmult_le_compat_r; [exact Ha|exact Heq]).
    assert (B2 : sqrt (L * (e * (1 + 2 * INR nd) + eta * eps) / c) <= q * sqrt k1 + sqrt (L * (eta * eps) / c)).
    { replace (L * (e * (1 + 2 * INR nd) + eta * eps) / c) with (e * k1 + L * (eta * eps) / c) by (unfold k1; field; lra).
      eapply Rle_trans; [apply sqrt_add|rewrite sqrt_mult by assumption; fold q; lra].
      - apply Rmult_le_pos; assumption.
      - apply Rmult_le_pos; [|lra]. apply Rmult_le_pos; [exact HL|]. apply Rmult_le_pos; lra. }
    unfold C in B4. lra.
  - eapply Rle_trans; [exact T|]. apply Rle_trans with (/ (k2 + 1) * k2); [apply Rmult_le_compat_r; [exact Hk2|]; nra|].
    apply Rle_trans with (/ (k2 + 1) * (k2 + 1)); [apply Rmult_le_compat_l; lra|right; field; lra].
Qed.

Section Native.
Variable P : problem R.
Variable grad : vec R -> vec R.
Variable jac : vec R -> mat R.
Variable G : mat R.
Variable c : vec R.
Variable c0 : R.
Variable A : mat R.
Variable b : vec R.
Hypothesis HQ : quadratic_nlp P grad jac G c c0 A b.
Variable mu : R.
Hypothesis Hmu : 0 < mu.
Hypothesis HM : curvature (nx P) G mu.
Variables xs ls : vec R.
Hypothesis HK : nlp_kkt P (grad xs) (jac xs) xs ls.
Notation n := (nx P).
Notation m := (ne P + ni P)%nat.
Notation nd := (ne P + ni P + nx P)%nat.

(** the subproblems of all points within a distance are a family in the sense of BoxUnif_Proofs.v *)
Definition col_sum : R := rsum n (fun j => rsum (m + n) (fun i => Rabs (stacked m A i j))).
Lemma subproblems : forall Rb H x, hess_ok P G H -> gdist2 n G x xs <= Rb ->
  let B := sqrt (Rb / mu) in
  family n m B (rnorm1 nd ls) (mass m n A) col_sum (mass n n G) (rnorm1 n (grad xs) + mass n n G * B)
    (sub_qp P H (grad x) (jac x) (constr_values P x) x) (fun j => xs j - x j) ls.
Proof.
  intros Rb H x HH HD B. pose proof HQ as (Hs & _ & Hg & _ & HJ).
  assert (Bx : forall j, (j < n)%nat -> Rabs (xs j - x j) <= B).
  { intros j Hj. rewrite Rabs_minus_sym. apply sq_bound; [exact Hmu|]. eapply Rle_trans; [|exact HD]. unfold gdist2.
    eapply Rle_trans; [|apply HM]. apply Rmult_le_compat_l; [lra|]. rewrite rdot_def.
    apply (rsum_nonneg_term n (fun j => (x j - xs j) * (x j - xs j)) j); [intros; apply Rle_0_sqr|exact Hj]. }
  assert (N1 : forall k (v : vec R) i, (i < k)%nat -> Rabs (v i) <= rnorm1 k v).
  { intros k v i Hi. rewrite rnorm1_def. apply (rsum_nonneg_term k (fun i => Rabs (v i)) i); [intros; apply Rabs_pos|exact Hi]. }
  unfold family, sub_qp. cbn [qn qm qH qh qA]. fold (sub_qp P H (grad x) (jac x) (constr_values P x) x).
  split; [reflexivity|]. split; [reflexivity|]. split; [|split; [|split; [|split; [exact Bx|split; [|split; [|split; [|split]]]]]]].
  - intros i j Hi Hj. rewrite !HH by assumption. apply Hs; assumption.
  - intro v. rewrite (qf_eq P G H v HH). apply (curv_psd P G mu Hmu HM).
  - apply (step_kkt P grad jac G c c0 A b HQ H x (fun j => xs j - x j) xs ls HH); [intros; ring|exact HK].
  - intros i Hi. apply N1. lia.
  - right. unfold mass. apply rsum_ext. intros i Hi. apply rsum_ext. intros j Hj. cbv beta. f_equal. apply HJ; assumption.
  - unfold col_mass, col_sum. cbn [qn qm qA]. apply rsum_ext. intros j Hj. apply rsum_ext. intros i Hi. unfold stacked.
    cbn [sub_qp qA qm]. destruct (Nat.ltb_spec i m); [|reflexivity]. f_equal. apply HJ; assumption.
  - right. unfold mass. apply rsum_ext. intros i Hi. apply rsum_ext. intros j Hj. rewrite HH by assumption. reflexivity.
  - intros j Hj. rewrite Hg by exact Hj.
    assert (E : c j + rmv n G x j = grad xs j + - rmv n G (fun k => xs k - x k) j).
    { rewrite Hg by exact Hj. rewrite !rmv_def. rewrite (rsum_ext n (fun k => G j k * (xs k - x k)) (fun k => G j k * xs k - G j k * x k)) by (intros; ring).
      rewrite rsum_minus. ring. }
    rewrite E. eapply Rle_trans; [apply Rabs_triang|]. rewrite Rabs_Ropp. apply Rplus_le_compat; [apply N1; exact Hj|].
    rewrite rmv_def. eapply Rle_trans; [apply (lin_bound n (G j) (fun k => xs k - x k) B Bx)|]. apply Rmult_le_compat_r; [apply sqrt_pos|apply mass_row; exact Hj].
Qed.

Section Run.
Variable st : sqp_settings R.
Variable hupd : mat R -> vec R -> vec R -> mat R.
Variable hreg : mat R -> mat R.
Variable lsolve : nat -> mat R -> vec R -> vec R.
Variable full : bool.
Variable qs : qp_settings R.
Hypothesis HL : linearised_by P grad jac.
Hypothesis Htau : 0 <= tau st <= 1.
Variables Rb e Y : R.
Hypothesis He : 0 <= e.
Hypothesis HT : e * (INR n * e / mu + sqrt (INR n * e * Y / mu)) + e * Y <= Rb.
Hypothesis HS : forall H x ob, hess_ok P G H -> gdist2 n G x xs <= Rb -> box_reachable lsolve full n m ob ->
  exists o', box_solve_cold lsolve full qs (sub_qp P H (grad x) (jac x) (constr_values P x) x) ob = Some o' /\ b_status o' = SOLVED /\
    rnorm1 nd (fun i => b_y o' i - ls i) <= Y /\
    certificate (sub_qp P H (grad x) (jac x) (constr_values P x) x) (b_x o') (b_y o') (b_z o') (b_q o') e e e.
Notation state := (@sqp_state R (option (box_obj R)) unit).
Notation qp := (native_qp lsolve full qs).
Notation step := (sqp_step P st (option (box_obj R)) unit (fun w d => (w, d)) (fun _ v => v) (fun _ d => d) qp).
Notation solve := (native_solve lsolve full qs P st hupd hreg).

Definition fine (s : state) : Prop := Forall (hessian_is n G) (steps s) ->
  Forall (SqpNear_Proofs.good P G ls e e Y) (steps s) /\ gdist2 n G (m_x s) xs <= Rb /\
  exists o, m_q s = Some o /\ box_reachable lsolve full n m o /\ (steps s <> [] -> b_status o = SOLVED).

Lemma fine_step : forall (s : state) lagg H h AA bb, linearised P (option (box_obj R)) unit hupd hreg s H h AA bb ->
  fine s -> fine (step (fun q => q) s lagg H h AA bb).
Proof.
  intros s lagg H h AA bb Hlin HF HG.
  pose proof (step_spec P st (option (box_obj R)) unit (fun w d => (w, d)) (fun _ v => v) (fun _ d => d) qp (fun q => q) s lagg H h AA bb) as Hst.
  assert (Hq : m_q (step (fun q => q) s lagg H h AA bb) = fst (qp (m_q s) (sub_qp P H h AA bb (m_x s))) /\
     steps (step (fun q => q) s lagg H h AA bb) =
       (sub_qp P H h AA bb (m_x s), (fst (fst (snd (qp (m_q s) (sub_qp P H h AA bb (m_x s))))), snd (fst (snd (qp (m_q s) (sub_qp P H h AA bb (m_x s))))))) :: steps s).
  { unfold sqp_step. destruct (qp (m_q s) (sub_qp P H h AA bb (m_x s))) as [q [[p0 l0] it]].
    destruct (step_size_selection P st (m_x s) p0 (qh (sub_qp P H h AA bb (m_x s))) l0 (m_cost s)) as [[al co] ev]. split; reflexivity. }
  destruct Hq as [Hq Hs1]. set (s' := step (fun q => q) s lagg H h AA bb) in *. clearbody s'.
  destruct (step_facts P grad jac G c c0 A b HQ (curv_psd P G mu Hmu HM) xs ls HK st (option (box_obj R)) unit hupd hreg (fun w d => (w, d)) (fun _ d => d) HL Htau e e s s' H h AA bb Hlin Hst)
    as (p & lk & k & _ & Hst2 & _ & Ra & Hx).
  rewrite Hst2 in HG. inversion HG as [|? ? G1 G2]. subst. destruct (HF G2) as (F1 & F2 & o & Eo & Ro & _).
  assert (E : h = grad (m_x s) /\ AA = jac (m_x s) /\ bb = constr_values P (m_x s)).
  { destruct HL as [L1 L2]. destruct Hlin as [(lg0 & H0 & E & _)|(lg0 & y & E & _)].
    - destruct (L1 (m_x s) (m_lam s)) as (lg & H1 & E'). rewrite E in E'. injection E' as _ _ -> -> ->. auto.
    - destruct (L2 (m_x s) (m_lam s)) as (lg & E'). rewrite E in E'. injection E' as _ -> -> ->. auto. }
  destruct E as (-> & -> & ->). destruct (HS H (m_x s) o G1 F2 Ro) as (o' & E1 & E2 & E3 & E4).
  unfold native_qp in Hq, Hs1. rewrite Eo, E1 in Hq, Hs1. cbn [fst snd] in Hq, Hs1. rewrite Hst2 in Hs1. injection Hs1 as -> ->.
  assert (HI : inexact_step e e (sub_qp P H (grad (m_x s)) (jac (m_x s)) (constr_values P (m_x s)) (m_x s), (b_x o', b_y o'))) by (exists (b_z o'), (b_q o'); exact E4).
  rewrite Hst2. split; [|split].
  - constructor; [|exact F1]. split; [exact G1|]. split; [exact HI|exact E3].
  - destruct (Hx G1 HI) as [_ X]. cbv zeta in X.
    pose proof (inexact_target P grad jac G c c0 A b HQ xs ls HK H (m_x s) (b_x o') (b_y o') e e G1 HI) as T0.
    assert (T : gdist2 n G (fun j => m_x s j + b_x o' j) xs <= Rb).
    { unfold slackness in T0. eapply Rle_trans; [exact T0|]. eapply Rle_trans; [|exact HT].
      assert (X3 : e * rnorm1 nd (fun i => b_y o' i - ls i) <= e * Y) by (apply Rmult_le_compat_l; assumption).
      apply Rplus_le_compat; [|exact X3]. apply Rmult_le_compat_l; [exact He|].
      assert (P0 : 0 <= rnorm1 nd (fun i => b_y o' i - ls i)) by (rewrite rnorm1_def; apply rsum_nonneg; intros; apply Rabs_pos).
      apply (strong_bound n G mu e e _ Y HM Hmu He He); [lra|]. unfold gdist2 in T0. lra. }
    eapply Rle_trans; [exact X|]. set (t := tau st ^ k) in *.
    assert ((1 - t) * gdist2 n G (m_x s) xs <= (1 - t) * Rb) by (apply Rmult_le_compat_l; lra).
    assert (t * gdist2 n G (fun j => m_x s j + b_x o' j) xs <= t * Rb) by (apply Rmult_le_compat_l; lra). lra.
  - exists o'. split; [exact Hq|]. split; [|intros; exact E2].
    eapply reach_solve; [exact Ro| | |exact E1]; reflexivity.
Qed.

Lemma fine_iteration : forall s, fine s -> fine (sqp_iteration P st (option (box_obj R)) unit hupd (fun w d => (w, d)) (fun _ v => v) (fun _ d => d) qp s).
Proof.
  intros s HF. unfold sqp_iteration. destruct (p_lag P _ _) as [[[lagg h] bb] AA] eqn:E.
  assert (C : forall s1, fine s1 -> fine (callback st (option (box_obj R)) unit s1)) by (intros s1 H; unfold callback; destruct (has_callback st); exact H).
  apply C. apply fine_step; [|exact HF]. right. exists lagg. eexists. split; [exact E|reflexivity].
Qed.
Lemma fine_loop : forall k s, fine s -> fine (sqp_loop P st (option (box_obj R)) unit hupd (fun w d => (w, d)) (fun _ v => v) (fun _ d => d) qp k s).
Proof.
  induction k as [|k IH]; intros s HF; cbn [sqp_loop]; [exact HF|]. destruct (m_iter s <? smax_iter st)%Z; [|exact HF].
  pose proof (fine_iteration s HF) as F1. destruct (terminated st _ _ _); [exact F1|apply IH; exact F1].
Qed.
Lemma fine_solve : forall s ob, gdist2 n G (m_x s) xs <= Rb -> m_q s = Some ob -> box_reachable lsolve full n m ob -> fine (solve s).
Proof.
  intros s ob Hx Hq Hr. unfold native_solve, sqp_solve.
  assert (F : fine (sqp_first P st (option (box_obj R)) unit hreg (fun w d => (w, d)) (fun _ v => v) (fun _ d => d) qp (fun q => q) s)).
  { unfold sqp_first. fold (start (option (box_obj R)) unit s). destruct (p_lag_full P _ _) as [[[[lagg H] h] bb] AA] eqn:E.
    apply fine_step; [left; exists lagg, H; split; [exact E|reflexivity]|]. intros _. split; [constructor|]. split; [exact Hx|].
    exists ob. split; [exact Hq|]. split; [exact Hr|]. intro X. elim X. reflexivity. }
  destruct (terminated st _ _ _); [exact F|apply fine_loop; exact F].
Qed.

Hypothesis Heta : 0 <= eta st < / 2.
Lemma native_run : forall s ob, gdist2 n G (m_x s) xs <= Rb -> m_q s = Some ob -> box_reachable lsolve full n m ob ->
  Forall (hessian_is n G) (steps (solve s)) ->
  (exists o, m_q (solve s) = Some o /\ box_reachable lsolve full n m o /\ b_status o = SOLVED) /\
  exists l, seen (solve s) = (m_x (solve s), m_lam (solve s)) :: l ++ [(m_x s, m_lam s)] /\
    Forall (fun w => gdist n G (fst w) xs <= short_step n nd mu (eta st) e e (Y + rnorm1 nd ls) + target_error n mu e e Y)
      ((m_x (solve s), m_lam (solve s)) :: l).
Proof.
  intros s ob Hx Hq Hr HG. destruct (fine_solve s ob Hx Hq Hr HG) as (F1 & _ & o & Eo & Ro & So).
  destruct (run_last P grad jac G c c0 A b HQ (curv_psd P G mu Hmu HM) xs ls HK st (option (box_obj R)) unit hupd hreg (fun w d => (w, d)) (fun _ v => v) (fun _ d => d) qp (fun q => q) HL Htau e e s)
    as (x0 & lam0 & sn & d & p & lk & rs & k & _ & A2 & _).
  fold (solve s) in A2. split.
  - exists o. split; [exact Eo|]. split; [exact Ro|]. apply So. rewrite A2. discriminate.
  - apply (near_run P grad jac G c c0 A b HQ mu Hmu HM xs ls HK st (option (box_obj R)) unit hupd hreg (fun w d => (w, d)) (fun _ v => v) (fun _ d => d) qp (fun q => q)); auto.
    intros w d0 w' d1 _ _ Ew j Hj. injection Ew as _ <-. reflexivity.
Qed.
End Run.
End Native.

(** Hessians that are kept as they are evaluated *)
Lemma kept_hessian : forall (P : problem R) G st Q hupd hreg qps qpm (s : @sqp_state R Q unit),
  (forall x lam lagg H h bb AA, p_lag_full P x lam = (lagg, H, h, bb, AA) -> hess_ok P G (hreg H)) ->
  (forall B v y, hess_ok P G B -> hess_ok P G (hupd B v y)) ->
  Forall (hessian_is (nx P) G) (steps (sqp_solve P st Q unit hupd hreg (fun w d => (w, d)) (fun _ v => v) (fun _ d => d) qps qpm s)).
Proof.
  intros P G st Q hupd hreg qps qpm s H1 H2.
  apply (solve_inv P st Q unit hupd hreg (fun w d => (w, d)) (fun _ v => v) (fun _ d => d) qps qpm
    (fun s => hess_ok P G (m_H s) /\ Forall (hessian_is (nx P) G) (steps s))).
  - intros s1 s2 (_ & _ & _ & E1 & _ & _ & _ & _ & _ & E2). rewrite E1, E2. auto.
  - intros s1 lagg h bb AA [F1 F2] E. unfold sqp_step.
    destruct (qps (m_q s1) _) as [q [[p0 l0] it]]. destruct (step_size_selection _ _ _ _ _ _ _) as [[al co] ev]. cbn [m_H steps qH sub_qp].
    assert (F := H2 (m_H s1) (m_step_prev s1) (tab (nx P) (fun j => ssub (lagg j) (m_lag_gradient s1 j))) F1). split; [exact F|]. constructor; [exact F|exact F2].
  - unfold sqp_first. destruct (p_lag_full P _ _) as [[[[lagg H] h] bb] AA] eqn:E. unfold sqp_step. cbn [m_q].
    destruct (qps (m_q s) _) as [q [[p0 l0] it]]. destruct (step_size_selection _ _ _ _ _ _ _) as [[al co] ev]. cbn [m_H steps qH sub_qp].
    assert (F := H1 _ _ _ _ _ _ _ E). split; [exact F|]. constructor; [exact F|constructor].
Qed.
