(** The SQP solver on convex quadratic programs with subproblems answered within tolerances (property C104). *)
Require Import Reals Lra Lia List ZArith Bool.
From Verif Require Import Scal RSum RNorm Qp_Model Qp_Spec Qp_Proofs Sqp_Model Sqp_Spec Sqp_Proofs Sqp_ProofsR SqpQp_Spec SqpQp_Proofs QpDist_Spec QpDist_Proofs.
Import ListNotations.
Local Open Scope R_scope.

Section Inexact.
Variable P : problem R.
Variable grad : vec R -> vec R.
Variable jac : vec R -> mat R.
Variable G : mat R.
Variable c : vec R.
Variable c0 : R.
Variable A : mat R.
Variable b : vec R.
Hypothesis HQ : quadratic_nlp P grad jac G c c0 A b.
Notation n := (nx P).
Notation nd := (ne P + ni P + nx P)%nat.
Hypothesis HP : psd n G.
Variables xs ls : vec R.
Hypothesis HK : nlp_kkt P (grad xs) (jac xs) xs ls.

Lemma qf_eq : forall H v, hess_ok P G H -> qf n H v = qf n G v.
Proof. intros H v HH. unfold qf. apply rdot_ext; auto. intros i Hi. apply rmv_ext; auto. Qed.
Lemma qf_ext2 : forall u v, (forall j, (j < n)%nat -> u j = v j) -> qf n G u = qf n G v.
Proof. intros u v E. unfold qf. apply rdot_ext; auto. intros i Hi. apply rmv_ext; auto. Qed.

(** the point that a subproblem asks for *)
Lemma inexact_target : forall H x p lk ep ed,
  let d := sub_qp P H (grad x) (jac x) (constr_values P x) x in
  hess_ok P G H -> inexact_step ep ed (d, (p, lk)) ->
  gdist2 n G (fun j => x j + p j) xs <= slackness n nd ep ed (fun j => x j + p j) lk xs ls.
Proof.
  intros H x p lk ep ed d HH (za & zx & HC). cbn [fst snd] in HC.
  assert (E0 : forall j, (j < n)%nat -> xs j = x j + (xs j - x j)) by (intros; ring).
  pose proof (proj2 (step_kkt P grad jac G c c0 A b HQ H x (fun j => xs j - x j) xs ls HH E0) HK) as K. fold d in K.
  pose proof (cert_dist d p lk za zx ep ed (fun j => xs j - x j) ls HC K) as D.
  change (qn d) with n in D. change (qm d) with (ne P + ni P)%nat in D. change (qH d) with H in D.
  rewrite (qf_eq H _ HH) in D. unfold gdist2. rewrite (qf_ext2 _ (fun j => p j - (xs j - x j))) by (intros; ring).
  eapply Rle_trans; [exact D|]. right. unfold slackness. f_equal. f_equal. rewrite !rnorm1_def. apply rsum_ext. intros. f_equal. ring.
Qed.

Lemma dist_mix : forall x p y a, 0 <= a <= 1 -> (forall j, (j < n)%nat -> y j = x j + a * p j) ->
  gdist2 n G y xs <= (1 - a) * gdist2 n G x xs + a * gdist2 n G (fun j => x j + p j) xs.
Proof.
  intros x p y a Ha Ey. destruct HQ as (Hs & _). unfold gdist2. set (u := fun j => x j - xs j).
  rewrite (qf_ext2 (fun j => y j - xs j) (fun j => u j + a * p j)) by (intros j Hj; rewrite Ey by exact Hj; unfold u; ring).
  rewrite (qf_ext2 (fun j => x j + p j - xs j) (fun j => u j + 1 * p j)) by (intros; unfold u; ring).
  rewrite !(qf_plus_scal n G u p _ Hs). pose proof (HP p) as Hp. assert (0 <= (a - a * a) * qf n G p) by (apply Rmult_le_pos; [nra|exact Hp]). lra.
Qed.

Section Run.
Variable st : sqp_settings R.
Variables Q W : Type.
Variable hupd : mat R -> vec R -> vec R -> mat R.
Variable hreg : mat R -> mat R.
Variable pc_compute : W -> qp_data R -> W * qp_data R.
Variable pc_unscale_sol : W -> vec R * vec R -> vec R * vec R.
Variable pc_unscale : W -> qp_data R -> qp_data R.
Variable qp_solve : Q -> qp_data R -> Q * (vec R * vec R * Z).
Variable qp_mark : Q -> Q.
Notation state := (@sqp_state R Q W).
Notation solve := (sqp_solve P st Q W hupd hreg pc_compute pc_unscale_sol pc_unscale qp_solve qp_mark).
Hypothesis HL : linearised_by P grad jac.
Hypothesis Htau : 0 <= tau st <= 1.
Variables ep ed : R.

(** one step *)
Lemma step_facts : forall (s s' : state) H h AA bb, linearised P Q W hupd hreg s H h AA bb ->
  stepped P st Q W (round_trip W pc_compute pc_unscale (sub_qp P H h AA bb (m_x s))) s s' (sub_qp P H h AA bb (m_x s)) ->
  exists p lk k, seen s' = (m_x s', m_lam s') :: seen s /\ steps s' = (sub_qp P H h AA bb (m_x s), (p, lk)) :: steps s /\
    (forall j, (j < n)%nat -> m_x s' j = m_x s j + tau st ^ k * p j) /\ 0 <= tau st ^ k <= 1 /\
    (hessian_is n G (sub_qp P H h AA bb (m_x s), (p, lk)) -> inexact_step ep ed (sub_qp P H h AA bb (m_x s), (p, lk)) ->
     let t := fun j => m_x s j + p j in
     gdist2 n G t xs <= slackness n nd ep ed t lk xs ls /\
     gdist2 n G (m_x s') xs <= (1 - tau st ^ k) * gdist2 n G (m_x s) xs + tau st ^ k * gdist2 n G t xs).
Proof.
  intros s s' H h AA bb Hlin Hst.
  destruct Hst as (p & lk & d2 & i & _ & _ & _ & _ & Hx & Hl & _ & _ & _ & _ & _ & _ & _ & Hseen & _ & Hsteps).
  assert (Ek : spow (tau st) i = tau st ^ i) by (clear; induction i as [|i IH]; [reflexivity|cbn [spow pow]; rewrite IH; reflexivity]).
  assert (X : forall j, (j < n)%nat -> m_x s' j = m_x s j + tau st ^ i * p j).
  { intros j Hj. rewrite Hx, tab_spec, Ek by auto. reflexivity. }
  assert (Ra : 0 <= tau st ^ i <= 1).
  { rewrite <- Ek. apply spow_range. exact Htau. }
  exists p, lk, i. split; [exact Hseen|]. split; [exact Hsteps|]. split; [exact X|]. split; [exact Ra|].
  intros HG HI t.
  assert (E : h = grad (m_x s) /\ AA = jac (m_x s) /\ bb = constr_values P (m_x s)).
  { destruct HL as [L1 L2]. destruct Hlin as [(lagg & H0 & E & _)|(lagg & y & E & _)].
    - destruct (L1 (m_x s) (m_lam s)) as (lg & H1 & E'). rewrite E in E'. injection E' as _ _ -> -> ->. auto.
    - destruct (L2 (m_x s) (m_lam s)) as (lg & E'). rewrite E in E'. injection E' as _ -> -> ->. auto. }
  destruct E as (-> & -> & ->). split.
  - apply (inexact_target H (m_x s) p lk ep ed); [exact HG|exact HI].
  - apply dist_mix; [exact Ra|exact X].
Qed.

Lemma run_last : forall s : state, let r := solve s in
  exists x0 lam0 sn d p lk rs k, seen r = (m_x r, m_lam r) :: (x0, lam0) :: sn /\ steps r = (d, (p, lk)) :: rs /\
    (forall j, (j < n)%nat -> m_x r j = x0 j + tau st ^ k * p j) /\
    (hessian_is n G (d, (p, lk)) -> inexact_step ep ed (d, (p, lk)) -> let t := fun j => x0 j + p j in
     gdist2 n G t xs <= slackness n nd ep ed t lk xs ls /\
     gdist2 n G (m_x r) xs <= (1 - tau st ^ k) * gdist2 n G x0 xs + tau st ^ k * gdist2 n G t xs).
Proof.
  intro s. cbv zeta.
  pose (J := fun r : state => exists x0 lam0 sn d p lk rs k, seen r = (m_x r, m_lam r) :: (x0, lam0) :: sn /\ steps r = (d, (p, lk)) :: rs /\
    (forall j, (j < n)%nat -> m_x r j = x0 j + tau st ^ k * p j) /\
    (hessian_is n G (d, (p, lk)) -> inexact_step ep ed (d, (p, lk)) -> let t := fun j => x0 j + p j in
     gdist2 n G t xs <= slackness n nd ep ed t lk xs ls /\
     gdist2 n G (m_x r) xs <= (1 - tau st ^ k) * gdist2 n G x0 xs + tau st ^ k * gdist2 n G t xs)).
  assert (JS : forall s0 s' H h AA bb x0 lam0 sn, linearised P Q W hupd hreg s0 H h AA bb ->
    stepped P st Q W (round_trip W pc_compute pc_unscale (sub_qp P H h AA bb (m_x s0))) s0 s' (sub_qp P H h AA bb (m_x s0)) ->
    seen s0 = (x0, lam0) :: sn -> x0 = m_x s0 -> J s').
  { intros s0 s' H h AA bb x0 lam0 sn Hlin Hst Es ->. destruct (step_facts s0 s' H h AA bb Hlin Hst) as (p & lk & k & A1 & A2 & A3 & _ & A4).
    exists (m_x s0), lam0, sn. eexists. exists p, lk. eexists. exists k. split; [rewrite A1, Es; reflexivity|]. split; [exact A2|]. split; [exact A3|exact A4]. }
  apply (solve_inv3 P st Q W hupd hreg pc_compute pc_unscale_sol pc_unscale qp_solve qp_mark J).
  - intros s1 s2 (A1 & A2 & A3 & A4 & A5 & A6 & A7 & A8 & A9 & A10) H. unfold J in *. rewrite <- A1, <- A2, <- A9, <- A10. exact H.
  - intros s0 s' lagg h AA bb y E Hst (x0 & lam0 & sn & _ & _ & _ & _ & _ & Es & _).
    eapply JS; [|exact Hst|exact Es|reflexivity]. right. exists lagg. eexists. split; [exact E|reflexivity].
  - intros s' lagg H0 h bb AA E Hst. eapply (JS (start Q W s)); [|exact Hst|reflexivity|reflexivity]. left. exists lagg, H0. split; [exact E|reflexivity].
Qed.

(** all the iterates *)
Lemma run_all : forall (s : state) D, gdist2 n G (m_x s) xs <= D -> 
  (forall d p lk x, In (d, (p, lk)) (steps (solve s)) -> slackness n nd ep ed x lk xs ls <= D \/ slackness n nd ep ed x lk xs ls < gdist2 n G x xs) ->
  Forall (inexact_step ep ed) (steps (solve s)) -> Forall (hessian_is n G) (steps (solve s)) ->
  Forall (fun e => gdist2 n G (fst e) xs <= D) (seen (solve s)).
Proof.
  intros s D HD.
  pose (J := fun s' : state => (forall d p lk x, In (d, (p, lk)) (steps s') -> slackness n nd ep ed x lk xs ls <= D \/ slackness n nd ep ed x lk xs ls < gdist2 n G x xs) ->
    Forall (inexact_step ep ed) (steps s') -> Forall (hessian_is n G) (steps s') ->
    Forall (fun e => gdist2 n G (fst e) xs <= D) (seen s') /\ gdist2 n G (m_x s') xs <= D).
  intros HB HI HG. enough (X : J (solve s)) by (apply X; assumption).
  apply (solve_inv2 P st Q W hupd hreg pc_compute pc_unscale_sol pc_unscale qp_solve qp_mark J).
  - intros s1 s2 (A1 & A2 & A3 & A4 & A5 & A6 & A7 & A8 & A9 & A10) H. unfold J in *. rewrite <- A1, <- A9, <- A10. exact H.
  - intros s0 s' H h AA bb Hlin Hst HJ B I' G'. destruct (step_facts s0 s' H h AA bb Hlin Hst) as (p & lk & k & A1 & A2 & A3 & Ra & A4).
    rewrite A2 in B, I', G'. inversion I' as [|? ? I1 I2]; subst. inversion G' as [|? ? G1 G2]; subst.
    destruct HJ as [J1 J2]; [intros d p0 lk0 x Hin; apply (B d p0 lk0 x); right; exact Hin|exact I2|exact G2|].
    destruct (A4 G1 I1) as [T1 T2]. 
    assert (T3 : gdist2 n G (fun j => m_x s0 j + p j) xs <= D).
    { destruct (B _ p lk (fun j => m_x s0 j + p j) (or_introl eq_refl)) as [K|K]; lra. }
    assert (T4 : gdist2 n G (m_x s') xs <= D).
    { eapply Rle_trans; [exact T2|]. assert ((1 - tau st ^ k) * gdist2 n G (m_x s0) xs <= (1 - tau st ^ k) * D) by (apply Rmult_le_compat_l; lra).
      assert (tau st ^ k * gdist2 n G (fun j => m_x s0 j + p j) xs <= tau st ^ k * D) by (apply Rmult_le_compat_l; lra). lra. }
    split; [|exact T4]. rewrite A1. constructor; [exact T4|exact J1].
  - intros _ _ _. split; [constructor; [exact HD|constructor]|exact HD].
Qed.
End Run.
End Inexact.
