(** Statements about the SQP solver assembled from the lemmas of Sqp_Proofs and Sqp_ProofsR. *)
Require Import Reals Lra Lia List ZArith Bool.
Require Import Verif.Scal Verif.RSum Verif.Qp_Model Verif.Qp_Spec Verif.Hess_Model
  Verif.Sqp_Model Verif.Sqp_Spec Verif.Sqp_Proofs Verif.Sqp_ProofsR Verif.Sqp_Example.
Import ListNotations.
Local Open Scope R_scope.

Lemma sqp_status_lemma : forall (T : Type) (ST : Scalar T) (P : problem T) st Q W hupd hreg pcc pcs pcu qps qpm s,
  let r := sqp_solve P st Q W hupd hreg pcc pcs pcu qps qpm s in
  (m_status r = SqpSolved \/ m_status r = SqpMaxIter) /\
  (m_status r = SqpSolved ->
     sleb (m_primal_norm r) (eps_prim st) = true /\ sleb (m_dual_norm r) (eps_dual st) = true /\
     ext_leb_s (max_violation P (m_x r)) (eps_prim st) = true) /\
  (1 <= m_iter r <= Z.max 1 (smax_iter st))%Z /\
  (m_status r = SqpMaxIter -> m_iter r = Z.max 1 (smax_iter st)) /\
  Z.of_nat (length (seen r)) = (m_iter r + 1)%Z /\
  calls r = (if has_callback st then firstn (Z.to_nat (m_iter r - 1)) (map fst (seen r)) else []) /\
  (has_callback st = true -> Z.of_nat (length (calls r)) = (m_iter r - 1)%Z).
Proof.
  intros. unfold r.
  destruct (solve_result P st Q W hupd hreg pcc pcs pcu qps qpm s) as (s' & G & Hi & D).
  assert (K : forall a, Z.of_nat (length (firstn (Z.to_nat (m_iter s' - 1)) (map fst (seen s')))) = a ->
     a = (m_iter s' - 1)%Z).
  { intros a <-. destruct G as (G1 & _ & G3 & _). rewrite firstn_length, map_length. lia. }
  destruct G as (G1 & G2 & G3 & G4 & G5 & G6 & G7).
  destruct D as [[Ht ->]|(He & Ht & ->)]; cbn [set_status m_status m_primal_norm m_dual_norm m_x m_iter seen calls].
  - split; [left; reflexivity|]. split; [|split; [exact Hi|split; [discriminate|split; [exact G3|split; [exact G6|]]]]].
    + intros _. unfold terminated, termination in Ht. rewrite !andb_true_iff in Ht. rewrite G7 in Ht. tauto.
    + intros E. rewrite E in G6. rewrite G6. apply K. reflexivity.
  - split; [right; exact G2|]. split; [|split; [exact Hi|split; [intros _; exact He|split; [exact G3|split; [exact G6|]]]]].
    + rewrite G2. discriminate.
    + intros E. rewrite E in G6. rewrite G6. apply K. reflexivity.
Qed.

Lemma never_invalid : forall (T : Type) (ST : Scalar T) (P : problem T) st Q W hupd hreg pcc pcs pcu qps qpm s,
  m_status (sqp_solve P st Q W hupd hreg pcc pcs pcu qps qpm s) <> SqpInvalidSettings.
Proof.
  intros. destruct (sqp_status_lemma T ST P st Q W hupd hreg pcc pcs pcu qps qpm s) as [[E|E] _]; rewrite E; discriminate.
Qed.

Lemma sqp_solved_lemma : forall (P : problem R) st Q W hupd hreg pcc pcs pcu qps qpm s,
  let r := sqp_solve P st Q W hupd hreg pcc pcs pcu qps qpm s in
  0 <= tau st -> 0 <= eps_prim st -> m_status r = SqpSolved ->
  within (eps_prim st) P (m_x r) /\
  exists x0 lam0 t, seen r = (m_x r, m_lam r) :: (x0, lam0) :: t /\
    (forall j, (j < nx P)%nat -> Rabs (m_x r j - x0 j) <= eps_prim st) /\
    (forall i, (i < ne P + ni P + nx P)%nat -> Rabs (m_lam r i - lam0 i) <= eps_dual st).
Proof.
  intros P st Q W hupd hreg pcc pcs pcu qps qpm s r Ht He Hs.
  destruct (sqp_status_lemma R _ P st Q W hupd hreg pcc pcs pcu qps qpm s) as (_ & C & _). fold r in C.
  destruct (C Hs) as (C1 & C2 & C3). split.
  - apply max_violation_le; [exact He|]. apply ext_leb_s_R. exact C3.
  - destruct (last_step_run P st Q W hupd hreg pcc pcs pcu qps qpm s Ht) as (x & lam & x0 & lam0 & t & E & -> & -> & N1 & N2).
    fold r in E, N1, N2. exists x0, lam0, t. split; [exact E|].
    apply Rleb_true in C1, C2. rewrite N1 in C1. rewrite N2 in C2. split.
    + intros j Hj. eapply Rle_trans; [|exact C1]. apply (rnorminf_ub (nx P) (fun j => m_x r j - x0 j)); exact Hj.
    + intros i Hi. eapply Rle_trans; [|exact C2].
      apply (rnorminf_ub (ne P + ni P + nx P) (fun i => m_lam r i - lam0 i)); exact Hi.
Qed.

Lemma negative_eps : forall (P : problem R) st Q W hupd hreg pcc pcs pcu qps qpm s,
  0 <= tau st -> eps_prim st < 0 \/ eps_dual st < 0 ->
  m_status (sqp_solve P st Q W hupd hreg pcc pcs pcu qps qpm s) = SqpMaxIter.
Proof.
  intros P st Q W hupd hreg pcc pcs pcu qps qpm s Ht Hn.
  destruct (sqp_status_lemma R _ P st Q W hupd hreg pcc pcs pcu qps qpm s) as ([E|E] & C & _); [|exact E].
  destruct (C E) as (C1 & C2 & _). apply Rleb_true in C1, C2.
  destruct (last_step_run P st Q W hupd hreg pcc pcs pcu qps qpm s Ht) as (x & lam & x0 & lam0 & t & _ & _ & _ & N1 & N2).
  pose proof (rnorminf_nonneg (nx P) (fun j => x j - x0 j)).
  pose proof (rnorminf_nonneg (ne P + ni P + nx P) (fun j => lam j - lam0 j)). lra.
Qed.

Lemma violation_lemma : forall (P : problem R) x, proper_bounds P ->
  (exists v, max_violation P x = Fin v /\ 0 <= v /\
     (forall e, 0 <= e -> (v <= e <-> within e P x)) /\ (v = 0 <-> nlp_feasible P x)) /\
  l1_violation P x = sqp_eps + total_violation P x /\
  within (total_violation P x) P x /\ 0 <= total_violation P x /\
  (total_violation P x = 0 <-> nlp_feasible P x).
Proof.
  intros P x HB. split; [|split; [|split; [|split]]].
  - destruct (max_violation_Fin P x HB) as (v & E & Hv). exists v. split; [exact E|]. split; [exact Hv|].
    assert (K : forall e, 0 <= e -> (v <= e <-> within e P x)).
    { intros e He. pose proof (max_violation_le P x e He) as M. rewrite E in M. exact M. }
    split; [exact K|]. rewrite <- within_zero, <- (K 0) by lra. lra.
  - rewrite l1_violation_R, l1_sum_total. reflexivity.
  - rewrite <- l1_sum_total. apply l1_within, HB.
  - rewrite <- l1_sum_total. apply l1_sum_nonneg.
  - rewrite <- l1_sum_total. apply l1_zero, HB.
Qed.

Lemma cost_lemma : forall (P : problem R) st Q W hupd hreg pcc pcs pcu qps qpm s grad jac,
  let r := sqp_solve P st Q W hupd hreg pcc pcs pcu qps qpm s in
  linearised_by P grad jac ->
  exists x0 lam0 t d p lk rs k, seen r = (m_x r, m_lam r) :: (x0, lam0) :: t /\ steps r = (d, (p, lk)) :: rs /\
    (forall j, (j < nx P)%nat -> m_x r j = x0 j + tau st ^ k * p j) /\
    (k <= Z.to_nat (ls_max_iter st - 1))%nat /\
    ((k < Z.to_nat (ls_max_iter st - 1))%nat -> m_cost r = p_cost P (m_x r)).
Proof.
  intros P st Q W hupd hreg pcc pcs pcu qps qpm s grad jac r L.
  destruct (last_detail_run P st Q W hupd hreg pcc pcs pcu qps qpm s grad jac L)
    as (x0 & lam0 & t & H & p & lk & rs & k & A1 & A2 & A3 & A4 & A5 & A6 & A7).
  do 8 eexists. split; [exact A1|]. split; [exact A2|]. split; [|split; [exact A6|exact A7]].
  intros j Hj. unfold r. rewrite (A4 j Hj), spow_pow. reflexivity.
Qed.

Lemma stationarity_lemma : forall (P : problem R) st Q W hupd hreg pcc pcs pcu qps qpm s grad jac,
  let r := sqp_solve P st Q W hupd hreg pcc pcs pcu qps qpm s in
  linearised_by P grad jac -> 0 <= tau st -> m_status r = SqpSolved ->
  exists x0 lam0 t H p lk rs k, seen r = (m_x r, m_lam r) :: (x0, lam0) :: t /\
    steps r = (sub_qp P H (grad x0) (jac x0) (constr_values P x0) x0, (p, lk)) :: rs /\
    (forall j, (j < nx P)%nat -> m_x r j = x0 j + tau st ^ k * p j) /\
    (tau st ^ k = 1 -> kkt_pair (sub_qp P H (grad x0) (jac x0) (constr_values P x0) x0) p lk ->
     forall j, (j < nx P)%nat ->
     Rabs (grad x0 j + rsum (ne P + ni P) (fun i => jac x0 i j * m_lam r i) + m_lam r (ne P + ni P + j)%nat)
       <= rsum (nx P) (fun i => Rabs (H j i)) * eps_prim st).
Proof.
  intros P st Q W hupd hreg pcc pcs pcu qps qpm s grad jac r L Ht Hs.
  destruct (last_detail_run P st Q W hupd hreg pcc pcs pcu qps qpm s grad jac L)
    as (x0 & lam0 & t & H & p & lk & rs & k & A1 & A2 & A3 & A4 & A5 & A6 & A7).
  fold r in A1, A2, A3, A4, A5, A6, A7. rewrite spow_pow in *.
  exists x0, lam0, t, H, p, lk, rs, k. split; [exact A1|]. split; [exact A2|]. split; [exact A4|].
  intros K HK j Hj.
  destruct (sqp_status_lemma R _ P st Q W hupd hreg pcc pcs pcu qps qpm s) as (_ & C & _). fold r in C.
  destruct (C Hs) as (C1 & _). apply Rleb_true in C1. rewrite A3, K, Rmult_1_l in C1.
  assert (A5' : forall i, (i < ne P + ni P + nx P)%nat -> m_lam r i = lk i).
  { intros i Hi. rewrite A5 by exact Hi. rewrite K. ring. }
  rewrite (rsum_ext _ _ (fun i => jac x0 i j * lk i)) by (intros i Hi; rewrite A5' by lia; reflexivity).
  rewrite A5' by lia.
  exact (full_step_stationary P Q W s grad jac x0 H p lk (eps_prim st) HK C1 j Hj).
Qed.

Lemma c18_example_lemma : forall st l, 0 <= tau st <= 1 ->
  in_box exP (ex_x 3) /\ Forall step_in_box (steps (ex_solve exP st ex_qp (ex_start 3 l))) /\
  linearised_by exP ex_grad ex_jac /\ affine_row exP 1 ex_jac /\
  Forall (step_meets_row 1) (steps (ex_solve exP st ex_qp (ex_start 3 l))) /\
  in_bounds (row_lb exP 1) (row_ub exP 1) (row_value exP 1 (ex_x 3)).
Proof.
  intros st l Ht. destruct ex_c as (C2 & C5 & C3). split; [|split; [|split; [exact ex_lin|split; [|split]]]].
  - intros j Hj. cbn [exP lbx ubx]. rewrite C5. assert (j = O) by (cbn in Hj; lia). subst. split; simpl; lra.
  - eapply Forall_impl; [|apply (ex_all_exact st 3 l)]. intros e (_ & _ & F & _). exact (proj2 F).
  - exists (fun _ => 1), 0. intros x. split; [|reflexivity].
    unfold row_value, constr_values. cbn [exP ne nx p_ineq Nat.ltb Nat.leb]. rexpand. lra.
  - assert (Q : forall s, Forall (fun e => qm (fst e) = 2%nat) (steps (ex_solve exP st ex_qp s))).
    { intros s. unfold ex_solve.
      apply (solve_inv2 exP st unit unit (bfgs_update (nx exP)) (fun H => H) ex_pc (fun _ r => r) (fun _ d => d) ex_qp
        (fun q => q) (fun s => Forall (fun e => qm (fst e) = 2%nat) (steps s))).
      - intros s1 s2 (_ & _ & _ & _ & _ & _ & _ & _ & _ & E). rewrite E. auto.
      - intros s1 s2 H h A b _ (p & lk & d2 & i & _ & _ & _ & _ & _ & _ & _ & _ & _ & _ & _ & _ & _ & _ & _ & E) HF.
        rewrite E. constructor; [reflexivity|exact HF].
      - constructor. }
    specialize (Q (ex_start 3 l)). pose proof (ex_all_exact st 3 l) as X.
    rewrite Forall_forall in *. intros e He. specialize (Q e He). specialize (X e He).
    destruct X as (_ & _ & F & _). apply (proj1 F). rewrite Q. lia.
  - unfold row_lb, row_ub, row_value, constr_values. cbn [exP ne lbg ubg p_ineq Nat.ltb Nat.leb]. rewrite C3.
    split; simpl; [exact I|lra].
Qed.

Lemma c54_example_lemma : forall st,
  let s := ex_start 1 (ex_l (-1)) in
  linearised_by exP ex_grad ex_jac /\ (forall j, (nx exP <= j)%nat -> m_x s j = 0) /\
  Forall exact_step (steps (ex_solve exP st ex_qp s)) /\
  nlp_kkt exP (ex_grad (m_x s)) (ex_jac (m_x s)) (m_x s) (m_lam s) /\
  (forall lam, nlp_kkt exP (ex_grad (m_x s)) (ex_jac (m_x s)) (m_x s) lam -> forall i, (i < 3)%nat -> lam i = m_lam s i) /\
  (0 <= eps_prim st -> 0 <= eps_dual st -> m_status (ex_solve exP st ex_qp s) = SqpSolved).
Proof.
  intros st s.
  assert (Z : forall j, (nx exP <= j)%nat -> m_x s j = 0).
  { intros j Hj. destruct j; [cbn in Hj; lia|reflexivity]. }
  split; [exact ex_lin|]. split; [exact Z|]. split; [apply ex_all_exact|].
  split; [exact ex_kkt|]. split; [exact ex_kkt_unique|].
  intros E1 E2.
  apply (stop_run exP st unit unit (bfgs_update (nx exP)) (fun H => H) ex_pc (fun _ r => r) (fun _ d => d) ex_qp (fun q => q)
    s ex_grad ex_jac ex_lin Z ex_kkt ex_kkt_unique E1 E2 (ex_all_exact st 1 (ex_l (-1)))).
Qed.
