(** Proofs about the storage of ADMM and of whole runs of the SQP solver. *)
From Coq Require Import ZArith List Bool Lia.
From Verif Require Import Store_Model Store_Spec Store_Proofs StoreRun_Model.
Import ListNotations.
Local Open Scope Z_scope.

(** ** ADMM *)

Lemma jacobian_shape lim sz n m : 0 <= n -> 0 <= m ->
  allocate_jacobian lim sz n m = mkShape (n + m) n.
Proof.
  intros Hn Hm. unfold allocate_jacobian, admm_constraint_t.
  destruct (Z_lt_dec ((n + m) * n * sz) lim) as [L|L].
  - rewrite selector_fixed by (assumption || lia). cbn [compile_rows].
    assert ((n + m =? -1) = false) as -> by (apply Z.eqb_neq; lia). reflexivity.
  - rewrite selector_dynamic by assumption. reflexivity.
Qed.

Lemma kkt_shape lim sz n m : 0 <= n -> 0 <= m ->
  assign (kkt_mat_t lim sz n m) (mkShape (2 * n + m) (2 * n + m)) =
  (mkShape (2 * n + m) (2 * n + m), true).
Proof.
  intros Hn Hm. unfold kkt_mat_t.
  destruct (Z_lt_dec ((2 * n + m) * (2 * n + m) * sz) lim) as [L|L].
  - rewrite selector_fixed by (assumption || lia). unfold assign.
    rewrite !Z.eqb_refl. reflexivity.
  - rewrite selector_dynamic by assumption. reflexivity.
Qed.

Lemma admm_rho_fixed lim sz n m : 0 <= n -> 0 <= m -> below lim sz n 1 -> below lim sz m 1 ->
  admm_rho_vec_in lim sz n m (mkShape (n + m) 1) = true.
Proof.
  intros Hn Hm Bn Bm. unfold admm_rho_vec_in, qp_dual_a_t, qp_var_t.
  rewrite !selector_fixed by (assumption || lia). cbn [compile_rows].
  apply andb_true_iff; split; apply each_iff; intros k Hk; bools; shapes; lia.
Qed.

Lemma below_le lim sz r r' : 0 <= sz -> r' <= r -> below lim sz r 1 -> below lim sz r' 1.
Proof. unfold below. nia. Qed.

Lemma admm_safe lim sz n m : 0 < sz -> 0 <= n -> 0 <= m -> below lim sz (2 * n + m) 1 ->
  admm_solve_in lim sz n m (mkShape n n) (mkShape n 1) (mkShape m n)
    (mkShape m 1) (mkShape m 1) (mkShape n 1) (mkShape n 1) = true.
Proof.
  intros Hs Hn Hm B.
  assert (Bn : below lim sz n 1) by (eapply below_le; [| |exact B]; lia).
  assert (Bm : below lim sz m 1) by (eapply below_le; [| |exact B]; lia).
  assert (Bnm : below lim sz (n + m) 1) by (eapply below_le; [| |exact B]; lia).
  unfold admm_solve_in, admm_in. rewrite kkt_shape, jacobian_shape by assumption.
  pose proof (parse_fixed lim sz n m Hn Hm Bn Bm) as Hp.
  pose proof (admm_rho_fixed lim sz n m Hn Hm Bn Bm) as Hr.
  unfold qp_var_t, qp_dual_t, admm_dual_t, kkt_vec_t.
  rewrite !(selector_fixed lim sz n), !(selector_fixed lim sz (n + m)),
    !(selector_fixed lim sz (2 * n + m)) by (assumption || lia).
  cbn [assign fresh srows scols]. rewrite Hp, Hr.
  unfold construct_A_in, admm_kkt_in, admm_rhs_in, admm_projection_in, admm_residuals_in.
  bools. shapes. repeat split; lia.
Qed.

Lemma admm_unsafe lim sz n m H h A al au xl xu : 0 < lim -> 0 <= n -> 0 <= m ->
  ~ below lim sz (2 * n + m) 1 ->
  admm_solve_in lim sz n m H h A al au xl xu = false.
Proof.
  intros Hl Hn Hm B. apply not_true_is_false. intro E.
  unfold admm_solve_in, admm_in in E. rewrite kkt_shape in E by assumption.
  destruct (assign (qp_var_t lim sz n) (mkShape n 1)) as [x okx].
  destruct (assign (qp_dual_t lim sz n m) (mkShape (m + n) 1)) as [y oky].
  destruct (assign (admm_dual_t lim sz n m) _) as [z okz].
  repeat (apply andb_true_iff in E; destruct E as [E ?]).
  unfold kkt_vec_t in *.
  match goal with K : (srows _ =? srows (fresh _)) = true |- _ =>
    rewrite selector_dynamic in K by assumption;
    cbn [fresh Z.eqb Pos.eqb srows scols] in K; apply Z.eqb_eq in K end.
  apply B. unfold below. nia.
Qed.

(** ** the rest of the SQP solver *)
Section Run.
Variable d : odim.
Hypothesis wf : odim_wf d.
Let n := var_size d.
Let vs := mkShape n 1.

Lemma eq_values_safe : eq_values_in d vs (mkShape (num_eq d) 1) = true.
Proof.
  pose proof wf as (?&?&?&?&?&?). pose proof (sizes_nonneg d wf) as (?&?&?).
  unfold eq_values_in. unfold vs, n. bools. shapes. unfold var_size, num_eq.
  repeat split; try (unfold varx_size in *; lia).
  - apply each_iff; intros i Hi. pose proof (seg_node d wf i 0 Hi ltac:(lia)).
    pose proof (seg_node d wf i (opoly d) Hi ltac:(lia)).
    bools. shapes. lia.
  - apply each_iff; intros t Ht. pose proof (blkx d wf _ Ht). pose proof (blku d wf _ Ht).
    bools. shapes. lia.
Qed.

Lemma ineq_values_safe : ineq_values_in d vs (mkShape (num_ineq d) 1) = true.
Proof.
  pose proof wf as (?&?&?&?&?&?). pose proof (sizes_nonneg d wf) as (?&?&?).
  unfold ineq_values_in. unfold vs, n. unfold var_size.
  apply each_iff; intros t Ht.
  pose proof (blkx d wf _ Ht). pose proof (blku d wf _ Ht). pose proof (blkg d wf _ Ht).
  bools. shapes. lia.
Qed.

Lemma cost_safe : cost_in d vs = true.
Proof.
  pose proof wf as (?&?&?&?&?&?). pose proof (sizes_nonneg d wf) as (?&?&?).
  pose proof (nodes_pos d wf).
  pose proof (blkx d wf 0 ltac:(lia)). pose proof (blku d wf 0 ltac:(lia)).
  unfold cost_in. unfold vs, n. bools. shapes. unfold var_size.
  repeat split; try lia.
  apply each_iff; intros s Hs. apply each_iff; intros k Hk.
  pose proof (seg_node d wf s k Hs ltac:(lia)) as Hb.
  pose proof (blkx d wf _ Hb). pose proof (blku d wf _ Hb).
  cbv zeta. bools. shapes. lia.
Qed.

Lemma cost_gradient_safe : cost_gradient_in d vs vs = true.
Proof.
  pose proof wf as (?&?&?&?&?&?). pose proof (sizes_nonneg d wf) as (?&?&?).
  pose proof (nodes_pos d wf).
  pose proof (blkx d wf 0 ltac:(lia)). pose proof (blku d wf 0 ltac:(lia)).
  unfold cost_gradient_in. unfold vs, n. bools. shapes. unfold var_size.
  repeat split; try lia.
  apply each_iff; intros s Hs. apply each_iff; intros k Hk.
  pose proof (seg_node d wf s k Hs ltac:(lia)) as Hb.
  pose proof (blkx d wf _ Hb). pose proof (blku d wf _ Hb).
  cbv zeta. bools. shapes. lia.
Qed.

Lemma lag_gradient_safe :
  lagrangian_gradient_in d vs (mkShape (dual_size d) 1) vs vs
    (mkShape (num_eq d + num_ineq d) 1) (mkShape (num_eq d + num_ineq d) n) = true.
Proof.
  pose proof wf as (?&?&?&?&?&?). pose proof (sizes_nonneg d wf) as (?&?&?).
  unfold lagrangian_gradient_in. cbv zeta. cbn [scols].
  rewrite cost_gradient_safe. unfold vs, n. cbn [scols].
  rewrite (equalities_safe d wf), (inequalities_safe d wf). bools. shapes. unfold dual_size, var_size, num_eq.
  repeat split; lia.
Qed.

Variables lim sz : Z.
Hypothesis Hl : 0 < lim.
Hypothesis Hsz : 0 < sz.
Hypothesis Bn : below lim sz n 1.
Hypothesis BD : below lim sz (dual_size d) 1.

Let s := mkStore (mkShape n n) (mkShape (num_eq d + num_ineq d) n) vs vs
        (mkShape (dual_size d) 1) (mkShape (num_eq d + num_ineq d) 1) vs
        (mkShape (num_ineq d) 1) vs.

Lemma below_parts : below lim sz (num_eq d) 1 /\ below lim sz (num_ineq d) 1 /\
  below lim sz (num_eq d + num_ineq d) 1.
Proof.
  pose proof (sizes_nonneg d wf) as (?&?&?). pose proof (var_size_pos d wf).
  unfold dual_size, n in *. unfold num_eq in *.
  repeat split; (eapply below_le; [| |exact BD]); lia.
Qed.

Lemma types : nlp_variable_t lim sz d = Fixed n 1 /\ nlp_dual_t lim sz d = Fixed (dual_size d) 1 /\
  nlp_eq_constraints_t lim sz d = Fixed (num_eq d) 1 /\
  nlp_ineq_constraints_t lim sz d = Fixed (num_ineq d) 1.
Proof.
  pose proof (sizes_nonneg d wf) as (?&?&?). pose proof (var_size_pos d wf).
  destruct below_parts as (P1 & P2 & P3).
  unfold nlp_variable_t, nlp_dual_t, nlp_eq_constraints_t, nlp_ineq_constraints_t.
  unfold n, dual_size in *. unfold num_eq in *.
  repeat split; apply selector_fixed; (assumption || lia).
Qed.

Lemma violation_safe : constraints_violation_in lim sz d s vs = true.
Proof.
  destruct types as (T1 & T2 & T3 & T4). unfold constraints_violation_in. rewrite T3, T4.
  cbn [fresh]. rewrite eq_values_safe, ineq_values_safe. unfold s, vs. bools. shapes.
  cbn [st_lbg st_lbx srows scols]. repeat split.
Qed.

Lemma max_violation_safe : max_constraints_violation_in lim sz d s vs = true.
Proof.
  destruct types as (T1 & T2 & T3 & T4). pose proof (var_size_pos d wf).
  unfold max_constraints_violation_in. rewrite T3, T4.
  cbn [fresh]. rewrite eq_values_safe, ineq_values_safe.
  assert ((if 0 <? num_eq d then true else true) = true) as -> by (destruct (0 <? num_eq d); reflexivity).
  assert ((if 0 <? num_ineq d then true && same (st_lbg s) (mkShape (num_ineq d) 1) && (0 <? srows (mkShape (num_ineq d) 1)) else true) = true) as ->.
  { destruct (0 <? num_ineq d) eqn:E; [|reflexivity]. cbn [srows]. rewrite E.
    unfold s, same. cbn [st_lbg srows scols]. rewrite !Z.eqb_refl. reflexivity. }
  unfold s, vs. bools. shapes. cbn [st_lbx srows scols]. unfold n. repeat split; lia.
Qed.

Lemma take_step_safe : take_step_in lim sz d s = true.
Proof.
  destruct types as (T1 & T2 & T3 & T4).
  unfold take_step_in, step_size_in. rewrite T1, T2. cbn [fresh assign fst snd srows scols].
  change (st_x s) with vs. fold vs.
  rewrite violation_safe, max_violation_safe, cost_safe.
  unfold s, vs. bools. cbn [st_lam st_h srows scols]. repeat split.
Qed.

Lemma qp_safe : solve_qp_in lim sz d s = true.
Proof.
  destruct types as (T1 & T2 & T3 & T4). pose proof (sizes_nonneg d wf) as (?&?&?).
  pose proof (var_size_pos d wf). destruct below_parts as (P1 & P2 & P3).
  unfold solve_qp_in. rewrite T1, T2. unfold s, vs.
  cbn [st_H st_A st_h st_x st_lam st_al st_lbx st_lbg st_lag_gradient fresh].
  unfold n, dual_size in *. unfold num_eq in *.
  rewrite box_admm_safe; try assumption; try lia.
  - bools. shapes. repeat split; lia.
  - eapply below_le; [| |exact BD]; unfold num_eq; lia.
Qed.

Lemma update_safe : update_linearisation_in lim sz d s vs = true.
Proof.
  destruct types as (T1 & T2 & T3 & T4). unfold update_linearisation_in, bfgs_in.
  rewrite T1. cbn [fresh]. fold vs. unfold s at 1 2 3 4 5.
  cbn [st_H st_A st_h st_x st_lam st_al st_lbx st_lbg st_lag_gradient].
  rewrite lag_gradient_safe. unfold s, vs. bools. cbn [st_H st_lag_gradient srows scols]. repeat split.
Qed.

Lemma passes_safe : forall k, passes_in lim sz d s k = true.
Proof.
  destruct types as (T1 & T2 & T3 & T4).
  induction k as [|k IH]; [reflexivity|]. cbn [passes_in]. rewrite IH, take_step_safe, qp_safe.
  rewrite T1. cbn [fresh assign fst]. fold vs. rewrite update_safe. reflexivity.
Qed.
End Run.

Lemma solve_iff d lim sz s k : odim_wf d -> 0 < lim -> 0 < sz ->
  sqp_construct lim sz d = Some s ->
  sqp_solve_in lim sz d s k = true <->
  below lim sz (var_size d) (var_size d) /\
  below lim sz (num_eq d + num_ineq d) (var_size d) /\
  below lim sz (dual_size d) 1 /\
  (onu d = 0 \/ (onu d <= onx d /\ onx d <= varu_size d + onp d)).
Proof.
  intros wf Hl Hsz Hc. pose proof (sqp_iff d wf lim sz s Hl Hsz Hc) as I. split.
  - intro E. unfold sqp_solve_in in E. apply andb_true_iff in E. destruct E as [E _].
    apply andb_true_iff in E. destruct E as [E _]. apply I. exact E.
  - intro B. pose proof (proj2 I B) as E. destruct B as (B1 & B2 & B3 & _).
    unfold sqp_solve_in. rewrite E. cbn [andb].
    destruct (construct_inv d wf _ _ _ Hc) as (Bn & Bm & Es).
    pose proof (sizes_nonneg d wf) as (?&?&?). pose proof (var_size_pos d wf).
    assert (Es' : s = mkStore (mkShape (var_size d) (var_size d))
        (mkShape (num_eq d + num_ineq d) (var_size d)) (mkShape (var_size d) 1)
        (mkShape (var_size d) 1) (mkShape (dual_size d) 1)
        (mkShape (num_eq d + num_ineq d) 1) (mkShape (var_size d) 1)
        (mkShape (num_ineq d) 1) (mkShape (var_size d) 1)).
    { rewrite Es. unfold nlp_hessian_t, nlp_jacobian_t, nlp_dual_t, dual_size in *. unfold num_eq in *.
      rewrite !selector_fixed by (assumption || lia). reflexivity. }
    rewrite Es'.
    rewrite (take_step_safe d wf lim sz Hsz Bn B3), (passes_safe d wf lim sz Hsz Bn B3).
    reflexivity.
Qed.
