(** Proofs about the storage model. *)
From Coq Require Import ZArith List Bool Lia.
From Verif Require Import Store_Model Store_Spec.
Import ListNotations.
Local Open Scope Z_scope.

Lemma each_iff n f : each n f = true <-> (forall k, 0 <= k < n -> f k = true).
Proof.
  unfold each. rewrite forallb_forall. split.
  - intros H k Hk. apply H. apply in_map_iff. exists (Z.to_nat k).
    split; [lia|]. apply in_seq. lia.
  - intros H x Hx. apply in_map_iff in Hx. destruct Hx as [i [<- Hi]].
    apply in_seq in Hi. apply H. lia.
Qed.

Lemma block_in_iff o i j r c : block_in o i j r c = true <->
  0 <= i /\ i + r <= srows o /\ 0 <= j /\ j + c <= scols o.
Proof. unfold block_in. rewrite !andb_true_iff, !Z.leb_le. tauto. Qed.

Lemma segment_in_iff o i r : segment_in o i r = true <->
  0 <= i /\ i + r <= srows o /\ 1 <= scols o.
Proof. unfold segment_in. rewrite block_in_iff. lia. Qed.

Lemma coeff_in_iff o i j : coeff_in o i j = true <->
  0 <= i < srows o /\ 0 <= j < scols o.
Proof. unfold coeff_in. rewrite !andb_true_iff, !Z.leb_le, !Z.ltb_lt. tauto. Qed.

Lemma same_iff a b : same a b = true <-> srows a = srows b /\ scols a = scols b.
Proof. unfold same. rewrite andb_true_iff, !Z.eqb_eq. tauto. Qed.

Lemma selector_fixed lim sz r c : 0 <= r -> 0 <= c -> below lim sz r c ->
  selector lim sz r c = Fixed r c.
Proof.
  intros Hr Hc Hb. unfold selector.
  assert ((r =? -1) = false) as -> by (apply Z.eqb_neq; lia).
  assert ((c =? -1) = false) as -> by (apply Z.eqb_neq; lia).
  unfold below in Hb. apply Z.ltb_lt in Hb. rewrite Hb. reflexivity.
Qed.

Lemma selector_dynamic lim sz r c : ~ below lim sz r c ->
  selector lim sz r c = Dynamic (c =? 1).
Proof.
  intros Hb. unfold selector, below in *.
  destruct (r * c * sz <? lim) eqn:E; [apply Z.ltb_lt in E; lia|].
  rewrite andb_false_r. reflexivity.
Qed.

Lemma selector_is_fixed lim sz r c : 0 <= r -> 0 <= c ->
  is_fixed (selector lim sz r c) = true <-> below lim sz r c.
Proof.
  intros Hr Hc. destruct (Z_lt_dec (r * c * sz) lim) as [H|H].
  - rewrite selector_fixed by assumption. cbn. tauto.
  - rewrite selector_dynamic by assumption. cbn. unfold below. split; [discriminate|lia].
Qed.

Ltac bools :=
  repeat (rewrite andb_true_iff || rewrite Z.leb_le || rewrite Z.ltb_lt
          || rewrite Z.eqb_eq || rewrite block_in_iff || rewrite segment_in_iff
          || rewrite coeff_in_iff || rewrite same_iff).
Ltac shapes := cbn [srows scols fst snd].

(** ** boxADMM *)

Lemma parse_fixed lim sz n m : 0 <= n -> 0 <= m -> below lim sz n 1 -> below lim sz m 1 ->
  parse_in lim sz n m (mkShape m 1) (mkShape m 1) (mkShape n 1) (mkShape n 1) = true.
Proof.
  intros Hn Hm Bn Bm. unfold parse_in, qp_dual_a_t, qp_var_t.
  rewrite !selector_fixed by (assumption || lia). cbn [compile_rows].
  apply andb_true_iff; split; apply each_iff; intros k Hk; bools; shapes; lia.
Qed.

Lemma rho_vec_fixed lim sz n m : 0 <= n -> 0 <= m -> below lim sz n 1 -> below lim sz m 1 ->
  rho_vec_in lim sz n m (mkShape m 1) (mkShape n 1) = true.
Proof.
  intros Hn Hm Bn Bm. unfold rho_vec_in, qp_dual_a_t, qp_var_t.
  rewrite !selector_fixed by (assumption || lia). cbn [compile_rows].
  apply andb_true_iff; split; apply each_iff; intros k Hk; bools; shapes; lia.
Qed.

Lemma box_admm_safe lim sz n m : 0 <= n -> 0 <= m ->
  below lim sz n 1 -> below lim sz m 1 -> below lim sz (n + m) 1 ->
  box_admm_solve_in lim sz n m (mkShape n n) (mkShape n 1) (mkShape m n)
    (mkShape m 1) (mkShape m 1) (mkShape n 1) (mkShape n 1) = true.
Proof.
  intros Hn Hm Bn Bm Bnm. unfold box_admm_solve_in, box_admm_in.
  pose proof (parse_fixed lim sz n m Hn Hm Bn Bm) as Hp.
  pose proof (rho_vec_fixed lim sz n m Hn Hm Bn Bm) as Hr.
  unfold qp_dual_a_t, qp_var_t, qp_dual_t, qp_kkt_vec_t.
  rewrite !(selector_fixed lim sz n), !(selector_fixed lim sz m),
    !(selector_fixed lim sz (n + m)) by (assumption || lia).
  cbn [assign fresh srows scols]. rewrite Hp, Hr.
  unfold construct_kkt_in, compute_rhs_in, residuals_in.
  bools. shapes. repeat split; lia.
Qed.

Lemma box_admm_unsafe lim sz n m H h A al au xl xu : 0 < lim -> 0 <= n -> 0 <= m ->
  ~ below lim sz (n + m) 1 ->
  box_admm_solve_in lim sz n m H h A al au xl xu = false.
Proof.
  intros Hl Hn Hm B. apply not_true_is_false. intro E.
  unfold box_admm_solve_in, box_admm_in in E.
  destruct (assign (qp_var_t lim sz n) (mkShape n 1)) as [x okx].
  destruct (assign (qp_dual_t lim sz n m) (mkShape (m + n) 1)) as [y oky].
  destruct (assign (qp_dual_a_t lim sz m) (mkShape (srows A) 1)) as [z okz].
  repeat (apply andb_true_iff in E; destruct E as [E ?]).
  unfold qp_kkt_vec_t in *. rewrite selector_dynamic in * by assumption.
  cbn [fresh Z.eqb Pos.eqb srows scols] in *.
  match goal with K : (n + m =? 0) = true |- _ => apply Z.eqb_eq in K end.
  apply B. unfold below. nia.
Qed.

(** ** control problem *)

Section Ocp.
Variable d : odim.
Hypothesis wf : odim_wf d.

Lemma nodes_pos : opoly d + 1 <= num_nodes d.
Proof. destruct wf as (?&?&?&?&?&?). unfold num_nodes. nia. Qed.

Lemma blk b w : 0 <= w -> 0 <= b < num_nodes d ->
  0 <= b * w /\ b * w + w <= w * num_nodes d.
Proof. intros. split; nia. Qed.

Lemma seg_node s k : 0 <= s < osegs d -> 0 <= k <= opoly d ->
  0 <= k + s * opoly d < num_nodes d.
Proof. destruct wf as (?&?&?&?&?&?). unfold num_nodes. intros. split; nia. Qed.

Lemma sizes_nonneg : 1 <= varx_size d /\ 0 <= varu_size d /\ 0 <= num_ineq d.
Proof.
  destruct wf as (?&?&?&?&?&?). pose proof nodes_pos.
  unfold varx_size, varu_size, num_ineq. repeat split; nia.
Qed.

Lemma blkx b : 0 <= b < num_nodes d ->
  0 <= b * onx d /\ b * onx d + onx d <= varx_size d.
Proof. destruct wf as (?&?&?&?&?&?). intros. apply blk; lia. Qed.

Lemma blku b : 0 <= b < num_nodes d ->
  0 <= b * onu d /\ b * onu d + onu d <= varu_size d.
Proof. destruct wf as (?&?&?&?&?&?). intros. apply blk; lia. Qed.

Lemma blkg b : 0 <= b < num_nodes d ->
  0 <= b * ong d /\ b * ong d + ong d <= num_ineq d.
Proof. destruct wf as (?&?&?&?&?&?). intros. apply blk; lia. Qed.

Let n := var_size d.
Let vs := mkShape n 1.

Lemma cost_hessian_safe :
  (onu d = 0 \/ (onu d <= onx d /\ onx d <= varu_size d + onp d)) ->
  cost_hessian_in d vs vs (mkShape n n) = true.
Proof.
  intro Hnu. pose proof wf as (?&?&?&?&?&?). pose proof sizes_nonneg as (?&?&?).
  pose proof nodes_pos.
  pose proof (blkx 0 ltac:(lia)). pose proof (blku 0 ltac:(lia)).
  unfold cost_hessian_in. unfold vs, n. bools. shapes. unfold var_size.
  repeat split; try lia.
  - apply each_iff; intros s Hs. apply each_iff; intros k Hk.
    pose proof (seg_node s k Hs ltac:(lia)) as Hb.
    pose proof (blkx _ Hb). pose proof (blku _ Hb).
    cbv zeta. bools. shapes. lia.
  - apply each_iff; intros i Hi. bools. shapes. lia.
Qed.

Lemma equalities_safe :
  equalities_in d vs (mkShape (num_eq d) 1) (mkShape (num_eq d) n) = true.
Proof.
  pose proof wf as (?&?&?&?&?&?). pose proof sizes_nonneg as (?&?&?).
  pose proof nodes_pos.
  assert (Hn1 : onx d * (opoly d + 1) <= varx_size d) by (unfold varx_size; nia).
  assert (Hn2 : onx d * num_nodes d = varx_size d) by reflexivity.
  assert (Hn3 : onx d <= onx d * (opoly d + 1)) by nia.
  unfold equalities_in. unfold vs, n. bools. shapes. unfold var_size, num_eq.
  repeat split; try lia.
  - apply each_iff; intros s Hs. apply each_iff; intros i Hi. apply each_iff; intros j Hj.
    pose proof (blkx _ (seg_node s i Hs ltac:(lia))).
    pose proof (blkx _ (seg_node s j Hs ltac:(lia))).
    cbv zeta. bools. shapes.
    replace (s * opoly d * onx d + i * onx d) with ((i + s * opoly d) * onx d) by ring.
    replace (s * opoly d * onx d + j * onx d) with ((j + s * opoly d) * onx d) by ring.
    lia.
  - apply each_iff; intros t Ht. pose proof (blkx _ Ht). pose proof (blku _ Ht).
    bools. shapes. lia.
Qed.

Lemma inequalities_safe :
  inequalities_in d vs (mkShape (num_ineq d) 1) (mkShape (num_ineq d) n) = true.
Proof.
  pose proof wf as (?&?&?&?&?&?). pose proof sizes_nonneg as (?&?&?).
  unfold inequalities_in. destruct (num_ineq d =? 0); [reflexivity|].
  unfold vs, n. bools. shapes. unfold var_size.
  repeat split; try lia.
  apply each_iff; intros t Ht.
  pose proof (blkx _ Ht). pose proof (blku _ Ht). pose proof (blkg _ Ht).
  bools. shapes. lia.
Qed.

Lemma lagrangian_safe :
  (onu d = 0 \/ (onu d <= onx d /\ onx d <= varu_size d + onp d)) ->
  lagrangian_gradient_hessian_in d vs (mkShape (dual_size d) 1) vs (mkShape n n) vs
    (mkShape (num_eq d + num_ineq d) 1) (mkShape (num_eq d + num_ineq d) n) = true.
Proof.
  intro Hnu. pose proof wf as (?&?&?&?&?&?). pose proof sizes_nonneg as (?&?&?).
  unfold lagrangian_gradient_hessian_in. cbv zeta. cbn [scols].
  rewrite (cost_hessian_safe Hnu), equalities_safe, inequalities_safe.
  unfold vs, n. bools. shapes. unfold dual_size, var_size, num_eq.
  repeat split; try lia.
  apply each_iff; intros t Ht.
  pose proof (blkx _ Ht). pose proof (blku _ Ht). pose proof (blkg _ Ht).
  assert (E1 : each (onx d) (fun i => coeff_in
    (mkShape (varx_size d + num_ineq d + (varx_size d + varu_size d + onp d)) 1)
    (i + t * onx d) 0) = true)
    by (apply each_iff; intros i Hi; bools; shapes; lia).
  assert (E2 : each (ong d) (fun i => coeff_in
    (mkShape (varx_size d + num_ineq d + (varx_size d + varu_size d + onp d)) 1)
    (i + t * ong d + varx_size d) 0) = true)
    by (apply each_iff; intros i Hi; bools; shapes; lia).
  rewrite E1, E2. bools. shapes. lia.
Qed.

Lemma var_size_pos : 1 <= n.
Proof.
  pose proof wf as (?&?&?&?&?&?). pose proof sizes_nonneg as (?&?&?).
  unfold n, var_size. lia.
Qed.

Lemma construct_inv lim sz s : sqp_construct lim sz d = Some s ->
  below lim sz n 1 /\ below lim sz (num_eq d + num_ineq d) 1 /\
  s = mkStore (fresh (nlp_hessian_t lim sz d)) (fresh (nlp_jacobian_t lim sz d)) vs vs
        (fresh (nlp_dual_t lim sz d)) (mkShape (num_eq d + num_ineq d) 1) vs
        (mkShape (num_ineq d) 1) vs.
Proof.
  pose proof sizes_nonneg as (?&?&?). pose proof var_size_pos. unfold vs, n in *.
  unfold sqp_construct, box_admm_compiles. intro E.
  destruct (_ && _) eqn:C in E; [|discriminate]. injection E as <-.
  repeat (apply andb_true_iff in C; destruct C as [C ?]).
  repeat match goal with K : _ && _ = true |- _ => apply andb_true_iff in K; destruct K end.
  unfold nlp_variable_t, nlp_ineq_constraints_t, nlp_constraints_t, qp_dual_a_t, qp_var_t,
    num_eq in *.
  repeat match goal with
    K : is_fixed (selector _ _ _ _) = true |- _ =>
      apply selector_is_fixed in K; [|lia|lia] end.
  split; [assumption|]. split; [assumption|].
  rewrite !(selector_fixed lim sz (var_size d) 1),
    !(selector_fixed lim sz (varx_size d + num_ineq d) 1),
    !(selector_fixed lim sz (num_ineq d) 1) by (assumption || lia).
  reflexivity.
Qed.

Theorem sqp_iff lim sz s : 0 < lim -> 0 < sz -> sqp_construct lim sz d = Some s ->
  sqp_first_qp_in lim sz d s = true <->
  below lim sz n n /\ below lim sz (num_eq d + num_ineq d) n /\
  below lim sz (dual_size d) 1 /\
  (onu d = 0 \/ (onu d <= onx d /\ onx d <= varu_size d + onp d)).
Proof.
  intros Hl Hsz Hc. destruct (construct_inv _ _ _ Hc) as (Bn & Bm & ->).
  pose proof wf as (?&?&?&?&?&?). pose proof sizes_nonneg as (?&?&?).
  pose proof var_size_pos as Hn. unfold num_eq in *.
  assert (Hd : dual_size d = n + (varx_size d + num_ineq d))
    by (unfold dual_size, num_eq, n; lia).
  split.
  - intro E. unfold sqp_first_qp_in in E. cbv zeta in E.
    repeat (apply andb_true_iff in E; destruct E as [E ?]).
    cbn [st_H st_A st_h st_x st_lam st_al st_lbx st_lbg st_lag_gradient] in *.
    unfold lagrangian_gradient_hessian_in in E. cbv zeta in E.
    repeat (apply andb_true_iff in E; destruct E as [E ?]).
    unfold cost_hessian_in in E. cbv zeta in E.
    repeat (apply andb_true_iff in E; destruct E as [E ?]).
    split; [|split; [|split]].
    + destruct (Z_lt_dec (n * n * sz) lim) as [L|L]; [exact L|exfalso].
      unfold nlp_hessian_t in *.
      match goal with K : block_in (fresh (selector _ _ _ _)) 0 0 (onx d) (onx d) = true
        |- _ => rewrite selector_dynamic in K by exact L; apply block_in_iff in K;
                destruct (var_size d =? 1); cbn [fresh srows] in K end; lia.
    + destruct (Z_lt_dec ((varx_size d + num_ineq d) * n * sz) lim) as [L|L];
        [exact L|exfalso].
      unfold nlp_jacobian_t, num_eq in *.
      match goal with K : block_in (fresh (selector _ _ _ _)) 0 0 (varx_size d) _ = true
        |- _ => rewrite selector_dynamic in K by exact L; apply block_in_iff in K;
                destruct (var_size d =? 1); cbn [fresh srows] in K end; lia.
    + destruct (Z_lt_dec (dual_size d * 1 * sz) lim) as [L|L]; [exact L|exfalso].
      unfold nlp_dual_t, num_eq in *.
      match goal with K : segment_in (fresh (selector _ _ _ _)) 0 _ = true
        |- _ => rewrite selector_dynamic in K by exact L; apply segment_in_iff in K;
                cbn [fresh srows Z.eqb Pos.eqb] in K end; lia.
    + destruct (Z.eq_dec (onu d) 0) as [|Hu]; [left; assumption|right].
      match goal with K : each (onu d) _ = true |- _ => rewrite each_iff in K;
        pose proof (K (onu d - 1) ltac:(lia)) as K1 end.
      cbv beta in K1. apply andb_true_iff in K1. destruct K1 as [K1 K2].
      apply segment_in_iff in K1. apply coeff_in_iff in K2.
      unfold vs, n in *. cbn [srows scols] in *. unfold var_size in K1. lia.
  - intros (B1 & B2 & B3 & Hnu). unfold sqp_first_qp_in. cbv zeta.
    cbn [st_H st_A st_h st_x st_lam st_al st_lbx st_lbg st_lag_gradient].
    unfold nlp_hessian_t, nlp_jacobian_t, nlp_dual_t, num_eq.
    rewrite !selector_fixed by (assumption || lia). cbn [fresh].
    pose proof (lagrangian_safe Hnu) as HL. unfold num_eq in HL.
    fold n. rewrite HL. unfold vs.
    rewrite (box_admm_safe lim sz n (varx_size d + num_ineq d)) by
      (assumption || lia || (rewrite <- Hd; assumption)).
    bools. shapes. rewrite Hd. repeat split; lia.
Qed.

End Ocp.
