(** Property theorems for the pseudospectral ODE solver (C81). *)
Require Import Arith List Bool Lia Reals Lra.
From Verif Require Import Scal RSum PolyR Poly_Spec Blk Cas_Model Cas_Spec Cas_Proofs Cas_Props Pso_Model Pso_Spec Pso_Proofs.
Import ListNotations.
Local Open Scope R_scope.

(** * Without scaling: the problem is the initial value problem *)

(** after any history, the feasible points of the NLP of [solve] are the vectors made of a discrete solution
    of the ODE from X0 and of the constant control U *)
Theorem C81_problem : forall inv ipopt s a0 a X0 U P full pv x, plain s -> pso_init inv s = Some a0 -> reach inv ipopt s a0 a ->
  length X0 = p_nx s -> length U = p_nu s ->
  feasible (pso_nlp inv s) (fst (pso_solve inv ipopt s a X0 U P full)) pv x <->
  (forall k i, (k < pso_N s)%nat -> (i < p_nu s)%nat -> x (pso_N s * p_nx s + k * p_nu s + i)%nat = nth i U 0) /\
  discrete_solution s X0 (fun _ => U) pv (node_states s x).
Proof.
  intros inv ipopt s a0 a X0 U P full pv x Hp H0 Hr HX HU. assert (Hc := reach_clean inv ipopt s a0 H0 a Hr).
  assert (Esc : p_scale s = false) by apply Hp. unfold pso_solve. rewrite HU, Nat.eqb_refl. cbn [negb]. unfold pso_z0. rewrite Esc, HX, Nat.eqb_refl. cbn [fst].
  rewrite (feasible_iff inv s Hp a X0 (repv U) P pv x Hc HX).
  assert (Q : (forall i, (i < pso_N s * p_nu s)%nat -> x (pso_N s * p_nx s + i)%nat = repv U i) <->
    (forall k i, (k < pso_N s)%nat -> (i < p_nu s)%nat -> x (pso_N s * p_nx s + k * p_nu s + i)%nat = nth i U 0)).
  { split.
    - intros H k i Hk Hi. rewrite <- Nat.add_assoc. rewrite H by nia. rewrite <- HU at 1. apply repv_nth; lia.
    - intros H i Hi. rewrite Nat.mul_comm in Hi. destruct (Ocp_Proofs.index_split (p_nu s) (pso_N s) i Hi) as (k & j & -> & Hk & Hj).
      rewrite Nat.add_assoc. rewrite H by auto. rewrite <- HU. symmetry. apply repv_nth; lia. }
  rewrite Q. split; intros [A B]; (split; [exact A|]); revert B; apply discrete_ext; intros k Hk; [|symmetry];
    (apply nth_ext with 0 0; [unfold slice; rewrite map_length, seq_length; auto|]);
    intros i Hi; unfold slice in Hi; rewrite map_length, seq_length in Hi; rewrite slice_nth by auto; rewrite A by auto; reflexivity.
Qed.
Print Assumptions C81_problem.

(** the same for [solve_trajectory]: node k has the control block k *)
Theorem C81_trajectory_problem : forall inv ipopt s a0 a X0 U P full pv x, plain s -> pso_init inv s = Some a0 -> reach inv ipopt s a0 a ->
  length X0 = p_nx s -> length U = (pso_N s * p_nu s)%nat ->
  feasible (pso_nlp inv s) (fst (pso_trajectory inv ipopt s a X0 U P full)) pv x <->
  (forall i, (i < pso_N s * p_nu s)%nat -> x (pso_N s * p_nx s + i)%nat = nth i U 0) /\
  discrete_solution s X0 (fun k => block (p_nu s) (fun i => nth i U 0) k) pv (node_states s x).
Proof.
  intros inv ipopt s a0 a X0 U P full pv x Hp H0 Hr HX HU. assert (Hc := reach_clean inv ipopt s a0 H0 a Hr).
  assert (Esc : p_scale s = false) by apply Hp. unfold pso_trajectory. rewrite HU, Nat.eqb_refl. cbn [negb]. unfold pso_z0. rewrite Esc, HX, Nat.eqb_refl. cbn [fst].
  rewrite (feasible_iff inv s Hp a X0 (lval U) P pv x Hc HX).
  split; intros [A B]; (split; [exact A|]); revert B; apply discrete_ext; intros k Hk; unfold slice, block; apply map_ext_in;
    intros i Hi; apply in_seq in Hi; rewrite <- Nat.add_assoc; [|symmetry]; apply A; nia.
Qed.
Print Assumptions C81_trajectory_problem.

(** the returned values: a feasible answer of the solver gives the state at time dt of a discrete solution
    of the ODE from X0, or all its node states *)
Theorem C81_result : forall inv ipopt s a0 a X0 U P full pv x, plain s -> pso_init inv s = Some a0 -> reach inv ipopt s a0 a ->
  length X0 = p_nx s -> length U = p_nu s -> pvalue (p_np s) P = Some pv ->
  ipopt (pso_nlp inv s) (fst (pso_solve inv ipopt s a X0 U P full)) = Some x ->
  feasible (pso_nlp inv s) (fst (pso_solve inv ipopt s a X0 U P full)) pv x ->
  pso_time s 0 0 = p_dt s /\
  exists W, discrete_solution s X0 (fun _ => U) pv W /\
    snd (pso_solve inv ipopt s a X0 U P full) =
    Some (if full then flat_map (fun k => map (W k) (seq 0 (p_nx s))) (seq 0 (pso_N s)) else map (W 0%nat) (seq 0 (p_nx s))).
Proof.
  intros inv ipopt s a0 a X0 U P full pv x Hp H0 Hr HX HU Hpv Hi Hf. split.
  - destruct Hp as (HP & _). unfold pso_time. destruct (seg_ends (pso_cas s) 0 (p_dt s) 0 HP) as [E _]. unfold pso_cas in E. rewrite E. simpl. ring.
  - exists (node_states s x). rewrite (C81_problem inv ipopt s a0) in Hf by auto. split; [apply Hf|].
    assert (Esc : p_scale s = false) by apply Hp. unfold pso_solve in *. rewrite HU, Nat.eqb_refl in *. cbn [negb] in *.
    unfold pso_z0 in *. rewrite Esc, HX, Nat.eqb_refl in *. cbn [fst snd] in *. unfold pso_call. cbn [pso_set a_p]. rewrite Hpv.
    fold (pso_set s a X0 (repv U) P). rewrite Hi. destruct full; [f_equal|reflexivity].
    unfold slice. generalize (pso_N s). induction n as [|n IH]; [reflexivity|].
    rewrite seq_S. rewrite flat_map_app. rewrite <- IH. simpl flat_map. rewrite app_nil_r.
    replace (S n * p_nx s)%nat with (n * p_nx s + p_nx s)%nat by lia. rewrite seq_app, map_app. f_equal. simpl Nat.add.
    clear. unfold node_states. generalize (n * p_nx s)%nat. intro m. 
    rewrite <- (map_id (seq m (p_nx s))). rewrite <- (Nat.add_0_r m) at 1. 
    assert (Q : forall k j, map (fun i => x (0 + i)%nat) (map (fun i => i) (seq (m + j) k)) = map (fun i => x (m + i)%nat) (seq j k)).
    { induction k; intro j; [reflexivity|]. simpl. f_equal. rewrite <- Nat.add_succ_r. apply IHk. }
    apply Q.
Qed.
Print Assumptions C81_result.

(** the objective adds nothing: it is never negative and zero at the feasible points *)
Theorem C81_objective : forall inv s a pv x,
  0 <= l_f (pso_nlp inv s) x pv /\ (feasible (pso_nlp inv s) a pv x -> l_f (pso_nlp inv s) x pv = 0).
Proof.
  intros inv s a pv x. cbn [l_f pso_nlp]. split.
  - apply Rmult_le_pos; [lra|]. apply rsum_nonneg. intros. apply Rle_0_sqr.
  - intros [_ H]. cbn [l_ng l_g pso_nlp] in H. rewrite rsum_zero; [ring|]. intros i Hi. rewrite H by auto. ring.
Qed.
Print Assumptions C81_objective.

(** * The answer does not depend on earlier calls (with or without scaling) *)
Theorem C81_history : forall inv ipopt s a0 a X0 U P full, pso_init inv s = Some a0 -> reach inv ipopt s a0 a ->
  snd (pso_solve inv ipopt s a X0 U P full) = snd (pso_solve inv ipopt s a0 X0 U P full) /\
  snd (pso_trajectory inv ipopt s a X0 U P full) = snd (pso_trajectory inv ipopt s a0 X0 U P full).
Proof.
  intros inv ipopt s a0 a X0 U P full H0 Hr. assert (Hc := reach_clean inv ipopt s a0 H0 a Hr). assert (Hc0 := init_clean inv s a0 H0). split.
  - unfold pso_solve. destruct (negb _); auto. destruct (pso_z0 s X0 P); auto. cbn [snd]. rewrite (set_same s a a0) by auto. reflexivity.
  - unfold pso_trajectory. destruct (negb _); auto. destruct (pso_z0 s X0 P); auto. cbn [snd]. rewrite (set_same s a a0) by auto. reflexivity.
Qed.
Print Assumptions C81_history.

(** a control vector of the wrong size: the initial state comes back *)
Theorem C81_wrong_control : forall inv ipopt s a X0 U P full,
  (length U <> p_nu s -> pso_solve inv ipopt s a X0 U P full = (a, Some X0)) /\
  (length U <> (pso_N s * p_nu s)%nat -> pso_trajectory inv ipopt s a X0 U P full = (a, Some X0)).
Proof.
  intros. unfold pso_solve, pso_trajectory. split; intro H; apply Nat.eqb_neq in H; rewrite H; reflexivity.
Qed.
Print Assumptions C81_wrong_control.

(** x' = 1 on [0, 2], order 1, one segment *)
Definition pso1 : pso := mkPso 1 1 1 0 0 false (fun _ _ => 1) (fun _ _ => 1) 2 (mkFun 2 1 (fun _ _ => 1)).
Lemma pso1_plain : plain pso1.
Proof. repeat split; cbn; lia || lra. Qed.
Definition inv1 (n : nat) (M : mat R) : mat R := fun i j => / M i j.
(** a solver that returns the two states (x0 + r, x0) *)
Definition step_solver (r : R) (l : nlp) (a : narg) : option (vec R) :=
  Some (fun i => match i with 0 => a_x0 a 1%nat + r | _ => a_x0 a 1%nat end).
Lemma pso1_init : exists a0, pso_init inv1 pso1 = Some a0.
Proof. eexists. unfold pso_init. rewrite (pso_G_some inv1 pso1 pso1_plain). reflexivity. Qed.
Example C81_result_ex : exists a0, pso_init inv1 pso1 = Some a0 /\
  snd (pso_solve inv1 (step_solver 2) pso1 a0 [3] [] [] false) = Some [5] /\
  snd (pso_solve inv1 (step_solver 2) pso1 a0 [3] [] [] true) = Some [5; 3] /\
  forall pv x, step_solver 2 (pso_nlp inv1 pso1) (fst (pso_solve inv1 (step_solver 2) pso1 a0 [3] [] [] false)) = Some x ->
    feasible (pso_nlp inv1 pso1) (fst (pso_solve inv1 (step_solver 2) pso1 a0 [3] [] [] false)) pv x.
Proof.
  destruct pso1_init as [a0 E0]. exists a0. split; [exact E0|]. split; [|split].
  - cbn. f_equal. f_equal. ring.
  - cbn. f_equal. f_equal. ring.
  - intros pv x E. apply (C81_problem inv1 (step_solver 2) pso1 a0 a0); auto using pso1_plain, reach_init.
    cbn in E. inversion E as [E']. clear E. split; [intros k i _ Hi; cbn in Hi; lia|].
    split.
    + intros i Hi. cbn in Hi. assert (i = 0)%nat as -> by lia. reflexivity.
    + intros sg i Hs Hi. cbn in Hs, Hi. assert (sg = 0)%nat as -> by lia. assert (i = 0)%nat as -> by lia.
      exists (fun t => 1 * t + 3), (fun _ => 1). split; [exact (lin_poly 1 3)|]. split; [exact (lin_deriv 1 3)|]. split.
      * intros j Hj. cbn in Hj. destruct (node_time1 0 2) as [T0 T1]. unfold pso_time. cbn [p_order p_segs p_nx p_nu p_np p_dt pso1].
        destruct j as [|[|]]; [|change (node_time (mkCas 1 1 1 0 0 0) 0 2 0 1) with (node_time cas1 0 2 0 1); rewrite T1|lia].
        -- change (node_time (mkCas 1 1 1 0 0 0) 0 2 0 0) with (node_time cas1 0 2 0 0). rewrite T0. cbn. ring.
        -- cbn. ring.
      * intros l Hl. reflexivity.
Qed.
Example C81_history_ex : exists a0, pso_init inv1 pso1 = Some a0 /\
  snd (pso_solve inv1 (step_solver 2) pso1 (fst (pso_solve inv1 (step_solver 2) pso1 a0 [8] [] [] true)) [3] [] [] false) = Some [5].
Proof.
  destruct pso1_init as [a0 E0]. exists a0. split; [exact E0|].
  rewrite (proj1 (C81_history inv1 (step_solver 2) pso1 a0 _ [3] [] [] false E0 (reach_solve _ _ _ _ a0 [8] [] [] true (reach_init _ _ _ _)))).
  cbn. f_equal. f_equal. ring.
Qed.

(** * Limits *)

(** "solve(X0, U, true) returns the whole trajectory" (examples/kite_model_test.cpp:78, tests/polynomials/legendre_test.cpp:127):
    false, the flag is taken for the parameters and only the final state comes back *)
Theorem C81_flag_refuted : exists inv ipopt s a0 X0 U l, plain s /\ pso_init inv s = Some a0 /\ length X0 = p_nx s /\ length U = p_nu s /\
  snd (pso_solve_flag inv ipopt s a0 X0 U true) = Some l /\ length l <> (pso_N s * p_nx s)%nat.
Proof.
  destruct pso1_init as [a0 E0]. exists inv1, (step_solver 2), pso1, a0, [3], [], [3 + 2].
  split; [exact pso1_plain|]. split; [exact E0|]. split; [reflexivity|]. split; [reflexivity|]. split; [reflexivity|]. cbn. discriminate.
Qed.
Print Assumptions C81_flag_refuted.

(** with scaling and parameters the object cannot be built *)
Theorem C81_scaled_parameters : forall inv s, p_scale s = true -> (1 <= p_np s)%nat -> pso_init inv s = None.
Proof.
  intros inv s Hs Hn. unfold pso_init, pso_G. rewrite cas_dynamics_none; auto.
  unfold pso_fun. rewrite Hs. unfold num_args, pso_cas. cbn [f_nin cNP cND]. destruct (p_np s); [lia|]. simpl. discriminate.
Qed.
Print Assumptions C81_scaled_parameters.
(** with scaling and without the argument P every call fails *)
Theorem C81_scaled_default : forall inv ipopt s a X0 U full, p_scale s = true -> (1 <= p_nx s)%nat -> length X0 = p_nx s ->
  (length U = p_nu s -> snd (pso_solve inv ipopt s a X0 U [] full) = None) /\
  (length U = (pso_N s * p_nu s)%nat -> snd (pso_trajectory inv ipopt s a X0 U [] full) = None).
Proof.
  intros inv ipopt s a X0 U full Hs Hn HX.
  assert (E : pso_z0 s X0 [] = None).
  { unfold pso_z0. rewrite Hs. destruct X0 as [|x [|y r]]; simpl in *; [lia| |reflexivity]. rewrite <- HX; reflexivity. }
  split; intro HU; unfold pso_solve, pso_trajectory; rewrite HU, Nat.eqb_refl, E; reflexivity.
Qed.
Print Assumptions C81_scaled_default.

(** "with scaling, a feasible answer of the solver gives the solution of the ODE": false.  The parameter P of
    the call hides the scaling matrix: x' = 1, scaling matrix 2, x(0) = 3, solve(X0, U, true) gives 7 at time 2. *)
Definition pso1s : pso := mkPso 1 1 1 0 0 true (fun _ _ => 2) (fun _ _ => 1) 2 (mkFun 2 1 (fun _ _ => 1)).
Theorem C81_scaled_refuted : exists inv ipopt s a0 X0 U x,
  (forall n M, inv n M = fun i j => / M i j) /\ p_scale s = true /\ p_nx s = 1%nat /\
  (forall l i, f_val (p_ode s) l i = 1) /\ p_dt s = 2 /\ X0 = [3] /\
  pso_init inv s = Some a0 /\ ipopt (pso_nlp inv s) (fst (pso_solve_flag inv ipopt s a0 X0 U true)) = Some x /\
  feasible (pso_nlp inv s) (fst (pso_solve_flag inv ipopt s a0 X0 U true)) (fun _ => 1) x /\
  snd (pso_solve_flag inv ipopt s a0 X0 U true) <> Some [5].
Proof.
  assert (G : forall x p, pso_G inv1 pso1s x p = Some (dyn_res (pso_cas pso1s) (pso_fun inv1 pso1s) 0 2 x (fun i => x (2 + i)%nat) p (fun _ => 0))).
  { intros. unfold pso_G. rewrite cas_dynamics_some by reflexivity. reflexivity. }
  exists inv1, (step_solver 4), pso1s. eexists. exists [3], []. eexists.
  split; [reflexivity|]. split; [reflexivity|]. split; [reflexivity|]. split; [reflexivity|]. split; [reflexivity|]. split; [reflexivity|].
  split; [unfold pso_init; rewrite G; reflexivity|]. split; [reflexivity|]. split.
  - split.
    + intros i Hi. cbn in Hi. destruct i as [|[|]]; try lia; cbn; [auto|]. lra.
    + intros i Hi. cbn in Hi. assert (i = 0)%nat as -> by lia. cbn [l_g pso_nlp]. unfold pso_Gv. rewrite G.
      unfold dyn_res. match goal with |- mtimes ?n (kron _ (cas_comp ?c)) ?X _ - _ = 0 =>
        pose proof (comp_mul c 1 X 0 0 0 ltac:(cbn; lia) ltac:(cbn; lia) ltac:(cbn; lia) ltac:(cbn; lia) ltac:(lia)) as K0 end.
      change ((0 * cP (pso_cas pso1s) + 0) * 1 + 0)%nat with 0%nat in K0. change (cX (pso_cas pso1s)) with 1%nat. rewrite K0. clear K0.
      change (cP (pso_cas pso1s)) with 1%nat. cbn -[INR cas_D dyn_rhs]. rewrite !cas_D1 by lia.
      unfold dyn_rhs, cas_ts, vset, in_seg, repv. cbn -[INR]. simpl. field.
  - cbn. intro E. inversion E as [E']. unfold inv1 in E'. rewrite Rinv_1 in E'. lra.
Qed.
Print Assumptions C81_scaled_refuted.
