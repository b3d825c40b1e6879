(** Property C99: the gradient projection prototype (src/solvers/trust_region_tests/gradproj_test.cpp). *)
Require Import ZArith List Bool Lia Reals Lra Psatz.
Require Import Floats.SpecFloat.
From Verif Require Import Scal RSum GradProj_Model GradProj_Spec GradProj_Proofs.
Import ListNotations.
Local Open Scope R_scope.

(** C99: if zero lies between the bounds, every line search ends, and the result does not depend on how many trials are allowed *)
Theorem C99_search_ends : forall n H h l u x iters, symmetric n H -> (forall i, (i < n)%nat -> l i <= 0 <= u i) ->
  exists fuel r, forall fuel', (fuel <= fuel')%nat -> gp_solve n H h l u fuel' iters x = Some r.
Proof.
  intros n H h l u x iters HS HB. destruct (solve_exists n H h l u HS HB iters x) as (fuel & r & E).
  exists fuel, r. intros fuel' L. apply (solve_more n H h l u fuel); auto.
Qed.
Print Assumptions C99_search_ends.

(** C99: what the bounds limit: every iteration moves entry i by at least -u_i and at most -l_i *)
Theorem C99_move_bounds : forall n H h l u fuel iters x r, (forall i, (i < n)%nat -> l i <= u i) ->
  gp_solve n H h l u fuel iters x = Some r ->
  forall i, (i < n)%nat -> x i - INR iters * u i <= r i <= x i - INR iters * l i.
Proof. intros. eapply solve_move; eauto. Qed.
Print Assumptions C99_move_bounds.

(** C99: if the iterates converge, then to a point where the gradient vanishes, whatever the bounds *)
Theorem C99_limit_ignores_bounds : forall n H h l u (xs : nat -> vec R) y,
  symmetric n H -> (forall i, (i < n)%nat -> l i < 0 < u i) ->
  (forall k, exists fuel, gp_iteration n H h l u fuel (xs k) = Some (xs (S k))) ->
  converges n xs y -> stationary n H h y.
Proof. intros. eapply limit_stationary; eauto. Qed.
Print Assumptions C99_limit_ignores_bounds.

(** C99: with a positive definite H whose eigenvalues are below 20/9 the cost decreases and the iterates converge
    to the unconstrained minimiser from every starting point *)
Theorem C99_unconstrained_convergence : forall n H h l u (xs : nat -> vec R) mm L y,
  symmetric n H -> (forall i, (i < n)%nat -> l i < 0 < u i) ->
  (forall k, exists fuel, gp_iteration n H h l u fuel (xs k) = Some (xs (S k))) ->
  0 < mm -> form_above n H mm -> form_below n H L -> L < 20 / 9 -> stationary n H h y ->
  (forall k, gp_cost n H h (xs (S k)) <= gp_cost n H h (xs k)) /\ (forall x, gp_cost n H h y <= gp_cost n H h x) /\ converges n xs y.
Proof.
  intros n H h l u xs mm L y HS HB Hr Hm HM HL L2 Hy. split; [|split].
  - intros k. assert (A := run_descent n H h l u HS HB xs Hr L HL k). cbv zeta in A.
    assert (B := rdot_self_nonneg n (fun i => xs k i - xs (S k) i)). nra.
  - intros x. eapply cost_above; eauto.
  - eapply run_converges; eauto.
Qed.
Print Assumptions C99_unconstrained_convergence.

(** ** refutations *)
(** the constructor's data, in binary64 (gradproj_test.cpp 17-24) *)
#[local] Existing Instance SF_scalar.
Definition gpt_H : mat spec_float := fun i j => match i, j with 0%nat, 0%nat => sofZ 10 | 1%nat, 1%nat => scst 1 10 | _, _ => s0 end.
Definition gpt_h : vec spec_float := fun i => match i with 0%nat => sofZ (-1) | _ => sofZ (-2) end.
Definition gpt_l : vec spec_float := fun _ => sofZ (-1).
Definition gpt_u : vec spec_float := fun _ => sofZ 1.

(** C99, refuted: the returned point satisfies the bounds.  The test itself, in binary64: 100 iterations from the origin
    end at a point whose second entry is above 19; the upper bound is 1.  (The step is projected, not the point.) *)
Theorem C99_within_bounds_refuted : exists r, gp_solve 2 gpt_H gpt_h gpt_l gpt_u 40 (Z.to_nat 100) (fun _ => s0) = Some r /\
  sleb (gpt_l 1%nat) (s0 : spec_float) = true /\ sleb (s0 : spec_float) (gpt_u 1%nat) = true /\ sltb (sofZ 19) (r 1%nat) = true /\ sltb (gpt_u 1%nat) (r 1%nat) = true.
Proof.
  destruct (gp_solve 2 gpt_H gpt_h gpt_l gpt_u 40 (Z.to_nat 100) (fun _ => s0)) as [r|] eqn:E.
  - exists r. split; [reflexivity|].
    assert (X : match gp_solve 2 gpt_H gpt_h gpt_l gpt_u 40 (Z.to_nat 100) (fun _ => s0) with
                | Some r => sleb (gpt_l 1%nat) (s0 : spec_float) && sleb (s0 : spec_float) (gpt_u 1%nat) && sltb (sofZ 19) (r 1%nat) && sltb (gpt_u 1%nat) (r 1%nat) | None => false end = true) by (vm_compute; reflexivity).
    rewrite E in X. apply andb_prop in X. destruct X as [X X4]. apply andb_prop in X. destruct X as [X X3]. apply andb_prop in X. destruct X as [X1 X2]. auto.
  - exfalso. assert (X : match gp_solve 2 gpt_H gpt_h gpt_l gpt_u 40 (Z.to_nat 100) (fun _ => s0) with Some _ => true | None => false end = true) by (vm_compute; reflexivity).
    rewrite E in X. discriminate.
Qed.
Print Assumptions C99_within_bounds_refuted.

Definition one_mat (a : R) : mat R := fun _ _ => a.
Definition one_vec (a : R) : vec R := fun _ => a.
Lemma one_sum f : rsum 1 f = f O. Proof. unfold rsum, ssum. simpl. ring. Qed.
Lemma one_sym a : symmetric 1 (one_mat a). Proof. intros i j _ _. reflexivity. Qed.
Lemma one_qf a v : qf 1 (one_mat a) v = a * (v O * v O).
Proof. unfold qf. rewrite rdot_def, one_sum, rmv_def, one_sum. unfold one_mat. ring. Qed.
Lemma one_slope a b x i : gp_slope 1 (one_mat a) (one_vec b) x i = a * x O + b.
Proof. unfold gp_slope. rewrite rmv_def, one_sum. reflexivity. Qed.
Lemma one_dot u v : rdot 1 u v = u O * v O. Proof. rewrite rdot_def. apply one_sum. Qed.

(** C99, refuted: an accepted step does not increase the cost.  The test subtracts the (negative) directional derivative
    instead of adding it: minimise (20/9 + 1e-5) x^2 / 2 on [-1, 1] from x = 1/10, away from all bounds *)
Theorem C99_descent_refuted : exists n H h l u x x', symmetric n H /\ posdef n H /\
  (forall i, (i < n)%nat -> l i < 0 < u i) /\ gp_iteration n H h l u 1 x = Some x' /\
  (forall i, (i < n)%nat -> l i < x i < u i /\ l i < x' i < u i) /\ gp_cost n H h x < gp_cost n H h x'.
Proof.
  pose (q := 20 / 9 + 1 / 100000).
  exists 1%nat, (one_mat q), (one_vec 0), (one_vec (-1)), (one_vec 1), (one_vec (1 / 10)).
  assert (E : forall i, pstep 1 (one_mat q) (one_vec 0) (one_vec (-1)) (one_vec 1) (one_vec (1 / 10)) (9 / 10) i = 9 / 10 * (q * (1 / 10))).
  { intros i. unfold pstep. rewrite one_slope. unfold one_vec. rewrite Rmax_left, Rmin_left; unfold q; try lra. }
  eexists. split; [apply one_sym|]. split.
  { intros v (i & Hi & Hv). assert (i = O) by lia. subst i. rewrite one_qf. apply Rmult_lt_0_compat; [unfold q; lra|]. exact (Rsqr_pos_lt _ Hv). }
  split; [intros; unfold one_vec; lra|]. split.
  { unfold gp_iteration. cbn [gp_search]. rewrite nine. rewrite (proj2 (accept_iff _ _ _ _ _ (one_sym q) _ _)); [reflexivity|].
    rewrite one_qf, one_dot, E, one_slope. unfold one_vec, q. lra. }
  assert (Et : gp_trial 1 (one_vec (-1)) (one_vec 1) (one_vec (1 / 10)) (gp_grad 1 (one_mat q) (one_vec 0) (one_vec (1 / 10))) (9 / 10) O = 1 / 10 - 9 / 10 * (q * (1 / 10))).
  { rewrite gp_trial_R by lia. rewrite E. reflexivity. }
  split.
  - intros i Hi. assert (i = O) by lia. subst i. rewrite Et. unfold one_vec, q. lra.
  - unfold gp_cost. rewrite !one_qf, !one_dot, Et. unfold one_vec, q. lra.
Qed.
Print Assumptions C99_descent_refuted.

(** C99, refuted: the line search ends for all consistent bounds.  With 1 <= x <= 2 the search from the minimiser of
    x^2 / 2 over the whole line runs forever *)
Theorem C99_search_ends_refuted : exists n H h l u x, symmetric n H /\ posdef n H /\ (forall i, (i < n)%nat -> l i < u i) /\
  forall fuel, gp_iteration n H h l u fuel x = None.
Proof.
  exists 1%nat, (one_mat 1), (one_vec 0), (one_vec 1), (one_vec 2), (one_vec 0).
  split; [apply one_sym|]. split.
  { intros v (i & Hi & Hv). assert (i = O) by lia. subst i. rewrite one_qf, Rmult_1_l. exact (Rsqr_pos_lt _ Hv). }
  split; [intros; unfold one_vec; lra|]. intros fuel.
  destruct (gp_iteration 1 (one_mat 1) (one_vec 0) (one_vec 1) (one_vec 2) fuel (one_vec 0)) as [r|] eqn:E; auto. exfalso.
  unfold gp_iteration in E. rewrite nine in E. destruct (search_spec _ _ _ _ _ _ _ _ _ E) as (j & _ & _ & A & _).
  rewrite (accept_iff _ _ _ _ _ (one_sym 1)) in A. set (a := (3 / 10) ^ j * (9 / 10)) in A.
  rewrite one_qf, one_dot, one_slope in A. unfold pstep in A. rewrite one_slope in A. unfold one_vec in A.
  rewrite Rmult_0_r, Rplus_0_l, Rmult_0_r, Rmax_right, Rmin_left in A by lra. lra.
Qed.
Print Assumptions C99_search_ends_refuted.

(** example: minimise x^2/2 - 2 x on [-1, 1]; the run from 0 converges to 2 *)
Fixpoint gpe_run (k : nat) : vec R :=
  match k with O => one_vec 0 | S k => match gp_iteration 1 (one_mat 1) (one_vec (-2)) (one_vec (-1)) (one_vec 1) 1 (gpe_run k) with Some r => r | None => gpe_run k end end.
Example C99_example : (forall k, exists fuel, gp_iteration 1 (one_mat 1) (one_vec (-2)) (one_vec (-1)) (one_vec 1) fuel (gpe_run k) = Some (gpe_run (S k))) /\
  form_above 1 (one_mat 1) 1 /\ form_below 1 (one_mat 1) 1 /\ stationary 1 (one_mat 1) (one_vec (-2)) (one_vec 2) /\
  converges 1 gpe_run (one_vec 2) /\ one_vec 1 O < one_vec 2 O.
Proof.
  assert (A : forall k, exists fuel, gp_iteration 1 (one_mat 1) (one_vec (-2)) (one_vec (-1)) (one_vec 1) fuel (gpe_run k) = Some (gpe_run (S k))).
  { intros k. exists 1%nat. cbn [gpe_run].
    assert (S : gp_accept 1 (one_mat 1) (one_vec (-2)) (one_vec (-1)) (one_vec 1) (gpe_run k) (gp_grad 1 (one_mat 1) (one_vec (-2)) (gpe_run k)) (gp_f 1 (one_mat 1) (one_vec (-2)) (gpe_run k)) (9 / 10) = true).
    { apply (small_accepted _ _ _ _ _ (one_sym 1)) with (L := 1); try lra; [intros; unfold one_vec; lra|]. intros v. rewrite one_qf, one_dot. lra. }
    assert (X : exists r, gp_iteration 1 (one_mat 1) (one_vec (-2)) (one_vec (-1)) (one_vec 1) 1 (gpe_run k) = Some r) by (unfold gp_iteration; cbn [gp_search]; rewrite nine, S; eauto).
    destruct X as [r ->]. reflexivity. }
  assert (B : form_above 1 (one_mat 1) 1) by (intros v; rewrite one_qf, one_dot; lra).
  assert (C : form_below 1 (one_mat 1) 1) by (intros v; rewrite one_qf, one_dot; lra).
  assert (D : stationary 1 (one_mat 1) (one_vec (-2)) (one_vec 2)) by (intros i Hi; rewrite one_slope; unfold one_vec; lra).
  repeat (split; [assumption|]). split; [|unfold one_vec; lra].
  apply (C99_unconstrained_convergence 1 (one_mat 1) (one_vec (-2)) (one_vec (-1)) (one_vec 1) gpe_run 1 1 (one_vec 2)); auto; try lra; [apply one_sym|].
  intros; unfold one_vec; lra.
Qed.
