(** Property theorems for the pseudospectral ODE solver with scaling (C81): what the hidden matrix P does. *)
Require Import Arith List Bool Lia Reals Lra.
From Verif Require Import Scal RSum PolyR Poly_Spec Blk Cas_Model Cas_Spec Cas_Proofs Cas_Props Pso_Model Pso_Spec Pso_Proofs Pso_Props PsoScale_Spec PsoScale_Proofs.
Import ListNotations.
Local Open Scope R_scope.

Lemma mis_eq : forall inv s p X0, length X0 = p_nx s -> lmul (p_nx s) (inv (p_nx s) (p_P s)) (map (fun x => p * x) X0) = misscaled inv s p X0.
Proof.
  intros inv s p X0 HX. unfold lmul, misscaled. apply map_ext. intro i. apply rsum_ext. intros j Hj. f_equal.
  rewrite nth_indep with (d' := p * 0) by (rewrite map_length; lia). rewrite (map_nth (fun x => p * x)). reflexivity.
Qed.
Lemma z0_eq : forall s p X0, scaled s -> length X0 = p_nx s -> pso_z0 s X0 [p] = Some (map (fun x => p * x) X0).
Proof.
  intros s p X0 Hs HX. unfold pso_z0. assert (E : p_scale s = true) by apply Hs. rewrite E. cbn [pmul]. rewrite map_length, HX, Nat.eqb_refl. reflexivity.
Qed.

Lemma call_eq : forall inv ipopt s p a, a_p a = [p] -> pso_call inv ipopt s a = ipopt (pso_nlp inv s) a.
Proof. intros inv ipopt s p a E. unfold pso_call. rewrite E. reflexivity. Qed.

(** after any history: with a scalar argument P = p, the feasible points of the NLP of [solve] are, in physical units, the
    discrete solutions of the ODE for the control U from p times the inverse of the scaling matrix times X0 *)
Theorem C81_scaled_problem : forall inv ipopt s a0 a X0 U p full pv x, scaled s -> two_sided (p_nx s) (p_P s) (inv (p_nx s) (p_P s)) ->
  two_sided (p_nu s) (p_R s) (inv (p_nu s) (p_R s)) -> pso_init inv s = Some a0 -> reach inv ipopt s a0 a ->
  length X0 = p_nx s -> length U = p_nu s ->
  feasible (pso_nlp inv s) (fst (pso_solve inv ipopt s a X0 U [p] full)) pv x <->
  (forall k i, (k < pso_N s)%nat -> (i < p_nu s)%nat -> unscaled_control inv s x k i = nth i U 0) /\
  discrete_solution s (misscaled inv s p X0) (fun _ => U) pv (unscaled_states inv s x).
Proof.
  intros inv ipopt s a0 a X0 U p full pv x Hs HP HR H0 Hr HX HU. assert (Hc := reach_clean inv ipopt s a0 H0 a Hr).
  unfold pso_solve. rewrite HU, Nat.eqb_refl. cbn [negb]. rewrite z0_eq by auto. cbn [fst].
  rewrite (scaled_feasible inv s Hs HP HR) by (auto; rewrite map_length; auto). rewrite mis_eq by auto.
  assert (E : p_scale s = true) by apply Hs. rewrite E.
  assert (W : forall k i, (i < p_nu s)%nat -> rsum (p_nu s) (fun j => inv (p_nu s) (p_R s) i j * repv (lmul (p_nu s) (p_R s) U) (k * p_nu s + j)%nat) = nth i U 0).
  { intros k i Hi. rewrite <- (inv_cancel (p_nu s) (inv (p_nu s) (p_R s)) (p_R s) (fun j => nth j U 0) i (two_sym _ _ _ HR) Hi).
    apply rsum_ext. intros j Hj. f_equal. assert (L : length (lmul (p_nu s) (p_R s) U) = p_nu s) by (unfold lmul; rewrite map_length, seq_length; auto).
    pose proof (repv_nth (lmul (p_nu s) (p_R s) U) j ltac:(lia) ltac:(lia) k) as K. rewrite L in K. rewrite K. unfold lmul.
    match goal with |- nth j (map ?f _) 0 = _ => rewrite nth_indep with (d' := f 0%nat) by (rewrite map_length, seq_length; auto); rewrite (map_nth f) end.
    rewrite seq_nth by auto. reflexivity. }
  split; intros [A B]; (split; [intros k i Hk Hi; rewrite A by auto; rewrite ?W by auto; auto|]); revert B; apply discrete_ext; intros k Hk; [|symmetry];
    (apply nth_ext with 0 0; [rewrite map_length, seq_length; auto|]); intros i Hi; rewrite map_length, seq_length in Hi;
    match goal with |- nth i (map ?f _) 0 = _ => rewrite nth_indep with (d' := f 0%nat) by (rewrite map_length, seq_length; auto); rewrite (map_nth f) end;
    rewrite seq_nth by auto; simpl Nat.add; rewrite A by auto; rewrite ?W by auto; auto.
Qed.
Print Assumptions C81_scaled_problem.

(** the same for [solve_trajectory]: node k has the control block k *)
Theorem C81_scaled_trajectory_problem : forall inv ipopt s a0 a X0 U p full pv x, scaled s -> two_sided (p_nx s) (p_P s) (inv (p_nx s) (p_P s)) ->
  two_sided (p_nu s) (p_R s) (inv (p_nu s) (p_R s)) -> pso_init inv s = Some a0 -> reach inv ipopt s a0 a ->
  length X0 = p_nx s -> length U = (pso_N s * p_nu s)%nat ->
  feasible (pso_nlp inv s) (fst (pso_trajectory inv ipopt s a X0 U [p] full)) pv x <->
  (forall k i, (k < pso_N s)%nat -> (i < p_nu s)%nat -> unscaled_control inv s x k i = nth (k * p_nu s + i) U 0) /\
  discrete_solution s (misscaled inv s p X0) (fun k => block (p_nu s) (fun i => nth i U 0) k) pv (unscaled_states inv s x).
Proof.
  intros inv ipopt s a0 a X0 U p full pv x Hs HP HR H0 Hr HX HU. assert (Hc := reach_clean inv ipopt s a0 H0 a Hr).
  unfold pso_trajectory. rewrite HU, Nat.eqb_refl. cbn [negb]. rewrite z0_eq by auto. cbn [fst].
  rewrite (scaled_feasible inv s Hs HP HR) by (auto; rewrite map_length; auto). rewrite mis_eq by auto.
  assert (E : p_scale s = true) by apply Hs. rewrite E.
  assert (W : forall k i, (i < p_nu s)%nat -> rsum (p_nu s) (fun j => inv (p_nu s) (p_R s) i j *
     @ssum R R_scalar (p_nu s) (fun l => p_R s ((k * p_nu s + j) mod p_nu s) l * lval U ((k * p_nu s + j) / p_nu s * p_nu s + l)%nat)) = nth (k * p_nu s + i) U 0).
  { intros k i Hi. rewrite <- (inv_cancel (p_nu s) (inv (p_nu s) (p_R s)) (p_R s) (fun j => nth (k * p_nu s + j) U 0) i (two_sym _ _ _ HR) Hi).
    apply rsum_ext. intros j Hj. f_equal. apply rsum_ext. intros l _.
    replace ((k * p_nu s + j) mod p_nu s)%nat with j by (rewrite Nat.add_comm, Nat.mod_add, Nat.mod_small; lia).
    replace ((k * p_nu s + j) / p_nu s)%nat with k by (rewrite Nat.div_add_l, Nat.div_small; lia). reflexivity. }
  split; intros [A B]; (split; [intros k i Hk Hi; rewrite A by auto; rewrite ?W by auto; auto|]); revert B; apply discrete_ext; intros k Hk; [|symmetry]; unfold block;
    apply map_ext_in; intros i Hi; apply in_seq in Hi; rewrite A by lia; rewrite ?W by lia; reflexivity.
Qed.
Print Assumptions C81_scaled_trajectory_problem.

(** the returned final state: the scaling matrix times the final state of that solution, divided by p *)
Theorem C81_scaled_result : forall inv ipopt s a0 a X0 U p pv x, scaled s -> two_sided (p_nx s) (p_P s) (inv (p_nx s) (p_P s)) ->
  two_sided (p_nu s) (p_R s) (inv (p_nu s) (p_R s)) -> two_sided 1 (fun _ _ => p) (inv 1%nat (fun _ _ => p)) -> pso_init inv s = Some a0 -> reach inv ipopt s a0 a ->
  length X0 = p_nx s -> length U = p_nu s -> 
  ipopt (pso_nlp inv s) (fst (pso_solve inv ipopt s a X0 U [p] false)) = Some x ->
  feasible (pso_nlp inv s) (fst (pso_solve inv ipopt s a X0 U [p] false)) pv x ->
  exists W, discrete_solution s (misscaled inv s p X0) (fun _ => U) pv W /\
    snd (pso_solve inv ipopt s a X0 U [p] false) = Some (map (fun i => / p * rsum (p_nx s) (fun j => p_P s i j * W 0%nat j)) (seq 0 (p_nx s))).
Proof.
  intros inv ipopt s a0 a X0 U p pv x Hs HP HR Hi1 H0 Hr HX HU Hi Hf. exists (unscaled_states inv s x).
  rewrite (C81_scaled_problem inv ipopt s a0) in Hf by auto. split; [apply Hf|].
  unfold pso_solve in *. rewrite HU, Nat.eqb_refl in *. cbn [negb] in *. rewrite z0_eq in * by auto. cbn [fst snd] in *.
  rewrite (call_eq inv ipopt s p) by reflexivity.
  rewrite Hi. assert (E : p_scale s = true) by apply Hs. rewrite E. unfold pso_unscale. f_equal. unfold slice. rewrite map_map. apply map_ext_in.
  intros i Hj. apply in_seq in Hj.
  assert (Ip : inv 1%nat (fun _ _ => p) 0%nat 0%nat = / p).
  { destruct Hi1 as [K _]. specialize (K 0%nat 0%nat ltac:(lia) ltac:(lia)). unfold entry in K. rewrite rsum_S, rsum_0 in K. cbn in K.
    apply Rmult_eq_reg_l with p; [rewrite Rinv_r; [lra|]|]; intro; subst p; lra. }
  rewrite Ip. f_equal. symmetry. unfold unscaled_states. exact (inv_cancel (p_nx s) (p_P s) (inv (p_nx s) (p_P s)) (fun j => x (0 * p_nx s + j)%nat) i HP ltac:(lia)).
Qed.
Print Assumptions C81_scaled_result.

(** so a call is right when the scaling matrix is p times the identity and the argument P is p *)
Theorem C81_scaled_uniform : forall inv ipopt s a0 a X0 U p pv x, scaled s -> p <> 0 -> p_P s = (fun i j => if (i =? j)%nat then p else 0) ->
  two_sided (p_nx s) (p_P s) (inv (p_nx s) (p_P s)) ->
  two_sided (p_nu s) (p_R s) (inv (p_nu s) (p_R s)) -> two_sided 1 (fun _ _ => p) (inv 1%nat (fun _ _ => p)) -> pso_init inv s = Some a0 -> reach inv ipopt s a0 a ->
  length X0 = p_nx s -> length U = p_nu s -> 
  ipopt (pso_nlp inv s) (fst (pso_solve inv ipopt s a X0 U [p] false)) = Some x ->
  feasible (pso_nlp inv s) (fst (pso_solve inv ipopt s a X0 U [p] false)) pv x ->
  exists W, discrete_solution s X0 (fun _ => U) pv W /\ snd (pso_solve inv ipopt s a X0 U [p] false) = Some (map (W 0%nat) (seq 0 (p_nx s))).
Proof.
  intros inv ipopt s a0 a X0 U p pv x Hs Hp EP HP HR Hi1 H0 Hr HX HU Hi Hf.
  destruct (C81_scaled_result inv ipopt s a0 a X0 U p pv x Hs HP HR Hi1 H0 Hr HX HU Hi Hf) as (W & D & E). exists W. split.
  - destruct D as [A B]. split; [|exact B]. intros i Hj. rewrite (A i Hj). unfold misscaled.
    match goal with |- nth i (map ?f _) 0 = _ => rewrite nth_indep with (d' := f 0%nat) by (rewrite map_length, seq_length; auto); rewrite (map_nth f) end.
    rewrite seq_nth by auto. cbn [Nat.add].
    rewrite <- (inv_cancel (p_nx s) (inv (p_nx s) (p_P s)) (p_P s) (fun j => nth j X0 0) i (two_sym _ _ _ HP) Hj). apply rsum_ext. intros j Hj'. f_equal.
    transitivity (rsum (p_nx s) (fun k => if (k =? j)%nat then p * nth k X0 0 else 0)); [rewrite rsum_delta; auto|].
    apply rsum_ext. intros k _. rewrite EP. rewrite Nat.eqb_sym. destruct (j =? k)%nat; ring.
  - rewrite E. f_equal. apply map_ext_in. intros i Hj. apply in_seq in Hj.
    transitivity (/ p * (p * W 0%nat i)); [|field; auto]. f_equal.
    transitivity (rsum (p_nx s) (fun k => if (k =? i)%nat then p * W 0%nat k else 0)); [|rewrite rsum_delta; auto; lia].
    apply rsum_ext. intros k _. rewrite EP. rewrite Nat.eqb_sym. destruct (k =? i)%nat; ring.
Qed.
Print Assumptions C81_scaled_uniform.

(** x' = 1 with the scaling matrix 2, solve([3], [], 2): 5 at time 2; with the flag the same object gives 7 *)
Example C81_scaled_ex : exists a0 x, scaled pso1s /\ two_sided 1 (p_P pso1s) (inv1 1 (p_P pso1s)) /\ two_sided 0 (p_R pso1s) (inv1 0 (p_R pso1s)) /\
  pso_init inv1 pso1s = Some a0 /\
  step_solver 4 (pso_nlp inv1 pso1s) (fst (pso_solve inv1 (step_solver 4) pso1s a0 [3] [] [2] false)) = Some x /\
  feasible (pso_nlp inv1 pso1s) (fst (pso_solve inv1 (step_solver 4) pso1s a0 [3] [] [2] false)) (fun _ => 0) x /\
  snd (pso_solve inv1 (step_solver 4) pso1s a0 [3] [] [2] false) = Some [/ 2 * (3 * 2 + 4)].
Proof.
  assert (T1 : forall p, p <> 0 -> two_sided 1 (fun _ _ => p) (inv1 1 (fun _ _ => p))).
  { intros p Hp. split; intros i k Hi Hk; assert (i = 0)%nat as -> by lia; assert (k = 0)%nat as -> by lia; unfold entry, inv1; rewrite rsum_S, rsum_0; cbn; field; auto. }
  assert (T0 : two_sided 0 (p_R pso1s) (inv1 0 (p_R pso1s))) by (split; intros i k Hi; lia).
  assert (Sc : scaled pso1s) by (repeat split; cbn; lia || lra).
  assert (P2 : two_sided 1 (p_P pso1s) (inv1 1 (p_P pso1s))) by (apply (T1 2); lra).
  destruct (pso_init inv1 pso1s) as [a0|] eqn:E0.
  2:{ unfold pso_init in E0. unfold pso_G in E0. rewrite cas_dynamics_some in E0 by reflexivity. discriminate. }
  exists a0. eexists. split; [exact Sc|]. split; [exact P2|]. split; [exact T0|]. split; [reflexivity|]. split; [reflexivity|]. split.
  - apply (C81_scaled_problem inv1 (step_solver 4) pso1s a0); auto; try reflexivity; [constructor|].
    split; [intros k i _ Hi; cbn in Hi; lia|]. split.
    + intros i Hi. cbn in Hi. assert (i = 0)%nat as -> by lia. unfold unscaled_states, misscaled. cbn. unfold inv1. lra.
    + intros sg i Hsg Hi. cbn in Hsg, Hi. assert (sg = 0)%nat as -> by lia. assert (i = 0)%nat as -> by lia. exists (fun t => 1 * t + 3), (fun _ => 1). split.
      { exists (fun k => match k with O => 3 | _ => 1 end). intro t. cbn [p_order pso1s]. rewrite !rsum_S, rsum_0. cbn. ring. }
      split; [apply lin_deriv|]. split; [|intros; reflexivity].
      intros j Hj. cbn in Hj. destruct (seg_ends (pso_cas pso1s) 0 2 0 ltac:(cbn; lia)) as [Z1 Z2].
      assert (Y1 : pso_time pso1s 0 0 = 2) by (etransitivity; [exact Z1|unfold seg_len; cbn [pso_cas cS pso1s p_segs INR]; field]).
      assert (Y2 : pso_time pso1s 0 1 = 0) by (etransitivity; [exact Z2|unfold seg_len; cbn [pso_cas cS pso1s p_segs INR]; field]).
      destruct j as [|[|]]; try lia; unfold unscaled_states; rewrite ?Y1, ?Y2; cbn; unfold inv1; lra.
  - cbn. unfold inv1. do 2 f_equal. lra.
Qed.
