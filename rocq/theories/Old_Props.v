(** Property theorems for the older collocation layer (C74, C75, C76). *)
Require Import Arith ZArith List Bool Lia Reals Lra.
From Verif Require Import Scal RSum PolyR Poly_Spec Blk Sparse Cheb_Model Cheb_Proofs Cheb_Diag_Proofs Ocp_Model Ocp_Spec Ocp_Proofs
  Ocp_Cost_Proofs Ocp_Cor_Proofs Ocp_Sparse_Model Ocp_Sparse_Proofs Ocp_Example Old_Model Old_Spec Old_Proofs Old_Sparse_Proofs.
Local Open Scope R_scope.

(** * C74: ode_collocation and constraint_collocation *)

(** the residual vanishes iff on every segment the polynomial through the node states satisfies
    the dynamics at the collocation nodes *)
Theorem C74_residual : forall o, chebyshev_ocp o -> t_start o < t_stop o -> forall var,
  (forall i, (i < NX o * (PO o * SG o + 1))%nat -> old_residual o (ode_default o) var i = 0) <->
  (forall s c, (s < SG o)%nat -> (c < NX o)%nat ->
     exists q q', is_poly (PO o) q /\ derivative_of q q' /\
       (forall j, (j <= PO o)%nat -> q (time_nodes o (s * PO o + j)%nat) = state o var (s * PO o + j)%nat c) /\
       (forall l, (l <= PO o)%nat -> (l < PO o \/ s = SG o - 1)%nat ->
          q' (time_nodes o (s * PO o + l)%nat) =
          o_dyn o (state o var (s * PO o + l)) (control o var (s * PO o + l)) (params o var) 0 c)).
Proof.
  intros o Hch Ht var. pose proof Hch as (HP & HS & _).
  etransitivity; [|exact (collocation (aut o) (aut_cheb o Hch) Ht var)].
  split; intros H i Hi; [rewrite <- old_residual_eq by auto|rewrite old_residual_eq by auto]; apply H; exact Hi.
Qed.
Print Assumptions C74_residual.

(** the constraint stack: the values of the user function at the nodes, in order *)
Theorem C74_constraints : forall (o : ocp R) ny f var k c, (k < PO o * SG o + 1)%nat -> (c < ny)%nat ->
  old_generic o ny f var (k * ny + c)%nat = f (state o var k) (control o var k) (params o var) 0 c.
Proof.
  intros o ny f var k c Hk Hc. unfold old_generic.
  rewrite (old_value_eq o ny (fun k => old_at o f var k)) by auto. reflexivity.
Qed.
Print Assumptions C74_constraints.

(** linearisation, what holds: b is the residual, and A is its derivative in every direction that
    leaves the parameters alone.  Missing: the derivatives with respect to the parameters, which
    are not computed (next theorem). *)
Theorem C74_jacobian_partial : forall o, chebyshev_ocp o -> jacobian_of o (NX o) (o_dyn o) (o_dyn_jac o) -> forall var,
  let '(b, A) := old_linearized o (ode_default o) var in
  forall i, (i < NX o * (PO o * SG o + 1))%nat ->
    b i = old_residual o (ode_default o) var i /\
    forall v, param_free o v ->
      dir_deriv (fun x => old_residual o (ode_default o) x i) var v (rsum (VAR o) (fun j => A i j * v j)).
Proof.
  intros o Hch HJ var. pose proof (old_linearized_ok o Hch HJ var) as H. unfold old_jac in H.
  destruct (old_linearized o (ode_default o) var) as [b A]. exact H.
Qed.
Print Assumptions C74_jacobian_partial.

(** x' = p, one segment of order 1 *)
Definition ode_p : ocp R := {|
  NX := 1%nat; NU := 0%nat; NP := 1%nat; NG := 0%nat; PO := 1%nat; SG := 1%nat;
  m_D := cheb_D 1; m_nodes := cheb_nodes 1; m_w := cheb_int_weights 1; t_start := 0; t_stop := 2;
  o_dyn := fun _ _ p _ => p; o_dyn_jac := fun _ _ _ _ _ j => match j with 1 => 1 | _ => 0 end; o_dyn_hes := fun _ _ _ _ _ _ _ => 0;
  o_ine := fun _ _ _ _ _ => 0; o_ine_jac := fun _ _ _ _ _ _ => 0; o_ine_hes := fun _ _ _ _ _ _ _ => 0;
  o_lag := Some ((fun _ _ p _ => p 0%nat), (fun _ _ _ _ j => match j with 1 => 1 | _ => 0 end), (fun _ _ _ _ _ _ => 0));
  o_may := Some ((fun x _ _ _ => x 0%nat), (fun _ _ _ _ j => match j with 0 => 1 | _ => 0 end), (fun _ _ _ _ _ _ => 0)) |}.
Lemma ode_p_cheb : chebyshev_ocp ode_p.
Proof. repeat split; try reflexivity; cbn; lia. Qed.
Lemma ode_p_jac : jacobian_of ode_p (NX ode_p) (o_dyn ode_p) (o_dyn_jac ode_p).
Proof.
  intros c Hc x u p t dx du dp. cbn in Hc. assert (c = 0)%nat as -> by lia. cbn [o_dyn o_dyn_jac ode_p].
  match goal with |- derivable_pt_lim _ _ ?a => replace a with (dp 0%nat) by (unfold node_dot; cbn; ring) end. apply line_d.
Qed.
Lemma ode_p_cost : cost_gradients_exact ode_p.
Proof.
  split; intros x u p t dx du dp; cbn [o_lag o_may ode_p get_val get_grad fst snd].
  - match goal with |- derivable_pt_lim _ _ ?a => replace a with (dp 0%nat) by (unfold node_dot; cbn; ring) end. apply line_d.
  - match goal with |- derivable_pt_lim _ _ ?a => replace a with (dx 0%nat) by (unfold node_dot; cbn; ring) end. apply line_d.
Qed.
Definition dir_p : nat -> R := fun i => match i with 2 => 1 | _ => 0 end.

Theorem C74_jacobian_refuted : exists o var v i, chebyshev_ocp o /\ jacobian_of o (NX o) (o_dyn o) (o_dyn_jac o) /\
  (i < NX o * (PO o * SG o + 1))%nat /\
  let '(_, A) := old_linearized o (ode_default o) var in
  ~ dir_deriv (fun x => old_residual o (ode_default o) x i) var v (rsum (VAR o) (fun j => A i j * v j)).
Proof.
  exists ode_p, (fun _ => 0), dir_p, 0%nat.
  split; [exact ode_p_cheb|]. split; [exact ode_p_jac|]. split; [cbn; lia|].
  destruct (old_linearized ode_p (ode_default ode_p) (fun _ => 0)) as [b A] eqn:E.
  assert (HA : rsum (VAR ode_p) (fun j => A 0%nat j * dir_p j) = 0).
  { change A with (snd (b, A)). rewrite <- E. change (VAR ode_p) with 3%nat. rewrite !rsum_S, rsum_0.
    cbn [dir_p]. replace (snd (old_linearized ode_p (ode_default ode_p) (fun _ => 0)) 0%nat 2%nat) with 0 by reflexivity. ring. }
  rewrite HA. intro D.
  assert (D1 : dir_deriv (fun x => old_residual ode_p (ode_default ode_p) x 0%nat) (fun _ => 0) dir_p (-1)).
  { unfold dir_deriv. apply (derivable_pt_lim_ext (fun h => 0 + h * (-1))); [|apply line_d].
    intro h. unfold old_residual. cbn [ode_default oo_diff]. cbn -[old_kron t_scale Rmult].
    unfold t_scale, old_kron, old_DM. cbn -[Rmult cheb_D].
    change (pk ode_p (fun i : nat => 0 + h * dir_p i) 0%nat) with (0 + h * 1). field. }
  pose proof (uniqueness_limite _ _ _ _ D D1). lra.
Qed.
Print Assumptions C74_jacobian_refuted.

(** the constructor with an argument leaves the differentiation matrix zero: for x' = p with p = 0
    its residual accepts a trajectory that is not constant *)
Theorem C74_constructor_refuted : exists o var, chebyshev_ocp o /\ t_start o < t_stop o /\
  (forall junk i, (i < NX o * (PO o * SG o + 1))%nat -> old_residual o (ode_from junk) var i = 0) /\
  exists i, (i < NX o * (PO o * SG o + 1))%nat /\ old_residual o (ode_default o) var i <> 0.
Proof.
  exists ode_p, (fun i => match i with 0 => 1 | _ => 0 end). split; [exact ode_p_cheb|]. split; [cbn; lra|]. split.
  - intros junk i Hi. change (i < 2)%nat in Hi. assert (i = 0 \/ i = 1)%nat as [->| ->] by lia;
      unfold old_residual; cbn -[Rmult t_scale pk]; unfold pk, seg; cbn -[Rmult t_scale]; ring.
  - exists 0%nat. split; [cbn; lia|]. unfold old_residual. cbn -[Rmult t_scale pk old_kron]. unfold pk, seg. cbn -[Rmult t_scale old_kron].
    unfold old_kron, old_DM. cbn -[Rmult t_scale cheb_D]. intro E.
    apply (D_diag_odd 1 0 (ex_intro _ 0%nat eq_refl) ltac:(lia)).
    match type of E with ?a = 0 => replace a with (cheb_D 1 0 0) in E by ring end. exact E.
Qed.
Print Assumptions C74_constructor_refuted.

(** hypotheses of C74: the problem of Ocp_Example and a solution of its collocation equations *)
Example C74_example : chebyshev_ocp ex_ocp /\ t_start ex_ocp < t_stop ex_ocp /\
  jacobian_of ex_ocp (NX ex_ocp) (o_dyn ex_ocp) (o_dyn_jac ex_ocp) /\
  (forall i, (i < 10)%nat -> old_residual ex_ocp (ode_default ex_ocp) (fun i => if (i <? 10)%nat && (i mod 2 =? 0)%nat then 1 else 0) i = 0) /\
  param_free ex_ocp (fun i => INR (15 - i)).
Proof.
  split; [exact ex_cheb|]. split; [exact ex_time|]. split; [exact ex_dyn_jac|]. split.
  - apply (proj2 (C74_residual ex_ocp ex_cheb ex_time _)). intros s c Hs Hc. cbn in Hs, Hc.
    exists (fun _ => if (c =? 0)%nat then 1 else 0), (fun _ => 0). split.
    { exists (fun k => if (k =? 0)%nat then (if (c =? 0)%nat then 1 else 0) else 0). intro x. cbn [PO ex_ocp]. rewrite !rsum_S, rsum_0. simpl. ring. }
    split; [intro; apply derivable_pt_lim_const|].
    assert (s = 0 \/ s = 1)%nat as [->| ->] by lia; assert (c = 0 \/ c = 1)%nat as [->| ->] by lia;
      (split; [intros j Hj; cbn in Hj; assert (j = 0 \/ j = 1 \/ j = 2)%nat as [->|[->| ->]] by lia; reflexivity|]);
      intros j Hj _; cbn in Hj; assert (j = 0 \/ j = 1 \/ j = 2)%nat as [->|[->| ->]] by lia; cbn; ring.
  - intros c Hc. cbn in Hc. assert (c = 0)%nat as -> by lia. reflexivity.
Qed.

(** * C75: cost_collocation *)

(** value: Clenshaw-Curtis quadrature of the running cost over the segments plus the terminal cost;
    exact if the running cost along the trajectory is a polynomial of degree <= PO on every segment *)
Theorem C75_value : forall o, chebyshev_ocp o -> forall var,
  old_cost_value o (cost_default o) var =
    rsum (SG o) (fun s => (t_stop o - t_start o) / (2 * INR (SG o)) *
        rsum (S (PO o)) (fun k => cheb_int_weights (PO o) k * running_cost0 o var (s * PO o + k)))
    + terminal_cost0 o var /\
  forall r F, (forall s, (s < SG o)%nat -> is_poly (PO o) (r s) /\ derivative_of (F s) (r s) /\
      forall k, (k <= PO o)%nat -> r s (time_nodes o (s * PO o + k)%nat) = running_cost0 o var (s * PO o + k)) ->
    old_cost_value o (cost_default o) var =
      rsum (SG o) (fun s => F s (time_nodes o (s * PO o)%nat) - F s (time_nodes o (s * PO o + PO o)%nat))
      + terminal_cost0 o var.
Proof.
  intros o Hch var. pose proof Hch as (HP & HS & HX & HD & Hn & Hw).
  assert (RC : forall k, running_cost (aut o) var k = running_cost0 o var k).
  { intro k. unfold running_cost, running_cost0. cbn [o_lag aut]. destruct (o_lag o); reflexivity. }
  assert (TC : terminal_cost (aut o) var = terminal_cost0 o var).
  { unfold terminal_cost, terminal_cost0. cbn [o_may aut]. destruct (o_may o); reflexivity. }
  rewrite old_cost_eq by auto. split.
  - rewrite cost_formula, TC. f_equal. apply rsum_ext. intros s Hs. f_equal.
    + change (t_scale (aut o)) with (t_scale o). rewrite t_scale_eq by auto. unfold tlen. field. apply not_0_INR. lia.
    + apply rsum_ext. intros k Hk. rewrite RC. change (m_w (aut o) k) with (m_w o k). rewrite Hw by (change (PO (aut o)) with (PO o) in Hk; lia). reflexivity.
  - intros r F H. rewrite <- TC. apply (cost_integral (aut o) (aut_cheb o Hch) var r F). intros s Hs.
    destruct (H s Hs) as (A & B & C). split; [exact A|]. split; [exact B|]. intros k Hk. rewrite RC. apply C. exact Hk.
Qed.
Print Assumptions C75_value.

(** gradient, what holds: value_gradient returns the cost and its derivative in every direction
    that leaves the parameters alone.  Missing: derivatives with respect to the parameters. *)
Theorem C75_gradient_partial : forall o, chebyshev_ocp o -> cost_gradients_exact o -> forall var,
  let '(c, g) := old_value_gradient o (cost_default o) var in
  c = old_cost_value o (cost_default o) var /\
  forall d, param_free o d -> dir_deriv (old_cost_value o (cost_default o)) var d (rsum (VAR o) (fun j => g j * d j)).
Proof.
  intros o Hch HG var. rewrite value_gradient_eq. split; [|intros; apply old_gradient_ok; auto].
  rewrite value_eq, old_cost_eq; auto.
Qed.
Print Assumptions C75_gradient_partial.

(** Hessian, what holds: value_gradient_hessian returns the same value and gradient, and the
    derivative of the gradient, up to the parameters *)
Theorem C75_hessian_partial : forall o, chebyshev_ocp o -> cost_hessians_exact o -> forall var,
  let '(c, g, H) := old_value_gradient_hessian o (cost_default o) var in
  (c, g) = old_value_gradient o (cost_default o) var /\
  forall e d, param_free o e -> param_free o d ->
    dir_deriv (fun x => rsum (VAR o) (fun j => snd (old_value_gradient o (cost_default o) x) j * e j)) var d
      (rsum (VAR o) (fun i => rsum (VAR o) (fun j => e i * H i j * d j))).
Proof.
  intros o Hch HG var. rewrite value_gradient_hessian_eq. split; [symmetry; apply value_gradient_eq|].
  intros e d He Hd. apply (Ocp_Hes_Cor_Proofs.dir_deriv_ext (fun x => rsum (VAR o) (fun j => gfinal o x j * e j))).
  - intro y. rewrite value_gradient_eq. reflexivity.
  - apply old_hessian_ok; auto.
Qed.
Print Assumptions C75_hessian_partial.

Lemma ode_p_value : forall w junk p, old_cost_value ode_p (cost_from w junk) (fun i => match i with 2 => p | _ => 0 end) = 2 * w 0%nat * p.
Proof.
  intros. unfold old_cost_value, ol_val, om_val, t_scale. cbn -[Rmult Rplus pk xk]. unfold pk, xk, seg. cbn -[Rmult Rplus]. field.
Qed.
Lemma cheb1_w : 0 < cheb_int_weights 1 0%nat.
Proof. apply cc_positive; lia. Qed.
(** the cost int p dt over [0, 2] has derivative 2 with respect to p; the gradient entry is 0 *)
Theorem C75_gradient_refuted : exists o var d, chebyshev_ocp o /\ cost_gradients_exact o /\
  ~ dir_deriv (old_cost_value o (cost_default o)) var d
      (rsum (VAR o) (fun j => snd (old_value_gradient o (cost_default o) var) j * d j)).
Proof.
  exists ode_p, (fun _ => 0), dir_p. split; [exact ode_p_cheb|]. split; [exact ode_p_cost|].
  assert (HA : rsum (VAR ode_p) (fun j => snd (old_value_gradient ode_p (cost_default ode_p) (fun _ => 0)) j * dir_p j) = 0).
  { change (VAR ode_p) with 3%nat. rewrite !rsum_S, rsum_0. cbn [dir_p].
    replace (snd (old_value_gradient ode_p (cost_default ode_p) (fun _ => 0)) 2%nat) with 0 by reflexivity. ring. }
  rewrite HA. intro D.
  assert (D1 : dir_deriv (old_cost_value ode_p (cost_default ode_p)) (fun _ => 0) dir_p (2 * cheb_int_weights 1 0%nat)).
  { unfold dir_deriv. apply (derivable_pt_lim_ext (fun h => 0 + h * (2 * cheb_int_weights 1 0%nat))); [|apply line_d].
    intro h. unfold old_cost_value, ol_val, om_val, t_scale. cbn -[Rmult Rplus pk xk cheb_int_weights].
    unfold pk, xk, seg. cbn -[Rmult Rplus cheb_int_weights]. unfold dir_p. cbn -[Rmult Rplus cheb_int_weights]. field. }
  pose proof (uniqueness_limite _ _ _ _ D D1). pose proof cheb1_w. lra.
Qed.
Print Assumptions C75_gradient_refuted.

(** the constructor with an argument leaves the weights uninitialised: the value depends on them *)
Theorem C75_constructor_refuted : exists o var w junk, chebyshev_ocp o /\
  old_cost_value o (cost_from w junk) var <> old_cost_value o (cost_default o) var.
Proof.
  exists ode_p, (fun i => match i with 2 => 1 | _ => 0 end), (fun _ => 0), (fun _ _ => 0). split; [exact ode_p_cheb|].
  change (cost_default ode_p) with (cost_from (cheb_int_weights 1) (fun i j => if (i =? j)%nat then 1 else 0)).
  rewrite !ode_p_value. pose proof cheb1_w. lra.
Qed.
Print Assumptions C75_constructor_refuted.
Example C75_example : chebyshev_ocp ex_ocp /\ cost_gradients_exact ex_ocp /\ cost_hessians_exact ex_ocp /\
  running_cost0 ex_ocp (fun i => INR i) 1 = 2 * 2 + 11 * 11.
Proof.
  split; [exact ex_cheb|]. split; [exact ex_cost1|]. split; [exact ex_cost2|].
  unfold running_cost0. cbn [o_lag ex_ocp ex_lag get_val fst snd]. unfold state, control, ix, iu. cbn -[Rmult INR].
  cbn. ring.
Qed.

(** * C76: sparse_ode_collocation *)

Theorem C76_residual : forall o, chebyshev_ocp o -> forall var i, (i < NX o * (PO o * SG o + 1))%nat ->
  old_sp_residual o var i = old_residual o (ode_default o) var i.
Proof. intros. apply sp_residual_eq; auto. Qed.
Print Assumptions C76_residual.

(** the first linearisation assembles the dense Jacobian *)
Theorem C76_first_call : forall o, chebyshev_ocp o -> forall var,
  exists M, old_lin_sparse o var (sp_empty (VARX o) (VAR o)) = Some M /\
  forall i j, (i < VARX o)%nat -> (j < VAR o)%nat -> coeff M i j = snd (old_linearized o (ode_default o) var) i j.
Proof.
  intros o Hch var. destruct (old_lin_ok o Hch var _ (or_introl eq_refl)) as (M & E & K & J).
  exists M. split; [exact E|]. intros. apply (old_coeff o Hch M var K J); auto.
Qed.
Print Assumptions C76_first_call.

(** sequences of linearisations on one matrix, what holds: for one segment, or for a polynomial
    of odd order, every call leaves the dense Jacobian of its point in the matrix.  Missing: even
    order and several segments, where the second call fails (next theorem). *)
Theorem C76_sessions_partial : forall o, chebyshev_ocp o -> SG o = 1%nat \/ Nat.Odd (PO o) -> forall pts x,
  exists M, run (old_lin_sparse o) (pts ++ x :: nil) (sp_empty (VARX o) (VAR o)) = Some M /\
  forall i j, (i < VARX o)%nat -> (j < VAR o)%nat -> coeff M i j = snd (old_linearized o (ode_default o) x) i j.
Proof.
  intros o Hch HC pts x.
  assert (Hf : full_diag o).
  { destruct HC as [H|H]; [apply full_diag_one; lia|]. apply full_diag_odd; auto. intros l Hl. apply D_diag_odd; auto. }
  destruct (old_run o Hch Hf (pts ++ x :: nil) _ (or_introl eq_refl)) as (M & E & H).
  exists M. split; [exact E|]. destruct H as [K J]; [destruct pts; discriminate|].
  specialize (J x). rewrite last_last in J. intros. apply (old_coeff o Hch M x K J); auto.
Qed.
Print Assumptions C76_sessions_partial.

(** even order, two or more segments: the centre entry of the differentiation matrix is zero and
    sparseView() drops it, so the estimated number of entries is too small, the second call
    assembles again and inserts an existing entry, whatever the two points are *)
Theorem C76_second_call : forall o, chebyshev_ocp o -> Nat.Even (PO o) -> (2 <= SG o)%nat -> forall x y,
  run (old_lin_sparse o) (x :: y :: nil) (sp_empty (VARX o) (VAR o)) = None.
Proof.
  intros o Hch [m Hm] HS x y. pose proof Hch as (HP & _).
  assert (Hz : old_node_pat o m m = false).
  { apply zero_diag; auto; [lia|]. rewrite Hm. apply D_diag_even. lia. }
  destruct (old_second_fails o Hch m ltac:(unfold NUM_NODES; nia) Hz x y) as (M & E1 & E2).
  cbn [run]. rewrite E1, E2. reflexivity.
Qed.
Print Assumptions C76_second_call.
Theorem C76_sessions_refuted : exists o x y, chebyshev_ocp o /\
  run (old_lin_sparse o) (x :: nil) (sp_empty (VARX o) (VAR o)) <> None /\
  run (old_lin_sparse o) (x :: y :: nil) (sp_empty (VARX o) (VAR o)) = None.
Proof.
  exists ex_ocp, (fun _ => 0), (fun _ => 0). split; [exact ex_cheb|]. split.
  - destruct (C76_first_call ex_ocp ex_cheb (fun _ => 0)) as (M & E & _). cbn [run]. rewrite E. discriminate.
  - apply (C76_second_call ex_ocp ex_cheb); [exists 1%nat; reflexivity|cbn; lia].
Qed.
Print Assumptions C76_sessions_refuted.
Example C76_example : chebyshev_ocp ode_p /\ SG ode_p = 1%nat /\ Nat.Odd (PO ode_p) /\ Nat.Even (PO ex_ocp) /\ (2 <= SG ex_ocp)%nat.
Proof. split; [exact ode_p_cheb|]. split; [reflexivity|]. split; [exists 0%nat; reflexivity|]. split; [exists 1%nat; reflexivity|cbn; lia]. Qed.
