(** C67 (derivatives returned by the NLP base class), C68 (its Lagrangian value and cost scale). *)
Require Import Arith Bool List Reals Lra Lia.
From Verif Require Import RSum Ad_Model Ad_Spec Ad_Proofs Ad_Prog_Proofs Rbf_Model Rbf_Proofs Ad_Props Nlp_Model Nlp_Spec Nlp_Proofs.
Import ListNotations.
Local Open Scope R_scope.

(** ** C67: whatever was called before with whatever arguments ([life P junk calls]) *)
(** constraint values and Jacobian; rows outside the problem are left alone *)
Theorem C67_jacobian : forall P junk calls p x g J,
  let '(_, g', J') := constraints_linearised P p (life P junk calls) x g J in
  (forall i, (i < NE P + NI P)%nat -> g' i = con P p i x) /\
  (smooth_at P p x -> forall i k, (i < NE P + NI P)%nat -> partial (con P p i) x k (J' i k)) /\
  (forall i, (NE P + NI P <= i)%nat -> g' i = g i /\ J' i = J i).
Proof.
  intros. pose proof (cl_values P p _ (life_seeded P junk calls) x g J) as Q.
  destruct (constraints_linearised P p (life P junk calls) x g J) as [[s' g'] J'].
  destruct Q as [A [B C]]. split; [exact A|]. split; [|exact C].
  intros S i k Hi. rewrite B by exact Hi. apply con_partial; assumption.
Qed.
(** gradient of the cost and of the Lagrangian, from both functions that return them *)
Theorem C67_gradient : forall P junk calls p x lam g J H,
  smooth_at P p x ->
  let o := lagrangian_gradient P p (life P junk calls) x lam g J H in
  forall k, (k < NX P)%nat ->
    partial (f0 P p) x k (o_cost_gradient o k) /\ partial (Lag P p 1 lam) x k (o_lag_gradient o k).
Proof.
  intros P junk calls p x lam g J H S o k Hk. unfold o, lagrangian_gradient, cost_gradient. cbv zeta.
  pose proof (life_seeded P junk calls) as Hs. set (s := life P junk calls) in *.
  pose proof (cl_values P p _ (seeded_set _ x Hs) x g J) as Q.
  destruct (constraints_linearised P p (set_ad s x) x g J) as [[s' g'] J']. destruct Q as [_ [B _]].
  cbn [o_cost_gradient o_lag_gradient].
  assert (partial (f0 P p) x k (0 + der (ev (ad_var (set_ad s x)) (cost P p)) k)) as C.
  { rewrite Rplus_0_l, (set_ad_var s x Hs). apply C38_gradient. apply S. }
  split; [exact C|].
  eapply dpl_eq.
  - apply (Lag_partial P p 1 lam x k _ (fun i => J' i k) Hk C).
    intros i Hi. rewrite B by exact Hi. apply con_partial; assumption.
  - unfold lag_grad. rewrite (rsum_ext _ (fun i => lam i * J' i k) (fun i => J' i k * lam i)) by (intros; ring). ring.
Qed.
Theorem C67_gradient_hessian : forall P junk calls p x lam g J c,
  smooth_at P p x -> nestable_all P p ->
  let o := lagrangian_gradient_hessian P p (life P junk calls) x lam g J c in
  (forall k, (k < NX P)%nat ->
    partial (f0 P p) x k (o_cost_gradient o k) /\ partial (Lag P p 1 lam) x k (o_lag_gradient o k)) /\
  (forall i, (i < NE P + NI P)%nat -> o_g o i = con P p i x) /\
  (forall i k, (i < NE P + NI P)%nat -> partial (con P p i) x k (o_jac o i k)).
Proof.
  intros P junk calls p x lam g J c S N o. unfold o, lagrangian_gradient_hessian, cost_gradient_hessian. cbv zeta.
  pose proof (life_seeded P junk calls) as Hs. set (s := life P junk calls) in *.
  pose proof (cl_values P p _ (seeded_set2 _ x Hs) x g J) as Q.
  destruct (constraints_linearised P p (set_ad2 s x) x g J) as [[s' g'] J']. destruct Q as [A [B _]].
  cbn [o_cost_gradient o_lag_gradient o_g o_jac].
  assert (forall i k, (i < NE P + NI P)%nat -> partial (con P p i) x k (J' i k)) as D.
  { intros i k Hi. rewrite B by exact Hi. apply con_partial; assumption. }
  split; [|split; assumption].
  intros k Hk.
  assert (partial (f0 P p) x k (der (val (ev (ad2_var (set_ad2 s x)) (cost P p))) k)) as C.
  { rewrite (set_ad2_var s x Hs). destruct (C38_hessian (cost P p) k k x (proj1 N) (proj1 S)) as [_ [X _]]. exact X. }
  split; [exact C|].
  eapply dpl_eq.
  - apply (Lag_partial P p 1 lam x k _ (fun i => J' i k) Hk C). intros i Hi. apply D, Hi.
  - unfold lag_grad. rewrite (rsum_ext _ (fun i => lam i * J' i k) (fun i => J' i k * lam i)) by (intros; ring). ring.
Qed.
(** the Hessian of cost_scale * cost + multipliers * constraints; it is symmetric *)
Theorem C67_hessian : forall P junk calls p x lam g J c,
  smooth_at P p x -> nestable_all P p ->
  let H := o_hessian (lagrangian_gradient_hessian P p (life P junk calls) x lam g J c) in
  (forall j k, partial2 (Lag P p c lam) x j k (H j k)) /\ (forall j k, H j k = H k j).
Proof.
  intros P junk calls p x lam g J c S N H. unfold H. pose proof (life_seeded P junk calls) as Hs.
  split; intros; [apply lagh_partial2|apply lagh_sym]; assumption.
Qed.

(** a problem in two variables: x0 x1, subject to x0^2 + x1^2 - 1 = 0 and exp x0 <= ... *)
Definition demo : problem := Problem 2 1 1
  (fun _ => Mul (Var 0) (Var 1))
  (fun _ _ => SubR (Add (Mul (Var 0) (Var 0)) (Mul (Var 1) (Var 1))) 1)
  (fun p _ => RMul (p 0%nat) (Un UExp (Var 0))).
Definition demo_x : nat -> R := fun i => if (i =? 0)%nat then 0 else 2.
Example C67_hypotheses : smooth_at demo (fun _ => 5) demo_x /\ nestable_all demo (fun _ => 5).
Proof. split; (split; [|split]); cbn; intros; repeat split. Qed.
Definition demo_lam : nat -> R := fun i => match i with 0%nat => 3 | 1%nat => 7 | 2%nat => 11 | _ => 13 end.
Definition demo_out := lagrangian_gradient_hessian demo (fun _ => 5)
  (life demo (fun _ => 9) [((fun _ => 1), KCost (fun _ => 4)); ((fun _ => 2), KLagH (fun _ => 6))])
  demo_x demo_lam (fun _ => 0) (fun _ _ => 0) (1 / 2).
Example C67_values :
  o_g demo_out 0 = 3 /\ o_g demo_out 1 = 5 /\
  o_jac demo_out 0 0 = 0 /\ o_jac demo_out 0 1 = 4 /\ o_jac demo_out 1 0 = 5 /\ o_jac demo_out 1 1 = 0 /\
  o_lag_gradient demo_out 0 = 2 + 35 + 11 /\ o_lag_gradient demo_out 1 = 12 + 13 /\
  o_hessian demo_out 0 0 = 6 + 35 /\ o_hessian demo_out 0 1 = 1 / 2 /\
  o_hessian demo_out 1 0 = 1 / 2 /\ o_hessian demo_out 1 1 = 6.
Proof.
  unfold demo_out, lagrangian_gradient_hessian. destruct (Req_EM_T (1 / 2) 1) as [E|E]; [lra|clear E].
  cbn. rewrite exp_0. unfold lag_grad. cbn. rewrite ?exp_0. repeat split; lra.
Qed.

(** ** C68 *)
(** lagrangian() is the Lagrangian function *)
Theorem C68_lagrangian_partial : forall P p x lam, lagrangian P p x lam = Lag P p 1 lam x.
Proof.
  intros. unfold lagrangian, Lag, f0, equalities, inequalities. rewrite Rmult_1_l, rsum_split.
  rewrite (rsum_ext (NE P) (fun i => lam i * con P p i x) (fun i => ev x (ceq P p i) * lam i)).
  2:{ intros i Hi. unfold con. destruct (Nat.ltb_spec i (NE P)); [ring|lia]. }
  rewrite (rsum_ext (NI P) (fun i => lam (NE P + i)%nat * con P p (NE P + i) x) (fun i => ev x (cin P p i) * lam (NE P + i)%nat)).
  2:{ intros i Hi. unfold con. destruct (Nat.ltb_spec (NE P + i) (NE P)); [lia|].
      replace (NE P + i - NE P)%nat with i by lia. ring. }
  rewrite (rsum_ext (NX P) (fun i => lam (NE P + NI P + i)%nat * x i) (fun i => x i * lam (NE P + NI P + i)%nat)) by (intros; ring).
  ring.
Qed.
(** ... but the value returned next to the derivatives is the cost alone, and with a cost scale the returned
    gradient still belongs to scale 1 while the Hessian belongs to the given scale *)
Theorem C68_value_partial : forall P junk calls p x lam g J H c,
  o_lagrangian (lagrangian_gradient P p (life P junk calls) x lam g J H) = f0 P p x /\
  o_lagrangian (lagrangian_gradient_hessian P p (life P junk calls) x lam g J c) = f0 P p x.
Proof.
  intros. pose proof (life_seeded P junk calls) as Hs. set (s := life P junk calls) in *.
  unfold lagrangian_gradient, lagrangian_gradient_hessian, cost_gradient, cost_gradient_hessian. cbv zeta.
  destruct (constraints_linearised P p (set_ad s x) x g J) as [[s' g'] J'].
  destruct (constraints_linearised P p (set_ad2 s x) x g J) as [[s2 g2] J2]. cbn [o_lagrangian].
  rewrite (set_ad_var s x Hs), (set_ad2_var s x Hs). split.
  - rewrite Rplus_0_l, C38_value. reflexivity.
  - exact (re_ev _ _ (Hom_dual _ _ (Hom_dual R Fn_R Hom_R)) (fun i => d_var (d_var (x i) i) i) (cost P p)).
Qed.
Example C68_value_differs : f0 demo (fun _ => 5) demo_x = 0 /\ Lag demo (fun _ => 5) 1 demo_lam demo_x = 70.
Proof.
  unfold f0, Lag, f0, con. cbn. rewrite exp_0. split; lra.
Qed.
Theorem C68_value_refuted : exists P p x lam, smooth_at P p x /\ nestable_all P p /\ forall junk calls g J H c,
  o_lagrangian (lagrangian_gradient P p (life P junk calls) x lam g J H) <> Lag P p 1 lam x /\
  o_lagrangian (lagrangian_gradient_hessian P p (life P junk calls) x lam g J c) <> Lag P p 1 lam x.
Proof.
  exists demo, (fun _ => 5), demo_x, demo_lam. split; [apply C67_hypotheses|]. split; [apply C67_hypotheses|]. intros.
  destruct (C68_value_partial demo junk calls (fun _ => 5) demo_x demo_lam g J H c) as [A B].
  destruct C68_value_differs as [C D]. rewrite A, B, C, D. lra.
Qed.
Theorem C68_scale_refuted : exists P p x lam c l, smooth_at P p x /\ nestable_all P p /\
  partial (Lag P p c lam) x 0 l /\
  o_lag_gradient (lagrangian_gradient_hessian P p (seed (fun _ => 0)) x lam (fun _ => 0) (fun _ _ => 0) c) 0 <> l.
Proof.
  exists (Problem 1 0 0 (fun _ => Var 0) (fun _ _ => Cst 0) (fun _ _ => Cst 0)), (fun _ => 0), (fun _ => 0), (fun _ => 0), 2, 2.
  split; [repeat split; cbn; intros; lia|]. split; [repeat split; cbn; intros; lia|]. split.
  - unfold partial, Lag, f0. cbn.
    apply (dpl_local (fun t => 2 * t)); [apply near_all; intro t; unfold shift; cbn; lra|].
    eapply dpl_eq; [apply derivable_pt_lim_scal, derivable_pt_lim_id|lra].
  - unfold lagrangian_gradient_hessian. cbn. unfold lag_grad. cbn. lra.
Qed.

Print Assumptions C67_jacobian.
Print Assumptions C67_gradient.
Print Assumptions C67_gradient_hessian.
Print Assumptions C67_hessian.
Print Assumptions C68_lagrangian_partial.
Print Assumptions C68_value_partial.
Print Assumptions C68_value_refuted.
Print Assumptions C68_scale_refuted.
