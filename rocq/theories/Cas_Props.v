(** Property theorems for the collocation classes of the CasADi interface (C77, C78, C79, C80). *)
Require Import Arith List Bool Lia Reals Lra.
From Verif Require Import Scal RSum PolyR Poly_Spec Blk Cheb_Proofs Cas_Model Cas_Spec Cas_Proofs.
Import ListNotations.
Local Open Scope R_scope.

(** * C77: Chebyshev::CollocateDynamics *)

(** the constraint vanishes iff on every segment the polynomial through the node states satisfies
    the ODE at the nodes (the last node of a segment belongs to the next one) *)
Theorem C77_residual : forall c f t0 tf X U Pv Dv, dims_ok c -> t0 < tf -> f_nin f = num_args c -> f_out f = cX c ->
  exists G, cas_dynamics c f t0 tf X U Pv Dv = Some G /\
  ((forall i, (i < cX c * (cP c * cS c + 1))%nat -> G i = 0) <->
   (forall s i, (s < cS c)%nat -> (i < cX c)%nat -> exists q q', is_poly (cP c) q /\ derivative_of q q' /\
      (forall j, (j <= cP c)%nat -> q (node_time c t0 tf s j) = X ((s * cP c + j) * cX c + i)%nat) /\
      (forall l, (l <= cP c)%nat -> (l < cP c \/ s = cS c - 1)%nat ->
         q' (node_time c t0 tf s l) = f_val f (inputs c X U Pv Dv (s * cP c + l) (s * cP c + l)) i))).
Proof.
  intros c f t0 tf X U Pv Dv Hd Ht Hn Ho. exists (dyn_res c f t0 tf X U Pv Dv). split.
  - apply cas_dynamics_some; auto.
  - exact (dyn_collocation c f t0 tf X U Pv Dv Hd Ht).
Qed.
Print Assumptions C77_residual.

(** which functions are accepted: the number of inputs depends on the presence of parameters or data *)
Theorem C77_calls : forall c f t0 tf X U Pv Dv,
  cas_dynamics c f t0 tf X U Pv Dv = None <->
  (f_nin f <> num_args c \/ (f_out f <> cX c /\ f_out f <> 1%nat)).
Proof.
  intros c f t0 tf X U Pv Dv. destruct (Nat.eq_dec (f_nin f) (num_args c)) as [En|En].
  - split.
    + intro H. right. unfold cas_dynamics in H.
      destruct (Nat.eqb_spec (f_out f) (cX c)) as [E1|E1]; [exfalso|destruct (Nat.eqb_spec (f_out f) 1) as [E2|E2]; [exfalso|auto]].
      * fold (cas_dynamics c f t0 tf X U Pv Dv) in H. rewrite cas_dynamics_some in H by auto. discriminate.
      * rewrite (oloop_ext _ _ _ (fun k F => Some (vset F (k * cX c) (cX c)
          (fun _ => cas_ts c t0 tf * f_val f (node_args c X U Pv Dv k) 0%nat)))) in H.
        -- rewrite oloop_some in H. discriminate.
        -- intros k F _. rewrite call_ok by auto. unfold fit. apply Nat.eqb_neq in E1. apply Nat.eqb_eq in E2. rewrite E1, E2. reflexivity.
    + intros [H|[E1 E2]]; [contradiction|]. unfold cas_dynamics. rewrite oloop_none; auto; [unfold cas_N; lia|].
      intro F. rewrite call_ok by auto. unfold fit. apply Nat.eqb_neq in E1, E2. rewrite E1, E2. reflexivity.
  - split; [auto|]. intros _. apply cas_dynamics_none; auto.
Qed.
Print Assumptions C77_calls.

(** one state, no control, one segment of order 1 *)
Definition cas1 : cas := mkCas 1 1 1 0 0 0.
Lemma cas1_ok : dims_ok cas1.
Proof. repeat split; cbn; lia. Qed.
Lemma cas_D1 : forall i j, (i <= 1)%nat -> (j <= 1)%nat -> cas_D 1 i j = match j with 0 => 1 / 2 | _ => - (1 / 2) end.
Proof.
  intros i j Hi Hj.
  assert (C0 : cas_points 1 0 = 1) by (unfold cas_points; simpl; rewrite Rmult_0_l; apply cos_0).
  assert (C1 : cas_points 1 1 = -1) by (unfold cas_points; simpl; replace (1 * (PI / 1)) with PI by field; apply cos_PI).
  unfold cas_D. simpl ssum. unfold cas_Dn.
  destruct i as [|[|]]; try lia; destruct j as [|[|]]; try lia; unfold cas_c; simpl; rewrite ?C0, ?C1; field.
Qed.
Lemma node_time1 : forall t0 tf, node_time cas1 t0 tf 0 0 = tf /\ node_time cas1 t0 tf 0 1 = t0.
Proof.
  intros. destruct (seg_ends cas1 t0 tf 0) as [A B]; [cbn; lia|]. change (cP cas1) with 1%nat in B. rewrite A, B.
  unfold seg_len. simpl. split; field.
Qed.
(** x' = a x + b *)
Definition fun_lin (a b : R) : cfun := mkFun 2 1 (fun l _ => match l with (x :: nil) :: _ => a * x + b | _ => 0 end).

(** x' = 1 on [0, 2] from x(0) = 3: the states (5, 3) satisfy the constraint *)
Example C77_residual_ex : exists G, cas_dynamics cas1 (fun_lin 0 1) 0 2 (fun i => match i with 0 => 5 | _ => 3 end) (fun _ => 0) (fun _ => 0) (fun _ => 0) = Some G /\
  forall i, (i < 2)%nat -> G i = 0.
Proof.
  set (X := fun i : nat => match i with 0%nat => 5 | _ => 3 end).
  destruct (C77_residual cas1 (fun_lin 0 1) 0 2 X (fun _ => 0) (fun _ => 0) (fun _ => 0) cas1_ok ltac:(lra) eq_refl eq_refl) as (G & E & H).
  exists G. split; auto. apply H. intros s i Hs Hi. cbn in Hs, Hi. assert (s = 0)%nat as -> by lia. assert (i = 0)%nat as -> by lia.
  exists (fun t => t + 3), (fun _ => 1). destruct (node_time1 0 2) as [T0 T1]. split; [|split; [|split]].
  - exists (fun k => match k with 0 => 3 | _ => 1 end). intro x. simpl. ring.
  - intro x. replace 1 with (1 + 0) by ring. apply (derivable_pt_lim_plus id (fct_cte 3)); [apply derivable_pt_lim_id|apply derivable_pt_lim_const].
  - intros j Hj. cbn in Hj. destruct j as [|[|]]; [rewrite T0|rewrite T1|lia]; unfold X; simpl; ring.
  - intros l Hl _. cbn in Hl. destruct l as [|[|]]; try lia; unfold X; simpl; ring.
Qed.
Example C77_calls_ex : cas_dynamics cas1 (mkFun 4 1 (fun _ _ => 0)) 0 2 (fun _ => 0) (fun _ => 0) (fun _ => 0) (fun _ => 0) = None /\
  cas_dynamics (mkCas 1 1 2 0 0 0) (mkFun 2 3 (fun _ _ => 0)) 0 2 (fun _ => 0) (fun _ => 0) (fun _ => 0) (fun _ => 0) = None /\
  cas_dynamics (mkCas 1 1 2 0 0 0) (mkFun 2 1 (fun _ _ => 0)) 0 2 (fun _ => 0) (fun _ => 0) (fun _ => 0) (fun _ => 0) <> None.
Proof.
  split; [|split]; [apply C77_calls; left; discriminate|apply C77_calls; right; split; discriminate|].
  intro H. apply C77_calls in H. destruct H as [H|[_ H]]; apply H; reflexivity.
Qed.

(** "for every initial state there are node states that satisfy the constraint": false.  The constraint
    holds the ODE at the initial node as well, one equation more than unknowns: with x' = x, one
    segment of order 1, the initial state has to be 0. *)
Theorem C77_initial_value_refuted : exists c f t0 tf, dims_ok c /\ t0 < tf /\ f_nin f = num_args c /\ f_out f = cX c /\
  forall X U Pv Dv G, cas_dynamics c f t0 tf X U Pv Dv = Some G ->
    (forall i, (i < cX c * (cP c * cS c + 1))%nat -> G i = 0) -> X (cP c * cS c * cX c)%nat = 0.
Proof.
  exists cas1, (fun_lin 1 0), 0, 2. split; [exact cas1_ok|]. split; [lra|]. split; [reflexivity|]. split; [reflexivity|].
  intros X U Pv Dv G E H. rewrite cas_dynamics_some in E by reflexivity. inversion E. subst G. clear E.
  assert (H0 := H 0%nat ltac:(cbn; lia)). assert (H1 := H 1%nat ltac:(cbn; lia)). unfold dyn_res in H0, H1.
  pose proof (comp_mul cas1 1 X 0 0 0 ltac:(cbn; lia) ltac:(cbn; lia) ltac:(cbn; lia) ltac:(cbn; lia) ltac:(lia)) as K0.
  pose proof (comp_mul cas1 1 X 0 1 0 ltac:(cbn; lia) ltac:(cbn; lia) ltac:(cbn; lia) ltac:(cbn; lia) ltac:(lia)) as K1.
  simpl Nat.add in K0, K1. simpl Nat.mul in K0, K1. change (cX cas1) with 1%nat in *.
  change (cas_N cas1 * 1)%nat with 2%nat in *. rewrite K0 in H0. rewrite K1 in H1. clear K0 K1.
  change (cP cas1) with 1%nat in *. cbn -[INR cas_D node_time comp] in H0, H1.
  rewrite !cas_D1 in H0, H1 by lia. unfold comp, dyn_rhs, cas_ts, vset, in_seg in H0, H1. simpl in H0, H1. simpl. lra.
Qed.
Print Assumptions C77_initial_value_refuted.

(** CollocateDynamics2, what holds: evaluated at the member m_X it is the same constraint.  Missing: the
    returned constraint as a function of its argument X (next theorem). *)
Theorem C77_second_partial : forall c ode t0 tf X U Pv Dv, cNP c = 0%nat -> cND c = 0%nat ->
  cas_dynamics c (mkFun 2 (cX c) (fun l => ode (nth 0 l nil) (nth 1 l nil) Pv)) t0 tf X U Pv Dv =
  Some (cas_dynamics2 c ode t0 tf X X U Pv).
Proof.
  intros c ode t0 tf X U Pv Dv H1 H2. rewrite cas_dynamics_some; [reflexivity| |reflexivity].
  unfold num_args. rewrite H1, H2. reflexivity.
Qed.
Print Assumptions C77_second_partial.
Definition ode_id : list R -> list R -> vec R -> vec R := fun x _ _ _ => nth 0 x 0.
Example C77_second_ex : cas_dynamics cas1 (mkFun 2 1 (fun l => ode_id (nth 0 l nil) (nth 1 l nil) (fun _ => 0))) 0 2 (fun _ => 7) (fun _ => 0) (fun _ => 0) (fun _ => 0) =
  Some (cas_dynamics2 cas1 ode_id 0 2 (fun _ => 7) (fun _ => 7) (fun _ => 0) (fun _ => 0)).
Proof. exact (C77_second_partial cas1 ode_id 0 2 (fun _ => 7) (fun _ => 0) (fun _ => 0) (fun _ => 0) eq_refl eq_refl). Qed.
(** "CollocateDynamics2 vanishes only at states that satisfy the ODE": false, the derivative is that of
    the member m_X: with x' = 0 and m_X = 0 the states (1, 0) give zero. *)
Theorem C77_second_refuted : exists c ode t0 tf m_X X U Pv, dims_ok c /\ t0 < tf /\
  (forall x u p i, ode x u p i = 0) /\ X 0%nat <> X 1%nat /\ (cX c = 1)%nat /\ (cP c = 1)%nat /\
  forall i, cas_dynamics2 c ode t0 tf m_X X U Pv i = 0.
Proof.
  exists cas1, (fun _ _ _ _ => 0), 0, 2, (fun _ => 0), (fun i => match i with 0 => 1 | _ => 0 end), (fun _ => 0), (fun _ => 0).
  split; [exact cas1_ok|]. split; [lra|]. split; [auto|]. split; [lra|]. split; [reflexivity|]. split; [reflexivity|].
  intro i. unfold cas_dynamics2, mtimes.
  match goal with |- ?a - ?b = 0 => assert (A : a = 0); [|assert (B : b = 0); [|rewrite A, B; ring]] end.
  - apply rsum_zero. intros. ring.
  - cbn [cas_N cP cS cas1 Nat.mul Nat.add loop]. unfold vset. destruct (in_seg _ _ _); [ring|]. destruct (in_seg _ _ _); [ring|reflexivity].
Qed.
Print Assumptions C77_second_refuted.

(** * C78: costs, functions on the grid, differentiation *)

(** a running cost that is a polynomial of degree at most P in time on every segment is integrated exactly *)
Theorem C78_cost : forall c mayer lag t0 tf X U (r F : nat -> R -> R), dims_ok c -> arity 1 mayer -> f_nin lag = 2%nat ->
  (forall s, (s < cS c)%nat -> is_poly (cP c) (r s) /\ derivative_of (F s) (r s) /\
     forall k, (k <= cP c)%nat ->
       f_val lag (block (cX c) X (s * cP c + k) :: block (cU c) U (s * cP c + k) :: nil) 0%nat = r s (node_time c t0 tf s k)) ->
  cas_cost c mayer (Some lag) t0 tf X U =
  Some (term mayer (block (cX c) X 0 :: nil) + rsum (cS c) (fun s => F s (node_time c t0 tf s 0) - F s (node_time c t0 tf s (cP c)))).
Proof.
  intros c mayer lag t0 tf X U r F Hd Hm Hl H. unfold cas_cost.
  rewrite (quad_integral c Hd t0 tf _ r F).
  - destruct mayer as [f|]; [|reflexivity]. unfold sval, call. simpl length. cbn in Hm. rewrite Hm. reflexivity.
  - intros s Hs. destruct (H s Hs) as (A & B & C). repeat split; auto. intros k Hk.
    unfold sval, call. simpl length. rewrite Hl. cbn [Nat.eqb]. f_equal. exact (C k Hk).
Qed.
Print Assumptions C78_cost.
(** the same with parameters and data as further arguments *)
Theorem C78_parametric_cost : forall c mayer lag t0 tf X U Pv Dv (r F : nat -> R -> R), dims_ok c -> arity 3 mayer -> f_nin lag = 4%nat ->
  let pd := block (cNP c) Pv 0 :: block (cND c) Dv 0 :: nil in
  (forall s, (s < cS c)%nat -> is_poly (cP c) (r s) /\ derivative_of (F s) (r s) /\
     forall k, (k <= cP c)%nat ->
       f_val lag (block (cX c) X (s * cP c + k) :: block (cU c) U (s * cP c + k) :: pd) 0%nat = r s (node_time c t0 tf s k)) ->
  cas_pcost c mayer (Some lag) t0 tf X U Pv Dv =
  Some (term mayer (block (cX c) X 0 :: pd) + rsum (cS c) (fun s => F s (node_time c t0 tf s 0) - F s (node_time c t0 tf s (cP c)))).
Proof.
  intros c mayer lag t0 tf X U Pv Dv r F Hd Hm Hl pd H. unfold cas_pcost.
  rewrite (quad_integral c Hd t0 tf _ r F).
  - destruct mayer as [f|]; [|reflexivity]. unfold sval, call. simpl length. cbn in Hm. rewrite Hm. reflexivity.
  - intros s Hs. destruct (H s Hs) as (A & B & C). repeat split; auto. intros k Hk.
    unfold sval, call. simpl length. rewrite Hl. cbn [Nat.eqb]. f_equal. exact (C k Hk).
Qed.
Print Assumptions C78_parametric_cost.
(** one antiderivative for the whole horizon: the integral from t0 to tf *)
Theorem C78_horizon : forall c t0 tf (F : R -> R), dims_ok c ->
  rsum (cS c) (fun s => F (node_time c t0 tf s 0) - F (node_time c t0 tf s (cP c))) = F tf - F t0.
Proof.
  intros c t0 tf F (HP & HS & HX).
  assert (E : forall n, rsum n (fun s => F (node_time c t0 tf s 0) - F (node_time c t0 tf s (cP c))) = F tf - F (tf - INR n * seg_len c t0 tf)).
  { induction n; [simpl; replace (tf - 0 * seg_len c t0 tf) with tf by ring; simpl; ring|].
    rewrite rsum_S, IHn. destruct (seg_ends c t0 tf n HP) as [-> ->]. rewrite S_INR.
    replace (tf - (INR n + 1) * seg_len c t0 tf) with (tf - INR n * seg_len c t0 tf - seg_len c t0 tf) by ring. ring. }
  rewrite E. f_equal. f_equal. unfold seg_len. field. apply not_0_INR. lia.
Qed.
Print Assumptions C78_horizon.
(** without a running cost only the final term is left; the state of that term is the one at tf *)
Theorem C78_terminal : forall c mayer t0 tf X U Pv Dv, arity 1 mayer ->
  cas_cost c mayer None t0 tf X U = Some (term mayer (block (cX c) X 0 :: nil)) /\
  (forall mp, arity 3 mp -> cas_pcost c mp None t0 tf X U Pv Dv = Some (term mp (block (cX c) X 0 :: block (cNP c) Pv 0 :: block (cND c) Dv 0 :: nil))) /\
  ((1 <= cP c)%nat -> node_time c t0 tf 0 0 = tf).
Proof.
  intros c mayer t0 tf X U Pv Dv Hm. split; [|split].
  - unfold cas_cost. destruct mayer as [f|]; [|simpl; f_equal; ring]. unfold sval, call. simpl length. cbn in Hm. rewrite Hm. cbn [Nat.eqb term].
    f_equal. rewrite Rplus_0_r. reflexivity.
  - intros mp Hp. unfold cas_pcost. destruct mp as [f|]; [|simpl; f_equal; ring]. unfold sval, call. simpl length. cbn in Hp. rewrite Hp. cbn [Nat.eqb term].
    f_equal. rewrite Rplus_0_r. reflexivity.
  - intro HP. destruct (seg_ends c t0 tf 0 HP) as [-> _]. simpl. ring.
Qed.
Print Assumptions C78_terminal.

(** the values of a function on the grid *)
Theorem C78_function : forall c f X U Pv Dv,
  (f_nin f <> num_args c -> cas_function c f X U Pv Dv = None) /\
  (f_nin f = num_args c -> exists v, cas_function c f X U Pv Dv = Some v /\
     forall k i, (k < cP c * cS c + 1)%nat -> (i < f_out f)%nat -> v (k * f_out f + i)%nat = f_val f (inputs c X U Pv Dv k k) i).
Proof. intros. split; [apply cas_function_none|exact (cas_function_some c f X U Pv Dv)]. Qed.
Print Assumptions C78_function.

(** DifferentiateFunction, what holds: if the values of the function are those of polynomials d s i 0 of
    degree at most P on the segments, with derivatives that agree where segments meet, the result of
    order n is ts^n times the n-th derivative, ts = (tf - t0) / (2 S).  Missing: the derivative with
    respect to time, and functions with kinks at the junctions (next two theorems). *)
Theorem C78_derivative_partial : forall c f order t0 tf X U Pv Dv (d : nat -> nat -> nat -> R -> R), dims_ok c -> f_nin f = num_args c ->
  (forall s i, (s < cS c)%nat -> (i < f_out f)%nat -> derivatives (cP c) (d s i)) ->
  (forall s i j, (s < cS c)%nat -> (i < f_out f)%nat -> (j <= cP c)%nat ->
     f_val f (inputs c X U Pv Dv (s * cP c + j) (s * cP c + j)) i = d s i 0%nat (node_time c t0 tf s j)) ->
  (forall k s i, (k < order)%nat -> (S s < cS c)%nat -> (i < f_out f)%nat ->
     d s i k (node_time c t0 tf s (cP c)) = d (S s) i k (node_time c t0 tf (S s) 0)) ->
  exists v, cas_differentiate c f order X U Pv Dv = Some v /\
    forall s i l, (s < cS c)%nat -> (i < f_out f)%nat -> (l <= cP c)%nat -> (l < cP c \/ s = cS c - 1)%nat ->
      v ((s * cP c + l) * f_out f + i)%nat = (seg_len c t0 tf / 2) ^ order * d s i order (node_time c t0 tf s l).
Proof.
  intros c f order t0 tf X U Pv Dv d Hd Hn HD Hv Hj. pose proof Hd as (HP & HS & HX). unfold cas_differentiate.
  destruct (cas_function_some c f X U Pv Dv Hn) as (v & -> & E). eexists. split; [reflexivity|].
  intros s i l Hs Hi Hl Ho. rewrite <- ts_len by auto.
  apply (iter_diff c Hd t0 tf (f_out f) order d v HD); auto.
  intros s' i' j Hs' Hi' Hj'. rewrite E by (auto; unfold cas_N; nia). apply Hv; auto.
Qed.
Print Assumptions C78_derivative_partial.

(** the identity function of the state *)
Definition fun_id : cfun := fun_lin 1 0.
Lemma fun_id_val : forall c X U Pv Dv k, cX c = 1%nat -> f_val fun_id (inputs c X U Pv Dv k k) 0%nat = X k.
Proof. intros c X U Pv Dv k H. unfold inputs, block. rewrite H. simpl. rewrite Nat.mul_1_r, Nat.add_0_r. ring. Qed.
Lemma lin_poly : forall a b, is_poly 1 (fun t => a * t + b).
Proof. intros a b. exists (fun k => match k with 0 => b | _ => a end). intro x. simpl. ring. Qed.
Lemma lin_deriv : forall a b, derivative_of (fun t => a * t + b) (fun _ => a).
Proof.
  intros a b x. apply derivable_pt_lim_ext with (plus_fct (mult_real_fct a id) (fct_cte b)); [intro; auto|].
  replace a with (a * 1 + 0) at 2 by ring.
  apply derivable_pt_lim_plus; [apply derivable_pt_lim_scal, derivable_pt_lim_id|apply derivable_pt_lim_const].
Qed.
Definition lin_d (a b : R) (k : nat) : R -> R := match k with 0 => fun t => a * t + b | 1 => fun _ => a | _ => fun _ => 0 end.
Lemma lin_derivs : forall a b, derivatives 1 (lin_d a b).
Proof.
  intros a b. split; [exact (lin_poly a b)|]. intros [|[|k]]; [exact (lin_deriv a b)| |]; intro x; apply derivable_pt_lim_const.
Qed.
(** x = t on [0, 4]: the first-order result is 2 everywhere, the second-order result 0 *)
Lemma deriv_lin : forall order, exists v, cas_differentiate cas1 fun_id order (fun i => match i with 0 => 4 | _ => 0 end) (fun _ => 0) (fun _ => 0) (fun _ => 0) = Some v /\
  forall l, (l <= 1)%nat -> v l = 2 ^ order * lin_d 1 0 order (node_time cas1 0 4 0 l).
Proof.
  intro order. set (X := fun i : nat => match i with 0%nat => 4 | _ => 0 end). destruct (node_time1 0 4) as [T0 T1].
  destruct (C78_derivative_partial cas1 fun_id order 0 4 X (fun _ => 0) (fun _ => 0) (fun _ => 0) (fun _ _ => lin_d 1 0) cas1_ok eq_refl)
    as (v & E & H).
  - intros. apply lin_derivs.
  - intros s i j Hs Hi Hj. cbn in Hs, Hi, Hj. assert (s = 0)%nat as -> by lia. assert (i = 0)%nat as -> by lia.
    rewrite fun_id_val by reflexivity. destruct j as [|[|]]; [rewrite T0|rewrite T1|lia]; unfold X; simpl; ring.
  - intros k s i _ Hs. cbn in Hs. lia.
  - exists v. split; auto. intros l Hl. specialize (H 0%nat 0%nat l ltac:(cbn; lia) ltac:(cbn; lia) Hl ltac:(cbn; lia)).
    simpl Nat.mul in H. simpl Nat.add in H. rewrite Nat.mul_1_r, Nat.add_0_r in H. rewrite H. f_equal. f_equal. unfold seg_len. simpl. field.
Qed.
Example C78_derivative_ex : exists v, cas_differentiate cas1 fun_id 1 (fun i => match i with 0 => 4 | _ => 0 end) (fun _ => 0) (fun _ => 0) (fun _ => 0) = Some v /\
  v 0%nat = 2 /\ v 1%nat = 2.
Proof. destruct (deriv_lin 1) as (v & E & H). exists v. split; auto. rewrite !H by lia. simpl. split; ring. Qed.

(** "the result is the derivative with respect to time": false, there is no division by ts *)
Theorem C78_derivative_time_refuted : exists c f t0 tf X U Pv Dv (q q' : R -> R) v, dims_ok c /\ t0 < tf /\
  is_poly (cP c) q /\ derivative_of q q' /\ cS c = 1%nat /\ f_out f = 1%nat /\
  (forall j, (j <= cP c)%nat -> f_val f (inputs c X U Pv Dv j j) 0%nat = q (node_time c t0 tf 0 j)) /\
  cas_differentiate c f 1 X U Pv Dv = Some v /\ v 0%nat <> q' (node_time c t0 tf 0 0).
Proof.
  destruct (deriv_lin 1) as (v & E & H).
  exists cas1, fun_id, 0, 4, (fun i => match i with 0 => 4 | _ => 0 end), (fun _ => 0), (fun _ => 0), (fun _ => 0), (fun t => 1 * t + 0), (fun _ => 1), v.
  split; [exact cas1_ok|]. split; [lra|]. split; [exact (lin_poly 1 0)|]. split; [exact (lin_deriv 1 0)|]. split; [reflexivity|]. split; [reflexivity|].
  split; [|split; [exact E|rewrite H by lia; simpl; lra]].
  destruct (node_time1 0 4) as [T0 T1]. intros j Hj. cbn in Hj. rewrite fun_id_val by reflexivity.
  destruct j as [|[|]]; [rewrite T0|rewrite T1|lia]; simpl; ring.
Qed.
Print Assumptions C78_derivative_time_refuted.

(** "on every segment the n-th order result is the n-th derivative of the segment polynomial (up to ts^n)":
    false.  Order 1, two segments, values 1, 0, 1: piecewise linear, but the second-order result at the
    final node is 1/2. *)
Theorem C78_derivative_kink_refuted : exists c f X U Pv Dv v, dims_ok c /\ cP c = 1%nat /\ f_nin f = num_args c /\ f_out f = 1%nat /\
  cas_differentiate c f 2 X U Pv Dv = Some v /\ v 0%nat <> 0.
Proof.
  set (c := mkCas 1 2 1 0 0 0). set (X := fun i : nat => match i with 1%nat => 0 | _ => 1 end).
  destruct (cas_function_some c fun_id X (fun _ => 0) (fun _ => 0) (fun _ => 0) eq_refl) as (w & Ew & Hw).
  exists c, fun_id, X, (fun _ => 0), (fun _ => 0), (fun _ => 0). eexists.
  split; [repeat split; cbn; lia|]. split; [reflexivity|]. split; [reflexivity|]. split; [reflexivity|]. split; [unfold cas_differentiate; rewrite Ew; reflexivity|].
  assert (W : forall k, (k < 3)%nat -> comp 1 w k 0 = X k).
  { intros k Hk. change 1%nat with (f_out fun_id). rewrite Hw; [|exact Hk|cbn; lia]. apply (fun_id_val c X (fun _ => 0) (fun _ => 0) (fun _ => 0) k eq_refl). }
  change (f_out fun_id) with 1%nat. rewrite !loop_S. cbn [loop].
  set (w1 := mtimes (cas_N c * 1) (kron 1 (cas_comp c)) w).
  assert (A : forall s l, (s < 2)%nat -> (l <= 1)%nat -> (l < 1 \/ s = 1)%nat -> w1 (s + l)%nat = 1 / 2 * comp 1 w s 0 - 1 / 2 * comp 1 w (s + 1) 0).
  { intros s l Hs Hl Ho. assert (K := comp_mul c 1 w s l 0 ltac:(cbn; lia) Hs Hl Ho ltac:(lia)). fold w1 in K.
    change (cP c) with 1%nat in K. rewrite !Nat.mul_1_r, Nat.add_0_r in K. rewrite K. cbn -[INR cas_D node_time comp].
    rewrite !cas_D1 by lia. rewrite Nat.add_0_r. simpl. ring. }
  assert (K := comp_mul c 1 w1 0 0 0 ltac:(cbn; lia) ltac:(cbn; lia) ltac:(cbn; lia) ltac:(cbn; lia) ltac:(lia)).
  change ((0 * cP c + 0) * 1 + 0)%nat with 0%nat in K. rewrite K. change (cP c) with 1%nat. cbn -[INR cas_D node_time comp].
  rewrite !cas_D1 by lia. unfold comp. change ((0 * 1 + 0) * 1 + 0)%nat with (0 + 0)%nat. change ((0 * 1 + 1) * 1 + 0)%nat with (1 + 0)%nat.
  rewrite !A by lia. simpl Nat.add. rewrite !W by lia. unfold X. simpl. lra.
Qed.
Print Assumptions C78_derivative_kink_refuted.

(** running cost 2 x + 1 with x = t on [0, 4], final cost x: 4 + (16 + 4) *)
Example C78_cost_ex : cas_cost cas1 (Some (mkFun 1 1 (fun l _ => match l with (x :: nil) :: _ => x | _ => 0 end))) (Some (fun_lin 2 1)) 0 4
  (fun i => match i with 0 => 4 | _ => 0 end) (fun _ => 0) = Some 24.
Proof.
  rewrite (C78_cost cas1 _ _ _ _ _ _ (fun _ t => 2 * t + 1) (fun _ t => t * t + t)).
  - pose proof (C78_horizon cas1 0 4 (fun t => t * t + t) cas1_ok) as E. cbv beta in E. rewrite E. f_equal. simpl. ring.
  - exact cas1_ok.
  - reflexivity.
  - reflexivity.
  - intros s Hs. cbn in Hs. assert (s = 0)%nat as -> by lia. split; [exact (lin_poly 2 1)|]. split.
    + intro x. apply derivable_pt_lim_ext with (plus_fct (mult_fct id id) id); [intro; auto|].
      replace (2 * x + 1) with ((1 * x + x * 1) + 1) by ring. apply derivable_pt_lim_plus; [|apply derivable_pt_lim_id].
      apply (derivable_pt_lim_mult id id); apply derivable_pt_lim_id.
    + destruct (node_time1 0 4) as [T0 T1]. intros k Hk. cbn in Hk. destruct k as [|[|]]; [rewrite T0|rewrite T1|lia]; simpl; ring.
Qed.
Example C78_function_ex : exists v, cas_function cas1 (fun_lin 2 1) (fun i => INR i) (fun _ => 0) (fun _ => 0) (fun _ => 0) = Some v /\ v 0%nat = 1 /\ v 1%nat = 3.
Proof.
  destruct (proj2 (C78_function cas1 (fun_lin 2 1) (fun i => INR i) (fun _ => 0) (fun _ => 0) (fun _ => 0)) eq_refl) as (v & E & H).
  exists v. split; auto. split.
  - assert (A := H 0%nat 0%nat ltac:(cbn; lia) ltac:(cbn; lia)). simpl in A. rewrite A. ring.
  - assert (A := H 1%nat 0%nat ltac:(cbn; lia) ltac:(cbn; lia)). simpl in A. rewrite A. ring.
Qed.

(** * C79: MSChebyshev *)

(** the constraint vanishes iff on every segment the polynomial through its own P + 1 states satisfies the
    ODE at all the nodes with the constant control of the segment, and consecutive segments join *)
Theorem C79_residual : forall c f t0 tf X U Pv Dv, dims_ok c -> t0 < tf -> f_nin f = num_args c -> f_out f = cX c ->
  exists G, ms_dynamics c f t0 tf X U Pv Dv = Some G /\
  ((forall i, (i < cX c * (cS c * (cP c + 1)) + cX c * (cS c - 1))%nat -> G i = 0) <->
   (forall s i, (s < cS c)%nat -> (i < cX c)%nat -> exists q q', is_poly (cP c) q /\ derivative_of q q' /\
      (forall j, (j <= cP c)%nat -> q (node_time c t0 tf s j) = X ((s * (cP c + 1) + j) * cX c + i)%nat) /\
      (forall l, (l <= cP c)%nat -> q' (node_time c t0 tf s l) = f_val f (inputs c X U Pv Dv (s * (cP c + 1) + l) s) i)) /\
   (forall s i, (S s < cS c)%nat -> (i < cX c)%nat ->
      X ((s * (cP c + 1) + cP c) * cX c + i)%nat = X (S s * (cP c + 1) * cX c + i)%nat)).
Proof. intros c f t0 tf X U Pv Dv Hd Ht Hn Ho. exact (ms_collocation c f t0 tf X U Pv Dv Hd Ht Hn Ho). Qed.
Print Assumptions C79_residual.

Theorem C79_cost : forall c mayer lag t0 tf X U (r F : nat -> R -> R), dims_ok c -> arity 1 mayer -> f_nin lag = 2%nat ->
  (forall s, (s < cS c)%nat -> is_poly (cP c) (r s) /\ derivative_of (F s) (r s) /\
     forall k, (k <= cP c)%nat ->
       f_val lag (block (cX c) X (s * (cP c + 1) + k) :: block (cU c) U s :: nil) 0%nat = r s (node_time c t0 tf s k)) ->
  ms_cost c mayer (Some lag) t0 tf X U =
  Some (term mayer (block (cX c) X 0 :: nil) + rsum (cS c) (fun s => F s (node_time c t0 tf s 0) - F s (node_time c t0 tf s (cP c)))).
Proof.
  intros c mayer lag t0 tf X U r F Hd Hm Hl H. unfold ms_cost.
  rewrite (quad_integral c Hd t0 tf _ r F).
  - destruct mayer as [f|]; [|reflexivity]. unfold sval, call. simpl length. cbn in Hm. rewrite Hm. reflexivity.
  - intros s Hs. destruct (H s Hs) as (A & B & C). repeat split; auto. intros k Hk.
    unfold sval, call. simpl length. rewrite Hl. cbn [Nat.eqb]. f_equal. exact (C k Hk).
Qed.
Print Assumptions C79_cost.
Theorem C79_parametric_cost : forall c mayer lag t0 tf X U Pv Dv (r F : nat -> R -> R), dims_ok c -> arity 3 mayer -> f_nin lag = 4%nat ->
  let pd := block (cNP c) Pv 0 :: block (cND c) Dv 0 :: nil in
  (forall s, (s < cS c)%nat -> is_poly (cP c) (r s) /\ derivative_of (F s) (r s) /\
     forall k, (k <= cP c)%nat ->
       f_val lag (block (cX c) X (s * (cP c + 1) + k) :: block (cU c) U s :: pd) 0%nat = r s (node_time c t0 tf s k)) ->
  ms_pcost c mayer (Some lag) t0 tf X U Pv Dv =
  Some (term mayer (block (cX c) X 0 :: pd) + rsum (cS c) (fun s => F s (node_time c t0 tf s 0) - F s (node_time c t0 tf s (cP c)))).
Proof.
  intros c mayer lag t0 tf X U Pv Dv r F Hd Hm Hl pd H. unfold ms_pcost.
  rewrite (quad_integral c Hd t0 tf _ r F).
  - destruct mayer as [f|]; [|reflexivity]. unfold sval, call. simpl length. cbn in Hm. rewrite Hm. reflexivity.
  - intros s Hs. destruct (H s Hs) as (A & B & C). repeat split; auto. intros k Hk.
    unfold sval, call. simpl length. rewrite Hl. cbn [Nat.eqb]. f_equal. exact (C k Hk).
Qed.
Print Assumptions C79_parametric_cost.

(** functions of the state: the values at all the nodes.  Functions of the control alone: one value per segment. *)
Theorem C79_function : forall c f X U Pv Dv, f_nin f = num_args c ->
  (exists v, ms_function c true f X U Pv Dv = Some v /\
     forall s l i, (s < cS c)%nat -> (l <= cP c)%nat -> (i < f_out f)%nat ->
       v ((s * (cP c + 1) + l) * f_out f + i)%nat = f_val f (inputs c X U Pv Dv (s * (cP c + 1) + l) s) i) /\
  (exists v, ms_function c false f X U Pv Dv = Some v /\
     forall s i, (s < cS c)%nat -> (i < f_out f)%nat -> v (s * f_out f + i)%nat = f_val f (inputs c X U Pv Dv 0 s) i).
Proof.
  intros c f X U Pv Dv H. split; [exact (ms_function_dep c f X U Pv Dv H)|]. unfold ms_function.
  rewrite (oloop_ext _ _ _ (fun j v => Some (vset v (j * f_out f) (f_out f) (f_val f (inputs c X U Pv Dv 0 j))))).
  - rewrite oloop_some. eexists. split; [reflexivity|]. intros s i Hs Hi. apply (vset_loop (cS c) (f_out f)); auto.
  - intros j v Hj. unfold call.
    replace (length (slice X 0 (cX c) :: slice U (j * cU c) (cU c) :: extra c Pv Dv)) with (num_args c).
    + rewrite H, Nat.eqb_refl. reflexivity.
    + unfold extra, num_args. destruct ((cNP c =? 0) && (cND c =? 0))%nat; reflexivity.
Qed.
Print Assumptions C79_function.

(** derivatives of functions of the state: segment by segment, no condition at the junctions.  Missing: the
    derivative with respect to time (the factor ts^n stays), and functions of the control (next theorem). *)
Theorem C79_derivative_partial : forall c f order t0 tf X U Pv Dv (d : nat -> nat -> nat -> R -> R), dims_ok c -> f_nin f = num_args c ->
  (forall s i, (s < cS c)%nat -> (i < f_out f)%nat -> derivatives (cP c) (d s i)) ->
  (forall s i j, (s < cS c)%nat -> (i < f_out f)%nat -> (j <= cP c)%nat ->
     f_val f (inputs c X U Pv Dv (s * (cP c + 1) + j) s) i = d s i 0%nat (node_time c t0 tf s j)) ->
  exists v, ms_differentiate c true f order X U Pv Dv = Some v /\
    forall s i l, (s < cS c)%nat -> (i < f_out f)%nat -> (l <= cP c)%nat ->
      v ((s * (cP c + 1) + l) * f_out f + i)%nat = (seg_len c t0 tf / 2) ^ order * d s i order (node_time c t0 tf s l).
Proof.
  intros c f order t0 tf X U Pv Dv d Hd Hn HD Hv. pose proof Hd as (HP & HS & HX). unfold ms_differentiate.
  destruct (ms_function_dep c f X U Pv Dv Hn) as (v & -> & E). eexists. split; [reflexivity|].
  intros s i l Hs Hi Hl. rewrite <- ts_len by auto.
  apply (ms_iter_diff c Hd t0 tf (f_out f) order d v HD); auto.
  intros s' i' j Hs' Hi' Hj'. rewrite E by auto. apply Hv; auto.
Qed.
Print Assumptions C79_derivative_partial.

(** functions of the control: only order 1, and the result is the difference of the controls of
    consecutive segments whatever the function *)
Theorem C79_control_difference : forall c f order X U Pv Dv, f_nin f = num_args c ->
  (order <> 1%nat -> ms_differentiate c false f order X U Pv Dv = None) /\
  exists v, ms_differentiate c false f 1 X U Pv Dv = Some v /\
    forall s i, (S s < cS c)%nat -> (i < cU c)%nat -> v (s * cU c + i)%nat = U (S s * cU c + i)%nat - U (s * cU c + i)%nat.
Proof.
  intros c f order X U Pv Dv H. unfold ms_differentiate. destruct (C79_function c f X U Pv Dv H) as [_ (w & -> & _)]. split.
  - intro Ho. apply Nat.eqb_neq in Ho. rewrite Ho. reflexivity.
  - eexists. split; [reflexivity|]. intros s i Hs Hi.
    rewrite (vset_loop (cS c - 1) (cU c) (fun i r => U ((i + 1) * cU c + r)%nat - U (i * cU c + r)%nat)) by lia.
    replace (s + 1)%nat with (S s) by lia. reflexivity.
Qed.
Print Assumptions C79_control_difference.

(** "the first-order result for a function of the control is the difference of its values": false *)
Theorem C79_control_function_refuted : exists c f X U Pv Dv v w, f_nin f = num_args c /\ cS c = 2%nat /\ f_out f = 1%nat /\
  (forall x x' r, f_val f (x :: r) = f_val f (x' :: r)) /\
  ms_function c false f X U Pv Dv = Some v /\ ms_differentiate c false f 1 X U Pv Dv = Some w /\ w 0%nat <> v 1%nat - v 0%nat.
Proof.
  set (c := mkCas 1 2 1 1 0 0). set (f := mkFun 2 1 (fun l _ => match l with _ :: (u :: nil) :: _ => 2 * u | _ => 0 end)).
  set (U := fun i : nat => INR i).
  destruct (proj2 (C79_function c f (fun _ => 0) U (fun _ => 0) (fun _ => 0) eq_refl)) as (v & Ev & Hv).
  destruct (proj2 (C79_control_difference c f 1 (fun _ => 0) U (fun _ => 0) (fun _ => 0) eq_refl)) as (w & Ew & Hw).
  exists c, f, (fun _ => 0), U, (fun _ => 0), (fun _ => 0), v, w.
  split; [reflexivity|]. split; [reflexivity|]. split; [reflexivity|]. split; [reflexivity|]. split; [exact Ev|]. split; [exact Ew|].
  assert (A := Hv 0%nat 0%nat ltac:(cbn; lia) ltac:(cbn; lia)). assert (B := Hv 1%nat 0%nat ltac:(cbn; lia) ltac:(cbn; lia)).
  assert (C := Hw 0%nat 0%nat ltac:(cbn; lia) ltac:(cbn; lia)). simpl in A, B, C. rewrite A, B, C. lra.
Qed.
Print Assumptions C79_control_function_refuted.

(** two segments, x' = u with u = 1 on the later and 3 on the earlier one, on [0, 4] from 0 *)
Definition ms2 : cas := mkCas 1 2 1 1 0 0.
Lemma ms2_time : node_time ms2 0 4 0 0 = 4 /\ node_time ms2 0 4 0 1 = 2 /\ node_time ms2 0 4 1 0 = 2 /\ node_time ms2 0 4 1 1 = 0.
Proof.
  destruct (seg_ends ms2 0 4 0) as [A B]; [cbn; lia|]. destruct (seg_ends ms2 0 4 1) as [C D]; [cbn; lia|].
  change (cP ms2) with 1%nat in *. rewrite A, B, C, D. unfold seg_len. simpl. repeat split; field.
Qed.
Definition ms2_f : cfun := mkFun 2 1 (fun l _ => match l with _ :: (u :: nil) :: _ => u | _ => 0 end).
Definition ms2_X (i : nat) : R := match i with 0 => 8 | 1 => 6 | 2 => 6 | _ => 0 end.
Definition ms2_U (i : nat) : R := match i with 0 => 1 | _ => 3 end.
Example C79_residual_ex : exists G, ms_dynamics ms2 ms2_f 0 4 ms2_X ms2_U (fun _ => 0) (fun _ => 0) = Some G /\ forall i, (i < 5)%nat -> G i = 0.
Proof.
  destruct (C79_residual ms2 ms2_f 0 4 ms2_X ms2_U (fun _ => 0) (fun _ => 0)) as (G & E & H).
  - repeat split; cbn; lia.
  - lra.
  - reflexivity.
  - reflexivity.
  - exists G. split; auto. apply H. destruct ms2_time as (T0 & T1 & T2 & T3). split.
    + intros s i Hs Hi. cbn in Hs, Hi. assert (i = 0)%nat as -> by lia. destruct s as [|[|]]; try lia.
      * exists (fun t => 1 * t + 4), (fun _ => 1). split; [exact (lin_poly 1 4)|]. split; [exact (lin_deriv 1 4)|]. split.
        -- intros j Hj. cbn in Hj. destruct j as [|[|]]; [rewrite T0|rewrite T1|lia]; simpl; ring.
        -- intros l Hl. cbn in Hl. destruct l as [|[|]]; try lia; simpl; ring.
      * exists (fun t => 3 * t + 0), (fun _ => 3). split; [exact (lin_poly 3 0)|]. split; [exact (lin_deriv 3 0)|]. split.
        -- intros j Hj. cbn in Hj. destruct j as [|[|]]; [rewrite T2|rewrite T3|lia]; simpl; ring.
        -- intros l Hl. cbn in Hl. destruct l as [|[|]]; try lia; simpl; ring.
    + intros s i Hs Hi. cbn in Hs, Hi. assert (i = 0)%nat as -> by lia. assert (s = 0)%nat as -> by lia. reflexivity.
Qed.
(** running cost x: 14 on the later segment, 6 on the earlier one *)
Example C79_cost_ex : ms_cost ms2 None (Some (fun_lin 1 0)) 0 4 ms2_X ms2_U = Some 20.
Proof.
  rewrite (C79_cost ms2 _ _ _ _ _ _ (fun s t => match s with 0 => 1 * t + 4 | _ => 3 * t + 0 end)
     (fun s t => match s with 0 => t * t / 2 + 4 * t | _ => 3 * (t * t / 2) + 0 * t end)).
  - destruct ms2_time as (T0 & T1 & T2 & T3). change (cS ms2) with 2%nat. change (cP ms2) with 1%nat. cbn -[INR cas_D node_time comp].
    rewrite T0, T1, T2, T3. simpl. f_equal. field.
  - repeat split; cbn; lia.
  - exact I.
  - reflexivity.
  - assert (Q : forall a b x, derivable_pt_lim (fun t => a * (t * t / 2) + b * t) x (a * x + b)).
    { intros a b x. apply derivable_pt_lim_ext with (plus_fct (mult_real_fct (a / 2) (mult_fct id id)) (mult_real_fct b id)).
      - intro y. unfold plus_fct, mult_real_fct, mult_fct, id. field.
      - replace (a * x + b) with (a / 2 * (1 * x + x * 1) + b * 1) by field.
        apply derivable_pt_lim_plus; apply derivable_pt_lim_scal; [apply (derivable_pt_lim_mult id id)|]; apply derivable_pt_lim_id. }
    destruct ms2_time as (T0 & T1 & T2 & T3).
    intros s Hs. cbn in Hs. destruct s as [|[|]]; try lia.
    + split; [exact (lin_poly 1 4)|]. split.
      * intro x. apply derivable_pt_lim_ext with (fun t => 1 * (t * t / 2) + 4 * t); [intro; field|apply Q].
      * intros k Hk. cbn in Hk. destruct k as [|[|]]; [rewrite T0|rewrite T1|lia]; simpl; ring.
    + split; [exact (lin_poly 3 0)|]. split.
      * intro x. apply Q.
      * intros k Hk. cbn in Hk. destruct k as [|[|]]; [rewrite T2|rewrite T3|lia]; simpl; ring.
Qed.
(** the derivative of x on the grid: (1, 1, 3, 3), ts = 1 *)
Example C79_derivative_ex : exists v, ms_differentiate ms2 true (fun_lin 1 0) 1 ms2_X ms2_U (fun _ => 0) (fun _ => 0) = Some v /\
  v 0%nat = 1 /\ v 1%nat = 1 /\ v 2%nat = 3 /\ v 3%nat = 3.
Proof.
  destruct ms2_time as (T0 & T1 & T2 & T3).
  destruct (C79_derivative_partial ms2 (fun_lin 1 0) 1 0 4 ms2_X ms2_U (fun _ => 0) (fun _ => 0)
    (fun s _ => match s with 0 => lin_d 1 4 | _ => lin_d 3 0 end)) as (v & E & H).
  - repeat split; cbn; lia.
  - reflexivity.
  - intros s i Hs Hi. destruct s; apply lin_derivs.
  - intros s i j Hs Hi Hj. cbn in Hs, Hi, Hj. destruct s as [|[|]]; try lia; destruct j as [|[|]]; try lia;
      [rewrite T0|rewrite T1|rewrite T2|rewrite T3]; simpl; ring.
  - exists v. split; auto. assert (L : seg_len ms2 0 4 / 2 = 1) by (unfold seg_len; simpl; field).
    assert (A := H 0%nat 0%nat 0%nat ltac:(cbn; lia) ltac:(cbn; lia) ltac:(cbn; lia)). assert (B := H 0%nat 0%nat 1%nat ltac:(cbn; lia) ltac:(cbn; lia) ltac:(cbn; lia)).
    assert (C := H 1%nat 0%nat 0%nat ltac:(cbn; lia) ltac:(cbn; lia) ltac:(cbn; lia)). assert (D := H 1%nat 0%nat 1%nat ltac:(cbn; lia) ltac:(cbn; lia) ltac:(cbn; lia)).
    rewrite L in A, B, C, D. simpl in A, B, C, D. repeat split; lra.
Qed.

(** * C80: SoftChebyshev *)

(** the soft constraint is ts times the quadrature of the squared residuals of Chebyshev::CollocateDynamics *)
Theorem C80_value : forall c f t0 tf X U Pv Dv, dims_ok c -> f_nin f = num_args c -> f_out f = cX c ->
  exists G, cas_dynamics c f t0 tf X U Pv Dv = Some G /\
  soft_dynamics c f t0 tf X U Pv Dv = Some (rsum (cS c) (fun s => seg_len c t0 tf / 2 * rsum (S (cP c)) (fun j => cas_w (cP c) j *
    rsum (cX c) (fun i => (G ((s * cP c + j) * cX c + i)%nat) ^ 2)))).
Proof.
  intros c f t0 tf X U Pv Dv (HP & HS & HX) Hn Ho. exists (dyn_res c f t0 tf X U Pv Dv). split; [apply cas_dynamics_some; auto|].
  rewrite soft_some by auto. rewrite ts_len by auto. reflexivity.
Qed.
Print Assumptions C80_value.

(** it is never negative and vanishes exactly when the trajectory satisfies the collocation conditions *)
Theorem C80_zero : forall c f t0 tf X U Pv Dv, dims_ok c -> t0 < tf -> f_nin f = num_args c -> f_out f = cX c ->
  exists v, soft_dynamics c f t0 tf X U Pv Dv = Some v /\ 0 <= v /\
  (v = 0 <->
   (forall s i, (s < cS c)%nat -> (i < cX c)%nat -> exists q q', is_poly (cP c) q /\ derivative_of q q' /\
      (forall j, (j <= cP c)%nat -> q (node_time c t0 tf s j) = X ((s * cP c + j) * cX c + i)%nat) /\
      (forall l, (l <= cP c)%nat -> (l < cP c \/ s = cS c - 1)%nat ->
         q' (node_time c t0 tf s l) = f_val f (inputs c X U Pv Dv (s * cP c + l) (s * cP c + l)) i))).
Proof.
  intros c f t0 tf X U Pv Dv Hd Ht Hn Ho. pose proof Hd as (HP & HS & HX). rewrite soft_some by auto. eexists. split; [reflexivity|].
  destruct (soft_zero c t0 tf (dyn_res c f t0 tf X U Pv Dv) Hd Ht) as [A B]. split; [exact A|].
  etransitivity; [exact B|]. exact (dyn_collocation c f t0 tf X U Pv Dv Hd Ht).
Qed.
Print Assumptions C80_zero.
Example C80_ex : soft_dynamics cas1 (fun_lin 0 1) 0 2 (fun i => match i with 0 => 5 | _ => 3 end) (fun _ => 0) (fun _ => 0) (fun _ => 0) = Some 0 /\
  exists v, soft_dynamics cas1 (fun_lin 1 0) 0 2 (fun i => match i with 0 => 5 | _ => 3 end) (fun _ => 0) (fun _ => 0) (fun _ => 0) = Some v /\ 0 < v.
Proof.
  set (X := fun i : nat => match i with 0%nat => 5 | _ => 3 end). split.
  - destruct (C80_value cas1 (fun_lin 0 1) 0 2 X (fun _ => 0) (fun _ => 0) (fun _ => 0) cas1_ok eq_refl eq_refl) as (G & E & ->).
    destruct C77_residual_ex as (G' & E' & Z). fold X in E'. assert (E2 := eq_trans (eq_sym E) E'). inversion E2. subst G'. f_equal.
    change (cS cas1) with 1%nat. change (cP cas1) with 1%nat. change (cX cas1) with 1%nat. cbn -[INR cas_D node_time comp].
    rewrite !Z by lia. ring.
  - destruct (C80_zero cas1 (fun_lin 1 0) 0 2 X (fun _ => 0) (fun _ => 0) (fun _ => 0) cas1_ok ltac:(lra) eq_refl eq_refl) as (v & E & H0 & Hz).
    exists v. split; auto. destruct (Rle_lt_or_eq_dec _ _ H0) as [|E0]; auto. exfalso. symmetry in E0.
    pose proof (proj1 Hz E0) as K.
    destruct (C77_residual cas1 (fun_lin 1 0) 0 2 X (fun _ => 0) (fun _ => 0) (fun _ => 0) cas1_ok ltac:(lra) eq_refl eq_refl) as (G & EG & HG).
    pose proof (proj2 HG K) as K1. clear K. rename K1 into K. 
    assert (A := K 0%nat ltac:(cbn; lia)). rewrite cas_dynamics_some in EG by reflexivity. inversion EG. subst G. clear EG HG Hz K.
    unfold dyn_res in A.
    pose proof (comp_mul cas1 1 X 0 0 0 ltac:(cbn; lia) ltac:(cbn; lia) ltac:(cbn; lia) ltac:(cbn; lia) ltac:(lia)) as K0.
    simpl Nat.add in K0. simpl Nat.mul in K0. change (cX cas1) with 1%nat in *. change (cas_N cas1 * 1)%nat with 2%nat in *. rewrite K0 in A.
    change (cP cas1) with 1%nat in *. cbn -[INR cas_D node_time comp] in A. rewrite !cas_D1 in A by lia.
    unfold comp, dyn_rhs, cas_ts, vset, in_seg in A. simpl in A. unfold X in A. lra.
Qed.
