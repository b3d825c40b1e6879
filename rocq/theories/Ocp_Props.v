(** Properties C28-C33, C35 of the transcription of optimal control problems. *)
Require Import Arith ZArith QArith List Bool Lia Reals Lra.
From Verif Require Import Scal RSum PolyR Poly_Spec Blk Sparse Sparse_Proofs Cheb_Model Cheb_Proofs
  Ocp_Model Ocp_Spec Ocp_Proofs Ocp_Cost_Proofs Ocp_Sparse_Model Ocp_Sparse_Proofs Ocp_Stack_Proofs Ocp_Cor_Proofs Ocp_Example.
Local Open Scope R_scope.

(** C28: the time grid runs backwards from t_stop to t_start, strictly monotone; every segment
    boundary is hit by exactly one node; each segment is an affine image of the Chebyshev nodes. *)
Theorem C28_time_grid : forall o, chebyshev_ocp o -> t_start o < t_stop o ->
  let last := (PO o * SG o)%nat in
  let len := (t_stop o - t_start o) / INR (SG o) in
  time_nodes o 0%nat = t_stop o /\ time_nodes o last = t_start o /\
  (forall k, (k < last)%nat -> time_nodes o (S k) < time_nodes o k) /\
  (forall s, (s <= SG o)%nat -> exists k, (k <= last)%nat /\ time_nodes o k = t_stop o - INR s * len /\
     forall k', (k' <= last)%nat -> time_nodes o k' = t_stop o - INR s * len -> k' = k) /\
  (forall s l, (s < SG o)%nat -> (l <= PO o)%nat ->
     time_nodes o (s * PO o + l)%nat = (t_stop o - INR s * len - len / 2) + len / 2 * cheb_nodes (PO o) l).
Proof.
  intros o Hch Ht last len. pose proof Hch as (HP & HS & _). subst last len.
  assert (Hfirst := time_first o Hch). assert (Hlast := time_last o Hch).
  assert (Hb : forall s, (s <= SG o)%nat -> time_nodes o (s * PO o)%nat = t_stop o - INR s * ((t_stop o - t_start o) / INR (SG o))).
  { intros s Hs. destruct (Nat.eq_dec s (SG o)) as [->|Hne].
    - rewrite (Nat.mul_comm (SG o)), Hlast. field. apply not_0_INR. lia.
    - replace (s * PO o)%nat with (s * PO o + 0)%nat by lia. rewrite (time_nodes_eq o Hch) by lia.
      rewrite nodes_first. unfold tlen. field. apply not_0_INR. lia. }
  repeat split; auto.
  - intros k Hk. apply (time_mono o Hch Ht); unfold NUM_NODES; lia.
  - intros s Hs. exists (s * PO o)%nat. split; [nia|]. split; [apply Hb; auto|].
    intros k' Hk' E. rewrite <- Hb in E by auto. assert ((s * PO o < NUM_NODES o)%nat) by (unfold NUM_NODES; nia).
    destruct (Nat.lt_total k' (s * PO o)) as [L|[L|L]]; auto; exfalso.
    + pose proof (time_mono o Hch Ht k' (s * PO o) L ltac:(auto)). lra.
    + pose proof (time_mono o Hch Ht (s * PO o) k' L ltac:(unfold NUM_NODES; lia)). lra.
  - intros s l Hs Hl. rewrite (time_nodes_eq o Hch) by auto. reflexivity.
Qed.
Print Assumptions C28_time_grid.
Example C28_example : time_nodes ex_ocp 2%nat = 2 /\ time_nodes ex_ocp 3%nat = 3 / 2.
Proof.
  destruct (C28_time_grid ex_ocp ex_cheb ex_time) as (_ & _ & _ & _ & H).
  pose proof (H 1%nat 0%nat ltac:(cbn; lia) ltac:(cbn; lia)) as H0. pose proof (H 1%nat 1%nat ltac:(cbn; lia) ltac:(cbn; lia)) as H1.
  destruct cheb2_nodes as (E0 & E1 & _).
  change (cheb_nodes (PO ex_ocp)) with (cheb_nodes 2) in *. rewrite E0 in H0. rewrite E1 in H1.
  change (1 * PO ex_ocp + 0)%nat with 2%nat in H0. change (1 * PO ex_ocp + 1)%nat with 3%nat in H1.
  cbn [t_start t_stop SG ex_ocp INR] in H0, H1. split; [rewrite H0|rewrite H1]; field.
Qed.

(** C29: the equality constraints vanish exactly when on every segment the interpolating polynomial
    of the states satisfies the dynamics at every collocation point except the one shared with the
    next segment (which is collocated there). *)
Theorem C29_collocation : forall o, chebyshev_ocp o -> t_start o < t_stop o -> forall var,
  (forall i, (i < NUM_EQ o)%nat -> equalities o var i = 0) <->
  (forall s c, (s < SG o)%nat -> (c < NX o)%nat ->
     exists q q', is_poly (PO o) q /\ derivative_of q q' /\
       (forall j, (j <= PO o)%nat -> q (time_nodes o (s * PO o + j)%nat) = state o var (s * PO o + j)%nat c) /\
       (forall l, (l <= PO o)%nat -> (l < PO o \/ s = SG o - 1)%nat ->
          q' (time_nodes o (s * PO o + l)%nat) =
          o_dyn o (state o var (s * PO o + l)) (control o var (s * PO o + l)) (params o var)
            (time_nodes o (s * PO o + l)%nat) c)).
Proof. intros o Hch Ht var. apply collocation; auto. Qed.
Print Assumptions C29_collocation.
(** the rows of a segment only involve the states of that segment (its two boundary states
    included), the control of the node and the parameters *)
Theorem C29_coupling : forall o, reads_node o (o_dyn o) (NX o) -> (1 <= PO o)%nat -> forall var var' s l c,
  (s < SG o)%nat -> (l <= PO o)%nat -> (l < PO o \/ s = SG o - 1)%nat -> (c < NX o)%nat ->
  (forall j i, (j <= PO o)%nat -> (i < NX o)%nat -> state o var (s * PO o + j)%nat i = state o var' (s * PO o + j)%nat i) ->
  (forall i, (i < NU o)%nat -> control o var (s * PO o + l)%nat i = control o var' (s * PO o + l)%nat i) ->
  (forall i, (i < NP o)%nat -> params o var i = params o var' i) ->
  equalities o var (ix o (s * PO o + l) c) = equalities o var' (ix o (s * PO o + l) c).
Proof. exact equalities_local. Qed.
Print Assumptions C29_coupling.
Example C29_example : forall i, (i < 10)%nat -> equalities ex_ocp ex_traj i = 0.
Proof.
  apply (proj2 (C29_collocation ex_ocp ex_cheb ex_time ex_traj)).
  intros s c Hs Hc. cbn in Hs, Hc. assert (c = 0 \/ c = 1)%nat as [->| ->] by lia.
  - exists (fun t => t), (fun _ => 1). split.
    { exists (fun k => if (k =? 1)%nat then 1 else 0). intro x. cbn [PO ex_ocp]. rewrite !rsum_S, rsum_0. simpl. ring. }
    split; [intro; apply derivable_pt_lim_id|]. split.
    + intros j Hj. cbn in Hj. unfold state, ix, ex_traj. cbn [PO NX ex_ocp].
      assert (s = 0 \/ s = 1)%nat as [->| ->] by lia; assert (j = 0 \/ j = 1 \/ j = 2)%nat as [->|[->| ->]] by lia; reflexivity.
    + intros l Hl _. cbn in Hl. cbn [o_dyn ex_ocp]. unfold state, ix, ex_traj. cbn [PO NX ex_ocp].
      assert (s = 0 \/ s = 1)%nat as [->| ->] by lia; assert (l = 0 \/ l = 1 \/ l = 2)%nat as [->|[->| ->]] by lia; reflexivity.
  - exists (fun t => 1), (fun _ => 0). split.
    { exists (fun k => if (k =? 0)%nat then 1 else 0). intro x. cbn [PO ex_ocp]. rewrite !rsum_S, rsum_0. simpl. ring. }
    split; [intro; apply derivable_pt_lim_const|]. split.
    + intros j Hj. cbn in Hj. unfold state, ix, ex_traj. cbn [PO NX ex_ocp].
      assert (s = 0 \/ s = 1)%nat as [->| ->] by lia; assert (j = 0 \/ j = 1 \/ j = 2)%nat as [->|[->| ->]] by lia; reflexivity.
    + intros l Hl _. cbn in Hl. cbn [o_dyn ex_ocp]. unfold state, control, params, ix, iu, ip, ex_traj. cbn [PO SG NX NU ex_ocp].
      assert (s = 0 \/ s = 1)%nat as [->| ->] by lia; assert (l = 0 \/ l = 1 \/ l = 2)%nat as [->|[->| ->]] by lia; cbn; ring.
Qed.

(** C30: the dense equality Jacobian is the derivative of the equality constraints in every
    direction, and the values returned with it are those of the plain evaluation *)
Theorem C30_equality_jacobian : forall o, chebyshev_ocp o ->
  jacobian_of o (NX o) (o_dyn o) (o_dyn_jac o) -> forall var,
  let (con, J) := equalities_linearised o var in
  forall i, (i < NUM_EQ o)%nat ->
    con i = equalities o var i /\
    forall v, dir_deriv (fun x => equalities o x i) var v (rsum (VAR o) (fun j => J i j * v j)).
Proof.
  intros o Hch HJ var. pose proof (eq_lin_values o var) as HV. pose proof (equalities_dir o Hch HJ var) as HD.
  unfold dense_jac in HD. destruct (equalities_linearised o var) as [con J]. cbn [fst snd] in *.
  intros i Hi. split; [apply HV; auto|intro v; apply HD; auto].
Qed.
Print Assumptions C30_equality_jacobian.
(** the same for the path constraints *)
Theorem C30_inequality_jacobian : forall o,
  jacobian_of o (NG o) (o_ine o) (o_ine_jac o) -> forall var,
  let (con, J) := inequalities_linearised o var in
  forall i, (i < NUM_INEQ o)%nat ->
    con i = inequalities o var i /\
    forall v, dir_deriv (fun x => inequalities o x i) var v (rsum (VAR o) (fun j => J i j * v j)).
Proof.
  intros o HJ var. pose proof (ineq_lin_values o var) as HV. pose proof (inequalities_dir o HJ var) as HD.
  unfold dense_ijac in HD. destruct (inequalities_linearised o var) as [con J]. cbn [fst snd] in *.
  intros i Hi. split; [apply HV; auto|intro v; apply HD; auto].
Qed.
Print Assumptions C30_inequality_jacobian.
Example C30_example :
  chebyshev_ocp ex_ocp /\ jacobian_of ex_ocp (NX ex_ocp) (o_dyn ex_ocp) (o_dyn_jac ex_ocp) /\
  jacobian_of ex_ocp (NG ex_ocp) (o_ine ex_ocp) (o_ine_jac ex_ocp).
Proof. exact (conj ex_cheb (conj ex_dyn_jac ex_ine_jac)). Qed.

(** C31: after any sequence of evaluations the sparse equality Jacobian is the one of a fresh
    assembly; the reserved numbers of entries per column are exactly used; its entries differ from
    the dense Jacobian by at most the pruning threshold 2^-52 10^-12, and not at all for orders up to
    10^27 (beyond, a non-zero diagonal entry of the differentiation matrix may be pruned). *)
Theorem C31_sparse_jacobian : forall o, chebyshev_ocp o -> forall points var,
  exists M0 M F,
    run (eq_lin_sparse o) points (sp_empty (NUM_EQ o) (VAR o)) = Some M0 /\
    eq_lin_sparse o var M0 = Some M /\
    eq_asm o var (sp_empty (NUM_EQ o) (VAR o)) = Some F /\
    (forall j, (j < VAR o)%nat -> ncol M j = eq_est o j /\ slack M j = 0%nat) /\
    (forall i j, (i < NUM_EQ o)%nat -> (j < VAR o)%nat ->
       pat M i j = pat F i j /\ coeff M i j = coeff F i j /\
       Rabs (coeff M i j - snd (equalities_linearised o var) i j) <= @prune_thr R R_scalar /\
       ((Z.of_nat (PO o) <= 10 ^ 27)%Z -> coeff M i j = snd (equalities_linearised o var) i j)).
Proof.
  intros o Hch points var. pose proof Hch as (HP & HS & HX & _).
  destruct (eq_run o Hch points (sp_empty (VARX o) (VAR o)) (or_introl eq_refl)) as (M0 & E0 & H0).
  destruct (eq_lin_ok o Hch var M0 H0) as (M & E & Ok & J). destruct (eq_asm_ok o Hch var) as (F & EF & OkF & JF).
  exists M0, M, F. split; [exact E0|]. split; [exact E|]. split; [exact EF|]. split.
  - intros j Hj. destruct Ok as (Hr & Hc & Hp & Hs & _). split; [|auto]. unfold ncol. rewrite Hr. rewrite <- eq_count by auto.
    apply cnt_ext. intros. apply Hp; auto.
  - intros i j Hi Hj. split; [destruct Ok as (_ & _ & Hp & _); destruct OkF as (_ & _ & HpF & _); rewrite Hp, HpF by auto; reflexivity|].
    pose proof (eq_coeff_gen o Hch M var Ok J i j Hi Hj) as G. pose proof (eq_coeff_gen o Hch F var OkF JF i j Hi Hj) as GF.
    split; [rewrite G, GF; reflexivity|]. split.
    + rewrite G. fold (dense_jac o var). pose proof (dg_bound o (i / NX o)). pose proof (dg_bound o 0).
      match goal with |- Rabs (?a + ?b - ?a) <= _ => replace (a + b - a) with b by ring end.
      destruct (i =? j)%nat; [auto|]. rewrite Rabs_R0. pose proof (Rabs_pos (dg o 0 - comp_DM o 0%nat 0%nat)). lra.
    + intro Hps. apply (eq_coeff o Hch (prune_safe_order o Hch Hps) M var Ok J); auto.
Qed.
Print Assumptions C31_sparse_jacobian.
Example C31_example : chebyshev_ocp ex_ocp /\ (Z.of_nat (PO ex_ocp) <= 10 ^ 27)%Z.
Proof. split; [exact ex_cheb|vm_compute; discriminate]. Qed.

(** C32, what holds: first assembly for every number of constraints, updates when NG = NX (or no
    path constraints).  Missing: updates with NG <> NX, for which it is false. *)
Theorem C32_inequality_update_partial : forall o, (1 <= NX o)%nat -> forall points junk var,
  NG o = NX o \/ NG o = 0%nat \/ points = nil ->
  exists M0 M,
    run (fun q => ineq_lin_sparse o (fst q) (snd q)) points (sp_empty (NUM_INEQ o) (VAR o)) = Some M0 /\
    ineq_lin_sparse o junk var M0 = Some M /\
    (forall j, (j < VAR o)%nat -> ncol M j = ineq_est o j /\ slack M j = 0%nat) /\
    (forall i j, (i < NUM_INEQ o)%nat -> (j < VAR o)%nat ->
       coeff M i j = snd (inequalities_linearised o var) i j).
Proof.
  intros o HX points junk var Hor.
  assert (G : forall M, ineq_ok o M -> forall j, (j < VAR o)%nat -> ncol M j = ineq_est o j /\ slack M j = 0%nat).
  { intros M (Hr & Hc & Hp & Hs) j Hj. split; [|auto]. unfold ncol. rewrite Hr. rewrite <- ineq_count by auto. apply cnt_ext. intros; apply Hp; auto. }
  assert (H : exists M0, run (fun q => ineq_lin_sparse o (fst q) (snd q)) points (sp_empty (NUM_INEQ o) (VAR o)) = Some M0 /\
    (M0 = sp_empty (NUM_INEQ o) (VAR o) \/ (ineq_ok o M0 /\ (NG o = NX o \/ NG o = 0)%nat))).
  { destruct (Nat.eq_dec (NG o) (NX o)) as [e|e]; [|destruct (Nat.eq_dec (NG o) 0) as [e0|e0]].
    - destruct (ineq_run o HX (or_introl e) points _ (or_introl eq_refl)) as (M0 & E & [H|H]); exists M0; auto.
    - destruct (ineq_run o HX (or_intror e0) points _ (or_introl eq_refl)) as (M0 & E & [H|H]); exists M0; auto.
    - destruct Hor as [Hor|[Hor|Hor]]; [contradiction|contradiction|subst points]. eexists. split; [reflexivity|auto]. }
  destruct H as (M0 & E0 & H0). destruct (ineq_lin_ok o HX junk var M0 H0) as (M & E & Ok & J).
  exists M0, M. repeat split; auto; try (apply G; auto). intros i j Hi Hj. apply (ineq_coeff o M var Ok J); auto.
Qed.
Print Assumptions C32_inequality_update_partial.

Local Existing Instance Q_scalar.
(** three states, two linear path constraints, order 1, one segment *)
Definition q_ocp (ng : nat) : ocp Q := {|
  NX := 3; NU := 0; NP := 0; NG := ng; PO := 1; SG := 1;
  m_D := fun i j => match j with O => 1#2 | _ => -(1#2) end; m_nodes := fun i => match i with O => 1 | _ => -(1) end;
  m_w := fun _ => 1; t_start := 0; t_stop := 2;
  o_dyn := fun x u p t c => x c; o_dyn_jac := fun x u p t c j => if (c =? j)%nat then 1 else 0; o_dyn_hes := fun _ _ _ _ _ _ _ => 0;
  o_ine := fun x u p t c => (x 0%nat + 2 * x 1%nat + 3 * x 2%nat + inject_Z (Z.of_nat (3 * c)) * (x 0%nat + x 1%nat + x 2%nat))%Q;
  o_ine_jac := fun x u p t c j => inject_Z (Z.of_nat (1 + j + 3 * c)); o_ine_hes := fun _ _ _ _ _ _ _ => 0;
  o_lag := None; o_may := None |}%Q.
(** a second evaluation at the very same point no longer returns the Jacobian; with more
    constraints than states it fails *)
Theorem C32_inequality_update_refuted :
  (exists (o : ocp Q) var i j, (i < NUM_INEQ o)%nat /\ (j < VAR o)%nat /\ forall junk, exists M1 M2,
     ineq_lin_sparse o junk var (sp_empty (NUM_INEQ o) (VAR o)) = Some M1 /\
     ineq_lin_sparse o junk var M1 = Some M2 /\
     Qeq (coeff M1 i j) (snd (inequalities_linearised o var) i j) /\
     ~ Qeq (coeff M2 i j) (snd (inequalities_linearised o var) i j)) /\
  (exists (o : ocp Q) var, forall junk, exists M1,
     ineq_lin_sparse o junk var (sp_empty (NUM_INEQ o) (VAR o)) = Some M1 /\
     ineq_lin_sparse o junk var M1 = None).
Proof.
  split.
  - exists (q_ocp 2), (fun _ => 0%Q), 1%nat, 1%nat. split; [vm_compute; lia|]. split; [vm_compute; lia|]. intro junk.
    assert (H : match ineq_lin_sparse (q_ocp 2) junk (fun _ => 0%Q) (sp_empty (NUM_INEQ (q_ocp 2)) (VAR (q_ocp 2))) with
      | Some M1 => match ineq_lin_sparse (q_ocp 2) junk (fun _ => 0%Q) M1 with Some M2 => Some (coeff M1 1 1, coeff M2 1 1) | None => None end
      | None => None end = Some (5, 2)%Q) by (vm_compute; reflexivity).
    destruct (ineq_lin_sparse (q_ocp 2) junk (fun _ => 0%Q) (sp_empty (NUM_INEQ (q_ocp 2)) (VAR (q_ocp 2)))) as [M1|]; [|discriminate].
    exists M1. destruct (ineq_lin_sparse (q_ocp 2) junk (fun _ => 0%Q) M1) as [M2|]; [|discriminate].
    exists M2. injection H as E1 E2. split; [reflexivity|]. split; [reflexivity|]. rewrite E1, E2.
    split; [vm_compute; reflexivity|]. vm_compute. discriminate.
  - exists (q_ocp 4), (fun _ => 0%Q). intro junk.
    assert (H : match ineq_lin_sparse (q_ocp 4) junk (fun _ => 0%Q) (sp_empty (NUM_INEQ (q_ocp 4)) (VAR (q_ocp 4))) with
      | Some M1 => match ineq_lin_sparse (q_ocp 4) junk (fun _ => 0%Q) M1 with Some _ => false | None => true end
      | None => false end = true) by (vm_compute; reflexivity).
    destruct (ineq_lin_sparse (q_ocp 4) junk (fun _ => 0%Q) (sp_empty (NUM_INEQ (q_ocp 4)) (VAR (q_ocp 4)))) as [M1|]; [|discriminate].
    exists M1. destruct (ineq_lin_sparse (q_ocp 4) junk (fun _ => 0%Q) M1) as [M2|]; [discriminate|]. auto.
Qed.
Print Assumptions C32_inequality_update_refuted.
Example C32_example : NG ex_ocp = NX ex_ocp /\ (1 <= NX ex_ocp)%nat.
Proof. cbn. lia. Qed.

(** C33: value.  Cost = quadrature of the running cost on every segment + terminal cost; on
    segments where the running cost samples a polynomial of degree <= PO the quadrature is the
    exact integral. *)
Theorem C33_cost_value : forall o, chebyshev_ocp o -> forall var,
  cost o var =
    rsum (SG o) (fun s => (t_stop o - t_start o) / (2 * INR (SG o)) *
        rsum (S (PO o)) (fun k => cheb_int_weights (PO o) k * running_cost o var (s * PO o + k)))
    + terminal_cost o var /\
  forall r F, (forall s, (s < SG o)%nat -> is_poly (PO o) (r s) /\ derivative_of (F s) (r s) /\
      forall k, (k <= PO o)%nat -> r s (time_nodes o (s * PO o + k)%nat) = running_cost o var (s * PO o + k)) ->
    cost o var = rsum (SG o) (fun s => F s (time_nodes o (s * PO o)%nat) - F s (time_nodes o (s * PO o + PO o)%nat))
                 + terminal_cost o var.
Proof.
  intros o Hch var. pose proof Hch as (HP & HS & HX & HD & Hn & Hw). split; [|apply cost_integral; auto].
  rewrite cost_formula. f_equal. apply rsum_ext. intros s Hs. f_equal.
  - rewrite t_scale_eq by auto. unfold tlen. field. apply not_0_INR. lia.
  - apply rsum_ext. intros k Hk. rewrite Hw by lia. reflexivity.
Qed.
Print Assumptions C33_cost_value.
(** gradient, what holds: it is the derivative of the cost if the problem defines a running cost, or
    if the stored derivatives of the previous call are zero.  Missing: no running cost and a
    previous call, for which it is false. *)
Theorem C33_cost_gradient_partial : forall o, cost_gradients_exact o -> forall ad var,
  o_lag o <> None \/ (forall i, snd ad i = 0) ->
  let '(c, g, _) := cost_gradient o ad var in
  c = cost o var /\ forall d, dir_deriv (cost o) var d (rsum (VAR o) (fun j => g j * d j)).
Proof.
  intros o HC ad var Had. pose proof (cost_gradient_value o ad var Had) as HV. pose proof (cost_gradient_deriv o HC ad var Had) as HD.
  destruct (cost_gradient o ad var) as [[c g] ad1]. cbn [fst snd] in *. auto.
Qed.
Print Assumptions C33_cost_gradient_partial.

(** one state, terminal cost x, no running cost *)
Definition mayer_only : ocp R := {|
  NX := 1%nat; NU := 0%nat; NP := 0%nat; NG := 0%nat; PO := 1%nat; SG := 1%nat;
  m_D := cheb_D 1; m_nodes := cheb_nodes 1; m_w := cheb_int_weights 1; t_start := 0; t_stop := 1;
  o_dyn := fun x _ _ _ => x; o_dyn_jac := fun _ _ _ _ _ _ => 1; o_dyn_hes := fun _ _ _ _ _ _ _ => 0;
  o_ine := fun _ _ _ _ _ => 0; o_ine_jac := fun _ _ _ _ _ _ => 0; o_ine_hes := fun _ _ _ _ _ _ _ => 0;
  o_lag := None;
  o_may := Some ((fun x _ _ _ => x 0%nat), (fun _ _ _ _ i => match i with O => 1 | _ => 0 end), (fun _ _ _ _ _ _ => 0)) |}.
(** the gradient of the second call is wrong: it integrates the derivatives of the terminal cost
    left over from the first call *)
Theorem C33_cost_gradient_refuted : exists o var d, chebyshev_ocp o /\ cost_gradients_exact o /\
  let '(_, g1, ad1) := cost_gradient o (0, fun _ => 0) var in
  let '(_, g2, _) := cost_gradient o ad1 var in
  dir_deriv (cost o) var d (rsum (VAR o) (fun j => g1 j * d j)) /\
  ~ dir_deriv (cost o) var d (rsum (VAR o) (fun j => g2 j * d j)).
Proof.
  exists mayer_only, (fun _ => 0), (fun i => match i with O => 1 | _ => 0 end).
  assert (HC : chebyshev_ocp mayer_only) by (repeat split; try reflexivity; cbn; lia).
  assert (HG : cost_gradients_exact mayer_only).
  { split; [exact I|]. intros x u p t dx du dp. cbn [mayer_only o_may get_val get_grad fst snd].
    match goal with |- derivable_pt_lim _ _ ?a => replace a with (dx 0%nat) by (unfold node_dot; cbn; ring) end. apply line_d. }
  split; [exact HC|]. split; [exact HG|].
  pose proof (cost_gradient_deriv mayer_only HG (0, fun _ => 0) (fun _ => 0) (or_intror (fun i => eq_refl)) (fun i => match i with O => 1 | _ => 0 end)) as H1.
  destruct (cost_gradient mayer_only (0, fun _ => 0) (fun _ => 0)) as [[c1 g1] ad1] eqn:E1. cbn [fst snd] in H1.
  assert (A : snd ad1 = (fun i => match i with O => 1 | _ => 0 end)).
  { change ad1 with (snd (c1, g1, ad1)). rewrite <- E1. reflexivity. }
  assert (G1 : g1 0%nat = 1 /\ g1 1%nat = 0).
  { change g1 with (snd (fst (c1, g1, ad1))). rewrite <- E1. cbv -[Rplus Rmult Rminus Rdiv Ropp Rinv IZR cheb_int_weights]. split; ring. }
  destruct ad1 as [a1 b1]. cbn [snd] in A. subst b1.
  assert (G2 : snd (fst (cost_gradient mayer_only (a1, fun i => match i with O => 1 | _ => 0 end) (fun _ => 0))) 0%nat = 1 + 1 / 2 * cheb_int_weights 1 0%nat).
  { cbv -[Rplus Rmult Rminus Rdiv Ropp Rinv IZR cheb_int_weights]. set (w := cheb_int_weights 1). field. }
  match goal with |- context [cost_gradient mayer_only ?a ?v] =>
    change (cost_gradient mayer_only (a1, fun i => match i with O => 1 | _ => 0 end) (fun _ => 0)) with (cost_gradient mayer_only a v) in G2;
    destruct (cost_gradient mayer_only a v) as [[c2 g2] ad2] end. cbn [fst snd] in G2.
  split; [exact H1|]. intro H2. pose proof (uniqueness_limite _ _ _ _ H1 H2) as U.
  change (VAR mayer_only) with 2%nat in U. rewrite !rsum_S, !rsum_0 in U. destruct G1 as [G1 _]. rewrite G1, G2 in U.
  pose proof (cc_positive 1 0 ltac:(lia) ltac:(lia)). lra.
Qed.
Print Assumptions C33_cost_gradient_refuted.
(** the example trajectory has running cost t^2 and terminal cost 1: total 26/3 + 1 *)
Example C33_example : cost ex_ocp ex_traj = 26 / 3 + 1.
Proof.
  rewrite (proj2 (C33_cost_value ex_ocp ex_cheb ex_traj) (fun _ t => t * t) (fun _ t => / 3 * (t * (t * t)))).
  - change (SG ex_ocp) with 2%nat. rewrite !rsum_S, rsum_0.
    destruct (C28_time_grid ex_ocp ex_cheb ex_time) as (H0 & H4 & _).
    change (0 * PO ex_ocp)%nat with 0%nat. change (0 + PO ex_ocp)%nat with 2%nat.
    change (1 * PO ex_ocp)%nat with 2%nat. change (2 + PO ex_ocp)%nat with 4%nat. change (PO ex_ocp * 2)%nat with 4%nat in H4.
    change (PO ex_ocp * SG ex_ocp)%nat with 4%nat in H4.
    rewrite H0, H4. unfold terminal_cost. cbn [o_may ex_ocp ex_may get_val fst snd t_start t_stop].
    unfold state, ix, ex_traj. change (NX ex_ocp) with 2%nat. change (0 * 2 + 1 <? 10)%nat with true. change ((0 * 2 + 1) mod 2 =? 0)%nat with false. cbv iota. field.
  - intros s Hs. split; [|split].
    + exists (fun k => if (k =? 2)%nat then 1 else 0). intro x. change (PO ex_ocp) with 2%nat. rewrite !rsum_S, rsum_0. simpl. ring.
    + intro x. replace (x * x) with (/ 3 * (1 * (x * x) + x * (1 * x + x * 1))) by field.
      apply derivable_pt_lim_scal. apply (derivable_pt_lim_mult (fun x => x) (fun x => x * x)); [apply derivable_pt_lim_id|].
      apply (derivable_pt_lim_mult (fun x => x) (fun x => x)); apply derivable_pt_lim_id.
    + intros k Hk. change (SG ex_ocp) with 2%nat in Hs. change (PO ex_ocp) with 2%nat in Hk. unfold running_cost. cbn [o_lag ex_ocp ex_lag get_val fst snd].
      unfold state, control, ix, iu, ex_traj. change (PO ex_ocp) with 2%nat. change (SG ex_ocp) with 2%nat. change (NX ex_ocp) with 2%nat. change (NU ex_ocp) with 1%nat.
      generalize (time_nodes ex_ocp). intro tn.
      assert (s = 0 \/ s = 1)%nat as [->| ->] by lia; assert (k = 0 \/ k = 1 \/ k = 2)%nat as [->|[->| ->]] by lia; cbn; ring.
Qed.

(** C35: gradient of the Lagrangian, dense.  It is the derivative of the Lagrangian
    cost + lam . constraints + lam_bounds . variables. *)
Theorem C35_dense : forall o, chebyshev_ocp o ->
  jacobian_of o (NX o) (o_dyn o) (o_dyn_jac o) -> jacobian_of o (NG o) (o_ine o) (o_ine_jac o) ->
  cost_gradients_exact o -> forall ad var lam, o_lag o <> None \/ (forall i, snd ad i = 0) ->
  let '(c, lg, g, con, J, _) := lagrangian_gradient o ad var lam in
  (forall d, dir_deriv (fun x => lagrangian o x lam) var d (rsum (VAR o) (fun j => lg j * d j))) /\
  (forall d, dir_deriv (cost o) var d (rsum (VAR o) (fun j => g j * d j))) /\
  c = cost o var /\
  forall i, (i < NUM_EQ o + NUM_INEQ o)%nat -> con i = constraints o var i /\
    forall d, dir_deriv (fun x => constraints o x i) var d (rsum (VAR o) (fun j => J i j * d j)).
Proof.
  intros o Hch HJ HI HC ad var lam Had.
  pose proof (cost_gradient_value o ad var Had) as HV. pose proof (cost_gradient_deriv o HC ad var Had) as HD.
  pose proof (constraints_dir o Hch HJ HI var) as HK. pose proof (constraints_values o var) as HL.
  pose proof (lag_dir o Hch HJ HI HC ad Had var lam) as HG.
  unfold lagrangian_gradient. destruct (cost_gradient o ad var) as [[c g] ad1]. destruct (constraints_linearised o var) as [con J]. cbn [fst snd] in *.
  split; [intro d; apply HG; intros; reflexivity|]. split; [exact HD|]. split; [exact HV|]. intros i Hi. split; [auto|intro d; apply HK; auto].
Qed.
Print Assumptions C35_dense.
(** sparse, what holds: after any sequence of calls the returned gradient is the dense one and the
    stacked Jacobian is the dense one, if NG = NX, NG = 0 or at the first call.  Missing: later calls
    with NG <> NX, for which it is false. *)
Theorem C35_sparse_partial : forall o, chebyshev_ocp o -> (Z.of_nat (PO o) <= 10 ^ 27)%Z -> forall points junk ad var lam,
  NG o = NX o \/ NG o = 0%nat \/ points = nil ->
  exists st Je Ji J c lg g ad1,
    run (fun q => con_lin_sparse o (fst q) (snd q)) points
      (sp_empty (NUM_EQ o) (VAR o), sp_empty (NUM_INEQ o) (VAR o), sp_empty (NUM_EQ o + NUM_INEQ o) (VAR o)) = Some st /\
    lag_gradient_sparse o junk ad var lam st = Some (c, lg, g, ad1, (Je, Ji, J)) /\
    let '(c', lg', g', con', J', ad1') := lagrangian_gradient o ad var lam in
    c = c' /\ g = g' /\ ad1 = ad1' /\ (forall j, (j < VAR o)%nat -> lg j = lg' j) /\
    (forall i j, (i < NUM_EQ o + NUM_INEQ o)%nat -> (j < VAR o)%nat -> coeff J i j = J' i j) /\
    nonzeros J = nnz_jacobian o.
Proof.
  intros o Hch Hord points junk ad var lam Hor. pose proof (prune_safe_order o Hch Hord) as Hps. pose proof Hch as (HP & HS & HX & _).
  assert (H : exists st, run (fun q => con_lin_sparse o (fst q) (snd q)) points (con_empty o) = Some st /\
    (st = con_empty o \/ (con_ok o st /\ (NG o = NX o \/ NG o = 0)%nat))).
  { destruct (Nat.eq_dec (NG o) (NX o)) as [e|e]; [|destruct (Nat.eq_dec (NG o) 0) as [e0|e0]].
    - destruct (con_run o Hch (or_introl e) points _ (or_introl eq_refl)) as (M0 & E & [H|H]); exists M0; auto.
    - destruct (con_run o Hch (or_intror e0) points _ (or_introl eq_refl)) as (M0 & E & [H|H]); exists M0; auto.
    - destruct Hor as [Hor|[Hor|Hor]]; [contradiction|contradiction|subst points]. eexists. split; [reflexivity|auto]. }
  destruct H as (st & E0 & H0). destruct (con_lin_ok o Hch junk var st H0) as ([[Je Ji] J] & E & Ok & V).
  pose proof (con_coeff o Hch Hps Je Ji J var Ok V) as HC.
  unfold lag_gradient_sparse, lagrangian_gradient. destruct (cost_gradient o ad var) as [[c g] ad1] eqn:EC.
  exists st, Je, Ji, J, c, (lag_grad_of o J g lam), g, ad1. split; [exact E0|].
  split; [rewrite E; reflexivity|]. destruct (constraints_linearised o var) as [con J'] eqn:EJ. cbn [snd] in HC.
  split; [reflexivity|]. split; [reflexivity|]. split; [reflexivity|]. split; [|split; [exact HC|]].
  - intros j Hj. unfold lag_grad_of. cbn [sadd R_scalar]. f_equal. f_equal. apply rsum_ext. intros i Hi. rewrite HC by auto. reflexivity.
  - destruct Ok as (_ & _ & Ok). apply stack_nonzeros; auto.
Qed.
Print Assumptions C35_sparse_partial.
(** two path constraints, three states: the second call returns a different gradient *)
Theorem C35_sparse_refuted : exists (o : ocp Q) var lam ad j junk r1 r2, (j < VAR o)%nat /\
  lag_gradient_sparse o junk ad var lam
    (sp_empty (NUM_EQ o) (VAR o), sp_empty (NUM_INEQ o) (VAR o), sp_empty (NUM_EQ o + NUM_INEQ o) (VAR o)) = Some r1 /\
  lag_gradient_sparse o junk ad var lam (snd r1) = Some r2 /\
  let lag_gradient r := snd (fst (fst (fst r))) in
  let '(_, lg, _, _, _, _) := lagrangian_gradient o ad var lam in
  Qeq (lag_gradient r1 j) (lg j) /\ ~ Qeq (lag_gradient r2 j) (lg j).
Proof.
  exists (q_ocp 2), (fun _ => 0%Q), (fun i => if (i =? 7)%nat then 1%Q else 0%Q), (0%Q, fun _ => 0%Q), 1%nat, (fun _ _ _ => 0%Q).
  assert (H : match lag_gradient_sparse (q_ocp 2) (fun _ _ _ => 0%Q) (0%Q, fun _ => 0%Q) (fun _ => 0%Q) (fun i => if (i =? 7)%nat then 1%Q else 0%Q)
      (sp_empty (NUM_EQ (q_ocp 2)) (VAR (q_ocp 2)), sp_empty (NUM_INEQ (q_ocp 2)) (VAR (q_ocp 2)), sp_empty (NUM_EQ (q_ocp 2) + NUM_INEQ (q_ocp 2)) (VAR (q_ocp 2))) with
    | Some r1 => match lag_gradient_sparse (q_ocp 2) (fun _ _ _ => 0%Q) (0%Q, fun _ => 0%Q) (fun _ => 0%Q) (fun i => if (i =? 7)%nat then 1%Q else 0%Q) (snd r1) with
       | Some r2 => Some (Qred (snd (fst (fst (fst r1))) 1%nat), Qred (snd (fst (fst (fst r2))) 1%nat)) | None => None end
    | None => None end = Some (5, 2)%Q) by (vm_compute; reflexivity).
  destruct (lag_gradient_sparse (q_ocp 2) (fun _ _ _ => 0%Q) (0%Q, fun _ => 0%Q) (fun _ => 0%Q) (fun i => if (i =? 7)%nat then 1%Q else 0%Q)
      (sp_empty (NUM_EQ (q_ocp 2)) (VAR (q_ocp 2)), sp_empty (NUM_INEQ (q_ocp 2)) (VAR (q_ocp 2)), sp_empty (NUM_EQ (q_ocp 2) + NUM_INEQ (q_ocp 2)) (VAR (q_ocp 2)))) as [r1|]; [|discriminate].
  exists r1. destruct (lag_gradient_sparse (q_ocp 2) (fun _ _ _ => 0%Q) (0%Q, fun _ => 0%Q) (fun _ => 0%Q) (fun i => if (i =? 7)%nat then 1%Q else 0%Q) (snd r1)) as [r2|]; [|discriminate].
  exists r2. injection H as E1 E2. split; [vm_compute; lia|]. split; [reflexivity|]. split; [reflexivity|]. cbv zeta.
  assert (L : Qred (let '(_, lg, _, _, _, _) := lagrangian_gradient (q_ocp 2) (0%Q, fun _ => 0%Q) (fun _ => 0%Q) (fun i => if (i =? 7)%nat then 1%Q else 0%Q) in lg 1%nat) = 5%Q) by (vm_compute; reflexivity).
  destruct (lagrangian_gradient _ _ _ _) as [[[[[? lg] ?] ?] ?] ?].
  split.
  - rewrite <- (Qred_correct (snd (fst (fst (fst r1))) 1%nat)), E1, <- (Qred_correct (lg 1%nat)), L. reflexivity.
  - intro E. rewrite <- (Qred_correct (snd (fst (fst (fst r2))) 1%nat)), E2, <- (Qred_correct (lg 1%nat)), L in E. discriminate.
Qed.
Print Assumptions C35_sparse_refuted.
Example C35_example : chebyshev_ocp ex_ocp /\ (Z.of_nat (PO ex_ocp) <= 10 ^ 27)%Z /\ NG ex_ocp = NX ex_ocp /\ cost_gradients_exact ex_ocp /\ o_lag ex_ocp <> None.
Proof. split; [exact ex_cheb|]. split; [vm_compute; discriminate|]. split; [reflexivity|]. split; [exact ex_cost1|discriminate]. Qed.
