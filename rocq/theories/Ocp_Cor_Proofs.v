(** Consequences used by the property theorems. *)
Require Import Arith ZArith List Bool Lia Reals Lra.
From Verif Require Import Scal RSum PolyR Poly_Spec Blk Sparse Sparse_Proofs Cheb_Model Cheb_Proofs Cheb_Diag_Proofs Spline_Model Spline_Proofs
  Ocp_Model Ocp_Spec Ocp_Proofs Ocp_Cost_Proofs Ocp_Sparse_Model Ocp_Sparse_Proofs Ocp_Stack_Proofs.
Local Open Scope R_scope.

Lemma interp_exists : forall n (x y : vec R), (1 <= n)%nat -> distinct (S n) x ->
  exists q q', is_poly n q /\ derivative_of q q' /\ forall j, (j <= n)%nat -> q (x j) = y j.
Proof.
  intros n x y Hn Hd.
  assert (HB : exists B, lagrange_basis (S n) x = Some B).
  { unfold lagrange_basis. destruct (Nat.ltb_spec (S n) 2); [lia|]. eauto. }
  destruct HB as [B HB]. destruct (lagrange_poly (S n) x B (fun _ => y) 0) as (l & Hl & He).
  exists (peval l), (peval (pder l)). split; [apply list_is_poly; auto|]. split; [intro; apply peval_derivable|].
  intros j Hj. rewrite <- He. apply (lagrange_at_nodes (S n) x B (fun _ => y) 0%nat j); auto; lia.
Qed.

Section P.
Variable o : ocp R.
Local Notation nx := (NX o).
Local Notation nu := (NU o).
Local Notation np := (NP o).
Local Notation ng := (NG o).
Local Notation P := (PO o).
Local Notation Sg := (SG o).
Local Notation N := (NUM_NODES o).
Local Notation vx := (VARX o).
Local Notation vu := (VARU o).

Lemma seg_distinct : chebyshev_ocp o -> t_start o < t_stop o -> forall s, (s < Sg)%nat ->
  distinct (S P) (fun j => time_nodes o (s * P + j)%nat).
Proof.
  intros Hch Ht s Hs i j Hi Hj Hne E.
  destruct (Nat.lt_total i j) as [L|[L|L]]; [|lia|].
  - pose proof (time_mono o Hch Ht (s * P + i) (s * P + j) ltac:(lia) ltac:(apply node_lt; auto; lia)). lra.
  - pose proof (time_mono o Hch Ht (s * P + j) (s * P + i) ltac:(lia) ltac:(apply node_lt; auto; lia)). lra.
Qed.

Lemma t_scale_pos : (1 <= Sg)%nat -> t_start o < t_stop o -> 0 < t_scale o.
Proof. intros HS Ht. rewrite t_scale_eq by auto. pose proof (tlen_pos o HS Ht). lra. Qed.

Lemma collocation : chebyshev_ocp o -> t_start o < t_stop o -> forall var,
 ((forall i, (i < NUM_EQ o)%nat -> equalities o var i = 0) <->
  (forall s c, (s < Sg)%nat -> (c < nx)%nat -> exists q q', is_poly P q /\ derivative_of q q' /\
     (forall j, (j <= P)%nat -> q (time_nodes o (s * P + j)%nat) = state o var (s * P + j)%nat c) /\
     (forall l, (l <= P)%nat -> (l < P \/ s = Sg - 1)%nat ->
        q' (time_nodes o (s * P + l)%nat) =
        o_dyn o (state o var (s * P + l)) (control o var (s * P + l)) (params o var) (time_nodes o (s * P + l)%nat) c))).
Proof.
  intros Hch Ht var. pose proof Hch as (HP & HS & HX & _). pose proof (t_scale_pos HS Ht) as Hts. split.
  - intros Hz s c Hs Hc.
    destruct (interp_exists P (fun j => time_nodes o (s * P + j)%nat) (fun j => state o var (s * P + j)%nat c) HP (seg_distinct Hch Ht s Hs))
      as (q & q' & Hq & Hd & Hi).
    exists q, q'. repeat split; auto. intros l Hl Hor.
    assert (Hn := node_lt o s l Hs Hl).
    assert (E : equalities o var (ix o (s * P + l) c) = 0) by (apply Hz; apply xcol_lt; auto).
    rewrite equalities_eq in E by auto. rewrite (residual_poly o Hch var s l c q q') in E by auto.
    change (o_dyn o (state o var (s * P + l)) (control o var (s * P + l)) (params o var) (time_nodes o (s * P + l)%nat) c)
      with (at_node o (o_dyn o) var (s * P + l)%nat c).
    nra.
  - intros H i Hi. destruct (index_split nx N i Hi) as (t & c & -> & Htn & Hc).
    destruct (node_decomp o t HP HS Htn) as (s & l & -> & Hs & Hl & Hd).
    destruct (H s c Hs Hc) as (q & q' & Hq & Hqd & Hi' & Hcol).
    change ((s * P + l) * nx + c)%nat with (ix o (s * P + l) c). rewrite equalities_eq by auto.
    rewrite (residual_poly o Hch var s l c q q') by auto. rewrite Hcol by auto. unfold at_node.
    change (xk o var (s * P + l)) with (state o var (s * P + l)). change (uk o var (s * P + l)) with (control o var (s * P + l)).
    change (pk o var) with (params o var). ring.
Qed.

Lemma equalities_local : reads_node o (o_dyn o) nx -> (1 <= P)%nat -> forall var var' s l c,
  (s < Sg)%nat -> (l <= P)%nat -> (l < P \/ s = Sg - 1)%nat -> (c < nx)%nat ->
  (forall j i, (j <= P)%nat -> (i < nx)%nat -> state o var (s * P + j)%nat i = state o var' (s * P + j)%nat i) ->
  (forall i, (i < nu)%nat -> control o var (s * P + l)%nat i = control o var' (s * P + l)%nat i) ->
  (forall i, (i < np)%nat -> params o var i = params o var' i) ->
  equalities o var (ix o (s * P + l) c) = equalities o var' (ix o (s * P + l) c).
Proof.
  intros HR HP var var' s l c Hs Hl Hd Hc Hx Hu Hp. assert (Hn := node_lt o s l Hs Hl).
  rewrite !equalities_eq by auto. rewrite !DX_eq by auto. f_equal.
  - apply rsum_ext. intros j Hj. rewrite Hx by lia. reflexivity.
  - f_equal. unfold at_node. apply HR; auto.
Qed.

Lemma lag_val_run : forall var n, lag_val o var n = running_cost o var n.
Proof. intros. unfold lag_val, running_cost, call. destruct (o_lag o); reflexivity. Qed.
Lemma may_val_term : forall var, may_val o var = terminal_cost o var.
Proof. intros. unfold may_val, terminal_cost, call. destruct (o_may o); reflexivity. Qed.

Lemma cost_formula : forall var, cost o var =
  rsum Sg (fun s => t_scale o * rsum (S P) (fun k => m_w o k * running_cost o var (s * P + k))) + terminal_cost o var.
Proof.
  intro var. rewrite cost_eq, may_val_term. f_equal. apply rsum_ext. intros s Hs. rewrite <- rsum_scal. apply rsum_ext. intros k Hk.
  rewrite lag_val_run, (Nat.add_comm k). ring.
Qed.

Lemma cost_integral : chebyshev_ocp o -> forall var (r F : nat -> R -> R),
  (forall s, (s < Sg)%nat -> is_poly P (r s) /\ derivative_of (F s) (r s) /\
     forall k, (k <= P)%nat -> r s (time_nodes o (s * P + k)%nat) = running_cost o var (s * P + k)) ->
  cost o var = rsum Sg (fun s => F s (time_nodes o (s * P)%nat) - F s (time_nodes o (s * P + P)%nat)) + terminal_cost o var.
Proof.
  intros Hch var r F H. pose proof Hch as (HP & HS & HX & HD & Hn & Hw). rewrite cost_formula. f_equal. apply rsum_ext. intros s Hs.
  destruct (H s Hs) as (Hp & HF & Hs').
  pose proof (time_nodes_eq o Hch s 0 Hs ltac:(lia)) as E0. rewrite Nat.add_0_r, nodes_first in E0.
  pose proof (time_nodes_eq o Hch s P Hs ltac:(lia)) as E1. rewrite nodes_last in E1 by auto.
  rewrite <- (integrate_exact P (r s) (F s) _ _ HP Hp HF). unfold cheb_integrate. rewrite E0, E1, t_scale_eq by auto.
  match goal with |- _ = ?a * _ => replace a with (tlen o / 2) by field end. f_equal. 
  match goal with |- _ = ssum _ ?f => change (ssum (S P) f) with (rsum (S P) f) end.
  apply rsum_ext. intros k Hk. rewrite Hw by lia. rewrite <- Hs' by lia. rewrite (time_nodes_eq o Hch) by (auto; lia).
  rewrite Rmult_comm. f_equal. f_equal. field.
Qed.

Lemma cost_gradient_deriv : cost_gradients_exact o -> forall ad var, o_lag o <> None \/ (forall i, snd ad i = 0) ->
  forall d, dir_deriv (cost o) var d (rsum (VAR o) (fun j => snd (fst (cost_gradient o ad var)) j * d j)).
Proof.
  intros [HL HM] ad var Had d. destruct (cost_gradient_eq o ad var Had) as [_ E]. rewrite E. apply cost_dir; auto.
Qed.

Lemma cost_gradient_value : forall ad var, o_lag o <> None \/ (forall i, snd ad i = 0) -> fst (fst (cost_gradient o ad var)) = cost o var.
Proof. intros ad var Had. apply (cost_gradient_eq o ad var Had). Qed.

(** * sparse = dense up to the pruned diagonal entries *)
Lemma eq_coeff_gen : chebyshev_ocp o -> forall M var, eq_ok o M -> eq_jac o M var ->
  forall i j, (i < vx)%nat -> (j < VAR o)%nat ->
  coeff M i j = dense_jac o var i j + (if (i =? j)%nat then dg o (i / nx) - comp_DM o (i / nx)%nat (i / nx)%nat else 0).
Proof.
  intros Hch M var (Hr & Hc & Hp & Hs & Hv) HJ i j Hi Hj. pose proof Hch as (HP & HS & HX & _).
  destruct (index_split nx N i Hi) as (t & c & -> & Ht & Hcc). change (t * nx + c)%nat with (ix o t c) in *.
  pose proof (xcol_lt o t c Ht Hcc) as HI.
  rewrite ix_div by auto. unfold coeff. rewrite Hp by auto. change (@s0 R R_scalar) with 0.
  destruct (var_cases o j Hj) as [(k & m & -> & Hk & Hm)|[(k & m & -> & Hk & Hm)|(m & -> & Hm)]].
  - rewrite eqpat_x by auto. destruct (node_decomp o t HP HS Ht) as (s & l & -> & Hs' & Hl & Hd).
    rewrite (dense_jac_x o Hch) by auto. rewrite (Nat.eqb_sym k). destruct (Nat.eqb_spec (s * P + l) k) as [Ek|Ek]; cbn [orb].
    + rewrite (HJ (s * P + l)%nat c (ix o k m) m); auto. 2:{ rewrite zidx_x by auto. rewrite (proj2 (Nat.eqb_eq _ _)); auto. }
      rewrite <- Ek. rewrite !comp_DM_eq by (auto; apply node_lt; auto).
      rewrite (Nat.eqb_sym (ix o (s * P + l) m)).
      replace (ix o (s * P + l) c =? ix o (s * P + l) m)%nat with (c =? m)%nat.
      2:{ unfold ix. destruct (Nat.eqb_spec c m) as [->|]; [rewrite Nat.eqb_refl; reflexivity|symmetry; apply Nat.eqb_neq; lia]. }
      destruct (c =? m)%nat; ring.
    + rewrite (proj2 (Nat.eqb_neq (ix o (s * P + l) c) (ix o k m))).
      2:{ intro E. apply Ek. apply (f_equal (fun a => (a / nx)%nat)) in E. rewrite !ix_div in E by auto. exact E. }
      rewrite Rminus_0_r, Rplus_0_r. destruct (Nat.eqb_spec c m) as [->|]; cbn [andb]; [|reflexivity].
      unfold dseg. rewrite sgm_node by auto. unfold dmat. destruct (in_seg (s * P) (P + 1) k) eqn:Es; [|reflexivity].
      rewrite Hv; auto. 2:{ unfold dseg. rewrite sgm_node by auto. auto. }
      rewrite comp_DM_eq by auto. unfold dmat. rewrite Es. reflexivity.
  - pose proof (iu_range o k m Hk Hm). rewrite (proj2 (Nat.eqb_neq _ _)) by lia.
    rewrite eqpat_u by auto. rewrite (dense_jac_u o Hch) by auto. rewrite (Nat.eqb_sym k). destruct (Nat.eqb_spec t k) as [->|]; [|ring].
    rewrite (HJ k c (iu o k m) (nx + m)%nat); auto. 2:{ rewrite zidx_u by auto. rewrite Nat.eqb_refl. auto. }
    rewrite (proj2 (Nat.eqb_neq _ _)) by lia. ring.
  - pose proof (ip_range o m Hm). rewrite (proj2 (Nat.eqb_neq _ _)) by lia.
    rewrite eqpat_p by auto. rewrite (dense_jac_p o Hch) by auto. rewrite (HJ t c (ip o m) (nx + nu + m)%nat); auto.
    2:{ rewrite zidx_p by auto. auto. }
    rewrite (proj2 (Nat.eqb_neq _ _)) by lia. ring.
Qed.

Lemma dg_bound : forall t, Rabs (dg o t - comp_DM o t t) <= @prune_thr R R_scalar.
Proof.
  intro t. assert (0 < @prune_thr R R_scalar).
  { unfold prune_thr. cbn [sdiv s1 sofZ R_scalar]. unfold Rdiv. rewrite Rmult_1_l. apply Rinv_0_lt_compat. apply IZR_lt. reflexivity. }
  unfold dg. destruct (comp_pat o t t) eqn:E.
  - rewrite Rminus_diag_eq by reflexivity. rewrite Rabs_R0. lra.
  - unfold comp_pat in E. destruct (Nat.ltb Sg 2); [discriminate|]. cbn [sltb sabs R_scalar] in E. unfold Rltb in E.
    destruct (Rlt_dec _ _); [discriminate|]. rewrite Rminus_0_l, Rabs_Ropp. cbn in *. lra.
Qed.

(** no order up to 10^27 has a diagonal entry that is pruned although it is not zero *)
Lemma prune_safe_order : chebyshev_ocp o -> (Z.of_nat P <= 10 ^ 27)%Z -> prune_safe o.
Proof.
  intros (HP & HS & HX & HD & _) Hz. right. intros l Hl. rewrite HD by auto.
  destruct (diag_zero_or_large P l HP Hl) as [E|E]; auto. right. apply Rlt_le_trans with (2 := E).
  unfold prune_thr. cbn [sdiv s1 sofZ R_scalar]. unfold Rdiv. rewrite Rmult_1_l. rewrite INR_IZR_INZ, <- mult_IZR.
  assert (0 < Z.of_nat P)%Z by lia.
  apply Rinv_lt_contravar; [rewrite <- mult_IZR|]; apply IZR_lt; [|lia].
  apply Z.mul_pos_pos; lia.
Qed.

(** the state of the sparse evaluation after any sequence of calls *)
Lemma eq_run : chebyshev_ocp o -> forall pts M, M = sp_empty vx (VAR o) \/ eq_ok o M ->
  exists M', run (eq_lin_sparse o) pts M = Some M' /\ (M' = sp_empty vx (VAR o) \/ eq_ok o M').
Proof.
  intros Hch pts. induction pts as [|x l IH]; intros M HM; cbn [run]; [eauto|].
  destruct (eq_lin_ok o Hch x M HM) as (M1 & E & Ok & _). rewrite E. apply IH. auto.
Qed.

Lemma ineq_run : (1 <= nx)%nat -> (ng = nx \/ ng = 0)%nat -> forall pts M, M = sp_empty (NUM_INEQ o) (VAR o) \/ ineq_ok o M ->
  exists M', run (fun q => ineq_lin_sparse o (fst q) (snd q)) pts M = Some M' /\ (M' = sp_empty (NUM_INEQ o) (VAR o) \/ ineq_ok o M').
Proof.
  intros HX Hg pts. induction pts as [|x l IH]; intros M HM; cbn [run]; [eauto|].
  destruct (ineq_lin_ok o HX (fst x) (snd x) M) as (M1 & E & Ok & _); [destruct HM; auto|]. rewrite E. apply IH. auto.
Qed.

Lemma con_run : chebyshev_ocp o -> (ng = nx \/ ng = 0)%nat -> forall pts st, st = con_empty o \/ con_ok o st ->
  exists st', run (fun q => con_lin_sparse o (fst q) (snd q)) pts st = Some st' /\ (st' = con_empty o \/ con_ok o st').
Proof.
  intros Hch Hg pts. induction pts as [|x l IH]; intros M HM; cbn [run]; [eauto|].
  destruct (con_lin_ok o Hch (fst x) (snd x) M) as (M1 & E & Ok & _); [destruct HM; auto|]. rewrite E. apply IH. auto.
Qed.

Lemma con_coeff : chebyshev_ocp o -> prune_safe o -> forall Je Ji J var, con_ok o (Je, Ji, J) -> con_jac o (Je, Ji, J) var ->
  forall i j, (i < NUM_EQ o + NUM_INEQ o)%nat -> (j < VAR o)%nat -> coeff J i j = snd (constraints_linearised o var) i j.
Proof.
  intros Hch Hps Je Ji J var (Ok1 & Ok2 & Ok3) (V1 & V2 & C1 & C2) i j Hi Hj. unfold constraints_linearised.
  pose proof (eq_coeff o Hch Hps Je var Ok1 V1) as HE. pose proof (ineq_coeff o Ji var Ok2 V2) as HI. unfold dense_jac in HE. unfold dense_ijac in HI.
  destruct (equalities_linearised o var) as [ce De]. destruct (inequalities_linearised o var) as [ci Di]. cbn [snd] in *.
  unfold NUM_EQ in *. destruct (Nat.ltb_spec i vx).
  - rewrite C1, HE by auto. reflexivity.
  - replace i with (vx + (i - vx))%nat at 1 by lia. rewrite C2, HI by (auto; lia). reflexivity.
Qed.

(** * Lagrangian *)
Lemma constraints_dir : chebyshev_ocp o -> jacobian_of o nx (o_dyn o) (o_dyn_jac o) -> jacobian_of o ng (o_ine o) (o_ine_jac o) ->
  forall var v i, (i < NUM_EQ o + NUM_INEQ o)%nat ->
  dir_deriv (fun x => constraints o x i) var v (rsum (VAR o) (fun j => snd (constraints_linearised o var) i j * v j)).
Proof.
  intros Hch HJ HI var v i Hi. unfold constraints, constraints_linearised.
  pose proof (equalities_dir o Hch HJ var v i) as H1. pose proof (inequalities_dir o HI var v (i - NUM_EQ o)) as H2. unfold dense_jac in H1. unfold dense_ijac in H2.
  destruct (equalities_linearised o var) as [ce De]. destruct (inequalities_linearised o var) as [ci Di]. cbn [snd] in *.
  destruct (Nat.ltb_spec i (NUM_EQ o)); [apply H1; auto|]. apply H2. lia.
Qed.

Lemma constraints_values : forall var i, (i < NUM_EQ o + NUM_INEQ o)%nat -> fst (constraints_linearised o var) i = constraints o var i.
Proof.
  intros var i Hi. unfold constraints, constraints_linearised.
  pose proof (eq_lin_values o var i) as H1. pose proof (ineq_lin_values o var (i - NUM_EQ o)) as H2.
  destruct (equalities_linearised o var) as [ce De]. destruct (inequalities_linearised o var) as [ci Di]. cbn [fst] in *.
  destruct (Nat.ltb_spec i (NUM_EQ o)); [apply H1; auto|]. apply H2. lia.
Qed.

Lemma lag_dir : chebyshev_ocp o -> jacobian_of o nx (o_dyn o) (o_dyn_jac o) -> jacobian_of o ng (o_ine o) (o_ine_jac o) ->
  cost_gradients_exact o -> forall ad, (o_lag o <> None \/ (forall i, snd ad i = 0)) -> forall var lam d (g : vec R),
  (forall j, (j < VAR o)%nat -> g j = rsum (NUM_EQ o + NUM_INEQ o) (fun i => snd (constraints_linearised o var) i j * lam i)
      + snd (fst (cost_gradient o ad var)) j + lam (NUM_EQ o + NUM_INEQ o + j)%nat) ->
  dir_deriv (fun x => lagrangian o x lam) var d (rsum (VAR o) (fun j => g j * d j)).
Proof.
  intros Hch HJ HI HC ad Had var lam d g Hg.
  rewrite (rsum_ext _ _ (fun j => rsum (NUM_EQ o + NUM_INEQ o) (fun i => lam i * (snd (constraints_linearised o var) i j * d j))
     + snd (fst (cost_gradient o ad var)) j * d j + lam (NUM_EQ o + NUM_INEQ o + j)%nat * d j)).
  2:{ intros j Hj. rewrite Hg by auto. rewrite !Rmult_plus_distr_r. f_equal. f_equal. rewrite <- rsum_scal_r. apply rsum_ext. intros; ring. }
  rewrite !rsum_plus. rewrite rsum_swap.
  unfold dir_deriv, lagrangian.
  apply derivable_pt_lim_ext with (fun h => rsum (NUM_EQ o + NUM_INEQ o) (fun i => lam i * constraints o (fun i => var i + h * d i) i)
      + cost o (fun i => var i + h * d i) + rsum (VAR o) (fun j => lam (NUM_EQ o + NUM_INEQ o + j)%nat * (var j + h * d j))).
  { intro h. unfold dot, seg. cbn [sadd smul R_scalar].
    change (ssum (NUM_EQ o + NUM_INEQ o)) with (rsum (NUM_EQ o + NUM_INEQ o)). change (ssum (VAR o)) with (rsum (VAR o)). ring. }
  apply derivable_pt_lim_plus; [apply derivable_pt_lim_plus|].
  - apply (derivable_rsum (NUM_EQ o + NUM_INEQ o) (fun i h => lam i * constraints o (fun i => var i + h * d i) i)
      (fun i _ => rsum (VAR o) (fun j => lam i * (snd (constraints_linearised o var) i j * d j)))).
    intros i Hi. rewrite rsum_scal. apply (derivable_pt_lim_scal (fun h => constraints o (fun i => var i + h * d i) i)).
    apply constraints_dir; auto.
  - apply cost_gradient_deriv; auto.
  - apply (derivable_rsum (VAR o) (fun j h => lam (NUM_EQ o + NUM_INEQ o + j)%nat * (var j + h * d j))
      (fun j _ => lam (NUM_EQ o + NUM_INEQ o + j)%nat * d j)).
    intros j Hj. apply (derivable_pt_lim_scal (fun h => var j + h * d j)). apply derivable_line.
Qed.
End P.
