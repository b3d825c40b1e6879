(** Proofs for Msv_Props.v *)
Require Import Arith ZArith List Bool Lia Reals Lra FunctionalExtensionality.
From Verif Require Import Scal RSum PolyR Poly_Spec Cheb_Model Ocp_Model Ocp_Spec Ocp_Proofs Ocp_Cor_Proofs Mpc_Model Mpc_Spec Mpc_Proofs Mpc_Props
  Sqp_Model Sqp_Spec Sqp_Props Msv_Model Msv_Spec.
Import ListNotations.
Local Open Scope R_scope.

Section S.
Variable U : user.
Variable big : R.
Variable lag_full : vec R -> vec R -> vec R * mat R * vec R * vec R * mat R.
Variable lag : vec R -> vec R -> vec R * vec R * vec R * mat R.
Variable st : sqp_settings R.
Variables Q W : Type.
Variable hupd : mat R -> vec R -> vec R -> mat R.
Variable hreg : mat R -> mat R.
Variable pcc : W -> Qp_Model.qp_data R -> W * Qp_Model.qp_data R.
Variable pcs : W -> vec R * vec R -> vec R * vec R.
Variable pcu : W -> Qp_Model.qp_data R -> Qp_Model.qp_data R.
Variable qps : Q -> Qp_Model.qp_data R -> Q * (vec R * vec R * Z).
Variable qpm : Q -> Q.
Hypothesis Htau : 0 <= tau st.
Hypothesis Heps : 0 <= eps_prim st.
Local Notation solve := (mpc_solve U big lag_full lag st Q W hupd hreg pcc pcs pcu qps qpm).
Local Notation nlp := (nlp_of U big lag_full lag).
Local Notation ses := (session U big lag_full lag st Q W hupd hreg pcc pcs pcu qps qpm).

Lemma solved_within : forall s w s' w', solve (s, w) = (s', w') -> Sqp_Model.m_status w' = SqpSolved ->
  within (eps_prim st) (nlp s) (Mpc_Model.m_x s') /\ exists x lam, s' = set_sol s x lam (m_par s).
Proof.
  intros s w s' w' E Hs. cbv [mpc_solve] in E. injection E as E1 E2. subst s' w'. split; [|eauto].
  match type of Hs with m_status ?r = _ => pose proof (C15_sqp_solved_partial (nlp s) st Q W hupd hreg pcc pcs pcu qps qpm
    (start_from Q W (Mpc_Model.m_x s) (Mpc_Model.m_lam s) w) Htau Heps Hs) as H end.
  exact (proj1 H).
Qed.

Lemma params_ext : forall (o : ocp R) (var : vec R), params o var = fun c => var (nodes o * NX o + nodes o * NU o + c)%nat.
Proof. intros. apply functional_extensionality. intro c. unfold params, ip, nodes. f_equal. lia. Qed.
Lemma control_ext : forall (o : ocp R) (var : vec R) k, (k < nodes o)%nat ->
  control o var (nodes o - 1 - k) = fun c => var (nodes o * NX o + traj (nodes o) (NU o) k c)%nat.
Proof. intros. apply functional_extensionality. intro c. unfold control, iu, traj. f_equal. unfold nodes. lia. Qed.

Lemma dynamics_ok : forall s w s' w', solve (s, w) = (s', w') -> Sqp_Model.m_status w' = SqpSolved ->
  let o := prob s in chebyshev_ocp o -> t_start o < t_stop o ->
  forall i c q q', (i < SG o)%nat -> (c < NX o)%nat -> state_polynomial s' i c q -> derivative_of q q' ->
  forall l, (l <= PO o)%nat -> (0 < l \/ i = 0)%nat ->
  let k := (i * PO o + l)%nat in
  Rabs (q' (grid_of o k) - u_dyn U (m_par s) (node_x s' k) (node_u s' k) (node_p s') (grid_of o k) c)
    <= eps_prim st * (2 * INR (SG o)) / (t_stop o - t_start o).
Proof.
  intros s w s' w' E Hs o Hch Ht i c q q' Hi Hc (Hq & Hv) Hd l Hl Hor k. pose proof Hch as (HP & HS & HX & _).
  destruct (solved_within s w s' w' E Hs) as ((HE & _) & x & lam & Es). set (e := eps_prim st) in *.
  set (a := at_params U o (m_par s)). assert (Hcha : chebyshev_ocp a) by exact Hch.
  set (i' := (SG o - 1 - i)%nat). set (l' := (PO o - l)%nat).
  assert (Hi' : (i' < SG o)%nat) by (unfold i'; lia). assert (Hl' : (l' <= PO o)%nat) by (unfold l'; lia).
  assert (Hor' : (l' < PO o \/ i' = SG o - 1)%nat) by (unfold i', l'; lia).
  assert (Hk : (i' * PO o + l' = nodes o - 1 - k)%nat).
  { unfold i', l', k, nodes. assert (A : (i * PO o + PO o <= PO o * SG o)%nat) by nia.
    rewrite !Nat.mul_sub_distr_r. rewrite (Nat.mul_comm (SG o)). nia. }
  assert (Hkn : (k < nodes o)%nat) by (unfold k, nodes; nia).
  assert (Hpr : prob s' = o) by (rewrite Es; reflexivity).
  rewrite Hpr in Hq. change (is_poly (PO a) q) in Hq.
  assert (Hn : (i' * PO o + l' < NUM_NODES o)%nat) by (rewrite Hk; unfold nodes, NUM_NODES; lia).
  assert (B : Rabs (equalities a (Mpc_Model.m_x s') (ix a (i' * PO o + l') c)) <= e).
  { apply HE. cbn [nlp_of ne]. change (at_params U (prob s) (m_par s)) with a. change (NUM_EQ a) with (NX o * NUM_NODES o)%nat.
    unfold ix. change (NX a) with (NX o). nia. }
  rewrite equalities_eq in B; [|exact Hn|exact Hc].
  change (PO o) with (PO a) in B. rewrite (residual_poly a Hcha (Mpc_Model.m_x s') i' l' c q q') in B; auto.
  - change (time_nodes a) with (time_nodes o) in B. change (t_scale a) with (t_scale o) in B. change (PO a) with (PO o) in B.
    assert (Et : time_nodes o (i' * PO o + l')%nat = grid_of o k) by (unfold grid_of; f_equal; rewrite Hk; reflexivity).
    rewrite Et in B.
    assert (Ea : at_node a (o_dyn a) (Mpc_Model.m_x s') (i' * PO o + l') c =
      u_dyn U (m_par s) (node_x s' k) (node_u s' k) (node_p s') (grid_of o k) c).
    { unfold at_node. cbn [a at_params o_dyn]. change (time_nodes a) with (time_nodes o). rewrite Et.
      change (xk a (Mpc_Model.m_x s') (i' * PO o + l')) with (state o (Mpc_Model.m_x s') (i' * PO o + l')).
      change (uk a (Mpc_Model.m_x s') (i' * PO o + l')) with (control o (Mpc_Model.m_x s') (i' * PO o + l')).
      change (pk a (Mpc_Model.m_x s')) with (params o (Mpc_Model.m_x s')).
      rewrite Hk, control_ext, params_ext by exact Hkn.
      unfold node_x, node_u, node_p. cbn [read]. rewrite Hpr. reflexivity. }
    rewrite Ea in B. set (f := u_dyn _ _ _ _ _ _ _) in *.
    assert (HSG : 0 < INR (SG o)) by (apply lt_0_INR; lia).
    assert (Hts : t_scale o = (t_stop o - t_start o) / (2 * INR (SG o))).
    { rewrite t_scale_eq by auto. unfold tlen. field. lra. }
    pose proof (t_scale_pos o HS Ht) as Hp.
    replace (t_scale o * q' (grid_of o k) - t_scale o * f) with (t_scale o * (q' (grid_of o k) - f)) in B by ring.
    rewrite Rabs_mult, (Rabs_right (t_scale o)) in B by lra.
    apply Rmult_le_reg_l with (t_scale o); [exact Hp|]. eapply Rle_trans; [exact B|]. right. rewrite Hts. field. lra.
  - intros j Hj. change (time_nodes a) with (time_nodes o). change (PO a) with (PO o).
    specialize (Hv (PO o - j)%nat ltac:(rewrite Hpr; lia)). rewrite Hpr in Hv.
    assert (Hkj : (i' * PO o + j = nodes o - 1 - (i * PO o + (PO o - j)))%nat).
    { unfold i', nodes. rewrite !Nat.mul_sub_distr_r. rewrite (Nat.mul_comm (SG o)). cbn in Hj. change (PO a) with (PO o) in Hj. nia. }
    unfold grid_of in Hv. change (NUM_NODES o) with (nodes o) in Hv. rewrite <- Hkj in Hv. rewrite Hv. cbn [read]. rewrite Hpr.
    unfold state, ix, traj. rewrite Hkj. reflexivity.
Qed.

Lemma bound_fin : forall b, Rabs b < big -> as_bound big b = Fin b.
Proof.
  intros b Hb. apply Rabs_def2 in Hb. unfold as_bound. destruct (Rle_dec big b); [lra|]. destruct (Rle_dec b (- big)); [lra|]. reflexivity.
Qed.

Lemma bounds_ok : forall s w s' w', solve (s, w) = (s', w') -> Sqp_Model.m_status w' = SqpSolved ->
  let o := prob s in let e := eps_prim st in
  (forall b k c, (k < nodes o)%nat -> (c < NX o)%nat -> respects big e (read s (x_bound b k c)) (node_x s' k c) b) /\
  (forall b k c, (k < nodes o)%nat -> (c < NU o)%nat -> respects big e (read s (u_bound b k c)) (node_u s' k c) b) /\
  (forall b c, (c < NP o)%nat -> respects big e (read s (p_bound b c)) (node_p s' c) b) /\
  (forall b k c, (k < nodes o)%nat -> (c < NG o)%nat -> respects big e (read s (g_bound b k c))
     (u_ine U (m_par s) (node_x s' k) (node_u s' k) (node_p s') (grid_of o k) c) b).
Proof.
  intros s w s' w' E Hs o e.
  destruct (solved_within s w s' w' E Hs) as ((_ & HI & HX) & x & lam & Es).
  assert (Hpr : prob s' = o) by (rewrite Es; reflexivity). set (var := Mpc_Model.m_x s') in *.
  set (a := at_params U o (m_par s)).
  assert (HB : forall b j, (j < VAR o)%nat -> respects big e (pick b (m_lbx s) (m_ubx s) j) (var j) b).
  { intros b j Hj Hb. destruct (HX j Hj) as (H1 & H2). cbn [nlp_of lbx ubx] in H1, H2. destruct b; cbn [pick] in *.
    - rewrite bound_fin in H1 by exact Hb. cbn [above_by] in H1. fold e in H1. lra.
    - rewrite bound_fin in H2 by exact Hb. cbn [below_by] in H2. fold e in H2. lra. }
  assert (HV : VAR o = (nodes o * NX o + nodes o * NU o + NP o)%nat) by (unfold VAR, VARX, VARU, NUM_NODES, nodes; lia).
  split; [|split; [|split]].
  - intros b k c Hk Hc. unfold node_x. cbn [read]. rewrite Hpr. apply HB. rewrite HV. pose proof (traj_lt (nodes o) (NX o) k c Hk Hc). lia.
  - intros b k c Hk Hc. unfold node_u. cbn [read]. rewrite Hpr. apply HB. rewrite HV. pose proof (traj_lt (nodes o) (NU o) k c Hk Hc). lia.
  - intros b c Hc. unfold node_p. cbn [read]. rewrite Hpr. apply HB. lia.
  - intros b k c Hk Hc Hb. cbn [read] in Hb.
    destruct (HI (traj (nodes o) (NG o) k c)) as (H1 & H2).
    { cbn [nlp_of ni]. change (NUM_INEQ (at_params U (prob s) (m_par s))) with (NG o * nodes o)%nat.
      pose proof (traj_lt (nodes o) (NG o) k c Hk Hc). lia. }
    cbn [nlp_of lbg ubg p_ineq] in H1, H2. change (at_params U (prob s) (m_par s)) with a in H1, H2.
    assert (Eg : inequalities a var (traj (nodes o) (NG o) k c) =
      u_ine U (m_par s) (node_x s' k) (node_u s' k) (node_p s') (grid_of o k) c).
    { unfold traj. change (NG o) with (NG a). rewrite inequalities_eq; [|change (NUM_NODES a) with (nodes o); clear - Hk; lia|exact Hc].
      unfold at_node. cbn [a at_params o_ine]. change (time_nodes a) with (time_nodes o).
      change (xk a var (nodes o - 1 - k)) with (state o var (nodes o - 1 - k)).
      change (uk a var (nodes o - 1 - k)) with (control o var (nodes o - 1 - k)).
      change (pk a var) with (params o var).
      rewrite control_ext, params_ext by exact Hk. unfold node_x, node_u, node_p. cbn [read]. rewrite Hpr. reflexivity. }
    rewrite Eg in H1, H2. fold o in Hb. destruct b; cbn [read pick] in Hb |- *; fold o.
    + rewrite bound_fin in H1 by exact Hb. cbn [above_by] in H1. fold e in H1. lra.
    + rewrite bound_fin in H2 by exact Hb. cbn [below_by] in H2. fold e in H2. lra.
Qed.

(** ** sessions *)
Lemma solve_shape : forall s w, exists x lam w', solve (s, w) = (set_sol s x lam (m_par s), w').
Proof. intros. cbv [mpc_solve]. eauto. Qed.

Lemma session_app : forall l sw f, ses sw (l ++ [f]) = do_op U big lag_full lag st Q W hupd hreg pcc pcs pcu qps qpm (ses sw l) f.
Proof. intros. unfold session. rewrite fold_left_app. reflexivity. Qed.

Definition is_bound (q : cell) : Prop :=
  match q with x_bound _ _ _ | u_bound _ _ _ | p_bound _ _ | g_bound _ _ _ => True | _ => False end.

Lemma set_sol_read : forall (s : mpc R) x lam p q, is_bound q -> read (set_sol s x lam p) q = read s q.
Proof. intros s x lam p q. destruct q; intros []; reflexivity. Qed.

Definition same_dims (o o' : ocp R) : Prop :=
  NX o' = NX o /\ NU o' = NU o /\ NP o' = NP o /\ NG o' = NG o /\ PO o' = PO o /\ SG o' = SG o.

Lemma session_inv : forall l s w s' w', ses (s, w) l = (s', w') ->
  same_dims (prob s) (prob s') /\
  (forall q, is_bound q -> valid (prob s) q -> in_force s l q (read s' q)) /\
  (in_step s -> Forall not_behind (setters l) -> in_step s').
Proof.
  induction l as [|f l IH]; intros s w s' w' E.
  - injection E as <- <-. split; [repeat split|]. split; [intros; reflexivity|auto].
  - change (ses (do_op U big lag_full lag st Q W hupd hreg pcc pcs pcu qps qpm (s, w) f) l = (s', w')) in E. destruct f as [c|]; cbn [do_op fst snd] in E.
    + destruct (IH _ _ _ _ E) as (D & B & I). destruct (prob_dims s c) as (a1 & a2 & a3 & a4 & a5 & a6). cbv zeta in *.
      split; [|split].
      * destruct D as (b1 & b2 & b3 & b4 & b5 & b6). unfold same_dims. repeat split; congruence.
      * intros q Hq Hv. unfold in_force. cbn [setters last_named].
        assert (Hv' : valid (prob (exec s c)) q) by (apply (valid_dims (prob s)); auto).
        rewrite (B q Hq Hv'). rewrite (last_dims (prob s)) by auto.
        destruct (last_named (prob s) (setters l) q); [reflexivity|]. rewrite exec_read by auto. reflexivity.
      * intros Hs HF. cbn [setters] in HF. inversion HF; subst. apply I; auto. apply exec_in_step; auto.
    + destruct (solve_shape s w) as (x & lam & w1 & E1). rewrite E1 in E. destruct (IH _ _ _ _ E) as (D & B & I).
      split; [exact D|]. split.
      * intros q Hq Hv. pose proof (B q Hq Hv) as B'. unfold in_force in *. cbn [setters prob set_sol] in *.
        rewrite B'. rewrite set_sol_read by auto. reflexivity.
      * intros Hs HF. apply I; auto.
Qed.

Lemma session_in_step : forall l o x lam par a b c d w s' w', Forall not_behind (setters l) ->
  ses (mpc_init o x lam par a b c d, w) l = (s', w') -> in_step s'.
Proof. intros. destruct (session_inv _ _ _ _ _ H0) as (_ & _ & I). apply I; auto. apply init_in_step. Qed.
End S.
