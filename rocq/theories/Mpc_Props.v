(** Properties of the MPC wrapper (C36, C37). *)
Require Import Arith ZArith List Bool Lia Reals Lra.
From Verif Require Import Scal RSum Blk PolyR Poly_Spec Cheb_Model Cheb_Proofs Legendre_Model Spline_Model Spline_Proofs
  Ocp_Model Ocp_Spec Ocp_Proofs Ocp_Cor_Proofs Ocp_Example Mpc_Model Mpc_Spec Mpc_Proofs.
Import ListNotations.

(** * C36: setters and getters *)

(** After any sequence of calls every quantity of the problem has the value given by the last call that
    names it, and its old value if no call names it. *)
Theorem C36_setters : forall T (sc : Scalar T) (s : mpc T) (l : list (call T)) q, valid (prob s) q ->
  read (run_calls s l) q = match last_named (prob s) l q with Some v => v | None => read s q end.
Proof. intros. apply calls_read; auto. Qed.

(** The getters return the stored quantities, node 0 being the initial time. *)
Theorem C36_getters : forall T (sc : Scalar T) (s : mpc T), let o := prob s in
  (forall k c, (k < nodes o)%nat -> (c < NX o)%nat ->
     solution_x_reshaped s c k = read s (x_value k c) /\
     solution_x s (traj (nodes o) (NX o) k c) = read s (x_value k c) /\
     exists v, solution_x_node s (Z.of_nat k) = Some v /\ v c = read s (x_value k c)) /\
  (forall k c, (k < nodes o)%nat -> (c < NU o)%nat ->
     solution_u_reshaped s c k = read s (u_value k c) /\
     solution_u s (traj (nodes o) (NU o) k c) = read s (u_value k c) /\
     exists v, solution_u_node s (Z.of_nat k) = Some v /\ v c = read s (u_value k c)) /\
  (forall c, (c < NP o)%nat -> solution_p s c = read s (p_value c)) /\
  (forall i, solution_dual s i = read s (dual i)).
Proof.
  intros T sc s o. split; [|split; [|split]].
  - intros k c Hk Hc. split; [apply reshaped_x; auto|]. split; [reflexivity|].
    destruct (node_x s k Hk) as (v & E & V). exists v. auto.
  - intros k c Hk Hc. split; [apply reshaped_u; auto|]. split.
    + unfold solution_u, seg. cbn [read]. fold o. f_equal. unfold VARX, NUM_NODES, nodes. lia.
    + destruct (node_u s k Hk) as (v & E & V). exists v. auto.
  - intros. apply sol_p.
  - reflexivity.
Qed.

(** node 0 of the getters is the initial time of the problem, the last node the final time *)
Theorem C36_node_times : forall o : ocp R, chebyshev_ocp o ->
  grid_of o 0%nat = t_start o /\ grid_of o (nodes o - 1)%nat = t_stop o.
Proof.
  intros o Hch. unfold grid_of, nodes, NUM_NODES. split.
  - replace (PO o * SG o + 1 - 1 - 0)%nat with (PO o * SG o)%nat by lia. apply time_last; auto.
  - rewrite Nat.sub_diag. apply time_first; auto.
Qed.

Local Open Scope R_scope.
(** * C37: interpolation *)

(** a polynomial of the order of the discretisation that takes the stored state at the nodes of segment [i] *)
Definition state_polynomial (s : mpc R) (i c : nat) (q : R -> R) : Prop :=
  let o := prob s in
  is_poly (PO o) q /\ forall j, (j <= PO o)%nat -> q (grid_of o (i * PO o + j)%nat) = read s (x_value (i * PO o + j) c).
Definition control_polynomial (s : mpc R) (i c : nat) (q : R -> R) : Prop :=
  let o := prob s in
  is_poly (PO o) q /\ forall j, (j <= PO o)%nat -> q (grid_of o (i * PO o + j)%nat) = read s (u_value (i * PO o + j) c).
(** the time [t] lies in segment [i] *)
Definition in_segment (o : ocp R) (i : nat) (t : R) : Prop :=
  (i < SG o)%nat /\ grid_of o (i * PO o)%nat <= t <= grid_of o (i * PO o + PO o)%nat.
(** a wrapper that was constructed and used only through its own calls *)
Definition reachable (s : mpc R) : Prop := exists o x lam par lbx ubx lbg ubg l,
  Forall not_behind l /\ s = run_calls (mpc_init o x lam par lbx ubx lbg ubg) l.
Lemma reachable_step : forall s, reachable s -> in_step s.
Proof. intros s (o & x & lam & par & a & b & c & d & l & HF & ->). apply calls_in_step; auto. apply init_in_step. Qed.

Lemma seg_bounds : forall o, chebyshev_ocp o -> forall i t, in_segment o i t ->
  let len := (t_stop o - t_start o) / INR (SG o) in t_start o + INR i * len <= t <= t_start o + (INR i + 1) * len.
Proof.
  intros o Hch i t (Hi & H1 & H2) len. pose proof Hch as (HP & HS & _).
  pose proof (grid_eq o Hch i 0 Hi ltac:(lia)) as E1. pose proof (grid_eq o Hch i (PO o) Hi ltac:(lia)) as E2.
  rewrite Nat.add_0_r in E1. rewrite Nat.sub_0_r, nodes_last in E1 by auto. rewrite Nat.sub_diag, nodes_first in E2.
  fold len in E1, E2. rewrite E1 in H1. rewrite E2 in H2. lra.
Qed.

(** the wrapper's public time grid lists the times of the nodes the getters count, for the current time limits *)
Theorem C36_time_grid : forall s, reachable s -> forall k, time_grid s k = time_nodes (prob s) (nodes (prob s) - 1 - k)%nat.
Proof.
  intros s (o & x & lam & par & a & b & c & d & l & HF & ->) k. rewrite (calls_grid l); auto.
Qed.

(** which segment is evaluated: number clip(floor(t / length)); the full property asks for the one that contains t *)
Lemma values_x : forall s i, chebyshev_ocp (prob s) -> (i < SG (prob s))%nat -> forall c q, (c < NX (prob s))%nat -> state_polynomial s i c q ->
  forall j, (j <= PO (prob s))%nat -> q (grid_of (prob s) (i * PO (prob s) + j)%nat) = solution_x_reshaped s c (i * PO (prob s) + j)%nat.
Proof.
  intros s i Hch Hi c q Hc (_ & Hq) j Hj. rewrite Hq by auto. symmetry. apply reshaped_x; auto. unfold nodes. nia.
Qed.
Lemma values_u : forall s i, chebyshev_ocp (prob s) -> (i < SG (prob s))%nat -> forall c q, (c < NU (prob s))%nat -> control_polynomial s i c q ->
  forall j, (j <= PO (prob s))%nat -> q (grid_of (prob s) (i * PO (prob s) + j)%nat) = solution_u_reshaped s c (i * PO (prob s) + j)%nat.
Proof.
  intros s i Hch Hi c q Hc (_ & Hq) j Hj. rewrite Hq by auto. symmetry. apply reshaped_u; auto. unfold nodes. nia.
Qed.


Lemma seg_poly_ex : forall o i, chebyshev_ocp o -> t_start o < t_stop o -> (i < SG o)%nat ->
  forall w : nat -> R, exists q, is_poly (PO o) q /\ forall j, (j <= PO o)%nat -> q (grid_of o (i * PO o + j)%nat) = w j.
Proof.
  intros o i Hch Ht Hi w. pose proof Hch as (HP & HS & _).
  destruct (interp_exists (PO o) (fun j => grid_of o (i * PO o + j)%nat) w HP) as (q & q' & Hq & _ & V).
  - intros a b Ha Hb Hne E. rewrite !(grid_eq o Hch) in E by lia.
    apply (grid_distinct o Hch ltac:(lra) a b); try lia.
    pose proof (grid_eq o Hch 0 a ltac:(lia) ltac:(lia)) as Ea. pose proof (grid_eq o Hch 0 b ltac:(lia) ltac:(lia)) as Eb.
    cbn [Nat.mul Nat.add] in Ea, Eb. rewrite Ea, Eb. lra.
  - exists q. split; auto.
Qed.

(** the horizon starts at time zero, or there is one segment whose times, measured in segment lengths, fit an index *)
Definition supported_start (o : ocp R) : Prop :=
  t_start o = 0 \/
  (SG o = 1%nat /\ - IZR (2 ^ 63) * (t_stop o - t_start o) <= t_start o /\ t_stop o < IZR (2 ^ 63) * (t_stop o - t_start o)).

Lemma right_segment : forall s v, in_step s -> let o := prob s in
  chebyshev_ocp o -> t_start o < t_stop o -> (Z.of_nat (SG o) < 2 ^ 63)%Z -> supported_start o ->
  forall i t, in_segment o i t -> exists r, interp_at s v t = Some r /\
  forall c q, is_poly (PO o) q -> (forall j, (j <= PO o)%nat -> q (grid_of o (i * PO o + j)%nat) = v c (i * PO o + j)%nat) -> r c = q t.
Proof.
  intros s v Hst o Hch Ht Hsz Hsup i t Hin. pose proof Hch as (HP & HS & _). pose proof (seg_bounds o Hch i t Hin) as Hb. cbv zeta in Hb.
  set (len := (t_stop o - t_start o) / INR (SG o)) in *. destruct Hin as (Hi & Hlo & Hhi).
  assert (HR : 0 < INR (SG o)) by (apply lt_0_INR; lia).
  assert (Hlen : 0 < len) by (unfold len; apply Rdiv_lt_0_compat; lra).
  assert (Hq : forall z : Z, IZR z * len <= t -> t < (IZR z + 1) * len -> IZR z <= t / len < IZR z + 1).
  { intros z A B. assert (t = t / len * len) by (field; lra). split.
    - apply Rmult_le_reg_r with len; lra.
    - apply Rmult_lt_reg_r with len; lra. }
  assert (HII : INR i = IZR (Z.of_nat i)) by apply INR_IZR_INZ.
  destruct Hsup as [H0|(H1 & HA & HB)].
  - rewrite H0 in Hb. rewrite !Rplus_0_l in Hb.
    destruct (Rlt_le_dec t ((INR i + 1) * len)) as [L|L].
    + assert (F : floor_index (t / len) = Some (Z.of_nat i)) by (apply floor_index_some; [lia|apply Hq; rewrite <- HII; lra]).
      destruct (interp_eval o Hch s v t _ eq_refl Hst ltac:(lra) F) as (r & E & V). exists r. split; [exact E|].
      cbv zeta in V. replace (Z.to_nat (Z.max 0 (Z.min (Z.of_nat i) (Z.of_nat (SG o) - 1)))) with i in V by lia. auto.
    + assert (Et : t = (INR i + 1) * len) by lra.
      assert (HI1 : INR i + 1 = IZR (Z.of_nat (S i))) by (rewrite <- INR_IZR_INZ, S_INR; reflexivity).
      assert (F : floor_index (t / len) = Some (Z.of_nat (S i))).
      { apply floor_index_some; [lia|]. apply Hq; rewrite <- HI1, Et; lra. }
      destruct (interp_eval o Hch s v t _ eq_refl Hst ltac:(lra) F) as (r & E & V). exists r. split; [exact E|]. cbv zeta in V.
      destruct (Nat.eq_dec (S i) (SG o)) as [e|e].
      * replace (Z.to_nat (Z.max 0 (Z.min (Z.of_nat (S i)) (Z.of_nat (SG o) - 1)))) with i in V by lia. auto.
      * replace (Z.to_nat (Z.max 0 (Z.min (Z.of_nat (S i)) (Z.of_nat (SG o) - 1)))) with (S i) in V by lia.
        intros c q Hp Hv. destruct (seg_poly_ex o (S i) Hch Ht ltac:(lia) (fun j => v c (S i * PO o + j)%nat)) as (q2 & Hp2 & Hv2).
        rewrite (V c q2 Hp2 Hv2).
        assert (Eg : grid_of o (S i * PO o + 0)%nat = t).
        { rewrite (grid_eq o Hch) by lia. rewrite Nat.sub_0_r, nodes_last by auto. rewrite S_INR, H0, Et. unfold len. rewrite H0. field. lra. }
        specialize (Hv2 0%nat ltac:(lia)). rewrite Eg in Hv2. rewrite Hv2.
        specialize (Hv (PO o) ltac:(lia)). replace (i * PO o + PO o)%nat with (S i * PO o + 0)%nat in Hv by lia. rewrite Eg in Hv. auto.
  - assert (Hl : len = t_stop o - t_start o) by (unfold len; rewrite H1; cbn [INR]; field).
    replace i with 0%nat in * by lia. cbn [INR] in Hb.
    pose proof (Int_part_bounds (t / len)) as HZ. set (z := Int_part (t / len)) in *.
    assert (Etl : t = t / len * len) by (field; lra).
    assert (T1 : - IZR (2 ^ 63) <= t / len) by (apply Rmult_le_reg_r with len; [lra|rewrite <- Etl, Hl; lra]).
    assert (T2 : t / len < IZR (2 ^ 63)) by (apply Rmult_lt_reg_r with len; [lra|rewrite <- Etl, Hl; lra]).
    assert (F : floor_index (t / len) = Some z).
    { apply floor_index_some; [|exact HZ]. split.
      - assert (A : IZR (- 2 ^ 63) < IZR (z + 1)) by (rewrite plus_IZR, opp_IZR; lra). apply lt_IZR in A. lia.
      - assert (A : IZR z < IZR (2 ^ 63)) by lra. apply lt_IZR in A. lia. }
    destruct (interp_eval o Hch s v t _ eq_refl Hst ltac:(lra) F) as (r & E & V). exists r. split; [exact E|].
    cbv zeta in V. replace (Z.to_nat (Z.max 0 (Z.min z (Z.of_nat (SG o) - 1)))) with 0%nat in V by lia. auto.
Qed.

(** Missing compared with the full property: several segments with a horizon that does not start at zero, where it is
    false, see below. *)
Theorem C37_interpolation_partial : forall s, reachable s -> let o := prob s in
  chebyshev_ocp o -> t_start o < t_stop o -> (Z.of_nat (SG o) < 2 ^ 63)%Z -> supported_start o ->
  forall i t, in_segment o i t ->
  (exists v, solution_x_at s t = Some v /\ forall c q, (c < NX o)%nat -> state_polynomial s i c q -> v c = q t) /\
  (exists v, solution_u_at s t = Some v /\ forall c q, (c < NU o)%nat -> control_polynomial s i c q -> v c = q t).
Proof.
  intros s Hr o Hch Ht Hsz Hsup i t Hin. pose proof (reachable_step s Hr) as Hst. pose proof (proj1 Hin) as Hi. split.
  - destruct (right_segment s (solution_x_reshaped s) Hst Hch Ht Hsz Hsup i t Hin) as (r & E & V). exists r. split; [exact E|].
    intros c q Hc Hq. apply V; [apply Hq|]. apply values_x; auto.
  - destruct (right_segment s (solution_u_reshaped s) Hst Hch Ht Hsz Hsup i t Hin) as (r & E & V). exists r. split; [exact E|].
    intros c q Hc Hq. apply V; [apply Hq|]. apply values_u; auto.
Qed.

(** In general the polynomial of segment clip(floor(t / length)) is evaluated at the time t, wherever the horizon starts. *)
Theorem C37_selected_segment_partial : forall s, reachable s -> let o := prob s in
  let len := (t_stop o - t_start o) / INR (SG o) in
  chebyshev_ocp o -> t_start o <> t_stop o -> forall t z, (- 2 ^ 63 <= z <= 2 ^ 63 - 1)%Z -> IZR z <= t / len < IZR z + 1 ->
  exists v, solution_x_at s t = Some v /\
    forall c q, (c < NX o)%nat -> state_polynomial s (Z.to_nat (Z.max 0 (Z.min z (Z.of_nat (SG o) - 1)))) c q -> v c = q t.
Proof.
  intros s Hr o len Hch Ht t z Hz Hb. pose proof (reachable_step s Hr) as Hst. pose proof Hch as (_ & HS & _).
  destruct (interp_eval o Hch s (solution_x_reshaped s) t z eq_refl Hst Ht (floor_index_some _ _ Hz Hb)) as (r & E & V).
  exists r. split; [exact E|]. intros c q Hc Hq. apply V; [apply Hq|]. apply values_x; auto. fold o. lia.
Qed.

(** Several segments and a start at least one segment length after zero: the state at the initial time is not returned. *)
Theorem C37_late_start_refuted : forall o, chebyshev_ocp o -> t_start o < t_stop o -> (2 <= SG o)%nat ->
  let len := (t_stop o - t_start o) / INR (SG o) in len <= t_start o < IZR (2 ^ 63) * len ->
  exists s v, reachable s /\ prob s = o /\ grid_of o 0%nat = t_start o /\
    solution_x_at s (t_start o) = Some v /\ v 0%nat <> read s (x_value 0 0).
Proof.
  intros o Hch Ht HS2 len (HA & HB). pose proof Hch as (HP & HS & HX & _).
  assert (HR : 0 < INR (SG o)) by (apply lt_0_INR; lia).
  assert (Hlen : 0 < len) by (unfold len; apply Rdiv_lt_0_compat; lra).
  set (x := fun i : nat => if (i =? traj (nodes o) (NX o) 0 0)%nat then 1 else 0).
  set (s := mpc_init o x (fun _ => 0) (fun _ => 0) (fun _ => 0) (fun _ => 0) (fun _ => 0) (fun _ => 0)).
  assert (Hr : reachable s).
  { exists o, x, (fun _ => 0), (fun _ => 0), (fun _ => 0), (fun _ => 0), (fun _ => 0), (fun _ => 0), nil. split; [constructor|reflexivity]. }
  pose proof (Int_part_bounds (t_start o / len)) as HZ. set (z := Int_part (t_start o / len)) in *.
  assert (Etl : t_start o = t_start o / len * len) by (field; lra).
  assert (T1 : 1 <= t_start o / len) by (apply Rmult_le_reg_r with len; lra).
  assert (T2 : t_start o / len < IZR (2 ^ 63)) by (apply Rmult_lt_reg_r with len; lra).
  assert (Z1 : (1 <= z)%Z) by (assert (A : 1 < IZR (z + 1)) by (rewrite plus_IZR; lra); apply lt_IZR in A; lia).
  assert (Z2 : (z < 2 ^ 63)%Z) by (apply lt_IZR; lra).
  destruct (C37_selected_segment_partial s Hr Hch ltac:(cbn [prob s mpc_init]; lra) (t_start o) z ltac:(lia) HZ) as (v & E & V).
  exists s, v. split; [exact Hr|]. split; [reflexivity|]. split; [apply C36_node_times; auto|]. split; [exact E|].
  rewrite (V 0%nat (fun _ => 0)).
  - cbn [read s mpc_init prob m_x]. unfold x. rewrite Nat.eqb_refl. lra.
  - cbn [prob s mpc_init]. lia.
  - cbn [prob s mpc_init]. split; [exists (fun _ => 0); intro y; symmetry; apply rsum_zero; intros; ring|].
    intros j Hj. cbn [read s mpc_init prob m_x]. unfold x.
    set (i := Z.to_nat (Z.max 0 (Z.min z (Z.of_nat (SG o) - 1)))). assert (Hi : (1 <= i < SG o)%nat) by (unfold i; lia). clearbody i.
    destruct (Nat.eqb_spec (traj (nodes o) (NX o) (i * PO o + j) 0) (traj (nodes o) (NX o) 0 0)) as [e|]; [|reflexivity].
    exfalso. change (PO (prob s)) with (PO o) in Hj. revert e. unfold traj. assert (A1 : (1 * PO o <= i * PO o)%nat) by (apply Nat.mul_le_mono_r; lia). assert (A2 : ((i + 1) * PO o <= SG o * PO o)%nat) by (apply Nat.mul_le_mono_r; lia).
    assert (A3 : (1 <= i * PO o + j < nodes o)%nat) by (unfold nodes; lia). clear -A3 HX. revert A3. generalize (i * PO o + j)%nat (nodes o). intros n m A3 e. assert (n <= m - 1)%nat by lia. nia.
Qed.

(** Changing the limits through ocp() leaves the wrapper's own interpolation data behind. *)
Theorem C37_behind_refuted : exists (s : mpc R) v, reachable s /\
  let s' := exec s (ocp_set_time_limits 0 2) in
  chebyshev_ocp (prob s') /\ grid_of (prob s') 1%nat = 2 /\
  solution_x_at s' 2 = Some v /\ v 0%nat <> read s' (x_value 1 0).
Proof.
  set (o := {| NX := 1%nat; NU := 0%nat; NP := 0%nat; NG := 0%nat; PO := 1%nat; SG := 1%nat;
    m_D := cheb_D 1; m_nodes := cheb_nodes 1; m_w := cheb_int_weights 1; t_start := 0; t_stop := 1;
    o_dyn := fun x u p t c => 0; o_dyn_jac := fun _ _ _ _ _ _ => 0; o_dyn_hes := fun _ _ _ _ _ _ _ => 0;
    o_ine := fun _ _ _ _ _ => 0; o_ine_jac := fun _ _ _ _ _ _ => 0; o_ine_hes := fun _ _ _ _ _ _ _ => 0;
    o_lag := None; o_may := None |} : ocp R).
  assert (Hch : chebyshev_ocp o) by (repeat split; try reflexivity; cbn; lia).
  set (x := fun i : nat => match i with O => 1 | _ => 0 end).
  set (s := mpc_init o x (fun _ => 0) (fun _ => 0) (fun _ => 0) (fun _ => 0) (fun _ => 0) (fun _ => 0)).
  assert (Hr : reachable s).
  { exists o, x, (fun _ => 0), (fun _ => 0), (fun _ => 0), (fun _ => 0), (fun _ => 0), (fun _ => 0), nil. split; [constructor|reflexivity]. }
  destruct (C37_selected_segment_partial s Hr Hch ltac:(cbn; lra) 2 2 ltac:(lia)) as (v & E & V).
  { cbn. lra. }
  exists s, v. split; [exact Hr|]. split; [repeat split; try reflexivity; cbn; lia|]. split; [|split; [exact E|]].
  - apply (C36_node_times (prob (exec s (ocp_set_time_limits 0 2)))). repeat split; try reflexivity; cbn; lia.
  - destruct (C36_node_times o Hch) as (G0 & G1). change (t_start o) with 0 in G0. change (t_stop o) with 1 in G1. change (nodes o - 1)%nat with 1%nat in G1.
    rewrite (V 0%nat (fun y => y)); [cbn; lra|cbn; lia|]. split.
    + exists (fun k => match k with 1%nat => 1 | _ => 0 end). intro y. cbn [prob s mpc_init PO o]. rewrite !rsum_S, rsum_0. cbn. ring.
    + cbn [prob s mpc_init PO o]. intros j Hj. assert (j = 0 \/ j = 1)%nat as [->| ->] by lia; cbn -[grid_of]; [exact G0|exact G1].
Qed.

(** * examples *)

(** two states, five nodes: bounds on all states, then the initial and the final state *)
Example C36_example : forall s : mpc R, prob s = ex_ocp -> forall lb ub x0 xf,
  let s' := run_calls s [state_bounds lb ub; initial_conditions x0; final_state_bounds xf xf; set_time_limits 0 5] in
  m_lbx s' 8%nat = x0 0%nat /\ m_lbx s' 3%nat = lb 1%nat /\ m_ubx s' 1%nat = xf 1%nat /\ m_lbx s' 10%nat = m_lbx s 10%nat.
Proof.
  intros s Hs lb ub x0 xf s'. split; [|split; [|split]].
  - pose proof (C36_setters R _ s [state_bounds lb ub; initial_conditions x0; final_state_bounds xf xf; set_time_limits 0 5]
      (x_bound lower 0 0)) as E. rewrite Hs in E. cbn -[exec read run_calls] in E. rewrite <- E by lia. unfold read. unfold run_calls. cbn. rewrite Hs. reflexivity.
  - pose proof (C36_setters R _ s [state_bounds lb ub; initial_conditions x0; final_state_bounds xf xf; set_time_limits 0 5]
      (x_bound lower 3 1)) as E. rewrite Hs in E. cbn -[exec read run_calls] in E. rewrite <- E by lia. unfold read. unfold run_calls. cbn. rewrite Hs. reflexivity.
  - pose proof (C36_setters R _ s [state_bounds lb ub; initial_conditions x0; final_state_bounds xf xf; set_time_limits 0 5]
      (x_bound upper 4 1)) as E. rewrite Hs in E. cbn -[exec read run_calls] in E. rewrite <- E by lia. unfold read. unfold run_calls. cbn. rewrite Hs. reflexivity.
  - pose proof (C36_setters R _ s [state_bounds lb ub; initial_conditions x0; final_state_bounds xf xf; set_time_limits 0 5]
      (u_bound lower 4 0)) as E. rewrite Hs in E. cbn -[exec read run_calls] in E.
    transitivity (read s (u_bound lower 4 0)); [|unfold read; rewrite Hs; reflexivity]. rewrite <- E by lia. unfold read. unfold run_calls. cbn. rewrite Hs. reflexivity.
Qed.

(** two segments on [0,4], state component 0 stored as t^2 at the nodes: the value at t = 3 is 9 *)
Definition ex_mpc : mpc R :=
  run_calls (mpc_init ex_ocp (fun i => if (i mod 2 =? 0)%nat then (grid_of (with_times ex_ocp 0 4) (4 - i / 2)%nat) ^ 2 else 0)
    (fun _ => 0) (fun _ => 0) (fun _ => 0) (fun _ => 0) (fun _ => 0) (fun _ => 0)) [set_time_limits 0 4].
Example C37_example : exists v, solution_x_at ex_mpc 3 = Some v /\ v 0%nat = 9.
Proof.
  assert (Hch : chebyshev_ocp (prob ex_mpc)).
  { exact ex_cheb. }
  assert (Hin : in_segment (prob ex_mpc) 1 3).
  { split; [cbn; lia|]. rewrite (proj2 (C36_node_times _ Hch) : grid_of (prob ex_mpc) (1 * PO (prob ex_mpc) + PO (prob ex_mpc))%nat = t_stop (prob ex_mpc)).
    pose proof (grid_eq (prob ex_mpc) Hch 1 0 ltac:(cbn; lia) ltac:(cbn; lia)) as E. rewrite Nat.add_0_r, Nat.sub_0_r, nodes_last in E by (cbn; lia).
    rewrite E. cbn [ex_mpc run_calls fold_left exec prob mpc_init with_times t_start t_stop SG ex_ocp INR]. lra. }
  destruct (C37_interpolation_partial ex_mpc) with (i := 1%nat) (t := 3) as ((v & E & V) & _).
  - unfold ex_mpc. do 9 eexists. split; [|reflexivity]. constructor; [exact I|constructor].
  - exact Hch.
  - cbn. lra.
  - cbn. lia.
  - left. reflexivity.
  - exact Hin.
  - exists v. split; [exact E|]. rewrite (V 0%nat (fun y => y ^ 2)); [ring|cbn; lia|]. split.
    + exists (fun k => match k with 2%nat => 1 | _ => 0 end). intro y. change (PO (prob ex_mpc)) with 2%nat. rewrite !rsum_S, rsum_0. ring.
    + change (PO (prob ex_mpc)) with 2%nat. intros j Hj.
      change (prob ex_mpc) with (with_times ex_ocp 0 4).
      assert (j = 0 \/ j = 1 \/ j = 2)%nat as [->|[->| ->]] by lia; reflexivity.
Qed.
(** the late start of the example problem, horizon [1,3] *)
Example C37_late_start_example : exists s v, reachable s /\ prob s = ex_ocp /\
    solution_x_at s 1 = Some v /\ v 0%nat <> read s (x_value 0 0).
Proof.
  destruct (C37_late_start_refuted ex_ocp ex_cheb) as (s & v & H1 & H2 & _ & H3 & H4).
  - cbn. lra.
  - cbn. lia.
  - cbn [t_start t_stop SG ex_ocp INR]. lra.
  - exists s, v. split; [exact H1|]. split; [exact H2|]. split; [exact H3|exact H4].
Qed.

Print Assumptions C36_setters.
Print Assumptions C36_getters.
Print Assumptions C36_node_times.
Print Assumptions C36_time_grid.
Print Assumptions C37_interpolation_partial.
Print Assumptions C37_selected_segment_partial.
Print Assumptions C37_late_start_refuted.
Print Assumptions C37_behind_refuted.
