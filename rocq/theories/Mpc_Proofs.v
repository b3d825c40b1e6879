(** Proofs about the MPC wrapper. *)
Require Import Arith ZArith List Bool Lia Reals Lra.
From Verif Require Import Scal RSum Blk PolyR Poly_Spec Cheb_Model Cheb_Proofs Legendre_Model Spline_Model Spline_Proofs
  Ocp_Model Ocp_Spec Ocp_Proofs Mpc_Model Mpc_Spec.

Section F.
Context {T : Type} {sc : Scalar T}.

Lemma prob_dims : forall (s : mpc T) f, let o := prob s in let o' := prob (exec s f) in
  NX o' = NX o /\ NU o' = NU o /\ NP o' = NP o /\ NG o' = NG o /\ PO o' = PO o /\ SG o' = SG o.
Proof. intros s f. destruct f; cbn; repeat split; reflexivity. Qed.

Lemma vset_in : forall (v : vec T) a n w i, (a <= i < a + n)%nat -> vset v a n w i = w (i - a)%nat.
Proof. intros. unfold vset. rewrite in_seg_true by lia. reflexivity. Qed.
Lemma vset_out : forall (v : vec T) a n w i, (i < a \/ a + n <= i)%nat -> vset v a n w i = v i.
Proof. intros. unfold vset. rewrite in_seg_false by lia. reflexivity. Qed.
Lemma rep_traj : forall (v : vec T) n m k c, (c < m)%nat -> replicate m v (traj n m k c) = v c.
Proof.
  intros. unfold replicate, traj. f_equal. rewrite Nat.add_comm, Nat.mod_add by lia. apply Nat.mod_small; auto.
Qed.
Lemma traj_lt : forall n m k c, (k < n)%nat -> (c < m)%nat -> (traj n m k c < n * m)%nat.
Proof. intros. unfold traj. nia. Qed.
Lemma traj_first : forall n m c, (0 < n)%nat -> traj n m 0 c = (n * m - m + c)%nat.
Proof. intros. unfold traj. replace (n - 1 - 0)%nat with (n - 1)%nat by lia. nia. Qed.
Lemma traj_later : forall n m k c, (S k < n)%nat -> (c < m)%nat -> (traj n m (S k) c < n * m - m)%nat.
Proof. intros. unfold traj. nia. Qed.
Lemma traj_last : forall n m c, (0 < n)%nat -> traj n m (n - 1) c = c.
Proof. intros. unfold traj. replace (n - 1 - (n - 1))%nat with 0%nat by lia. reflexivity. Qed.
Lemma traj_notlast : forall n m k c, (k < n)%nat -> k <> (n - 1)%nat -> (m <= traj n m k c)%nat.
Proof. intros. unfold traj. nia. Qed.

Lemma exec_read : forall (s : mpc T) f q, valid (prob s) q ->
  read (exec s f) q = match names (prob s) f q with Some v => v | None => read s q end.
Proof.
  intros s f q Hq. set (o := prob s) in *. set (n := nodes o).
  assert (Hn : (0 < n)%nat) by (unfold n, nodes; lia).
  assert (EX : VARX o = (n * NX o)%nat) by (unfold VARX, NUM_NODES, n, nodes; lia).
  assert (EU : VARU o = (n * NU o)%nat) by (unfold VARU, NUM_NODES, n, nodes; lia).
  assert (EV : (VAR o - NP o)%nat = (n * NX o + n * NU o)%nat) by (unfold VAR; rewrite EX, EU; lia).
  assert (EXm : (NX o <= n * NX o)%nat) by nia.
  destruct f; destruct q; try reflexivity;
    cbn [exec names read prob set_lbx set_ubx set_g set_sol m_x m_lam m_par m_lbx m_ubx m_lbg m_ubg]; fold o; fold n;
    rewrite ?EX, ?EU, ?EV; cbn [valid] in Hq; fold n in Hq;
    repeat match goal with b : bound |- _ => destruct b end; cbn [pick];
    try (destruct Hq as [Hk Hc]; pose proof (traj_lt n _ _ _ Hk Hc));
    try match goal with |- context [match ?k with O => _ | S _ => _ end] =>
      destruct k as [|k]; [pose proof (traj_first n (NX o) c Hn)|pose proof (traj_later n (NX o) k c Hk Hc)]; cbv iota end;
    try match goal with |- context [(?k =? n - 1)%nat] =>
      destruct (Nat.eqb_spec k (n - 1)) as [->|Hne]; [pose proof (traj_last n (NX o) c Hn)|pose proof (traj_notlast n (NX o) k c Hk Hne)]; cbv iota end;
    try reflexivity;
    first [reflexivity
          | rewrite vset_out by lia; reflexivity
          | rewrite vset_in by lia; rewrite ?Nat.sub_0_r;
            first [reflexivity | f_equal; lia | apply rep_traj; assumption
                  | match goal with |- context [replicate ?m ?v ?i] => match i with context [traj ?n ?m' ?k ?c] => replace i with (traj n m' k c) by lia end end;
                    apply rep_traj; assumption]
          | apply rep_traj; assumption].
Qed.

Lemma names_dims : forall (o o' : ocp T) f q, NX o' = NX o -> NU o' = NU o -> NP o' = NP o -> NG o' = NG o -> PO o' = PO o -> SG o' = SG o ->
  names o' f q = names o f q.
Proof. intros o o' f q a b c d e g. unfold names, nodes. rewrite a, b, d, e, g. reflexivity. Qed.
Lemma valid_dims : forall (o o' : ocp T) q, NX o' = NX o -> NU o' = NU o -> NP o' = NP o -> NG o' = NG o -> PO o' = PO o -> SG o' = SG o ->
  valid o q -> valid o' q.
Proof. intros o o' q a b c d e g. unfold valid, nodes. rewrite a, b, c, d, e, g. auto. Qed.
Lemma last_dims : forall (o o' : ocp T) l q, NX o' = NX o -> NU o' = NU o -> NP o' = NP o -> NG o' = NG o -> PO o' = PO o -> SG o' = SG o ->
  last_named o' l q = last_named o l q.
Proof. induction l; intros; auto. cbn [last_named]. rewrite IHl, (names_dims o o') by auto. reflexivity. Qed.

Lemma calls_read : forall l (s : mpc T) q, valid (prob s) q ->
  read (run_calls s l) q = match last_named (prob s) l q with Some v => v | None => read s q end.
Proof.
  induction l as [|f l IH]; intros s q Hq; [reflexivity|].
  destruct (prob_dims s f) as (a & b & c & d & e & g).
  cbn [run_calls fold_left last_named]. fold (run_calls (exec s f) l). rewrite IH by (apply (valid_dims (prob s)); auto).
  rewrite (last_dims (prob s) (prob (exec s f))) by auto. destruct (last_named (prob s) l q); [reflexivity|]. apply exec_read; auto.
Qed.

Lemma reshaped_x : forall (s : mpc T) k c, (k < nodes (prob s))%nat -> (c < NX (prob s))%nat ->
  solution_x_reshaped s c k = read s (x_value k c).
Proof. intros. unfold solution_x_reshaped. cbn [read]. f_equal. unfold traj, NUM_NODES, nodes. lia. Qed.
Lemma reshaped_u : forall (s : mpc T) k c, (k < nodes (prob s))%nat -> (c < NU (prob s))%nat ->
  solution_u_reshaped s c k = read s (u_value k c).
Proof. intros. unfold solution_u_reshaped, solution_u, seg. cbn [read]. f_equal. unfold traj, VARX, NUM_NODES, nodes. lia. Qed.
Lemma node_x : forall (s : mpc T) k, (k < nodes (prob s))%nat -> exists v, solution_x_node s (Z.of_nat k) = Some v /\
  forall c, (c < NX (prob s))%nat -> v c = read s (x_value k c).
Proof.
  intros s k Hk. unfold solution_x_node, segmentZ. set (o := prob s) in *.
  assert (HV : VARX o = (nodes o * NX o)%nat) by (unfold VARX, NUM_NODES, nodes; lia).
  assert (HS : (Z.of_nat (VARX o) - (Z.of_nat k + 1) * Z.of_nat (NX o) = Z.of_nat ((nodes o - 1 - k) * NX o))%Z) by (rewrite HV; nia).
  rewrite HS. match goal with |- context [if ?b then _ else _] => assert (Hb : b = true); [apply andb_true_intro; split; apply Z.leb_le; [apply Nat2Z.is_nonneg|rewrite <- Nat2Z.inj_add; apply Nat2Z.inj_le; unfold VAR; rewrite HV; assert ((nodes o - 1 - k) * NX o + NX o <= nodes o * NX o)%nat by nia; lia]|rewrite Hb] end.
  eexists. split; [reflexivity|]. intros c Hc. rewrite Nat2Z.id. reflexivity.
Qed.
Lemma node_u : forall (s : mpc T) k, (k < nodes (prob s))%nat -> exists v, solution_u_node s (Z.of_nat k) = Some v /\
  forall c, (c < NU (prob s))%nat -> v c = read s (u_value k c).
Proof.
  intros s k Hk. unfold solution_u_node, segmentZ. set (o := prob s) in *.
  assert (HV : VARX o = (nodes o * NX o)%nat) by (unfold VARX, NUM_NODES, nodes; lia).
  assert (HU : VARU o = (nodes o * NU o)%nat) by (unfold VARU, NUM_NODES, nodes; lia).
  assert (HS : (Z.of_nat (VARX o) + Z.of_nat (VARU o) - (Z.of_nat k + 1) * Z.of_nat (NU o) = Z.of_nat (nodes o * NX o + (nodes o - 1 - k) * NU o))%Z)
    by (rewrite HV, HU; nia).
  rewrite HS. match goal with |- context [if ?b then _ else _] => assert (Hb : b = true); [apply andb_true_intro; split; apply Z.leb_le; [apply Nat2Z.is_nonneg|rewrite <- Nat2Z.inj_add; apply Nat2Z.inj_le; unfold VAR; rewrite HV, HU; assert ((nodes o - 1 - k) * NU o + NU o <= nodes o * NU o)%nat by nia; lia]|rewrite Hb] end.
  eexists. split; [reflexivity|]. intros c Hc. rewrite Nat2Z.id. unfold seg. cbn [read]. fold o. f_equal. unfold traj. lia.
Qed.
Lemma sol_p : forall (s : mpc T) c, solution_p s c = read s (p_value c).
Proof. intros. unfold solution_p, seg, VAR, VARX, VARU, NUM_NODES. cbn [read]. f_equal. unfold nodes. lia. Qed.
End F.

(** * interpolation *)
Local Open Scope R_scope.
(** the wrapper's own data belong to the time limits of the problem *)
Definition in_step (s : mpc R) : Prop :=
  let o := prob s in
  basis s = lagrange_basis (PO o + 1) (grid_of o) /\ sgm_length s = (t_stop o - t_start o) / INR (SG o) /\
  nodes_per_segm s = (NUM_NODES o / SG o)%nat.
Definition not_behind (f : call R) : Prop := match f with ocp_set_time_limits _ _ => False | _ => True end.

Lemma snat_R : forall n, snat n = INR n.
Proof. intros. unfold snat. cbn. symmetry. apply INR_IZR_INZ. Qed.
Lemma init_in_step : forall o x lam par a b c d, in_step (mpc_init o x lam par a b c d).
Proof. intros. unfold in_step, mpc_init. cbn [prob basis sgm_length nodes_per_segm]. rewrite snat_R. repeat split; reflexivity. Qed.
Lemma exec_in_step : forall s f, not_behind f -> in_step s -> in_step (exec s f).
Proof.
  intros s f Hf (H1 & H2 & H3). destruct f; try destruct Hf; unfold in_step;
    cbn [exec prob basis sgm_length nodes_per_segm set_lbx set_ubx set_g set_sol]; auto.
  cbn [with_times PO SG t_stop t_start NUM_NODES]. rewrite snat_R. repeat split; auto.
Qed.
Lemma calls_in_step : forall l s, Forall not_behind l -> in_step s -> in_step (run_calls s l).
Proof. induction l as [|f l IH]; intros s HF Hs; auto. inversion HF; subst. apply IH; auto. apply exec_in_step; auto. Qed.
Lemma calls_grid : forall l s, Forall not_behind l -> time_grid s = grid_of (prob s) -> time_grid (run_calls s l) = grid_of (prob (run_calls s l)).
Proof.
  induction l as [|f l IH]; intros s HF Hs; auto. inversion HF as [|? ? H1 H2]; subst. apply IH; auto.
  destruct f; try destruct H1; cbn [exec prob time_grid set_lbx set_ubx set_g set_sol]; auto.
Qed.

Section I.
Variable o : ocp R.
Hypothesis Hch : chebyshev_ocp o.
Local Notation P := (PO o).
Local Notation Sg := (SG o).
Local Notation len := ((t_stop o - t_start o) / INR Sg).

(** node j of segment i, counted from the initial time *)
Lemma grid_eq : forall i j, (i < Sg)%nat -> (j <= P)%nat ->
  grid_of o (i * P + j)%nat = t_start o + INR i * len + len / 2 * (1 + cheb_nodes P (P - j)).
Proof.
  intros i j Hi Hj. pose proof Hch as (HP & HS & _). unfold grid_of.
  replace (NUM_NODES o - 1 - (i * P + j))%nat with ((Sg - 1 - i) * P + (P - j))%nat.
  2:{ unfold NUM_NODES. assert (E : (P * Sg = (Sg - 1 - i) * P + P + i * P)%nat) by (replace Sg with ((Sg - 1 - i) + 1 + i)%nat at 1 by lia; ring).
      revert E. generalize ((Sg - 1 - i) * P)%nat (P * Sg)%nat (i * P)%nat. intros; lia. }
  rewrite (time_nodes_eq o Hch) by lia. rewrite !minus_INR by lia. cbn [INR]. unfold tlen.
  assert (INR Sg <> 0) by (apply not_0_INR; lia). field. auto.
Qed.
Lemma grid_distinct : t_start o <> t_stop o -> distinct (P + 1) (grid_of o).
Proof.
  intros Ht i j Hi Hj Hne E. pose proof Hch as (HP & HS & _).
  pose proof (grid_eq 0 i ltac:(lia) ltac:(lia)) as E1. pose proof (grid_eq 0 j ltac:(lia) ltac:(lia)) as E2.
  cbn [Nat.mul Nat.add] in E1, E2. rewrite E1, E2 in E.
  assert (HR : INR Sg <> 0) by (apply not_0_INR; lia).
  assert (HL : len <> 0) by (unfold Rdiv; apply Rmult_integral_contrapositive_currified; [lra|apply Rinv_neq_0_compat; auto]).
  apply (nodes_distinct P HP (P - i)%nat (P - j)%nat); try lia.
  apply Rmult_eq_reg_l with (len / 2); lra.
Qed.
Lemma floor_index_some : forall x z, (- 2 ^ 63 <= z <= 2 ^ 63 - 1)%Z -> IZR z <= x < IZR z + 1 -> floor_index x = Some z.
Proof.
  intros x z Hz Hx. unfold floor_index. rewrite (Int_part_unique x z Hx).
  rewrite (proj2 (Z.leb_le (- 2 ^ 63) z)) by lia. rewrite (proj2 (Z.leb_le z (2 ^ 63 - 1))) by lia. reflexivity.
Qed.
Lemma nps_ok : forall i, (i < Sg)%nat -> (i * (NUM_NODES o / Sg) = i * P)%nat.
Proof.
  intros i Hi. destruct (Nat.eq_dec Sg 1) as [e|e]; [replace i with 0%nat by lia; reflexivity|].
  f_equal. unfold NUM_NODES. rewrite Nat.div_add_l by lia. rewrite (Nat.div_small 1 Sg) by lia. lia.
Qed.
(** whatever the time limits: segment clip (floor (t / length)) evaluated at the time t *)
Lemma interp_eval : forall s v t z, prob s = o -> in_step s -> t_start o <> t_stop o -> floor_index (t / len) = Some z ->
  exists r, interp_at s v t = Some r /\
  let i := Z.to_nat (Z.max 0 (Z.min z (Z.of_nat Sg - 1))) in
  forall c q, is_poly P q -> (forall j, (j <= P)%nat -> q (grid_of o (i * P + j)%nat) = v c (i * P + j)%nat) -> r c = q t.
Proof.
  intros s v t z Ho (HB & HL & HN) Ht Hz. pose proof Hch as (HP & HS & _). rewrite Ho in HB, HL, HN.
  assert (HR : INR Sg <> 0) by (apply not_0_INR; lia).
  assert (HLn : len <> 0) by (unfold Rdiv; apply Rmult_integral_contrapositive_currified; [lra|apply Rinv_neq_0_compat; auto]).
  unfold interp_at. rewrite Ho, HL. destruct (Req_EM_T len 0) as [e|_]; [contradiction|]. rewrite Hz.
  assert (EB : exists B, lagrange_basis (P + 1) (grid_of o) = Some B).
  { unfold lagrange_basis. destruct (Nat.ltb_spec (P + 1) 2); [lia|]. eauto. }
  destruct EB as [B EB]. rewrite HB, EB. cbv zeta. set (idx := Z.max 0 (Z.min z (Z.of_nat Sg - 1))). set (i := Z.to_nat idx).
  assert (Hi : (i < Sg)%nat) by (unfold i, idx; lia). assert (Hidx : idx = Z.of_nat i) by (unfold i, idx; lia).
  rewrite HN, nps_ok by auto.
  rewrite (proj2 (Nat.leb_le (i * P + (P + 1)) (NUM_NODES o))) by (unfold NUM_NODES; nia).
  eexists. split; [reflexivity|]. intros c q Hq Hv.
  rewrite Hidx, <- INR_IZR_INZ.
  destruct (is_poly_list P q Hq) as (l & Hl & El).
  rewrite (lagrange_reproduces (P + 1) (grid_of o) B _ c (fun y => peval l (1 * y + INR i * len))); auto; try lia.
  - rewrite El. f_equal. ring.
  - apply grid_distinct; auto.
  - replace (P + 1 - 1)%nat with P by lia. apply poly_affine. auto.
  - intros j Hj. rewrite <- Hv by lia. rewrite El. f_equal.
    pose proof (grid_eq 0 j ltac:(lia) ltac:(lia)) as E0. cbn [Nat.mul Nat.add] in E0. rewrite E0, grid_eq by lia. cbn [INR]. ring.
Qed.
End I.
