(** Further property theorems for the CasADi classes: named parameters and slacks of GenericOCP (C84, C85), failed calls and
    getVirtState of the path following controller (C86). *)
Require Import Arith List Bool String Lia Reals Lra.
From Verif Require Import Scal RSum PolyR Poly_Spec Blk Cas_Model Cas_Spec Cas_Proofs Cas_Props Pso_Model Pso_Spec Pso_Proofs.
From Verif Require Gen_Model Gen_Spec Gen_Proofs Gen_Props.
From Verif Require Nmpc_Model Nmpc_Spec Nmpc_Proofs Nmpc_Props Nmpf_Model Nmpf_Spec Nmpf_Proofs Nmpf_Props.
Import ListNotations.
Local Open Scope R_scope.

Section Generic.
Import Nmpc_Model Nmpc_Proofs Nmpc_Props Gen_Model Gen_Spec Gen_Proofs Gen_Props.

(** set_parameter_mapping(n, range) changes the meaning of the name n alone: setting by another name does the same as before *)
Theorem C84_mapping : forall t n ab m v, let t1 := set_mapping t n ab in
  (m <> n -> forall t', set_parameters_name t m v = Some t' <-> exists t1', set_parameters_name t1 m v = Some t1' /\ s_p t1' = s_p t' /\
      s_lbx t1' = s_lbx t' /\ s_ubx t1' = s_ubx t' /\ s_x0 t1' = s_x0 t' /\ s_map t = s_map t' /\ s_lamx t1' = s_lamx t' /\ s_lamg t1' = s_lamg t' /\ s_res t1' = s_res t') /\
  (m <> n -> (set_parameters_name t m v = None <-> set_parameters_name t1 m v = None)) /\
  s_p t1 = s_p t /\ s_map t1 n = Some ab.
Proof.
  intros t n ab m v t1. unfold t1. unfold set_parameters_name. cbn [set_mapping set_map s_map s_p s_lbx s_ubx s_x0]. rewrite String.eqb_refl.
  split; [|split; [|auto]]; intro Hm; apply String.eqb_neq in Hm; rewrite Hm; destruct (s_map t m) as [[a b]|].
  - destruct (assign (s_p t) a b v) as [p|].
    + intro t'. split.
      * intro E. inversion E. eexists. split; [reflexivity|]. cbn. auto 10.
      * intros (t1' & E & E1 & E2 & E3 & E4 & E5 & E6 & E7 & E8). inversion E. subst t1'. cbn in *. f_equal. unfold set_p. destruct t'. cbn in *. subst. reflexivity.
    + intro t'. split; [discriminate|]. intros (? & E & _). discriminate.
  - intro t'. split; [discriminate|]. intros (? & E & _). discriminate.
  - destruct (assign (s_p t) a b v); split; discriminate || auto.
  - split; auto.
Qed.
Print Assumptions C84_mapping.
Example C84_mapping_ex : exists t t1 t2, gen_new (gsys 0 by_u 0 ic5 0 ic5 [] false None None false None) = Some t /\
  t1 = set_mapping t "v" (0%nat, 1%nat) /\ set_parameters_name (set_mapping t1 "w" (5%nat, 6%nat)) "v" [7] = Some t2 /\ s_p t2 = [7].
Proof.
  set (s := gsys 0 by_u 0 ic5 0 ic5 [] false None None false None).
  assert (Hp : proper s) by (apply gsys_proper; discriminate). destruct Hp as (_ & _ & _ & Hn).
  unfold gen_new in *. destruct (setup_ok s); [|congruence]. eexists. eexists. eexists. split; [reflexivity|]. split; [reflexivity|]. split; reflexivity.
Qed.

(** with slacks, after a call with a feasible answer: get_slacks gives values that are never negative, and all of them
    vanish exactly when every path constraint is active everywhere *)
Theorem C85_get_slacks : forall ipopt s t b lb ub X0 LX LG t', proper s -> grun ipopt s t b -> g_slacks s = true -> path_count s <> 0%nat ->
  gsolve s ipopt t lb ub X0 LX LG = (t', true) ->
  (forall x lx lg, s_res t' = Some (x, lx, lg) -> gfeasible (gen_nlp s) (s_lbx t') (s_ubx t') (lval (s_p t')) x) ->
  exists sl W V p, get_slacks s t' = Some sl /\ get_trajectory s t' = Some W /\ get_control s t' = Some V /\ get_parameters s t' = Some p /\
    (forall i, (i < path_count s)%nat -> 0 <= sl i) /\
    ((forall i, (i < path_count s)%nat -> sl i = 0) <-> path_all s (s_p t) (mkT W V p) (fun v => v = 0)).
Proof.
  intros ipopt s t b lb ub X0 LX LG t' (Hd & Ht & Hpos & Hn) Hr Hu Hc E Hip.
  destruct (C84_result ipopt s t b lb ub X0 LX LG t' (conj Hd (conj Ht (conj Hpos Hn))) Hr E Hip) as (W & V & p & EW & EV & Ep & _).
  pose proof (setup_inv s Hn) as Hs.
  pose proof (grun_inv s Hs ipopt t b Hr) as Hi. destruct (gsolve_st s ipopt t lb ub X0 LX LG) as (E1 & E2 & E3 & _). rewrite E in E1, E2, E3. cbn [fst] in *.
  assert (Ex : exists x lx lg, s_res t' = Some (x, lx, lg)).
  { unfold gsolve in E. destruct (ipopt (gen_nlp s) _ _ _ _ _ _) as [[[x lx] lg]|]; [|discriminate]. inversion E. cbn. eauto. }
  destruct Ex as (x & lx & lg & Ex). specialize (Hip x lx lg Ex).
  exists (fun i => x (P_END s + i)%nat), W, V, p. split; [unfold get_slacks; rewrite Ex; reflexivity|]. split; [auto|]. split; [auto|]. split; [auto|].
  assert (Ew : mkT W V p = physical s x).
  { unfold get_trajectory, get_control, get_parameters in *. rewrite Ex in EW, EV, Ep. inversion EW. inversion EV. inversion Ep. unfold physical. f_equal.
    - unfold g_SX. rewrite inv_factor. reflexivity.
    - apply FunctionalExtensionality.functional_extensionality. intro k. apply FunctionalExtensionality.functional_extensionality. intro i.
      unfold g_SU. rewrite inv_factor. f_equal. f_equal. unfold U_START. rewrite N_last. lia.
    - apply FunctionalExtensionality.functional_extensionality. intro i. unfold g_SP. rewrite inv_factor. reflexivity. }
  rewrite Ew. rewrite E1, E2, E3 in Hip. change (s_p (gprepare s t lb ub X0 LX LG)) with (s_p t) in *.
  assert (Ed : dl s (lval (s_p t)) = s_p t).
  { destruct Hi as (_ & _ & _ & _ & _ & _ & _ & L). unfold dl. apply nth_ext with 0 0; [rewrite map_length, seq_length; auto|]. intros i Hj. rewrite map_length, seq_length in Hj. rewrite map_nth_seq by lia. reflexivity. }
  assert (Sc := Hs). apply setup_iff in Sc; auto. destruct Sc as (_ & Hcalls & _).
  assert (En : n_path s = path_count s) by (apply n_path_count; auto; unfold calls_ok in Hcalls; tauto).
  assert (Euse : use s = true) by (unfold use; rewrite Hu, En; apply Nat.eqb_neq in Hc; rewrite Hc; reflexivity).
  destruct Hip as [F1 F2]. apply (bounds_iff s Hs Hpos t b lb ub X0 LX LG x Hi) in F1. destruct F1 as (_ & _ & _ & _ & Fs). specialize (Fs Euse).
  apply (rows_iff s Hd Ht Hs Hpos) in F2. destruct F2 as [_ F2]. rewrite Euse in F2.
  destruct (path_slack s Hd Ht Hs x (lval (s_p t)) Euse F2) as [P1 P2]. rewrite Ed in P2. rewrite <- En. split; [exact Fs|]. rewrite <- P2. split.
  - intro Z. apply rsum_zero. intros i Hj. rewrite Z by auto. ring.
  - intros Z i Hj. assert (Q : forall i, (i < n_path s)%nat -> 0 <= x (P_END s + i)%nat * x (P_END s + i)%nat) by (intros; nra).
    pose proof (rsum_nonneg_zero _ _ Q Z i Hj) as K. cbv beta in K. nra.
Qed.
Print Assumptions C85_get_slacks.
(** x <= 10 at both nodes, the answer stays at 4: some slack is positive *)
Example C85_get_slacks_ex : exists ip t t' sl, gen_new slk = Some t /\ gsolve slk ip t (fun _ => Some 4) (fun _ => Some 4) None None None = (t', true) /\
  get_slacks slk t' = Some sl /\ ~ (forall i, (i < 2)%nat -> sl i = 0).
Proof.
  destruct (slk_point 4 ltac:(lra)) as (t & y & E & Y0 & Y1 & F).
  set (ip := fun (_ : gnlp) (_ _ _ : vec (option R)) (_ : list R) (_ _ : option (vec R)) => Some (y, (fun _ : nat => 0), (fun _ : nat => 0))).
  destruct (gsolve slk ip t (fun _ => Some 4) (fun _ => Some 4) None None None) as [t' ok] eqn:G.
  assert (Gt : ok = true) by (unfold gsolve, ip in G; inversion G; reflexivity). subst ok.
  assert (F' : gfeasible (gen_nlp slk) (s_lbx t') (s_ubx t') (lval (s_p t')) y) by (unfold gsolve, ip in G; inversion G; exact F).
  assert (Ry : forall x lx lg, s_res t' = Some (x, lx, lg) -> x = y) by (intros x lx lg R; unfold gsolve, ip in G; inversion G; subst t'; cbn [s_res] in R; inversion R; reflexivity).
  destruct (C85_get_slacks ip slk t nobox (fun _ => Some 4) (fun _ => Some 4) None None None t' slk_proper (gr_new ip slk t E) eq_refl ltac:(cbn; lia) G) as (sl & W & V & p & E1 & E2 & E3 & E4 & _ & E5).
  { intros x lx lg R. rewrite (Ry x lx lg R). exact F'. }
  exists ip, t, t', sl. split; [exact E|]. split; [exact G|]. split; [exact E1|]. intro Z. apply E5 in Z. destruct Z as [Z _]. destruct (Z ltac:(discriminate)) as [K _].
  specialize (K 0%nat 0%nat ltac:(cbn; lia) ltac:(cbn; lia)).
  assert (W0 : W 0%nat 0%nat = y 0%nat).
  { unfold get_trajectory in E2. destruct (s_res t') as [[[x lx] lg]|] eqn:R; [|discriminate]. inversion E2. rewrite (Ry x lx lg eq_refl). unfold dinv, g_SX. cbn. field. }
  unfold at_node, slk in K. cbn in K. unfold ic10 in K. cbn in K. rewrite W0, Y0 in K. lra.
Qed.
End Generic.

Section Path.
Import Nmpc_Model Nmpc_Spec Nmpc_Proofs Nmpf_Model Nmpf_Spec Nmpf_Proofs Nmpf_Props.

(** a warm start whose solver call throws: no new trajectory or control, but the stored solution has been moved: it is the
    guess of that call, from which the next warm start begins *)
Theorem C86_failed : forall ipopt s t X0 x t', t_warm t = true -> t_nlpx t = Some x ->
  pf_compute ipopt s t X0 = (t', false) ->
  t_traj t' = t_traj t /\ t_ctrl t' = t_ctrl t /\ t_warm t' = true /\ t_nlpx t' = Some (a_x0 (t_arg t')).
Proof.
  intros ipopt s t X0 x t' Hw Hn E. unfold pf_compute, pf_prepare in E. rewrite Hw, Hn in E.
  cbv zeta in E. destruct (ipopt _ _ _ _) as [[[? ?] ?]|]; inversion E. cbn. auto.
Qed.
Print Assumptions C86_failed.
(** the solver answers the first call and throws in the second one (it sees a warm start): the stored theta is 1/4 - 1 *)
Definition once (l : nlp) (a : narg) (lx lg : vec R) : option (vec R * vec R * vec R) :=
  if Rlt_dec 0 (a_x0 a 4%nat) then low l a lx lg else None.
Example C86_failed_ex : exists t x t', pf_compute low (line false None None) line0 [2; 1 / 2; 0] = (t, true) /\ t_nlpx t = Some x /\ t_warm t = true /\
  pf_compute once (line false None None) t [2; 3 / 2; 0] = (t', false) /\
  exists x', t_nlpx t' = Some x' /\ pf_states (line false None None) x' 0 1 = pf_states (line false None None) x 0 1 - 1.
Proof.
  destruct line_first as (t & E & _ & Ex & _). set (s := line false None None) in *.
  pose proof (pf_run_comp low s line0 free free free free 1 _ [2; 1 / 2; 0] (pf_run_new low s line0 line_new) eq_refl) as Hr. rewrite E in Hr. cbn [fst] in Hr.
  assert (Ew : t_warm t = true) by (unfold pf_compute in E; destruct (pf_prepare _ _ _); [|discriminate]; inversion E; reflexivity).
  destruct (pf_compute once s t [2; 3 / 2; 0]) as [t' ok] eqn:E2. exists t. eexists. exists t'. split; [exact E|]. split; [exact Ex|]. split; [exact Ew|].
  assert (Es : t_sx t = pf_sx s) by apply (pf_run_inv low s line_reg0 _ _ _ _ _ _ _ Hr).
  assert (Ep : exists p, pf_prepare s t [2; 3 / 2; 0] = Some p) by (apply prepared; intros _; rewrite Ex; discriminate).
  destruct Ep as [p Ep].
  destruct (C86_reset low s t free free free free 1 _ [2; 3 / 2; 0] _ line_reg0 Hr eq_refl Ew Ex) as (K & _). cbv zeta in K.
  rewrite (proj1 (pf_compute_arg low s t _ p Ep)) in K.
  assert (Wd : wrapped s true (nth (h_nx s) [2; 3 / 2; 0] 0) - nth (h_nx s) [2; 3 / 2; 0] 0 = -1).
  { unfold wrapped. cbn. destruct (Rlt_dec 1 (3 / 2)); lra. }
  rewrite Wd in K.
  assert (K0 := K 0%nat 1%nat ltac:(cbn; lia) ltac:(cbn; lia)). assert (K1 := K 1%nat 1%nat ltac:(cbn; lia) ltac:(cbn; lia)).
  unfold pf_states in K1. cbn in K1.
  assert (ok = false) as ->.
  { unfold pf_compute in E2. rewrite Ep in E2. unfold once in E2. destruct (Rlt_dec 0 (a_x0 (t_arg p) 4%nat)) as [L|L]; [exfalso; lra|]. inversion E2. reflexivity. }
  split; [exact E2|]. destruct (C86_failed once s t [2; 3 / 2; 0] _ t' Ew Ex E2) as (_ & _ & _ & F). eexists. split; [exact F|].
  rewrite <- (proj1 (pf_compute_arg once s t _ p Ep)) in K0. rewrite E2 in K0. cbn [fst] in K0. rewrite K0. cbn. ring.
Qed.

(** getVirtState after a successful call: theta at the initial node for 13 states, its velocity for 12, a state of the
    system for more than 13 and an exception for fewer than 12 *)
Theorem C86_virt : forall ipopt s t X0 t' W, pf_compute ipopt s t X0 = (t', true) -> t_traj t' = Some W ->
  (h_nx s = 13%nat -> pf_getVirtState s t' = Some (W (pf_nodes s) (h_nx s))) /\
  (h_nx s = 12%nat -> pf_getVirtState s t' = Some (W (pf_nodes s) (h_nx s + 1)%nat)) /\
  ((13 < h_nx s)%nat -> exists i, (i < h_nx s)%nat /\ pf_getVirtState s t' = Some (W (pf_nodes s) i)) /\
  ((h_nx s < 12)%nat -> pf_getVirtState s t' = None).
Proof.
  intros ipopt s t X0 t' W _ E. unfold pf_getVirtState. rewrite E. unfold pf_nodes. split; [|split; [|split]].
  - intros ->. reflexivity.
  - intros ->. reflexivity.
  - intro H. exists 13%nat. split; [exact H|]. destruct (Nat.ltb_spec 13 (h_nx s + 2)); [reflexivity|lia].
  - intro H. destruct (Nat.ltb_spec 13 (h_nx s + 2)); [lia|reflexivity].
Qed.
Print Assumptions C86_virt.
(** 13 states that do not move, a solver that puts INR i at entry i: theta at the last of the two nodes is entry 28 *)
Definition still (n : nat) : pf :=
  mkPf 1 1 n 1 1 2 (mkFun 2 n (fun _ _ => 0)) (fun l i => nth i l 0)
    (mkFun 1 1 (fun l _ => match l with (th :: nil) :: _ => th | _ => 0 end)) (fun _ _ => 1)
    (fun _ _ => 1) (fun i j => if (i =? j)%nat then 1 else 0) 1 false None None 1 0 [] (1 / 4).
Definition entries (l : nlp) (a : narg) (_ _ : vec R) : option (vec R * vec R * vec R) := Some (INR, fun _ => 0, fun _ => 0).
Example C86_virt_ex : exists t t', pf_new (still 13) = Some t /\ pf_compute entries (still 13) t (repeat 0 15) = (t', true) /\
  pf_getVirtState (still 13) t' = Some (/ 1 * INR 28).
Proof.
  eexists. eexists. split; [reflexivity|]. split; [reflexivity|]. reflexivity.
Qed.
End Path.
