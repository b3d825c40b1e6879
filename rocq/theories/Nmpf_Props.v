(** Property theorems for the CasADi path following controller (C86, C87). *)
Require Import Arith List Bool Lia Reals Lra.
From Verif Require Import Scal RSum PolyR Poly_Spec Blk Cheb_Proofs Ocp_Proofs Cas_Model Cas_Spec Cas_Proofs Cas_Props Pso_Model Pso_Spec Pso_Proofs
  Nmpc_Model Nmpc_Spec Nmpc_Proofs Nmpf_Model Nmpf_Spec Nmpf_Proofs.
Import ListNotations.
Local Open Scope R_scope.

(** * C86: the problem that computeControl solves *)

Lemma prepared : forall s t X0, (t_warm t = true -> t_nlpx t <> None) -> exists t', pf_prepare s t X0 = Some t'.
Proof.
  intros s t X0 H. unfold pf_prepare. destruct (t_warm t); [|eexists; reflexivity]. destruct (t_nlpx t); [eexists; reflexivity|].
  exfalso. apply H; auto.
Qed.

(** after any sequence of calls, the feasible points of the NLP are the feasible trajectories of the path following
    problem from X0, in scaled coordinates: theta starts near its value in X0, wrapped for a warm start *)
Theorem C86_problem : forall ipopt s t lbx ubx lbu ubu v q X0 x pv, pf_regular s -> pf_run ipopt s t lbx ubx lbu ubu v q ->
  length X0 = (h_nx s + 2)%nat -> (t_warm t = true -> t_nlpx t <> None) ->
  feasible (pf_nlp s) (t_arg (fst (pf_compute ipopt s t X0))) pv x <->
  pf_feasible s X0 (wrapped s (t_warm t) (nth (h_nx s) X0 0)) lbx ubx lbu ubu (pf_states s x) (pf_controls s x).
Proof.
  intros ipopt s t lbx ubx lbu ubu v q X0 x pv Hreg Hr HX Hw. destruct (prepared s t X0 Hw) as [t' Ht].
  rewrite (proj1 (pf_compute_arg ipopt s t X0 t' Ht)). apply (pf_feasible_iff s Hreg t t' lbx ubx lbu ubu v q); auto.
  apply (pf_run_inv ipopt s Hreg t); auto.
Qed.
Print Assumptions C86_problem.

(** a feasible answer of the solver: the stored trajectory and control are feasible for the path following problem; the
    error functions give the distance from the path and from the reference velocity at the initial node *)
Theorem C86_result : forall ipopt s t lbx ubx lbu ubu v q X0 t', pf_regular s -> pf_run ipopt s t lbx ubx lbu ubu v q ->
  length X0 = (h_nx s + 2)%nat ->
  pf_compute ipopt s t X0 = (t', true) ->
  (forall x, t_nlpx t' = Some x -> feasible (pf_nlp s) (t_arg t') (fun _ => 0) x) ->
  exists W V, t_traj t' = Some W /\ t_ctrl t' = Some V /\
    pf_feasible s X0 (wrapped s (t_warm t) (nth (h_nx s) X0 0)) lbx ubx lbu ubu W V /\
    pf_getPathError s t' = sqrt (rsum (h_ny s) (fun i => (path_error s q (W (pf_nodes s)) i) ^ 2)) /\
    pf_getVelocityError s t' = Rabs (v - W (pf_nodes s) (h_nx s + 1)%nat) /\
    pf_getVelocityError s t' <= Rabs (v - nth (h_nx s + 1) X0 0) + h_flex s.
Proof.
  intros ipopt s t lbx ubx lbu ubu v q X0 t' Hreg Hr HX Hc Hf. pose proof (pf_run_inv ipopt s Hreg t _ _ _ _ _ _ Hr) as Hi.
  unfold pf_compute in Hc. destruct (pf_prepare s t X0) as [t1|] eqn:Ep; [|discriminate].
  destruct (ipopt (pf_nlp s) (t_arg t1) (t_lamx t1) (t_lamg t1)) as [[[x lx] lg]|] eqn:E; [|discriminate].
  assert (F : feasible (pf_nlp s) (t_arg t1) (fun _ => 0) x) by (inversion Hc; subst t'; exact (Hf x eq_refl)). apply (pf_feasible_iff s Hreg t t1 lbx ubx lbu ubu v q X0 x _ Hi HX Ep) in F.
  destruct (prepare_facts s t X0 t1 Ep) as (E1 & E2 & _ & E4 & _). pose proof Hi as (A & B & _ & Pp & _).
  rewrite A in E1. rewrite B in E2. rewrite Pp in E4.
  inversion Hc. subst t'. clear Hc. eexists. eexists. split; [reflexivity|]. split; [reflexivity|].
  split; [rewrite E1, E2; exact F|].
  unfold pf_getPathError, pf_getVelocityError, last_state. cbn [t_traj t_sx t_arg]. rewrite E1, E4. rewrite dmul_map.
  change (fun i => pf_sx s i * (dinv (pf_sx s) i * x (h_P s * h_S s * (h_nx s + 2) + i)%nat)) with
    (fun i => pf_sx s i * pf_states s x (h_P s * h_S s) i).
  rewrite (velerr_phys s Hreg).
  assert (Ev : sqrt ((v - pf_states s x (h_P s * h_S s) (h_nx s + 1)) ^ 2) = Rabs (v - pf_states s x (h_P s * h_S s) (h_nx s + 1))).
  { rewrite <- sqrt_Rsqr_abs. f_equal. unfold Rsqr. ring. }
  split; [|split].
  - f_equal. apply rsum_ext. intros i Hi'. rewrite (residual_phys s Hreg). reflexivity.
  - exact Ev.
  - rewrite Ev. destruct F as (_ & _ & F & _). unfold pf_nodes in F. set (a := pf_states s x (h_P s * h_S s) (h_nx s + 1)) in *. set (b := nth (h_nx s + 1) X0 0) in *.
    replace (v - a) with ((v - b) + - (a - b)) by ring. eapply Rle_trans; [apply Rabs_triang|]. rewrite Rabs_Ropp. lra.
Qed.
Print Assumptions C86_result.

(** on the first segment in time theta is a polynomial whose first derivative is the velocity and whose second
    derivative is the virtual control, at all its nodes *)
Theorem C86_virtual : forall s X0 th lbx ubx lbu ubu W V, pf_regular s -> pf_feasible s X0 th lbx ubx lbu ubu W V ->
  exists q q' q'', is_poly (h_P s) q /\ derivative_of q q' /\ derivative_of q' q'' /\
    forall j, (j <= h_P s)%nat -> let k := ((h_S s - 1) * h_P s + j)%nat in
      q (pf_time s (h_S s - 1) j) = W k (h_nx s) /\ q' (pf_time s (h_S s - 1) j) = W k (h_nx s + 1)%nat /\
      q'' (pf_time s (h_S s - 1) j) = V k (h_nu s).
Proof.
  intros s X0 th lbx ubx lbu ubu W V Hreg (_ & _ & _ & _ & _ & _ & H1 & H2). pose proof Hreg as (HP & HS & _ & Ht & _).
  destruct (H1 (h_S s - 1)%nat ltac:(lia)) as (q & q' & Pq & Dq & Vq & Cq). destruct (H2 (h_S s - 1)%nat ltac:(lia)) as (r & r' & Pr & Dr & Vr & Cr).
  assert (E : forall y, q' y = r y).
  { destruct (is_poly_list _ _ Pq) as (l & Hl & El). destruct (is_poly_list _ _ Pr) as (m & Hm & Em).
    assert (D : forall y, q' y = peval (pder l) y).
    { intro y. apply (derivable_unique q y); [apply Dq|]. apply derivable_pt_lim_ext with (peval l); [intro; symmetry; auto|apply peval_derivable]. }
    intro y. rewrite D, Em. apply (interp_unique (S (h_P s))) with (fun j => pf_time s (h_S s - 1) j).
    - rewrite length_der. lia.
    - exact Hm.
    - exact (times_distinct (pf_cas s) (pf_dims s Hreg) 0 (h_tf s) Ht (h_S s - 1)%nat).
    - intros j Hj. rewrite <- D, <- Em. rewrite Cq by (split; lia). rewrite Vr by lia. reflexivity. }
  exists q, q', r'. split; [exact Pq|]. split; [exact Dq|]. split.
  - intro y. apply derivable_pt_lim_ext with r; [intro; symmetry; auto|apply Dr].
  - intros j Hj k. split; [apply Vq; auto|]. split; [apply Cq; split; lia|]. apply Cr. split; lia.
Qed.
Print Assumptions C86_virtual.

(** a warm start: the guess is the last solution, with theta moved by the same amount as in X0 at all the nodes.  A theta of
    at most two reset lengths comes into the reset interval.  If the path has the reset length as period, the moved guess
    has the cost of the last solution and satisfies the dynamics when that does. *)
Theorem C86_reset : forall ipopt s t lbx ubx lbu ubu v q X0 x, pf_regular s -> pf_run ipopt s t lbx ubx lbu ubu v q ->
  length X0 = (h_nx s + 2)%nat -> t_warm t = true -> t_nlpx t = Some x ->
  let th := nth (h_nx s) X0 0 in let c := wrapped s true th - th in
  let g := a_x0 (t_arg (fst (pf_compute ipopt s t X0))) in
  (forall k i, (k <= pf_nodes s)%nat -> (i < h_nx s + 2)%nat ->
     pf_states s g k i = pf_states s x k i + (if (i =? h_nx s)%nat then c else 0)) /\
  (forall k i, pf_controls s g k i = pf_controls s x k i) /\
  (Rabs th <= 2 * h_reset s -> Rabs (wrapped s true th) <= h_reset s) /\
  ((forall th i, path_point s (th + h_reset s) q i = path_point s th q i) ->
     l_f (pf_nlp s) g (lval (a_p (t_arg (fst (pf_compute ipopt s t X0))))) = l_f (pf_nlp s) x (lval (a_p (t_arg t))) /\
     ((forall i, (i < l_ng (pf_nlp s))%nat -> l_g (pf_nlp s) x (lval (a_p (t_arg t))) i = 0) ->
      forall i, (i < l_ng (pf_nlp s))%nat -> l_g (pf_nlp s) g (lval (a_p (t_arg t))) i = 0)).
Proof.
  intros ipopt s t lbx ubx lbu ubu v q X0 x Hreg Hr HX Hw Hn th c g. pose proof (pf_run_inv ipopt s Hreg t _ _ _ _ _ _ Hr) as (A & _ & _ & Pp & Lq & _).
  assert (Ep : pf_prepare s t X0 <> None) by (unfold pf_prepare; rewrite Hw, Hn; discriminate).
  destruct (pf_prepare s t X0) as [t1|] eqn:E; [|congruence]. destruct (pf_compute_arg ipopt s t X0 t1 E) as (Ea & _).
  destruct (prepare_facts s t X0 t1 E) as (_ & _ & _ & E4 & _).
  assert (Eg : g = shift s (pf_sx s (h_nx s) * c) x).
  { unfold g. rewrite Ea. unfold pf_prepare in E. rewrite Hw, Hn in E. inversion E. cbn [t_arg a_x0]. f_equal.
    pose proof (start_nth s Hreg t X0 (h_nx s) HX ltac:(lia) A) as Z. unfold start in Z. rewrite dmul_length, HX, nth_map_seq in Z by lia.
    rewrite Nat.eqb_refl, Hw in Z. rewrite dmul_nth in * by lia. rewrite A in Z |- *. unfold c. fold th in Z. fold th. lra. }
  pose proof (pf_sx_pos s Hreg (h_nx s)) as Hp. pose proof Hreg as (HP & HS & _ & Ht & _).
  assert (Hst : forall k i, (k <= pf_nodes s)%nat -> (i < h_nx s + 2)%nat -> pf_states s g k i = pf_states s x k i + (if (i =? h_nx s)%nat then c else 0)).
  { intros k i Hk Hi. rewrite Eg. rewrite shift_states by auto. destruct (Nat.eqb_spec i (h_nx s)) as [->|]; [|reflexivity]. f_equal. field. lra. }
  assert (Hct : forall k i, pf_controls s g k i = pf_controls s x k i) by (intros; rewrite Eg; apply shift_controls).
  split; [exact Hst|]. split; [exact Hct|]. split.
  - intro B. apply Rabs_inv in B. unfold wrapped. apply Rabs_le. assert (0 < h_reset s) by apply Hreg.
    destruct (Rlt_dec (h_reset s) th); [lra|]. destruct (Rlt_dec th (- h_reset s)); lra.
  - intro Per. assert (Pc : forall th0 i, path_point s (th0 + c) q i = path_point s th0 q i).
    { intros th0 i. unfold c, wrapped. destruct (Rlt_dec (h_reset s) th).
      - rewrite <- (Per (th0 + (th - h_reset s - th)) i). f_equal. ring.
      - destruct (Rlt_dec th (- h_reset s)).
        + replace (th0 + (th + h_reset s - th)) with (th0 + h_reset s) by ring. apply Per.
        + f_equal. ring. }
    assert (Perr : forall k i, (k <= pf_nodes s)%nat -> path_error s q (pf_states s g k) i = path_error s q (pf_states s x k) i).
    { intros k i Hk. unfold path_error. rewrite Hst by (auto; lia). rewrite Nat.eqb_refl. rewrite Pc. f_equal. f_equal. apply map_ext_in. intros j Hj.
      apply in_seq in Hj. rewrite Hst by (auto; lia). replace (j =? h_nx s)%nat with false by (symmetry; apply Nat.eqb_neq; lia). ring. }
    assert (Pl : forall p, length p = (h_npp s + 1)%nat -> map (lval p) (seq 0 (h_npp s + 1)) = p).
    { intros p L. apply nth_ext with 0 0; [rewrite map_length, seq_length; auto|]. intros j Hj. rewrite map_length, seq_length in Hj. apply nth_map_seq. auto. }
    split.
    + rewrite Ea, E4. cbn [l_f pf_nlp]. rewrite !Pl by (rewrite Pp; cbn; lia). rewrite Pp. rewrite !(pf_cost_quad s Hreg). f_equal.
      * apply wsum_ext. intros i _. apply Perr. lia.
      * apply rsum_ext. intros k Hk. f_equal. apply rsum_ext. intros m Hm. f_equal. assert (B : (k * h_P s + m <= pf_nodes s)%nat) by (unfold pf_nodes; nia).
        unfold pf_stage. rewrite Hst by (auto; lia). replace (h_nx s + 1 =? h_nx s)%nat with false by (symmetry; apply Nat.eqb_neq; lia). rewrite Rplus_0_r.
        f_equal; [f_equal|]; apply wsum_ext; intros i _; auto.
    + cbn [l_g l_ng pf_nlp]. intro H. apply (pf_colloc_parts s Hreg) in H. destruct H as (H1 & H2 & H3). apply (pf_colloc_parts s Hreg).
      assert (Same : forall i k, (k <= pf_nodes s)%nat -> (i < h_nx s + 2)%nat -> i <> h_nx s -> pf_states s g k i = pf_states s x k i).
      { intros i k Hk Hi Hne. rewrite Hst by auto. destruct (Nat.eqb_spec i (h_nx s)); [contradiction|ring]. }
      assert (Bnd : forall sg l, (sg < h_S s)%nat -> (l <= h_P s)%nat -> (sg * h_P s + l <= pf_nodes s)%nat) by (intros; unfold pf_nodes; nia).
      split; [|split].
      * intros i Hi sg Hs. destruct (H1 i Hi sg Hs) as (r & r' & R1 & R2 & R3 & R4). exists r, r'. split; [exact R1|]. split; [exact R2|]. split.
        -- intros j Hj. rewrite (Same i) by (auto; lia). auto.
        -- intros l Hl. rewrite R4 by auto. f_equal. f_equal; [|f_equal]; [|apply map_ext; intro; auto].
           apply map_ext_in. intros j Hj. apply in_seq in Hj. symmetry. apply Same; try lia. apply Bnd; auto. apply Hl.
      * intros sg Hs. destruct (H2 sg Hs) as (r & r' & R1 & R2 & R3 & R4). exists (fun y => r y + c), r'. split; [|split; [|split]].
        -- destruct R1 as [a Ha]. exists (fun k => a k + (if (k =? 0)%nat then c else 0)). intro y.
           rewrite (rsum_ext _ _ (fun k => a k * y ^ k + (if (k =? 0)%nat then c * y ^ k else 0))) by (intros k _; destruct (k =? 0)%nat; ring).
           rewrite rsum_plus. rewrite (rsum_delta _ 0 (fun k => c * y ^ k)) by lia. rewrite Ha. cbn. ring.
        -- intro y. replace (r' y) with (r' y + 0) by ring. apply derivable_pt_lim_plus; [apply R2|apply derivable_pt_lim_const].
        -- intros j Hj. rewrite R3 by auto. rewrite Hst by (auto; lia). rewrite Nat.eqb_refl. reflexivity.
        -- intros l Hl. rewrite R4 by auto. symmetry. apply Same; try lia. apply Bnd; auto. apply Hl.
      * intros sg Hs. destruct (H3 sg Hs) as (r & r' & R1 & R2 & R3 & R4). exists r, r'. split; [exact R1|]. split; [exact R2|]. split.
        -- intros j Hj. rewrite (Same (h_nx s + 1)%nat) by (auto; lia). auto.
        -- intros l Hl. rewrite R4 by auto. symmetry. apply Hct.
Qed.
Print Assumptions C86_reset.

(** x' = u, order 1, one segment, horizon 2; the path is the line theta -> theta, reset length 1, flexibility 1/4 *)
Definition line (sc : bool) (sx su : option (vec R)) : pf :=
  mkPf 1 1 1 1 1 2 (mkFun 2 1 (fun l _ => match l with _ :: (u :: nil) :: _ => u | _ => 0 end)) (fun l i => nth i l 0)
    (mkFun 1 1 (fun l _ => match l with (th :: nil) :: _ => th | _ => 0 end)) (fun _ _ => 1)
    (fun _ _ => 1) (fun i j => if (i =? j)%nat then 1 else 0) 1 sc sx su 1 0 [] (1 / 4).
Lemma line_reg : forall sc sx su, (forall d, sx = Some d -> forall i, 0 < d i) -> (forall d, su = Some d -> forall i, 0 < d i) -> pf_regular (line sc sx su).
Proof. intros sc sx su H1 H2. repeat split; cbn; try lia; try lra; auto. Qed.
Lemma line_reg0 : pf_regular (line false None None).
Proof. apply line_reg; intros d E; discriminate. Qed.
(** a solver that stays at the lower initial bounds, with zero controls *)
Definition val (b : option R) : R := match b with Some v => v | None => 0 end.
Definition low (l : nlp) (a : narg) (_ _ : vec R) : option (vec R * vec R * vec R) :=
  Some ((fun i => match i with
                  | 0%nat | 3%nat => val (a_lbx a 3%nat)
                  | 1%nat | 4%nat => val (a_lbx a 4%nat)
                  | _ => 0 end), fun _ => 0, fun _ => 0).
Definition line0 : nst :=
  mkNst (fun _ => 1) (fun _ => 1) (mkArg (fun _ => 0) (fun _ => None) (fun _ => None) [1 * 1]) (fun _ => 0) (fun _ => 0) None (fun _ => 0) (fun _ => 0)
        false false None None.
Lemma line_new : pf_new (line false None None) = Some line0.
Proof. reflexivity. Qed.
Lemma line_still : forall a b c d X0 th x, length X0 = 3%nat -> x 0%nat = nth 0 X0 0 -> x 3%nat = nth 0 X0 0 -> x 1%nat = x 4%nat ->
  Rabs (x 4%nat - th) <= 1 / 4 -> x 2%nat = 0 -> x 5%nat = 0 -> Rabs (0 - nth 2 X0 0) <= 1 / 4 ->
  x 6%nat = 0 -> x 7%nat = 0 -> x 8%nat = 0 -> x 9%nat = 0 ->
  (forall k i, above (a i) (pf_states (line false None None) x k i) /\ below (b i) (pf_states (line false None None) x k i)) ->
  (forall k i, above (c i) (pf_controls (line false None None) x k i) /\ below (d i) (pf_controls (line false None None) x k i)) ->
  pf_feasible (line false None None) X0 th a b c d (pf_states (line false None None) x) (pf_controls (line false None None) x).
Proof.
  intros a b c d X0 th x HX E0 E3 E1 Et E2 E5 Ev E6 E7 E8 E9 Hab Hcd.
  assert (St : forall k i, pf_states (line false None None) x k i = x (k * 3 + i)%nat) by (intros; unfold pf_states, pf_sx; cbn; field).
  assert (Ct : forall k i, pf_controls (line false None None) x k i = x (6 + k * 2 + i)%nat) by (intros; unfold pf_controls, pf_su; cbn; field).
  unfold pf_feasible, pf_nodes. cbn [h_nx h_nu h_P h_S h_flex line Nat.mul Nat.add].
  split; [intros i Hi; assert (i = 0)%nat as -> by lia; rewrite St; exact E3|].
  split; [rewrite St; exact Et|]. split; [rewrite St; cbn [Nat.mul Nat.add]; rewrite E5; exact Ev|].
  split; [intros; apply Hab|]. split; [intros; apply Hcd|].
  assert (Sol : forall W F y, (forall k, (k <= 1)%nat -> W k = y /\ F k = 0) -> solves (line false None None) W F).
  { intros W F y H sg Hs. cbn in Hs. assert (sg = 0)%nat as -> by lia. exists (fun t => 0 * t + y), (fun _ => 0).
    split; [exact (lin_poly 0 y)|]. split; [exact (lin_deriv 0 y)|]. split.
    - intros j Hj. cbn in Hj. destruct (H j Hj) as [W1 _]. cbn. rewrite W1. ring.
    - intros l [Hl _]. cbn in Hl. destruct (H l Hl) as [_ F1]. cbn. auto. }
  split; [|split].
  - intros i Hi. assert (i = 0)%nat as -> by lia. apply (Sol _ _ (nth 0 X0 0)). intros k Hk. rewrite St. cbn [seq map]. rewrite Ct. destruct k as [|[|]]; try lia; cbn; auto.
  - apply (Sol _ _ (x 4%nat)). intros k Hk. rewrite !St. destruct k as [|[|]]; try lia; cbn; auto.
  - apply (Sol _ _ 0). intros k Hk. rewrite St, Ct. destruct k as [|[|]]; try lia; cbn; auto.
Qed.

(** bounds set by the user, X0 = (2; 1/2; 0) *)
Example C86_problem_ex : exists t, pf_run low (line false None None) t (fun _ => Some (-1)) free free free 3 [] /\
  feasible (pf_nlp (line false None None)) (t_arg (fst (pf_compute low (line false None None) t [2; 1 / 2; 0]))) (fun _ => 0)
    (fun i => match i with 0%nat | 3%nat => 2 | 1%nat | 4%nat => 5 / 8 | _ => 0 end).
Proof.
  exists (setReferenceVelocity (line false None None) (pf_setLBX (line false None None) line0 (fun _ => Some (-1))) 3).
  assert (Hr : pf_run low (line false None None) (setReferenceVelocity (line false None None) (pf_setLBX (line false None None) line0 (fun _ => Some (-1))) 3)
            (fun _ => Some (-1)) free free free 3 []) by (eapply pf_run_vel, pf_run_lbx; exact (pf_run_new low _ _ line_new)).
  split; [exact Hr|]. apply (C86_problem low _ _ _ _ _ _ _ _ [2; 1 / 2; 0] _ _ line_reg0 Hr eq_refl).
  - discriminate.
  - apply line_still; try reflexivity.
    + cbn. rewrite Rabs_pos_eq; lra.
    + cbn. rewrite Rminus_0_r, Rabs_R0. lra.
    + intros k i. split; [|exact I]. cbn. unfold pf_states, pf_sx. cbn. rewrite Rinv_1, Rmult_1_l.
      destruct (k * 3 + i)%nat as [|[|[|[|[|]]]]]; lra.
    + intros k i. split; exact I.
Qed.

Lemma low_line : forall t X0 t1, pf_prepare (line false None None) t X0 = Some t1 ->
  pf_compute low (line false None None) t X0 =
  (mkNst (t_sx t1) (t_su t1) (t_arg t1) (t_lamx t1) (t_lamg t1)
     (Some (fun i => match i with 0%nat | 3%nat => val (a_lbx (t_arg t1) 3%nat) | 1%nat | 4%nat => val (a_lbx (t_arg t1) 4%nat) | _ => 0 end))
     (fun _ => 0) (fun _ => 0) true (t_init t1)
     (Some (fun k i => dinv (t_sx t1) i * (match (k * 3 + i)%nat with 0%nat | 3%nat => val (a_lbx (t_arg t1) 3%nat) | 1%nat | 4%nat => val (a_lbx (t_arg t1) 4%nat) | _ => 0 end)))
     (Some (fun k i => dinv (t_su t1) i * (match (6 + k * 2 + i)%nat with 0%nat | 3%nat => val (a_lbx (t_arg t1) 3%nat) | 1%nat | 4%nat => val (a_lbx (t_arg t1) 4%nat) | _ => 0 end))), true).
Proof. intros t X0 t1 H. unfold pf_compute. rewrite H. reflexivity. Qed.

(** moving along the line with velocity 1 *)
Example C86_virtual_ex : let W := fun k i => match k, i with 0%nat, 2%nat => 1 | 0%nat, _ => 2 | _, 2%nat => 1 | _, _ => 0 end in
  let V := fun _ i => if (i =? 0)%nat then 1 else 0 in let s := line false None None in
  pf_feasible s [0; 0; 1] 0 free free free free W V /\
  exists q q' q'', is_poly 1 q /\ derivative_of q q' /\ derivative_of q' q'' /\ q (pf_time s 0 1) = 0 /\ q (pf_time s 0 0) = 2 /\ q' (pf_time s 0 0) = 1 /\ q'' (pf_time s 0 0) = 0.
Proof.
  intros W V s. destruct (seg_ends (mkCas 1 1 3 2 0 0) 0 2 0 (le_n 1)) as [Z0 Z1]. cbn [cP] in Z1. unfold seg_len in Z0, Z1. cbn in Z0, Z1.
  assert (T0 : pf_time s 0 0 = 2) by (unfold pf_time; cbn [s line h_P h_S h_nx h_nu h_tf Nat.add]; rewrite Z0; field).
  assert (T1 : pf_time s 0 1 = 0) by (unfold pf_time; cbn [s line h_P h_S h_nx h_nu h_tf Nat.add]; rewrite Z1; field).
  assert (Sol : forall w F a b, w 0%nat = 2 * a + b -> w 1%nat = b -> F 0%nat = a -> F 1%nat = a -> solves s w F).
  { intros w F a b W0 W1 F0 F1 sg Hs. cbn in Hs. assert (sg = 0)%nat as -> by lia. exists (fun t => a * t + b), (fun _ => a).
    split; [exact (lin_poly a b)|]. split; [exact (lin_deriv a b)|]. split.
    - intros j Hj. cbn in Hj. destruct j as [|[|]]; try lia; [rewrite T0|rewrite T1]; cbn; lra.
    - intros l [Hl _]. cbn in Hl. destruct l as [|[|]]; try lia; cbn; lra. }
  assert (Hf : pf_feasible s [0; 0; 1] 0 free free free free W V).
  { unfold pf_feasible, pf_nodes. cbn [h_nx h_nu h_P h_S h_flex s line Nat.mul Nat.add].
    split; [intros i Hi; assert (i = 0)%nat as -> by lia; reflexivity|].
    split; [cbn; rewrite Rminus_0_r, Rabs_R0; lra|]. split; [cbn; replace (1 - 1) with 0 by ring; rewrite Rabs_R0; lra|].
    split; [intros; split; exact I|]. split; [intros; split; exact I|]. split; [|split].
    - intros i Hi. assert (i = 0)%nat as -> by lia. apply (Sol _ _ 1 0); cbn; lra.
    - apply (Sol _ _ 1 0); cbn; lra.
    - apply (Sol _ _ 0 1); cbn; lra. }
  split; [exact Hf|]. destruct (C86_virtual s _ _ _ _ _ _ W V line_reg0 Hf) as (q & q' & q'' & A & B & C & D). exists q, q', q''.
  destruct (D 0%nat (le_S _ _ (le_n 0))) as (D1 & D2 & D3). destruct (D 1%nat (le_n 1)) as (D4 & _). cbn in D1, D2, D3, D4. auto 10.
Qed.

(** "a warm start with the X0 of the last call starts inside the bounds of the initial node": false.  X0 is not
    stored wrapped, so every call with theta above the reset length moves the last solution again.  theta = 3/2: after two
    calls the guess starts at -3/4, the bound is 1/4. *)
Theorem C86_guess_refuted : exists ipopt s t X0 t1 t2, pf_regular s /\ pf_run ipopt s t free free free free 1 (h_pp0 s) /\ length X0 = (h_nx s + 2)%nat /\
  pf_compute ipopt s t X0 = (t1, true) /\ feasible (pf_nlp s) (t_arg t1) (fun _ => 0) (match t_nlpx t1 with Some x => x | None => fun _ => 0 end) /\
  pf_compute ipopt s t1 X0 = (t2, true) /\
  ~ above (a_lbx (t_arg t2) (pf_nodes s * (h_nx s + 2) + h_nx s)%nat) (a_x0 (t_arg t2) (pf_nodes s * (h_nx s + 2) + h_nx s)%nat).
Proof.
  set (s := line false None None). set (X0 := [2; 3 / 2; 0]).
  destruct (pf_prepare s line0 X0) as [p1|] eqn:P1; [|discriminate].
  assert (B1 : forall i, a_lbx (t_arg p1) (3 + i)%nat = ini_bound s (-1) line0 (start s line0 X0) (fun _ => None) (3 + i)%nat).
  { intro i. destruct (prepare_facts s line0 X0 p1 P1) as (_ & _ & _ & _ & -> & _). reflexivity. }
  assert (S0 : forall i, (i < 3)%nat -> nth i (start s line0 X0) 0 = nth i X0 0).
  { intros i Hi. rewrite (start_nth s line_reg0 line0 X0 i eq_refl Hi eq_refl). cbn [t_warm line0]. unfold wrapped. destruct i as [|[|[|]]]; try lia; cbn; ring. }
  pose proof (low_line line0 X0 p1 P1) as C0. set (t := fst (pf_compute low s line0 X0)).
  assert (Tf : t_sx t = (fun _ => 1) /\ t_warm t = true /\ exists x, t_nlpx t = Some x).
  { unfold t. unfold s. rewrite C0. cbn [fst t_sx t_warm t_nlpx]. split; [destruct (prepare_facts s line0 X0 p1 P1) as (-> & _); reflexivity|]. split; [reflexivity|eexists; reflexivity]. }
  destruct Tf as (Tsx & Tw & x1 & Tx).
  destruct (prepared s t X0 ltac:(intros _; rewrite Tx; discriminate)) as [p2 P2].
  assert (W : wrapped s true (3 / 2) = 1 / 2).
  { unfold wrapped. cbn. destruct (Rlt_dec 1 (3 / 2)); [lra|exfalso; lra]. }
  assert (S2 : forall u i, t_sx u = (fun _ => 1) -> t_warm u = true -> (i < 3)%nat -> nth i (start s u X0) 0 = nth i [2; 1 / 2; 0] 0).
  { intros u i Hu Hw Hi. rewrite (start_nth s line_reg0 u X0 i eq_refl Hi Hu). rewrite Hw. change (nth (h_nx s) X0 0) with (3 / 2). rewrite W. destruct i as [|[|[|]]]; try lia; cbn; ring. }
  assert (B2 : forall u p i, t_sx u = (fun _ => 1) -> t_warm u = true -> pf_prepare s u X0 = Some p -> (i < 2)%nat ->
    a_lbx (t_arg p) (3 + i)%nat = Some (nth i [2; 1 / 4; 0] 0)).
  { intros u p i Hu Hw Hp Hi. destruct (prepare_facts s u X0 p Hp) as (_ & _ & _ & _ & -> & _). unfold ini_bound.
    rewrite in_seg_true by (cbn; lia). change (h_P s * h_S s * (h_nx s + 2))%nat with 3%nat. replace (3 + i - 3)%nat with i by lia. rewrite S2 by (auto; lia). rewrite Hu. f_equal. destruct i as [|[|]]; try lia; cbn; lra. }
  pose proof (low_line t X0 p2 P2) as C1. set (t1 := fst (pf_compute low s t X0)) in *.
  assert (T1 : t_sx t1 = (fun _ => 1) /\ t_warm t1 = true /\
    t_nlpx t1 = Some (fun i => match i with 0%nat | 3%nat => val (a_lbx (t_arg p2) 3%nat) | 1%nat | 4%nat => val (a_lbx (t_arg p2) 4%nat) | _ => 0 end)).
  { unfold t1, s. rewrite C1. cbn [fst t_sx t_warm t_nlpx]. split; [destruct (prepare_facts s t X0 p2 P2) as (-> & _); exact Tsx|]. split; reflexivity. }
  destruct T1 as (T1s & T1w & T1x).
  destruct (prepared s t1 X0 ltac:(intros _; rewrite T1x; discriminate)) as [p3 P3].
  pose proof (low_line t1 X0 p3 P3) as C2. set (t2 := fst (pf_compute low s t1 X0)) in *.
  assert (Hr : pf_run low s t free free free free 1 (h_pp0 s)) by (apply pf_run_comp; [exact (pf_run_new low s line0 line_new)|reflexivity]).
  exists low, s, t, X0, t1, t2. split; [exact line_reg0|]. split; [exact Hr|]. split; [reflexivity|].
  split; [unfold t1, s; rewrite C1; reflexivity|]. split; [|split; [unfold t2, s; rewrite C2; reflexivity|]].
  - unfold t1 at 1. apply (C86_problem low s t free free free free 1 _ X0 _ _ line_reg0 Hr eq_refl).
    + intros _. rewrite Tx. discriminate.
    + rewrite T1x, Tw. change (nth (h_nx s) X0 0) with (3 / 2). rewrite W.
      pose proof (B2 t p2 0%nat Tsx Tw P2 ltac:(lia)) as A0. pose proof (B2 t p2 1%nat Tsx Tw P2 ltac:(lia)) as A1. cbn [Nat.add] in A0, A1.
      apply line_still; try reflexivity; rewrite ?A0, ?A1; cbn; try lra.
      * rewrite Rabs_left; lra.
      * rewrite Rminus_0_r, Rabs_R0. lra.
      * intros k i. split; exact I.
      * intros k i. split; exact I.
  - assert (Ea : t_arg t2 = t_arg p3) by apply (pf_compute_arg low s t1 X0 p3 P3). rewrite Ea.
    pose proof (B2 t1 p3 1%nat T1s T1w P3 ltac:(lia)) as A1. change (pf_nodes s * (h_nx s + 2) + h_nx s)%nat with 4%nat. cbn [Nat.add] in A1. rewrite A1.
    destruct (C86_reset low s t1 free free free free 1 _ X0 _ line_reg0 (pf_run_comp low s t free free free free 1 _ X0 Hr eq_refl) eq_refl T1w T1x) as (K & _).
    change (nth (h_nx s) X0 0) with (3 / 2) in K. rewrite W in K. specialize (K 1%nat 1%nat (le_n 1) ltac:(cbn; lia)).
    rewrite (proj1 (pf_compute_arg low s t1 X0 p3 P3)) in K. unfold pf_states, pf_sx in K. cbn [s line h_scale h_sx] in K. rewrite Rinv_1, !Rmult_1_l in K. cbn [Nat.add Nat.mul h_nx Nat.eqb] in K.
    pose proof (B2 t p2 1%nat Tsx Tw P2 ltac:(lia)) as A3. cbn [Nat.add] in A3. rewrite A3 in K. cbn in K. rewrite K. cbn. lra.
Qed.
Print Assumptions C86_guess_refuted.

(** "the stored trajectory is feasible also after setStateScaling": false, the NLP keeps the scaling of the
    constructor.  x' = u from 0 with the factor 2 set later: the answer with control 1 is stored with final state 1. *)
Definition push (l : nlp) (a : narg) (_ _ : vec R) : option (vec R * vec R * vec R) :=
  Some ((fun i => match i with 0%nat => 2 | 6%nat | 8%nat => 1 | _ => 0 end), fun _ => 0, fun _ => 0).
Theorem C86_scaling_setter_refuted : exists ipopt s t X0 t' d W V, pf_regular s /\ pf_new s = Some t /\ (forall i, 0 < d i) /\
  length X0 = (h_nx s + 2)%nat /\ pf_compute ipopt s (setStateScaling t d) X0 = (t', true) /\
  (exists x, t_nlpx t' = Some x /\ feasible (pf_nlp s) (t_arg t') (fun _ => 0) x) /\
  t_traj t' = Some W /\ t_ctrl t' = Some V /\ forall th, ~ pf_feasible s X0 th free free free free W V.
Proof.
  set (s := line false None None). set (x := fun i => match i with 0%nat => 2 | 6%nat | 8%nat => 1 | _ => 0 end : R).
  destruct (seg_ends (mkCas 1 1 3 2 0 0) 0 2 0 (le_n 1)) as [Z0 Z1]. cbn [cP] in Z1. unfold seg_len in Z0, Z1. cbn in Z0, Z1.
  assert (T0 : pf_time s 0 0 = 2) by (unfold pf_time; cbn [s line h_P h_S h_nx h_nu h_tf Nat.add]; rewrite Z0; field).
  assert (T1 : pf_time s 0 1 = 0) by (unfold pf_time; cbn [s line h_P h_S h_nx h_nu h_tf Nat.add]; rewrite Z1; field).
  assert (Hn : feasible (pf_nlp s) (t_arg (fst (pf_compute push s line0 [0; 0; 0]))) (fun _ => 0) x).
  { apply (C86_problem push s line0 free free free free 1 _ [0; 0; 0] x _ line_reg0 (pf_run_new push s line0 line_new) eq_refl); [discriminate|].
    assert (St : forall k i, pf_states s x k i = x (k * 3 + i)%nat) by (intros; unfold pf_states, pf_sx; cbn [s line h_scale h_nx]; rewrite Rinv_1, Rmult_1_l; reflexivity).
    assert (Ct : forall k i, pf_controls s x k i = x (6 + k * 2 + i)%nat) by (intros; unfold pf_controls, pf_su; cbn [s line h_scale h_nx h_nu h_P h_S]; rewrite Rinv_1, Rmult_1_l; reflexivity).
    assert (Sol : forall w F a, w 0%nat = 2 * a -> w 1%nat = 0 -> F 0%nat = a -> F 1%nat = a -> solves s w F).
    { intros w F a W0 W1 F0 F1 sg Hs. cbn in Hs. assert (sg = 0)%nat as -> by lia. exists (fun t => a * t + 0), (fun _ => a).
      split; [exact (lin_poly a 0)|]. split; [exact (lin_deriv a 0)|]. split.
      - intros j Hj. cbn in Hj. destruct j as [|[|]]; try lia; [rewrite T0|rewrite T1]; cbn; lra.
      - intros l [Hl _]. cbn in Hl. destruct l as [|[|]]; try lia; cbn; lra. }
    unfold pf_feasible, pf_nodes. cbn [h_nx h_nu h_P h_S h_flex s line Nat.mul Nat.add]. fold s.
    split; [intros i Hi; assert (i = 0)%nat as -> by lia; rewrite St; reflexivity|].
    split; [rewrite St; cbn; rewrite Rminus_0_r, Rabs_R0; lra|]. split; [rewrite St; cbn; rewrite Rminus_0_r, Rabs_R0; lra|].
    split; [intros; split; exact I|]. split; [intros; split; exact I|]. split; [|split].
    - intros i Hi. assert (i = 0)%nat as -> by lia. apply (Sol _ _ 1); rewrite ?St; cbn [map seq]; rewrite ?Ct; cbn; lra.
    - apply (Sol _ _ 0); rewrite ?St; cbn; lra.
    - apply (Sol _ _ 0); rewrite ?St, ?Ct; cbn; lra. }
  exists push, s, line0, [0; 0; 0]. eexists. exists (fun _ => 2). eexists. eexists.
  split; [exact line_reg0|]. split; [exact line_new|]. split; [intro; lra|]. split; [reflexivity|]. split; [reflexivity|].
  split; [eexists; split; [reflexivity|]|].
  { destruct Hn as [Hb Hg]. split; [|exact Hg]. intros i Hi. specialize (Hb i Hi). clear Hg. cbn in Hi. fold x.
    do 10 (destruct i as [|i]; [cbn in Hb |- *; try (split; exact I); split; cbn; lra|]). lia. }
  split; [reflexivity|]. split; [reflexivity|].
  intros th (_ & _ & _ & _ & _ & H & _). destruct (H 0%nat (le_n 1) 0%nat (le_n 1)) as (q & q' & Hq & Hq' & Hv & Hc).
  assert (Hc0 := Hc 0%nat ltac:(split; cbn; lia)). assert (V0 := Hv 0%nat ltac:(cbn; lia)). assert (V1 := Hv 1%nat ltac:(cbn; lia)). clear Hc Hv H.
  rewrite T0 in V0, Hc0. rewrite T1 in V1. cbn in V0, V1, Hc0. unfold dinv in *.
  destruct (is_poly_list 1 q Hq) as [cl [Hl Hcl]].
  assert (Hder : forall x, q' x = peval (pder cl) x).
  { intro y. apply (derivable_unique q y); [apply Hq'|]. apply derivable_pt_lim_ext with (peval cl); [intro; symmetry; auto|apply peval_derivable]. }
  rewrite Hcl in V0, V1. rewrite Hder in Hc0.
  destruct cl as [|c0 [|c1 [|c2 r]]]; simpl in Hl; try lia; cbn in V0, V1, Hc0; lra.
Qed.
Print Assumptions C86_scaling_setter_refuted.

(** the first call, X0 = (2; 1/2; 0): the solver above answers theta = 1/4, the path error is |1/4 - 2| *)
Lemma line_first : exists t', pf_compute low (line false None None) line0 [2; 1 / 2; 0] = (t', true) /\
  feasible (pf_nlp (line false None None)) (t_arg t') (fun _ => 0) (match t_nlpx t' with Some x => x | None => fun _ => 0 end) /\
  t_nlpx t' = Some (fun i => match i with 0%nat | 3%nat => 2 | 1%nat | 4%nat => 1 / 4 | _ => 0 end) /\
  (forall i, (i < 6)%nat -> a_x0 (t_arg t') i = nth (i mod 3) [2; 1 / 2; 0] 0) /\ (forall i, (6 <= i)%nat -> a_x0 (t_arg t') i = 0).
Proof.
  set (s := line false None None). set (X0 := [2; 1 / 2; 0]).
  destruct (pf_prepare s line0 X0) as [p1|] eqn:P1; [|discriminate]. pose proof (low_line line0 X0 p1 P1) as C0.
  assert (S0 : forall i, (i < 3)%nat -> nth i (start s line0 X0) 0 = nth i X0 0).
  { intros i Hi. rewrite (start_nth s line_reg0 line0 X0 i eq_refl Hi eq_refl). cbn [t_warm line0]. unfold wrapped. destruct i as [|[|[|]]]; try lia; cbn; ring. }
  assert (B : forall i, (i < 2)%nat -> a_lbx (t_arg p1) (3 + i)%nat = Some (nth i [2; 1 / 4] 0)).
  { intros i Hi. destruct (prepare_facts s line0 X0 p1 P1) as (_ & _ & _ & _ & -> & _). unfold ini_bound.
    rewrite in_seg_true by (cbn; lia). change (h_P s * h_S s * (h_nx s + 2))%nat with 3%nat. replace (3 + i - 3)%nat with i by lia. rewrite S0 by lia.
    f_equal. destruct i as [|[|]]; try lia; cbn; lra. }
  pose proof (B 0%nat ltac:(lia)) as A0. pose proof (B 1%nat ltac:(lia)) as A1. cbn [Nat.add nth] in A0, A1.
  set (t' := fst (pf_compute low s line0 X0)).
  assert (Ex : t_nlpx t' = Some (fun i => match i with 0%nat | 3%nat => 2 | 1%nat | 4%nat => 1 / 4 | _ => 0 end)).
  { unfold t', s. rewrite C0. cbn [fst t_nlpx]. rewrite A0, A1. reflexivity. }
  assert (Ea : t_arg t' = t_arg p1) by apply (pf_compute_arg low s line0 X0 p1 P1).
  exists t'. split; [unfold t', s; rewrite C0; reflexivity|]. split; [|split; [exact Ex|]].
  - rewrite Ex. unfold t'. apply (C86_problem low s line0 free free free free 1 _ X0 _ _ line_reg0 (pf_run_new low s line0 line_new) eq_refl).
    + discriminate.
    + cbn [t_warm line0 wrapped]. change (nth (h_nx s) X0 0) with (1 / 2). apply line_still; try reflexivity; cbn; try lra.
      * rewrite Rabs_left; lra.
      * rewrite Rminus_0_r, Rabs_R0. lra.
      * intros k i. split; exact I.
      * intros k i. split; exact I.
  - rewrite Ea. unfold pf_prepare in P1. cbn [t_warm line0] in P1. inversion P1. cbn [t_arg a_x0]. clear P1 H0.
    split; intros i Hi.
    + rewrite in_seg_true by (cbn; lia). change (repv (start s line0 X0) i = nth (i mod 3) X0 0). unfold repv. replace (length (start s line0 X0)) with 3%nat by reflexivity.
      pose proof (S0 (i mod 3) (Nat.mod_upper_bound i 3 ltac:(lia))) as Z. exact Z.
    + rewrite in_seg_false by (cbn; lia). reflexivity.
Qed.
Example C86_result_ex : exists t', pf_compute low (line false None None) line0 [2; 1 / 2; 0] = (t', true) /\
  pf_getPathError (line false None None) t' = 7 / 4 /\ pf_getVelocityError (line false None None) t' = 1.
Proof.
  destruct line_first as (t' & E & F & Ex & _). exists t'. split; [exact E|].
  destruct (C86_result low _ line0 free free free free 1 _ [2; 1 / 2; 0] t' line_reg0 (pf_run_new low _ line0 line_new) eq_refl E) as (W & V & EW & EV & _ & R1 & R2 & _).
  - intros x Hx. rewrite Hx in F. exact F.
  - assert (Ew : forall k i, W k i = / 1 * match (k * 3 + i)%nat with 0%nat | 3%nat => 2 | 1%nat | 4%nat => 1 / 4 | _ => 0 end).
    { intros k i. unfold pf_compute in E. destruct (pf_prepare (line false None None) line0 [2; 1 / 2; 0]) as [t1|] eqn:P1; [|discriminate].
      destruct (prepare_facts _ line0 _ t1 P1) as (E1 & _). cbn [low] in E. inversion E. subst t'. cbn [t_nlpx t_traj] in *.
      assert (Z := f_equal (fun o : option (vec R) => match o with Some h => h (k * 3 + i)%nat | None => 0 end) Ex). cbv beta iota in Z.
      injection EW as EW. rewrite <- EW. rewrite E1. unfold dinv. apply f_equal. exact Z. }
    rewrite R1, R2. unfold path_error, path_point, pf_nodes. cbn [h_ny h_nx h_P h_S line h_out h_path h_npp f_val Nat.ltb Nat.leb seq map nth ssum Nat.mul Nat.add].
    rewrite !Ew. cbn. split.
    + replace ((1 / 1 * (1 / 4) - / 1 * 2)) with (- (7 / 4)) by field.
      match goal with |- sqrt ?a = _ => replace a with (Rsqr (7 / 4)) by (unfold Rsqr; field) end. apply sqrt_Rsqr. lra.
    + rewrite Rmult_0_r, Rminus_0_r. apply Rabs_R1.
Qed.

(** "getCost is the cost of the computed trajectory": false, it is the cost of the initial guess.  The cold start
    guess has theta = 1/2, the answer theta = 1/4. *)
Theorem C86_getCost_refuted : exists ipopt s t X0 t' x, pf_regular s /\ pf_new s = Some t /\ length X0 = (h_nx s + 2)%nat /\
  pf_compute ipopt s t X0 = (t', true) /\ t_nlpx t' = Some x /\ feasible (pf_nlp s) (t_arg t') (fun _ => 0) x /\
  pf_getCost s t' < l_f (pf_nlp s) x (lval (a_p (t_arg t'))).
Proof.
  destruct line_first as (t' & E & F & Ex & G0 & G1). rewrite Ex in F.
  exists low, (line false None None), line0, [2; 1 / 2; 0], t'. eexists. split; [exact line_reg0|]. split; [exact line_new|]. split; [reflexivity|].
  split; [exact E|]. split; [exact Ex|]. split; [exact F|]. set (s := line false None None) in *.
  pose proof (pf_run_comp low s line0 free free free free 1 _ [2; 1 / 2; 0] (pf_run_new low s line0 line_new) eq_refl) as Hr. rewrite E in Hr.
  pose proof (pf_run_inv low s line_reg0 _ _ _ _ _ _ _ Hr) as (_ & _ & _ & Pp & _). cbn [fst] in Pp.
  unfold pf_getCost. cbn [l_f pf_nlp]. rewrite Pp. change (map (lval (pf_sx s (h_nx s + 1)%nat * 1 :: h_pp0 s)) (seq 0 (h_npp s + 1))) with (pf_sx s (h_nx s + 1)%nat * 1 :: h_pp0 s).
  rewrite !(pf_cost_quad s line_reg0). change (h_S s) with 1%nat. change (h_P s) with 1%nat. cbn [ssum]. cbn [R_scalar sadd s0].
  assert (W0 : 0 < cas_w 1 0) by (rewrite cas_w_eq; apply cc_positive; lia). assert (W1 : 0 < cas_w 1 1) by (rewrite cas_w_eq; apply cc_positive; lia).
  assert (T : cas_ts (pf_cas s) 0 (h_tf s) = 1) by (unfold cas_ts; cbn; field). rewrite T.
  assert (Pe : forall x k (y th : R), x (k * 3)%nat = y -> x (k * 3 + 1)%nat = th ->
    wsum (h_ny s) (h_Q s) (path_error s (h_pp0 s) (pf_states s x k)) = (th - y) ^ 2).
  { intros x k y th Hy Hth. unfold wsum, path_error, path_point, pf_states, pf_sx. cbn. rewrite Nat.add_0_r. rewrite Hy, Hth. field. }
  assert (St : forall x k (y th : R), (k <= 1)%nat -> x (k * 3)%nat = y -> x (k * 3 + 1)%nat = th -> x (k * 3 + 2)%nat = 0 -> (forall i, (6 <= i)%nat -> x i = 0) ->
    pf_stage s 1 (h_pp0 s) x k = (th - y) ^ 2 + 1).
  { intros x k y th Hk Hy Hth Hv Hu. unfold pf_stage. rewrite (Pe x k y th Hy Hth). unfold wsum, pf_states, pf_controls, pf_sx, pf_su. cbn. rewrite Hv.
    rewrite !(Hu (S (S (S (S (S (S _))))))) by lia. field. }
  cbn [Nat.mul Nat.add].
  assert (A : forall k i, (k <= 1)%nat -> (i < 3)%nat -> a_x0 (t_arg t') (k * 3 + i)%nat = nth i [2; 1 / 2; 0] 0).
  { intros k i Hk Hi. rewrite G0 by lia. f_equal. destruct k as [|[|]]; try lia; destruct i as [|[|[|]]]; try lia; reflexivity. }
  rewrite (Pe (a_x0 (t_arg t')) 0%nat 2 (1 / 2)) by (apply (A 0%nat); lia).
  rewrite (St (a_x0 (t_arg t')) 0%nat 2 (1 / 2)) by (auto; first [apply (A 0%nat 0%nat)|apply (A 0%nat 1%nat)|apply (A 0%nat 2%nat)]; lia).
  rewrite (St (a_x0 (t_arg t')) 1%nat 2 (1 / 2)) by (auto; first [apply (A 1%nat 0%nat)|apply (A 1%nat 1%nat)|apply (A 1%nat 2%nat)]; lia).
  set (x := fun i => match i with 0%nat | 3%nat => 2 | 1%nat | 4%nat => 1 / 4 | _ => 0 end).
  assert (Z : forall i, (6 <= i)%nat -> x i = 0) by (intros i Hi; do 5 (destruct i; [lia|]); reflexivity).
  rewrite (Pe x 0%nat 2 (1 / 4)) by reflexivity. rewrite (St x 0%nat 2 (1 / 4)) by (auto; reflexivity). rewrite (St x 1%nat 2 (1 / 4)) by (auto; reflexivity).
  nra.
Qed.
Print Assumptions C86_getCost_refuted.

(** "getVirtState returns theta after a successful call": false, it reads row 13 whatever the number of states *)
Theorem C86_virt_refuted : exists ipopt s t X0 t', pf_regular s /\ pf_new s = Some t /\ length X0 = (h_nx s + 2)%nat /\
  pf_compute ipopt s t X0 = (t', true) /\ pf_getVirtState s t' = None.
Proof.
  destruct line_first as (t' & E & _). exists low, (line false None None), line0, [2; 1 / 2; 0], t'. split; [exact line_reg0|]. split; [exact line_new|].
  split; [reflexivity|]. split; [exact E|]. unfold pf_compute in E. destruct (pf_prepare _ _ _); [|discriminate]. inversion E. reflexivity.
Qed.
Print Assumptions C86_virt_refuted.

(** "a warm start brings theta into the reset interval": false, it is moved once only.  theta = 3, reset length 1: the
    lower bound of the initial theta is 2 - 1/4. *)
Theorem C86_wrap_refuted : exists ipopt s t X0 b, pf_regular s /\ pf_run ipopt s t free free free free 1 (h_pp0 s) /\ length X0 = (h_nx s + 2)%nat /\
  t_warm t = true /\ t_nlpx t <> None /\ pf_sx s (h_nx s) = 1 /\
  a_lbx (t_arg (fst (pf_compute ipopt s t X0))) (pf_nodes s * (h_nx s + 2) + h_nx s)%nat = Some b /\ h_reset s < b.
Proof.
  destruct line_first as (t' & E & _ & Ex & _). set (s := line false None None) in *.
  pose proof (pf_run_comp low s line0 free free free free 1 _ [2; 1 / 2; 0] (pf_run_new low s line0 line_new) eq_refl) as Hr. rewrite E in Hr. cbn [fst] in Hr.
  assert (Ew : t_warm t' = true) by (unfold pf_compute in E; destruct (pf_prepare _ _ _); [|discriminate]; inversion E; reflexivity).
  assert (Es : t_sx t' = pf_sx s) by apply (pf_run_inv low s line_reg0 _ _ _ _ _ _ _ Hr).
  exists low, s, t', [2; 3; 0]. eexists. split; [exact line_reg0|]. split; [exact Hr|]. split; [reflexivity|]. split; [exact Ew|]. split; [rewrite Ex; discriminate|].
  split; [reflexivity|].
  destruct (prepared s t' [2; 3; 0] ltac:(intros _; rewrite Ex; discriminate)) as [p P]. rewrite (proj1 (pf_compute_arg low s t' _ p P)).
  destruct (prepare_facts s t' _ p P) as (_ & _ & _ & _ & -> & _). 
  destruct (ini_lo s t' [2; 3; 0] 1%nat (a_lbx (t_arg t')) eq_refl Es ltac:(cbn; lia)) as [K _]. change (pf_nodes s * (h_nx s + 2) + h_nx s)%nat with (h_P s * h_S s * (h_nx s + 2) + 1)%nat.
  split; [exact K|]. rewrite (start_nth s line_reg0 t' [2; 3; 0] 1%nat eq_refl ltac:(cbn; lia) Es). rewrite Ew. unfold wrapped. cbn.
  destruct (Rlt_dec 1 3); [|exfalso; lra]. lra.
Qed.
Print Assumptions C86_wrap_refuted.

(** theta = 3/2 after a first call: the guess is the last solution with theta moved by -1 *)
Example C86_reset_ex : exists t x, pf_run low (line false None None) t free free free free 1 [] /\ t_nlpx t = Some x /\
  pf_states (line false None None) (a_x0 (t_arg (fst (pf_compute low (line false None None) t [2; 3 / 2; 0])))) 0 1 =
  pf_states (line false None None) x 0 1 - 1.
Proof.
  destruct line_first as (t' & E & _ & Ex & _). set (s := line false None None) in *.
  pose proof (pf_run_comp low s line0 free free free free 1 _ [2; 1 / 2; 0] (pf_run_new low s line0 line_new) eq_refl) as Hr. rewrite E in Hr. cbn [fst] in Hr.
  assert (Ew : t_warm t' = true) by (unfold pf_compute in E; destruct (pf_prepare _ _ _); [|discriminate]; inversion E; reflexivity).
  eexists. eexists. split; [exact Hr|]. split; [exact Ex|].
  destruct (C86_reset low s t' free free free free 1 _ [2; 3 / 2; 0] _ line_reg0 Hr eq_refl Ew Ex) as (K & _). cbv zeta in K.
  rewrite (K 0%nat 1%nat); [|unfold pf_nodes; cbn; lia|cbn; lia]. unfold wrapped. cbn [s line h_nx nth Nat.eqb h_reset].
  destruct (Rlt_dec 1 (3 / 2)); [|lra]. ring.
Qed.

(** * C87: the cost and the closest point *)
Lemma wsum_cols : forall n M v, wsum n M v = wsquares n M v.
Proof.
  intros n M v. unfold wsum, wsquares, colsum. rewrite rsum_swap. apply rsum_ext. intros j _. rewrite <- (rsum_scal_r n). apply rsum_ext. intros. reflexivity.
Qed.
Lemma pf_params : forall ipopt s t lbx ubx lbu ubu v q, pf_regular s -> pf_run ipopt s t lbx ubx lbu ubu v q ->
  map (lval (a_p (t_arg t))) (seq 0 (h_npp s + 1)) = pf_sx s (h_nx s + 1)%nat * v :: q.
Proof.
  intros ipopt s t lbx ubx lbu ubu v q Hreg Hr. pose proof (pf_run_inv ipopt s Hreg t _ _ _ _ _ _ Hr) as (_ & _ & _ & Pp & Lq & _). rewrite Pp.
  apply nth_ext with 0 0; [rewrite map_length, seq_length; cbn; lia|]. intros j Hj. rewrite map_length, seq_length in Hj. apply nth_map_seq. auto.
Qed.
Lemma stage_running : forall s v q x k, pf_stage s v q x k = running s v q (pf_states s x) (pf_controls s x) k.
Proof. intros. unfold pf_stage, running. rewrite !wsum_cols. reflexivity. Qed.

(** after any sequence of calls: the cost is the weighted square of the final path error plus the exact integral of the
    running cost, for the reference velocity and the path parameters set last, when the running cost is a polynomial of
    degree at most P in time on every segment; the weights are the column sums of the matrices *)
Theorem C87_cost : forall ipopt s t lbx ubx lbu ubu v q x (r F : nat -> R -> R), pf_regular s -> pf_run ipopt s t lbx ubx lbu ubu v q ->
  (forall sg, (sg < h_S s)%nat -> is_poly (h_P s) (r sg) /\ derivative_of (F sg) (r sg) /\
     forall k, (k <= h_P s)%nat -> running s v q (pf_states s x) (pf_controls s x) (sg * h_P s + k) = r sg (pf_time s sg k)) ->
  l_f (pf_nlp s) x (lval (a_p (t_arg t))) = wsquares (h_ny s) (h_Q s) (path_error s q (pf_states s x 0)) +
    rsum (h_S s) (fun sg => F sg (pf_time s sg 0) - F sg (pf_time s sg (h_P s))).
Proof.
  intros ipopt s t lbx ubx lbu ubu v q x r F Hreg Hr H. cbn [l_f pf_nlp]. rewrite (pf_params ipopt s t lbx ubx lbu ubu v q) by auto. unfold pf_cost.
  assert (C := C78_cost (pf_cas s) (Some (pf_may s (pf_sx s (h_nx s + 1)%nat * v :: q))) (pf_lag s (pf_sx s (h_nx s + 1)%nat * v :: q)) 0 (h_tf s) x (pf_U s x) r F (pf_dims s Hreg) eq_refl eq_refl).
  rewrite C.
  - cbn [term]. f_equal. etransitivity; [exact (pf_may_val s Hreg v q x)|]. apply wsum_cols.
  - intros sg Hs. destruct (H sg Hs) as (A & B & D). split; [exact A|]. split; [exact B|]. intros k Hk.
    etransitivity; [exact (pf_lag_val s Hreg v q x (sg * h_P s + k)%nat)|]. rewrite stage_running. apply D. auto.
Qed.
Print Assumptions C87_cost.

(** positive column sums and velocity weight: the cost is never negative, and zero exactly when at all the nodes the output is on
    the path at theta, the velocity is the reference velocity and the controls are zero *)
Theorem C87_zero : forall ipopt s t lbx ubx lbu ubu v q x, pf_regular s -> pf_run ipopt s t lbx ubx lbu ubu v q ->
  (forall i, (i < h_ny s)%nat -> 0 < colsum (h_ny s) (h_Q s) i) -> 0 < h_W s ->
  (forall i, (i < h_nu s + 1)%nat -> 0 < colsum (h_nu s + 1) (h_R s) i) ->
  let W := pf_states s x in let V := pf_controls s x in
  0 <= l_f (pf_nlp s) x (lval (a_p (t_arg t))) /\
  (l_f (pf_nlp s) x (lval (a_p (t_arg t))) = 0 <->
   forall k, (k <= pf_nodes s)%nat ->
     (forall i, (i < h_ny s)%nat -> h_out s (map (W k) (seq 0 (h_nx s))) i = path_point s (W k (h_nx s)) q i) /\
     W k (h_nx s + 1)%nat = v /\ (forall i, (i < h_nu s + 1)%nat -> V k i = 0)).
Proof.
  intros ipopt s t lbx ubx lbu ubu v q x Hreg Hr Pq Pw Pr W V. cbn [l_f pf_nlp]. rewrite (pf_params ipopt s t lbx ubx lbu ubu v q) by auto.
  rewrite (pf_cost_quad s Hreg). pose proof Hreg as (P1 & S1 & X1 & Ht & _).
  assert (Hts : 0 < cas_ts (pf_cas s) 0 (h_tf s)) by (apply ts_pos; auto).
  assert (Hw : forall m, (m < S (h_P s))%nat -> 0 < cas_w (h_P s) m) by (intros m Hm; rewrite cas_w_eq; apply cc_positive; lia).
  assert (Q0 : forall n M y, (forall i, (i < n)%nat -> 0 < colsum n M i) -> 0 <= wsquares n M y).
  { intros n M y HM. apply rsum_nonneg. intros i Hi. apply Rmult_le_pos; [apply Rlt_le; auto|apply pow2_ge_0]. }
  assert (Qz : forall n M y, (forall i, (i < n)%nat -> 0 < colsum n M i) -> wsquares n M y = 0 -> forall i, (i < n)%nat -> y i = 0).
  { intros n M y HM Hz i Hi. assert (K := rsum_nonneg_zero n (fun i => colsum n M i * y i ^ 2) (fun i Hi => Rmult_le_pos _ _ (Rlt_le _ _ (HM i Hi)) (pow2_ge_0 (y i))) Hz i Hi).
    cbv beta in K. apply Rmult_integral in K. destruct K as [K|K]; [specialize (HM i Hi); lra|]. nra. }
  set (st := running s v q W V). rewrite wsum_cols.
  rewrite (rsum_ext (h_S s) _ (fun k => cas_ts (pf_cas s) 0 (h_tf s) * rsum (S (h_P s)) (fun m => cas_w (h_P s) m * st (k * h_P s + m)%nat)))
    by (intros k _; f_equal; apply rsum_ext; intros m _; rewrite stage_running; reflexivity).
  assert (A1 : 0 <= wsquares (h_ny s) (h_Q s) (path_error s q (pf_states s x 0))) by (apply Q0; auto).
  assert (A2 : forall k, 0 <= st k).
  { intro k. unfold st, running. pose proof (Q0 _ _ (path_error s q (W k)) Pq). pose proof (Q0 _ _ (V k) Pr). pose proof (pow2_ge_0 (v - W k (h_nx s + 1)%nat)). nra. }
  assert (A4 : forall k, (k < h_S s)%nat -> 0 <= cas_ts (pf_cas s) 0 (h_tf s) * rsum (S (h_P s)) (fun m => cas_w (h_P s) m * st (k * h_P s + m)%nat)).
  { intros k _. apply Rmult_le_pos; [lra|]. apply rsum_nonneg. intros m Hm. apply Rmult_le_pos; [apply Rlt_le; auto|auto]. }
  assert (A5 := rsum_nonneg _ _ A4). cbv beta in A5. split; [lra|]. split.
  - intros Hz k Hk. assert (Z2 : rsum (h_S s) (fun k => cas_ts (pf_cas s) 0 (h_tf s) * rsum (S (h_P s)) (fun m => cas_w (h_P s) m * st (k * h_P s + m)%nat)) = 0) by lra.
    assert (K : st k = 0).
    { unfold pf_nodes in Hk. assert (D : exists g l, k = (g * h_P s + l)%nat /\ (g < h_S s)%nat /\ (l <= h_P s)%nat).
      { destruct (Nat.eq_dec k (h_P s * h_S s)) as [->|Hne].
        - exists (h_S s - 1)%nat, (h_P s). repeat split; try lia. nia.
        - destruct (index_split (h_P s) (h_S s) k ltac:(lia)) as (g & l & E & Hg & Hl). exists g, l. repeat split; auto. lia. }
      destruct D as (g & l & -> & Hg & Hl).
      pose proof (rsum_nonneg_zero _ _ A4 Z2 g Hg) as E. cbv beta in E. apply Rmult_integral in E. destruct E as [E|E]; [lra|].
      assert (E2 := rsum_nonneg_zero _ _ (fun m Hm => Rmult_le_pos _ _ (Rlt_le _ _ (Hw m Hm)) (A2 (g * h_P s + m)%nat)) E l ltac:(lia)).
      cbv beta in E2. apply Rmult_integral in E2. destruct E2 as [E2|E2]; [specialize (Hw l ltac:(lia)); lra|auto]. }
    unfold st, running in K. pose proof (Q0 _ _ (path_error s q (W k)) Pq) as B1. pose proof (Q0 _ _ (V k) Pr) as B2.
    pose proof (pow2_ge_0 (v - W k (h_nx s + 1)%nat)) as B3. assert (B4 : 0 <= h_W s * (v - W k (h_nx s + 1)%nat) ^ 2) by nra.
    split; [|split].
    + intros i Hi. assert (Z1 : wsquares (h_ny s) (h_Q s) (path_error s q (W k)) = 0) by lra. assert (E' := Qz _ _ _ Pq Z1 i Hi). unfold path_error in E'. lra.
    + assert (E' : h_W s * (v - W k (h_nx s + 1)%nat) ^ 2 = 0) by lra. apply Rmult_integral in E'. destruct E' as [E'|E']; [lra|]. nra.
    + intros i Hi. assert (Z1 : wsquares (h_nu s + 1) (h_R s) (V k) = 0) by lra. exact (Qz _ _ _ Pr Z1 i Hi).
  - intro H. assert (Z : forall k, (k <= pf_nodes s)%nat -> wsquares (h_ny s) (h_Q s) (path_error s q (W k)) = 0).
    { intros k Hk. apply rsum_zero. intros i Hi. unfold path_error. destruct (H k Hk) as (E & _). rewrite E by auto. ring. }
    assert (Z0 := Z 0%nat ltac:(lia)). unfold W in Z0. rewrite Z0. rewrite rsum_zero; [ring|]. intros g Hg. rewrite rsum_zero; [ring|]. intros m Hm. unfold st, running.
    assert (B : (g * h_P s + m <= pf_nodes s)%nat) by (unfold pf_nodes; nia). rewrite Z by auto. destruct (H _ B) as (_ & -> & E3).
    unfold wsquares. rewrite (rsum_zero (h_nu s + 1)); [ring|]. intros i Hi. rewrite E3 by auto. ring.
Qed.
Print Assumptions C87_zero.

(** the cost does not depend on the scaling: two controllers that differ in the scaling only, after calls with the same
    reference velocity and path parameters, at points with the same physical states and controls *)
Theorem C87_scaling : forall i1 i2 s1 s2 sc sx su t1 t2 a1 b1 c1 d1 a2 b2 c2 d2 v q x1 x2, s2 = rescaled s1 sc sx su -> pf_regular s1 -> pf_regular s2 ->
  pf_run i1 s1 t1 a1 b1 c1 d1 v q -> pf_run i2 s2 t2 a2 b2 c2 d2 v q ->
  (forall k i, (k <= pf_nodes s1)%nat -> (i < h_nx s1 + 2)%nat -> pf_states s1 x1 k i = pf_states s2 x2 k i) ->
  (forall k i, (k <= pf_nodes s1)%nat -> (i < h_nu s1 + 1)%nat -> pf_controls s1 x1 k i = pf_controls s2 x2 k i) ->
  l_f (pf_nlp s1) x1 (lval (a_p (t_arg t1))) = l_f (pf_nlp s2) x2 (lval (a_p (t_arg t2))).
Proof.
  intros i1 i2 s1 s2 sc sx su t1 t2 a1 b1 c1 d1 a2 b2 c2 d2 v q x1 x2 E R1 R2 H1 H2 HS HU. cbn [l_f pf_nlp].
  rewrite (pf_params i1 s1 t1 a1 b1 c1 d1 v q), (pf_params i2 s2 t2 a2 b2 c2 d2 v q) by auto. rewrite (pf_cost_quad s1 R1), (pf_cost_quad s2 R2).
  assert (Pe : forall k i, (k <= pf_nodes s1)%nat -> path_error s1 q (pf_states s1 x1 k) i = path_error s2 q (pf_states s2 x2 k) i).
  { intros k i Hk. unfold path_error. rewrite (HS k (h_nx s1)) by (auto; lia). subst s2. f_equal.
    change (h_out (rescaled s1 sc sx su)) with (h_out s1). change (h_nx (rescaled s1 sc sx su)) with (h_nx s1). f_equal.
    apply map_ext_in. intros j Hj. apply in_seq in Hj. apply HS; auto; lia. }
  assert (Em : wsum (h_ny s1) (h_Q s1) (path_error s1 q (pf_states s1 x1 0)) = wsum (h_ny s2) (h_Q s2) (path_error s2 q (pf_states s2 x2 0))).
  { subst s2. apply wsum_ext. intros i _. apply Pe. lia. }
  assert (Es : forall k, (k <= pf_nodes s1)%nat -> pf_stage s1 v q x1 k = pf_stage s2 v q x2 k).
  { intros k Hk. unfold pf_stage. rewrite (HS k (h_nx s1 + 1)%nat) by (auto; lia). subst s2. f_equal; [f_equal|]; apply wsum_ext; intros i Hi; auto. }
  rewrite Em. f_equal. subst s2. cbn [rescaled h_S h_P]. apply rsum_ext. intros k Hk. f_equal. apply rsum_ext. intros m Hm. f_equal. apply Es. unfold pf_nodes. nia.
Qed.
Print Assumptions C87_scaling.

(** on the line with velocity 1: x = theta = t, u = 1 is not free, so the cost is the integral of 1; at rest on the path it is
    that of the velocity error *)
Example C87_cost_ex : l_f (pf_nlp (line false None None)) (fun i => match i with 0%nat => 2 | 1%nat => 2 | 2%nat => 1 | 5%nat => 1 | 6%nat => 1 | 8%nat => 1 | _ => 0 end)
  (lval (a_p (t_arg line0))) = 2.
Proof.
  set (x := fun i => match i with 0%nat => 2 | 1%nat => 2 | 2%nat => 1 | 5%nat => 1 | 6%nat => 1 | 8%nat => 1 | _ => 0 end).
  rewrite (C87_cost low (line false None None) line0 free free free free 1 (h_pp0 (line false None None)) x (fun _ t => 0 * t + 1) (fun _ t => 1 * t + 0) line_reg0 (pf_run_new low _ line0 line_new)).
  - destruct (seg_ends (mkCas 1 1 3 2 0 0) 0 2 0 (le_n 1)) as [Z0 Z1]. unfold pf_time. cbn [line h_P h_S h_nx h_nu h_tf Nat.add].
    cbn [cP] in Z1. cbn [ssum]. cbn [R_scalar sadd s0]. rewrite Z0, Z1. unfold seg_len, wsquares, colsum, path_error, path_point, pf_states, pf_sx. cbn. field.
  - intros sg Hs. split; [exact (lin_poly 0 1)|]. split.
    + intro t. replace (0 * t + 1) with 1 by ring. apply (lin_deriv 1 0).
    + intros k Hk. cbn in Hs, Hk. assert (sg = 0)%nat as -> by lia.
      unfold running, wsquares, colsum, path_error, path_point, pf_states, pf_controls, pf_sx, pf_su. destruct k as [|[|]]; try lia; cbn; field.
Qed.
(** scaled by 2 and 4, reference velocity 0, at rest on the path *)
Example C87_zero_ex : let s := line true (Some (fun _ => 2)) (Some (fun _ => 4)) in
  forall t, pf_new s = Some t ->
  l_f (pf_nlp s) (fun i => match i with 0%nat | 1%nat | 3%nat | 4%nat => 6 | _ => 0 end) (lval (a_p (t_arg (setReferenceVelocity s t 0)))) = 0.
Proof.
  intros s t Ht. assert (Hreg : pf_regular s) by (apply line_reg; intros d E i; inversion E; lra).
  apply (C87_zero low s _ free free free free 0 (h_pp0 s) _ Hreg (pf_run_vel _ _ _ _ _ _ _ _ _ 0 (pf_run_new low s t Ht))).
  - intros i Hi. cbn in Hi. unfold colsum. cbn. lra.
  - cbn. lra.
  - intros i Hi. cbn in Hi. unfold colsum. destruct i as [|[|]]; try lia; cbn; lra.
  - intros k Hk. unfold pf_nodes in Hk. cbn in Hk. unfold path_point, pf_states, pf_controls, pf_sx, pf_su. cbn. split; [|split].
    + intros i Hi. assert (i = 0)%nat as -> by lia. destruct k as [|[|]]; try lia; cbn; field.
    + destruct k as [|[|]]; try lia; cbn; field.
    + intros i Hi. destruct k as [|[|]]; try lia; destruct i as [|[|]]; try lia; cbn; field.
Qed.
(** the same point in both scalings *)
Example C87_scaling_ex : forall t, pf_new (line true (Some (fun _ => 2)) (Some (fun _ => 4))) = Some t ->
  l_f (pf_nlp (line false None None)) (fun _ => 1) (lval (a_p (t_arg line0))) =
  l_f (pf_nlp (line true (Some (fun _ => 2)) (Some (fun _ => 4)))) (fun i => if (i <? 6)%nat then 2 else 4) (lval (a_p (t_arg t))).
Proof.
  intros t Ht. set (s2 := line true (Some (fun _ => 2)) (Some (fun _ => 4))) in *.
  assert (Hreg : pf_regular s2) by (apply line_reg; intros d E i; inversion E; lra).
  apply (C87_scaling low low (line false None None) s2 true (Some (fun _ => 2)) (Some (fun _ => 4)) line0 t free free free free free free free free 1 (h_pp0 s2)
           _ _ eq_refl line_reg0 Hreg (pf_run_new low _ line0 line_new) (pf_run_new low s2 t Ht)).
  - intros k i Hk Hi. unfold pf_nodes in Hk. cbn in Hk, Hi. unfold pf_states, pf_sx. unfold s2. cbn [line h_scale h_sx h_su h_nx].
    match goal with |- context [(?a <? 6)%nat] => replace (a <? 6)%nat with true by (symmetry; apply Nat.ltb_lt; lia) end. field.
  - intros k i Hk Hi. unfold pf_nodes in Hk. cbn in Hk, Hi. unfold pf_controls, pf_su. unfold s2. cbn [line h_scale h_sx h_su h_nx h_nu h_P h_S].
    match goal with |- context [(?a <? 6)%nat] => replace (a <? 6)%nat with false by (symmetry; apply Nat.ltb_ge; lia) end. field.
Qed.

(** "with a positive definite Q the cost is bounded below by zero": false.  The code sums the entries of Q r^2 instead of
    r' Q r: Q = (1, -3/2; -3/2, 3) and an error in the first component give a negative cost. *)
Definition plane : pf :=
  mkPf 1 1 2 0 2 2 (mkFun 2 2 (fun _ _ => 0)) (fun l i => nth i l 0) (mkFun 1 2 (fun _ _ => 0)) (fun _ _ => 0)
    (fun i j => match i, j with 0%nat, 0%nat => 1 | 1%nat, 1%nat => 3 | _, _ => - (3 / 2) end) (fun _ _ => 0) 0 false None None 1 0 [] 0.
Theorem C87_definite_refuted : exists ipopt s t x, pf_regular s /\ pf_run ipopt s t free free free free 1 (h_pp0 s) /\
  (forall v : nat -> R, (exists i, (i < h_ny s)%nat /\ v i <> 0) -> 0 < rsum (h_ny s) (fun i => rsum (h_ny s) (fun j => v i * h_Q s i j * v j))) /\
  (forall i j, h_R s i j = 0) /\ h_W s = 0 /\ l_f (pf_nlp s) x (lval (a_p (t_arg t))) < 0.
Proof.
  assert (Hs : pf_regular plane) by (repeat split; cbn; try lia; try lra; intros d E; discriminate).
  assert (Hn : exists t, pf_new plane = Some t) by (eexists; reflexivity). destruct Hn as [t Hn].
  assert (Hr := pf_run_new low plane t Hn).
  exists low, plane, t, (fun i => match i with 0%nat => 1 | 4%nat => 1 | _ => 0 end). split; [exact Hs|]. split; [exact Hr|].
  split; [|split; [reflexivity|split; [reflexivity|]]].
  - intros v (i & Hi & Hv). cbn in Hi. cbn. destruct i as [|[|]]; [| |lia].
    + assert (A : 0 < Rsqr (v 0%nat)) by (apply Rsqr_pos_lt; auto). assert (B := Rle_0_sqr (v 1%nat - v 0%nat / 2)). unfold Rsqr in A, B. nra.
    + assert (A : 0 < Rsqr (v 1%nat)) by (apply Rsqr_pos_lt; auto). assert (B := Rle_0_sqr (v 0%nat - 3 / 2 * v 1%nat)). unfold Rsqr in A, B. nra.
  - rewrite (C87_cost low plane t free free free free 1 _ _ (fun _ t => 0 * t + - (1 / 2)) (fun _ t => - (1 / 2) * t + 0) Hs Hr).
    + destruct (seg_ends (mkCas 1 1 4 1 0 0) 0 2 0 (le_n 1)) as [Z0 Z1]. unfold pf_time. cbn [plane h_P h_S h_nx h_nu h_tf Nat.add].
      cbn [cP] in Z1. cbn [ssum]. cbn [R_scalar sadd s0]. rewrite Z0, Z1. unfold seg_len, wsquares, colsum, path_error, path_point, pf_states, pf_sx. cbn. lra.
    + intros sg Hg. split; [exact (lin_poly 0 (- (1 / 2)))|]. split.
      * intro y. replace (0 * y + - (1 / 2)) with (- (1 / 2)) by ring. apply (lin_deriv (- (1 / 2)) 0).
      * intros k Hk. cbn in Hg, Hk. assert (sg = 0)%nat as -> by lia.
        unfold running, wsquares, colsum, path_error, path_point, pf_states, pf_controls, pf_sx, pf_su. destruct k as [|[|]]; try lia; cbn; field.
Qed.
Print Assumptions C87_definite_refuted.

Lemma loop_unfold : forall s m p pos th o, closest_loop s (S m) p pos th o =
  if Rle_dec (1 / 10) (Rabs o) then match newton s p pos th with Some (th', o') => closest_loop s m p pos th' o' | None => None end else Some th.
Proof. reflexivity. Qed.

(** findClosestPointOnPath on a straight path A + theta B, with path parameters: from every initial guess the result is
    the parameter of a closest point *)
Theorem C87_closest_line : forall ipopt s t lbx ubx lbu ubu v q (A B : nat -> R) pos init, pf_regular s -> pf_run ipopt s t lbx ubx lbu ubu v q ->
  (0 < h_npp s)%nat -> (forall th i, path_point s th q i = A i + th * B i) -> (forall th i, h_dpath s [[th]; q] i = B i) ->
  (exists i, (i < h_ny s)%nat /\ B i <> 0) ->
  exists th, findClosestPointOnPath s t pos init = Some th /\ forall th', path_dist2 s q pos th <= path_dist2 s q pos th'.
Proof.
  intros ipopt s t lbx ubx lbu ubu v q A B pos init Hreg Hr Hn HA HB (i0 & Hi0 & HB0).
  pose proof (pf_run_inv ipopt s Hreg t _ _ _ _ _ _ Hr) as (_ & _ & _ & Pp & _).
  set (n := h_ny s) in *. set (bb := rsum n (fun i => B i * B i)). set (ab := rsum n (fun i => B i * (A i - pos i))).
  assert (Hbb : 0 < bb).
  { assert (P0 : 0 <= bb) by (apply rsum_nonneg; intros; nra). destruct (Rle_lt_or_eq_dec 0 bb P0) as [L|L]; auto. exfalso.
    assert (K := rsum_nonneg_zero n (fun i => B i * B i) ltac:(intros; cbv beta; nra) (eq_sym L) i0 Hi0). cbv beta in K. apply HB0. nra. }
  assert (Ng : forall th, dot s (grad_fun s (a_p (t_arg t)) th) (grad_fun s (a_p (t_arg t)) th) = bb).
  { intro th. unfold dot, grad_fun. rewrite Pp. cbn [tl]. apply rsum_ext. intros i _. rewrite HB. reflexivity. }
  assert (Res : forall th i, res_fun s (a_p (t_arg t)) pos th i = A i + th * B i - pos i).
  { intros th i. unfold res_fun, path_args. rewrite Pp. cbn [tl]. rewrite <- HA. reflexivity. }
  assert (Ngr : forall th, dot s (grad_fun s (a_p (t_arg t)) th) (res_fun s (a_p (t_arg t)) pos th) = ab + th * bb).
  { intro th. unfold ab, bb. rewrite <- rsum_scal, <- rsum_plus. apply rsum_ext. intros i _. rewrite Res. unfold grad_fun. rewrite Pp. cbn [tl]. rewrite HB. ring. }
  set (best := - ab / bb).
  assert (Nw : forall th, exists o, newton s (a_p (t_arg t)) pos th = Some (best, o)).
  { intro th. unfold newton. rewrite Ng. destruct (Req_EM_T bb 0) as [E|_]; [lra|]. rewrite Ngr. eexists. f_equal. f_equal. unfold best. field. lra. }
  assert (Fix : forall m o, closest_loop s m (a_p (t_arg t)) pos best o = Some best).
  { induction m; intro o; cbn [closest_loop]; auto. destruct (Rle_dec _ _); auto. destruct (Nw best) as [o' ->]. apply IHm. }
  exists best. split.
  - unfold findClosestPointOnPath. destruct Hreg as (_ & _ & _ & _ & _ & Hp & _). rewrite Hp. rewrite (proj2 (Nat.ltb_lt _ _) Hn). cbn [Nat.eqb].
    rewrite loop_unfold, Rabs_R1. destruct (Rle_dec (1 / 10) 1); [|exfalso; lra]. destruct (Nw init) as [o ->]. apply Fix.
  - intro th'. assert (D : forall th, path_dist2 s q pos th = rsum n (fun i => (A i - pos i) ^ 2) + 2 * th * ab + th * th * bb).
    { intro th. unfold path_dist2, ab, bb. rewrite <- !rsum_scal, <- !rsum_plus. apply rsum_ext. intros i _. rewrite HA. ring. }
    rewrite !D. assert (Eb : ab = - (best * bb)) by (unfold best; field; lra). rewrite Eb. pose proof (Rle_0_sqr (th' - best)) as Sq. unfold Rsqr in Sq. nra.
Qed.
Print Assumptions C87_closest_line.

(** the path (theta, 2 theta + 3), the point (1, 0): theta = -1 *)
Definition ramp : pf :=
  mkPf 1 1 2 0 2 2 (mkFun 2 2 (fun _ _ => 0)) (fun l i => nth i l 0)
    (mkFun 2 2 (fun l i => match l with (th :: nil) :: (c :: nil) :: _ => if (i =? 0)%nat then th else 2 * th + c | _ => 0 end))
    (fun _ i => if (i =? 0)%nat then 1 else 2) (fun _ _ => 1) (fun _ _ => 1) 1 false None None 1 1 [3] 0.
Lemma ramp_reg : pf_regular ramp.
Proof. repeat split; cbn; try lia; try lra; intros d E; discriminate. Qed.
Example C87_closest_line_ex : forall t init, pf_new ramp = Some t -> exists th, findClosestPointOnPath ramp t (fun i => if (i =? 0)%nat then 1 else 0) init = Some th /\
  (th - 1) ^ 2 + (2 * th + 3) ^ 2 <= (-1 - 1) ^ 2 + (2 * -1 + 3) ^ 2.
Proof.
  intros t init Ht. destruct (C87_closest_line low ramp t free free free free 1 [3] (fun i => if (i =? 0)%nat then 0 else 3) (fun i => if (i =? 0)%nat then 1 else 2)
    (fun i => if (i =? 0)%nat then 1 else 0) init ramp_reg (pf_run_new low ramp t Ht) ltac:(cbn; lia)) as (th & E & H).
  - intros th i. unfold path_point. cbn. destruct (i =? 0)%nat; ring.
  - intros th i. reflexivity.
  - exists 0%nat. split; [cbn; lia|cbn; lra].
  - exists th. split; [exact E|]. specialize (H (-1)). unfold path_dist2, path_point in H. cbn in H. lra.
Qed.

Lemma iter_in : forall (g : R -> R) n th, Nat.iter n g (g th) = Nat.iter (S n) g th.
Proof. intros g n th. induction n as [|n IH]; [reflexivity|]. exact (f_equal g IH). Qed.

(** any path with parameters whose derivative does not vanish: the result comes from at most eleven Gauss-Newton steps; before
    the eleventh the last step starts at a point where the error is nearly orthogonal to the path *)
Theorem C87_closest_steps : forall ipopt s t lbx ubx lbu ubu v q pos init, pf_regular s -> pf_run ipopt s t lbx ubx lbu ubu v q ->
  (0 < h_npp s)%nat -> (forall th, exists i, (i < h_ny s)%nat /\ h_dpath s [[th]; q] i <> 0) ->
  let p := fun th => path_point s th q in let dp := fun th => h_dpath s [[th]; q] in
  exists n, (n < 11)%nat /\ let last := Nat.iter n (gn_step (h_ny s) p dp pos) init in
    findClosestPointOnPath s t pos init = Some (gn_step (h_ny s) p dp pos last) /\
    (n = 10%nat \/ Rabs (rsum (h_ny s) (fun i => (p last i - pos i) * dp last i)) < 1 / 10).
Proof.
  intros ipopt s t lbx ubx lbu ubu v q pos init Hreg Hr Hn Hd p dp. pose proof (pf_run_inv ipopt s Hreg t _ _ _ _ _ _ Hr) as (_ & _ & _ & Pp & _).
  set (gn := gn_step (h_ny s) p dp pos). set (orth := fun th => rsum (h_ny s) (fun i => (p th i - pos i) * dp th i)).
  assert (Nw : forall th, newton s (a_p (t_arg t)) pos th = Some (gn th, orth th)).
  { intro th. unfold newton. assert (E1 : dot s (grad_fun s (a_p (t_arg t)) th) (grad_fun s (a_p (t_arg t)) th) = rsum (h_ny s) (fun i => dp th i * dp th i)).
    { unfold dot, grad_fun. rewrite Pp. reflexivity. }
    assert (E2 : dot s (grad_fun s (a_p (t_arg t)) th) (res_fun s (a_p (t_arg t)) pos th) = rsum (h_ny s) (fun i => dp th i * (p th i - pos i))).
    { unfold dot, grad_fun, res_fun, path_args. rewrite Pp. reflexivity. }
    assert (E3 : dot s (res_fun s (a_p (t_arg t)) pos th) (grad_fun s (a_p (t_arg t)) th) = orth th).
    { unfold dot, grad_fun, res_fun, path_args. rewrite Pp. reflexivity. }
    rewrite E1, E2, E3. destruct (Req_EM_T _ 0) as [E|E].
    - exfalso. destruct (Hd th) as (i & Hi & Hne). assert (K := rsum_nonneg_zero (h_ny s) (fun i => dp th i * dp th i) ltac:(intros; cbv beta; nra) E i Hi).
      cbv beta in K. apply Hne. unfold dp in K. nra.
    - f_equal. f_equal. unfold gn, gn_step. field. exact E. }
  assert (L : forall m th o, 1 / 10 <= Rabs o -> exists n, (n < S m)%nat /\ closest_loop s (S m) (a_p (t_arg t)) pos th o = Some (gn (Nat.iter n gn th)) /\
    (n = m \/ Rabs (orth (Nat.iter n gn th)) < 1 / 10)).
  { induction m; intros th o Ho.
    - exists 0%nat. split; [lia|]. split; [|left; reflexivity]. cbn [closest_loop]. destruct (Rle_dec _ _); [|contradiction]. rewrite Nw. reflexivity.
    - rewrite loop_unfold. destruct (Rle_dec _ _); [|contradiction]. rewrite Nw. destruct (Rle_lt_dec (1 / 10) (Rabs (orth th))) as [G|G].
      + destruct (IHm (gn th) (orth th) G) as (n & Hn' & E & D). assert (It : Nat.iter n gn (gn th) = Nat.iter (S n) gn th) by apply iter_in.
        exists (S n). split; [lia|]. rewrite It in E, D. split; [exact E|]. destruct D as [->|D]; auto.
      + exists 0%nat. split; [lia|]. split; [|right; exact G]. cbn [closest_loop]. destruct (Rle_dec _ _) as [K|_]; [lra|]. reflexivity. }
  destruct (L 10%nat init 1 ltac:(rewrite Rabs_R1; lra)) as (n & Hn' & E & D). exists n. split; [exact Hn'|]. split; [|exact D].
  unfold findClosestPointOnPath. destruct Hreg as (_ & _ & _ & _ & _ & Hp & _). rewrite Hp. rewrite (proj2 (Nat.ltb_lt _ _) Hn). exact E.
Qed.
Print Assumptions C87_closest_steps.

(** "the result is a closest point of the path": false for a circle.  Position (2, 0), initial guess pi: the error is
    orthogonal to the circle at the farthest point (-1, 0), which is returned. *)
Definition circle : pf :=
  mkPf 1 1 2 0 2 2 (mkFun 2 2 (fun _ _ => 0)) (fun l i => nth i l 0)
    (mkFun 2 2 (fun l i => match l with (th :: nil) :: _ => if (i =? 0)%nat then cos th else sin th | _ => 0 end))
    (fun l i => match l with (th :: nil) :: _ => if (i =? 0)%nat then - sin th else cos th | _ => 0 end)
    (fun _ _ => 1) (fun _ _ => 1) 1 false None None 1 1 [0] 0.
Lemma circle_reg : pf_regular circle.
Proof. repeat split; cbn; try lia; try lra; intros d E; discriminate. Qed.
(** the point (0, 2) from theta = 0: the first step goes to 2 *)
Example C87_closest_steps_ex : forall t, pf_new circle = Some t -> let pos := fun i : nat => if (i =? 0)%nat then 0 else 2 in
  let gn := gn_step 2 (fun th => path_point circle th [0]) (fun th => h_dpath circle [[th]; [0]]) pos in
  gn 0 = 2 /\ exists n, findClosestPointOnPath circle t pos 0 = Some (gn (Nat.iter n gn 0)).
Proof.
  intros t Ht pos gn. split; [unfold gn, gn_step, path_point, pos; cbn; rewrite sin_0, cos_0; field|].
  destruct (C87_closest_steps low circle t free free free free 1 [0] pos 0 circle_reg (pf_run_new low circle t Ht) ltac:(cbn; lia)) as (n & _ & E & _).
  - intro th. destruct (Req_dec (cos th) 0) as [Hc|Hc].
    + exists 0%nat. split; [cbn; lia|]. cbn. intro Hs. pose proof (sin2_cos2 th) as S. unfold Rsqr in S. nra.
    + exists 1%nat. split; [cbn; lia|exact Hc].
  - exists n. exact E.
Qed.
Theorem C87_closest_refuted : exists ipopt s t q pos init th th', pf_regular s /\ pf_run ipopt s t free free free free 1 q /\ (0 < h_npp s)%nat /\
  (forall i, derivative_of (fun th => path_point s th q i) (fun th => h_dpath s [[th]; q] i)) /\
  findClosestPointOnPath s t pos init = Some th /\ path_dist2 s q pos th' < path_dist2 s q pos th.
Proof.
  pose proof circle_reg as Hs.
  assert (Hn : exists t, pf_new circle = Some t) by (eexists; reflexivity). destruct Hn as [t Hn].
  pose proof (pf_run_new low circle t Hn) as Hr. pose proof (pf_run_inv low circle Hs t _ _ _ _ _ _ Hr) as (_ & _ & _ & Pp & _).
  exists low, circle, t, (h_pp0 circle), (fun i => if (i =? 0)%nat then 2 else 0), PI, PI, 0.
  split; [exact Hs|]. split; [exact Hr|]. split; [cbn; lia|]. split; [|split].
  - intros i th. unfold path_point. cbn. destruct (i =? 0)%nat; [apply derivable_pt_lim_cos|apply derivable_pt_lim_sin].
  - unfold findClosestPointOnPath. change (f_nin (h_path circle)) with 2%nat. cbn [Nat.eqb]. rewrite loop_unfold, Rabs_R1. destruct (Rle_dec (1 / 10) 1); [|exfalso; lra].
    assert (E : newton circle (a_p (t_arg t)) (fun i => if (i =? 0)%nat then 2 else 0) PI = Some (PI, 0)).
    { unfold newton. rewrite Pp. unfold dot, grad_fun, res_fun, path_args. cbn. rewrite sin_PI, cos_PI.
      destruct (Req_EM_T _ 0); [exfalso; lra|]. f_equal. f_equal; field. }
    rewrite E, loop_unfold, Rabs_R0. destruct (Rle_dec (1 / 10) 0); [lra|reflexivity].
  - unfold path_dist2, path_point. cbn. rewrite sin_PI, cos_PI, sin_0, cos_0. lra.
Qed.
Print Assumptions C87_closest_refuted.

(** "the function works for every path that the constructor accepts": false, without path parameters it always throws *)
Theorem C87_closest_arguments_refuted : exists s t, pf_regular s /\ pf_new s = Some t /\ h_npp s = 0%nat /\
  forall pos init, findClosestPointOnPath s t pos init = None.
Proof. exists (line false None None), line0. split; [exact line_reg0|]. split; [exact line_new|]. split; reflexivity. Qed.
Print Assumptions C87_closest_arguments_refuted.
