(** Proofs about the CasADi tracking controller (Nmpc_Model.v). *)
Require Import Arith List Bool Lia Reals Lra.
From Verif Require Import Scal RSum PolyR Poly_Spec Blk Cheb_Proofs Ocp_Proofs Cas_Model Cas_Spec Cas_Proofs Pso_Model Pso_Spec Pso_Proofs Nmpc_Model Nmpc_Spec.
Import ListNotations.
Local Open Scope R_scope.

Lemma scale_poly : forall n q c, is_poly n q -> is_poly n (fun t => c * q t).
Proof.
  intros n q c [a H]. exists (fun k => c * a k). intro x. rewrite H. rewrite <- rsum_scal. apply rsum_ext. intros. ring.
Qed.
Lemma scale_deriv : forall q q' c, derivative_of q q' -> derivative_of (fun t => c * q t) (fun t => c * q' t).
Proof. intros q q' c H x. apply (derivable_pt_lim_scal q c). apply H. Qed.

Section Nmpc.
Variable ipopt : nlp -> narg -> vec R -> vec R -> option (vec R * vec R * vec R).
Variable s : nmpc.
Local Notation nx := (m_nx s).
Local Notation nu := (m_nu s).
Local Notation N := (m_P s * m_S s)%nat.
Local Notation sx := (ini_sx s).
Local Notation su := (ini_su s).
Hypothesis Hreg : regular s.

Lemma sx_pos : forall i, 0 < sx i.
Proof.
  intro i. destruct Hreg as (_ & _ & _ & _ & _ & _ & H & _). unfold ini_sx. destruct (m_scale s), (m_sx s) as [d|]; try lra. apply (H d); auto.
Qed.
Lemma su_pos : forall i, 0 < su i.
Proof.
  intro i. destruct Hreg as (_ & _ & _ & _ & _ & _ & _ & H). unfold ini_su. destruct (m_scale s), (m_su s) as [d|]; try lra. apply (H d); auto.
Qed.

(** the physical states and controls of an NLP point *)
Definition phys_x (x : vec R) (k i : nat) : R := dinv sx i * x (k * nx + i)%nat.
Definition phys_u (x : vec R) (k i : nat) : R := dinv su i * x ((N + 1) * nx + k * nu + i)%nat.

Lemma dmul_slice : forall d v a n, dmul d (slice v a n) = map (fun i => d i * v (a + i)%nat) (seq 0 n).
Proof.
  intros d v a n. unfold dmul. assert (E : length (slice v a n) = n) by (unfold slice; rewrite map_length, seq_length; auto). rewrite E. apply map_ext_in. intros i Hi. apply in_seq in Hi. rewrite slice_nth by lia. reflexivity.
Qed.
Lemma unscaled_one : m_scale s = false -> sx = (fun _ => 1) /\ su = (fun _ => 1).
Proof. intro E. unfold ini_sx, ini_su. rewrite E. auto. Qed.
Lemma map_one : forall (v : vec R) a n, map (fun i => dinv (fun _ => 1) i * v (a + i)%nat) (seq 0 n) = slice v a n.
Proof. intros. unfold slice. apply map_ext. intro i. unfold dinv. field. Qed.

Lemma fun_val : forall x k, forall i, f_val (nmpc_fun s) (node_args (nmpc_cas s) x (nmpc_U s x) (fun _ => 0) (fun _ => 0) k) i =
  sx i * f_val (m_dyn s) [map (phys_x x k) (seq 0 nx); map (phys_u x k) (seq 0 nu)] i.
Proof.
  intros x k i.
  assert (A : node_args (nmpc_cas s) x (nmpc_U s x) (fun _ => 0) (fun _ => 0) k = [slice x (k * nx) nx; slice x ((N + 1) * nx + k * nu) nu]).
  { unfold node_args, extra. cbn [nmpc_cas cX cU cNP cND Nat.eqb andb]. f_equal. f_equal. unfold slice, nmpc_U. apply map_ext. intro j. f_equal. lia. }
  rewrite A. unfold nmpc_fun. destruct (m_scale s) eqn:E; cbn [f_val].
  - rewrite !dmul_slice. reflexivity.
  - destruct (unscaled_one E) as [E1 E2]. unfold phys_x, phys_u. rewrite E1, E2. rewrite !map_one. ring.
Qed.
Lemma fun_ok : f_nin (nmpc_fun s) = num_args (nmpc_cas s) /\ f_out (nmpc_fun s) = cX (nmpc_cas s).
Proof.
  destruct Hreg as (_ & _ & _ & _ & H1 & H2 & _). unfold nmpc_fun. destruct (m_scale s); auto.
Qed.
Lemma cas_dims : dims_ok (nmpc_cas s).
Proof. destruct Hreg as (A & B & C & _). repeat split; auto. Qed.

Lemma colloc_iff : forall x, (forall i, (i < N * nx)%nat -> nmpc_Gv s x i = 0) <->
  (forall sg i, (sg < m_S s)%nat -> (i < nx)%nat -> exists q q', is_poly (m_P s) q /\ derivative_of q q' /\
     (forall j, (j <= m_P s)%nat -> q (nmpc_time s sg j) = phys_x x (sg * m_P s + j)%nat i) /\
     (forall l, (l < m_P s)%nat -> q' (nmpc_time s sg l) =
        f_val (m_dyn s) [map (phys_x x (sg * m_P s + l)%nat) (seq 0 nx); map (phys_u x (sg * m_P s + l)%nat) (seq 0 nu)] i)).
Proof.
  intro x. destruct fun_ok as [F1 F2]. unfold nmpc_Gv. rewrite cas_dynamics_some by auto.
  assert (Ht : 0 < m_tf s) by apply Hreg.
  pose proof (dyn_rows (nmpc_cas s) (nmpc_fun s) 0 (m_tf s) x (nmpc_U s x) (fun _ => 0) (fun _ => 0) cas_dims Ht) as D.
  cbn [nmpc_cas cX cP cS] in D. fold (nmpc_cas s) in D. rewrite (Nat.mul_comm nx) in D. etransitivity; [exact D|]. clear D.
  split; intros H sg i Hs Hi; destruct (H sg i Hs Hi) as (q & q' & Hq & Hq' & Hv & Hc); pose proof (sx_pos i) as Hp.
  - exists (fun t => / sx i * q t), (fun t => / sx i * q' t). split; [apply scale_poly; auto|]. split; [apply scale_deriv; auto|]. split.
    + intros j Hj. cbv beta. unfold nmpc_time. rewrite Hv by auto. reflexivity.
    + intros l Hl. unfold nmpc_time. rewrite Hc by auto. rewrite fun_val. field. lra.
  - exists (fun t => sx i * q t), (fun t => sx i * q' t). split; [apply scale_poly; auto|]. split; [apply scale_deriv; auto|]. split.
    + intros j Hj. cbv beta. change (sx i * q (nmpc_time s sg j) = comp nx x (sg * m_P s + j) i). rewrite Hv by auto. unfold phys_x, dinv, comp. field. lra.
    + intros l Hl. change (sx i * q' (nmpc_time s sg l) = f_val (nmpc_fun s) (node_args (nmpc_cas s) x (nmpc_U s x) (fun _ => 0) (fun _ => 0) (sg * m_P s + l)) i).
      rewrite Hc by auto. rewrite fun_val. reflexivity.
Qed.

(** * invariant of the members *)
Definition okb (o n : nat) (d : vec R) (b : vec (option R)) (skip : nat -> Prop) (a : vec (option R)) : Prop :=
  forall k i, (k <= N)%nat -> (i < n)%nat -> ~ skip k -> a (o + (k * n + i))%nat = sbound d b i.
Definition inv (t : nst) (lbx ubx lbu ubu : vec (option R)) : Prop :=
  t_sx t = sx /\ t_su t = su /\ t_init t = false /\
  okb 0 nx sx lbx (fun k => k = N) (a_lbx (t_arg t)) /\ okb 0 nx sx ubx (fun k => k = N) (a_ubx (t_arg t)) /\
  okb ((N + 1) * nx) nu su lbu (fun _ => False) (a_lbx (t_arg t)) /\ okb ((N + 1) * nx) nu su ubu (fun _ => False) (a_ubx (t_arg t)).

Lemma put_in : forall o n d b old skip, okb o n d b skip (put s o n d b old).
Proof.
  intros o n d b old skip k i Hk Hi _. unfold put. rewrite in_seg_true by nia.
  replace (o + (k * n + i) - o)%nat with (i + k * n)%nat by lia. rewrite Nat.mod_add by lia. rewrite Nat.mod_small by auto. reflexivity.
Qed.
Lemma put_out : forall o n d b old o' n' d' b' skip, okb o' n' d' b' skip old ->
  (forall j, (j < (N + 1) * n')%nat -> (o' + j < o \/ o + (N + 1) * n <= o' + j)%nat) -> okb o' n' d' b' skip (put s o n d b old).
Proof.
  intros o n d b old o' n' d' b' skip H Ho k i Hk Hi Hs. unfold put. rewrite in_seg_false; [apply H; auto|]. apply Ho. nia.
Qed.
Lemma prepare_x : forall t X0 (skip : nat -> Prop), skip N -> forall d b, okb 0 nx d b skip (a_lbx (t_arg t)) -> okb 0 nx d b skip (a_lbx (t_arg (prepare s t X0))).
Proof.
  intros t X0 skip Hs d b H k i Hk Hi Hn. cbn [t_arg prepare a_lbx]. rewrite in_seg_false; [apply H; auto|]. left.
  assert (k <> N) by (intro; subst; auto). nia.
Qed.
Lemma prepare_x' : forall t X0 (skip : nat -> Prop), skip N -> forall d b, okb 0 nx d b skip (a_ubx (t_arg t)) -> okb 0 nx d b skip (a_ubx (t_arg (prepare s t X0))).
Proof.
  intros t X0 skip Hs d b H k i Hk Hi Hn. cbn [t_arg prepare a_ubx]. rewrite in_seg_false; [apply H; auto|]. left.
  assert (k <> N) by (intro; subst; auto). nia.
Qed.
Lemma prepare_u : forall t X0 d b skip, okb ((N + 1) * nx) nu d b skip (a_lbx (t_arg t)) -> okb ((N + 1) * nx) nu d b skip (a_lbx (t_arg (prepare s t X0))).
Proof. intros t X0 d b skip H k i Hk Hi Hn. cbn [t_arg prepare a_lbx]. rewrite in_seg_false; [apply H; auto|]. lia. Qed.
Lemma prepare_u' : forall t X0 d b skip, okb ((N + 1) * nx) nu d b skip (a_ubx (t_arg t)) -> okb ((N + 1) * nx) nu d b skip (a_ubx (t_arg (prepare s t X0))).
Proof. intros t X0 d b skip H k i Hk Hi Hn. cbn [t_arg prepare a_ubx]. rewrite in_seg_false; [apply H; auto|]. lia. Qed.
Lemma prepare_inv : forall t X0 a b c d, inv t a b c d -> inv (prepare s t X0) a b c d.
Proof.
  intros t X0 a b c d (A & B & C & D & E & F & G). split; [exact A|]. split; [exact B|]. split; [exact C|].
  split; [apply prepare_x; auto|]. split; [apply prepare_x'; auto|]. split; [apply prepare_u; auto|apply prepare_u'; auto].
Qed.
Lemma compute_arg : forall t X0, t_arg (fst (computeControl ipopt s t X0)) = t_arg (prepare s t X0) /\
  t_sx (fst (computeControl ipopt s t X0)) = t_sx t /\ t_su (fst (computeControl ipopt s t X0)) = t_su t /\ t_init (fst (computeControl ipopt s t X0)) = t_init t.
Proof. intros t X0. unfold computeControl. destruct (ipopt _ _ _ _) as [[[x lx] lg]|]; cbn; auto. Qed.

Lemma run_inv : forall t a b c d, run ipopt s t a b c d -> inv t a b c d.
Proof.
  intros t a b c d H. induction H.
  - unfold nmpc_new in H. destruct (sizes_ok s); [|discriminate]. destruct (cas_dynamics _ _ _ _ _ _ _ _); [|discriminate]. inversion H.
    split; [reflexivity|]. split; [reflexivity|]. split; [reflexivity|]. repeat split; intros k i _ _ _; reflexivity.
  - destruct IHrun as (A & B & C & D & E & F & G). split; [exact A|]. split; [exact B|]. split; [exact C|]. cbn [t_arg setLBX set_arg a_lbx a_ubx].
    split; [rewrite A; apply put_in|]. split; [exact E|]. split; [apply put_out; auto; intros; lia|exact G].
  - destruct IHrun as (A & B & C & D & E & F & G). split; [exact A|]. split; [exact B|]. split; [exact C|]. cbn [t_arg setUBX set_arg a_lbx a_ubx].
    split; [exact D|]. split; [rewrite A; apply put_in|]. split; [exact F|apply put_out; auto; intros; lia].
  - destruct IHrun as (A & B & C & D & E & F & G). split; [exact A|]. split; [exact B|]. split; [exact C|]. cbn [t_arg setLBU set_arg a_lbx a_ubx].
    split; [apply put_out; auto; intros; lia|]. split; [exact E|]. split; [rewrite B; apply put_in|exact G].
  - destruct IHrun as (A & B & C & D & E & F & G). split; [exact A|]. split; [exact B|]. split; [exact C|]. cbn [t_arg setUBU set_arg a_lbx a_ubx].
    split; [exact D|]. split; [apply put_out; auto; intros; lia|]. split; [exact F|rewrite B; apply put_in].
  - exact IHrun.
  - pose proof (prepare_inv t X0 a b c d IHrun) as (A & B & C & D & E & F & G). destruct (compute_arg t X0) as (E1 & E2 & E3 & E4).
    unfold inv. rewrite E1, E2, E3, E4. destruct IHrun as (A' & B' & C' & _). repeat split; auto.
Qed.

(** * the problem of computeControl *)
Lemma above_scale : forall d b i z, 0 < d i -> (above (sbound d b i) z <-> above (b i) (dinv d i * z)).
Proof.
  intros d b i z H. unfold sbound, above, dinv. destruct (b i); [|tauto]. split; intro K.
  - apply Rmult_le_reg_l with (d i); auto. replace (d i * (/ d i * z)) with z by (field; lra). auto.
  - apply Rmult_le_reg_l with (/ d i); [apply Rinv_0_lt_compat; auto|]. replace (/ d i * (d i * r)) with r by (field; lra). auto.
Qed.
Lemma below_scale : forall d b i z, 0 < d i -> (below (sbound d b i) z <-> below (b i) (dinv d i * z)).
Proof.
  intros d b i z H. unfold sbound, below, dinv. destruct (b i); [|tauto]. split; intro K.
  - apply Rmult_le_reg_l with (d i); auto. replace (d i * (/ d i * z)) with z by (field; lra). auto.
  - apply Rmult_le_reg_l with (/ d i); [apply Rinv_0_lt_compat; auto|]. replace (/ d i * (d i * r)) with r by (field; lra). auto.
Qed.
Lemma dmul_nth : forall d l i, (i < length l)%nat -> nth i (dmul d l) 0 = d i * nth i l 0.
Proof.
  intros d l i Hi. unfold dmul. rewrite (nth_indep _ 0 (d 0%nat * nth 0 l 0)) by (rewrite map_length, seq_length; auto).
  rewrite (map_nth (fun i => d i * nth i l 0)). rewrite seq_nth by auto. reflexivity.
Qed.
Lemma prepare_ini : forall t X0 i, t_sx t = sx -> length X0 = nx -> (i < nx)%nat ->
  a_lbx (t_arg (prepare s t X0)) (N * nx + i)%nat = Some (sx i * nth i X0 0) /\ a_ubx (t_arg (prepare s t X0)) (N * nx + i)%nat = Some (sx i * nth i X0 0).
Proof.
  intros t X0 i E HX Hi. cbn [t_arg prepare a_lbx a_ubx]. rewrite in_seg_true by lia. replace (N * nx + i - N * nx)%nat with i by lia.
  unfold lval. rewrite dmul_nth by lia. rewrite E. auto.
Qed.

Lemma feasible_ocp : forall t a b c d X0 x pv, inv t a b c d -> length X0 = nx ->
  (feasible (nmpc_nlp s) (t_arg (prepare s t X0)) pv x <-> ocp_feasible s X0 a b c d (phys_x x) (phys_u x)).
Proof.
  intros t a b c d X0 x pv Hi HX. pose proof (prepare_inv t X0 a b c d Hi) as (_ & _ & _ & D & E & F & G).
  destruct Hi as (A & _). unfold feasible, ocp_feasible, nodes. cbn [l_nx l_ng l_g nmpc_nlp]. rewrite colloc_iff.
  split.
  - intros [Hb Hg]. split; [|split; [|split; [|exact Hg]]].
    + intros i Hi. destruct (prepare_ini t X0 i A HX Hi) as [E1 E2]. destruct (Hb (N * nx + i)%nat ltac:(nia)) as [H1 H2].
      rewrite E1 in H1. rewrite E2 in H2. simpl in H1, H2. unfold phys_x, dinv. replace (x (N * nx + i)%nat) with (sx i * nth i X0 0) by lra.
      field. pose proof (sx_pos i). lra.
    + intros k i Hk Hi. assert (B : (k * nx + i < (N + 1) * nx)%nat) by nia. destruct (Hb (k * nx + i)%nat ltac:(lia)) as [H1 H2].
      assert (Hne : k <> N) by lia. assert (D' := D k i ltac:(lia) Hi Hne). assert (E' := E k i ltac:(lia) Hi Hne). simpl Nat.add in D', E'. rewrite D' in H1. rewrite E' in H2.
      apply above_scale in H1; [|apply sx_pos]. apply below_scale in H2; [|apply sx_pos]. auto.
    + intros k i Hk Hi. assert (B : (k * nu + i < (N + 1) * nu)%nat) by nia. destruct (Hb ((N + 1) * nx + (k * nu + i))%nat ltac:(lia)) as [H1 H2].
      rewrite (F k i) in H1 by auto. rewrite (G k i) in H2 by auto.
      apply above_scale in H1; [|apply su_pos]. apply below_scale in H2; [|apply su_pos]. unfold phys_u. rewrite <- Nat.add_assoc. auto.
  - intros (H0 & Hx & Hu & Hg). split; [|exact Hg]. intros i Hi. destruct (Nat.lt_ge_cases i ((N + 1) * nx)) as [L|L].
    + rewrite Nat.mul_comm in L. destruct (index_split nx (N + 1) i L) as (k & j & -> & Hk & Hj). destruct (Nat.eq_dec k N) as [->|Hne].
      * destruct (prepare_ini t X0 j A HX Hj) as [-> ->]. specialize (H0 j Hj). unfold phys_x, dinv in H0. simpl.
        assert (x (N * nx + j)%nat = sx j * nth j X0 0) by (rewrite <- H0; field; pose proof (sx_pos j); lra). lra.
      * destruct (Hx k j ltac:(lia) Hj) as [H1 H2].
        assert (D' := D k j ltac:(lia) Hj Hne). assert (E' := E k j ltac:(lia) Hj Hne). simpl Nat.add in D', E'. rewrite D', E'.
        split; [apply above_scale; [apply sx_pos|auto]|apply below_scale; [apply sx_pos|auto]].
    + assert (L2 : (i - (N + 1) * nx < nu * (N + 1))%nat) by lia. destruct (index_split nu (N + 1) _ L2) as (k & j & Eq & Hk & Hj).
      replace i with ((N + 1) * nx + (k * nu + j))%nat by lia. rewrite (F k j), (G k j) by (auto; lia).
      destruct (Hu k j ltac:(lia) Hj) as [H1 H2]. unfold phys_u in H1, H2. rewrite <- Nat.add_assoc in H1, H2.
      split; [apply above_scale; [apply su_pos|auto]|apply below_scale; [apply su_pos|auto]].
Qed.

(** * the cost *)
Lemma wsum_diag : forall n M v, diagonal n M -> wsum n M v = wsq n M v.
Proof.
  intros n M v H. unfold wsum, wsq. apply rsum_ext. intros i Hi.
  rewrite (rsum_ext n _ (fun j => if (j =? i)%nat then M i j * v j ^ 2 else 0)).
  - rewrite (rsum_delta n i (fun j => M i j * v j ^ 2)) by auto. reflexivity.
  - intros j Hj. destruct (Nat.eqb_spec j i); auto. rewrite (H i j) by auto. ring.
Qed.
Lemma residual_phys : forall x k i, residual s (slice x (k * nx) nx) i = error s (map (phys_x x k) (seq 0 nx)) i.
Proof.
  intros x k i. unfold residual, error. destruct (m_scale s) eqn:E.
  - rewrite dmul_slice. reflexivity.
  - unfold phys_x. destruct (unscaled_one E) as [-> _]. rewrite map_one. reflexivity.
Qed.
Lemma wsq_ext : forall n M v w, (forall i, (i < n)%nat -> v i = w i) -> wsq n M v = wsq n M w.
Proof. intros n M v w H. apply rsum_ext. intros i Hi. rewrite H by auto. reflexivity. Qed.
Lemma wsum_ext : forall n M v w, (forall i, (i < n)%nat -> v i = w i) -> wsum n M v = wsum n M w.
Proof. intros n M v w H. apply rsum_ext. intros i Hi. apply rsum_ext. intros j Hj. rewrite H by auto. reflexivity. Qed.

Definition stage (x : vec R) (k : nat) : R :=
  wsum (m_ny s) (m_Q s) (error s (map (phys_x x k) (seq 0 nx))) + wsum nu (m_R s) (fun i => x ((N + 1) * nx + k * nu + i)%nat).
Lemma lag_val : forall x k, f_val (nmpc_lag s) [slice x (k * nx) nx; slice (nmpc_U s x) (k * nu) nu] 0%nat = stage x k.
Proof.
  intros x k. cbn [f_val nmpc_lag]. unfold stage. f_equal.
  - apply wsum_ext. intros i _. apply residual_phys.
  - apply wsum_ext. intros i Hi. unfold lval. rewrite slice_nth by auto. unfold nmpc_U. f_equal. lia.
Qed.
Lemma may_val : forall x, f_val (nmpc_may s) [slice x 0 nx] 0%nat = wsum (m_ny s) (m_PW s) (error s (map (phys_x x 0) (seq 0 nx))).
Proof. intro x. cbn [f_val nmpc_may]. apply wsum_ext. intros i _. exact (residual_phys x 0 i). Qed.

Lemma cost_quad : forall x, nmpc_cost s x = wsum (m_ny s) (m_PW s) (error s (map (phys_x x 0) (seq 0 nx))) +
  rsum (m_S s) (fun k => cas_ts (nmpc_cas s) 0 (m_tf s) * rsum (S (m_P s)) (fun m => cas_w (m_P s) m * stage x (k * m_P s + m))).
Proof.
  intro x. unfold nmpc_cost, cas_cost.
  rewrite (quad_some (nmpc_cas s) _ _ (fun k m => stage x (k * m_P s + m))).
  - unfold sval, call. cbn [length nmpc_may f_nin Nat.eqb]. f_equal. exact (may_val x).
  - intros k m Hk Hm. unfold sval, call. cbn [length nmpc_lag f_nin Nat.eqb]. f_equal. exact (lag_val x (k * m_P s + m)%nat).
Qed.
End Nmpc.
