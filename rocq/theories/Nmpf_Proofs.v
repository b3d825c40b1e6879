(** Proofs about the CasADi path following controller (Nmpf_Model.v). *)
Require Import Arith List Bool Lia Reals Lra.
From Verif Require Import Scal RSum PolyR Poly_Spec Blk Cheb_Proofs Ocp_Proofs Cas_Model Cas_Spec Cas_Proofs Pso_Model Pso_Spec Pso_Proofs
  Nmpc_Model Nmpc_Spec Nmpc_Proofs Nmpf_Model Nmpf_Spec.
Import ListNotations.
Local Open Scope R_scope.

Lemma seq_firstn : forall n m a, firstn n (seq a (n + m)) = seq a n.
Proof. induction n; intros m a; cbn; auto. rewrite IHn. reflexivity. Qed.
Lemma map_firstn : forall (f : nat -> R) n m, firstn n (map f (seq 0 (n + m))) = map f (seq 0 n).
Proof. intros f n m. rewrite firstn_map, seq_firstn. reflexivity. Qed.
Lemma nth_map_seq : forall n i (v : nat -> R), (i < n)%nat -> nth i (map v (seq 0 n)) 0 = v i.
Proof.
  intros n i v Hi. rewrite (nth_indep _ 0 (v 0%nat)) by (rewrite map_length, seq_length; auto). rewrite map_nth, seq_nth by auto. reflexivity.
Qed.
Lemma dmul_length : forall d l, length (dmul d l) = length l.
Proof. intros. unfold dmul. rewrite map_length, seq_length. reflexivity. Qed.
Lemma dmul_map : forall d (f : nat -> R) n, dmul d (map f (seq 0 n)) = map (fun i => d i * f i) (seq 0 n).
Proof.
  intros d f n. unfold dmul. rewrite map_length, seq_length. apply map_ext_in. intros i Hi. apply in_seq in Hi. rewrite nth_map_seq by lia. reflexivity.
Qed.

Lemma Rabs_inv : forall a b, Rabs a <= b -> - b <= a <= b.
Proof. intros a b H. pose proof (Rle_abs a). pose proof (Rle_abs (- a)) as K. rewrite Rabs_Ropp in K. lra. Qed.

Section Nmpf.
Variable ipopt : nlp -> narg -> vec R -> vec R -> option (vec R * vec R * vec R).
Variable s : pf.
Local Notation nx := (h_nx s).
Local Notation nu := (h_nu s).
Local Notation dx := (h_nx s + 2)%nat.
Local Notation du := (h_nu s + 1)%nat.
Local Notation N := (h_P s * h_S s)%nat.
Local Notation sx := (pf_sx s).
Local Notation su := (pf_su s).

Lemma pf_unscaled : h_scale s = false -> sx = (fun _ => 1) /\ su = (fun _ => 1).
Proof. intro E. unfold pf_sx, pf_su. rewrite E. auto. Qed.
Lemma states_slice : forall x k, dmul (dinv sx) (slice x (k * dx) dx) = map (pf_states s x k) (seq 0 dx).
Proof. intros. rewrite dmul_slice. reflexivity. Qed.
Lemma controls_slice : forall x k, dmul (dinv su) (slice (pf_U s x) (k * du) du) = map (pf_controls s x k) (seq 0 du).
Proof. intros. rewrite dmul_slice. apply map_ext. intro i. unfold pf_controls, pf_U, dinv. f_equal. f_equal. lia. Qed.
Lemma states_one : h_scale s = false -> forall x k, map (pf_states s x k) (seq 0 dx) = slice x (k * dx) dx.
Proof. intros E x k. destruct (pf_unscaled E) as [E1 _]. apply map_ext. intro i. unfold pf_states. rewrite E1. field. Qed.
Lemma controls_one : h_scale s = false -> forall x k, map (pf_controls s x k) (seq 0 du) = slice (pf_U s x) (k * du) du.
Proof.
  intros E x k. destruct (pf_unscaled E) as [_ E1]. apply map_ext. intro i. unfold pf_controls, pf_U. rewrite E1. rewrite Rinv_1, Rmult_1_l. f_equal. lia.
Qed.
Lemma pf_fun_val : forall x k i, f_val (pf_fun s) (node_args (pf_cas s) x (pf_U s x) (fun _ => 0) (fun _ => 0) k) i =
  sx i * aug_dyn s (map (pf_states s x k) (seq 0 dx)) (map (pf_controls s x k) (seq 0 du)) i.
Proof.
  intros x k i.
  assert (A : node_args (pf_cas s) x (pf_U s x) (fun _ => 0) (fun _ => 0) k = [slice x (k * dx) dx; slice (pf_U s x) (k * du) du]) by reflexivity.
  rewrite A. unfold pf_fun. cbn [f_val]. destruct (h_scale s) eqn:E.
  - rewrite states_slice, controls_slice. reflexivity.
  - rewrite states_one, controls_one by auto. destruct (pf_unscaled E) as [-> _]. ring.
Qed.
Lemma aug_sys : forall x k i, (i < nx)%nat -> aug_dyn s (map (pf_states s x k) (seq 0 dx)) (map (pf_controls s x k) (seq 0 du)) i =
  f_val (h_dyn s) [map (pf_states s x k) (seq 0 nx); map (pf_controls s x k) (seq 0 nu)] i.
Proof. intros x k i Hi. unfold aug_dyn. rewrite (proj2 (Nat.ltb_lt _ _) Hi). rewrite !map_firstn. reflexivity. Qed.
Lemma aug_theta : forall x k, aug_dyn s (map (pf_states s x k) (seq 0 dx)) (map (pf_controls s x k) (seq 0 du)) nx = pf_states s x k (nx + 1)%nat.
Proof. intros x k. unfold aug_dyn. rewrite Nat.ltb_irrefl, Nat.eqb_refl. apply nth_map_seq. lia. Qed.
Lemma aug_vel : forall x k, aug_dyn s (map (pf_states s x k) (seq 0 dx)) (map (pf_controls s x k) (seq 0 du)) (nx + 1)%nat = pf_controls s x k nu.
Proof.
  intros x k. unfold aug_dyn. replace (nx + 1 <? nx)%nat with false by (symmetry; apply Nat.ltb_ge; lia).
  replace (nx + 1 =? nx)%nat with false by (symmetry; apply Nat.eqb_neq; lia). apply nth_map_seq. lia.
Qed.

Hypothesis Hreg : pf_regular s.
Lemma pf_sx_pos : forall i, 0 < sx i.
Proof.
  intro i. destruct Hreg as (_ & _ & _ & _ & _ & _ & _ & H & _). unfold pf_sx. destruct (h_scale s), (h_sx s) as [d|]; try lra. apply (H d); auto.
Qed.
Lemma pf_su_pos : forall i, 0 < su i.
Proof.
  intro i. destruct Hreg as (_ & _ & _ & _ & _ & _ & _ & _ & H & _). unfold pf_su. destruct (h_scale s), (h_su s) as [d|]; try lra. apply (H d); auto.
Qed.
Lemma pf_dims : dims_ok (pf_cas s).
Proof. destruct Hreg as (A & B & C & _). repeat split; auto. cbn. lia. Qed.

Lemma pf_colloc : forall x, (forall i, (i < (N + 1) * dx)%nat -> pf_Gv s x i = 0) <->
  (forall i, (i < dx)%nat -> solves s (fun k => pf_states s x k i)
     (fun k => aug_dyn s (map (pf_states s x k) (seq 0 dx)) (map (pf_controls s x k) (seq 0 du)) i)).
Proof.
  intro x. unfold pf_Gv. rewrite cas_dynamics_some by reflexivity. assert (Ht : 0 < h_tf s) by apply Hreg.
  pose proof (dyn_collocation (pf_cas s) (pf_fun s) 0 (h_tf s) x (pf_U s x) (fun _ => 0) (fun _ => 0) pf_dims Ht) as D.
  unfold cas_N in D. cbn [pf_cas cX cP cS] in D. fold (pf_cas s) in D.
  assert (EN : (dx * (h_S s * h_P s + 1) = (N + 1) * dx)%nat) by (rewrite (Nat.mul_comm (h_S s)); apply Nat.mul_comm).
  rewrite ?EN in D.
  replace (dx * (h_P s * h_S s + 1))%nat with ((N + 1) * dx)%nat in D by lia.
  etransitivity; [exact D|]. clear D EN. split.
  - intros H i Hi sg Hs. destruct (H sg i Hs Hi) as (q & q' & Hq & Hq' & Hv & Hc). pose proof (pf_sx_pos i) as Hp.
    exists (fun t => / sx i * q t), (fun t => / sx i * q' t). split; [apply scale_poly; auto|]. split; [apply scale_deriv; auto|]. split.
    + intros j Hj. cbv beta. unfold pf_time. rewrite Hv by auto. reflexivity.
    + intros l [Hl Ho]. unfold pf_time. rewrite Hc by auto. rewrite pf_fun_val. field. lra.
  - intros H sg i Hs Hi. destruct (H i Hi sg Hs) as (q & q' & Hq & Hq' & Hv & Hc). pose proof (pf_sx_pos i) as Hp.
    exists (fun t => sx i * q t), (fun t => sx i * q' t). split; [apply scale_poly; auto|]. split; [apply scale_deriv; auto|]. split.
    + intros j Hj. cbv beta. change (sx i * q (pf_time s sg j) = comp dx x (sg * h_P s + j) i). rewrite Hv by auto. unfold pf_states, comp. field. lra.
    + intros l Hl Ho. change (sx i * q' (pf_time s sg l) = f_val (pf_fun s) (node_args (pf_cas s) x (pf_U s x) (fun _ => 0) (fun _ => 0) (sg * h_P s + l)) i).
      rewrite Hc by (split; auto). rewrite pf_fun_val. reflexivity.
Qed.
Lemma solves_ext : forall W F G, (forall k, F k = G k) -> solves s W F -> solves s W G.
Proof.
  intros W F G E H sg Hs. destruct (H sg Hs) as (q & q' & A & B & C & D). exists q, q'. repeat split; auto. intros l Hl. rewrite <- E. auto.
Qed.
Lemma pf_colloc_parts : forall x, (forall i, (i < (N + 1) * dx)%nat -> pf_Gv s x i = 0) <->
  (forall i, (i < nx)%nat -> solves s (fun k => pf_states s x k i)
     (fun k => f_val (h_dyn s) [map (pf_states s x k) (seq 0 nx); map (pf_controls s x k) (seq 0 nu)] i)) /\
  solves s (fun k => pf_states s x k nx) (fun k => pf_states s x k (nx + 1)%nat) /\
  solves s (fun k => pf_states s x k (nx + 1)%nat) (fun k => pf_controls s x k nu).
Proof.
  intro x. rewrite pf_colloc. split.
  - intro H. split; [|split].
    + intros i Hi. refine (solves_ext _ _ _ _ (H i ltac:(lia))). intro k. apply aug_sys. auto.
    + refine (solves_ext _ _ _ _ (H nx ltac:(lia))). intro k. apply aug_theta.
    + refine (solves_ext _ _ _ _ (H (nx + 1)%nat ltac:(lia))). intro k. apply aug_vel.
  - intros (H1 & H2 & H3) i Hi. assert (C : (i < nx \/ i = nx \/ i = nx + 1)%nat) by lia. destruct C as [C|[-> | ->]].
    + refine (solves_ext _ _ _ _ (H1 i C)). intro k. symmetry. apply aug_sys. auto.
    + refine (solves_ext _ _ _ _ H2). intro k. symmetry. apply aug_theta.
    + refine (solves_ext _ _ _ _ H3). intro k. symmetry. apply aug_vel.
Qed.

(** * invariant of the members *)
Definition pf_okb (o n : nat) (d : vec R) (b : vec (option R)) (skip : nat -> Prop) (a : vec (option R)) : Prop :=
  forall k i, (k <= N)%nat -> (i < n)%nat -> ~ skip k -> a (o + (k * n + i))%nat = sbound d b i.
Definition pf_inv (t : nst) (lbx ubx lbu ubu : vec (option R)) (v : R) (q : list R) : Prop :=
  t_sx t = sx /\ t_su t = su /\ t_init t = false /\ a_p (t_arg t) = sx (nx + 1)%nat * v :: q /\ length q = h_npp s /\
  pf_okb 0 dx sx lbx (fun k => k = N) (a_lbx (t_arg t)) /\ pf_okb 0 dx sx ubx (fun k => k = N) (a_ubx (t_arg t)) /\
  pf_okb ((N + 1) * dx) du su lbu (fun _ => False) (a_lbx (t_arg t)) /\ pf_okb ((N + 1) * dx) du su ubu (fun _ => False) (a_ubx (t_arg t)).

Lemma pf_put_in : forall o n d b old skip, pf_okb o n d b skip (pf_put s o n d b old).
Proof.
  intros o n d b old skip k i Hk Hi _. unfold pf_put. rewrite in_seg_true by nia.
  replace (o + (k * n + i) - o)%nat with (i + k * n)%nat by lia. rewrite Nat.mod_add by lia. rewrite Nat.mod_small by auto. reflexivity.
Qed.
Lemma pf_put_out : forall o n d b old o' n' d' b' skip, pf_okb o' n' d' b' skip old ->
  (forall j, (j < (N + 1) * n')%nat -> (o' + j < o \/ o + (N + 1) * n <= o' + j)%nat) -> pf_okb o' n' d' b' skip (pf_put s o n d b old).
Proof.
  intros o n d b old o' n' d' b' skip H Ho k i Hk Hi Hs. unfold pf_put. rewrite in_seg_false; [apply H; auto|]. apply Ho. nia.
Qed.
Lemma ini_x : forall g t X d b a, pf_okb 0 dx d b (fun k => k = N) a -> pf_okb 0 dx d b (fun k => k = N) (ini_bound s g t X a).
Proof. intros g t X d b a H k i Hk Hi Hn. unfold ini_bound. rewrite in_seg_false; [apply H; auto|]. left. nia. Qed.
Lemma ini_u : forall g t X d b a skip, pf_okb ((N + 1) * dx) du d b skip a -> pf_okb ((N + 1) * dx) du d b skip (ini_bound s g t X a).
Proof. intros g t X d b a skip H k i Hk Hi Hn. unfold ini_bound. rewrite in_seg_false; [apply H; auto|]. lia. Qed.

(** the scaled initial state with the change of theta *)
Definition start (t : nst) (X : list R) : list R :=
  map (fun i => if (i =? nx)%nat then nth i (dmul (t_sx t) X) 0 + theta_change s t (nth nx (dmul (t_sx t) X) 0) else nth i (dmul (t_sx t) X) 0)
      (seq 0 (length (dmul (t_sx t) X))).
Lemma prepare_facts : forall t X t', pf_prepare s t X = Some t' ->
  t_sx t' = t_sx t /\ t_su t' = t_su t /\ t_init t' = t_init t /\ a_p (t_arg t') = a_p (t_arg t) /\
  a_lbx (t_arg t') = ini_bound s (-1) t (start t X) (a_lbx (t_arg t)) /\ a_ubx (t_arg t') = ini_bound s 1 t (start t X) (a_ubx (t_arg t)).
Proof.
  intros t X t' H. unfold pf_prepare in H. destruct (t_warm t).
  - destruct (t_nlpx t); [|destruct (Req_EM_T _ _); [|discriminate]]; inversion H; repeat split; auto.
  - inversion H; repeat split; auto.
Qed.
Lemma pf_prepare_inv : forall t X t' a b c d v q, pf_inv t a b c d v q -> pf_prepare s t X = Some t' -> pf_inv t' a b c d v q.
Proof.
  intros t X t' a b c d v q (A & B & C & P & L & D & E & F & G) H. destruct (prepare_facts t X t' H) as (H1 & H2 & H3 & H4 & H5 & H6).
  unfold pf_inv. rewrite H1, H2, H3, H4, H5, H6. repeat split; auto; first [apply ini_x|apply ini_u]; auto.
Qed.
Lemma pf_compute_arg : forall t X t', pf_prepare s t X = Some t' ->
  let r := fst (pf_compute ipopt s t X) in t_arg r = t_arg t' /\ t_sx r = t_sx t' /\ t_su r = t_su t' /\ t_init r = t_init t'.
Proof. intros t X t' H. unfold pf_compute. rewrite H. destruct (ipopt _ _ _ _) as [[[x lx] lg]|]; cbn; auto. Qed.

Lemma pf_run_inv : forall t a b c d v q, pf_run ipopt s t a b c d v q -> pf_inv t a b c d v q.
Proof.
  intros t a b c d v q H. induction H.
  - unfold pf_new in H. destruct ((f_nin (h_path s) =? length (path_args s 0 []))%nat && (f_nin (h_dyn s) =? 2)%nat); [|discriminate]. inversion H.
    assert (L : length (h_pp0 s) = h_npp s) by apply Hreg.
    split; [reflexivity|]. split; [reflexivity|]. split; [reflexivity|]. split; [reflexivity|]. split; [exact L|].
    repeat split; intros k i _ _ _; reflexivity.
  - destruct IHpf_run as (A & B & C & P & L & D & E & F & G). split; [exact A|]. split; [exact B|]. split; [exact C|]. split; [exact P|]. split; [exact L|].
    cbn [t_arg pf_setLBX set_arg a_lbx a_ubx].
    split; [rewrite A; apply pf_put_in|]. split; [exact E|]. split; [apply pf_put_out; auto; intros; lia|exact G].
  - destruct IHpf_run as (A & B & C & P & L & D & E & F & G). split; [exact A|]. split; [exact B|]. split; [exact C|]. split; [exact P|]. split; [exact L|].
    cbn [t_arg pf_setUBX set_arg a_lbx a_ubx].
    split; [exact D|]. split; [rewrite A; apply pf_put_in|]. split; [exact F|apply pf_put_out; auto; intros; lia].
  - destruct IHpf_run as (A & B & C & P & L & D & E & F & G). split; [exact A|]. split; [exact B|]. split; [exact C|]. split; [exact P|]. split; [exact L|].
    cbn [t_arg pf_setLBU set_arg a_lbx a_ubx].
    split; [apply pf_put_out; auto; intros; lia|]. split; [exact E|]. split; [rewrite B; apply pf_put_in|exact G].
  - destruct IHpf_run as (A & B & C & P & L & D & E & F & G). split; [exact A|]. split; [exact B|]. split; [exact C|]. split; [exact P|]. split; [exact L|].
    cbn [t_arg pf_setUBU set_arg a_lbx a_ubx].
    split; [exact D|]. split; [apply pf_put_out; auto; intros; lia|]. split; [exact F|rewrite B; apply pf_put_in].
  - destruct IHpf_run as (A & B & C & P & L & D & E & F & G). split; [exact A|]. split; [exact B|]. split; [exact C|].
    split; [cbn [setReferenceVelocity set_arg t_arg a_p]; rewrite P, A; reflexivity|]. split; [exact L|]. repeat split; auto.
  - destruct IHpf_run as (A & B & C & P & L & D & E & F & G). split; [exact A|]. split; [exact B|]. split; [exact C|].
    split; [cbn [setPathParameters set_arg t_arg a_p]; rewrite P; reflexivity|]. split; [assumption|]. repeat split; auto.
  - exact IHpf_run.
  - destruct (pf_prepare s t X0) as [t'|] eqn:Ep.
    + pose proof (pf_prepare_inv t X0 t' a b c d v q IHpf_run Ep) as (A & B & C & D). destruct (pf_compute_arg t X0 t' Ep) as (E1 & E2 & E3 & E4).
      unfold pf_inv. rewrite E1, E2, E3, E4. repeat split; auto; apply D.
    + unfold pf_compute. rewrite Ep. exact IHpf_run.
Qed.

(** * the problem of computeControl *)
Lemma start_nth : forall t X i, length X = dx -> (i < dx)%nat -> t_sx t = sx ->
  nth i (start t X) 0 = sx i * (if (i =? nx)%nat then wrapped s (t_warm t) (nth nx X 0) else nth i X 0).
Proof.
  intros t X i HX Hi E. unfold start. rewrite dmul_length, HX. rewrite nth_map_seq by auto. rewrite !dmul_nth by lia. rewrite E.
  destruct (Nat.eqb_spec i nx) as [->|]; [|reflexivity]. unfold theta_change, wrapped. rewrite E. pose proof (pf_sx_pos nx) as Hp.
  destruct (t_warm t); [|ring]. set (th := nth nx X 0). set (r := h_reset s).
  destruct (Rlt_dec (sx nx * r) (sx nx * th)) as [H|H], (Rlt_dec r th) as [K|K].
  - ring.
  - exfalso. apply K. apply Rmult_lt_reg_l with (sx nx); auto.
  - exfalso. apply H. apply Rmult_lt_compat_l; auto.
  - destruct (Rlt_dec (sx nx * th) (- (sx nx * r))) as [H1|H1], (Rlt_dec th (- r)) as [K1|K1]; try ring.
    + exfalso. apply K1. apply Rmult_lt_reg_l with (sx nx); auto. lra.
    + exfalso. apply H1. replace (- (sx nx * r)) with (sx nx * - r) by ring. apply Rmult_lt_compat_l; auto.
Qed.
Lemma ini_lo : forall t X i a, length X = dx -> t_sx t = sx -> (i < dx)%nat ->
  ini_bound s (-1) t (start t X) a (N * dx + i)%nat = Some (nth i (start t X) 0 - (if (i <? nx)%nat then 0 else sx i * h_flex s)) /\
  ini_bound s 1 t (start t X) a (N * dx + i)%nat = Some (nth i (start t X) 0 + (if (i <? nx)%nat then 0 else sx i * h_flex s)).
Proof.
  intros t X i a HX E Hi. unfold ini_bound. rewrite in_seg_true by lia. replace (N * dx + i - N * dx)%nat with i by lia. rewrite E.
  destruct (i <? nx)%nat; split; f_equal; ring.
Qed.

Lemma near : forall d z w f, 0 < d -> (d * w - d * f <= z /\ z <= d * w + d * f <-> Rabs (/ d * z - w) <= f).
Proof.
  intros d z w f Hd. assert (E : z = d * (/ d * z)) by (field; lra). set (y := / d * z) in *. rewrite E. split.
  - intros [H1 H2]. apply Rabs_le. split; apply Rmult_le_reg_l with d; auto; lra.
  - intro H. apply Rabs_inv in H. split; nra.
Qed.
Lemma pf_feasible_iff : forall t t' a b c d v q X x pv, pf_inv t a b c d v q -> length X = dx -> pf_prepare s t X = Some t' ->
  (feasible (pf_nlp s) (t_arg t') pv x <-> pf_feasible s X (wrapped s (t_warm t) (nth nx X 0)) a b c d (pf_states s x) (pf_controls s x)).
Proof.
  intros t t' a b c d v q X x pv Hi HX Hp. destruct (prepare_facts t X t' Hp) as (_ & _ & _ & _ & Hl & Hu).
  pose proof (pf_prepare_inv t X t' a b c d v q Hi Hp) as (_ & _ & _ & _ & _ & D & E & F & G).
  destruct Hi as (A & _). unfold feasible, pf_feasible, pf_nodes. cbn [l_nx l_ng l_g pf_nlp]. rewrite pf_colloc_parts.
  assert (Ini : forall i, (i < dx)%nat ->
    (above (a_lbx (t_arg t') (N * dx + i)%nat) (x (N * dx + i)%nat) /\ below (a_ubx (t_arg t') (N * dx + i)%nat) (x (N * dx + i)%nat) <->
     Rabs (pf_states s x N i - (if (i =? nx)%nat then wrapped s (t_warm t) (nth nx X 0) else nth i X 0)) <= (if (i <? nx)%nat then 0 else h_flex s))).
  { intros i Hi. rewrite Hl, Hu. destruct (ini_lo t X i (a_lbx (t_arg t)) HX A Hi) as [-> _]. destruct (ini_lo t X i (a_ubx (t_arg t)) HX A Hi) as [_ ->].
    rewrite start_nth by auto. cbn [above below]. unfold pf_states. rewrite <- near by apply pf_sx_pos. destruct (i <? nx)%nat; [|reflexivity].
    rewrite Rmult_0_r. reflexivity. }
  split.
  - intros [Hb Hg]. split; [|split; [|split; [|split; [|split; [|exact Hg]]]]].
    + intros i Hi. destruct (Ini i ltac:(lia)) as [K _]. assert (K' := K (Hb (N * dx + i)%nat ltac:(nia))). clear K.
      replace (i =? nx)%nat with false in K' by (symmetry; apply Nat.eqb_neq; lia). rewrite (proj2 (Nat.ltb_lt _ _) Hi) in K'.
      apply Rabs_inv in K'. lra.
    + destruct (Ini nx ltac:(lia)) as [K _]. assert (K' := K (Hb (N * dx + nx)%nat ltac:(nia))). rewrite Nat.eqb_refl, Nat.ltb_irrefl in K'. exact K'.
    + destruct (Ini (nx + 1)%nat ltac:(lia)) as [K _]. assert (K' := K (Hb (N * dx + (nx + 1))%nat ltac:(nia))).
      replace (nx + 1 =? nx)%nat with false in K' by (symmetry; apply Nat.eqb_neq; lia).
      replace (nx + 1 <? nx)%nat with false in K' by (symmetry; apply Nat.ltb_ge; lia). exact K'.
    + intros k i Hk Hi. assert (B : (k * dx + i < (N + 1) * dx)%nat) by nia. destruct (Hb (k * dx + i)%nat ltac:(lia)) as [H1 H2].
      assert (Hne : k <> N) by lia. assert (D' := D k i ltac:(lia) Hi Hne). assert (E' := E k i ltac:(lia) Hi Hne). simpl Nat.add in D', E'. rewrite D' in H1. rewrite E' in H2.
      apply above_scale in H1; [|apply pf_sx_pos]. apply below_scale in H2; [|apply pf_sx_pos]. auto.
    + intros k i Hk Hi. assert (B : (k * du + i < (N + 1) * du)%nat) by nia. destruct (Hb ((N + 1) * dx + (k * du + i))%nat ltac:(lia)) as [H1 H2].
      rewrite (F k i) in H1 by auto. rewrite (G k i) in H2 by auto.
      apply above_scale in H1; [|apply pf_su_pos]. apply below_scale in H2; [|apply pf_su_pos]. unfold pf_controls. rewrite <- Nat.add_assoc. auto.
  - intros (H0 & Ht & Hv & Hx & Hc & Hg). split; [|exact Hg]. intros i Hi. destruct (Nat.lt_ge_cases i ((N + 1) * dx)) as [L|L].
    + rewrite Nat.mul_comm in L. destruct (index_split dx (N + 1) i L) as (k & j & -> & Hk & Hj). destruct (Nat.eq_dec k N) as [->|Hne].
      * apply Ini; auto. assert (C : (j < nx \/ j = nx \/ j = nx + 1)%nat) by lia. destruct C as [C|[-> | ->]].
        -- replace (j =? nx)%nat with false by (symmetry; apply Nat.eqb_neq; lia). rewrite (proj2 (Nat.ltb_lt _ _) C). rewrite (H0 j C).
           rewrite Rminus_diag_eq by reflexivity. rewrite Rabs_R0. lra.
        -- rewrite Nat.eqb_refl, Nat.ltb_irrefl. exact Ht.
        -- replace (nx + 1 =? nx)%nat with false by (symmetry; apply Nat.eqb_neq; lia).
           replace (nx + 1 <? nx)%nat with false by (symmetry; apply Nat.ltb_ge; lia). exact Hv.
      * destruct (Hx k j ltac:(lia) Hj) as [H1 H2].
        assert (D' := D k j ltac:(lia) Hj Hne). assert (E' := E k j ltac:(lia) Hj Hne). simpl Nat.add in D', E'. rewrite D', E'.
        split; [apply above_scale; [apply pf_sx_pos|auto]|apply below_scale; [apply pf_sx_pos|auto]].
    + assert (L2 : (i - (N + 1) * dx < du * (N + 1))%nat) by lia. destruct (index_split du (N + 1) _ L2) as (k & j & Eq & Hk & Hj).
      replace i with ((N + 1) * dx + (k * du + j))%nat by lia. rewrite (F k j), (G k j) by (auto; lia).
      destruct (Hc k j ltac:(lia) Hj) as [H1 H2]. unfold pf_controls in H1, H2. rewrite <- Nat.add_assoc in H1, H2.
      split; [apply above_scale; [apply pf_su_pos|auto]|apply below_scale; [apply pf_su_pos|auto]].
Qed.

(** * the cost *)
Lemma states_rescale : forall w, dmul sx (map (fun i => w i) (seq 0 dx)) = map (fun i => sx i * w i) (seq 0 dx).
Proof. intro w. apply dmul_map. Qed.
(** the residual in terms of the physical state *)
Lemma residual_phys : forall p (w : nat -> R) i, pf_residual s p (map (fun j => sx j * w j) (seq 0 dx)) i = path_error s (tl p) w i.
Proof.
  intros p w i. unfold pf_residual, path_error, path_point, path_args. rewrite map_firstn. rewrite nth_map_seq by lia. destruct (h_scale s) eqn:E.
  - rewrite dmul_map. f_equal.
    + f_equal. replace (dinv sx nx * (sx nx * w nx)) with (w nx) by (unfold dinv; field; pose proof (pf_sx_pos nx); lra). reflexivity.
    + f_equal. apply map_ext. intro j. unfold dinv. field. pose proof (pf_sx_pos j). lra.
  - destruct (pf_unscaled E) as [-> _]. rewrite Rmult_1_l. f_equal. f_equal. apply map_ext. intro j. ring.
Qed.
Lemma velerr_phys : forall v q (w : nat -> R), pf_velerr s (sx (nx + 1)%nat * v :: q) (map (fun j => sx j * w j) (seq 0 dx)) = v - w (nx + 1)%nat.
Proof.
  intros v q w. unfold pf_velerr. rewrite nth_map_seq by lia. cbn [nth]. unfold dinv. field. pose proof (pf_sx_pos (nx + 1)). lra.
Qed.
Lemma slice_states : forall x k, slice x (k * dx) dx = map (fun j => sx j * pf_states s x k j) (seq 0 dx).
Proof. intros x k. apply map_ext. intro j. unfold pf_states. field. pose proof (pf_sx_pos j). lra. Qed.
Definition pf_stage (v : R) (q : list R) (x : vec R) (k : nat) : R :=
  wsum (h_ny s) (h_Q s) (path_error s q (pf_states s x k)) + h_W s * (v - pf_states s x k (nx + 1)%nat) ^ 2 + wsum du (h_R s) (pf_controls s x k).
Lemma pf_lag_val : forall v q x k, f_val (pf_lag s (sx (nx + 1)%nat * v :: q)) [slice x (k * dx) dx; slice (pf_U s x) (k * du) du] 0%nat = pf_stage v q x k.
Proof.
  intros v q x k. cbn [f_val pf_lag]. unfold pf_stage. rewrite slice_states.
  assert (E1 : wsum (h_ny s) (h_Q s) (pf_residual s (sx (nx + 1)%nat * v :: q) (map (fun j => sx j * pf_states s x k j) (seq 0 dx))) =
    wsum (h_ny s) (h_Q s) (path_error s q (pf_states s x k))) by (apply wsum_ext; intros i _; apply residual_phys).
  rewrite E1. destruct (h_scale s) eqn:E.
  - rewrite velerr_phys. rewrite controls_slice. f_equal. apply wsum_ext. intros i Hi. unfold lval. apply nth_map_seq. auto.
  - f_equal.
    + f_equal. rewrite nth_map_seq by lia. cbn [nth]. destruct (pf_unscaled E) as [-> _]. rewrite !Rmult_1_l. reflexivity.
    + rewrite <- controls_one by auto. apply wsum_ext. intros i Hi. unfold lval. apply nth_map_seq. auto.
Qed.
Lemma pf_may_val : forall v q x, f_val (pf_may s (sx (nx + 1)%nat * v :: q)) [slice x 0 dx] 0%nat = wsum (h_ny s) (h_Q s) (path_error s q (pf_states s x 0)).
Proof.
  intros v q x. cbn [f_val pf_may]. apply wsum_ext. intros i _. change (slice x 0 dx) with (slice x (0 * dx) dx). rewrite slice_states. apply residual_phys.
Qed.
Lemma pf_cost_quad : forall v q x, pf_cost s (sx (nx + 1)%nat * v :: q) x = wsum (h_ny s) (h_Q s) (path_error s q (pf_states s x 0)) +
  rsum (h_S s) (fun k => cas_ts (pf_cas s) 0 (h_tf s) * rsum (S (h_P s)) (fun m => cas_w (h_P s) m * pf_stage v q x (k * h_P s + m))).
Proof.
  intros v q x. unfold pf_cost, cas_cost.
  rewrite (quad_some (pf_cas s) _ _ (fun k m => pf_stage v q x (k * h_P s + m))).
  - unfold sval, call. cbn [length pf_may f_nin Nat.eqb]. f_equal. exact (pf_may_val v q x).
  - intros k m Hk Hm. unfold sval, call. cbn [length pf_lag f_nin Nat.eqb]. f_equal. exact (pf_lag_val v q x (k * h_P s + m)%nat).
Qed.

(** * the reset *)
Lemma shift_states : forall c x k i, (k <= N)%nat -> (i < dx)%nat ->
  pf_states s (shift s c x) k i = pf_states s x k i + (if (i =? nx)%nat then / sx i * c else 0).
Proof.
  intros c x k i Hk Hi. unfold pf_states, shift. replace (k * dx + i <? (N + 1) * dx)%nat with true by (symmetry; apply Nat.ltb_lt; nia).
  rewrite Nat.add_comm, Nat.mod_add by lia. rewrite Nat.mod_small by auto. cbn [andb]. destruct (i =? nx)%nat; ring.
Qed.
Lemma shift_controls : forall c x k i, pf_controls s (shift s c x) k i = pf_controls s x k i.
Proof. intros c x k i. unfold pf_controls, shift. replace (_ <? (N + 1) * dx)%nat with false by (symmetry; apply Nat.ltb_ge; lia). reflexivity. Qed.
End Nmpf.
