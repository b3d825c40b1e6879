(** Proofs about the pseudospectral ODE solver (Pso_Model.v). *)
Require Import Arith List Bool Lia Reals Lra FunctionalExtensionality.
From Verif Require Import Scal RSum PolyR Poly_Spec Blk Ocp_Proofs Cas_Model Cas_Spec Cas_Proofs Pso_Model Pso_Spec.
Import ListNotations.
Local Open Scope R_scope.

(** the rows of the collocation constraint before the initial node *)
Lemma dyn_rows : forall c f t0 tf X U Pv Dv, dims_ok c -> t0 < tf ->
  ((forall i, (i < cX c * (cP c * cS c))%nat -> dyn_res c f t0 tf X U Pv Dv i = 0) <->
   (forall s i, (s < cS c)%nat -> (i < cX c)%nat -> exists q q', is_poly (cP c) q /\ derivative_of q q' /\
      (forall j, (j <= cP c)%nat -> q (node_time c t0 tf s j) = comp (cX c) X (s * cP c + j) i) /\
      (forall l, (l < cP c)%nat -> q' (node_time c t0 tf s l) = f_val f (node_args c X U Pv Dv (s * cP c + l)) i))).
Proof.
  intros c f t0 tf X U Pv Dv Hd Ht. pose proof Hd as (HP & HS & HX).
  assert (K : forall s l i, (s < cS c)%nat -> (l < cP c)%nat -> (i < cX c)%nat ->
    dyn_res c f t0 tf X U Pv Dv ((s * cP c + l) * cX c + i)%nat =
    rsum (S (cP c)) (fun j => cas_D (cP c) l j * comp (cX c) X (s * cP c + j) i) -
    cas_ts c t0 tf * f_val f (node_args c X U Pv Dv (s * cP c + l)) i).
  { intros s l i Hs Hl Hi. unfold dyn_res. rewrite comp_mul by lia. f_equal. unfold dyn_rhs.
    rewrite (vset_loop (cas_N c) (cX c) (fun k i => cas_ts c t0 tf * f_val f (node_args c X U Pv Dv k) i)); auto. unfold cas_N. nia. }
  split.
  - intros H s i Hs Hi.
    destruct (seg_collocation c Hd t0 tf Ht s (fun j => comp (cX c) X (s * cP c + j) i)
      (fun l => f_val f (node_args c X U Pv Dv (s * cP c + l)) i) (fun l => (l < cP c)%nat)) as [A _].
    destruct A as (q & q' & Hq & Hq' & Hv & Hc).
    + intros l _ Hl. rewrite <- K by auto. apply H.
      assert ((s * cP c + l + 1) * cX c <= cP c * cS c * cX c)%nat by (apply Nat.mul_le_mono_r; nia). nia.
    + exists q, q'. repeat split; auto. intros l Hl. apply Hc; auto. lia.
  - intros H i Hi. destruct (index_split (cX c) (cP c * cS c) i Hi) as (t & k & -> & Ht' & Hk).
    destruct (index_split (cP c) (cS c) t Ht') as (s & l & -> & Hs & Hl). rewrite K by auto.
    destruct (H s k Hs Hk) as (q & q' & Hq & Hq' & Hv & Hc).
    apply (proj2 (seg_collocation c Hd t0 tf Ht s (fun j => comp (cX c) X (s * cP c + j) k)
      (fun l => f_val f (node_args c X U Pv Dv (s * cP c + l)) k) (fun l => (l < cP c)%nat))); auto; [|lia].
    exists q, q'. repeat split; auto.
Qed.

Section Pso.
Variable inv : nat -> mat R -> mat R.
Variable ipopt : nlp -> narg -> option (vec R).
Variable s : pso.
Local Notation nx := (p_nx s).
Local Notation nu := (p_nu s).
Local Notation N := (pso_N s).

Lemma plain_dims : plain s -> dims_ok (pso_cas s).
Proof. intros (A & B & C & _). repeat split; auto. Qed.
Lemma plain_nin : plain s -> f_nin (pso_fun inv s) = num_args (pso_cas s).
Proof.
  intros (_ & _ & _ & _ & E & _). unfold pso_fun. rewrite E. unfold num_args, pso_cas. cbn [f_nin cNP cND].
  destruct (p_np s); reflexivity.
Qed.
Lemma plain_out : plain s -> f_out (pso_fun inv s) = nx.
Proof. intros (_ & _ & _ & _ & E & O). unfold pso_fun. rewrite E. exact O. Qed.
Lemma pso_G_some : plain s -> forall x p,
  pso_G inv s x p = Some (dyn_res (pso_cas s) (pso_fun inv s) 0 (p_dt s) x (fun i => x (N * nx + i)%nat) p (fun _ => 0)).
Proof. intros H x p. unfold pso_G. apply cas_dynamics_some; [apply plain_nin; auto|apply plain_out; auto]. Qed.
Lemma pso_fun_val : plain s -> forall x p k,
  f_val (pso_fun inv s) (node_args (pso_cas s) x (fun i => x (N * nx + i)%nat) p (fun _ => 0) k) =
  rhs s (map (node_states s x k) (seq 0 nx)) (slice x (N * nx + k * nu) nu) p.
Proof.
  intros (_ & _ & _ & _ & E & _) x p k. unfold pso_fun. rewrite E. cbn [f_val]. unfold node_args, rhs. f_equal.
  f_equal. f_equal.
  - unfold slice. apply map_ext. intro i. change (cU (pso_cas s)) with nu. f_equal. lia.
  - unfold extra, pso_cas. cbn [cNP cND]. rewrite andb_true_r. destruct (p_np s); reflexivity.
Qed.

Lemma repv_nth : forall l i, length l <> 0%nat -> (i < length l)%nat -> forall k, repv l (k * length l + i)%nat = nth i l 0.
Proof. intros l i Hl Hi k. unfold repv. rewrite Nat.add_comm, Nat.mod_add by auto. rewrite Nat.mod_small; auto. Qed.

(** what the bounds say *)
Lemma bound_eq : forall a z0 w P i v, (a_lbx (pso_set s a z0 w P) i = Some v) -> a_ubx (pso_set s a z0 w P) i = Some v ->
  forall x, (above (a_lbx (pso_set s a z0 w P) i) x /\ below (a_ubx (pso_set s a z0 w P) i) x) <-> x = v.
Proof. intros a z0 w P i v E1 E2 x. rewrite E1, E2. simpl. split; lra. Qed.

Definition ctl_idx (i : nat) : Prop := (N * nx <= i < N * nx + N * nu)%nat.
Definition ini_idx (i : nat) : Prop := (p_segs s * p_order s * nx <= i < p_segs s * p_order s * nx + nx)%nat.

Lemma set_bounds : forall a z0 w P,
  (forall i, ctl_idx i -> a_lbx (pso_set s a z0 w P) i = Some (w (i - N * nx)%nat) /\ a_ubx (pso_set s a z0 w P) i = Some (w (i - N * nx)%nat)) /\
  (forall i, ini_idx i -> a_lbx (pso_set s a z0 w P) i = Some (nth (i - p_segs s * p_order s * nx) z0 0) /\
                          a_ubx (pso_set s a z0 w P) i = Some (nth (i - p_segs s * p_order s * nx) z0 0)) /\
  (forall i, ~ ctl_idx i -> ~ ini_idx i -> a_lbx (pso_set s a z0 w P) i = a_lbx a i /\ a_ubx (pso_set s a z0 w P) i = a_ubx a i).
Proof.
  intros a z0 w P. unfold ctl_idx, ini_idx, pso_set. cbn [a_lbx a_ubx]. split; [|split].
  - intros i Hi. rewrite in_seg_true by lia. auto.
  - intros i Hi. rewrite in_seg_false by (left; unfold pso_N; lia). rewrite in_seg_true by lia. auto.
  - intros i H1 H2. rewrite in_seg_false by lia. rewrite in_seg_false by lia. auto.
Qed.

(** ARG before a call: bounds are infinite outside the initial state and the controls *)
Definition clean (a : narg) : Prop :=
  (forall i, ~ ctl_idx i -> ~ ini_idx i -> a_lbx a i = None /\ a_ubx a i = None) /\
  (forall i, (N * nx + N * nu <= i)%nat -> a_x0 a i = 0).
Lemma set_clean : forall a z0 w P, clean a -> clean (pso_set s a z0 w P).
Proof.
  intros a z0 w P [A B]. split.
  - intros i H1 H2. destruct (set_bounds a z0 w P) as (_ & _ & C). destruct (C i H1 H2) as [-> ->]. auto.
  - intros i Hi. cbn [a_x0 pso_set]. rewrite in_seg_false by lia. rewrite in_seg_false by lia. auto.
Qed.
Lemma init_clean : forall a0, pso_init inv s = Some a0 -> clean a0.
Proof.
  intros a0 H. unfold pso_init in H. destruct (pso_G inv s (fun _ => 0) (fun _ => 0)); [|discriminate]. inversion H. split; auto.
Qed.
Lemma solve_fst : forall a X0 U P full, fst (pso_solve inv ipopt s a X0 U P full) = a \/ exists z0 w, fst (pso_solve inv ipopt s a X0 U P full) = pso_set s a z0 w P.
Proof.
  intros. unfold pso_solve. destruct (negb _); [auto|]. destruct (pso_z0 s X0 P); [right; eexists; eexists; reflexivity|auto].
Qed.
Lemma traj_fst : forall a X0 U P full, fst (pso_trajectory inv ipopt s a X0 U P full) = a \/ exists z0 w, fst (pso_trajectory inv ipopt s a X0 U P full) = pso_set s a z0 w P.
Proof.
  intros. unfold pso_trajectory. destruct (negb _); [auto|]. destruct (pso_z0 s X0 P); [right; eexists; eexists; reflexivity|auto].
Qed.
Lemma reach_clean : forall a0, pso_init inv s = Some a0 -> forall a, reach inv ipopt s a0 a -> clean a.
Proof.
  intros a0 H0 a H. induction H.
  - apply init_clean; auto.
  - destruct (solve_fst a X0 U P full) as [->|(z0 & w & ->)]; auto. apply set_clean; auto.
  - destruct (traj_fst a X0 U P full) as [->|(z0 & w & ->)]; auto. apply set_clean; auto.
Qed.
(** the argument of the solver depends on the call alone *)
Lemma set_same : forall a b z0 w P, clean a -> clean b -> pso_set s a z0 w P = pso_set s b z0 w P.
Proof.
  intros a b z0 w P [A1 A2] [B1 B2].
  assert (X : a_x0 (pso_set s a z0 w P) = a_x0 (pso_set s b z0 w P)).
  { extensionality i. cbn [a_x0 pso_set]. destruct (in_seg (N * nx) (N * nu) i) eqn:E1; auto. destruct (in_seg 0 (N * nx) i) eqn:E2; auto.
    assert (N * nx + N * nu <= i)%nat.
    { destruct (Nat.lt_ge_cases i (N * nx + N * nu)); auto. destruct (Nat.lt_ge_cases i (N * nx)).
      - rewrite in_seg_true in E2 by lia. discriminate.
      - rewrite in_seg_true in E1 by lia. discriminate. }
    rewrite A2, B2; auto. }
  assert (B : a_lbx (pso_set s a z0 w P) = a_lbx (pso_set s b z0 w P) /\ a_ubx (pso_set s a z0 w P) = a_ubx (pso_set s b z0 w P)).
  { split; extensionality i; destruct (set_bounds a z0 w P) as (P1 & P2 & P3); destruct (set_bounds b z0 w P) as (Q1 & Q2 & Q3);
      (assert (D1 : {ctl_idx i} + {~ ctl_idx i}) by (unfold ctl_idx; destruct (le_lt_dec (N * nx) i), (lt_dec i (N * nx + N * nu)); (left; lia) || (right; lia)));
      (assert (D2 : {ini_idx i} + {~ ini_idx i}) by (unfold ini_idx; destruct (le_lt_dec (p_segs s * p_order s * nx) i), (lt_dec i (p_segs s * p_order s * nx + nx)); (left; lia) || (right; lia)));
      (destruct D1 as [D1|D1]; [destruct (P1 i D1) as [? ?], (Q1 i D1) as [? ?]; congruence|]);
      (destruct D2 as [D2|D2]; [destruct (P2 i D2) as [? ?], (Q2 i D2) as [? ?]; congruence|]);
      destruct (P3 i D1 D2) as [? ?], (Q3 i D1 D2) as [? ?], (A1 i D1 D2) as [? ?], (B1 i D1 D2) as [? ?]; congruence. }
  destruct B as [B1' B2']. unfold pso_set in *. cbn [a_x0 a_lbx a_ubx] in *. rewrite X, B1', B2'. reflexivity.
Qed.

(** the NLP without scaling *)
Lemma feasible_iff : plain s -> forall a z0 w P pv x, clean a -> length z0 = nx ->
  (feasible (pso_nlp inv s) (pso_set s a z0 w P) pv x <->
   (forall i, (i < N * nu)%nat -> x (N * nx + i)%nat = w i) /\
   discrete_solution s z0 (fun k => slice x (N * nx + k * nu) nu) pv (node_states s x)).
Proof.
  intros Hp a z0 w P pv x [Hc _] Hz. pose proof Hp as (HP & HS & HX & Hdt & _).
  destruct (set_bounds a z0 w P) as (B1 & B2 & B3).
  assert (G : (forall i, (i < l_ng (pso_nlp inv s))%nat -> l_g (pso_nlp inv s) x pv i = 0) <->
    (forall sg i, (sg < p_segs s)%nat -> (i < nx)%nat -> exists q q', is_poly (p_order s) q /\ derivative_of q q' /\
     (forall j, (j <= p_order s)%nat -> q (pso_time s sg j) = node_states s x (sg * p_order s + j)%nat i) /\
     (forall l, (l < p_order s)%nat -> q' (pso_time s sg l) =
        rhs s (map (node_states s x (sg * p_order s + l)%nat) (seq 0 nx)) (slice x (N * nx + (sg * p_order s + l) * nu) nu) pv i))).
  { cbn [l_ng l_g pso_nlp]. unfold pso_Gv. rewrite pso_G_some by auto.
    pose proof (dyn_rows (pso_cas s) (pso_fun inv s) 0 (p_dt s) x (fun i => x (N * nx + i)%nat) pv (fun _ => 0) (plain_dims Hp) Hdt) as D.
    cbn [pso_cas cX cP cS] in D. fold (pso_cas s) in D.
    assert (En : pso_ng s = (nx * (p_order s * p_segs s))%nat) by (unfold pso_ng, pso_N; nia).
    rewrite En. etransitivity; [exact D|].
    split; intros H sg i Hs Hi; destruct (H sg i Hs Hi) as (q & q' & Hq & Hq' & Hv & Hcc); exists q, q'; (split; [exact Hq|]); (split; [exact Hq'|]);
      (split; [exact Hv|]); intros l Hl; specialize (Hcc l Hl); rewrite pso_fun_val in * by auto; exact Hcc. }
  unfold feasible. rewrite G. clear G. split.
  - intros [Hb Hg]. split; [|split; [|exact Hg]].
    + intros i Hi. destruct (B1 (N * nx + i)%nat) as [E1 E2]; [unfold ctl_idx; lia|].
      destruct (Hb (N * nx + i)%nat) as [H1 H2]; [cbn [l_nx pso_nlp]; lia|]. rewrite E1 in H1. rewrite E2 in H2. simpl in H1, H2.
      replace (N * nx + i - N * nx)%nat with i in * by lia. lra.
    + intros i Hi. unfold node_states. destruct (B2 (p_segs s * p_order s * nx + i)%nat) as [E1 E2]; [unfold ini_idx; lia|].
      destruct (Hb (p_segs s * p_order s * nx + i)%nat) as [H1 H2]; [cbn [l_nx pso_nlp]; unfold pso_N; nia|]. rewrite E1 in H1. rewrite E2 in H2. simpl in H1, H2.
      replace (p_segs s * p_order s * nx + i - p_segs s * p_order s * nx)%nat with i in * by lia. lra.
  - intros (Hu & Hi0 & Hg). split; [|exact Hg]. intros i Hi. cbn [l_nx pso_nlp] in Hi.
    destruct (Nat.lt_ge_cases i (N * nx)) as [L|L].
    + destruct (Nat.lt_ge_cases i (p_segs s * p_order s * nx)) as [L2|L2].
      * destruct (B3 i) as [-> ->]; [unfold ctl_idx; lia|unfold ini_idx; lia|].
        destruct (Hc i) as [-> ->]; [unfold ctl_idx; lia|unfold ini_idx; lia|]. simpl. auto.
      * assert (I : ini_idx i) by (unfold ini_idx; unfold pso_N in L; lia). destruct (B2 i I) as [-> ->]. unfold ini_idx in I. simpl.
        specialize (Hi0 (i - p_segs s * p_order s * nx)%nat ltac:(lia)). unfold node_states in Hi0.
        replace (p_segs s * p_order s * nx + (i - p_segs s * p_order s * nx))%nat with i in Hi0 by lia. lra.
    + assert (I : ctl_idx i) by (unfold ctl_idx; lia). destruct (B1 i I) as [-> ->]. simpl.
      specialize (Hu (i - N * nx)%nat ltac:(lia)). replace (N * nx + (i - N * nx))%nat with i in Hu by lia. lra.
Qed.
Lemma discrete_ext : forall X0 u u' pv W, (forall k, (k < N)%nat -> u k = u' k) -> discrete_solution s X0 u pv W -> discrete_solution s X0 u' pv W.
Proof.
  intros X0 u u' pv W E (A & B). split; auto. intros sg i Hs Hi. destruct (B sg i Hs Hi) as (q & q' & Hq & Hq' & Hv & Hc).
  exists q, q'. repeat split; auto. intros l Hl. rewrite (Hc l Hl). rewrite E; auto. unfold pso_N. nia.
Qed.
End Pso.
