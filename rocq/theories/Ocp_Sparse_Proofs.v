(** Sparse equality and inequality Jacobians. *)
Require Import Arith ZArith List Bool Lia Reals Lra.
From Verif Require Import Scal RSum Blk Sparse Sparse_Proofs Cheb_Model Cheb_Proofs Ocp_Model Ocp_Spec Ocp_Proofs Ocp_Cost_Proofs Ocp_Sparse_Model.

Lemma oloop_flat : forall A n m (f : nat -> A -> option A) a,
  oloop (m * n) f a = oloop m (fun j a => oloop n (fun i a => f (j * n + i)%nat a) a) a.
Proof.
  intros A n m f a. induction m as [|m IH]; [reflexivity|].
  cbn [oloop]. rewrite <- IH. replace (S m * n)%nat with (m * n + n)%nat by lia.
  generalize n at 2 4 as p. induction p as [|p IHp].
  - rewrite Nat.add_0_r. cbn [oloop]. destruct (oloop (m * n) f a); reflexivity.
  - rewrite Nat.add_succ_r. cbn [oloop]. rewrite IHp. destruct (oloop (m * n) f a) as [b|]; [|reflexivity].
    reflexivity.
Qed.

Lemma oloop_ext : forall A n (f g : nat -> A -> option A) a,
  (forall k s, (k < n)%nat -> f k s = g k s) -> oloop n f a = oloop n g a.
Proof.
  intros A n f g a H. induction n as [|n IH]; [reflexivity|].
  cbn [oloop]. rewrite IH by (intros; apply H; lia). destruct (oloop n g a); auto.
Qed.

Section P.
Variable o : ocp R.
Local Notation nx := (NX o).
Local Notation nu := (NU o).
Local Notation np := (NP o).
Local Notation ng := (NG o).
Local Notation P := (PO o).
Local Notation Sg := (SG o).
Local Notation N := (NUM_NODES o).
Local Notation vx := (VARX o).
Local Notation vu := (VARU o).

(** position of the unknown [j] in the argument (x, u, p) of node [t] *)
Definition zidx (t j : nat) : option nat :=
  if in_seg (t * nx) nx j then Some (j - t * nx)%nat
  else if in_seg (t * nu + vx) nu j then Some (nx + (j - (t * nu + vx)))%nat
  else if in_seg (vx + vu) np j then Some (nx + nu + (j - (vx + vu)))%nat
  else None.
Definition inz (t j : nat) : bool := match zidx t j with Some _ => true | None => false end.

Lemma xseg_out : forall t j, (t < N)%nat -> (vx <= j)%nat -> in_seg (t * nx) nx j = false.
Proof. intros. apply in_seg_false. right. unfold VARX in *. nia. Qed.
Lemma useg_out : forall t j, (t < N)%nat -> (j < vx \/ vx + vu <= j)%nat -> in_seg (t * nu + vx) nu j = false.
Proof. intros t j Ht [H|H]; apply in_seg_false; [left; lia|right]. unfold VARU in *. nia. Qed.

Lemma zidx_x : forall t k m, (m < nx)%nat -> (k < N)%nat -> zidx t (ix o k m) = if (t =? k)%nat then Some m else None.
Proof.
  intros t k m Hm Hk. unfold zidx. unfold ix at 1. rewrite node_eqb by auto.
  destruct (Nat.eqb_spec t k) as [->|].
  - f_equal. unfold ix. lia.
  - pose proof (xcol_lt o k m Hk Hm). rewrite (in_seg_false (t * nu + vx)) by lia.
    rewrite (in_seg_false (vx + vu)) by lia. reflexivity.
Qed.
Lemma zidx_u : forall t k m, (m < nu)%nat -> (k < N)%nat -> (t < N)%nat ->
  zidx t (iu o k m) = if (t =? k)%nat then Some (nx + m)%nat else None.
Proof.
  intros t k m Hm Hk Ht. pose proof (iu_range o k m Hk Hm). unfold zidx.
  rewrite xseg_out by lia. rewrite iu_seg by auto.
  destruct (Nat.eqb_spec t k) as [->|].
  - f_equal. unfold iu, VARX, NUM_NODES. lia.
  - rewrite (in_seg_false (vx + vu)) by lia. reflexivity.
Qed.
Lemma ip_range : forall m, (m < np)%nat -> (vx + vu <= ip o m < VAR o)%nat.
Proof. intros. unfold ip, VAR, VARX, VARU, NUM_NODES. lia. Qed.
Lemma zidx_p : forall t m, (m < np)%nat -> (t < N)%nat -> zidx t (ip o m) = Some (nx + nu + m)%nat.
Proof.
  intros t m Hm Ht. pose proof (ip_range m Hm). unfold zidx.
  rewrite xseg_out by lia. rewrite useg_out by lia. unfold VAR in *. rewrite in_seg_true by lia.
  f_equal. unfold ip, VARX, VARU, NUM_NODES. lia.
Qed.

(** every unknown is a state, a control or a parameter *)
Lemma var_cases : forall j, (j < VAR o)%nat ->
  (exists k m, j = ix o k m /\ (k < N)%nat /\ (m < nx)%nat) \/
  (exists k m, j = iu o k m /\ (k < N)%nat /\ (m < nu)%nat) \/
  (exists m, j = ip o m /\ (m < np)%nat).
Proof.
  intros j Hj. destruct (Nat.lt_ge_cases j vx) as [H|H].
  - left. destruct (index_split nx N j H) as (k & m & -> & Hk & Hm). exists k, m. auto.
  - destruct (Nat.lt_ge_cases j (vx + vu)) as [H'|H'].
    + right. left. destruct (index_split nu N (j - vx)) as (k & m & E & Hk & Hm); [unfold VARU in *; lia|].
      exists k, m. split; auto. unfold iu. fold N. unfold VARX in *. lia.
    + right. right. exists (j - (vx + vu))%nat. unfold VAR in *. split; [|lia]. unfold ip, VARX, VARU, NUM_NODES in *. lia.
Qed.

(** * the composite differentiation matrix *)
Definition sgm (t : nat) : nat := Nat.min (t / P) (Sg - 1).
Definition dseg (t k : nat) : bool := in_seg (sgm t * P) (P + 1) k.

Lemma sgm_node : forall s l, (1 <= P)%nat -> (s < Sg)%nat -> (l <= P)%nat -> (l < P \/ s = Sg - 1)%nat -> sgm (s * P + l) = s.
Proof.
  intros s l HP Hs Hl Hd. unfold sgm. destruct Hd as [Hd| ->].
  - rewrite Nat.div_add_l by lia. rewrite Nat.div_small by auto. lia.
  - rewrite Nat.div_add_l by lia. lia.
Qed.

Lemma comp_DM_eq : forall s l k, (1 <= P)%nat -> (s < Sg)%nat -> (l <= P)%nat -> (l < P \/ s = Sg - 1)%nat -> (k < N)%nat ->
  comp_DM o (s * P + l)%nat k = dmat o s l k.
Proof.
  intros s l k HP Hs Hl Hd Hk. unfold comp_DM, dmat.
  assert (Hbr : (N - (P + 1) = (Sg - 1) * P)%nat).
  { unfold NUM_NODES. remember (Sg - 1)%nat as a. replace Sg with (a + 1)%nat by lia. lia. }
  rewrite Hbr. destruct (Nat.eq_dec s (Sg - 1)) as [Es|Es].
  - rewrite (loop_skip _ _ (fun M : mat R => M (s * P + l)%nat k)).
    + unfold mset. rewrite <- Es. rewrite in_seg_true by lia. cbn [andb]. replace (s * P + l - s * P)%nat with l by lia. reflexivity.
    + intros s' M Hs'. unfold mset. rewrite (in_seg_false (s' * P)); [reflexivity|]. right. nia.
  - destruct Hd as [Hd|]; [|contradiction].
    rewrite (loop_once _ _ (fun M : mat R => M (s * P + l)%nat k) (Sg - 1) _ _ (fun s' => (s' =? s)%nat)
       (fun s' v => if in_seg (s' * P) (P + 1) k then m_D o l (k - s' * P)%nat else v) s); try lia.
    + destruct (in_seg (s * P) (P + 1) k); auto. unfold mset. rewrite (in_seg_false ((Sg - 1) * P)); [reflexivity|].
      left. assert (s + 1 <= Sg - 1)%nat by lia. nia.
    + intros s' M Hs'. unfold mset. rewrite node_eqb by auto. destruct (Nat.eqb_spec s' s) as [->|]; auto.
      cbn [andb]. destruct (in_seg (s * P) (P + 1) k); auto. f_equal. lia.
    + apply Nat.eqb_refl.
    + intros. apply Nat.eqb_neq. auto.
Qed.

Lemma comp_DM_out : forall t k, (1 <= P)%nat -> (1 <= Sg)%nat -> (t < N)%nat -> (k < N)%nat -> dseg t k = false -> comp_DM o t k = 0%R.
Proof.
  intros t k HP HS Ht Hk Hd. destruct (node_decomp o t HP HS Ht) as (s & l & -> & Hs & Hl & Hor).
  rewrite comp_DM_eq by auto. unfold dseg in Hd. rewrite sgm_node in Hd by auto. unfold dmat. rewrite Hd. reflexivity.
Qed.

Local Open Scope R_scope.
Lemma cheb_c_abs : forall K i, (1 <= Rabs (cheb_c K i) <= 2).
Proof.
  intros K i. unfold cheb_c. rewrite Rabs_mult, pow_1_abs.
  destruct ((i =? 0)%nat || (i =? K)%nat); rewrite Rabs_right; lra.
Qed.

Lemma D_off_large : forall K i j, (1 <= K)%nat -> (i <= K)%nat -> (j <= K)%nat -> i <> j -> / 4 <= Rabs (cheb_D K i j).
Proof.
  intros K i j HK Hi Hj Hne. rewrite D_off by auto.
  pose proof (cheb_c_abs K i) as [A1 A2]. pose proof (cheb_c_abs K j) as [B1 B2].
  assert (Hc : forall q, cheb_c K q <> 0).
  { intros q E. pose proof (cheb_c_abs K q) as [C1 _]. rewrite E, Rabs_R0 in C1. lra. }
  assert (Hd : cheb_nodes K i - cheb_nodes K j <> 0).
  { intro E. apply (nodes_distinct K HK i j); try lia. lra. }
  assert (Hd2 : Rabs (cheb_nodes K i - cheb_nodes K j) <= 2).
  { unfold cheb_nodes. cbn. pose proof (COS_bound (cheb_theta K i)). pose proof (COS_bound (cheb_theta K j)).
    unfold Rabs; destruct (Rcase_abs _); cbn; lra. }
  unfold Rdiv. rewrite Rinv_inv. rewrite !Rabs_mult, !Rabs_inv.
  set (a := Rabs (cheb_c K i)) in *. set (b := Rabs (cheb_c K j)) in *. set (d := Rabs (cheb_nodes K i - cheb_nodes K j)) in *.
  assert (0 < d) by (apply Rabs_pos_lt; auto).
  assert (/ 2 <= / b) by (apply Rinv_le_contravar; lra).
  assert (/ 2 <= / d) by (apply Rinv_le_contravar; lra).
  replace (/ 4) with (/ 2 * 1 * / 2) by field.
  apply Rmult_le_compat; try lra. apply Rmult_le_compat; lra.
Qed.

Lemma prune_small : @prune_thr R R_scalar < / 4.
Proof.
  unfold prune_thr. cbn [sdiv s1 sofZ R_scalar]. unfold Rdiv. rewrite Rmult_1_l. apply Rinv_lt_contravar; [|].
  - apply Rmult_lt_0_compat; apply IZR_lt; reflexivity.
  - apply IZR_lt. reflexivity.
Qed.
Local Close Scope R_scope.

Lemma comp_pat_off : chebyshev_ocp o -> forall t k, (t < N)%nat -> (k < N)%nat -> t <> k -> comp_pat o t k = dseg t k.
Proof.
  intros (HP & HS & HX & HD & _) t k Ht Hk Hne.
  destruct (node_decomp o t HP HS Ht) as (s & l & -> & Hs & Hl & Hor).
  unfold comp_pat. unfold dseg. rewrite sgm_node by auto.
  destruct (Nat.ltb_spec Sg 2).
  - symmetry. apply in_seg_true; unfold NUM_NODES in Hk; assert (s = 0)%nat by lia; subst s; nia.
  - rewrite comp_DM_eq by auto. unfold dmat. destruct (in_seg (s * P) (P + 1) k) eqn:E.
    + apply in_seg_spec in E. rewrite HD by lia.
      pose proof (D_off_large P l (k - s * P) HP Hl ltac:(lia) ltac:(lia)). pose proof prune_small.
      cbn [sltb sabs R_scalar]. unfold Rltb. destruct (Rlt_dec _ _); auto. exfalso. lra.
    + cbn [sltb sabs s0 R_scalar]. unfold Rltb. rewrite Rabs_R0. destruct (Rlt_dec _ _) as [L|]; auto. exfalso.
      assert (0 < @prune_thr R R_scalar)%R; [|lra].
      unfold prune_thr. cbn [sdiv s1 sofZ R_scalar]. unfold Rdiv. rewrite Rmult_1_l. apply Rinv_0_lt_compat. apply IZR_lt. reflexivity.
Qed.

(** * the pattern of the equality Jacobian *)
Definition eqpat (i j : nat) : bool :=
  inz (i / nx) j || ((j <? vx) && (i mod nx =? j mod nx) && dseg (i / nx) (j / nx)).

Lemma ix_div : forall t c, c < nx -> ix o t c / nx = t.
Proof. intros. unfold ix. rewrite Nat.div_add_l by lia. rewrite Nat.div_small by auto. lia. Qed.
Lemma ix_mod : forall t c, c < nx -> ix o t c mod nx = c.
Proof. intros. unfold ix. rewrite Nat.add_comm, Nat.mod_add by lia. apply Nat.mod_small; auto. Qed.

Lemma eqpat_x : forall t c k m, c < nx -> m < nx -> k < N ->
  eqpat (ix o t c) (ix o k m) = (t =? k) || ((c =? m) && dseg t k).
Proof.
  intros. unfold eqpat, inz. rewrite !ix_div, !ix_mod by auto. rewrite zidx_x by auto.
  pose proof (xcol_lt o k m H1 H0). rewrite (proj2 (Nat.ltb_lt _ _)) by auto.
  destruct (t =? k); auto.
Qed.
Lemma eqpat_u : forall t c k m, t < N -> c < nx -> m < nu -> k < N -> eqpat (ix o t c) (iu o k m) = (t =? k).
Proof.
  intros t c k m Ht Hc Hm Hk. unfold eqpat, inz. rewrite !ix_div by auto. rewrite zidx_u by auto.
  pose proof (iu_range o k m Hk Hm). rewrite (proj2 (Nat.ltb_ge _ _)) by lia. cbn. destruct (t =? k); auto.
Qed.
Lemma eqpat_p : forall t c m, t < N -> c < nx -> m < np -> eqpat (ix o t c) (ip o m) = true.
Proof. intros t c m Ht Hc Hm. unfold eqpat, inz. rewrite !ix_div by auto. rewrite zidx_p by auto. auto. Qed.

(** number of rows of [f] above node [t], resp. in all nodes *)
Lemma cnt_nodes : forall f m t c, (forall k, k < t -> forall q, q < m -> True) ->
  cnt f (t * m + c) = nsum t (fun k => cnt (fun q => f (k * m + q)) m) + cnt (fun q => f (t * m + q)) c.
Proof. intros. rewrite cnt_add, cnt_blocks. reflexivity. Qed.

Lemma eqpat_block : forall t k m, m < nx -> k < N ->
  cnt (fun c => eqpat (t * nx + c) (ix o k m)) nx = if (t =? k) then nx else if dseg t k then 1 else 0.
Proof.
  intros t k m Hm Hk.
  rewrite (cnt_ext _ (fun c => (t =? k) || ((c =? m) && dseg t k))).
  2:{ intros c Hc. change (t * nx + c) with (ix o t c). apply eqpat_x; auto. }
  destruct (t =? k); cbn [orb].
  - apply cnt_all; auto.
  - destruct (dseg t k).
    + rewrite (cnt_interval _ m (S m) nx); [lia|lia|lia|]. intros i Hi. rewrite andb_true_r.
      destruct (Nat.eqb_spec i m); [rewrite in_seg_true by lia|rewrite in_seg_false by lia]; auto.
    + apply cnt_none. intros. apply andb_false_r.
Qed.

(** position of the node block inside column (ix k m): the counter nnz_count of the code *)
Definition off (k : nat) : nat := match k with O => O | S q => S (q mod P) end.

Lemma dseg_below : (1 <= P) -> forall t k, t < k -> k < N -> dseg t k = ((k - 1) / P * P <=? t).
Proof.
  intros HP t k Htk Hk. unfold dseg, sgm, NUM_NODES in *.
  pose proof (Nat.div_mod t P ltac:(lia)) as E1. pose proof (Nat.mod_upper_bound t P ltac:(lia)) as E2.
  pose proof (Nat.div_mod (k - 1) P ltac:(lia)) as E3. pose proof (Nat.mod_upper_bound (k - 1) P ltac:(lia)) as E4.
  set (a := t / P) in *. set (b := (k - 1) / P) in *.
  assert (Hb : b <= Sg - 1). { assert (b < Sg); [|lia]. apply Nat.div_lt_upper_bound; lia. }
  destruct (Nat.leb_spec (b * P) t) as [L|L].
  - apply in_seg_true.
    + assert (Nat.min a (Sg - 1) * P <= a * P) by (apply Nat.mul_le_mono_r; lia). nia.
    + assert (b <= a). { destruct (Nat.le_gt_cases b a); auto. assert ((a + 1) * P <= b * P) by (apply Nat.mul_le_mono_r; lia). nia. }
      assert (b * P <= Nat.min a (Sg - 1) * P) by (apply Nat.mul_le_mono_r; lia). nia.
  - apply in_seg_false. right. assert (a < b). { destruct (Nat.lt_ge_cases a b); auto. assert (b * P <= a * P) by (apply Nat.mul_le_mono_r; lia). nia. }
    rewrite Nat.min_l by lia. assert ((a + 1) * P <= b * P) by (apply Nat.mul_le_mono_r; lia). nia.
Qed.

Lemma cnt_below : (1 <= P) -> forall k, k < N -> cnt (fun t => dseg t k) k = off k.
Proof.
  intros HP k Hk. destruct k as [|q]; [reflexivity|]. cbn [off].
  pose proof (Nat.div_mod q P ltac:(lia)) as E3. pose proof (Nat.mod_upper_bound q P ltac:(lia)) as E4.
  rewrite (cnt_interval _ (q / P * P) (S q) (S q)); try nia.
  intros t Ht. rewrite dseg_below by auto. replace (S q - 1) with q by lia.
  destruct (Nat.leb_spec (q / P * P) t); symmetry; [apply in_seg_true|apply in_seg_false]; lia.
Qed.

Lemma dseg_above : (1 <= P) -> forall t k, k < t -> t < N ->
  dseg t k = (t <? (if Sg - 1 <=? k / P then N else (k / P + 1) * P)).
Proof.
  intros HP t k Htk Ht. unfold dseg, sgm.
  pose proof (Nat.div_mod t P ltac:(lia)) as E1. pose proof (Nat.mod_upper_bound t P ltac:(lia)) as E2.
  pose proof (Nat.div_mod k P ltac:(lia)) as E3. pose proof (Nat.mod_upper_bound k P ltac:(lia)) as E4.
  set (a := t / P) in *. set (b := k / P) in *.
  assert (Hab : b <= a) by (apply Nat.div_le_mono; lia).
  assert (Hup : k < Nat.min a (Sg - 1) * P + (P + 1)).
  { destruct (Nat.le_gt_cases a (Sg - 1)); [rewrite Nat.min_l by lia; nia|].
    rewrite Nat.min_r by lia. unfold NUM_NODES in Ht. remember (Sg - 1) as u. destruct Sg; [lia|]. replace (S n) with (u + 1) in Ht by lia. nia. }
  destruct (Nat.leb_spec (Sg - 1) b).
  - rewrite (proj2 (Nat.ltb_lt t N)) by auto. apply in_seg_true; auto.
    assert (Nat.min a (Sg - 1) * P <= b * P) by (apply Nat.mul_le_mono_r; lia). nia.
  - destruct (Nat.ltb_spec t ((b + 1) * P)) as [L|L].
    + apply in_seg_true; auto. assert (a = b). { apply Nat.le_antisymm; auto. destruct (Nat.le_gt_cases a b); auto.
        assert ((b + 1) * P <= a * P) by (apply Nat.mul_le_mono_r; lia). nia. }
      rewrite Nat.min_l by lia. nia.
    + apply in_seg_false. left. assert (b < a). { destruct (Nat.lt_ge_cases b a); auto. assert (a = b) by lia. nia. }
      assert ((b + 1) * P <= Nat.min a (Sg - 1) * P) by (apply Nat.mul_le_mono_r; lia). nia.
Qed.

(** reserved slots: closed form of estimate_jac_inner_nnz *)
Definition xest (k : nat) : nat :=
  nx + (P - 1) + (if negb (k =? 0) && negb (k =? N - 1) && (k mod P =? 0) then P else 0)
  + (if in_seg (N - (P + 1)) (P + 1) k then 1 else 0).

Lemma seg_blocks : forall a n k m, m < nx -> in_seg (a * nx) (n * nx) (ix o k m) = in_seg a n k.
Proof.
  intros a n k m Hm. unfold ix. destruct (in_seg a n k) eqn:E.
  - apply in_seg_spec in E. apply in_seg_true; nia.
  - destruct (Nat.lt_ge_cases k a); [apply in_seg_false; left; nia|].
    destruct (Nat.lt_ge_cases k (a + n)); [rewrite in_seg_true in E by lia; discriminate|]. apply in_seg_false; right; nia.
Qed.

Lemma eq_est_x : forall k m, k < N -> m < nx -> eq_est o (ix o k m) = xest k.
Proof.
  intros k m Hk Hm. unfold eq_est. unfold nacc at 1. rewrite seg_blocks by auto.
  match goal with |- (if _ then (?L ?x + 1)%nat else _) = _ => set (A := L) end.
  assert (E : A (ix o k m) = nx + (P - 1) + (if negb (k =? 0) && negb (k =? N - 1) && (k mod P =? 0) then P else 0)).
  { unfold A. rewrite (loop_once _ _ (fun v : nat -> nat => v (ix o k m)) N _ _ (fun i => i =? k)
      (fun i v => v + (P - 1) + (if negb (i =? 0) && negb (i =? N - 1) && (i mod P =? 0) then P else 0)) k); auto.
    - pose proof (xcol_lt o k m Hk Hm). rewrite (proj2 (Nat.ltb_lt _ _)) by lia. reflexivity.
    - intros i v Hi. unfold nacc. destruct (negb (i =? 0) && negb (i =? N - 1) && (i mod P =? 0)); unfold ix; rewrite node_eqb by auto;
        destruct (i =? k); lia.
    - apply Nat.eqb_refl.
    - intros. apply Nat.eqb_neq; auto. }
  rewrite E. unfold xest. destruct (in_seg (N - (P + 1)) (P + 1) k); lia.
Qed.

Lemma eq_est_out : forall j, (1 <= P) -> (1 <= Sg) -> vx <= j -> eq_est o j = if j <? vx + vu then nx else vx.
Proof.
  intros j HP HS Hj. unfold eq_est. unfold nacc at 1.
  assert (HN : (N - (P + 1)) * nx + (P + 1) * nx = vx). { unfold VARX. assert (P + 1 <= N) by (unfold NUM_NODES; nia). rewrite <- Nat.mul_add_distr_r. rewrite Nat.mul_comm. f_equal. lia. }
  rewrite in_seg_false by lia.
  rewrite (loop_skip _ _ (fun v : nat -> nat => v j)); auto.
  intros i v Hi. assert (in_seg (i * nx) nx j = false) by (apply xseg_out; auto).
  unfold nacc. destruct (negb (i =? 0) && negb (i =? N - 1) && (i mod P =? 0)); rewrite H; auto.
Qed.

Lemma eq_est_u : forall k m, (1 <= P) -> (1 <= Sg) -> k < N -> m < nu -> eq_est o (iu o k m) = nx.
Proof. intros k m HP HS Hk Hm. pose proof (iu_range o k m Hk Hm). rewrite eq_est_out by lia. rewrite (proj2 (Nat.ltb_lt _ _)) by lia. auto. Qed.
Lemma eq_est_p : forall m, (1 <= P) -> (1 <= Sg) -> m < np -> eq_est o (ip o m) = vx.
Proof. intros m HP HS Hm. pose proof (ip_range m Hm). rewrite eq_est_out by lia. rewrite (proj2 (Nat.ltb_ge _ _)) by lia. auto. Qed.

(** total number of entries of a state column *)
Lemma cnt_above : (1 <= P) -> (1 <= Sg) -> forall k, k < N ->
  off k + cnt (fun q => dseg (S k + q) k) (N - S k) + nx = xest k.
Proof.
  intros HP HS k Hk.
  assert (E : cnt (fun q => dseg (S k + q) k) (N - S k) = if Sg - 1 <=? k / P then N - S k else P - 1 - k mod P).
  { pose proof (Nat.div_mod k P ltac:(lia)) as E3. pose proof (Nat.mod_upper_bound k P ltac:(lia)) as E4.
    destruct (Nat.leb_spec (Sg - 1) (k / P)) as [L|L].
    - apply cnt_all. intros i Hi. rewrite dseg_above by lia. rewrite (proj2 (Nat.leb_le _ _)) by auto. apply Nat.ltb_lt. lia.
    - assert ((k / P + 1) * P <= N - 1).
      { unfold NUM_NODES. assert ((k / P + 1) * P <= (Sg - 1) * P) by (apply Nat.mul_le_mono_r; lia). nia. }
      rewrite (cnt_interval _ 0 (P - 1 - k mod P) (N - S k)); try nia.
      intros i Hi. rewrite dseg_above by lia. rewrite (proj2 (Nat.leb_gt _ _)) by auto.
      destruct (Nat.ltb_spec (S k + i) ((k / P + 1) * P)); symmetry; [apply in_seg_true|apply in_seg_false]; nia. }
  rewrite E. unfold xest.
  assert (HNP : N - (P + 1) = (Sg - 1) * P).
  { unfold NUM_NODES. remember (Sg - 1) as a. replace Sg with (a + 1) by lia. lia. }
  assert (HNN : N = (Sg - 1) * P + P + 1).
  { unfold NUM_NODES. remember (Sg - 1) as a. replace Sg with (a + 1) by lia. lia. }
  pose proof (Nat.div_mod k P ltac:(lia)) as E3. pose proof (Nat.mod_upper_bound k P ltac:(lia)) as E4.
  set (b := k / P) in *. set (r := k mod P) in *.
  assert (Hseg : in_seg (N - (P + 1)) (P + 1) k = (Sg - 1 <=? b)).
  { rewrite HNP. destruct (Nat.leb_spec (Sg - 1) b).
    - apply in_seg_true; [|lia]. assert ((Sg - 1) * P <= b * P) by (apply Nat.mul_le_mono_r; lia). nia.
    - apply in_seg_false. left. assert ((b + 1) * P <= (Sg - 1) * P) by (apply Nat.mul_le_mono_r; lia). nia. }
  rewrite Hseg. clear Hseg E.
  destruct k as [|q].
  - cbn [off Nat.eqb negb andb]. assert (b = 0) by (unfold b; apply Nat.div_0_l; lia). assert (r = 0) by (unfold r; apply Nat.mod_0_l; lia).
    rewrite H in *. destruct (Nat.leb_spec (Sg - 1) 0); [|lia]. rewrite HNN. replace (Sg - 1) with 0 by lia. lia.
  - cbn [off]. change (negb (S q =? 0)) with true. cbn [andb].
    destruct (Nat.eqb_spec r 0) as [Hr|Hr].
    + rewrite andb_true_r.
      assert (Hq : q mod P = P - 1).
      { assert (1 <= b) by nia. symmetry. apply (Nat.mod_unique q P (b - 1)); [lia|]. remember (b - 1) as u. replace b with (u + 1) in E3 by lia. lia. }
      rewrite Hq. destruct (Nat.eqb_spec (S q) (N - 1)) as [HN'|HN']; cbn [negb].
      * destruct (Nat.leb_spec (Sg - 1) b) as [L|L]; [lia|].
        assert ((b + 1) * P <= (Sg - 1) * P) by (apply Nat.mul_le_mono_r; lia). nia.
      * destruct (Nat.leb_spec (Sg - 1) b) as [L|L]; [|lia].
        assert (b = Sg - 1).
        { destruct (Nat.eq_dec b (Sg - 1)); auto. assert (((Sg - 1) + 1) * P <= b * P) by (apply Nat.mul_le_mono_r; lia). nia. }
        rewrite H in *. nia.
    + rewrite andb_false_r.
      assert (Hq : q mod P = r - 1). { symmetry. apply (Nat.mod_unique q P b); lia. }
      rewrite Hq. destruct (Nat.leb_spec (Sg - 1) b) as [L|L]; [|lia].
      assert (b = Sg - 1).
      { destruct (Nat.eq_dec b (Sg - 1)); auto. assert (((Sg - 1) + 1) * P <= b * P) by (apply Nat.mul_le_mono_r; lia). nia. }
      rewrite H in *. nia.
Qed.

Lemma vx_split : forall k, k < N -> vx = k * nx + (nx + (N - S k) * nx).
Proof. intros. unfold VARX. replace N with (k + (1 + (N - S k))) at 1 by lia. lia. Qed.

Lemma col_above : (1 <= P) -> forall k m, k < N -> m < nx -> cnt (fun i => eqpat i (ix o k m)) (k * nx) = off k.
Proof.
  intros HP k m Hk Hm. rewrite cnt_blocks. rewrite <- cnt_below by auto. rewrite <- nsum_cnt. apply nsum_ext.
  intros t Ht. rewrite eqpat_block by auto. destruct (Nat.eqb_spec t k); [lia|]. reflexivity.
Qed.

Lemma col_x : (1 <= P) -> (1 <= Sg) -> forall k m, k < N -> m < nx -> cnt (fun i => eqpat i (ix o k m)) vx = xest k.
Proof.
  intros HP HS k m Hk Hm. rewrite (vx_split k) by auto. rewrite !cnt_add. rewrite col_above by auto.
  rewrite eqpat_block by auto. rewrite Nat.eqb_refl. rewrite <- cnt_above by auto.
  rewrite (cnt_ext (fun i => eqpat (k * nx + (nx + i)) (ix o k m)) (fun i => eqpat (S k * nx + i) (ix o k m))).
  2:{ intros i Hi. f_equal. lia. }
  rewrite cnt_blocks. rewrite (nsum_ext (N - S k) _ (fun q => if dseg (S k + q) k then 1 else 0)).
  - rewrite nsum_cnt. lia.
  - intros q Hq. rewrite (cnt_ext _ (fun c => eqpat ((S k + q) * nx + c) (ix o k m))) by (intros; f_equal; lia).
    rewrite eqpat_block by auto. destruct (Nat.eqb_spec (S k + q) k); [lia|]. reflexivity.
Qed.

(** columns with the block pattern (controls) *)
Lemma col_u_above : forall k m, k < N -> m < nu -> cnt (fun i => eqpat i (iu o k m)) (k * nx) = 0.
Proof.
  intros k m Hk Hm. rewrite cnt_blocks. rewrite (nsum_ext k _ (fun _ => 0)).
  - clear. induction k; cbn [nsum]; lia.
  - intros t Ht. apply cnt_none. intros c Hc. change (t * nx + c) with (ix o t c). rewrite eqpat_u by lia. apply Nat.eqb_neq. lia.
Qed.
Lemma col_u : forall k m, k < N -> m < nu -> cnt (fun i => eqpat i (iu o k m)) vx = nx.
Proof.
  intros k m Hk Hm. rewrite (vx_split k) by auto. rewrite !cnt_add, col_u_above by auto.
  rewrite (cnt_all (fun i => eqpat (k * nx + i) (iu o k m))).
  2:{ intros c Hc. change (k * nx + c) with (ix o k c). rewrite eqpat_u by auto. apply Nat.eqb_refl. }
  rewrite cnt_none; [lia|]. intros i Hi. destruct (index_split nx (N - S k) i) as (q & c & -> & Hq & Hc); [lia|].
  replace (k * nx + (nx + (q * nx + c))) with (ix o (S k + q) c) by (unfold ix; lia).
  rewrite eqpat_u by lia. apply Nat.eqb_neq. lia.
Qed.
Lemma col_p : forall r m, r <= vx -> m < np -> cnt (fun i => eqpat i (ip o m)) r = r.
Proof.
  intros r m Hr Hm. apply cnt_all. intros i Hi. destruct (index_split nx N i) as (t & c & -> & Ht & Hc); [unfold VARX in *; lia|].
  apply eqpat_p; auto.
Qed.

Lemma eq_count : (1 <= P) -> (1 <= Sg) -> forall j, j < VAR o -> cnt (fun i => eqpat i j) vx = eq_est o j.
Proof.
  intros HP HS j Hj. destruct (var_cases j Hj) as [(k & m & -> & Hk & Hm)|[(k & m & -> & Hk & Hm)|(m & -> & Hm)]].
  - rewrite col_x, eq_est_x by auto. reflexivity.
  - rewrite col_u, eq_est_u by auto. reflexivity.
  - rewrite col_p, eq_est_p by auto. reflexivity.
Qed.

(** * assembly: one row, then one block row per node *)
Lemma ins_row : forall r t (v : nat -> R) (M : spmat R) F est, lay M F est -> r < sp_r M -> sp_c M = VAR o -> t < N ->
  (forall j, j < VAR o -> pat M r j = false) -> (forall j, j < VAR o -> inz t j = true -> F r j = true) ->
  exists M', obind (oloop nx (fun m M => insert M r (t * nx + m) (v m)) M) (fun M =>
      obind (oloop nu (fun m M => insert M r (t * nu + vx + m) (v (nx + m)%nat)) M) (fun M =>
      oloop np (fun m M => insert M r (vx + vu + m) (v (nx + nu + m)%nat)) M)) = Some M' /\
   lay M' F est /\ sp_r M' = sp_r M /\ sp_c M' = sp_c M /\
   (forall i j, pat M' i j = ((i =? r) && inz t j) || pat M i j) /\
   (forall i j, val M' i j = if i =? r then match zidx t j with Some q => v q | None => val M i j end else val M i j).
Proof.
  intros r t v M F est HL Hr Hc Ht Hp HF.
  assert (HxV : t * nx + nx <= vx) by (unfold VARX; nia).
  assert (HuV : t * nu + vx + nu <= vx + vu) by (unfold VARU; nia).
  assert (HF' : forall j, j < VAR o -> in_seg (t * nx) nx j || in_seg (t * nu + vx) nu j || in_seg (vx + vu) np j = true -> F r j = true).
  { intros j Hj H. apply HF; auto. unfold inz, zidx.
    destruct (in_seg (t * nx) nx j); auto. destruct (in_seg (t * nu + vx) nu j); auto. destruct (in_seg (vx + vu) np j); auto. }
  destruct (insert_row nx v M F est r (t * nx) HL Hr) as (M1 & E1 & L1 & R1 & C1 & P1 & V1).
  { rewrite Hc. unfold VAR. lia. }
  { intros j Hj. split; [apply Hp; unfold VAR; lia|]. apply HF'; [unfold VAR; lia|]. rewrite in_seg_true by lia. reflexivity. }
  rewrite E1. cbn [obind].
  destruct (insert_row nu (fun m => v (nx + m)) M1 F est r (t * nu + vx) L1) as (M2 & E2 & L2 & R2 & C2 & P2 & V2).
  { rewrite R1; auto. } { rewrite C1, Hc. unfold VAR. lia. }
  { intros j Hj. split.
    - rewrite P1. rewrite (in_seg_false (t * nx)) by lia. rewrite andb_false_r. apply Hp. unfold VAR; lia.
    - apply HF'; [unfold VAR; lia|]. rewrite (in_seg_true (t * nu + vx)) by lia. rewrite orb_true_r. reflexivity. }
  rewrite E2. cbn [obind].
  destruct (insert_row np (fun m => v (nx + nu + m)) M2 F est r (vx + vu) L2) as (M3 & E3 & L3 & R3 & C3 & P3 & V3).
  { rewrite R2, R1; auto. } { rewrite C2, C1, Hc. unfold VAR. lia. }
  { intros j Hj. split.
    - rewrite P2, P1. rewrite (in_seg_false (t * nx)), (in_seg_false (t * nu + vx)) by lia. rewrite !andb_false_r. apply Hp. unfold VAR; lia.
    - apply HF'; [unfold VAR; lia|]. rewrite (in_seg_true (vx + vu)) by lia. rewrite orb_true_r. reflexivity. }
  exists M3. rewrite E3. split; [reflexivity|]. split; auto. split; [congruence|]. split; [congruence|]. split.
  - intros i j. rewrite P3, P2, P1. unfold inz, zidx. destruct (i =? r); cbn [andb orb]; auto.
    destruct (in_seg (t * nx) nx j), (in_seg (t * nu + vx) nu j), (in_seg (vx + vu) np j); auto.
  - intros i j. rewrite V3, V2, V1. unfold zidx. destruct (i =? r); cbn [andb]; auto.
    destruct (in_seg (t * nx) nx j) eqn:A.
    + apply in_seg_spec in A. rewrite (in_seg_false (t * nu + vx)), (in_seg_false (vx + vu)) by lia. reflexivity.
    + destruct (in_seg (t * nu + vx) nu j) eqn:B; [|destruct (in_seg (vx + vu) np j); auto].
      apply in_seg_spec in B. rewrite (in_seg_false (vx + vu)) by lia. reflexivity.
Qed.

Lemma node_asm : forall m (V : nat -> nat -> nat -> R) (M : spmat R) F est, lay M F est -> sp_r M = m * N -> sp_c M = VAR o ->
  (forall i j, i < sp_r M -> j < VAR o -> pat M i j = false) ->
  (forall t c j, t < N -> c < m -> j < VAR o -> inz t j = true -> F (t * m + c) j = true) ->
  exists M', oloop N (fun t M => oloop m (fun c M =>
      obind (oloop nx (fun q M => insert M (t * m + c) (t * nx + q) (V t c q)) M) (fun M =>
      obind (oloop nu (fun q M => insert M (t * m + c) (t * nu + vx + q) (V t c (nx + q)%nat)) M) (fun M =>
      oloop np (fun q M => insert M (t * m + c) (vx + vu + q) (V t c (nx + nu + q)%nat)) M))) M) M = Some M' /\
   lay M' F est /\ sp_r M' = sp_r M /\ sp_c M' = sp_c M /\
   (forall t c j, t < N -> c < m -> j < VAR o -> pat M' (t * m + c) j = inz t j) /\
   (forall t c j q, t < N -> c < m -> zidx t j = Some q -> val M' (t * m + c) j = V t c q).
Proof.
  intros m V M F est HL Hr Hc Hp HF.
  pose (Inv := fun (d : nat -> nat -> bool) (M' : spmat R) => lay M' F est /\ sp_r M' = sp_r M /\ sp_c M' = sp_c M /\
   (forall t c j, t < N -> c < m -> j < VAR o -> pat M' (t * m + c) j = d t c && inz t j) /\
   (forall t c j q, t < N -> c < m -> d t c = true -> zidx t j = Some q -> val M' (t * m + c) j = V t c q)).
  destruct (oloop_inv _ (fun k M' => Inv (fun t _ => t <? k) M') N
    (fun t M => oloop m (fun c M =>
      obind (oloop nx (fun q M => insert M (t * m + c) (t * nx + q) (V t c q)) M) (fun M =>
      obind (oloop nu (fun q M => insert M (t * m + c) (t * nu + vx + q) (V t c (nx + q)%nat)) M) (fun M =>
      oloop np (fun q M => insert M (t * m + c) (vx + vu + q) (V t c (nx + nu + q)%nat)) M))) M) M) as (M' & E & I).
  - split; auto. split; auto. split; auto. split.
    + intros t c j Ht Hcm Hj. apply Hp; auto. rewrite Hr. apply node_bound; auto.
    + intros t c j q Ht Hcm Hd. apply Nat.ltb_lt in Hd. lia.
  - intros k M0 Hk I0.
    destruct (oloop_inv _ (fun a M' => Inv (fun t c => (t <? k) || ((t =? k) && (c <? a))) M') m
     (fun c M =>
      obind (oloop nx (fun q M => insert M (k * m + c) (k * nx + q) (V k c q)) M) (fun M =>
      obind (oloop nu (fun q M => insert M (k * m + c) (k * nu + vx + q) (V k c (nx + q)%nat)) M) (fun M =>
      oloop np (fun q M => insert M (k * m + c) (vx + vu + q) (V k c (nx + nu + q)%nat)) M))) M0) as (M' & E & I).
    + destruct I0 as (L0 & R0 & C0 & P0 & V0). split; auto. split; auto. split; auto. split.
      * intros. rewrite P0 by auto. rewrite (proj2 (Nat.ltb_ge c 0)) by lia. rewrite andb_false_r, orb_false_r. auto.
      * intros t c j q Ht Hcm Hd. apply V0; auto. rewrite (proj2 (Nat.ltb_ge c 0)) in Hd by lia. rewrite andb_false_r, orb_false_r in Hd. auto.
    + intros a M1 Ha (L1 & R1 & C1 & P1 & V1).
      destruct (ins_row (k * m + a) k (V k a) M1 F est L1) as (M2 & E2 & L2 & R2 & C2 & P2 & V2); auto.
      * rewrite R1, Hr. apply node_bound; auto.
      * rewrite C1; auto.
      * intros j Hj. rewrite P1 by auto. rewrite Nat.eqb_refl, !Nat.ltb_irrefl. reflexivity.
      * exists M2. split; auto. split; auto. split; [congruence|]. split; [congruence|].
        assert (Row : forall t c, c < m -> (t * m + c =? k * m + a) = (t =? k) && (c =? a)).
        { intros t c Hcm. destruct (Nat.eqb_spec t k) as [->|Hne]; cbn [andb].
          - destruct (Nat.eqb_spec c a); [apply Nat.eqb_eq|apply Nat.eqb_neq]; lia.
          - apply Nat.eqb_neq. intro H. apply Hne.
            assert (A : (t * m + c) / m = t) by (rewrite Nat.div_add_l by lia; rewrite Nat.div_small by auto; lia).
            assert (B : (k * m + a) / m = k) by (rewrite Nat.div_add_l by lia; rewrite Nat.div_small by auto; lia).
            rewrite H in A. congruence. }
        split.
        -- intros t c j Ht Hcm Hj. rewrite P2, Row, P1 by auto.
           destruct (Nat.eqb_spec t k) as [->|Hne]; cbn [andb].
           ++ rewrite Nat.ltb_irrefl. cbn [orb]. destruct (inz k j); rewrite ?andb_false_r, ?andb_true_r; auto.
              destruct (Nat.eqb_spec c a), (Nat.ltb_spec c a), (Nat.ltb_spec c (S a)); auto; lia.
           ++ rewrite orb_false_r. reflexivity.
        -- intros t c j q Ht Hcm Hd Hz. rewrite V2, Row by auto.
           destruct (Nat.eqb_spec t k) as [->|Hne]; cbn [andb] in *.
           ++ rewrite Nat.ltb_irrefl in Hd. cbn [orb] in Hd. destruct (Nat.eqb_spec c a) as [->|Hca]; [rewrite Hz; reflexivity|].
              apply V1; auto. rewrite Nat.eqb_refl, Nat.ltb_irrefl. cbn [andb orb]. apply Nat.ltb_lt in Hd. apply Nat.ltb_lt. lia.
           ++ apply V1; auto. rewrite orb_false_r in Hd. rewrite Hd. reflexivity.
    + exists M'. split; auto. destruct I as (L1 & R1 & C1 & P1 & V1). split; auto. split; auto. split; auto. split.
      * intros t c j Ht Hcm Hj. rewrite P1 by auto. rewrite (proj2 (Nat.ltb_lt c m)) by auto. rewrite andb_true_r. f_equal.
        destruct (Nat.ltb_spec t k), (Nat.eqb_spec t k), (Nat.ltb_spec t (S k)); auto; lia.
      * intros t c j q Ht Hcm Hd. apply V1; auto. rewrite (proj2 (Nat.ltb_lt c m)) by auto. rewrite andb_true_r.
        apply Nat.ltb_lt in Hd. destruct (Nat.ltb_spec t k), (Nat.eqb_spec t k); auto; lia.
  - exists M'. split; auto. destruct I as (L1 & R1 & C1 & P1 & V1). split; auto. split; auto. split; auto. split.
    + intros. rewrite P1 by auto. rewrite (proj2 (Nat.ltb_lt t N)) by auto. reflexivity.
    + intros. apply V1; auto. apply Nat.ltb_lt; auto.
Qed.

(** * the equality Jacobian after any call *)
Local Open Scope R_scope.
Definition dg (t : nat) : R := if comp_pat o t t then comp_DM o t t else 0.

(** structure, and the entries that no update touches *)
Definition eq_ok (M : spmat R) : Prop :=
  sp_r M = vx /\ sp_c M = VAR o /\
  (forall i j, (i < vx)%nat -> (j < VAR o)%nat -> pat M i j = eqpat i j) /\
  (forall j, (j < VAR o)%nat -> slack M j = 0%nat) /\
  (forall t c k, (t < N)%nat -> (k < N)%nat -> (c < nx)%nat -> t <> k -> dseg t k = true ->
     val M (ix o t c) (ix o k c) = comp_DM o t k).
(** values of the node blocks *)
Definition eq_jac (M : spmat R) (var : vec R) : Prop :=
  forall t c j q, (t < N)%nat -> (c < nx)%nat -> (j < VAR o)%nat -> zidx t j = Some q ->
    val M (ix o t c) j = - t_scale o * at_node o (o_dyn_jac o) var t c q + (if (j =? ix o t c)%nat then dg t else 0).

Lemma inz_eqpat : forall t c j, (t < N)%nat -> (c < nx)%nat -> inz t j = true -> eqpat (t * nx + c) j = true.
Proof. intros t c j Ht Hc H. unfold eqpat. change (t * nx + c)%nat with (ix o t c). rewrite ix_div by auto. rewrite H. reflexivity. Qed.

Lemma diff_pat_x : chebyshev_ocp o -> forall t c k m, (t < N)%nat -> (k < N)%nat -> (c < nx)%nat -> (m < nx)%nat ->
  diff_pat o (ix o t c) (ix o k m) = (c =? m)%nat && (if (t =? k)%nat then comp_pat o t t else dseg t k).
Proof.
  intros Hch t c k m Ht Hk Hc Hm. unfold diff_pat. rewrite !ix_div, !ix_mod by auto.
  pose proof (xcol_lt o t c Ht Hc). pose proof (xcol_lt o k m Hk Hm).
  rewrite !(proj2 (Nat.ltb_lt _ _)) by auto. cbn [andb]. f_equal.
  destruct (Nat.eqb_spec t k) as [->|]; auto. apply comp_pat_off; auto.
Qed.

Lemma eq_nonzeros : (1 <= P)%nat -> (1 <= Sg)%nat -> forall M, eq_ok M -> nonzeros M = nsum (VAR o) (eq_est o).
Proof.
  intros HP HS M (Hr & Hc & Hp & _). unfold nonzeros. rewrite Hc. apply nsum_ext. intros j Hj. unfold ncol. rewrite Hr.
  rewrite <- eq_count by auto. apply cnt_ext. intros. apply Hp; auto.
Qed.

Lemma eq_asm_ok : chebyshev_ocp o -> forall var,
  exists M, eq_asm o var (sp_empty vx (VAR o)) = Some M /\ eq_ok M /\ eq_jac M var.
Proof.
  intros Hch var. pose proof Hch as (HP & HS & HX & _).
  destruct (node_asm nx (fun t c q => - t_scale o * at_node o (o_dyn_jac o) var t c q)
    (reserve (sp_empty vx (VAR o)) (eq_est o)) eqpat (eq_est o)) as (M1 & E1 & (L1 & L2 & L3) & R1 & C1 & P1 & V1).
  { apply lay_reserve. intros. rewrite eq_count by auto. lia. }
  { reflexivity. } { reflexivity. } { reflexivity. }
  { intros. apply inz_eqpat; auto. }
  cbn [sp_r sp_c reserve sp_empty] in R1, C1.
  unfold eq_asm. change (sopp (t_scale o)) with (- t_scale o). 
  match goal with |- exists M, obind ?X _ = _ /\ _ => replace X with (Some M1) by (symmetry; exact E1) end.
  cbn [obind]. eexists. split; [reflexivity|].
  assert (Pat : forall i j, (i < vx)%nat -> (j < VAR o)%nat ->
     (if (j <? vx)%nat then pat M1 i j || diff_pat o i j else pat M1 i j) = eqpat i j).
  { intros i j Hi Hj. destruct (index_split nx N i Hi) as (t & c & -> & Ht & Hc). rewrite P1 by auto.
    change (t * nx + c)%nat with (ix o t c).
    destruct (var_cases j Hj) as [(k & m & -> & Hk & Hm)|[(k & m & -> & Hk & Hm)|(m & -> & Hm)]].
    - rewrite (proj2 (Nat.ltb_lt _ _)) by (apply xcol_lt; auto). rewrite diff_pat_x, eqpat_x by auto. unfold inz. rewrite zidx_x by auto.
      destruct (Nat.eqb_spec t k); cbn [orb]; auto.
    - pose proof (iu_range o k m Hk Hm). rewrite (proj2 (Nat.ltb_ge _ _)) by lia. rewrite eqpat_u by auto. unfold inz. rewrite zidx_u by auto.
      destruct (t =? k)%nat; auto.
    - pose proof (ip_range m Hm). rewrite (proj2 (Nat.ltb_ge _ _)) by lia. rewrite eqpat_p by auto. unfold inz. rewrite zidx_p by auto. auto. }
  split.
  - split; [exact R1|]. split; [exact C1|]. split; [exact Pat|]. split.
    + intros j Hj. unfold add_left. cbn [slack].
      destruct (Nat.ltb_spec j vx) as [Hjx|Hjx].
      * destruct (Nat.eqb_spec (S j) vx); [|reflexivity].
        assert (EO : outer M1 vx = nsum vx (eq_est o)).
        { unfold outer. apply nsum_ext. intros q Hq. rewrite <- (L1 q); [lia|]. rewrite C1. unfold VAR. lia. }
        rewrite EO, R1. rewrite (nsum_ext vx (fun q => cnt _ vx) (eq_est o)); [lia|].
        intros q Hq. assert (q < VAR o)%nat by (unfold VAR; lia). rewrite <- (eq_count HP HS q) by auto. apply cnt_ext. intros i Hi.
        apply Pat; auto.
      * assert (HC : ncol M1 j = eq_est o j).
        { unfold ncol. rewrite R1. rewrite <- (eq_count HP HS j) by auto. apply cnt_ext. intros i Hi. rewrite <- Pat by auto.
          rewrite (proj2 (Nat.ltb_ge _ _)) by auto. reflexivity. }
        pose proof (L1 j ltac:(rewrite C1; auto)). lia.
    + intros t c k Ht Hk Hc Hne Hd. unfold add_left. cbn [val].
      rewrite (proj2 (Nat.ltb_lt _ _)) by (apply xcol_lt; auto). unfold ix at 1. rewrite P1; auto.
      2:{ pose proof (xcol_lt o k c Hk Hc). unfold VAR. lia. }
      unfold inz. rewrite zidx_x by auto. rewrite (proj2 (Nat.eqb_neq t k)) by auto.
      rewrite diff_pat_x by auto. rewrite Nat.eqb_refl, (proj2 (Nat.eqb_neq t k)) by auto. rewrite Hd. cbn [andb].
      unfold diff_val. rewrite !ix_div by auto. cbn. ring.
  - intros t c j q Ht Hc Hj Hz. unfold add_left. cbn [val].
    pose proof (V1 t c j q Ht Hc Hz) as HV. change (t * nx + c)%nat with (ix o t c) in HV.
    assert (Hin : pat M1 (ix o t c) j = true) by (unfold ix; rewrite P1 by auto; unfold inz; rewrite Hz; auto).
    destruct (var_cases j Hj) as [(k & m & -> & Hk & Hm)|[(k & m & -> & Hk & Hm)|(m & -> & Hm)]].
    + rewrite (proj2 (Nat.ltb_lt _ _)) by (apply xcol_lt; auto). rewrite Hin, HV.
      rewrite zidx_x in Hz by auto. destruct (Nat.eqb_spec t k) as [->|]; [|discriminate].
      rewrite diff_pat_x by auto. rewrite Nat.eqb_refl.
      replace (ix o k m =? ix o k c)%nat with (c =? m)%nat.
      2:{ unfold ix. destruct (Nat.eqb_spec c m) as [->|]; [rewrite Nat.eqb_refl; reflexivity|symmetry; apply Nat.eqb_neq; lia]. }
      unfold dg, diff_val. rewrite !ix_div by auto. destruct (c =? m)%nat, (comp_pat o k k); reflexivity.
    + pose proof (iu_range o k m Hk Hm). pose proof (xcol_lt o t c Ht Hc). rewrite (proj2 (Nat.ltb_ge _ _)) by lia. rewrite HV.
      rewrite (proj2 (Nat.eqb_neq _ _)) by lia. ring.
    + pose proof (ip_range m Hm). pose proof (xcol_lt o t c Ht Hc). rewrite (proj2 (Nat.ltb_ge _ _)) by lia. rewrite HV.
      rewrite (proj2 (Nat.eqb_neq _ _)) by lia. ring.
Qed.

(** * update *)
Lemma off_next : (1 <= P)%nat -> forall t, (if (P <? match t with O => O | S q => S (off q) end)%nat then 1%nat else match t with O => O | S q => S (off q) end) = off t.
Proof.
  intros HP t. destruct t as [|q].
  - rewrite (proj2 (Nat.ltb_ge _ _)) by lia. reflexivity.
  - destruct q as [|r].
    + cbn [off]. rewrite (proj2 (Nat.ltb_ge _ _)) by lia. rewrite Nat.mod_0_l by lia. reflexivity.
    + cbn [off]. pose proof (Nat.mod_upper_bound r P ltac:(lia)). pose proof (Nat.div_mod r P ltac:(lia)).
      destruct (Nat.ltb_spec P (S (S (r mod P)))).
      * f_equal. apply (Nat.mod_unique (S r) P (r / P + 1)); nia.
      * f_equal. apply (Nat.mod_unique (S r) P (r / P)); lia.
Qed.

Lemma outer_S : forall (M : spmat R) j, outer M (S j) = (outer M j + (ncol M j + slack M j))%nat.
Proof. reflexivity. Qed.

Lemma eq_outer_u : forall M t j, eq_ok M -> (t < N)%nat -> (j <= nu)%nat -> outer M (t * nu + vx + j) = (outer M (t * nu + vx) + j * nx)%nat.
Proof.
  intros M t j (Hr & Hc & Hp & Hs & _) Ht. induction j as [|j IH]; intro Hj; [rewrite Nat.add_0_r; lia|].
  assert (Hj' : (t * nu + vx + j = iu o t j)%nat) by (unfold iu, VARX, NUM_NODES; lia).
  pose proof (iu_range o t j Ht ltac:(lia)).
  rewrite Nat.add_succ_r, outer_S, IH by lia. rewrite Hs by (unfold VAR; lia). unfold ncol. rewrite Hr.
  rewrite (cnt_ext _ (fun i => eqpat i (iu o t j))).
  2:{ intros. rewrite Hj'. apply Hp; auto. unfold VAR. lia. }
  rewrite col_u by (auto; lia). lia.
Qed.

Lemma eq_ok_same : forall M M', eq_ok M -> same M M' ->
  (forall t c k, (t < N)%nat -> (k < N)%nat -> (c < nx)%nat -> t <> k -> val M' (ix o t c) (ix o k c) = val M (ix o t c) (ix o k c)) -> eq_ok M'.
Proof.
  intros M M' (Hr & Hc & Hp & Hs & Hv) (a & b & c & d) H. split; [congruence|]. split; [congruence|]. split; [|split].
  - intros. rewrite c. auto.
  - intros. rewrite d. auto.
  - intros. rewrite H by auto. auto.
Qed.

Lemma eq_node_upd : (1 <= P)%nat -> forall M t (J : mat R), eq_ok M -> (t < N)%nat ->
  exists M', obind (oloop nx (fun j M => copy_n M nx (fun i => J i j) (outer M (t * nx + j) + off t)) M) (fun M =>
    obind (copy_n M (nx * nu) (fun q => J (q mod nx)%nat (nx + q / nx)%nat) (outer M (t * nu + vx))) (fun M =>
    oloop np (fun j M => copy_n M nx (fun i => J i (nx + nu + j)%nat) (outer M (vx + vu + j) + t * nx)) M)) = Some M' /\
   same M M' /\ eq_ok M' /\
   (forall t' c j, (t' < N)%nat -> (c < nx)%nat -> val M' (ix o t' c) j =
      if (t =? t')%nat then match zidx t' j with Some q => J c q | None => val M (ix o t' c) j end else val M (ix o t' c) j).
Proof.
  intros HP M t J Hok Ht. pose proof Hok as (Hr & Hc & Hp & Hs & Hv).
  assert (HxV : (t * nx + nx <= vx)%nat) by (unfold VARX; nia).
  assert (HuV : (t * nu + vx + nu <= vx + vu)%nat) by (unfold VARU; nia).
  destruct (block_upd nx nx (fun i j _ => J i j) M (t * nx) (t * nx) (fun j M => outer M (t * nx + j) + off t)%nat) as (M1 & E1 & S1 & V1).
  { rewrite Hr. auto. } { rewrite Hc. unfold VAR. lia. }
  { intros i j Hi Hj. rewrite Hp by (unfold VAR; lia). apply inz_eqpat; auto. unfold inz. change (t * nx + j)%nat with (ix o t j). rewrite zidx_x by auto. rewrite Nat.eqb_refl. auto. }
  { intros j M' Hj _ HS. rewrite (same_outer M M') by auto. unfold pos. f_equal.
    rewrite (cnt_ext _ (fun i => eqpat i (ix o t j))); [rewrite col_above; auto|].
    intros i Hi. apply Hp; [lia|unfold ix, VAR; lia]. }
  unfold copy_n at 1. match goal with |- exists M', obind ?X _ = _ /\ _ => replace X with (Some M1) by (symmetry; exact E1) end.
  cbn [obind]. pose proof S1 as (a1 & b1 & c1 & d1).
  assert (Ok1 : eq_ok M1).
  { apply (eq_ok_same M); auto. intros t' c k Ht' Hk Hcc Hne. rewrite V1 by (rewrite Hr; apply xcol_lt; auto).
    unfold ix. rewrite !node_eqb by auto. destruct (Nat.eqb_spec t t') as [<-|]; auto. destruct (Nat.eqb_spec t k); [lia|]. auto. }
  pose proof Ok1 as (Hr1 & Hc1 & Hp1 & Hs1 & Hv1).
  destruct (block_upd nx nu (fun i j _ => J i (nx + j)%nat) M1 (t * nx) (t * nu + vx) (fun j _ => outer M1 (t * nu + vx) + j * nx)%nat) as (M2 & E2 & S2 & V2).
  { rewrite Hr1. auto. } { rewrite Hc1. unfold VAR. lia. }
  { intros i j Hi Hj. rewrite Hp1 by (unfold VAR; lia). apply inz_eqpat; auto. unfold inz.
    replace (t * nu + vx + j)%nat with (iu o t j) by (unfold iu, VARX, NUM_NODES; lia). rewrite zidx_u by auto. rewrite Nat.eqb_refl. auto. }
  { intros j M' Hj _ HS. unfold pos. rewrite eq_outer_u by (auto; lia).
    rewrite (cnt_ext _ (fun i => eqpat i (iu o t j))); [rewrite col_u_above; auto|].
    intros i Hi. replace (t * nu + vx + j)%nat with (iu o t j) by (unfold iu, VARX, NUM_NODES; lia).
    apply Hp1; [lia|]. pose proof (iu_range o t j Ht Hj). unfold VAR. lia. }
  assert (E2' : copy_n M1 (nx * nu) (fun q => J (q mod nx)%nat (nx + q / nx)%nat) (outer M1 (t * nu + vx)) = Some M2).
  { unfold copy_n. rewrite (Nat.mul_comm nx nu). rewrite oloop_flat. rewrite <- E2. apply oloop_ext. intros j s Hj.
    cbv zeta. apply oloop_ext. intros i s' Hi.
    replace ((j * nx + i) mod nx)%nat with i by (rewrite Nat.add_comm, Nat.mod_add by lia; symmetry; apply Nat.mod_small; auto).
    replace ((j * nx + i) / nx)%nat with j by (rewrite Nat.div_add_l by lia; rewrite Nat.div_small by auto; lia).
    f_equal. lia. }
  rewrite E2'. cbn [obind]. pose proof S2 as (a2 & b2 & c2 & d2).
  assert (Ok2 : eq_ok M2).
  { apply (eq_ok_same M1); auto. intros t' c k Ht' Hk Hcc Hne. rewrite V2 by (rewrite Hr1; apply xcol_lt; auto).
    pose proof (xcol_lt o k c Hk Hcc). rewrite (in_seg_false (t * nu + vx)) by lia. rewrite andb_false_r. auto. }
  pose proof Ok2 as (Hr2 & Hc2 & Hp2 & Hs2 & Hv2).
  destruct (block_upd nx np (fun i j _ => J i (nx + nu + j)%nat) M2 (t * nx) (vx + vu) (fun j M => outer M (vx + vu + j) + t * nx)%nat) as (M3 & E3 & S3 & V3).
  { rewrite Hr2. auto. } { rewrite Hc2. unfold VAR. lia. }
  { intros i j Hi Hj. rewrite Hp2 by (unfold VAR; lia). apply inz_eqpat; auto. unfold inz.
    change (vx + vu + j)%nat with (ip o j). rewrite zidx_p by auto. auto. }
  { intros j M' Hj _ HS. rewrite (same_outer M2 M') by auto. unfold pos. f_equal.
    rewrite (cnt_ext _ (fun i => eqpat i (ip o j))); [rewrite col_p; auto; lia|].
    intros i Hi. apply Hp2; [lia|apply ip_range; auto]. }
  exists M3. split; [exact E3|].
  assert (Ok3 : eq_ok M3).
  { apply (eq_ok_same M2); auto. intros t' c k Ht' Hk Hcc Hne. rewrite V3 by (rewrite Hr2; apply xcol_lt; auto).
    pose proof (xcol_lt o k c Hk Hcc). rewrite (in_seg_false (vx + vu)) by lia. rewrite andb_false_r. auto. }
  split; [eapply same_trans; [|eauto]; eapply same_trans; eauto|]. split; auto.
  intros t' c j Ht' Hcc. pose proof (xcol_lt o t' c Ht' Hcc) as HI.
  rewrite V3 by (rewrite Hr2; auto). rewrite V2 by (rewrite Hr1; auto). rewrite V1 by (rewrite Hr; auto).
  unfold ix at 1 3 5. rewrite !node_eqb by auto. destruct (Nat.eqb_spec t t') as [<-|]; cbn [andb]; [|reflexivity].
  replace (ix o t c - t * nx)%nat with c by (unfold ix; lia). unfold zidx.
  destruct (in_seg (t * nx) nx j) eqn:A.
  - apply in_seg_spec in A. rewrite (in_seg_false (t * nu + vx)), (in_seg_false (vx + vu)) by lia. reflexivity.
  - destruct (in_seg (t * nu + vx) nu j) eqn:B.
    + apply in_seg_spec in B. rewrite (in_seg_false (vx + vu)) by lia. reflexivity.
    + destruct (in_seg (vx + vu) np j) eqn:C; [|reflexivity]. apply in_seg_spec in C. f_equal. 
Qed.

Lemma eq_upd_ok : chebyshev_ocp o -> forall var M, eq_ok M ->
  exists M', eq_upd o var M = Some M' /\ eq_ok M' /\ eq_jac M' var.
Proof.
  intros Hch var M Hok. pose proof Hch as (HP & HS & HX & _). unfold eq_upd.
  set (jac := fun t r c => at_node o (o_dyn_jac o) var t r c * (- t_scale o)).
  destruct (oloop_inv _ (fun t st => fst st = match t with O => O | S q => S (off q) end /\ same M (snd st) /\ eq_ok (snd st) /\
     (forall t' c j, (t' < N)%nat -> (c < nx)%nat -> val (snd st) (ix o t' c) j =
      if (t' <? t)%nat then match zidx t' j with Some q => jac t' c q | None => val M (ix o t' c) j end else val M (ix o t' c) j))
    N (fun t st =>
    let '(nnz, M) := st in
    let jac := fun r c => smul (at_node o (o_dyn_jac o) var t r c) (sopp (t_scale o)) in
    let nnz := if (P <? nnz)%nat then 1%nat else nnz in
    obind (oloop nx (fun j M => copy_n M nx (fun i => jac i j) (outer M (t * nx + j) + nnz)) M) (fun M =>
    obind (copy_n M (nx * nu) (fun q => jac (q mod nx)%nat (nx + q / nx)%nat) (outer M (t * nu + vx))) (fun M =>
    obind (oloop np (fun j M => copy_n M nx (fun i => jac i (nx + nu + j)%nat) (outer M (vx + vu + j) + t * nx)) M) (fun M =>
    Some (S nnz, M))))) (O, M)) as ([nnz M1] & E1 & _ & S1 & Ok1 & V1).
  - split; [reflexivity|]. split; [apply same_refl|]. split; auto. 
  - intros t [nnz M1] Ht (Hn & S1 & Ok1 & V1). cbn [fst snd] in *.
    destruct (eq_node_upd HP M1 t (jac t) Ok1 Ht) as (M2 & E2 & S2 & Ok2 & V2).
    exists (S (off t), M2). rewrite Hn, off_next by auto. cbn [fst snd]. split.
    + cbv zeta. unfold jac in E2. cbn [smul sopp R_scalar].
      destruct (oloop nx _ M1) as [A|]; cbn [obind] in E2 |- *; [|discriminate].
      destruct (copy_n A (nx * nu) _ _) as [B|]; cbn [obind] in E2 |- *; [|discriminate]. rewrite E2. reflexivity.
    + split; [reflexivity|]. split; [eapply same_trans; eauto|]. split; auto.
      intros t' c j Ht' Hc. rewrite V2, V1 by auto. destruct (Nat.eqb_spec t t') as [<-|Hne].
      * rewrite Nat.ltb_irrefl. rewrite (proj2 (Nat.ltb_lt t (S t))) by lia. reflexivity.
      * destruct (Nat.ltb_spec t' t), (Nat.ltb_spec t' (S t)); auto; lia.
  - match goal with |- exists M, obind ?X _ = _ /\ _ => replace X with (Some (nnz, M1)) by (symmetry; exact E1) end. cbn [obind snd] in *. pose proof Ok1 as (Hr & Hc & Hp & Hs & Hv).
    destruct (add_diag_ok vx M1 (fun i => if diff_pat o i i then diff_val o i i else 0)) as (M2 & E2 & S2 & V2).
    { rewrite Hr; lia. } { rewrite Hc. unfold VAR; lia. }
    { intros i Hi. rewrite Hp by (unfold VAR; lia). destruct (index_split nx N i Hi) as (t & c & -> & Ht & Hcc).
      apply inz_eqpat; auto. unfold inz. change (t * nx + c)%nat with (ix o t c). rewrite zidx_x by auto. rewrite Nat.eqb_refl. auto. }
    exists M2. split; [exact E2|]. split.
    + apply (eq_ok_same M1); auto. intros t c k Ht Hk Hcc Hne. rewrite V2 by (rewrite Hr; apply xcol_lt; auto).
      rewrite (proj2 (Nat.eqb_neq _ _)); [reflexivity|]. intro H. apply Hne. unfold ix in H. nia.
    + intros t c j q Ht Hcc Hj Hz. pose proof (xcol_lt o t c Ht Hcc) as HI. rewrite V2 by (rewrite Hr; auto).
      rewrite (proj2 (Nat.ltb_lt _ vx)) by auto. rewrite andb_true_r. rewrite V1 by auto.
      rewrite (proj2 (Nat.ltb_lt t N)) by auto. rewrite Hz. rewrite (Nat.eqb_sym j).
      destruct (ix o t c =? j)%nat; unfold jac; [|ring].
      rewrite diff_pat_x by auto. rewrite !Nat.eqb_refl. cbn [andb]. unfold diff_val, dg. rewrite ix_div by auto.
      cbn [sadd R_scalar]. ring.
Qed.

Lemma eq_empty_nonzeros : chebyshev_ocp o -> (nonzeros (sp_empty vx (VAR o) : spmat R) =? nsum (VAR o) (eq_est o))%nat = false.
Proof.
  intros (HP & HS & HX & _). apply Nat.eqb_neq.
  assert (E : nonzeros (sp_empty vx (VAR o) : spmat R) = 0%nat).
  { unfold nonzeros. cbn [sp_c sp_empty]. rewrite (nsum_ext (VAR o) _ (fun _ => 0%nat)).
    - generalize (VAR o) as n. induction n as [|n IH]; [reflexivity|]. cbn [nsum]. lia.
    - intros j Hj. unfold ncol. cbn. apply cnt_none. auto. }
  rewrite E. assert (H0 : (0 < vx)%nat) by (unfold VARX, NUM_NODES; nia).
  assert (H1 : (1 <= VAR o)%nat) by (unfold VAR; lia).
  pose proof (nsum_mono (eq_est o) 1 (VAR o) H1). cbn [nsum] in H.
  change 0%nat with (ix o 0 0) in H at 2. rewrite eq_est_x in H by (auto; unfold NUM_NODES; lia). unfold xest in H. lia.
Qed.

Lemma eq_lin_ok : chebyshev_ocp o -> forall var M, M = sp_empty vx (VAR o) \/ eq_ok M ->
  exists M', eq_lin_sparse o var M = Some M' /\ eq_ok M' /\ eq_jac M' var.
Proof.
  intros Hch var M [->|Hok]; unfold eq_lin_sparse.
  - rewrite eq_empty_nonzeros by auto. apply eq_asm_ok; auto.
  - pose proof Hch as (HP & HS & _). rewrite (proj2 (Nat.eqb_eq _ _)) by (apply eq_nonzeros; auto). apply eq_upd_ok; auto.
Qed.

(** no diagonal entry of the differentiation matrix is dropped by pruned(epsilon) *)
Definition prune_safe : Prop := (Sg <= 1)%nat \/ forall l, (l <= P)%nat -> m_D o l l = 0 \/ @prune_thr R R_scalar < Rabs (m_D o l l).

Lemma dg_eq : chebyshev_ocp o -> prune_safe -> forall t, (t < N)%nat -> dg t = comp_DM o t t.
Proof.
  intros Hch Hps t Ht. pose proof Hch as (HP & HS & _). unfold dg, comp_pat.
  destruct (Nat.ltb_spec Sg 2) as [|H2]; [reflexivity|]. destruct Hps as [Hps|Hps]; [lia|].
  destruct (node_decomp o t HP HS Ht) as (s & l & -> & Hs & Hl & Hd).
  rewrite comp_DM_eq by auto. unfold dmat. rewrite in_seg_true by lia. replace (s * P + l - s * P)%nat with l by lia.
  destruct (Hps l Hl) as [E|E].
  - rewrite E. destruct (sltb _ _); reflexivity.
  - cbn [sltb sabs R_scalar]. unfold Rltb. destruct (Rlt_dec _ _); [reflexivity|contradiction].
Qed.

Lemma eq_coeff : chebyshev_ocp o -> prune_safe -> forall M var, eq_ok M -> eq_jac M var ->
  forall i j, (i < vx)%nat -> (j < VAR o)%nat -> coeff M i j = dense_jac o var i j.
Proof.
  intros Hch Hps M var (Hr & Hc & Hp & Hs & Hv) HJ i j Hi Hj. pose proof Hch as (HP & HS & HX & _).
  destruct (index_split nx N i Hi) as (t & c & -> & Ht & Hcc). change (t * nx + c)%nat with (ix o t c) in *.
  unfold coeff. rewrite Hp by auto. change (@s0 R R_scalar) with 0.
  destruct (var_cases j Hj) as [(k & m & -> & Hk & Hm)|[(k & m & -> & Hk & Hm)|(m & -> & Hm)]].
  - rewrite eqpat_x by auto. destruct (node_decomp o t HP HS Ht) as (s & l & -> & Hs' & Hl & Hd).
    rewrite (dense_jac_x o Hch) by auto. rewrite (Nat.eqb_sym k). destruct (Nat.eqb_spec (s * P + l) k) as [Ek|Ek]; cbn [orb].
    + rewrite (HJ (s * P + l)%nat c (ix o k m) m); auto. 2:{ rewrite zidx_x by auto. rewrite (proj2 (Nat.eqb_eq _ _)); auto. }
      rewrite dg_eq by auto. rewrite comp_DM_eq by auto. rewrite <- Ek.
      replace (ix o (s * P + l) m =? ix o (s * P + l) c)%nat with (c =? m)%nat.
      2:{ unfold ix. destruct (Nat.eqb_spec c m) as [->|]; [rewrite Nat.eqb_refl; reflexivity|symmetry; apply Nat.eqb_neq; lia]. }
      destruct (c =? m)%nat; ring.
    + rewrite Rminus_0_r. destruct (Nat.eqb_spec c m) as [->|]; cbn [andb]; [|reflexivity].
      unfold dseg. rewrite sgm_node by auto. unfold dmat. destruct (in_seg (s * P) (P + 1) k) eqn:Es; [|reflexivity].
      rewrite Hv; auto. 2:{ unfold dseg. rewrite sgm_node by auto. auto. }
      rewrite comp_DM_eq by auto. unfold dmat. rewrite Es. reflexivity.
  - rewrite eqpat_u by auto. rewrite (dense_jac_u o Hch) by auto. rewrite (Nat.eqb_sym k). destruct (Nat.eqb_spec t k) as [->|]; [|reflexivity].
    rewrite (HJ k c (iu o k m) (nx + m)%nat); auto. 2:{ rewrite zidx_u by auto. rewrite Nat.eqb_refl. auto. }
    pose proof (iu_range o k m Hk Hm). pose proof (xcol_lt o k c Hk Hcc). rewrite (proj2 (Nat.eqb_neq _ _)) by lia. ring.
  - rewrite eqpat_p by auto. rewrite (dense_jac_p o Hch) by auto. rewrite (HJ t c (ip o m) (nx + nu + m)%nat); auto.
    2:{ rewrite zidx_p by auto. auto. }
    pose proof (ip_range m Hm). pose proof (xcol_lt o t c Ht Hcc). rewrite (proj2 (Nat.eqb_neq _ _)) by lia. ring.
Qed.
End P.
