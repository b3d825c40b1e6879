(** Proofs about sparse_ode_collocation.hpp: sessions of sparse linearisations. *)
Require Import Arith ZArith List Bool Lia Reals Lra.
From Verif Require Import Scal RSum Blk Sparse Sparse_Proofs Poly_Spec PolyR Cheb_Model Cheb_Proofs Cheb_Diag_Proofs Ocp_Model Ocp_Spec Ocp_Proofs
  Ocp_Cost_Proofs Ocp_Sparse_Model Ocp_Sparse_Proofs Old_Model Old_Spec Old_Proofs.

(** insertion of a row of new entries, without information about the free slots *)
Lemma insert_fresh : forall n (v : nat -> R) (M : spmat R) r c, r < sp_r M -> c + n <= sp_c M ->
  (forall j, j < n -> pat M r (c + j) = false) ->
  exists M', oloop n (fun m M => insert M r (c + m) (v m)) M = Some M' /\ sp_r M' = sp_r M /\ sp_c M' = sp_c M /\
   (forall i j, pat M' i j = ((i =? r) && in_seg c n j) || pat M i j) /\
   (forall i j, val M' i j = if (i =? r) && in_seg c n j then v (j - c) else val M i j).
Proof.
  intros n v M r c Hr Hc Hf.
  destruct (oloop_inv _ (fun k M' => sp_r M' = sp_r M /\ sp_c M' = sp_c M /\
   (forall i j, pat M' i j = ((i =? r) && in_seg c k j) || pat M i j) /\
   (forall i j, val M' i j = if (i =? r) && in_seg c k j then v (j - c) else val M i j)) n (fun m M => insert M r (c + m) (v m)) M)
   as (M' & E & H); [| |exists M'; auto].
  - split; auto. split; auto. split; intros; rewrite (in_seg_false c 0) by lia; rewrite andb_false_r; auto.
  - intros k M1 Hk (R1 & C1 & P1 & V1).
    assert (Hp : pat M1 r (c + k) = false).
    { rewrite P1, Nat.eqb_refl. rewrite (in_seg_false c k) by lia. cbn. apply Hf; auto. }
    assert (Seg : forall j, in_seg c (S k) j = (j =? c + k) || in_seg c k j).
    { intro j. destruct (Nat.eqb_spec j (c + k)) as [->|]; cbn [orb]; [apply in_seg_true; lia|].
      destruct (in_seg c k j) eqn:E; [apply in_seg_spec in E; apply in_seg_true; lia|].
      destruct (in_seg c (S k) j) eqn:E2; auto. apply in_seg_spec in E2. rewrite in_seg_true in E by lia. discriminate. }
    eexists. unfold insert. rewrite R1, C1, Hp. rewrite (proj2 (Nat.ltb_lt r _)) by auto. rewrite (proj2 (Nat.ltb_lt (c + k) _)) by lia.
    cbn [andb negb]. split; [reflexivity|]. cbn [sp_r sp_c pat val]. split; auto. split; auto. split.
    + intros i j. rewrite P1, Seg. destruct (i =? r), (j =? c + k), (in_seg c k j), (pat M i j); reflexivity.
    + intros i j. rewrite V1, Seg. destruct (Nat.eqb_spec i r), (Nat.eqb_spec j (c + k)); cbn [andb orb]; auto. f_equal. lia.
Qed.

Lemma nsum_lt : forall n f g k, k < n -> (forall j, j < n -> f j <= g j) -> f k < g k -> nsum n f < nsum n g.
Proof.
  induction n as [|n IH]; intros f g k Hk Hle Hlt; [lia|]. cbn [nsum].
  assert (Hn : nsum n f <= nsum n g).
  { assert (forall m, m <= n -> nsum m f <= nsum m g); [|auto]. induction m; cbn [nsum]; intros; auto.
    pose proof (IHm ltac:(lia)). pose proof (Hle m ltac:(lia)). lia. }
  destruct (Nat.eq_dec k n) as [->|]; [lia|]. pose proof (IH f g k ltac:(lia) ltac:(auto) Hlt). pose proof (Hle n ltac:(lia)). lia.
Qed.

Lemma in_seg_out : forall a j, in_seg a 0 j = false.
Proof. intros a j. destruct (in_seg a 0 j) eqn:E; auto. apply in_seg_spec in E. lia. Qed.

Section P.
Variable o : ocp R.
Local Notation nx := (NX o).
Local Notation nu := (NU o).
Local Notation np := (NP o).
Local Notation P := (PO o).
Local Notation Sg := (SG o).
Local Notation N := (NUM_NODES o).
Local Notation vx := (VARX o).
Local Notation vu := (VARU o).

(** the problem without parameters: the same pattern except for the (empty) parameter columns *)
Definition npf : ocp R := {|
  NX := nx; NU := nu; NP := 0; NG := NG o; PO := P; SG := Sg;
  m_D := m_D o; m_nodes := m_nodes o; m_w := m_w o; t_start := t_start o; t_stop := t_stop o;
  o_dyn := o_dyn o; o_dyn_jac := o_dyn_jac o; o_dyn_hes := o_dyn_hes o;
  o_ine := o_ine o; o_ine_jac := o_ine_jac o; o_ine_hes := o_ine_hes o; o_lag := o_lag o; o_may := o_may o |}.

Local Notation zq := (zidx npf).
Local Notation inq := (inz npf).
Local Notation epat := (eqpat npf).
Local Notation dsg := (dseg npf).

Lemma zq_x : forall t k m, m < nx -> k < N -> zq t (ix o k m) = if t =? k then Some m else None.
Proof. exact (zidx_x npf). Qed.
Lemma zq_u : forall t k m, m < nu -> k < N -> t < N -> zq t (iu o k m) = if t =? k then Some (nx + m) else None.
Proof. exact (zidx_u npf). Qed.
Lemma zq_p : forall t m, t < N -> zq t (ip o m) = None.
Proof.
  intros t m Ht. unfold zidx. change (VARX npf) with vx. change (VARU npf) with vu. change (NP npf) with 0. change (NX npf) with nx. change (NU npf) with nu.
  assert (E : ip o m = vx + vu + m) by reflexivity.
  rewrite (xseg_out o) by (auto; lia). rewrite (useg_out o) by (auto; lia). rewrite (in_seg_false (vx + vu) 0) by lia. reflexivity.
Qed.
Lemma epat_x : forall t c k m, c < nx -> m < nx -> k < N -> epat (ix o t c) (ix o k m) = (t =? k) || ((c =? m) && dsg t k).
Proof. exact (eqpat_x npf). Qed.
Lemma epat_u : forall t c k m, t < N -> c < nx -> m < nu -> k < N -> epat (ix o t c) (iu o k m) = (t =? k).
Proof. exact (eqpat_u npf). Qed.
Lemma epat_p : forall t c m, t < N -> c < nx -> epat (ix o t c) (ip o m) = false.
Proof.
  intros t c m Ht Hc. unfold eqpat, inz. pose proof (ix_div npf t c Hc) as E. change (ix npf t c) with (ix o t c) in E. rewrite E. rewrite zq_p by auto.
  change (VARX npf) with vx. assert (vx <= ip o m) by (assert (E2 : ip o m = vx + vu + m) by reflexivity; lia).
  rewrite (proj2 (Nat.ltb_ge _ _)) by auto. reflexivity.
Qed.
Lemma ixdiv : forall t c, c < nx -> ix o t c / nx = t.
Proof. exact (ix_div npf). Qed.
Lemma ixmod : forall t c, c < nx -> ix o t c mod nx = c.
Proof. exact (ix_mod npf). Qed.
Lemma inz_epat : forall t c j, t < N -> c < nx -> inq t j = true -> epat (t * nx + c) j = true.
Proof. exact (inz_eqpat npf). Qed.

(** * the stored differentiation matrix *)
Lemma npat_off : chebyshev_ocp o -> forall t k, t < N -> k < N -> t <> k -> old_node_pat o t k = dsg t k.
Proof.
  intros Hch t k Ht Hk Hne. pose proof Hch as (HP & HS & HX & HD & _).
  destruct (node_decomp o t HP HS Ht) as (s & l & -> & Hs & Hl & Hor).
  unfold old_node_pat, dseg. pose proof (sgm_node npf s l HP Hs Hl Hor) as ES. change (PO npf) with P in *. rewrite ES.
  destruct (Nat.ltb_spec Sg 2).
  - symmetry. apply in_seg_true; unfold NUM_NODES in Hk; assert (s = 0) by lia; subst s; nia.
  - rewrite old_DM_eq by auto. unfold dmat. destruct (in_seg (s * P) (P + 1) k) eqn:E.
    + apply in_seg_spec in E. rewrite HD by lia.
      pose proof (D_off_large P l (k - s * P) HP Hl ltac:(lia) ltac:(lia)).
      cbn [sleb sabs s0 R_scalar]. unfold Rleb. destruct (Rle_dec _ _); auto. exfalso. lra.
    + cbn [sleb sabs s0 R_scalar]. unfold Rleb. rewrite Rabs_R0. destruct (Rle_dec 0 0); [reflexivity|lra].
Qed.

(** a dropped entry is zero *)
Lemma npat_drop : forall t k, old_node_pat o t k = false -> old_DM o t k = 0%R.
Proof.
  intros t k H. unfold old_node_pat in H. destruct (Sg <? 2); [discriminate|].
  cbn [sleb sabs s0 R_scalar] in H. unfold Rleb in H. destruct (Rle_dec _ _) as [L|]; [|discriminate].
  pose proof (Rabs_pos (old_DM o t k)). destruct (Req_dec (old_DM o t k) 0); auto. pose proof (Rabs_pos_lt _ H1). lra.
Qed.

Lemma dpat_x : chebyshev_ocp o -> forall t c k m, t < N -> k < N -> c < nx -> m < nx ->
  old_diff_pat o (ix o t c) (ix o k m) = (c =? m) && (if t =? k then old_node_pat o t t else dsg t k).
Proof.
  intros Hch t c k m Ht Hk Hc Hm. unfold old_diff_pat. rewrite !ixdiv, !ixmod by auto.
  pose proof (xcol_lt o t c Ht Hc). pose proof (xcol_lt o k m Hk Hm).
  rewrite !(proj2 (Nat.ltb_lt _ _)) by auto. cbn [andb]. f_equal.
  destruct (Nat.eqb_spec t k) as [->|]; auto. apply npat_off; auto.
Qed.

Local Open Scope R_scope.
(** the sparse residual equals the dense one *)
Lemma sp_residual_eq : forall var i, (i < NUM_EQ o)%nat -> old_sp_residual o var i = old_residual o (ode_default o) var i.
Proof.
  intros var i Hi. unfold old_sp_residual, old_residual. cbn [oo_diff ode_default]. cbv zeta.
  rewrite (ssum_ext vx (fun j => if old_diff_pat o i j then (old_diff_val o i j * var j)%S else 0%S) (fun j => old_kron o i j * var j)).
  - cbn [ssub smul sadd sopp R_scalar]. ring.
  - intros j Hj. unfold old_diff_pat. change (NUM_EQ o) with vx in Hi. rewrite !(proj2 (Nat.ltb_lt _ _)) by auto. cbn [andb].
    unfold old_kron, old_diff_val. destruct (i mod nx =? j mod nx)%nat; cbn [andb].
    + destruct (old_node_pat o (i / nx) (j / nx)) eqn:E; cbn [smul s1 s0 R_scalar]; [ring|]. rewrite (npat_drop _ _ E). ring.
    + cbn [smul s1 s0 R_scalar]. ring.
Qed.

(** * invariant *)
Definition ook (M : spmat R) : Prop :=
  sp_r M = vx /\ sp_c M = VAR o /\
  (forall i j, (i < vx)%nat -> (j < VAR o)%nat -> pat M i j = epat i j) /\
  (forall j, (j < VAR o)%nat -> slack M j = 0%nat) /\
  (forall t c k, (t < N)%nat -> (k < N)%nat -> (c < nx)%nat -> t <> k -> dsg t k = true ->
     val M (ix o t c) (ix o k c) = old_DM o t k).
Definition ojac (M : spmat R) (var : vec R) : Prop :=
  forall t c j a, (t < N)%nat -> (c < nx)%nat -> (j < VAR o)%nat -> zq t j = Some a ->
    val M (ix o t c) j = - t_scale o * old_at o (o_dyn_jac o) var t c a + (if (j =? ix o t c)%nat then old_DM o t t else 0).

Lemma zq_lt : forall t j a, zq t j = Some a -> (a < nx + nu)%nat.
Proof.
  intros t j a H. unfold zidx in H. change (NX npf) with nx in H. change (NU npf) with nu in H. change (NP npf) with 0%nat in H.
  destruct (in_seg (t * nx) nx j) eqn:A; [apply in_seg_spec in A; inversion H; lia|].
  destruct (in_seg (t * nu + VARX npf) nu j) eqn:B; [apply in_seg_spec in B; inversion H; lia|].
  destruct (in_seg (VARX npf + VARU npf) 0 j) eqn:C; [apply in_seg_spec in C; lia|discriminate].
Qed.

(** * assembly *)
Lemma row_asm : forall r t (v : nat -> R) (M : spmat R), (r < sp_r M)%nat -> sp_c M = VAR o -> (t < N)%nat ->
  (forall j, (j < VAR o)%nat -> pat M r j = false) ->
  exists M', obind (oloop nx (fun m M => insert M r (t * nx + m) (v m)) M) (fun M =>
      oloop nu (fun m M => insert M r (t * nu + vx + m) (v (nx + m)%nat)) M) = Some M' /\
   sp_r M' = sp_r M /\ sp_c M' = sp_c M /\
   (forall i j, pat M' i j = ((i =? r)%nat && inq t j) || pat M i j) /\
   (forall i j, val M' i j = if (i =? r)%nat then match zq t j with Some a => v a | None => val M i j end else val M i j).
Proof.
  intros r t v M Hr Hc Ht Hp.
  assert (HxV : (t * nx + nx <= vx)%nat) by (unfold VARX; nia).
  assert (HuV : (t * nu + vx + nu <= vx + vu)%nat) by (unfold VARU; nia).
  destruct (insert_fresh nx v M r (t * nx) Hr) as (M1 & E1 & R1 & C1 & P1 & V1).
  { rewrite Hc. unfold VAR. lia. } { intros j Hj. apply Hp. unfold VAR. lia. }
  rewrite E1. cbn [obind].
  destruct (insert_fresh nu (fun m => v (nx + m)%nat) M1 r (t * nu + vx)) as (M2 & E2 & R2 & C2 & P2 & V2).
  { rewrite R1; auto. } { rewrite C1, Hc. unfold VAR. lia. }
  { intros j Hj. rewrite P1, (in_seg_false (t * nx)) by lia. rewrite andb_false_r. apply Hp. unfold VAR; lia. }
  exists M2. split; [exact E2|]. split; [congruence|]. split; [congruence|]. split.
  - intros i j. rewrite P2, P1. unfold inz, zidx. change (NX npf) with nx. change (NU npf) with nu. change (NP npf) with 0%nat. change (VARX npf) with vx.
    destruct (i =? r)%nat; cbn [andb orb]; auto.
    destruct (in_seg (t * nx) nx j), (in_seg (t * nu + vx) nu j); cbn [orb]; auto.
    rewrite in_seg_out. reflexivity.
  - intros i j. rewrite V2, V1. unfold zidx. change (NX npf) with nx. change (NU npf) with nu. change (NP npf) with 0%nat. change (VARX npf) with vx.
    destruct (i =? r)%nat; cbn [andb]; auto.
    destruct (in_seg (t * nx) nx j) eqn:A.
    + apply in_seg_spec in A. rewrite (in_seg_false (t * nu + vx)) by lia. reflexivity.
    + destruct (in_seg (t * nu + vx) nu j) eqn:B; auto. rewrite in_seg_out. reflexivity.
Qed.

Lemma node_row_eqb : forall m t c k a, (c < m)%nat -> (a < m)%nat -> (t * m + c =? k * m + a)%nat = ((t =? k)%nat && (c =? a)%nat).
Proof.
  intros m t c k a Hc Ha. destruct (Nat.eqb_spec t k) as [->|Hne]; cbn [andb].
  - destruct (Nat.eqb_spec c a); [apply Nat.eqb_eq|apply Nat.eqb_neq]; lia.
  - apply Nat.eqb_neq. intro H. apply Hne.
    assert (A : ((t * m + c) / m = t)%nat) by (rewrite Nat.div_add_l by lia; rewrite Nat.div_small by auto; lia).
    assert (B : ((k * m + a) / m = k)%nat) by (rewrite Nat.div_add_l by lia; rewrite Nat.div_small by auto; lia).
    rewrite H in A. congruence.
Qed.

Lemma nodes_asm : forall (V : nat -> nat -> nat -> R) (M : spmat R), sp_r M = vx -> sp_c M = VAR o ->
  (forall i j, pat M i j = false) ->
  exists M', oloop N (fun t M => oloop nx (fun c M =>
      obind (oloop nx (fun a M => insert M (t * nx + c) (t * nx + a) (V t c a)) M) (fun M =>
      oloop nu (fun a M => insert M (t * nx + c) (t * nu + vx + a) (V t c (nx + a)%nat)) M)) M) M = Some M' /\
   sp_r M' = vx /\ sp_c M' = VAR o /\
   (forall t c j, (t < N)%nat -> (c < nx)%nat -> pat M' (ix o t c) j = inq t j) /\
   (forall t c j a, (t < N)%nat -> (c < nx)%nat -> zq t j = Some a -> val M' (ix o t c) j = V t c a).
Proof.
  intros V M Hr Hc Hp.
  pose (Inv := fun (d : nat -> nat -> bool) (M' : spmat R) => sp_r M' = vx /\ sp_c M' = VAR o /\
   (forall t c j, (t < N)%nat -> (c < nx)%nat -> pat M' (t * nx + c)%nat j = d t c && inq t j) /\
   (forall t c j a, (t < N)%nat -> (c < nx)%nat -> d t c = true -> zq t j = Some a -> val M' (t * nx + c)%nat j = V t c a)).
  destruct (oloop_inv _ (fun k M' => Inv (fun t _ => (t <? k)%nat) M') N
    (fun t M => oloop nx (fun c M =>
      obind (oloop nx (fun a M => insert M (t * nx + c) (t * nx + a) (V t c a)) M) (fun M =>
      oloop nu (fun a M => insert M (t * nx + c) (t * nu + vx + a) (V t c (nx + a)%nat)) M)) M) M) as (M' & E & I).
  - split; auto. split; auto. split.
    + intros. rewrite Hp. rewrite (proj2 (Nat.ltb_ge t 0)) by lia. reflexivity.
    + intros t c j a Ht Hcm Hd. apply Nat.ltb_lt in Hd. lia.
  - intros k M0 Hk (R0 & C0 & P0 & V0).
    destruct (oloop_inv _ (fun b M' => Inv (fun t c => (t <? k)%nat || ((t =? k)%nat && (c <? b)%nat)) M') nx
     (fun c M =>
      obind (oloop nx (fun a M => insert M (k * nx + c) (k * nx + a) (V k c a)) M) (fun M =>
      oloop nu (fun a M => insert M (k * nx + c) (k * nu + vx + a) (V k c (nx + a)%nat)) M)) M0) as (M' & E & I).
    + split; auto. split; auto. split.
      * intros. rewrite P0 by auto. rewrite (proj2 (Nat.ltb_ge c 0)) by lia. rewrite andb_false_r, orb_false_r. auto.
      * intros t c j a Ht Hcm Hd. apply V0; auto. rewrite (proj2 (Nat.ltb_ge c 0)) in Hd by lia. rewrite andb_false_r, orb_false_r in Hd. auto.
    + intros b M1 Hb (R1 & C1 & P1 & V1).
      destruct (row_asm (k * nx + b) k (V k b) M1) as (M2 & E2 & R2 & C2 & P2 & V2); auto.
      * rewrite R1. unfold VARX. nia.
      * intros j Hj. rewrite P1 by auto. rewrite Nat.eqb_refl, !Nat.ltb_irrefl. reflexivity.
      * exists M2. split; auto. split; [congruence|]. split; [congruence|]. split.
        -- intros t c j Ht Hcm. rewrite P2, node_row_eqb, P1 by auto.
           destruct (Nat.eqb_spec t k) as [->|Hne]; cbn [andb].
           ++ rewrite Nat.ltb_irrefl. cbn [orb]. destruct (inq k j); rewrite ?andb_false_r, ?andb_true_r; auto.
              destruct (Nat.eqb_spec c b), (Nat.ltb_spec c b), (Nat.ltb_spec c (S b)); auto; lia.
           ++ rewrite orb_false_r. reflexivity.
        -- intros t c j a Ht Hcm Hd Hz. rewrite V2, node_row_eqb by auto.
           destruct (Nat.eqb_spec t k) as [->|Hne]; cbn [andb] in *.
           ++ rewrite Nat.ltb_irrefl in Hd. cbn [orb] in Hd. destruct (Nat.eqb_spec c b) as [->|Hca]; [rewrite Hz; reflexivity|].
              apply V1; auto. rewrite Nat.eqb_refl, Nat.ltb_irrefl. cbn [andb orb]. apply Nat.ltb_lt in Hd. apply Nat.ltb_lt. lia.
           ++ apply V1; auto. rewrite orb_false_r in Hd. rewrite Hd. reflexivity.
    + exists M'. split; auto. destruct I as (R1 & C1 & P1 & V1). split; auto. split; auto. split.
      * intros t c j Ht Hcm. rewrite P1 by auto. rewrite (proj2 (Nat.ltb_lt c nx)) by auto. rewrite andb_true_r. f_equal.
        destruct (Nat.ltb_spec t k), (Nat.eqb_spec t k), (Nat.ltb_spec t (S k)); auto; lia.
      * intros t c j a Ht Hcm Hd. apply V1; auto. rewrite (proj2 (Nat.ltb_lt c nx)) by auto. rewrite andb_true_r.
        apply Nat.ltb_lt in Hd. destruct (Nat.ltb_spec t k), (Nat.eqb_spec t k); auto; lia.
  - exists M'. split; auto. destruct I as (R1 & C1 & P1 & V1). split; auto. split; auto. split.
    + intros. unfold ix. rewrite P1 by auto. rewrite (proj2 (Nat.ltb_lt t N)) by auto. reflexivity.
    + intros. unfold ix. apply V1; auto. apply Nat.ltb_lt; auto.
Qed.

Lemma old_asm_ok : chebyshev_ocp o -> forall var,
  exists M, old_asm o var (sp_empty vx (VAR o)) = Some M /\ ook M /\ ojac M var.
Proof.
  intros Hch var. pose proof Hch as (HP & HS & HX & _).
  destruct (nodes_asm (fun t c a => - t_scale o * old_ad_jac o (ode_default o) var t c a)
    (reserve (sp_empty vx (VAR o)) (old_est o)) eq_refl eq_refl (fun _ _ => eq_refl)) as (M1 & E1 & R1 & C1 & P1 & V1).
  unfold old_asm. cbv zeta.
  match goal with |- exists M, obind ?X _ = _ /\ _ => replace X with (Some M1) by (symmetry; exact E1) end.
  cbn [obind]. eexists. split; [reflexivity|].
  split.
  - split; [exact R1|]. split; [exact C1|]. split; [|split].
    + intros i j Hi Hj. unfold compress, add_left. cbn [pat].
      destruct (index_split nx N i Hi) as (t & c & -> & Ht & Hc). change (t * nx + c)%nat with (ix o t c). rewrite P1 by auto.
      destruct (var_cases o j Hj) as [(k & m & -> & Hk & Hm)|[(k & m & -> & Hk & Hm)|(m & -> & Hm)]].
      * rewrite (proj2 (Nat.ltb_lt _ _)) by (apply xcol_lt; auto). rewrite dpat_x, epat_x by auto. unfold inz. rewrite zq_x by auto.
        destruct (Nat.eqb_spec t k); cbn [orb]; auto.
      * pose proof (iu_range o k m Hk Hm). rewrite (proj2 (Nat.ltb_ge _ _)) by lia. rewrite epat_u by auto. unfold inz. rewrite zq_u by auto.
        destruct (t =? k)%nat; auto.
      * pose proof (ip_range o m Hm). rewrite (proj2 (Nat.ltb_ge _ _)) by lia. rewrite epat_p by auto. unfold inz. rewrite zq_p by auto. auto.
    + intros j Hj. reflexivity.
    + intros t c k Ht Hk Hc Hne Hd. unfold compress, add_left. cbn [val].
      rewrite (proj2 (Nat.ltb_lt _ _)) by (apply xcol_lt; auto). rewrite P1; auto.
      unfold inz. rewrite zq_x by auto. rewrite (proj2 (Nat.eqb_neq t k)) by auto.
      rewrite dpat_x by auto. rewrite Nat.eqb_refl, (proj2 (Nat.eqb_neq t k)) by auto. rewrite Hd. cbn [andb].
      unfold old_diff_val. rewrite !ixdiv by auto. cbn [sadd s0 R_scalar]. ring.
  - intros t c j a Ht Hc Hj Hz. unfold compress, add_left. cbn [val].
    pose proof (V1 t c j a Ht Hc Hz) as HV. rewrite ad_jac_default in HV by (eapply zq_lt; eauto).
    assert (Hin : pat M1 (ix o t c) j = true) by (rewrite P1 by auto; unfold inz; rewrite Hz; auto).
    destruct (var_cases o j Hj) as [(k & m & -> & Hk & Hm)|[(k & m & -> & Hk & Hm)|(m & -> & Hm)]].
    + rewrite (proj2 (Nat.ltb_lt _ _)) by (apply xcol_lt; auto). rewrite Hin, HV.
      rewrite zq_x in Hz by auto. destruct (Nat.eqb_spec t k) as [->|]; [|discriminate].
      rewrite dpat_x by auto. rewrite Nat.eqb_refl.
      replace (ix o k m =? ix o k c)%nat with (c =? m)%nat.
      2:{ unfold ix. destruct (Nat.eqb_spec c m) as [->|]; [rewrite Nat.eqb_refl; reflexivity|symmetry; apply Nat.eqb_neq; lia]. }
      unfold old_diff_val. rewrite !ixdiv by auto. destruct (c =? m)%nat; cbn [andb sadd s0 R_scalar]; [|reflexivity].
      destruct (old_node_pat o k k) eqn:E; [reflexivity|]. rewrite (npat_drop _ _ E). reflexivity.
    + pose proof (iu_range o k m Hk Hm). pose proof (xcol_lt o t c Ht Hc). rewrite (proj2 (Nat.ltb_ge _ _)) by lia. rewrite HV.
      rewrite (proj2 (Nat.eqb_neq _ _)) by lia. ring.
    + rewrite zq_p in Hz by auto. discriminate.
Qed.

(** * update *)
Lemma ook_same : forall M M', ook M -> same M M' ->
  (forall t c k, (t < N)%nat -> (k < N)%nat -> (c < nx)%nat -> t <> k -> val M' (ix o t c) (ix o k c) = val M (ix o t c) (ix o k c)) -> ook M'.
Proof.
  intros M M' (Hr & Hc & Hp & Hs & Hv) (a & b & c & d) H. split; [congruence|]. split; [congruence|]. split; [|split].
  - intros. rewrite c. auto.
  - intros. rewrite d. auto.
  - intros. rewrite H by auto. auto.
Qed.

Lemma node_upd : (1 <= P)%nat -> forall M t (J : mat R), ook M -> (t < N)%nat ->
  exists M', obind (oloop nx (fun j M => copy_n M nx (fun i => J i j) (outer M (t * nx + j) + off npf t)) M) (fun M =>
    oloop nu (fun j M => copy_n M nx (fun i => J i (nx + j)%nat) (outer M (t * nu + vx + j))) M) = Some M' /\
   same M M' /\ ook M' /\
   (forall t' c j, (t' < N)%nat -> (c < nx)%nat -> val M' (ix o t' c) j =
      if (t =? t')%nat then match zq t' j with Some a => J c a | None => val M (ix o t' c) j end else val M (ix o t' c) j).
Proof.
  intros HP M t J Hok Ht. pose proof Hok as (Hr & Hc & Hp & Hs & Hv).
  assert (HxV : (t * nx + nx <= vx)%nat) by (unfold VARX; nia).
  assert (HuV : (t * nu + vx + nu <= vx + vu)%nat) by (unfold VARU; nia).
  destruct (block_upd nx nx (fun i j _ => J i j) M (t * nx) (t * nx) (fun j M => outer M (t * nx + j) + off npf t)%nat) as (M1 & E1 & S1 & V1).
  { rewrite Hr. auto. } { rewrite Hc. unfold VAR. lia. }
  { intros i j Hi Hj. rewrite Hp by (unfold VAR; lia). apply inz_epat; auto. unfold inz. change (t * nx + j)%nat with (ix o t j). rewrite zq_x by auto. rewrite Nat.eqb_refl. auto. }
  { intros j M' Hj _ HS. rewrite (same_outer M M') by auto. unfold pos. f_equal.
    rewrite (cnt_ext _ (fun i => epat i (ix o t j))).
    - symmetry. exact (col_above npf HP t j Ht Hj).
    - intros i Hi. apply Hp; [lia|unfold ix, VAR; lia]. }
  unfold copy_n at 1. match goal with |- exists M', obind ?X _ = _ /\ _ => replace X with (Some M1) by (symmetry; exact E1) end.
  cbn [obind]. pose proof S1 as (a1 & b1 & c1 & d1).
  assert (Ok1 : ook M1).
  { apply (ook_same M); auto. intros t' c k Ht' Hk Hcc Hne. rewrite V1 by (rewrite Hr; apply xcol_lt; auto).
    unfold ix. rewrite !node_eqb by auto. destruct (Nat.eqb_spec t t') as [<-|]; auto. destruct (Nat.eqb_spec t k); [lia|]. auto. }
  pose proof Ok1 as (Hr1 & Hc1 & Hp1 & Hs1 & Hv1).
  destruct (block_upd nx nu (fun i j _ => J i (nx + j)%nat) M1 (t * nx) (t * nu + vx) (fun j M => outer M (t * nu + vx + j))) as (M2 & E2 & S2 & V2).
  { rewrite Hr1. auto. } { rewrite Hc1. unfold VAR. lia. }
  { intros i j Hi Hj. rewrite Hp1 by (unfold VAR; lia). apply inz_epat; auto. unfold inz.
    replace (t * nu + vx + j)%nat with (iu o t j) by (unfold iu, VARX, NUM_NODES; lia). rewrite zq_u by auto. rewrite Nat.eqb_refl. auto. }
  { intros j M' Hj _ HS. rewrite (same_outer M1 M') by auto. unfold pos.
    rewrite (cnt_ext _ (fun i => epat i (iu o t j))).
    - pose proof (col_u_above npf t j Ht Hj) as E. change (NX npf) with nx in E. change (iu npf t j) with (iu o t j) in E. rewrite E. lia.
    - intros i Hi. replace (t * nu + vx + j)%nat with (iu o t j) by (unfold iu, VARX, NUM_NODES; lia).
      apply Hp1; [lia|]. pose proof (iu_range o t j Ht Hj). unfold VAR. lia. }
  exists M2. split; [exact E2|].
  assert (Ok2 : ook M2).
  { apply (ook_same M1); auto. intros t' c k Ht' Hk Hcc Hne. rewrite V2 by (rewrite Hr1; apply xcol_lt; auto).
    pose proof (xcol_lt o k c Hk Hcc). rewrite (in_seg_false (t * nu + vx)) by lia. rewrite andb_false_r. auto. }
  split; [eapply same_trans; eauto|]. split; auto.
  intros t' c j Ht' Hcc. pose proof (xcol_lt o t' c Ht' Hcc) as HI.
  rewrite V2 by (rewrite Hr1; auto). rewrite V1 by (rewrite Hr; auto).
  unfold ix at 1 3. rewrite !node_eqb by auto. destruct (Nat.eqb_spec t t') as [<-|]; cbn [andb]; [|reflexivity].
  replace (ix o t c - t * nx)%nat with c by (unfold ix; lia).
  unfold zidx. change (NX npf) with nx. change (NU npf) with nu. change (NP npf) with 0%nat. change (VARX npf) with vx.
  destruct (in_seg (t * nx) nx j) eqn:A.
  - apply in_seg_spec in A. rewrite (in_seg_false (t * nu + vx)) by lia. reflexivity.
  - destruct (in_seg (t * nu + vx) nu j) eqn:B; [reflexivity|]. rewrite in_seg_out. reflexivity.
Qed.

Lemma old_upd_ok : chebyshev_ocp o -> forall var M, ook M ->
  exists M', old_upd o var M = Some M' /\ ook M' /\ ojac M' var.
Proof.
  intros Hch var M Hok. pose proof Hch as (HP & HS & HX & _). unfold old_upd.
  set (jac := fun t r c => - t_scale o * old_ad_jac o (ode_default o) var t r c).
  destruct (oloop_inv _ (fun t st => fst st = match t with O => O | S q => S (off npf q) end /\ same M (snd st) /\ ook (snd st) /\
     (forall t' c j, (t' < N)%nat -> (c < nx)%nat -> val (snd st) (ix o t' c) j =
      if (t' <? t)%nat then match zq t' j with Some a => jac t' c a | None => val M (ix o t' c) j end else val M (ix o t' c) j))
    N (fun t st =>
    let '(nnz, M) := st in
    let jac := old_ad_jac o (ode_default o) var t in
    let nnz := if (P <? nnz)%nat then 1%nat else nnz in
    obind (oloop nx (fun j M => copy_n M nx (fun m => (- t_scale o) * jac m j) (outer M (t * nx + j) + nnz)) M) (fun M =>
    obind (oloop nu (fun j M => copy_n M nx (fun m => (- t_scale o) * jac m (nx + j)%nat) (outer M (t * nu + vx + j))) M) (fun M =>
    Some (S nnz, M)))) (O, M)) as ([nnz M1] & E1 & _ & S1 & Ok1 & V1).
  - split; [reflexivity|]. split; [apply same_refl|]. split; auto.
  - intros t [nnz M1] Ht (Hn & S1 & Ok1 & V1). cbn [fst snd] in *.
    destruct (node_upd HP M1 t (jac t) Ok1 Ht) as (M2 & E2 & S2 & Ok2 & V2).
    exists (S (off npf t), M2). rewrite Hn. pose proof (off_next npf HP t) as EO. change (PO npf) with P in EO. rewrite EO. cbn [fst snd]. split.
    + cbv zeta. unfold jac in E2.
      destruct (oloop nx _ M1) as [A|]; cbn [obind] in E2 |- *; [|discriminate]. rewrite E2. reflexivity.
    + split; [reflexivity|]. split; [eapply same_trans; eauto|]. split; auto.
      intros t' c j Ht' Hc. rewrite V2, V1 by auto. destruct (Nat.eqb_spec t t') as [<-|Hne].
      * rewrite Nat.ltb_irrefl. rewrite (proj2 (Nat.ltb_lt t (S t))) by lia. reflexivity.
      * destruct (Nat.ltb_spec t' t), (Nat.ltb_spec t' (S t)); auto; lia.
  - match goal with |- exists M, obind ?X _ = _ /\ _ => replace X with (Some (nnz, M1)) by (symmetry; exact E1) end. cbn [obind snd] in *. pose proof Ok1 as (Hr & Hc & Hp & Hs & Hv).
    destruct (add_diag_ok vx M1 (fun i => if old_diff_pat o i i then old_diff_val o i i else 0)) as (M2 & E2 & S2 & V2).
    { rewrite Hr; lia. } { rewrite Hc. unfold VAR; lia. }
    { intros i Hi. rewrite Hp by (unfold VAR; lia). destruct (index_split nx N i Hi) as (t & c & -> & Ht & Hcc).
      apply inz_epat; auto. unfold inz. change (t * nx + c)%nat with (ix o t c). rewrite zq_x by auto. rewrite Nat.eqb_refl. auto. }
    exists M2. split; [exact E2|]. split.
    + apply (ook_same M1); auto. intros t c k Ht Hk Hcc Hne. rewrite V2 by (rewrite Hr; apply xcol_lt; auto).
      rewrite (proj2 (Nat.eqb_neq _ _)); [reflexivity|]. intro H. apply Hne. unfold ix in H. nia.
    + intros t c j a Ht Hcc Hj Hz. pose proof (xcol_lt o t c Ht Hcc) as HI. rewrite V2 by (rewrite Hr; auto).
      rewrite (proj2 (Nat.ltb_lt _ vx)) by auto. rewrite andb_true_r. rewrite V1 by auto.
      rewrite (proj2 (Nat.ltb_lt t N)) by auto. rewrite Hz. rewrite (Nat.eqb_sym j). unfold jac.
      rewrite ad_jac_default by (eapply zq_lt; eauto).
      destruct (ix o t c =? j)%nat; [|ring].
      rewrite dpat_x by auto. rewrite !Nat.eqb_refl. cbn [andb]. unfold old_diff_val. rewrite ixdiv by auto.
      cbn [sadd R_scalar]. destruct (old_node_pat o t t) eqn:E; [reflexivity|]. rewrite (npat_drop _ _ E). reflexivity.
Qed.

(** * number of stored entries *)
Definition dropped (t : nat) : nat := if old_node_pat o t t then 0%nat else 1%nat.

Lemma diff_block : chebyshev_ocp o -> forall t k m, (t < N)%nat -> (k < N)%nat -> (m < nx)%nat ->
  cnt (fun c => old_diff_pat o (t * nx + c)%nat (ix o k m)) nx = if (if (t =? k)%nat then old_node_pat o t t else dsg t k) then 1%nat else 0%nat.
Proof.
  intros Hch t k m Ht Hk Hm.
  rewrite (cnt_ext _ (fun c => (c =? m)%nat && (if (t =? k)%nat then old_node_pat o t t else dsg t k))).
  2:{ intros c Hc. change (t * nx + c)%nat with (ix o t c). apply dpat_x; auto. }
  destruct (if (t =? k)%nat then old_node_pat o t t else dsg t k).
  - rewrite (cnt_interval _ m (S m) nx); [lia|lia|lia|]. intros i Hi. rewrite andb_true_r.
    destruct (Nat.eqb_spec i m); [rewrite in_seg_true by lia|rewrite in_seg_false by lia]; auto.
  - apply cnt_none. intros. apply andb_false_r.
Qed.

Lemma est_x : chebyshev_ocp o -> forall k m, (k < N)%nat -> (m < nx)%nat ->
  (old_est o (ix o k m) + dropped k = cnt (fun i => epat i (ix o k m)) vx)%nat.
Proof.
  intros Hch k m Hk Hm. unfold old_est. rewrite (proj2 (Nat.ltb_lt _ _)) by (apply xcol_lt; auto).
  rewrite !(vx_split o k) by auto. rewrite !cnt_add.
  assert (Q : forall a n, (a + n <= N)%nat -> (forall t, (a <= t < a + n)%nat -> t <> k) ->
    cnt (fun i => old_diff_pat o (a * nx + i)%nat (ix o k m)) (n * nx) = cnt (fun i => epat (a * nx + i)%nat (ix o k m)) (n * nx)).
  { intros a n Ha Hne. rewrite !cnt_blocks. apply nsum_ext. intros t Ht.
    rewrite (cnt_ext _ (fun c => old_diff_pat o ((a + t) * nx + c)%nat (ix o k m))) by (intros; f_equal; lia).
    rewrite diff_block by (auto; lia).
    rewrite (cnt_ext _ (fun c => epat ((a + t) * nx + c)%nat (ix o k m))) by (intros; f_equal; lia).
    pose proof (eqpat_block npf (a + t) k m Hm Hk) as EB. change (NX npf) with nx in EB. change (ix npf k m) with (ix o k m) in EB. rewrite EB.
    destruct (Nat.eqb_spec (a + t) k); [exfalso; apply (Hne (a + t)%nat); auto; lia|]. reflexivity. }
  pose proof (Q 0%nat k ltac:(lia) ltac:(lia)) as Q1. cbn [Nat.mul Nat.add] in Q1.
  rewrite (cnt_ext (fun i => old_diff_pat o i (ix o k m)) (fun i => old_diff_pat o (0 * nx + i)%nat (ix o k m))) by auto.
  cbn [Nat.mul Nat.add]. rewrite Q1.
  pose proof (Q (S k) (N - S k)%nat ltac:(lia) ltac:(lia)) as Q2.
  rewrite (cnt_ext (fun i => old_diff_pat o (k * nx + (nx + i))%nat (ix o k m)) (fun i => old_diff_pat o (S k * nx + i)%nat (ix o k m))) by (intros; f_equal; lia).
  rewrite (cnt_ext (fun i => epat (k * nx + (nx + i))%nat (ix o k m)) (fun i => epat (S k * nx + i)%nat (ix o k m))) by (intros; f_equal; lia).
  rewrite Q2. rewrite diff_block by auto. pose proof (eqpat_block npf k k m Hm Hk) as EB. change (NX npf) with nx in EB. change (ix npf k m) with (ix o k m) in EB. rewrite EB.
  rewrite !Nat.eqb_refl. unfold dropped. destruct (old_node_pat o k k); lia.
Qed.

Lemma est_u : forall k m, (k < N)%nat -> (m < nu)%nat -> old_est o (iu o k m) = cnt (fun i => epat i (iu o k m)) vx.
Proof.
  intros k m Hk Hm. pose proof (iu_range o k m Hk Hm). unfold old_est. rewrite (proj2 (Nat.ltb_ge _ vx)) by lia.
  rewrite (proj2 (Nat.ltb_lt _ (vx + vu))) by lia. symmetry. exact (col_u npf k m Hk Hm).
Qed.
Lemma est_p : forall m, (m < np)%nat -> old_est o (ip o m) = cnt (fun i => epat i (ip o m)) vx.
Proof.
  intros m Hm. pose proof (ip_range o m Hm). unfold old_est. rewrite (proj2 (Nat.ltb_ge _ vx)) by lia.
  rewrite (proj2 (Nat.ltb_ge _ (vx + vu))) by lia. symmetry. apply cnt_none. intros i Hi.
  destruct (index_split nx N i Hi) as (t & c & -> & Ht & Hc). apply epat_p; auto.
Qed.

Lemma ook_nonzeros : forall M, ook M -> nonzeros M = nsum (VAR o) (fun j => cnt (fun i => epat i j) vx).
Proof.
  intros M (Hr & Hc & Hp & _). unfold nonzeros. rewrite Hc. apply nsum_ext. intros j Hj. unfold ncol. rewrite Hr.
  apply cnt_ext. intros. apply Hp; auto.
Qed.

Lemma est_full : chebyshev_ocp o -> (forall t, (t < N)%nat -> old_node_pat o t t = true) -> forall M, ook M ->
  nonzeros M = nsum (VAR o) (old_est o).
Proof.
  intros Hch Hd M Hok. rewrite ook_nonzeros by auto. apply nsum_ext. intros j Hj.
  destruct (var_cases o j Hj) as [(k & m & -> & Hk & Hm)|[(k & m & -> & Hk & Hm)|(m & -> & Hm)]].
  - rewrite <- est_x by auto. unfold dropped. rewrite Hd by auto. lia.
  - rewrite est_u; auto.
  - rewrite est_p; auto.
Qed.

Lemma est_short : chebyshev_ocp o -> forall t, (t < N)%nat -> old_node_pat o t t = false -> forall M, ook M ->
  (nsum (VAR o) (old_est o) < nonzeros M)%nat.
Proof.
  intros Hch t Ht Hd M Hok. pose proof Hch as (_ & _ & HX & _). rewrite ook_nonzeros by auto. apply (nsum_lt _ _ _ (ix o t 0)).
  - pose proof (xcol_lt o t 0 Ht ltac:(lia)). unfold VAR. lia.
  - intros j Hj. destruct (var_cases o j Hj) as [(k & m & -> & Hk & Hm)|[(k & m & -> & Hk & Hm)|(m & -> & Hm)]].
    + rewrite <- est_x by auto. lia.
    + rewrite est_u; auto.
    + rewrite est_p; auto.
  - rewrite <- est_x by (auto; lia). unfold dropped. rewrite Hd. lia.
Qed.

Lemma nsum_zero : forall n, nsum n (fun _ => 0%nat) = 0%nat.
Proof. induction n as [|n IH]; [reflexivity|]. cbn [nsum]. lia. Qed.

Lemma old_empty_nonzeros : chebyshev_ocp o -> (nonzeros (sp_empty vx (VAR o) : spmat R) =? nsum (VAR o) (old_est o))%nat = false.
Proof.
  intros Hch. pose proof Hch as (HP & HS & HX & _). apply Nat.eqb_neq.
  assert (E : nonzeros (sp_empty vx (VAR o) : spmat R) = 0%nat).
  { unfold nonzeros. cbn [sp_c sp_empty]. rewrite <- (nsum_zero (VAR o)). apply nsum_ext.
    intros j Hj. unfold ncol. cbn. apply cnt_none. auto. }
  rewrite E. assert (HN : (1 < N)%nat) by (unfold NUM_NODES; nia).
  pose proof (xcol_lt o 1 0 HN ltac:(lia)) as Hx. pose proof (xcol_lt o 0 0 ltac:(lia) ltac:(lia)) as Hx0.
  assert (HI : old_diff_pat o (ix o 0 0) (ix o 1 0) = true).
  { rewrite dpat_x by (auto; lia). rewrite Nat.eqb_refl. cbn [Nat.eqb andb]. unfold dseg, sgm. change (PO npf) with P. rewrite Nat.div_0_l by lia.
    cbn [Nat.min Nat.mul]. apply in_seg_true; lia. }
  pose proof (cnt_lt (fun i => old_diff_pat o i (ix o 1 0)) (ix o 0 0) vx Hx0 HI) as HC.
  pose proof (nsum_lt (VAR o) (fun _ => 0%nat) (old_est o) (ix o 1 0) ltac:(unfold VAR; lia) ltac:(intros; apply Nat.le_0_l)) as HL.
  rewrite nsum_zero in HL. assert (0 < old_est o (ix o 1 0))%nat; [|specialize (HL H); lia].
  unfold old_est. rewrite (proj2 (Nat.ltb_lt _ _)) by auto. lia.
Qed.

(** * sessions *)
Definition full_diag : Prop := forall t, (t < N)%nat -> old_node_pat o t t = true.

Lemma old_lin_ok : chebyshev_ocp o -> forall var M, M = sp_empty vx (VAR o) \/ (full_diag /\ ook M) ->
  exists M', old_lin_sparse o var M = Some M' /\ ook M' /\ ojac M' var.
Proof.
  intros Hch var M [->|[Hf Hok]]; unfold old_lin_sparse.
  - rewrite old_empty_nonzeros by auto. apply old_asm_ok; auto.
  - rewrite (proj2 (Nat.eqb_eq _ _)) by (apply est_full; auto). apply old_upd_ok; auto.
Qed.

Lemma old_coeff : chebyshev_ocp o -> forall M var, ook M -> ojac M var ->
  forall i j, (i < vx)%nat -> (j < VAR o)%nat -> coeff M i j = old_jac o var i j.
Proof.
  intros Hch M var (Hr & Hc & Hp & Hs & Hv) HJ i j Hi Hj. pose proof Hch as (HP & HS & HX & _).
  destruct (index_split nx N i Hi) as (t & c & -> & Ht & Hcc). change (t * nx + c)%nat with (ix o t c) in *.
  unfold coeff. rewrite Hp by auto. change (@s0 R R_scalar) with 0. rewrite old_jac_eq.
  destruct (var_cases o j Hj) as [(k & m & -> & Hk & Hm)|[(k & m & -> & Hk & Hm)|(m & -> & Hm)]].
  - rewrite (proj2 (Nat.ltb_lt _ vx)) by (apply xcol_lt; auto). rewrite lin_loop_x, old_kron_eq by auto. rewrite epat_x by auto.
    rewrite (Nat.eqb_sym k). destruct (Nat.eqb_spec t k) as [<-|Ek]; cbn [orb].
    + rewrite (HJ t c (ix o t m) m); auto. 2:{ rewrite zq_x by auto. rewrite Nat.eqb_refl; auto. }
      replace (ix o t m =? ix o t c)%nat with (c =? m)%nat; [reflexivity|].
      unfold ix. destruct (Nat.eqb_spec c m) as [->|]; [rewrite Nat.eqb_refl; reflexivity|symmetry; apply Nat.eqb_neq; lia].
    + rewrite Rplus_0_l. destruct (Nat.eqb_spec c m) as [->|]; cbn [andb]; [|reflexivity].
      destruct (dsg t k) eqn:Es; [apply Hv; auto|]. symmetry. apply npat_drop. rewrite npat_off by auto. exact Es.
  - pose proof (iu_range o k m Hk Hm). rewrite (proj2 (Nat.ltb_ge _ vx)) by lia. rewrite lin_loop_u by auto.
    rewrite epat_u by auto. rewrite (Nat.eqb_sym k). destruct (Nat.eqb_spec t k) as [<-|]; [|reflexivity].
    rewrite (HJ t c (iu o t m) (nx + m)%nat); auto. 2:{ rewrite zq_u by auto. rewrite Nat.eqb_refl. auto. }
    pose proof (xcol_lt o t c Ht Hcc). rewrite (proj2 (Nat.eqb_neq _ _)) by lia. ring.
  - rewrite epat_p by auto. pose proof (ip_range o m Hm). rewrite (proj2 (Nat.ltb_ge _ vx)) by lia.
    unfold lin_loop. symmetry. rewrite (loop_skip _ _ (fun v : vec R * mat R => snd v (ix o t c) (ip o m))); [reflexivity|].
    intros n [v A] Hn. unfold lin_step. cbn [snd]. unfold mset.
    rewrite (xseg_out o n (ip o m)) by (auto; lia). rewrite (useg_out o n (ip o m)) by (auto; lia). rewrite !andb_false_r. reflexivity.
Qed.

Lemma old_run : chebyshev_ocp o -> full_diag -> forall pts M, M = sp_empty vx (VAR o) \/ ook M ->
  exists M', run (old_lin_sparse o) pts M = Some M' /\ (pts <> nil -> ook M' /\ forall x, ojac M' (last pts x)).
Proof.
  intros Hch Hf pts. induction pts as [|x pts IH]; intros M HM.
  - exists M. split; [reflexivity|]. congruence.
  - cbn [run]. destruct (old_lin_ok Hch x M) as (M1 & E1 & K1 & J1); [destruct HM; auto|]. rewrite E1.
    destruct (IH M1 (or_intror K1)) as (M2 & E2 & H2). exists M2. split; auto. intros _.
    destruct pts as [|y pts']; [cbn [run] in E2; inversion E2; subst; split; auto|].
    destruct (H2 ltac:(discriminate)) as [A B]. split; auto.
Qed.

(** the diagonal of the differentiation matrix *)
Lemma full_diag_one : (Sg <= 1)%nat -> full_diag.
Proof. intros H t Ht. unfold old_node_pat. rewrite (proj2 (Nat.ltb_lt _ _)) by lia. reflexivity. Qed.

Lemma old_diag : chebyshev_ocp o -> forall s l, (s < Sg)%nat -> (l <= P)%nat -> (l < P \/ s = Sg - 1)%nat ->
  old_DM o (s * P + l)%nat (s * P + l)%nat = cheb_D P l l.
Proof.
  intros (HP & HS & HX & HD & _) s l Hs Hl Hd. rewrite old_DM_eq; auto; [|apply node_lt; auto].
  unfold dmat. rewrite in_seg_true by lia. replace (s * P + l - s * P)%nat with l by lia. apply HD; auto.
Qed.

Lemma full_diag_odd : chebyshev_ocp o -> (forall l, (l <= P)%nat -> cheb_D P l l <> 0) -> full_diag.
Proof.
  intros Hch Hnz t Ht. pose proof Hch as (HP & HS & _). destruct (node_decomp o t HP HS Ht) as (s & l & -> & Hs & Hl & Hd).
  destruct (old_node_pat o (s * P + l) (s * P + l)) eqn:E; auto. apply npat_drop in E. rewrite old_diag in E by auto.
  exfalso. apply (Hnz l); auto.
Qed.

Lemma zero_diag : chebyshev_ocp o -> (2 <= Sg)%nat -> forall l, (l < P)%nat -> cheb_D P l l = 0 -> old_node_pat o l l = false.
Proof.
  intros Hch HS l Hl E. unfold old_node_pat. rewrite (proj2 (Nat.ltb_ge _ _)) by lia.
  replace l with (0 * P + l)%nat by lia. rewrite old_diag by (auto; lia). rewrite E.
  cbn [sleb sabs s0 R_scalar]. unfold Rleb. rewrite Rabs_R0. destruct (Rle_dec 0 0); [reflexivity|lra].
Qed.

(** a dropped diagonal entry: the second linearisation assembles into a non-empty matrix *)
Lemma old_asm_again : chebyshev_ocp o -> forall var M, ook M -> old_asm o var M = None.
Proof.
  intros Hch var M (Hr & Hc & Hp & _). pose proof Hch as (HP & HS & HX & _). unfold old_asm.
  assert (HN : (0 < N)%nat) by (unfold NUM_NODES; lia).
  assert (F : forall n, (0 < n)%nat -> forall (f : nat -> spmat R -> option (spmat R)) M0, f 0%nat M0 = None -> oloop n f M0 = None).
  { intros n Hn f M0 H0. induction n as [|n IH]; [lia|]. cbn [oloop]. destruct n as [|n]; [cbn [oloop]; exact H0|]. rewrite IH by lia. reflexivity. }
  rewrite (F N HN); [reflexivity|]. cbv zeta. apply F; [lia|].
  rewrite (F nx); [reflexivity|lia|]. unfold insert.
  change (pat (reserve M (old_est o)) (0 * nx + 0) (0 * nx + 0)) with (pat M (ix o 0 0) (ix o 0 0)).
  rewrite Hp by (pose proof (xcol_lt o 0 0 HN ltac:(lia)); unfold VAR; lia).
  rewrite epat_x by (auto; lia). cbn [Nat.eqb orb negb]. rewrite andb_false_r. reflexivity.
Qed.

Lemma old_second_fails : chebyshev_ocp o -> forall t, (t < N)%nat -> old_node_pat o t t = false -> forall x y,
  exists M, old_lin_sparse o x (sp_empty vx (VAR o)) = Some M /\ old_lin_sparse o y M = None.
Proof.
  intros Hch t Ht Hd x y. destruct (old_lin_ok Hch x _ (or_introl eq_refl)) as (M & E & K & J). exists M. split; auto.
  unfold old_lin_sparse. rewrite (proj2 (Nat.eqb_neq _ _)); [apply old_asm_again; auto|].
  pose proof (est_short Hch t Ht Hd M K). lia.
Qed.
End P.

(** diagonal entries: all non-zero for odd order, the middle one vanishes for even order *)
Lemma D_diag_odd : forall K l, Nat.Odd K -> (l <= K)%nat -> cheb_D K l l <> 0%R.
Proof.
  intros K l [q Hq] Hl. assert (HK : (1 <= K)%nat) by lia.
  destruct (Nat.eq_dec l 0) as [->|H0]; [pose proof (diag_first K HK); lra|].
  destruct (Nat.eq_dec l K) as [->|H1].
  { pose proof (diag_first K HK). pose proof (D_mirror K 0 0 HK ltac:(lia) ltac:(lia)) as E.
    replace (K - 0)%nat with K in E by lia. lra. }
  rewrite diag_interior by lia. pose proof (node_interior K l ltac:(lia)) as [A B].
  assert (Hx : cheb_nodes K l <> 0%R).
  { intro E. pose proof (nodes_symmetric K l HK Hl) as H. rewrite E, Ropp_0 in H.
    apply (nodes_distinct K HK (K - l) l); [lia|lia|lia|]. rewrite E. exact H. }
  assert (0 < 1 - cheb_nodes K l ^ 2)%R by nra.
  intro E. apply Hx. apply Ropp_eq_0_compat in E. apply (f_equal (fun z => z * (2 * (1 - cheb_nodes K l ^ 2)))%R) in E.
  replace (- (- cheb_nodes K l / (2 * (1 - cheb_nodes K l ^ 2))) * (2 * (1 - cheb_nodes K l ^ 2)))%R with (cheb_nodes K l) in E by (field; lra).
  lra.
Qed.
Lemma D_diag_even : forall m, (1 <= m)%nat -> cheb_D (2 * m) m m = 0%R.
Proof.
  intros m Hm. rewrite diag_interior by lia.
  assert (E : cheb_nodes (2 * m) m = 0%R).
  { pose proof (nodes_symmetric (2 * m) m ltac:(lia) ltac:(lia)) as H. replace (2 * m - m)%nat with m in H by lia. lra. }
  rewrite E. unfold Rdiv. rewrite Ropp_0. ring.
Qed.
