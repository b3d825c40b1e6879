(** Sparse inequality Jacobian and the stacked constraint Jacobian. *)
Require Import Arith ZArith List Bool Lia Reals Lra.
From Verif Require Import Scal RSum Blk Sparse Sparse_Proofs Ocp_Model Ocp_Spec Ocp_Proofs Ocp_Cost_Proofs Ocp_Sparse_Model Ocp_Sparse_Proofs.

Lemma nsum_zero : forall n, nsum n (fun _ => 0) = 0.
Proof. induction n; cbn [nsum]; lia. Qed.
Lemma nsum_pick : forall n k m, nsum n (fun q => if q =? k then m else 0) = if k <? n then m else 0.
Proof.
  induction n as [|n IH]; intros k m; [reflexivity|]. cbn [nsum]. rewrite IH.
  destruct (Nat.eqb_spec n k), (Nat.ltb_spec k n), (Nat.ltb_spec k (S n)); lia.
Qed.
Lemma nsum_const : forall n m, nsum n (fun _ => m) = n * m.
Proof. induction n; intros; cbn [nsum]; [reflexivity|]. rewrite IHn. lia. Qed.

Section P.
Variable o : ocp R.
Local Notation nx := (NX o).
Local Notation nu := (NU o).
Local Notation np := (NP o).
Local Notation ng := (NG o).
Local Notation P := (PO o).
Local Notation Sg := (SG o).
Local Notation N := (NUM_NODES o).
Local Notation vx := (VARX o).
Local Notation vu := (VARU o).

(** * block pattern with [m] rows per node *)
Definition npat (m i j : nat) : bool := inz o (i / m) j.

Lemma npat_node : forall m t c j, c < m -> npat m (t * m + c) j = inz o t j.
Proof. intros. unfold npat. rewrite Nat.div_add_l by lia. rewrite Nat.div_small by auto. rewrite Nat.add_0_r. auto. Qed.

Lemma npat_above : forall m t j, cnt (fun i => npat m i j) (t * m) = nsum t (fun k => if inz o k j then m else 0).
Proof.
  intros. rewrite cnt_blocks. apply nsum_ext. intros k Hk. destruct (inz o k j) eqn:E.
  - apply cnt_all. intros. rewrite npat_node; auto.
  - apply cnt_none. intros. rewrite npat_node; auto.
Qed.

Lemma inz_x : forall t k m, m < nx -> k < N -> inz o t (ix o k m) = (t =? k).
Proof. intros. unfold inz. rewrite zidx_x by auto. destruct (t =? k); auto. Qed.
Lemma inz_u : forall t k m, m < nu -> k < N -> t < N -> inz o t (iu o k m) = (t =? k).
Proof. intros. unfold inz. rewrite zidx_u by auto. destruct (t =? k); auto. Qed.
Lemma inz_p : forall t m, m < np -> t < N -> inz o t (ip o m) = true.
Proof. intros. unfold inz. rewrite zidx_p by auto. auto. Qed.

Lemma npat_x : forall m t k c, t <= N -> k < N -> c < nx -> cnt (fun i => npat m i (ix o k c)) (t * m) = if k <? t then m else 0.
Proof.
  intros m t k c Ht Hk Hc. rewrite npat_above. rewrite <- nsum_pick. apply nsum_ext. intros q Hq. rewrite inz_x by auto. auto.
Qed.
Lemma npat_u : forall m t k c, t <= N -> k < N -> c < nu -> cnt (fun i => npat m i (iu o k c)) (t * m) = if k <? t then m else 0.
Proof.
  intros m t k c Ht Hk Hc. rewrite npat_above. rewrite <- nsum_pick. apply nsum_ext. intros q Hq. rewrite inz_u by (auto; lia). auto.
Qed.
Lemma npat_p : forall m t c, t <= N -> c < np -> cnt (fun i => npat m i (ip o c)) (t * m) = t * m.
Proof.
  intros m t c Ht Hc. rewrite npat_above. rewrite <- nsum_const. apply nsum_ext. intros q Hq. rewrite inz_p by (auto; lia). auto.
Qed.

Lemma ineq_count : forall j, j < VAR o -> cnt (fun i => npat ng i j) (NUM_INEQ o) = ineq_est o j.
Proof.
  intros j Hj. unfold NUM_INEQ. rewrite Nat.mul_comm. unfold ineq_est.
  destruct (var_cases o j Hj) as [(k & m & -> & Hk & Hm)|[(k & m & -> & Hk & Hm)|(m & -> & Hm)]].
  - rewrite npat_x by auto. rewrite (proj2 (Nat.ltb_lt _ _)) by auto. pose proof (xcol_lt o k m Hk Hm). rewrite (proj2 (Nat.ltb_lt _ _)) by lia. auto.
  - rewrite npat_u by auto. rewrite (proj2 (Nat.ltb_lt _ _)) by auto. pose proof (iu_range o k m Hk Hm). rewrite (proj2 (Nat.ltb_lt _ _)) by lia. auto.
  - rewrite npat_p by auto. pose proof (ip_range o m Hm). rewrite (proj2 (Nat.ltb_ge _ _)) by lia. unfold NUM_INEQ. lia.
Qed.

Local Open Scope R_scope.
Definition ineq_ok (M : spmat R) : Prop :=
  sp_r M = NUM_INEQ o /\ sp_c M = VAR o /\
  (forall i j, (i < NUM_INEQ o)%nat -> (j < VAR o)%nat -> pat M i j = npat ng i j) /\
  (forall j, (j < VAR o)%nat -> slack M j = 0%nat).
Definition ineq_jac (M : spmat R) (var : vec R) : Prop :=
  forall t c j q, (t < N)%nat -> (c < ng)%nat -> (j < VAR o)%nat -> zidx o t j = Some q ->
    val M (t * ng + c)%nat j = at_node o (o_ine_jac o) var t c q.

Lemma ineq_nonzeros : forall M, ineq_ok M -> nonzeros M = nsum (VAR o) (ineq_est o).
Proof.
  intros M (Hr & Hc & Hp & _). unfold nonzeros. rewrite Hc. apply nsum_ext. intros j Hj. unfold ncol. rewrite Hr.
  rewrite <- ineq_count by auto. apply cnt_ext. intros. apply Hp; auto.
Qed.

Lemma ineq_asm_ok : forall var, exists M, ineq_asm o var (sp_empty (NUM_INEQ o) (VAR o)) = Some M /\ ineq_ok M /\ ineq_jac M var.
Proof.
  intros var.
  destruct (node_asm o ng (fun t c q => at_node o (o_ine_jac o) var t c q)
    (reserve (sp_empty (NUM_INEQ o) (VAR o)) (ineq_est o)) (npat ng) (ineq_est o)) as (M1 & E1 & (L1 & L2 & L3) & R1 & C1 & P1 & V1).
  { apply lay_reserve. intros. rewrite ineq_count by auto. lia. }
  { reflexivity. } { reflexivity. } { reflexivity. }
  { intros. rewrite npat_node; auto. }
  cbn [sp_r sp_c reserve sp_empty] in R1, C1.
  exists M1. split; [exact E1|].
  assert (Pat : forall i j, (i < NUM_INEQ o)%nat -> (j < VAR o)%nat -> pat M1 i j = npat ng i j).
  { intros i j Hi Hj. destruct (index_split ng N i Hi) as (t & c & -> & Ht & Hc). rewrite P1, npat_node by auto. auto. }
  split; [split; [exact R1|split; [exact C1|split; [exact Pat|]]]|].
  - intros j Hj. pose proof (L1 j ltac:(rewrite C1; auto)) as H. unfold ncol in H. rewrite R1 in H.
    rewrite (cnt_ext _ (fun i => npat ng i j)) in H by (intros; apply Pat; auto). rewrite ineq_count in H by auto. lia.
  - intros t c j q Ht Hc Hj Hz. apply V1; auto.
Qed.

Lemma ineq_outer_x : forall M t j, ineq_ok M -> (t < N)%nat -> (j <= nx)%nat -> outer M (t * nx + j) = (outer M (t * nx) + j * ng)%nat.
Proof.
  intros M t j (Hr & Hc & Hp & Hs) Ht. induction j as [|j IH]; intro Hj; [rewrite Nat.add_0_r; lia|].
  pose proof (xcol_lt o t j Ht ltac:(lia)). change (ix o t j) with (t * nx + j)%nat in H.
  rewrite Nat.add_succ_r, outer_S, IH by lia. rewrite Hs by (unfold VAR; lia). unfold ncol. rewrite Hr.
  rewrite (cnt_ext _ (fun i => npat ng i (ix o t j))).
  2:{ intros. apply Hp; auto. unfold VAR, ix. lia. }
  unfold NUM_INEQ. rewrite (Nat.mul_comm ng N), npat_x by (auto; lia). rewrite (proj2 (Nat.ltb_lt _ _)) by auto. lia.
Qed.
Lemma ineq_outer_u : forall M t j, ineq_ok M -> (t < N)%nat -> (j <= nu)%nat -> outer M (t * nu + vx + j) = (outer M (t * nu + vx) + j * ng)%nat.
Proof.
  intros M t j (Hr & Hc & Hp & Hs) Ht. induction j as [|j IH]; intro Hj; [rewrite Nat.add_0_r; lia|].
  assert (Hj' : (t * nu + vx + j = iu o t j)%nat) by (unfold iu, VARX, NUM_NODES; lia).
  pose proof (iu_range o t j Ht ltac:(lia)).
  rewrite Nat.add_succ_r, outer_S, IH by lia. rewrite Hs by (unfold VAR; lia). unfold ncol. rewrite Hr.
  rewrite (cnt_ext _ (fun i => npat ng i (iu o t j))).
  2:{ intros. rewrite Hj'. apply Hp; auto. unfold VAR. lia. }
  unfold NUM_INEQ. rewrite (Nat.mul_comm ng N), npat_u by (auto; lia). rewrite (proj2 (Nat.ltb_lt _ _)) by auto. lia.
Qed.

Lemma ineq_ok_same : forall M M', ineq_ok M -> same M M' -> ineq_ok M'.
Proof.
  intros M M' (Hr & Hc & Hp & Hs) (a & b & c & d). split; [congruence|]. split; [congruence|]. split.
  - intros. rewrite c. auto.
  - intros. rewrite d. auto.
Qed.

(** contiguous run over several columns of equal height *)
Lemma flat_copy : forall nr nc (B : nat -> nat -> R) (M : spmat R) r c a,
  (r + nr <= sp_r M)%nat -> (c + nc <= sp_c M)%nat ->
  (forall i j, (i < nr)%nat -> (j < nc)%nat -> pat M (r + i)%nat (c + j)%nat = true) ->
  (forall j, (j < nc)%nat -> pos M r (c + j) = (a + j * nr)%nat) ->
  exists M', copy_n M (nr * nc) (fun q => B (q mod nr)%nat (q / nr)%nat) a = Some M' /\ same M M' /\
   (forall i' j', (i' < sp_r M)%nat -> val M' i' j' =
      if in_seg r nr i' && in_seg c nc j' then B (i' - r)%nat (j' - c)%nat else val M i' j').
Proof.
  intros nr nc B M r c a Hr Hc Hp Ha.
  destruct (block_upd nr nc (fun i j _ => B i j) M r c (fun j _ => a + j * nr)%nat) as (M2 & E2 & S2 & V2); auto.
  { intros. rewrite Ha by auto. reflexivity. }
  exists M2. split; [|auto]. unfold copy_n. rewrite (Nat.mul_comm nr nc). rewrite oloop_flat. rewrite <- E2. apply oloop_ext. intros j s Hj.
  cbv zeta. apply oloop_ext. intros i s' Hi.
  replace ((j * nr + i) mod nr)%nat with i by (rewrite Nat.add_comm, Nat.mod_add by lia; symmetry; apply Nat.mod_small; auto).
  replace ((j * nr + i) / nr)%nat with j by (rewrite Nat.div_add_l by lia; rewrite Nat.div_small by auto; lia).
  f_equal. lia.
Qed.

Lemma copy_n_ext : forall (M : spmat R) n f g a, (forall q, (q < n)%nat -> f q = g q) -> copy_n M n f a = copy_n M n g a.
Proof. intros. unfold copy_n. apply oloop_ext. intros. rewrite H; auto. Qed.

Lemma ineq_node_upd : (1 <= nx)%nat -> ng = nx -> forall M t (J : mat R), ineq_ok M -> (t < N)%nat ->
  exists M', obind (copy_n M (ng * nx) (fun q => J (q mod nx)%nat (q / nx)%nat) (outer M (t * nx))) (fun M =>
    obind (copy_n M (ng * nu) (fun q => J (q mod nx)%nat (nx + q / nx)%nat) (outer M (t * nu + vx))) (fun M =>
    oloop np (fun j M => copy_n M ng (fun i => J i (nx + nu + j)%nat) (outer M (vx + vu + j) + t * ng)) M)) = Some M' /\
   same M M' /\ ineq_ok M' /\
   (forall t' c j, (t' < N)%nat -> (c < ng)%nat -> val M' (t' * ng + c)%nat j =
      if (t =? t')%nat then match zidx o t' j with Some q => J c q | None => val M (t' * ng + c)%nat j end else val M (t' * ng + c)%nat j).
Proof.
  intros HX Hg M t J Hok Ht. pose proof Hok as (Hr & Hc & Hp & Hs).
  assert (HxV : (t * nx + nx <= vx)%nat) by (unfold VARX; nia).
  assert (HuV : (t * nu + vx + nu <= vx + vu)%nat) by (unfold VARU; nia).
  assert (HgV : (t * ng + ng <= NUM_INEQ o)%nat) by (unfold NUM_INEQ; nia).
  assert (Row : forall j, (j < VAR o)%nat -> inz o t j = true -> forall i, (i < ng)%nat -> npat ng (t * ng + i) j = true)
    by (intros; rewrite npat_node; auto).
  destruct (flat_copy ng nx (fun i j => J i j) M (t * ng) (t * nx) (outer M (t * nx))) as (M1 & E1 & S1 & V1).
  { rewrite Hr. auto. } { rewrite Hc. unfold VAR. lia. }
  { intros i j Hi Hj. rewrite Hp by (try unfold VAR; lia). apply Row; auto; [unfold VAR; lia|]. change (t * nx + j)%nat with (ix o t j). rewrite inz_x by auto. apply Nat.eqb_refl. }
  { intros j Hj. unfold pos. rewrite ineq_outer_x by (auto; lia).
    rewrite (cnt_ext _ (fun i => npat ng i (ix o t j))); [rewrite npat_x by (auto; lia); rewrite Nat.ltb_irrefl; lia|].
    intros i Hi. apply Hp; [lia|]. pose proof (xcol_lt o t j Ht Hj). unfold VAR. lia. }
  rewrite (copy_n_ext M (ng * nx) _ (fun q => J (q mod ng)%nat (q / ng)%nat)) by (intros; rewrite Hg; reflexivity).
  rewrite E1. cbn [obind]. pose proof (ineq_ok_same _ _ Hok S1) as Ok1. pose proof Ok1 as (Hr1 & Hc1 & Hp1 & Hs1).
  destruct (flat_copy ng nu (fun i j => J i (nx + j)%nat) M1 (t * ng) (t * nu + vx) (outer M1 (t * nu + vx))) as (M2 & E2 & S2 & V2).
  { rewrite Hr1. auto. } { rewrite Hc1. unfold VAR. lia. }
  { intros i j Hi Hj. rewrite Hp1 by (try unfold VAR; lia). apply Row; auto; [unfold VAR; lia|].
    replace (t * nu + vx + j)%nat with (iu o t j) by (unfold iu, VARX, NUM_NODES; lia). rewrite inz_u by auto. apply Nat.eqb_refl. }
  { intros j Hj. unfold pos. rewrite ineq_outer_u by (auto; lia).
    rewrite (cnt_ext _ (fun i => npat ng i (iu o t j))); [rewrite npat_u by (auto; lia); rewrite Nat.ltb_irrefl; lia|].
    intros i Hi. replace (t * nu + vx + j)%nat with (iu o t j) by (unfold iu, VARX, NUM_NODES; lia).
    apply Hp1; [lia|]. pose proof (iu_range o t j Ht Hj). unfold VAR. lia. }
  rewrite (copy_n_ext M1 (ng * nu) _ (fun q => J (q mod ng)%nat (nx + q / ng)%nat)) by (intros; rewrite Hg; reflexivity).
  rewrite E2. cbn [obind]. pose proof (ineq_ok_same _ _ Ok1 S2) as Ok2. pose proof Ok2 as (Hr2 & Hc2 & Hp2 & Hs2).
  destruct (block_upd ng np (fun i j _ => J i (nx + nu + j)%nat) M2 (t * ng) (vx + vu) (fun j M => outer M (vx + vu + j) + t * ng)%nat) as (M3 & E3 & S3 & V3).
  { rewrite Hr2. auto. } { rewrite Hc2. unfold VAR. lia. }
  { intros i j Hi Hj. rewrite Hp2 by (try unfold VAR; lia). apply Row; auto; [unfold VAR; lia|].
    change (vx + vu + j)%nat with (ip o j). rewrite inz_p by auto. auto. }
  { intros j M' Hj _ HS. rewrite (same_outer M2 M') by auto. unfold pos. f_equal.
    rewrite (cnt_ext _ (fun i => npat ng i (ip o j))); [rewrite npat_p; auto; lia|].
    intros i Hi. apply Hp2; [lia|apply ip_range; auto]. }
  exists M3. split; [exact E3|].
  split; [eapply same_trans; [|eauto]; eapply same_trans; eauto|]. split; [eapply ineq_ok_same; eauto|].
  intros t' c j Ht' Hcc. assert (HI : (t' * ng + c < NUM_INEQ o)%nat) by (apply node_bound; auto).
  rewrite V3 by (rewrite Hr2; auto). rewrite V2 by (rewrite Hr1; auto). rewrite V1 by (rewrite Hr; auto).
  rewrite !node_in_seg by auto. destruct (Nat.eqb_spec t t') as [<-|]; cbn [andb]; [|reflexivity].
  replace (t * ng + c - t * ng)%nat with c by lia. unfold zidx.
  destruct (in_seg (t * nx) nx j) eqn:A.
  - apply in_seg_spec in A. rewrite (in_seg_false (t * nu + vx)), (in_seg_false (vx + vu)) by lia. reflexivity.
  - destruct (in_seg (t * nu + vx) nu j) eqn:B.
    + apply in_seg_spec in B. rewrite (in_seg_false (vx + vu)) by lia. reflexivity.
    + destruct (in_seg (vx + vu) np j) eqn:C; reflexivity.
Qed.

Lemma ineq_upd_ok : (1 <= nx)%nat -> ng = nx -> forall junk var M, ineq_ok M ->
  exists M', ineq_upd o junk var M = Some M' /\ ineq_ok M' /\ ineq_jac M' var.
Proof.
  intros HX Hg junk var M Hok. unfold ineq_upd. rewrite (proj2 (Nat.leb_le ng nx)) by lia.
  set (jac := fun k r c => if (r <? ng)%nat then at_node o (o_ine_jac o) var k r c else junk k r c).
  destruct (oloop_inv _ (fun t M' => same M M' /\ ineq_ok M' /\
     (forall t' c j, (t' < N)%nat -> (c < ng)%nat -> val M' (t' * ng + c)%nat j =
      if (t' <? t)%nat then match zidx o t' j with Some q => jac t' c q | None => val M (t' * ng + c)%nat j end else val M (t' * ng + c)%nat j))
    N (fun k M =>
    let jac := fun r c => if (r <? ng)%nat then at_node o (o_ine_jac o) var k r c else junk k r c in
    obind (copy_n M (ng * nx) (fun q => jac (q mod nx)%nat (q / nx)%nat) (outer M (k * nx))) (fun M =>
    obind (copy_n M (ng * nu) (fun q => jac (q mod nx)%nat (nx + q / nx)%nat) (outer M (k * nu + vx))) (fun M =>
    oloop np (fun j M => copy_n M ng (fun i => jac i (nx + nu + j)%nat) (outer M (vx + vu + j) + k * ng)) M))) M)
    as (M1 & E1 & S1 & Ok1 & V1).
  - split; [apply same_refl|]. split; auto.
  - intros t M1 Ht (S1 & Ok1 & V1).
    destruct (ineq_node_upd HX Hg M1 t (jac t) Ok1 Ht) as (M2 & E2 & S2 & Ok2 & V2).
    exists M2. split; [exact E2|]. split; [eapply same_trans; eauto|]. split; auto.
    intros t' c j Ht' Hc. rewrite V2, V1 by auto. destruct (Nat.eqb_spec t t') as [<-|Hne].
    + rewrite Nat.ltb_irrefl. rewrite (proj2 (Nat.ltb_lt t (S t))) by lia. reflexivity.
    + destruct (Nat.ltb_spec t' t), (Nat.ltb_spec t' (S t)); auto; lia.
  - exists M1. split; [exact E1|]. split; auto. intros t c j q Ht Hc Hj Hz. rewrite V1 by auto.
    rewrite (proj2 (Nat.ltb_lt t N)) by auto. rewrite Hz. unfold jac. rewrite (proj2 (Nat.ltb_lt c ng)) by auto. reflexivity.
Qed.

Lemma empty_nonzeros : forall r c, nonzeros (sp_empty r c : spmat R) = 0%nat.
Proof.
  intros. unfold nonzeros. cbn [sp_c sp_empty]. rewrite (nsum_ext c _ (fun _ => 0%nat)); [apply nsum_zero|].
  intros j Hj. unfold ncol. cbn. apply cnt_none. auto.
Qed.

Lemma ineq_lin_ok : (1 <= nx)%nat -> forall junk var M,
  M = sp_empty (NUM_INEQ o) (VAR o) \/ (ineq_ok M /\ (ng = nx \/ ng = 0)%nat) ->
  exists M', ineq_lin_sparse o junk var M = Some M' /\ ineq_ok M' /\ ineq_jac M' var.
Proof.
  intros HX junk var M HM. unfold ineq_lin_sparse. destruct (Nat.eqb_spec ng 0) as [H0|H0].
  - exists M. split; auto. split; [|intros t c; lia]. destruct HM as [->|[HM _]]; auto.
    split; [reflexivity|]. split; [reflexivity|]. split; [|reflexivity]. unfold NUM_INEQ. rewrite H0. intros; lia.
  - destruct HM as [->|[HM [Hg|Hg]]]; [| |lia].
    + rewrite empty_nonzeros. rewrite (proj2 (Nat.eqb_neq 0 _)); [apply ineq_asm_ok|].
      assert (H1 : (1 <= VAR o)%nat) by (unfold VAR, VARX, NUM_NODES; nia).
      pose proof (nsum_mono (ineq_est o) 1 (VAR o) H1). cbn [nsum] in H. unfold ineq_est in H at 1.
      assert (0 < vx)%nat by (unfold VARX, NUM_NODES; nia). rewrite (proj2 (Nat.ltb_lt _ _)) in H by lia. lia.
    + rewrite (proj2 (Nat.eqb_eq _ _)) by (apply ineq_nonzeros; auto). apply ineq_upd_ok; auto.
Qed.

Lemma ineq_coeff : forall M var, ineq_ok M -> ineq_jac M var ->
  forall i j, (i < NUM_INEQ o)%nat -> (j < VAR o)%nat -> coeff M i j = dense_ijac o var i j.
Proof.
  intros M var (Hr & Hc & Hp & Hs) HJ i j Hi Hj.
  destruct (index_split ng N i Hi) as (t & c & -> & Ht & Hcc).
  unfold coeff. rewrite Hp, npat_node by auto. change (@s0 R R_scalar) with 0.
  destruct (var_cases o j Hj) as [(k & m & -> & Hk & Hm)|[(k & m & -> & Hk & Hm)|(m & -> & Hm)]].
  - rewrite inz_x, ijac_x by auto. rewrite (Nat.eqb_sym k). destruct (Nat.eqb_spec t k) as [->|]; auto.
    apply HJ; auto. rewrite zidx_x by auto. rewrite Nat.eqb_refl; auto.
  - rewrite inz_u, ijac_u by auto. rewrite (Nat.eqb_sym k). destruct (Nat.eqb_spec t k) as [->|]; auto.
    apply HJ; auto. rewrite zidx_u by auto. rewrite Nat.eqb_refl; auto.
  - rewrite inz_p, ijac_p by auto. apply HJ; auto. rewrite zidx_p; auto.
Qed.

(** * stacking *)
Lemma block_insert_ok : forall (src D : spmat R) F est r0, lay D F est -> (r0 + sp_r src <= sp_r D)%nat -> sp_c src = sp_c D ->
  (forall i k, (i < sp_r src)%nat -> (k < sp_c src)%nat -> pat D (r0 + i)%nat k = false) ->
  (forall i k, (i < sp_r src)%nat -> (k < sp_c src)%nat -> pat src i k = true -> F (r0 + i)%nat k = true) ->
  exists D', block_insert_sparse D r0 src = Some D' /\ lay D' F est /\ sp_r D' = sp_r D /\ sp_c D' = sp_c D /\
   (forall i' j', pat D' i' j' = (in_seg r0 (sp_r src) i' && (j' <? sp_c src)%nat && pat src (i' - r0)%nat j') || pat D i' j') /\
   (forall i' j', val D' i' j' = if in_seg r0 (sp_r src) i' && (j' <? sp_c src)%nat && pat src (i' - r0)%nat j' then val src (i' - r0)%nat j' else val D i' j').
Proof.
  intros src D F est r0 HL Hr Hc Hf HF. unfold block_insert_sparse.
  pose (Inv := fun (d : nat -> nat -> bool) (D' : spmat R) => lay D' F est /\ sp_r D' = sp_r D /\ sp_c D' = sp_c D /\
   (forall i' j', pat D' i' j' = (d i' j' && pat src (i' - r0)%nat j') || pat D i' j') /\
   (forall i' j', val D' i' j' = if d i' j' && pat src (i' - r0)%nat j' then val src (i' - r0)%nat j' else val D i' j')).
  destruct (oloop_inv _ (fun k D' => Inv (fun i' j' => in_seg r0 (sp_r src) i' && (j' <? k)%nat) D') (sp_c src)
    (fun k D => oloop (sp_r src) (fun i D => if pat src i k then insert D (r0 + i) k (val src i k) else Some D) D) D) as (D' & E & I).
  - split; auto. split; auto. split; auto. split; intros; rewrite (proj2 (Nat.ltb_ge j' 0)), andb_false_r by lia; reflexivity.
  - intros k D0 Hk I0.
    destruct (oloop_inv _ (fun a D' => Inv (fun i' j' => (in_seg r0 (sp_r src) i' && (j' <? k)%nat) || (in_seg r0 a i' && (j' =? k)%nat)) D') (sp_r src)
     (fun i D => if pat src i k then insert D (r0 + i) k (val src i k) else Some D) D0) as (D' & E & I).
    + destruct I0 as (L0 & R0 & C0 & P0 & V0). split; auto. split; auto. split; auto.
      split; intros; rewrite (in_seg_false r0 0) by lia; cbn [andb]; rewrite orb_false_r; auto.
    + intros a D1 Ha (L1 & R1 & C1 & P1 & V1).
      assert (Dd : forall i' j', (in_seg r0 (sp_r src) i' && (j' <? k)%nat || in_seg r0 (S a) i' && (j' =? k)%nat) =
         ((i' =? r0 + a)%nat && (j' =? k)%nat) || (in_seg r0 (sp_r src) i' && (j' <? k)%nat || in_seg r0 a i' && (j' =? k)%nat)).
      { intros i' j'. destruct (Nat.eqb_spec j' k) as [->|]; rewrite ?andb_false_r, ?andb_true_r, ?orb_false_r; cbn [orb]; auto.
        rewrite Nat.ltb_irrefl, andb_false_r. cbn [orb].
        destruct (Nat.eqb_spec i' (r0 + a)) as [->|Hn]; cbn [orb].
        - apply in_seg_true; lia.
        - destruct (in_seg r0 a i') eqn:A; [apply in_seg_spec in A; apply in_seg_true; lia|].
          destruct (in_seg r0 (S a) i') eqn:B; auto. apply in_seg_spec in B. rewrite in_seg_true in A by lia. discriminate. }
      destruct (pat src a k) eqn:Ep.
      * destruct (insert_ok D1 F est (r0 + a) k (val src a k) L1) as (D2 & E2 & L2 & R2 & C2 & P2 & V2); try (rewrite ?R1, ?C1, <- ?Hc; lia).
        { rewrite P1, Hf by auto. rewrite orb_false_r.
          rewrite (in_seg_false r0 a) by lia. rewrite Nat.ltb_irrefl, andb_false_r. reflexivity. }
        { apply HF; auto. }
        exists D2. split; auto. split; auto. split; [congruence|]. split; [congruence|]. split.
        -- intros i' j'. rewrite P2, P1, Dd. destruct (Nat.eqb_spec i' (r0 + a)) as [->|]; cbn [andb orb]; auto.
           destruct (Nat.eqb_spec j' k) as [->|]; cbn [andb orb]; auto. replace (r0 + a - r0)%nat with a by lia. rewrite Ep. reflexivity.
        -- intros i' j'. rewrite V2, V1, Dd. destruct (Nat.eqb_spec i' (r0 + a)) as [->|]; cbn [andb orb]; auto.
           destruct (Nat.eqb_spec j' k) as [->|]; cbn [andb orb]; auto. replace (r0 + a - r0)%nat with a by lia. rewrite Ep. reflexivity.
      * exists D1. split; auto. split; auto. split; auto. split; auto.
        split; intros i' j'; rewrite ?P1, ?V1, Dd; (destruct (Nat.eqb_spec i' (r0 + a)) as [->|]; cbn [andb orb]; auto;
           destruct (Nat.eqb_spec j' k) as [->|]; cbn [andb orb]; auto; replace (r0 + a - r0)%nat with a by lia; rewrite Ep, andb_false_r; reflexivity).
    + exists D'. split; auto. destruct I as (L1 & R1 & C1 & P1 & V1). split; auto. split; auto. split; auto.
      split; intros; rewrite ?P1, ?V1; (replace (in_seg r0 (sp_r src) i' && (j' <? S k)%nat) with
         (in_seg r0 (sp_r src) i' && (j' <? k)%nat || in_seg r0 (sp_r src) i' && (j' =? k)%nat); [reflexivity|]);
       destruct (in_seg r0 (sp_r src) i'); cbn [andb orb]; auto;
       destruct (Nat.ltb_spec j' k), (Nat.eqb_spec j' k), (Nat.ltb_spec j' (S k)); auto; lia.
  - exists D'. split; auto.
Qed.

Lemma col_copy_ok : forall (src D : spmat R) off r0, (r0 + sp_r src <= sp_r D)%nat -> sp_c D = VAR o ->
  (forall i k, (i < sp_r src)%nat -> (k < VAR o)%nat -> pat D (r0 + i)%nat k = pat src i k) ->
  (forall k, (k < VAR o)%nat -> off k = cnt (fun q => pat D q k) r0) ->
  exists D', col_copy o D off src = Some D' /\ same D D' /\
   (forall i' j', (i' < sp_r D)%nat -> (j' < VAR o)%nat -> val D' i' j' =
      if in_seg r0 (sp_r src) i' && pat src (i' - r0)%nat j' then val src (i' - r0)%nat j' else val D i' j').
Proof.
  intros src D off r0 Hr Hc Hp Ho. unfold col_copy.
  pose (Inv := fun (d : nat -> nat -> bool) (D' : spmat R) => same D D' /\
   (forall i' j', (i' < sp_r D)%nat -> val D' i' j' =
      if d i' j' && pat src (i' - r0)%nat j' then val src (i' - r0)%nat j' else val D i' j')).
  destruct (oloop_inv _ (fun k D' => Inv (fun i' j' => in_seg r0 (sp_r src) i' && (j' <? k)%nat) D') (VAR o)
    (fun k D => oloop (sp_r src) (fun i D =>
      if pat src i k then upd D (outer D k + off k + cnt (fun q => pat src q k) i) (fun _ => val src i k)
      else Some D) D) D) as (D' & E & I).
  - split; [apply same_refl|]. intros; rewrite (proj2 (Nat.ltb_ge j' 0)), andb_false_r by lia; reflexivity.
  - intros k D0 Hk I0.
    destruct (oloop_inv _ (fun a D' => Inv (fun i' j' => (in_seg r0 (sp_r src) i' && (j' <? k)%nat) || (in_seg r0 a i' && (j' =? k)%nat)) D') (sp_r src)
     (fun i D =>
      if pat src i k then upd D (outer D k + off k + cnt (fun q => pat src q k) i) (fun _ => val src i k)
      else Some D) D0) as (D' & E & I).
    + destruct I0 as (S0 & V0). split; auto.
      intros; rewrite (in_seg_false r0 0) by lia; cbn [andb]; rewrite orb_false_r; auto.
    + intros a D1 Ha (S1 & V1). pose proof S1 as (a1 & b1 & c1 & d1).
      assert (Dd : forall i' j', (in_seg r0 (sp_r src) i' && (j' <? k)%nat || in_seg r0 (S a) i' && (j' =? k)%nat) =
         ((i' =? r0 + a)%nat && (j' =? k)%nat) || (in_seg r0 (sp_r src) i' && (j' <? k)%nat || in_seg r0 a i' && (j' =? k)%nat)).
      { intros i' j'. destruct (Nat.eqb_spec j' k) as [->|]; rewrite ?andb_false_r, ?andb_true_r, ?orb_false_r; cbn [orb]; auto.
        rewrite Nat.ltb_irrefl, andb_false_r. cbn [orb].
        destruct (Nat.eqb_spec i' (r0 + a)) as [->|Hn]; cbn [orb].
        - apply in_seg_true; lia.
        - destruct (in_seg r0 a i') eqn:A; [apply in_seg_spec in A; apply in_seg_true; lia|].
          destruct (in_seg r0 (S a) i') eqn:B; auto. apply in_seg_spec in B. rewrite in_seg_true in A by lia. discriminate. }
      destruct (pat src a k) eqn:Ep.
      * assert (Epos : (outer D1 k + off k + cnt (fun q => pat src q k) a)%nat = pos D1 (r0 + a) k).
        { rewrite (same_pos D D1) by auto. rewrite (same_outer D D1) by auto. unfold pos. rewrite cnt_add, Ho by auto.
          rewrite (cnt_ext (fun i => pat D (r0 + i)%nat k) (fun q => pat src q k)); [lia|]. intros; apply Hp; auto; lia. }
        destruct (upd_at D1 (r0 + a) k (fun _ => val src a k)) as (D2 & E2 & S2 & W1 & W2); try (rewrite ?a1, ?b1, ?c1; lia).
        { rewrite c1, Hp; auto. }
        exists D2. rewrite Epos. split; auto. split; [eapply same_trans; eauto|].
        intros i' j' Hi'. rewrite Dd. destruct (Nat.eqb_spec i' (r0 + a)) as [->|]; cbn [andb orb].
        -- destruct (Nat.eqb_spec j' k) as [->|]; cbn [andb orb].
           ++ rewrite W1. replace (r0 + a - r0)%nat with a by lia. rewrite Ep. reflexivity.
           ++ rewrite W2; [|rewrite a1; auto|intro H; inversion H; auto]. rewrite V1 by auto.
              rewrite (proj2 (Nat.eqb_neq j' k)) by auto. reflexivity.
        -- rewrite W2; [|rewrite a1; auto|intro H; inversion H; auto]. rewrite V1 by auto. reflexivity.
      * exists D1. split; auto. split; auto.
        intros i' j' Hi'; rewrite V1, Dd by auto; (destruct (Nat.eqb_spec i' (r0 + a)) as [->|]; cbn [andb orb]; auto;
           destruct (Nat.eqb_spec j' k) as [->|]; cbn [andb orb]; auto; replace (r0 + a - r0)%nat with a by lia; rewrite Ep, andb_false_r; reflexivity).
    + exists D'. split; auto. destruct I as (S1 & V1). split; auto.
      intros; rewrite V1 by auto; (replace (in_seg r0 (sp_r src) i' && (j' <? S k)%nat) with
         (in_seg r0 (sp_r src) i' && (j' <? k)%nat || in_seg r0 (sp_r src) i' && (j' =? k)%nat); [reflexivity|]);
       destruct (in_seg r0 (sp_r src) i'); cbn [andb orb]; auto;
       destruct (Nat.ltb_spec j' k), (Nat.eqb_spec j' k), (Nat.ltb_spec j' (S k)); auto; lia.
  - exists D'. split; auto. destruct I as (S1 & V1). split; auto. intros. rewrite V1 by auto.
    rewrite (proj2 (Nat.ltb_lt j' (VAR o))), andb_true_r by auto. reflexivity.
Qed.

(** the stacked matrix *)
Definition spat (i j : nat) : bool := if (i <? vx)%nat then eqpat o i j else npat ng (i - vx) j.
Definition stack_ok (J : spmat R) : Prop :=
  sp_r J = (vx + NUM_INEQ o)%nat /\ sp_c J = VAR o /\
  (forall i j, (i < vx + NUM_INEQ o)%nat -> (j < VAR o)%nat -> pat J i j = spat i j) /\
  (forall j, (j < VAR o)%nat -> slack J j = 0%nat).

Lemma spat_count : (1 <= P)%nat -> (1 <= Sg)%nat -> forall j, (j < VAR o)%nat ->
  cnt (fun i => spat i j) (vx + NUM_INEQ o) = (eq_est o j + ineq_est o j)%nat.
Proof.
  intros HP HS j Hj. rewrite cnt_add. f_equal.
  - rewrite <- eq_count by auto. apply cnt_ext. intros i Hi. unfold spat. rewrite (proj2 (Nat.ltb_lt _ _)) by auto. auto.
  - rewrite <- ineq_count by auto. apply cnt_ext. intros i Hi. unfold spat. rewrite (proj2 (Nat.ltb_ge _ _)) by lia. f_equal. lia.
Qed.

Lemma stack_first : (1 <= P)%nat -> (1 <= Sg)%nat -> forall Je Ji J, eq_ok o Je -> ineq_ok Ji ->
  nonzeros J <> (nsum (VAR o) (eq_est o) + nsum (VAR o) (ineq_est o))%nat ->
  exists J', stack_jac o Je Ji J = Some J' /\ stack_ok J' /\
   (forall i j, (i < vx)%nat -> (j < VAR o)%nat -> coeff J' i j = coeff Je i j) /\
   (forall i j, (i < NUM_INEQ o)%nat -> (j < VAR o)%nat -> coeff J' (vx + i)%nat j = coeff Ji i j).
Proof.
  intros HP HS Je Ji J (Er & Ec & Ep & Es & _) (Ir & Ic & Ip & Is) Hnz. unfold stack_jac.
  rewrite (proj2 (Nat.eqb_neq _ _)) by auto. cbn [negb].
  set (est := fun j => (eq_est o j + ineq_est o j)%nat).
  assert (L0 : lay (reserve (sp_empty (NUM_EQ o + NUM_INEQ o) (VAR o)) est : spmat R) spat est).
  { apply lay_reserve. intros j Hj. unfold NUM_EQ. rewrite spat_count by auto. unfold est. lia. }
  destruct (block_insert_ok Je _ spat est 0 L0) as (J1 & E1 & L1 & R1 & C1 & P1 & V1).
  { cbn. unfold NUM_EQ. lia. } { cbn. auto. } { reflexivity. }
  { intros i k Hi Hk Hpp. cbn [Nat.add]. unfold spat. rewrite (proj2 (Nat.ltb_lt _ _)) by lia. rewrite <- Ep by lia. auto. }
  cbn [sp_r sp_c reserve sp_empty] in R1, C1. rewrite E1. cbn [obind].
  destruct (block_insert_ok Ji J1 spat est (NUM_EQ o) L1) as (J2 & E2 & L2 & R2 & C2 & P2 & V2).
  { rewrite R1, Ir. lia. } { rewrite C1, Ic. auto. }
  { intros i k Hi Hk. rewrite P1. unfold NUM_EQ. rewrite in_seg_false by lia. reflexivity. }
  { intros i k Hi Hk Hpp. unfold spat, NUM_EQ. rewrite (proj2 (Nat.ltb_ge _ _)) by lia. replace (vx + i - vx)%nat with i by lia. rewrite <- Ip by lia. auto. }
  exists J2. split; [exact E2|].
  assert (Pat : forall i j, (i < vx + NUM_INEQ o)%nat -> (j < VAR o)%nat -> pat J2 i j = spat i j).
  { intros i j Hi Hj. rewrite P2, P1. cbn [pat reserve sp_empty]. rewrite orb_false_r. unfold spat, NUM_EQ. rewrite Er, Ir, Ec, Ic.
    rewrite (proj2 (Nat.ltb_lt j _)) by auto. rewrite !andb_true_r.
    destruct (Nat.ltb_spec i vx).
    - rewrite (in_seg_false vx) by lia. rewrite in_seg_true by lia. cbn [andb orb]. rewrite Nat.sub_0_r. auto.
    - rewrite (in_seg_true vx) by lia. rewrite (in_seg_false 0) by lia. cbn [andb]. rewrite orb_false_r. apply Ip; lia. }
  split; [split; [rewrite R2, R1; reflexivity|split; [rewrite C2, C1; reflexivity|split; [exact Pat|]]]|split].
  - intros j Hj. destruct L2 as (La & _). pose proof (La j ltac:(rewrite C2, C1; auto)) as H. unfold ncol in H.
    rewrite R2, R1 in H. unfold NUM_EQ in H. rewrite (cnt_ext _ (fun i => spat i j)) in H by (intros; apply Pat; auto).
    rewrite spat_count in H by auto. unfold est in H. lia.
  - intros i j Hi Hj. unfold coeff. rewrite Pat by lia. unfold spat. rewrite (proj2 (Nat.ltb_lt _ _)) by auto. rewrite Ep by auto.
    destruct (eqpat o i j) eqn:E; auto. rewrite V2, V1. unfold NUM_EQ. rewrite (in_seg_false vx) by lia. cbn [andb].
    rewrite in_seg_true by lia. rewrite (proj2 (Nat.ltb_lt j _)) by lia. rewrite Nat.sub_0_r, Ep, E by auto. reflexivity.
  - intros i j Hi Hj. unfold coeff. rewrite Pat by lia. unfold spat. rewrite (proj2 (Nat.ltb_ge _ _)) by lia.
    replace (vx + i - vx)%nat with i by lia. rewrite Ip by auto. destruct (npat ng i j) eqn:E; auto.
    rewrite V2. unfold NUM_EQ. rewrite (in_seg_true vx) by lia. rewrite (proj2 (Nat.ltb_lt j _)) by lia.
    replace (vx + i - vx)%nat with i by lia. rewrite Ip, E by auto. reflexivity.
Qed.

Lemma stack_nonzeros : (1 <= P)%nat -> (1 <= Sg)%nat -> forall J, stack_ok J ->
  nonzeros J = (nsum (VAR o) (eq_est o) + nsum (VAR o) (ineq_est o))%nat.
Proof.
  intros HP HS J (Hr & Hc & Hp & _). unfold nonzeros. rewrite Hc, <- nsum_plus. apply nsum_ext. intros j Hj. unfold ncol. rewrite Hr.
  rewrite <- spat_count by auto. apply cnt_ext. intros. apply Hp; auto.
Qed.

Lemma stack_later : (1 <= P)%nat -> (1 <= Sg)%nat -> (1 <= nx)%nat -> forall Je Ji J, eq_ok o Je -> ineq_ok Ji -> stack_ok J ->
  exists J', stack_jac o Je Ji J = Some J' /\ stack_ok J' /\
   (forall i j, (i < vx)%nat -> (j < VAR o)%nat -> coeff J' i j = coeff Je i j) /\
   (forall i j, (i < NUM_INEQ o)%nat -> (j < VAR o)%nat -> coeff J' (vx + i)%nat j = coeff Ji i j).
Proof.
  intros HP HS HX Je Ji J (Er & Ec & Ep & Es & _) (Ir & Ic & Ip & Is) HJ. unfold stack_jac.
  rewrite (proj2 (Nat.eqb_eq _ _)) by (apply stack_nonzeros; auto). cbn [negb]. pose proof HJ as (Jr & Jc & Jp & Js).
  rewrite (proj2 (Nat.ltb_lt 0 (NUM_EQ o))) by (unfold NUM_EQ, VARX, NUM_NODES; nia).
  destruct (col_copy_ok Je J (fun _ => O) 0) as (J1 & E1 & S1 & V1).
  { rewrite Jr, Er. lia. } { auto. }
  { intros i k Hi Hk. cbn [Nat.add]. rewrite Jp by lia. unfold spat. rewrite (proj2 (Nat.ltb_lt _ _)) by lia. symmetry. apply Ep; lia. }
  { intros. reflexivity. }
  rewrite E1. cbn [obind]. pose proof S1 as (a1 & b1 & c1 & d1).
  assert (E2 : exists J2, (if (0 <? NUM_INEQ o)%nat then col_copy o J1 (ncol Je) Ji else Some J1) = Some J2 /\ same J1 J2 /\
     (forall i' j', (i' < sp_r J1)%nat -> (j' < VAR o)%nat -> val J2 i' j' =
      if in_seg vx (sp_r Ji) i' && pat Ji (i' - vx)%nat j' then val Ji (i' - vx)%nat j' else val J1 i' j')).
  { destruct (Nat.ltb_spec 0 (NUM_INEQ o)).
    - apply col_copy_ok.
      + rewrite a1, Jr, Ir. lia.
      + congruence.
      + intros i k Hi Hk. rewrite c1, Jp by lia. unfold spat. rewrite (proj2 (Nat.ltb_ge _ _)) by lia. replace (vx + i - vx)%nat with i by lia. symmetry. apply Ip; lia.
      + intros k Hk. unfold ncol. rewrite Er. apply cnt_ext. intros i Hi. rewrite c1, Jp by lia. unfold spat. rewrite (proj2 (Nat.ltb_lt _ _)) by lia. auto.
    - exists J1. split; auto. split; [apply same_refl|]. intros. rewrite Ir. rewrite in_seg_false by lia. reflexivity. }
  destruct E2 as (J2 & E2 & S2 & V2). exists J2. split; [exact E2|]. pose proof S2 as (a2 & b2 & c2 & d2).
  split; [|split].
  - split; [congruence|]. split; [congruence|]. split; intros; [rewrite c2, c1|rewrite d2, d1]; auto.
  - intros i j Hi Hj. unfold coeff. rewrite c2, c1, Jp by lia. unfold spat. rewrite (proj2 (Nat.ltb_lt _ _)) by auto. rewrite Ep by auto.
    destruct (eqpat o i j) eqn:E; auto. rewrite V2 by lia. rewrite (in_seg_false vx) by lia. cbn [andb].
    rewrite V1 by lia. rewrite in_seg_true by lia. rewrite Nat.sub_0_r, Ep, E by auto. reflexivity.
  - intros i j Hi Hj. unfold coeff. rewrite c2, c1, Jp by lia. unfold spat. rewrite (proj2 (Nat.ltb_ge _ _)) by lia.
    replace (vx + i - vx)%nat with i by lia. rewrite Ip by auto. destruct (npat ng i j) eqn:E; auto.
    rewrite V2 by lia. rewrite (in_seg_true vx) by lia. replace (vx + i - vx)%nat with i by lia. rewrite Ip, E by auto. reflexivity.
Qed.

(** * the members m_Je, m_Ji and the output after any call *)
Definition con_ok (st : spmat R * spmat R * spmat R) : Prop :=
  let '(Je, Ji, J) := st in eq_ok o Je /\ ineq_ok Ji /\ stack_ok J.
Definition con_jac (st : spmat R * spmat R * spmat R) (var : vec R) : Prop :=
  let '(Je, Ji, J) := st in eq_jac o Je var /\ ineq_jac Ji var /\
   (forall i j, (i < vx)%nat -> (j < VAR o)%nat -> coeff J i j = coeff Je i j) /\
   (forall i j, (i < NUM_INEQ o)%nat -> (j < VAR o)%nat -> coeff J (vx + i)%nat j = coeff Ji i j).
Definition con_empty : spmat R * spmat R * spmat R :=
  (sp_empty vx (VAR o), sp_empty (NUM_INEQ o) (VAR o), sp_empty (vx + NUM_INEQ o) (VAR o)).

Lemma con_lin_ok : chebyshev_ocp o -> forall junk var st, st = con_empty \/ (con_ok st /\ (ng = nx \/ ng = 0)%nat) ->
  exists st', con_lin_sparse o junk var st = Some st' /\ con_ok st' /\ con_jac st' var.
Proof.
  intros Hch junk var [[Je Ji] J] Hst. pose proof Hch as (HP & HS & HX & _). unfold con_lin_sparse.
  assert (He : Je = sp_empty vx (VAR o) \/ eq_ok o Je) by (destruct Hst as [H|[(H & _) _]]; [left; unfold con_empty in H; congruence|auto]).
  assert (Hi : Ji = sp_empty (NUM_INEQ o) (VAR o) \/ (ineq_ok Ji /\ (ng = nx \/ ng = 0)%nat))
    by (destruct Hst as [H|[(_ & H & _) H']]; [left; unfold con_empty in H; congruence|auto]).
  destruct (eq_lin_ok o Hch var Je He) as (Je' & E1 & Ok1 & V1). rewrite E1. cbn [obind].
  destruct (ineq_lin_ok HX junk var Ji Hi) as (Ji' & E2 & Ok2 & V2). rewrite E2. cbn [obind].
  assert (HJ : exists J', stack_jac o Je' Ji' J = Some J' /\ stack_ok J' /\
   (forall i j, (i < vx)%nat -> (j < VAR o)%nat -> coeff J' i j = coeff Je' i j) /\
   (forall i j, (i < NUM_INEQ o)%nat -> (j < VAR o)%nat -> coeff J' (vx + i)%nat j = coeff Ji' i j)).
  { destruct Hst as [H|[(_ & _ & H) _]].
    - apply stack_first; auto. unfold con_empty in H. inversion H. rewrite empty_nonzeros.
      pose proof (eq_empty_nonzeros o Hch) as Hn. apply Nat.eqb_neq in Hn. rewrite empty_nonzeros in Hn. lia.
    - apply stack_later; auto. }
  destruct HJ as (J' & E3 & Ok3 & C1 & C2). rewrite E3. cbn [obind]. exists (Je', Ji', J'). repeat split; auto; try apply Ok1; try apply Ok2; try apply Ok3.
Qed.
End P.
