(** Proofs about the values, dense Jacobians, cost and gradient of Ocp_Model. *)
Require Import Arith ZArith List Bool Lia Reals Lra.
From Verif Require Import Scal RSum Blk Poly_Spec PolyR Cheb_Model Cheb_Proofs Ocp_Model Ocp_Spec.
Local Open Scope R_scope.

Lemma snat_INR : forall n, snat n = INR n.
Proof. intro. unfold snat. simpl. rewrite INR_IZR_INZ. reflexivity. Qed.

Lemma derivable_affine : forall a b x, derivable_pt_lim (fun x => a * x + b) x a.
Proof.
  intros. assert (H : derivable_pt_lim (fun x => a * x + b) x (a * 1 + 0)).
  { apply (derivable_pt_lim_plus (fun x => a * x) (fun _ => b)).
    - apply (derivable_pt_lim_scal (fun x => x)). apply derivable_pt_lim_id.
    - apply (derivable_pt_lim_const b). }
  replace (a * 1 + 0) with a in H by ring. exact H.
Qed.

Lemma derivable_line : forall a b x, derivable_pt_lim (fun h => a + h * b) x b.
Proof.
  intros. apply derivable_pt_lim_ext with (fun h => b * h + a); [intro; ring|apply derivable_affine].
Qed.

Section P.
Variable o : ocp R.
Local Notation nx := (NX o).
Local Notation nu := (NU o).
Local Notation np := (NP o).
Local Notation ng := (NG o).
Local Notation P := (PO o).
Local Notation Sg := (SG o).

Lemma node_decomp : forall t, (1 <= P)%nat -> (1 <= Sg)%nat -> (t < NUM_NODES o)%nat ->
  exists s l, t = (s * P + l)%nat /\ (s < Sg)%nat /\ (l <= P)%nat /\ (l < P \/ s = Sg - 1)%nat.
Proof.
  intros t HP HS Ht. unfold NUM_NODES in Ht. destruct (Nat.eq_dec t (P * Sg)) as [->|Hne].
  - exists (Sg - 1)%nat, P. repeat split; try lia. nia.
  - exists (t / P)%nat, (t mod P)%nat. pose proof (Nat.mod_upper_bound t P ltac:(lia)).
    pose proof (node_divmod P t ltac:(lia)). repeat split; try lia.
    apply Nat.div_lt_upper_bound; lia.
Qed.

Lemma node_lt : forall s l, (s < Sg)%nat -> (l <= P)%nat -> (s * P + l < NUM_NODES o)%nat.
Proof. intros. unfold NUM_NODES. nia. Qed.

Lemma node_unique : forall s l s' l', (s < Sg)%nat -> (s' < Sg)%nat ->
  (l < P \/ s = Sg - 1 /\ l <= P)%nat -> (l' < P \/ s' = Sg - 1 /\ l' <= P)%nat ->
  (s * P + l = s' * P + l')%nat -> s = s' /\ l = l'.
Proof.
  intros s l s' l' Hs Hs' Hl Hl' E.
  assert (s = s'). { destruct (Nat.lt_total s s') as [?|[?|?]]; auto; exfalso; nia. }
  subst. split; auto. lia.
Qed.

(** * time grid *)
Definition tlen : R := (t_stop o - t_start o) / INR Sg.

Lemma t_scale_eq : (1 <= Sg)%nat -> t_scale o = tlen / 2.
Proof.
  intro HS. unfold t_scale, tlen. rewrite snat_INR.
  change ((t_stop o - t_start o) / INR (2 * Sg) = (t_stop o - t_start o) / INR Sg / 2).
  rewrite mult_INR. assert (0 < INR Sg) by (apply lt_0_INR; lia). change (INR 2) with 2. field. lra.
Qed.

Lemma time_raw_eq : chebyshev_ocp o -> forall i k, (i < Sg)%nat -> (k <= P)%nat ->
  time_raw o (i * P + k)%nat = tlen / 2 * cheb_nodes P (P - k) + (t_start o + tlen / 2 + INR i * tlen).
Proof.
  intros (HP & HS & HX & HD & Hn & Hw) i k Hi Hk.
  assert (Main : forall i k, (i < Sg)%nat -> (k < P \/ i = Sg - 1 /\ k <= P)%nat ->
    time_raw o (i * P + k)%nat = tlen / 2 * cheb_nodes P (P - k) + (t_start o + tlen / 2 + INR i * tlen)).
  { clear i k Hi Hk. intros i k Hi Hk. unfold time_raw.
    rewrite (loop_last _ _ (fun tn : vec R => tn (i * P + k)%nat) Sg _ _
       (fun m => in_seg (m * P) (P + 1) (i * P + k))
       (fun m => tlen / 2 * m_nodes o (P - (i * P + k - m * P))%nat + (t_start o + tlen / 2 + INR m * tlen)) i).
    - rewrite Hn by lia. f_equal. f_equal. f_equal. lia.
    - intros m s Hm. unfold vset. destruct (in_seg (m * P) (P + 1) (i * P + k)); auto.
      unfold tlen. rewrite !snat_INR. simpl. ring.
    - auto.
    - apply in_seg_true; lia.
    - intros m Hm. apply in_seg_false. left. nia. }
  destruct (Nat.eq_dec k P) as [->|Hne]; [|apply Main; auto; lia].
  destruct (Nat.eq_dec i (Sg - 1)) as [->|Hi2]; [apply Main; auto; lia|].
  replace (i * P + P)%nat with (S i * P + 0)%nat by (simpl; lia).
  rewrite Main by lia. rewrite Nat.sub_0_r, Nat.sub_diag, nodes_first, nodes_last, S_INR by auto.
  field.
Qed.

Lemma time_nodes_eq : chebyshev_ocp o -> forall s l, (s < Sg)%nat -> (l <= P)%nat ->
  time_nodes o (s * P + l)%nat = t_stop o - INR s * tlen - tlen / 2 + tlen / 2 * cheb_nodes P l.
Proof.
  intros Hc s l Hs Hl. pose proof Hc as (HP & HS & HX & HD & Hn & Hw).
  unfold time_nodes. replace (NUM_NODES o - 1 - (s * P + l))%nat with ((Sg - 1 - s) * P + (P - l))%nat.
  - rewrite time_raw_eq by (auto; lia). replace (P - (P - l))%nat with l by lia.
    replace (INR (Sg - 1 - s)) with (INR Sg - 1 - INR s) by (rewrite !minus_INR by lia; simpl (INR 1); ring).
    assert (E : t_stop o = t_start o + INR Sg * tlen).
    { unfold tlen. assert (0 < INR Sg) by (apply lt_0_INR; lia). field. lra. }
    rewrite E. field.
  - unfold NUM_NODES. remember (Sg - 1 - s)%nat as a eqn:Ea. replace Sg with (a + s + 1)%nat by lia. nia.
Qed.

Lemma tlen_pos : (1 <= Sg)%nat -> t_start o < t_stop o -> 0 < tlen.
Proof. intros HS Ht. unfold tlen. apply Rdiv_lt_0_compat; [lra|]. apply lt_0_INR; lia. Qed.

Lemma time_first : chebyshev_ocp o -> time_nodes o 0%nat = t_stop o.
Proof.
  intros Hc. pose proof Hc as (HP & HS & _). pose proof (time_nodes_eq Hc 0 0 ltac:(lia) ltac:(lia)) as E.
  simpl in E. rewrite E, nodes_first. field.
Qed.

Lemma time_last : chebyshev_ocp o -> time_nodes o (P * Sg)%nat = t_start o.
Proof.
  intros Hc. pose proof Hc as (HP & HS & _).
  replace (P * Sg)%nat with ((Sg - 1) * P + P)%nat by nia.
  rewrite (time_nodes_eq Hc) by lia. rewrite nodes_last, minus_INR by lia. simpl (INR 1).
  unfold tlen. assert (0 < INR Sg) by (apply lt_0_INR; lia). field. lra.
Qed.

Lemma time_step : chebyshev_ocp o -> t_start o < t_stop o -> forall k, (S k < NUM_NODES o)%nat ->
  time_nodes o (S k)%nat < time_nodes o k.
Proof.
  intros Hc Ht k Hk. pose proof Hc as (HP & HS & _). pose proof (tlen_pos HS Ht).
  destruct (node_decomp k) as (s & l & -> & Hs & Hl & Hd); auto; [lia|].
  assert (l < P)%nat. { unfold NUM_NODES in Hk. destruct Hd; auto. subst s. nia. }
  replace (S (s * P + l)) with (s * P + S l)%nat by lia.
  rewrite !(time_nodes_eq Hc) by lia.
  assert (cheb_nodes P (S l) < cheb_nodes P l) by (apply nodes_decreasing; lia). nra.
Qed.

Lemma time_mono : chebyshev_ocp o -> t_start o < t_stop o -> forall i j, (i < j)%nat -> (j < NUM_NODES o)%nat ->
  time_nodes o j < time_nodes o i.
Proof.
  intros Hc Ht i j Hij. induction j as [|j IH]; [lia|]. intro Hj.
  destruct (Nat.eq_dec i j) as [->|]; [apply time_step; auto|].
  apply Rlt_trans with (time_nodes o j); [apply time_step; auto|apply IH; lia].
Qed.

(** * collocation residuals *)
Lemma DX_eq : forall var s l c, (s < Sg)%nat -> (l <= P)%nat -> (l < P \/ s = Sg - 1)%nat -> (c < nx)%nat ->
  DX o var (s * P + l)%nat c = rsum (S P) (fun j => m_D o l j * state o var (s * P + j)%nat c).
Proof.
  intros var s l c Hs Hl Hd Hc. unfold DX.
  rewrite (loop_last _ _ (fun M : mat R => M (s * P + l)%nat c) Sg _ _
     (fun m => in_seg (m * P) (P + 1) (s * P + l))
     (fun m => rsum (S P) (fun j => m_D o (s * P + l - m * P)%nat j * state o var (m * P + j)%nat c)) s).
  - apply rsum_ext. intros j _. f_equal. f_equal. lia.
  - intros m M Hm. unfold mset. rewrite (in_seg_true 0 nx c) by lia. rewrite andb_true_r.
    destruct (in_seg (m * P) (P + 1) (s * P + l)); auto.
    replace (P + 1)%nat with (S P) by lia. apply rsum_ext. intros j _. unfold state, ix. simpl smul. f_equal. f_equal. lia.
  - auto.
  - apply in_seg_true; lia.
  - intros m Hm. apply in_seg_false. left. nia.
Qed.

Lemma uk_control : forall var t, uk o var t = control o var t.
Proof. reflexivity. Qed.

Lemma node_eqb : forall a b c m, (c < m)%nat -> in_seg (a * m) m (b * m + c) = (a =? b)%nat.
Proof. intros. apply node_in_seg; auto. Qed.

Lemma eqb_hit : forall n t k, (k < n)%nat -> k <> t -> (k =? t)%nat = false.
Proof. intros. apply Nat.eqb_neq. auto. Qed.

Lemma equalities_eq : forall var t c, (t < NUM_NODES o)%nat -> (c < nx)%nat ->
  equalities o var (ix o t c) = DX o var t c - t_scale o * at_node o (o_dyn o) var t c.
Proof.
  intros var t c Ht Hc. unfold equalities, ix.
  rewrite (loop_pick _ _ (fun v : vec R => v (t * nx + c)%nat) (NUM_NODES o) _ _ (fun k => (k =? t)%nat)
    (fun k => DX o var k c - t_scale o * at_node o (o_dyn o) var k c) t); auto.
  - intros k v Hk. unfold vdec, vset. rewrite node_eqb by auto.
    destruct (Nat.eqb_spec k t) as [->|]; auto. replace (t * nx + c - t * nx)%nat with c by lia. auto.
  - apply Nat.eqb_refl.
  - intros. apply Nat.eqb_neq. auto.
Qed.

Lemma inequalities_eq : forall var t c, (t < NUM_NODES o)%nat -> (c < ng)%nat ->
  inequalities o var (t * ng + c)%nat = at_node o (o_ine o) var t c.
Proof.
  intros var t c Ht Hc. unfold inequalities.
  rewrite (loop_pick _ _ (fun v : vec R => v (t * ng + c)%nat) (NUM_NODES o) _ _ (fun k => (k =? t)%nat)
    (fun k => at_node o (o_ine o) var k c) t); auto.
  - intros k v Hk. unfold vset. rewrite node_eqb by auto.
    destruct (Nat.eqb_spec k t) as [->|]; auto. replace (t * ng + c - t * ng)%nat with c by lia. auto.
  - apply Nat.eqb_refl.
  - intros. apply Nat.eqb_neq. auto.
Qed.

Lemma index_split : forall m n i, (i < m * n)%nat ->
  exists k c, i = (k * m + c)%nat /\ (k < n)%nat /\ (c < m)%nat.
Proof.
  intros m n i Hi. assert (0 < m)%nat by (destruct m; lia).
  exists (i / m)%nat, (i mod m)%nat. repeat split.
  - apply node_divmod; auto.
  - apply Nat.div_lt_upper_bound; lia.
  - apply Nat.mod_upper_bound; lia.
Qed.

(** the residual of component [c] at local point [l] of segment [s], for a polynomial
    through the segment's states *)
Lemma residual_poly : chebyshev_ocp o -> forall var s l c q q',
  (s < Sg)%nat -> (l <= P)%nat -> (l < P \/ s = Sg - 1)%nat -> (c < nx)%nat ->
  is_poly P q -> derivative_of q q' ->
  (forall j, (j <= P)%nat -> q (time_nodes o (s * P + j)%nat) = state o var (s * P + j)%nat c) ->
  DX o var (s * P + l)%nat c = t_scale o * q' (time_nodes o (s * P + l)%nat).
Proof.
  intros Hch var s l c q q' Hs Hl Hd Hc Hq Hq' Hi.
  pose proof Hch as (HP & HS & HX & HD & Hn & Hw).
  rewrite DX_eq by auto. rewrite t_scale_eq by auto.
  set (b := t_stop o - INR s * tlen - tlen / 2).
  destruct (is_poly_list P q Hq) as (lq & Hlq & Elq).
  assert (Hcomp : is_poly P (fun x => q (tlen / 2 * x + b))).
  { destruct (poly_affine (tlen / 2) b lq P Hlq) as (a & Ha). exists a. intro x. rewrite Elq. apply Ha. }
  assert (Hder : derivative_of (fun x => q (tlen / 2 * x + b)) (fun x => tlen / 2 * q' (tlen / 2 * x + b))).
  { intro x. replace (tlen / 2 * q' (tlen / 2 * x + b)) with (q' (tlen / 2 * x + b) * (tlen / 2)) by ring.
    apply (derivable_pt_lim_comp (fun x => tlen / 2 * x + b) q).
    - apply derivable_affine.
    - apply Hq'. }
  pose proof (cheb_D_poly P _ _ HP Hcomp Hder l Hl) as E. cbv beta in E.
  rewrite (time_nodes_eq Hch s l) by auto. fold b. replace (b + tlen / 2 * cheb_nodes P l) with (tlen / 2 * cheb_nodes P l + b) by ring.
  rewrite <- E. apply rsum_ext. intros j Hj. rewrite HD by lia. f_equal.
  rewrite <- Hi by lia. rewrite (time_nodes_eq Hch s j) by (auto; lia). fold b. f_equal. ring.
Qed.

(** * dense Jacobian *)
Definition dmat (s l k : nat) : R := if in_seg (s * P) (P + 1) k then m_D o l (k - s * P)%nat else 0.

Lemma inner_j : forall s i J t c k m, (c < nx)%nat -> (m < nx)%nat ->
  loop (P + 1) (fun j J => mset J (s * P * nx + i * nx) (s * P * nx + j * nx) nx nx
          (fun r c => if (r =? c)%nat then m_D o i j else 0%S)) J (t * nx + c)%nat (k * nx + m)%nat =
  if (s * P + i =? t)%nat && in_seg (s * P) (P + 1) k then (if (c =? m)%nat then dmat s i k else 0)
  else J (t * nx + c)%nat (k * nx + m)%nat.
Proof.
  intros s i J t c k m Hc Hm.
  assert (Body : forall j (J : mat R),
    mset J (s * P * nx + i * nx) (s * P * nx + j * nx) nx nx
          (fun r c => if (r =? c)%nat then m_D o i j else 0%S) (t * nx + c)%nat (k * nx + m)%nat =
    if ((s * P + i =? t) && (s * P + j =? k))%nat then (if (c =? m)%nat then m_D o i j else 0)
    else J (t * nx + c)%nat (k * nx + m)%nat).
  { intros j J0. unfold mset.
    replace (s * P * nx + i * nx)%nat with ((s * P + i) * nx)%nat by ring.
    replace (s * P * nx + j * nx)%nat with ((s * P + j) * nx)%nat by ring.
    rewrite !node_eqb by auto.
    destruct (Nat.eqb_spec (s * P + i) t) as [E1|]; destruct (Nat.eqb_spec (s * P + j) k) as [E2|]; cbn [andb]; auto.
    rewrite E1, E2. replace (t * nx + c - t * nx)%nat with c by lia.
    replace (k * nx + m - k * nx)%nat with m by lia. reflexivity. }
  destruct (Nat.eqb_spec (s * P + i) t) as [E1|N1]; cbn [andb].
  2:{ rewrite (loop_skip _ _ (fun M : mat R => M (t * nx + c)%nat (k * nx + m)%nat)); auto.
      intros j M _. rewrite Body. reflexivity. }
  destruct (in_seg (s * P) (P + 1) k) eqn:Ek.
  - apply in_seg_spec in Ek.
    rewrite (loop_pick _ _ (fun M : mat R => M (t * nx + c)%nat (k * nx + m)%nat) (P + 1) _ _
      (fun j => (s * P + j =? k)%nat) (fun j => if (c =? m)%nat then m_D o i j else 0) (k - s * P)).
    + unfold dmat. rewrite in_seg_true by lia. reflexivity.
    + intros j M Hj. rewrite Body. reflexivity.
    + lia.
    + apply Nat.eqb_eq. lia.
    + intros j Hj Hn. apply Nat.eqb_neq. lia.
  - rewrite (loop_skip _ _ (fun M : mat R => M (t * nx + c)%nat (k * nx + m)%nat)); auto.
    intros j M Hj. rewrite Body. destruct (Nat.eqb_spec (s * P + j) k) as [E2|]; [|rewrite andb_false_r; reflexivity].
    exfalso. rewrite in_seg_true in Ek; [discriminate|lia|lia].
Qed.

Lemma jac_diff_x : forall s l c k m, (s < Sg)%nat -> (l < P)%nat -> (c < nx)%nat -> (m < nx)%nat ->
  jac_diff o (ix o (s * P + l) c) (ix o k m) = if (c =? m)%nat then dmat s l k else 0.
Proof.
  intros s l c k m Hs Hl Hc Hm. unfold jac_diff, ix.
  set (t := (s * P + l)%nat).
  assert (Row : forall s' (J : mat R), (s' < Sg)%nat ->
    loop P (fun i J => loop (P + 1) (fun j J => mset J (s' * P * nx + i * nx) (s' * P * nx + j * nx) nx nx
          (fun r c => if (r =? c)%nat then m_D o i j else 0%S)) J) J (t * nx + c)%nat (k * nx + m)%nat =
    if (s' =? s)%nat then (if in_seg (s * P) (P + 1) k then (if (c =? m)%nat then dmat s l k else 0) else J (t * nx + c)%nat (k * nx + m)%nat)
    else J (t * nx + c)%nat (k * nx + m)%nat).
  { intros s' J Hs'. destruct (Nat.eqb_spec s' s) as [->|Hne].
    - rewrite (loop_once _ _ (fun M : mat R => M (t * nx + c)%nat (k * nx + m)%nat) P _ _
        (fun i => (s * P + i =? t)%nat)
        (fun i v => if in_seg (s * P) (P + 1) k then (if (c =? m)%nat then dmat s i k else 0) else v) l); auto.
      + intros i M Hi. rewrite inner_j by auto. destruct (s * P + i =? t)%nat; reflexivity.
      + apply Nat.eqb_refl.
      + intros i Hi Hn. apply Nat.eqb_neq. unfold t. lia.
    - rewrite (loop_skip _ _ (fun M : mat R => M (t * nx + c)%nat (k * nx + m)%nat)); auto.
      intros i M Hi. rewrite inner_j by auto.
      destruct (Nat.eqb_spec (s' * P + i) t) as [E|]; auto. exfalso. unfold t in E.
      destruct (node_unique s' i s l); auto; lia. }
  rewrite (loop_once _ _ (fun M : mat R => M (t * nx + c)%nat (k * nx + m)%nat) Sg _ _
    (fun s' => (s' =? s)%nat)
    (fun s' v => if in_seg (s * P) (P + 1) k then (if (c =? m)%nat then dmat s l k else 0) else v) s); auto.
  - unfold dmat. destruct (in_seg (s * P) (P + 1) k); auto. destruct (c =? m)%nat; reflexivity.
  - apply Nat.eqb_refl.
  - intros. apply Nat.eqb_neq; auto.
Qed.

(** rows at or beyond the last node, and columns beyond the states, stay zero *)
Lemma jac_diff_zero : forall r cc, (P * Sg * nx <= r \/ VARX o <= cc)%nat -> jac_diff o r cc = 0.
Proof.
  intros r cc H. unfold jac_diff.
  rewrite (loop_skip _ _ (fun M : mat R => M r cc)); auto.
  intros s M Hs. rewrite (loop_skip _ _ (fun M : mat R => M r cc)); auto.
  intros i M' Hi. rewrite (loop_skip _ _ (fun M : mat R => M r cc)); auto.
  intros j M'' Hj. unfold mset. unfold VARX, NUM_NODES in H. destruct H as [H|H].
  - rewrite in_seg_false; auto. right.
    replace (s * P * nx + i * nx + nx)%nat with ((s * P + i + 1) * nx)%nat by ring.
    assert (s * P + i + 1 <= P * Sg)%nat by nia. nia.
  - rewrite (in_seg_false _ _ cc), andb_false_r; auto. right.
    replace (s * P * nx + j * nx + nx)%nat with ((s * P + j + 1) * nx)%nat by ring.
    assert (s * P + j + 1 <= P * Sg + 1)%nat by nia. nia.
Qed.

Lemma jac_base_x : chebyshev_ocp o -> forall s l c k m,
  (s < Sg)%nat -> (l <= P)%nat -> (l < P \/ s = Sg - 1)%nat -> (c < nx)%nat -> (m < nx)%nat -> (k < NUM_NODES o)%nat ->
  jac_last o (jac_diff o) (ix o (s * P + l) c) (ix o k m) = if (c =? m)%nat then dmat s l k else 0.
Proof.
  intros Hch s l c k m Hs Hl Hd Hc Hm Hk. pose proof Hch as (HP & HS & HX & HD & Hn & Hw).
  unfold jac_last, mset. unfold NUM_NODES in Hk.
  assert (EV : (VARX o - nx = P * Sg * nx)%nat) by (unfold VARX, NUM_NODES; nia).
  assert (EC : (VARX o - nx * (P + 1) = (Sg - 1) * P * nx)%nat).
  { unfold VARX, NUM_NODES. remember (Sg - 1)%nat as a eqn:Ea. replace Sg with (a + 1)%nat by lia. nia. }
  rewrite EV, EC.
  destruct (Nat.eq_dec l P) as [->|HlP].
  - assert (s = Sg - 1)%nat by lia. subst s.
    assert (EN : ((Sg - 1) * P + P = P * Sg)%nat) by (clear - HS; remember (Sg - 1)%nat as a eqn:Ea; replace Sg with (a + 1)%nat by lia; ring).
    rewrite (in_seg_true (P * Sg * nx)) by (unfold ix; rewrite EN; lia). cbn [andb].
    unfold dmat. destruct (in_seg ((Sg - 1) * P) (P + 1) k) eqn:Ek.
    + apply in_seg_spec in Ek. remember (k - (Sg - 1) * P)%nat as j eqn:Ej. assert (Hj : (j <= P)%nat) by lia.
      rewrite (in_seg_true ((Sg - 1) * P * nx)).
      2:{ unfold ix. assert ((Sg - 1) * P * nx <= k * nx)%nat by (apply Nat.mul_le_mono_r; lia). lia. }
      2:{ unfold ix. assert (k * nx <= ((Sg - 1) * P + P) * nx)%nat by (apply Nat.mul_le_mono_r; lia). lia. }
      replace (nx - 1 - (ix o ((Sg - 1) * P + P) c - P * Sg * nx))%nat with (ix o (0 * P + 0) (nx - 1 - c)).
      2:{ unfold ix. rewrite EN. lia. }
      replace (nx * (P + 1) - 1 - (ix o k m - (Sg - 1) * P * nx))%nat with (ix o (P - j) (nx - 1 - m)).
      2:{ unfold ix. replace k with ((Sg - 1) * P + j)%nat by lia.
          rewrite Nat.mul_add_distr_r.
          replace ((Sg - 1) * P * nx + j * nx + m - (Sg - 1) * P * nx)%nat with (j * nx + m)%nat by lia.
          replace (nx * (P + 1))%nat with ((P - j) * nx + j * nx + nx)%nat
            by (rewrite <- Nat.mul_add_distr_r; replace (P - j + j)%nat with P by lia; ring). generalize ((P - j) * nx)%nat (j * nx)%nat; clear - Hm; intros; lia. }
      rewrite jac_diff_x by lia.
      replace (nx - 1 - c =? nx - 1 - m)%nat with (c =? m)%nat.
      2:{ destruct (Nat.eqb_spec c m); symmetry; [apply Nat.eqb_eq|apply Nat.eqb_neq]; lia. }
      destruct (c =? m)%nat; [|simpl; ring]. unfold dmat. rewrite in_seg_true by lia.
      rewrite Nat.mul_0_l, Nat.sub_0_r, !HD by lia.
      pose proof (D_mirror P P j HP ltac:(lia) ltac:(lia)) as E. rewrite Nat.sub_diag in E. rewrite E. simpl. ring.
    + rewrite (in_seg_false ((Sg - 1) * P * nx)).
      2:{ left. assert (k < (Sg - 1) * P)%nat.
          { destruct (Nat.lt_ge_cases k ((Sg - 1) * P)); auto. exfalso.
            rewrite in_seg_true in Ek; [discriminate|auto|lia]. }
          unfold ix. nia. }
      rewrite jac_diff_zero; [destruct (c =? m)%nat; auto|].
      left. unfold ix. nia.
  - rewrite in_seg_false; [apply jac_diff_x; auto; lia|]. left. unfold ix. nia.
Qed.

Lemma jac_base_zero : forall r cc, (1 <= P)%nat -> (1 <= Sg)%nat -> (VARX o <= cc)%nat -> jac_last o (jac_diff o) r cc = 0.
Proof.
  intros r cc HP HS H. unfold jac_last, mset. rewrite (in_seg_false _ _ cc), andb_false_r.
  - apply jac_diff_zero; auto.
  - right. assert (nx * (P + 1) <= VARX o)%nat; [|lia]. unfold VARX, NUM_NODES. nia.
Qed.

Definition dense_jac (var : vec R) : mat R := snd (equalities_linearised o var).

Lemma eq_lin_val : forall var t c, (t < NUM_NODES o)%nat -> (c < nx)%nat ->
  fst (equalities_linearised o var) (ix o t c) = - t_scale o * at_node o (o_dyn o) var t c + DX o var t c.
Proof.
  intros var t c Ht Hc. unfold equalities_linearised.
  rewrite (loop_pick _ _ (fun cj : vec R * mat R => fst cj (ix o t c)) (NUM_NODES o) _ _ (fun k => (k =? t)%nat)
    (fun k => - t_scale o * at_node o (o_dyn o) var k c + DX o var k c) t); auto.
  - intros k [v J] Hk. cbn [fst]. unfold vacc, vset, ix. rewrite node_eqb by auto.
    destruct (Nat.eqb_spec k t) as [->|]; auto. replace (t * nx + c - t * nx)%nat with c by lia. auto.
  - apply Nat.eqb_refl.
  - intros. apply Nat.eqb_neq. auto.
Qed.

Lemma xcol_lt : forall k m, (k < NUM_NODES o)%nat -> (m < nx)%nat -> (ix o k m < VARX o)%nat.
Proof. intros. unfold ix, VARX. nia. Qed.

Lemma dense_jac_x : chebyshev_ocp o -> forall var s l c k m,
  (s < Sg)%nat -> (l <= P)%nat -> (l < P \/ s = Sg - 1)%nat -> (c < nx)%nat -> (m < nx)%nat -> (k < NUM_NODES o)%nat ->
  dense_jac var (ix o (s * P + l) c) (ix o k m) =
  (if (c =? m)%nat then dmat s l k else 0) -
  (if (k =? s * P + l)%nat then t_scale o * at_node o (o_dyn_jac o) var (s * P + l)%nat c m else 0).
Proof.
  intros Hch var s l c k m Hs Hl Hd Hc Hm Hk. set (t := (s * P + l)%nat).
  assert (Ht : (t < NUM_NODES o)%nat) by (apply node_lt; auto).
  unfold dense_jac, equalities_linearised.
  pose proof (xcol_lt k m Hk Hm) as Hx.
  rewrite (loop_once _ _ (fun cj : vec R * mat R => snd cj (ix o t c) (ix o k m)) (NUM_NODES o) _ _ (fun n => (n =? t)%nat)
    (fun n v => if (n =? k)%nat then v - t_scale o * at_node o (o_dyn_jac o) var n c m else v) t); auto.
  - cbn [snd]. pose proof (jac_base_x Hch s l c k m Hs Hl Hd Hc Hm Hk) as E. fold t in E. rewrite E. rewrite (Nat.eqb_sym k t). destruct (t =? k)%nat; ring.
  - intros n [v J] Hn. cbn [snd]. unfold mdec.
    rewrite (in_seg_false (VARX o + VARU o) np) by lia. rewrite andb_false_r.
    rewrite (in_seg_false (n * nu + VARX o) nu) by lia. rewrite andb_false_r.
    unfold ix. rewrite !node_eqb by auto.
    destruct (Nat.eqb_spec n t) as [->|]; cbn [andb]; auto.
    destruct (Nat.eqb_spec t k) as [<-|]; cbn [andb]; auto.
    replace (t * nx + c - t * nx)%nat with c by lia. replace (t * nx + m - t * nx)%nat with m by lia. reflexivity.
  - apply Nat.eqb_refl.
  - intros. apply Nat.eqb_neq. auto.
Qed.

Lemma dense_jac_u : chebyshev_ocp o -> forall var t c k m,
  (t < NUM_NODES o)%nat -> (c < nx)%nat -> (m < nu)%nat -> (k < NUM_NODES o)%nat ->
  dense_jac var (ix o t c) (iu o k m) =
  if (k =? t)%nat then - (t_scale o * at_node o (o_dyn_jac o) var t c (nx + m)%nat) else 0.
Proof.
  intros (HP & HS & HX & HD & Hn & Hw) var t c k m Ht Hc Hm Hk.
  unfold dense_jac, equalities_linearised.
  assert (EU : iu o k m = (VARX o + (k * nu + m))%nat) by (unfold iu, VARX, NUM_NODES; lia).
  assert (k * nu + m < VARU o)%nat by (unfold VARU; nia).
  rewrite (loop_once _ _ (fun cj : vec R * mat R => snd cj (ix o t c) (iu o k m)) (NUM_NODES o) _ _ (fun n => (n =? t)%nat)
    (fun n v => if (n =? k)%nat then v - t_scale o * at_node o (o_dyn_jac o) var n c (nx + m)%nat else v) t); auto.
  - cbn [snd]. rewrite jac_base_zero by (auto; lia). rewrite (Nat.eqb_sym k t). destruct (t =? k)%nat; ring.
  - intros n [v J] Hn'. cbn [snd]. unfold mdec.
    rewrite (in_seg_false (VARX o + VARU o) np) by lia. rewrite andb_false_r.
    replace (in_seg (n * nu + VARX o) nu (iu o k m)) with (in_seg (n * nu) nu (k * nu + m)).
    2:{ rewrite EU. unfold in_seg. f_equal; [destruct (Nat.leb_spec (n * nu) (k * nu + m)), (Nat.leb_spec (n * nu + VARX o) (VARX o + (k * nu + m)))|
        destruct (Nat.ltb_spec (k * nu + m) (n * nu + nu)), (Nat.ltb_spec (VARX o + (k * nu + m)) (n * nu + VARX o + nu))]; auto; lia. }
    rewrite (in_seg_false (n * nx) nx (iu o k m)). 2:{ right. rewrite EU. unfold VARX. nia. }
    rewrite andb_false_r. rewrite node_eqb by auto. unfold ix. rewrite node_eqb by auto.
    destruct (Nat.eqb_spec n t) as [->|]; cbn [andb]; auto.
    destruct (Nat.eqb_spec t k) as [<-|]; cbn [andb]; auto.
    replace (t * nx + c - t * nx)%nat with c by lia.
    replace (iu o t m - (t * nu + VARX o))%nat with m by lia. reflexivity.
  - apply Nat.eqb_refl.
  - intros. apply Nat.eqb_neq. auto.
Qed.

Lemma dense_jac_p : chebyshev_ocp o -> forall var t c m,
  (t < NUM_NODES o)%nat -> (c < nx)%nat -> (m < np)%nat ->
  dense_jac var (ix o t c) (ip o m) = - (t_scale o * at_node o (o_dyn_jac o) var t c (nx + nu + m)%nat).
Proof.
  intros (HP & HS & HX & HD & Hn & Hw) var t c m Ht Hc Hm.
  unfold dense_jac, equalities_linearised.
  assert (EP : ip o m = (VARX o + VARU o + m)%nat) by reflexivity.
  rewrite (loop_once _ _ (fun cj : vec R * mat R => snd cj (ix o t c) (ip o m)) (NUM_NODES o) _ _ (fun n => (n =? t)%nat)
    (fun n v => v - t_scale o * at_node o (o_dyn_jac o) var n c (nx + nu + m)%nat) t); auto.
  - cbn [snd]. rewrite jac_base_zero by (auto; lia). ring.
  - intros n [v J] Hn'. cbn [snd]. unfold mdec.
    rewrite (in_seg_true (VARX o + VARU o) np) by lia. rewrite andb_true_r.
    rewrite (in_seg_false (n * nu + VARX o) nu). 2:{ right. rewrite EP. unfold VARU. nia. }
    rewrite (in_seg_false (n * nx) nx (ip o m)). 2:{ right. rewrite EP. unfold VARX. nia. }
    rewrite !andb_false_r. unfold ix. rewrite node_eqb by auto.
    destruct (Nat.eqb_spec n t) as [->|]; auto.
    replace (t * nx + c - t * nx)%nat with c by lia.
    replace (ip o m - (VARX o + VARU o))%nat with m by lia. reflexivity.
  - apply Nat.eqb_refl.
  - intros. apply Nat.eqb_neq. auto.
Qed.

(** * sums over the optimisation variable *)
Lemma rsum_blocks : forall m n f, rsum (m * n) f = rsum n (fun k => rsum m (fun c => f (k * m + c)%nat)).
Proof.
  intros m n f. induction n as [|n IH].
  - rewrite Nat.mul_0_r. reflexivity.
  - replace (m * S n)%nat with (m * n + m)%nat by lia. rewrite rsum_split, rsum_S, IH. f_equal.
    apply rsum_ext. intros. f_equal. lia.
Qed.

Lemma rsum_var : forall f, rsum (VAR o) f =
  rsum (NUM_NODES o) (fun k => rsum nx (fun c => f (ix o k c)))
  + rsum (NUM_NODES o) (fun k => rsum nu (fun c => f (iu o k c)))
  + rsum np (fun c => f (ip o c)).
Proof.
  intro f. unfold VAR. rewrite !rsum_split. unfold VARX at 1. unfold VARU at 1. rewrite !rsum_blocks.
  f_equal. f_equal. apply rsum_ext. intros k _. apply rsum_ext. intros c _. f_equal. unfold iu, VARX, NUM_NODES. lia.
Qed.

Lemma rsum_seg : forall n a m f, (a + m <= n)%nat ->
  rsum n (fun k => if in_seg a m k then f (k - a)%nat else 0) = rsum m f.
Proof.
  intros n a m f H. replace n with (a + (m + (n - a - m)))%nat by lia. rewrite !rsum_split.
  rewrite (rsum_zero a) by (intros; rewrite in_seg_false by lia; reflexivity).
  rewrite (rsum_zero (n - a - m)) by (intros; rewrite in_seg_false by lia; reflexivity).
  rewrite (rsum_ext m _ f); [ring|]. intros. rewrite in_seg_true by lia. f_equal. lia.
Qed.

Lemma dense_jac_dir : chebyshev_ocp o -> forall var v s l c,
  (s < Sg)%nat -> (l <= P)%nat -> (l < P \/ s = Sg - 1)%nat -> (c < nx)%nat ->
  rsum (VAR o) (fun j => dense_jac var (ix o (s * P + l) c) j * v j) =
  DX o v (s * P + l)%nat c
  - t_scale o * node_dot o (at_node o (o_dyn_jac o) var (s * P + l)%nat c)
                  (state o v (s * P + l)) (control o v (s * P + l)) (params o v).
Proof.
  intros Hch var v s l c Hs Hl Hd Hc. set (t := (s * P + l)%nat).
  assert (Ht : (t < NUM_NODES o)%nat) by (apply node_lt; auto).
  rewrite rsum_var.
  rewrite (rsum_ext (NUM_NODES o) (fun k => rsum nx (fun m => dense_jac var (ix o t c) (ix o k m) * v (ix o k m)))
    (fun k => dmat s l k * v (ix o k c) - (if (k =? t)%nat then (fun k => t_scale o * rsum nx (fun m => at_node o (o_dyn_jac o) var k c m * v (ix o k m))) k else 0))).
  2:{ intros k Hk. rewrite (rsum_ext nx _ (fun m => (if (m =? c)%nat then dmat s l k * v (ix o k m) else 0) -
         (if (k =? t)%nat then t_scale o * (at_node o (o_dyn_jac o) var t c m * v (ix o k m)) else 0))).
      - rewrite rsum_minus. rewrite (rsum_delta nx c (fun m => dmat s l k * v (ix o k m))) by auto. f_equal.
        destruct (Nat.eqb_spec k t) as [->|].
        + rewrite rsum_scal. reflexivity.
        + apply rsum_zero; auto.
      - intros m Hm. unfold t at 1. rewrite dense_jac_x by auto. fold t. rewrite (Nat.eqb_sym c m).
        destruct (m =? c)%nat, (k =? t)%nat; ring. }
  rewrite (rsum_ext (NUM_NODES o) (fun k => rsum nu (fun m => dense_jac var (ix o t c) (iu o k m) * v (iu o k m)))
    (fun k => if (k =? t)%nat then (fun k => - (t_scale o * rsum nu (fun m => at_node o (o_dyn_jac o) var k c (nx + m)%nat * v (iu o k m)))) k else 0)).
  2:{ intros k Hk. destruct (Nat.eqb_spec k t) as [->|Hne].
      - rewrite <- rsum_scal, <- rsum_opp. apply rsum_ext. intros m Hm. rewrite dense_jac_u by auto. rewrite Nat.eqb_refl. ring.
      - apply rsum_zero. intros m Hm. rewrite dense_jac_u by auto. destruct (Nat.eqb_spec k t); [contradiction|ring]. }
  rewrite (rsum_ext np _ (fun m => - (t_scale o * (at_node o (o_dyn_jac o) var t c (nx + nu + m)%nat * v (ip o m))))).
  2:{ intros m Hm. rewrite dense_jac_p by auto. ring. }
  rewrite rsum_minus, !rsum_delta by auto. rewrite rsum_opp, rsum_scal.
  replace (rsum (NUM_NODES o) (fun i => dmat s l i * v (ix o i c)))
    with (rsum (P + 1) (fun j => m_D o l j * state o v (s * P + j)%nat c)).
  2:{ rewrite <- (rsum_seg (NUM_NODES o) (s * P) (P + 1)) by (unfold NUM_NODES; nia).
      apply rsum_ext. intros k Hk. unfold dmat. destruct (in_seg (s * P) (P + 1) k) eqn:E; [|ring]. apply in_seg_spec in E.
      unfold state. replace (s * P + (k - s * P))%nat with k by lia. reflexivity. }
  unfold t. rewrite DX_eq by auto. fold t. replace (P + 1)%nat with (S P) by lia.
  unfold node_dot, state, control, params. ring.
Qed.
End P.
