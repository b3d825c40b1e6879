(** Proofs about GenericOCP (Gen_Model.v). *)
Require Import Arith List Bool Lia Reals Lra String.
From Verif Require Import Scal RSum PolyR Poly_Spec Blk Cheb_Proofs Ocp_Model Ocp_Proofs Cas_Model Cas_Spec Cas_Proofs Pso_Model Pso_Spec Pso_Proofs
  Nmpc_Model Nmpc_Proofs Gen_Model Gen_Spec.
Import ListNotations.
Local Open Scope R_scope.

(** * blocks *)
Definition allb (ok : R -> Prop) (b : list (nat * vec R)) : Prop := forall i, (i < size b)%nat -> ok (cat b i).
Lemma allb_nil : forall ok, allb ok nil <-> True.
Proof. intro ok. split; auto. intros _ i Hi. simpl in Hi. lia. Qed.
Lemma allb_cons : forall ok n v b, allb ok ((n, v) :: b) <-> (forall i, (i < n)%nat -> ok (v i)) /\ allb ok b.
Proof.
  intros ok n v b. unfold allb. simpl. split.
  - intro H. split.
    + intros i Hi. specialize (H i ltac:(lia)). destruct (Nat.ltb_spec i n); [auto|lia].
    + intros i Hi. specialize (H (n + i)%nat ltac:(lia)). destruct (Nat.ltb_spec (n + i) n); [lia|].
      replace (n + i - n)%nat with i in H by lia. auto.
  - intros [H1 H2] i Hi. destruct (Nat.ltb_spec i n); auto. apply H2. lia.
Qed.
Lemma allb_app : forall ok a b, allb ok (a ++ b) <-> allb ok a /\ allb ok b.
Proof.
  intros ok a b. induction a as [|[n v] a IH]; simpl app.
  - rewrite allb_nil. tauto.
  - rewrite !allb_cons. tauto.
Qed.
Lemma size_app : forall a b, size (a ++ b) = (size a + size b)%nat.
Proof. induction a as [|[n v] a IH]; intro b; simpl; auto. rewrite IH. lia. Qed.

Section Gen.
Variable s : gocp.
Local Notation c := (g_cas s).
Local Notation P := (cP c).
Local Notation Sg := (cS c).
Local Notation nx := (cX c).
Local Notation nu := (cU c).
Local Notation np := (cNP c).
Local Notation nd := (cND c).
Local Notation N := (cas_N c).
Local Notation ts := (cas_ts c (g_t0 s) (g_tf s)).

Lemma N_last : N = S (last s).
Proof. unfold cas_N, last. lia. Qed.
Lemma diag_factor : forall o i, diag_of s o i = factor s o i.
Proof. intros o i. unfold diag_of, factor. destruct (g_scaling s), o; reflexivity. Qed.

(** * what an accepted set-up means *)
Lemma setup_inv : gen_new s <> None -> setup_ok s = true.
Proof. unfold gen_new. destruct (setup_ok s); auto. Qed.
Lemma setup_parts : setup_ok s = true -> scales_ok s = true /\ (exists a, diff_block s z z = Some a) /\ (exists a, cost_rows s z z = Some a) /\
  (exists a, ineq_blocks s z z = Some a) /\ (exists a, final_blocks s z z = Some a).
Proof.
  unfold setup_ok. intro H. apply andb_prop in H. destruct H as [H1 H2]. split; auto.
  destruct (penalty_type s); [|discriminate]. destruct (diff_block s z z); [|discriminate]. destruct (cost_rows s z z); [|discriminate].
  destruct (ineq_blocks s z z); [|discriminate]. destruct (final_blocks s z z); [|discriminate]. repeat split; eauto.
Qed.
Lemma fun_rows_num : forall n F x d v, fun_rows s n F x d = Some v -> num_args c = 4%nat.
Proof.
  intros n F x d v H. destruct (Nat.eq_dec (num_args c) 4) as [E|E]; auto. unfold fun_rows in H. rewrite cas_function_none in H; [discriminate|]. cbn. auto.
Qed.
Lemma ineq_num : (exists a, ineq_blocks s z z = Some a) -> g_nic s <> 0%nat -> num_args c = 4%nat.
Proof.
  intros [a H] Hn. unfold ineq_blocks in H. apply Nat.eqb_neq in Hn. rewrite Hn in H.
  destruct (fun_rows s (g_nic s) (g_ic s) z z) eqn:E; [|discriminate]. apply fun_rows_num in E. auto.
Qed.
Lemma final_num : (exists a, final_blocks s z z = Some a) -> g_nfc s <> 0%nat -> num_args c = 4%nat.
Proof.
  intros [a H] Hn. unfold final_blocks in H. apply Nat.eqb_neq in Hn. rewrite Hn in H.
  destruct (fun_rows s (g_nfc s) (g_fc s) z z) eqn:E; [|discriminate]. apply fun_rows_num in E. auto.
Qed.

(** * functions at the nodes *)
Definition dl (d : vec R) : list R := map d (seq 0 nd).
Lemma inv_factor : forall o, dinv (diag_of s o) = fun i => / factor s o i.
Proof. intro o. unfold dinv, diag_of, factor. destruct (g_scaling s), o; reflexivity. Qed.
Lemma px_eq : forall x k, dmul (dinv (g_SX s)) (slice x (k * nx) nx) = map (tx (physical s x) k) (seq 0 nx).
Proof. intros. rewrite dmul_slice. unfold g_SX. rewrite inv_factor. reflexivity. Qed.
Lemma pu_eq : forall x k, dmul (dinv (g_SU s)) (slice (gU s x) (k * nu) nu) = map (tu (physical s x) k) (seq 0 nu).
Proof.
  intros. rewrite dmul_slice. unfold g_SU. rewrite inv_factor. apply map_ext. intro i. cbn [tu physical]. unfold gU, U_START. rewrite N_last.
  f_equal. f_equal. unfold last. lia.
Qed.
Lemma gP_eq : forall x i, gP s x i = x ((last s + 1) * nx + (last s + 1) * nu + i)%nat.
Proof. intros. unfold gP, P_START, U_START. rewrite N_last. f_equal. lia. Qed.
Lemma pp_eq : forall x, dmul (dinv (g_SP s)) (slice (gP s x) 0 np) = map (tp (physical s x)) (seq 0 np).
Proof. intros. rewrite dmul_slice. unfold g_SP. rewrite inv_factor. apply map_ext. intro i. cbn [tp physical Nat.add]. rewrite gP_eq. reflexivity. Qed.

Lemma args4 : forall X U Pv Dv k, num_args c = 4%nat -> node_args c X U Pv Dv k = [slice X (k * nx) nx; slice U (k * nu) nu; slice Pv 0 np; slice Dv 0 nd].
Proof. intros X U Pv Dv k H. unfold node_args, extra. unfold num_args in H. destruct ((np =? 0) && (nd =? 0))%nat; [discriminate|reflexivity]. Qed.
Lemma gfun_val : forall n F x d k, num_args c = 4%nat ->
  f_val (gfun s n F) (node_args c x (gU s x) (gP s x) d k) = at_node s (physical s x) (dl d) F k.
Proof. intros n F x d k H. rewrite args4 by auto. cbn [f_val gfun]. rewrite px_eq, pu_eq, pp_eq. reflexivity. Qed.

Lemma fun_rows_some : forall n F x d, num_args c = 4%nat -> exists v, fun_rows s n F x d = Some v /\
  forall k i, (k <= last s)%nat -> (i < n)%nat -> v (k * n + i)%nat = at_node s (physical s x) (dl d) F k i.
Proof.
  intros n F x d H. destruct (cas_function_some c (gfun s n F) x (gU s x) (gP s x) d) as (v & E & Hv); [cbn; auto|].
  exists v. split; [exact E|]. intros k i Hk Hi. specialize (Hv k i). cbn [f_out gfun] in Hv. unfold comp in Hv. rewrite Hv; [|rewrite N_last; lia|auto].
  rewrite gfun_val by auto. reflexivity.
Qed.

Hypothesis Hd : dims_ok c.
Hypothesis Ht : g_t0 s < g_tf s.

Lemma decomp : forall k, (k <= last s)%nat -> exists g l, k = (g * P + l)%nat /\ (g < Sg)%nat /\ (l <= P)%nat /\ (l < P \/ g = Sg - 1)%nat.
Proof.
  intros k Hk. unfold last in Hk. destruct Hd as (HP & HS & _). destruct (Nat.eq_dec k (P * Sg)) as [->|Hne].
  - exists (Sg - 1)%nat, P. repeat split; try lia. nia.
  - destruct (index_split P Sg k ltac:(lia)) as (g & l & -> & Hg & Hl). exists g, l. repeat split; auto; lia.
Qed.
Lemma seg_bound : forall g l, (g < Sg)%nat -> (l <= P)%nat -> (g * P + l <= last s)%nat.
Proof. intros. unfold last. nia. Qed.

(** * derivatives on the grid *)
Lemma interp : forall g W, exists q q', is_poly P q /\ derivative_of q q' /\ forall j, (j <= P)%nat -> q (gtime s g j) = W j.
Proof.
  intros g W. destruct (proj1 (seg_collocation c Hd (g_t0 s) (g_tf s) Ht g W (fun _ => 0) (fun _ => False))) as (q & q' & A & B & C & _).
  - intros l _ [].
  - exists q, q'. auto.
Qed.
Lemma nder_S : forall n W D V, nder s n W D ->
  (forall g l, (g < Sg)%nat -> (l <= P)%nat -> (l < P \/ g = Sg - 1)%nat ->
     V (g * P + l)%nat = rsum (S P) (fun j => cas_D P l j * D (g * P + j)%nat)) -> nder s (S n) W V.
Proof.
  intros n W D V HD HV. exists D. split; auto. intros g Hg. destruct (interp g (fun j => D (g * P + j)%nat)) as (q & q' & A & B & C).
  exists q, q'. split; auto. split; auto. split; auto. intros l Hl Ho. rewrite HV by auto.
  rewrite <- ts_len by apply Hd. unfold gtime. rewrite <- (seg_diff c Hd (g_t0 s) (g_tf s) q q' g l A B Hl). apply rsum_ext. intros j Hj. rewrite <- C by lia. reflexivity.
Qed.
Lemma nder_inv : forall n W V, nder s (S n) W V -> exists D, nder s n W D /\
  forall g l, (g < Sg)%nat -> (l <= P)%nat -> (l < P \/ g = Sg - 1)%nat ->
     V (g * P + l)%nat = rsum (S P) (fun j => cas_D P l j * D (g * P + j)%nat).
Proof.
  intros n W V (D & HD & H). exists D. split; auto. intros g l Hg Hl Ho. destruct (H g Hg) as (q & q' & A & B & C & E).
  rewrite E by auto. rewrite <- ts_len by apply Hd. unfold gtime. rewrite <- (seg_diff c Hd (g_t0 s) (g_tf s) q q' g l A B Hl).
  apply rsum_ext. intros j Hj. unfold gtime in C. rewrite C by lia. reflexivity.
Qed.
Lemma nder_unique : forall n W W' V V', (forall k, (k <= last s)%nat -> W k = W' k) -> nder s n W V -> nder s n W' V' -> forall k, (k <= last s)%nat -> V k = V' k.
Proof.
  induction n as [|n IH]; intros W W' V V' HW H H' k Hk.
  - simpl in H, H'. rewrite H, H' by auto. auto.
  - apply nder_inv in H. apply nder_inv in H'. destruct H as (D & HD & H). destruct H' as (D' & HD' & H').
    destruct (decomp k Hk) as (g & l & -> & Hg & Hl & Ho). rewrite H, H' by auto. apply rsum_ext. intros j Hj. f_equal.
    apply (IH W W'); auto. apply seg_bound; auto. lia.
Qed.
Lemma iter_nder : forall m v order W i, (i < m)%nat -> (forall k, (k <= last s)%nat -> v (k * m + i)%nat = W k) ->
  nder s order W (fun k => loop order (fun _ v => mtimes (N * m) (kron m (cas_comp c)) v) v (k * m + i)%nat).
Proof.
  intros m v order W i Hi H. induction order as [|n IH].
  - simpl. auto.
  - apply nder_S with (fun k => loop n (fun _ v => mtimes (N * m) (kron m (cas_comp c)) v) v (k * m + i)%nat); auto.
    intros g l Hg Hl Ho. rewrite loop_S. rewrite comp_mul by (auto; apply Hd). reflexivity.
Qed.
Lemma der_rows_some : forall order n F x d, num_args c = 4%nat -> exists v, der_rows s order n F x d = Some v /\
  forall i, (i < n)%nat -> nder s order (fun k => at_node s (physical s x) (dl d) F k i) (fun k => v (k * n + i)%nat).
Proof.
  intros order n F x d H. destruct (fun_rows_some n F x d H) as (v & E & Hv). unfold der_rows, cas_differentiate. unfold fun_rows in E. rewrite E.
  eexists. split; [reflexivity|]. intros i Hi. apply iter_nder; auto.
Qed.

(** * path constraints *)
Definition dok (order : nat) (e : dexpr) (x d : vec R) (ok : R -> Prop) : Prop :=
  forall i, (i < e_n e)%nat -> exists v, nder s order (fun k => at_node s (physical s x) (dl d) (e_f e) k i) v /\
    forall k, (k <= last s)%nat -> ok (v k - e_c e i).
Lemma diff_blocks_some : forall order l x d, num_args c = 4%nat -> exists b, diff_blocks s order l x d = Some b /\
  size b = fold_right (fun e a => N * e_n e + a)%nat 0%nat l /\ forall ok, allb ok b <-> forall e, In e l -> dok order e x d ok.
Proof.
  intros order l x d H. induction l as [|e l (b & E & Hs & Hb)].
  - exists nil. split; [reflexivity|]. split; [reflexivity|]. intro ok. rewrite allb_nil. split; [intros _ e []|auto].
  - cbn [diff_blocks]. destruct (der_rows_some order (e_n e) (e_f e) x d H) as (v & Ev & Hv). rewrite Ev, E. eexists. split; [reflexivity|].
    split; [cbn [size fold_right]; rewrite Hs; reflexivity|]. intro ok. rewrite allb_cons, Hb.
    assert (K : (forall i, (i < N * e_n e)%nat -> ok (v i - e_c e (i mod e_n e)%nat)) <-> dok order e x d ok).
    { split.
      - intros K i Hi. exists (fun k => v (k * e_n e + i)%nat). split; [apply Hv; auto|]. intros k Hk.
        assert (B : (k * e_n e + i < N * e_n e)%nat) by (rewrite N_last; nia). specialize (K (k * e_n e + i)%nat B).
        rewrite (Nat.add_comm (k * e_n e)), Nat.mod_add, Nat.mod_small in K by lia. rewrite (Nat.add_comm i) in K. exact K.
      - intros K i Hi. destruct (index_split (e_n e) N i ltac:(lia)) as (k & j & -> & Hk & Hj). rewrite N_last in Hk.
        destruct (K j Hj) as (w & Hw & Ho). rewrite (nder_unique order _ _ _ _ (fun k _ => eq_refl) (Hv j Hj) Hw k) by lia.
        rewrite (Nat.add_comm (k * e_n e)), Nat.mod_add, Nat.mod_small by lia. apply Ho. lia. }
    rewrite K. split.
    + intros [K1 K2] e' [<-|He]; auto.
    + intro K1. split; [apply K1; left; auto|intros e' He; apply K1; right; auto].
Qed.

Lemma ineq_some : forall x d, (g_nic s <> 0%nat -> num_args c = 4%nat) -> exists b, ineq_blocks s x d = Some b /\
  size b = (if (g_nic s =? 0)%nat then 0 else N * g_nic s + (fold_right (fun e a => N * e_n e + a) 0 (g_df s) + fold_right (fun e a => N * e_n e + a) 0 (g_ddf s)))%nat /\
  forall ok, allb ok b <-> (g_nic s <> 0%nat ->
     (forall k i, (k <= last s)%nat -> (i < g_nic s)%nat -> ok (at_node s (physical s x) (dl d) (g_ic s) k i)) /\
     (forall e, In e (g_df s) -> dok 1 e x d ok) /\ (forall e, In e (g_ddf s) -> dok 2 e x d ok)).
Proof.
  intros x d H. unfold ineq_blocks. destruct (Nat.eqb_spec (g_nic s) 0) as [E|E].
  - exists nil. split; [reflexivity|]. split; [reflexivity|]. intro ok. rewrite allb_nil. tauto.
  - specialize (H E). destruct (fun_rows_some (g_nic s) (g_ic s) x d H) as (v & -> & Hv).
    destruct (diff_blocks_some 1 (g_df s) x d H) as (a & -> & Sa & Ha). destruct (diff_blocks_some 2 (g_ddf s) x d H) as (b & -> & Sb & Hb).
    eexists. split; [reflexivity|]. split; [cbn [size]; rewrite size_app, Sa, Sb; reflexivity|]. intro ok. rewrite allb_cons, allb_app, Ha, Hb.
    assert (K : (forall i, (i < N * g_nic s)%nat -> ok (v i)) <-> (forall k i, (k <= last s)%nat -> (i < g_nic s)%nat -> ok (at_node s (physical s x) (dl d) (g_ic s) k i))).
    { split.
      - intros K k i Hk Hi. rewrite <- Hv by auto. apply K. rewrite N_last. nia.
      - intros K i Hi. destruct (index_split (g_nic s) N i ltac:(lia)) as (k & j & -> & Hk & Hj). rewrite N_last in Hk. rewrite Hv by lia. apply K; lia. }
    rewrite K. tauto.
Qed.
Lemma final_some : forall x d, (g_nfc s <> 0%nat -> num_args c = 4%nat) -> exists b, final_blocks s x d = Some b /\
  size b = (if (g_nfc s =? 0)%nat then 0 else 1)%nat /\
  forall ok, allb ok b <-> (g_nfc s <> 0%nat -> ok (at_node s (physical s x) (dl d) (g_fc s) 0%nat 0%nat)).
Proof.
  intros x d H. unfold final_blocks. destruct (Nat.eqb_spec (g_nfc s) 0) as [E|E].
  - exists nil. split; [reflexivity|]. split; [reflexivity|]. intro ok. rewrite allb_nil. tauto.
  - specialize (H E). destruct (fun_rows_some (g_nfc s) (g_fc s) x d H) as (v & -> & Hv). eexists. split; [reflexivity|]. split; [reflexivity|].
    intro ok. rewrite allb_cons, allb_nil. assert (E0 := Hv 0%nat 0%nat ltac:(lia) ltac:(lia)). simpl in E0. rewrite <- E0.
    split; [intros [K _] _; apply K; lia|]. intro K. split; auto. intros i Hi. assert (i = 0)%nat as -> by lia. auto.
Qed.

Hypothesis Hs : setup_ok s = true.

Lemma path_some : forall x d, size (path_blocks s x d) = n_path s /\
  forall ok, allb ok (path_blocks s x d) <-> path_all s (dl d) (physical s x) ok.
Proof.
  destruct (setup_parts Hs) as (_ & _ & _ & H1 & H2). pose proof (ineq_num H1) as A. pose proof (final_num H2) as B. intros x d.
  unfold n_path, path_blocks.
  destruct (ineq_some x d A) as (a & -> & Sa & Ha). destruct (final_some x d B) as (b & -> & Sb & Hb).
  destruct (ineq_some z z A) as (a' & -> & Sa' & _). destruct (final_some z z B) as (b' & -> & Sb' & _). cbn [oget].
  split; [rewrite !size_app, Sa, Sb, Sa', Sb'; reflexivity|]. intro ok. rewrite allb_app, Ha, Hb. reflexivity.
Qed.

(** positivity of the factors *)
Hypothesis Hpos : forall l, g_sx s = Some l \/ g_su s = Some l \/ g_sp s = Some l -> forall i, (i < List.length l)%nat -> 0 < nth i l 0.
Lemma fac_pos : forall o n, o = g_sx s \/ o = g_su s \/ o = g_sp s -> len_ok s o n = true -> forall i, (i < n)%nat -> 0 < factor s o i.
Proof.
  intros o n Ho Hl i Hi. unfold factor, len_ok in *. destruct (g_scaling s), o as [l|]; try lra. apply Nat.eqb_eq in Hl. apply (Hpos l); [|lia].
  destruct Ho as [H|[H|H]]; auto.
Qed.
Lemma fx_pos : forall i, (i < nx)%nat -> 0 < factor s (g_sx s) i.
Proof.
  destruct (setup_parts Hs) as (H & _). unfold scales_ok in H. apply andb_prop in H. destruct H as [H _]. apply andb_prop in H. destruct H as [H _].
  apply andb_prop in H. destruct H as [H _]. apply fac_pos; auto.
Qed.
Lemma fu_pos : forall i, (i < nu)%nat -> 0 < factor s (g_su s) i.
Proof.
  destruct (setup_parts Hs) as (H & _). unfold scales_ok in H. apply andb_prop in H. destruct H as [H _]. apply andb_prop in H. destruct H as [H _].
  apply andb_prop in H. destruct H as [_ H]. apply fac_pos; auto.
Qed.
Lemma fp_pos : forall i, (i < np)%nat -> 0 < factor s (g_sp s) i.
Proof.
  destruct (setup_parts Hs) as (H & _). unfold scales_ok in H. apply andb_prop in H. destruct H as [H _]. apply andb_prop in H. destruct H as [_ H].
  apply fac_pos; auto.
Qed.

(** * dynamics *)
Definition scaled_p (w : traj) : traj := mkT (tx w) (tu w) (fun i => factor s (g_sp s) i * tp w i).
Lemma dyn_val : forall x d k i, f_val (dyn_func s) (node_args c x (gU s x) (gP s x) d k) i =
  factor s (g_sx s) i * at_node s (scaled_p (physical s x)) (dl d) (g_dyn s) k i.
Proof.
  intros x d k i.
  assert (E : map (fun i => factor s (g_sp s) i * tp (physical s x) i) (seq 0 np) = slice (gP s x) 0 np).
  { unfold slice. apply map_ext_in. intros j Hj. apply in_seq in Hj. cbn [tp physical Nat.add]. rewrite gP_eq.
    pose proof (fp_pos j ltac:(lia)). field. lra. }
  unfold at_node, scaled_p. cbn [tx tu tp]. rewrite E. unfold node_args, dyn_func. cbn [f_val]. rewrite px_eq, pu_eq.
  unfold g_SX. rewrite diag_factor. f_equal. unfold extra. destruct (Nat.eqb_spec np 0) as [E1|E1], (Nat.eqb_spec nd 0) as [E2|E2]; cbn [andb nth]; try reflexivity.
  unfold dl, slice. rewrite E1, E2. reflexivity.
Qed.
Lemma dyn_ok : f_nin (dyn_func s) = num_args c /\ f_out (dyn_func s) = nx.
Proof. unfold dyn_func, num_args. auto. Qed.
Lemma res_iff : forall x d, (forall i, (i < nx * N)%nat -> dyn_res c (dyn_func s) (g_t0 s) (g_tf s) x (gU s x) (gP s x) d i = 0) <-> dynamics_ok s (dl d) (physical s x).
Proof.
  intros x d. etransitivity; [exact (dyn_collocation c (dyn_func s) (g_t0 s) (g_tf s) x (gU s x) (gP s x) d Hd Ht)|].
  unfold dynamics_ok. fold (scaled_p (physical s x)).
  split; intros H g i Hg Hi; destruct (H g i Hg Hi) as (q & q' & Hq & Hq' & Hv & Hc); pose proof (fx_pos i Hi) as Hp.
  - exists (fun t => / factor s (g_sx s) i * q t), (fun t => / factor s (g_sx s) i * q' t). split; [apply scale_poly; auto|]. split; [apply scale_deriv; auto|]. split.
    + intros j Hj. unfold gtime. rewrite Hv by auto. reflexivity.
    + intros l Hl Ho. unfold gtime. rewrite Hc by auto. rewrite dyn_val. field. lra.
  - exists (fun t => factor s (g_sx s) i * q t), (fun t => factor s (g_sx s) i * q' t). split; [apply scale_poly; auto|]. split; [apply scale_deriv; auto|]. split.
    + intros j Hj. change (factor s (g_sx s) i * q (gtime s g j) = comp nx x (g * P + j) i). rewrite Hv by auto. cbn [tx physical]. unfold comp. field. lra.
    + intros l Hl Ho. change (factor s (g_sx s) i * q' (gtime s g l) = f_val (dyn_func s) (node_args c x (gU s x) (gP s x) d (g * P + l)) i).
      rewrite Hc by auto. rewrite dyn_val. reflexivity.
Qed.
Lemma diff_some : forall x d, exists b, diff_block s x d = Some b /\ size b = n_diff s /\ n_diff s = (if g_soft s then 0 else N * nx)%nat /\
  (allb (fun v => v = 0) b <-> (g_soft s = false -> dynamics_ok s (dl d) (physical s x))).
Proof.
  intros x d. destruct dyn_ok as [D1 D2]. unfold n_diff, diff_block, diff_rows, soft_error. destruct (g_soft s).
  - rewrite !soft_some by (auto; apply Hd). exists nil. split; [reflexivity|]. split; [reflexivity|]. split; [reflexivity|]. rewrite allb_nil. split; auto. intros _ H. discriminate.
  - rewrite !cas_dynamics_some by auto. eexists. split; [reflexivity|]. cbn [oget size]. split; [reflexivity|]. split; [lia|].
    rewrite allb_cons, allb_nil. rewrite <- res_iff. rewrite (Nat.mul_comm nx). tauto.
Qed.

(** * points that agree on states, controls and parameters *)
Lemma agree_args : forall x y d k, (forall i, (i < P_END s)%nat -> x i = y i) -> (k < N)%nat ->
  node_args c x (gU s x) (gP s x) d k = node_args c y (gU s y) (gP s y) d k.
Proof.
  intros x y d k H Hk. assert (A : (k * nx + nx <= N * nx)%nat) by nia. assert (B : (k * nu + nu <= N * nu)%nat) by nia. unfold P_END, P_START, U_START in H.
  unfold node_args. f_equal; [|f_equal].
  - apply slice_ext. intros i Hi. apply H. lia.
  - apply slice_ext. intros i Hi. unfold gU, U_START. apply H. lia.
  - unfold extra. destruct (_ && _); auto. f_equal. apply slice_ext. intros i Hi. unfold gP, P_START, U_START. apply H. lia.
Qed.
Lemma agree_fun : forall x y d n F, (forall i, (i < P_END s)%nat -> x i = y i) -> fun_rows s n F x d = fun_rows s n F y d.
Proof.
  intros x y d n F H. unfold fun_rows, cas_function. apply oloop_ext. intros k v Hk. rewrite (agree_args x y d k H Hk). reflexivity.
Qed.
Lemma agree_der : forall x y d o n F, (forall i, (i < P_END s)%nat -> x i = y i) -> der_rows s o n F x d = der_rows s o n F y d.
Proof.
  intros x y d o n F H. pose proof (agree_fun x y d n F H) as E. unfold fun_rows in E. unfold der_rows, cas_differentiate. rewrite E. reflexivity.
Qed.
Lemma agree_path : forall x y d, (forall i, (i < P_END s)%nat -> x i = y i) -> path_blocks s x d = path_blocks s y d.
Proof.
  intros x y d H. assert (B : forall o l, diff_blocks s o l x d = diff_blocks s o l y d).
  { intros o l. induction l as [|e l IH]; [reflexivity|]. cbn [diff_blocks]. rewrite (agree_der x y d o _ _ H), IH. reflexivity. }
  unfold path_blocks, ineq_blocks, final_blocks. rewrite !(agree_fun x y d _ _ H), !B. reflexivity.
Qed.
Lemma agree_phys : forall x y k i, (forall i, (i < P_END s)%nat -> x i = y i) -> (k <= last s)%nat ->
  ((i < nx)%nat -> tx (physical s x) k i = tx (physical s y) k i) /\ ((i < nu)%nat -> tu (physical s x) k i = tu (physical s y) k i) /\
  ((i < np)%nat -> tp (physical s x) i = tp (physical s y) i).
Proof.
  intros x y k i H Hk. unfold P_END, P_START, U_START in H. rewrite N_last in H. cbn [tx tu tp physical].
  assert (A : (k * nx + nx <= S (last s) * nx)%nat) by nia. assert (B : (k * nu + nu <= S (last s) * nu)%nat) by nia.
  split; [|split]; intro Hi; f_equal; apply H; lia.
Qed.
Lemma agree_diff : forall x y d, (forall i, (i < P_END s)%nat -> x i = y i) -> dynamics_ok s (dl d) (physical s x) -> dynamics_ok s (dl d) (physical s y).
Proof.
  intros x y d H K g i Hg Hi. destruct (K g i Hg Hi) as (q & q' & Hq & Hq' & Hv & Hc). exists q, q'. split; auto. split; auto. split.
  - intros j Hj. rewrite Hv by auto. apply agree_phys; auto. apply seg_bound; auto.
  - intros l Hl Ho. rewrite Hc by auto. unfold at_node. cbn [tx tu tp].
    assert (B := seg_bound g l Hg Hl).
    f_equal; apply map_ext_in; intros j Hj; apply in_seq in Hj; destruct (agree_phys x y (g * P + l)%nat j H B) as (E1 & E2 & E3);
      [apply E1|apply E2|f_equal; apply E3]; lia.
Qed.

(** * invariant of the members *)
Variable ipopt : gnlp -> vec (option R) -> vec (option R) -> vec (option R) -> list R -> option (vec R) -> option (vec R) -> option (vec R * vec R * vec R).
Definition okg (o n m : nat) (d : vec R) (b : vec (option R)) (skip : nat -> Prop) (a : vec (option R)) : Prop :=
  forall k i, (k < m)%nat -> (i < n)%nat -> ~ skip k -> a (o + (k * n + i))%nat = sbound d b i.
Definition noskip (k : nat) : Prop := False.
Definition ini (k : nat) : Prop := k = last s.
Definition ginv (t : gst) (b : boxes) : Prop :=
  okg 0 nx N (g_SX s) (b_lx b) ini (s_lbx t) /\ okg 0 nx N (g_SX s) (b_ux b) ini (s_ubx t) /\
  okg (U_START s) nu N (g_SU s) (b_lu b) noskip (s_lbx t) /\ okg (U_START s) nu N (g_SU s) (b_uu b) noskip (s_ubx t) /\
  okg (P_START s) np 1 (g_SP s) (b_lp b) noskip (s_lbx t) /\ okg (P_START s) np 1 (g_SP s) (b_up b) noskip (s_ubx t) /\
  (forall i, (P_END s <= i)%nat -> s_lbx t i = (if use s then Some 0 else None) /\ s_ubx t i = None) /\
  List.length (s_p t) = nd.
Lemma gput_in : forall o n m d b old skip, okg o n m d b skip (gput o n m d b old).
Proof.
  intros o n m d b old skip k i Hk Hi _. unfold gput. rewrite in_seg_true by nia.
  replace (o + (k * n + i) - o)%nat with (i + k * n)%nat by lia. rewrite Nat.mod_add by lia. rewrite Nat.mod_small by auto. reflexivity.
Qed.
Lemma gput_out : forall o n m d b old o' n' m' d' b' skip, okg o' n' m' d' b' skip old ->
  (forall j, (j < m' * n')%nat -> (o' + j < o \/ o + m * n <= o' + j)%nat) -> okg o' n' m' d' b' skip (gput o n m d b old).
Proof.
  intros o n m d b old o' n' m' d' b' skip H Ho k i Hk Hi Hn. unfold gput. rewrite in_seg_false; [apply H; auto|]. apply Ho. nia.
Qed.
Lemma gput_end : forall o n m d b old i, (o + m * n <= i)%nat -> gput o n m d b old i = old i.
Proof. intros. unfold gput. rewrite in_seg_false; auto. Qed.

Lemma assign_length : forall p a b v p', assign p a b v = Some p' -> List.length p' = List.length p.
Proof. intros p a b v p' H. unfold assign in H. destruct (_ && _); [|discriminate]. inversion H. rewrite map_length, seq_length. reflexivity. Qed.

Lemma prepare_ginv : forall t b lb ub X0 LX LG, ginv t b -> ginv (gprepare s t lb ub X0 LX LG) b.
Proof.
  intros t b lb ub X0 LX LG (A & B & C & D & E & F & G & L). unfold ginv. cbn [s_lbx s_ubx s_p gprepare].
  assert (HN : U_START s = (last s * nx + nx)%nat) by (unfold U_START; rewrite N_last; lia).
  assert (Q : P_START s = (U_START s + N * nu)%nat) by reflexivity. assert (Q2 : P_END s = (P_START s + np)%nat) by reflexivity.
  assert (W : forall old bb, okg 0 nx N (g_SX s) bb ini old -> forall lo, okg 0 nx N (g_SX s) bb ini (fun i => if in_seg (U_START s - nx) nx i then sbound (g_SX s) lo (i - (U_START s - nx)) else old i)).
  { intros old bb H lo k i Hk Hi Hn. rewrite in_seg_false; [apply H; auto|]. left. unfold ini in Hn. rewrite N_last in Hk. assert (k < last s)%nat by lia. nia. }
  assert (W2 : forall old o n m d bb lo, (U_START s <= o)%nat -> okg o n m d bb noskip old -> okg o n m d bb noskip (fun i => if in_seg (U_START s - nx) nx i then sbound (g_SX s) lo (i - (U_START s - nx)) else old i)).
  { intros old o n m d bb lo Ho H k i Hk Hi Hn. rewrite in_seg_false; [apply H; auto|]. lia. }
  repeat split; auto; try (apply W2; auto; lia).
  - rewrite in_seg_false by lia. apply G. auto.
  - rewrite in_seg_false by lia. apply G. auto.
Qed.
Lemma gsolve_st : forall t lb ub X0 LX LG, let t' := fst (gsolve s ipopt t lb ub X0 LX LG) in let t0 := gprepare s t lb ub X0 LX LG in
  s_lbx t' = s_lbx t0 /\ s_ubx t' = s_ubx t0 /\ s_p t' = s_p t0 /\ s_x0 t' = s_x0 t0 /\ s_lamx t' = s_lamx t0 /\ s_lamg t' = s_lamg t0.
Proof. intros. unfold t', gsolve. fold t0. destruct (ipopt _ _ _ _ _ _ _); cbn; auto 10. Qed.

Lemma grun_inv : forall t b, grun ipopt s t b -> ginv t b.
Proof.
  assert (Q : P_START s = (U_START s + N * nu)%nat) by reflexivity. assert (Q2 : P_END s = (P_START s + np)%nat) by reflexivity.
  assert (Q3 : U_START s = (N * nx)%nat) by reflexivity.
  intros t b H. induction H.
  - unfold gen_new in H. destruct (setup_ok s); [|discriminate]. inversion H. clear H. unfold ginv. cbn [s_lbx s_ubx s_p nobox b_lx b_ux b_lu b_uu b_lp b_up].
    repeat split; intros; try (unfold okg, sbound; intros k i Hk Hi _; auto).
    + replace (P_END s <=? 0 + (k * nx + i))%nat with false; [rewrite andb_false_r; auto|]. symmetry. apply Nat.leb_gt. assert (k * nx + nx <= N * nx)%nat by nia. lia.
    + replace (P_END s <=? U_START s + (k * nu + i))%nat with false; [rewrite andb_false_r; auto|]. symmetry. apply Nat.leb_gt. assert (k * nu + nu <= N * nu)%nat by nia. lia.
    + replace (P_END s <=? P_START s + (k * np + i))%nat with false; [rewrite andb_false_r; auto|]. symmetry. apply Nat.leb_gt. assert (k = 0)%nat as -> by lia. lia.
    + apply Nat.leb_le in H. rewrite H, andb_true_r. reflexivity.
    + rewrite map_length, seq_length. reflexivity.
  - destruct IHgrun as (A & B & C & D & E & F & G & L). unfold ginv. cbn [s_lbx s_ubx s_p set_state_box set_bounds b_lx b_ux b_lu b_uu b_lp b_up].
    split; [apply gput_in|]. split; [apply gput_in|]. split; [apply gput_out; auto; intros; lia|]. split; [apply gput_out; auto; intros; lia|].
    split; [apply gput_out; auto; intros; lia|]. split; [apply gput_out; auto; intros; lia|]. split; [|exact L].
    intros i Hi. rewrite !gput_end by lia. apply G. auto.
  - destruct IHgrun as (A & B & C & D & E & F & G & L). unfold ginv. cbn [s_lbx s_ubx s_p set_control_box set_bounds b_lx b_ux b_lu b_uu b_lp b_up].
    split; [apply gput_out; auto; intros; lia|]. split; [apply gput_out; auto; intros; lia|]. split; [apply gput_in|]. split; [apply gput_in|].
    split; [apply gput_out; auto; intros; lia|]. split; [apply gput_out; auto; intros; lia|]. split; [|exact L].
    intros i Hi. rewrite !gput_end by lia. apply G. auto.
  - destruct IHgrun as (A & B & C & D & E & F & G & L). unfold ginv. cbn [s_lbx s_ubx s_p set_parameters_box set_bounds b_lx b_ux b_lu b_uu b_lp b_up].
    split; [apply gput_out; auto; intros; lia|]. split; [apply gput_out; auto; intros; lia|]. split; [apply gput_out; auto; intros; lia|]. split; [apply gput_out; auto; intros; lia|].
    split; [apply gput_in|]. split; [apply gput_in|]. split; [|exact L].
    intros i Hi. rewrite !gput_end by lia. apply G. auto.
  - unfold set_parameters in H0. destruct (Nat.eqb_spec (List.length v) (List.length (s_p t))) as [El|]; [|discriminate]. inversion H0. clear H0.
    destruct IHgrun as (A & B & C & D & E & F & G & L). unfold ginv. cbn [s_lbx s_ubx s_p set_p]. repeat split; auto; try (apply G; auto). lia.
  - unfold set_parameters_name in H0. destruct (s_map t n) as [[u w]|]; [|discriminate]. destruct (assign (s_p t) u w v) as [p'|] eqn:Ea; [|discriminate]. inversion H0. clear H0.
    apply assign_length in Ea. destruct IHgrun as (A & B & C & D & E & F & G & L). unfold ginv. cbn [s_lbx s_ubx s_p set_p]. repeat split; auto; try (apply G; auto). lia.
  - exact IHgrun.
  - exact IHgrun.
  - pose proof (prepare_ginv t b lb ub X0 LX LG IHgrun) as K. destruct (gsolve_st t lb ub X0 LX LG) as (E1 & E2 & E3 & _).
    unfold ginv in *. rewrite E1, E2, E3. exact K.
Qed.

(** * the problem of solve *)
Lemma prepare_init : forall t lb ub X0 LX LG i, (i < nx)%nat ->
  s_lbx (gprepare s t lb ub X0 LX LG) (last s * nx + i)%nat = sbound (g_SX s) lb i /\ s_ubx (gprepare s t lb ub X0 LX LG) (last s * nx + i)%nat = sbound (g_SX s) ub i.
Proof.
  intros t lb ub X0 LX LG i Hi. cbn [s_lbx s_ubx gprepare]. assert (E : (U_START s - nx = last s * nx)%nat) by (unfold U_START; rewrite N_last; lia).
  rewrite E. rewrite in_seg_true by lia. replace (last s * nx + i - last s * nx)%nat with i by lia. auto.
Qed.
Lemma inside_scale : forall o lo up i y, 0 < factor s o i ->
  (above (sbound (diag_of s o) lo i) y /\ below (sbound (diag_of s o) up i) y <-> inside lo up i (/ factor s o i * y)).
Proof.
  intros o lo up i y H. unfold inside. assert (H' : 0 < diag_of s o i) by (rewrite diag_factor; auto).
  rewrite above_scale, below_scale by auto. unfold dinv. rewrite diag_factor. tauto.
Qed.
Lemma bounds_iff : forall t b lb ub X0 LX LG x, ginv t b -> let t' := gprepare s t lb ub X0 LX LG in
  ((forall i, (i < n_nx (gen_nlp s))%nat -> inside (s_lbx t') (s_ubx t') i (x i)) <->
   (forall i, (i < nx)%nat -> inside lb ub i (tx (physical s x) (last s) i)) /\
   (forall k i, (k < last s)%nat -> (i < nx)%nat -> inside (b_lx b) (b_ux b) i (tx (physical s x) k i)) /\
   (forall k i, (k <= last s)%nat -> (i < nu)%nat -> inside (b_lu b) (b_uu b) i (tu (physical s x) k i)) /\
   (forall i, (i < np)%nat -> inside (b_lp b) (b_up b) i (tp (physical s x) i)) /\
   (use s = true -> forall i, (i < n_path s)%nat -> 0 <= x (P_END s + i)%nat)).
Proof.
  intros t b lb ub X0 LX LG x Hi t'. pose proof (prepare_ginv t b lb ub X0 LX LG Hi) as (A & B & C & D & E & F & G & _). fold t' in A, B, C, D, E, F, G.
  pose proof (prepare_init t lb ub X0 LX LG) as I. fold t' in I.
  assert (Q : P_START s = (U_START s + N * nu)%nat) by reflexivity. assert (Q2 : P_END s = (P_START s + np)%nat) by reflexivity.
  assert (Q3 : U_START s = (N * nx)%nat) by reflexivity. pose proof N_last as QN.
  assert (Qu : U_START s = ((last s + 1) * nx)%nat) by (rewrite Q3, QN; lia).
  assert (Qp : P_START s = ((last s + 1) * nx + (last s + 1) * nu)%nat) by (rewrite Q, Q3, QN; lia).
  assert (Sz : n_nx (gen_nlp s) = (P_END s + if use s then n_path s else 0)%nat) by reflexivity.
  split.
  - intro H. split; [|split; [|split; [|split]]].
    + intros i Hx. assert (L : (last s * nx + i < n_nx (gen_nlp s))%nat) by (rewrite Sz; nia). specialize (H _ L). destruct (I i Hx) as [I1 I2].
      unfold inside in H. rewrite I1, I2 in H. apply inside_scale in H; [exact H|apply fx_pos; auto].
    + intros k i Hk Hx. assert (L : (k * nx + i < n_nx (gen_nlp s))%nat) by (rewrite Sz; nia). specialize (H _ L).
      assert (Hn : ~ ini k) by (unfold ini; lia). unfold inside in H. pose proof (A k i ltac:(lia) Hx Hn) as A'. pose proof (B k i ltac:(lia) Hx Hn) as B'.
      simpl Nat.add in A', B'. rewrite A', B' in H. apply inside_scale in H; [exact H|apply fx_pos; auto].
    + intros k i Hk Hx. assert (L : (U_START s + (k * nu + i) < n_nx (gen_nlp s))%nat) by (rewrite Sz; nia). specialize (H _ L).
      unfold inside in H. rewrite (C k i), (D k i) in H by (auto; lia). apply inside_scale in H; [|apply fu_pos; auto]. cbn [tu physical]. rewrite <- Qu. exact H.
    + intros i Hx. assert (L : (P_START s + (0 * np + i) < n_nx (gen_nlp s))%nat) by (rewrite Sz; lia). specialize (H _ L).
      unfold inside in H. rewrite (E 0%nat i), (F 0%nat i) in H by (auto; lia). apply inside_scale in H; [|apply fp_pos; auto]. cbn [tp physical]. rewrite <- Qp. exact H.
    + intros Hu i Hx. assert (L : (P_END s + i < n_nx (gen_nlp s))%nat) by (rewrite Sz, Hu; lia). specialize (H _ L).
      destruct (G (P_END s + i)%nat ltac:(lia)) as [G1 G2]. unfold inside in H. rewrite G1, Hu in H. apply H.
  - intros (H1 & H2 & H3 & H4 & H5) i Hx. unfold inside.
    destruct (Nat.lt_ge_cases i (U_START s)) as [L|L]; [|destruct (Nat.lt_ge_cases i (P_START s)) as [L2|L2]; [|destruct (Nat.lt_ge_cases i (P_END s)) as [L3|L3]]].
    + destruct (index_split nx N i ltac:(lia)) as (k & j & -> & Hk & Hj). destruct (Nat.eq_dec k (last s)) as [->|Hne].
      * destruct (I j Hj) as [-> ->]. apply inside_scale; [apply fx_pos; auto|]. apply H1. auto.
      * assert (Hn : ~ ini k) by (unfold ini; lia). pose proof (A k j ltac:(lia) Hj Hn) as A'. pose proof (B k j ltac:(lia) Hj Hn) as B'.
        simpl Nat.add in A', B'. rewrite A', B'. apply inside_scale; [apply fx_pos; auto|]. apply H2; lia.
    + destruct (index_split nu N (i - U_START s) ltac:(lia)) as (k & j & Ei & Hk & Hj). replace i with (U_START s + (k * nu + j))%nat by lia.
      rewrite (C k j), (D k j) by (auto; lia). apply inside_scale; [apply fu_pos; auto|]. specialize (H3 k j ltac:(lia) Hj). cbn [tu physical] in H3. rewrite <- Qu in H3. exact H3.
    + replace i with (P_START s + (0 * np + (i - P_START s)))%nat by lia. rewrite (E 0%nat (i - P_START s)%nat), (F 0%nat (i - P_START s)%nat) by (auto; lia).
      apply inside_scale; [apply fp_pos; lia|]. specialize (H4 (i - P_START s)%nat ltac:(lia)). cbn [tp physical] in H4. rewrite <- Qp in H4. exact H4.
    + destruct (G i L3) as [-> ->]. split; [|exact Logic.I]. destruct (use s) eqn:Hu; [|exact Logic.I]. rewrite Sz in Hx.
      replace i with (P_END s + (i - P_END s))%nat by lia. apply H5; auto. lia.
Qed.
Lemma rows_iff : forall x d, (forall i, (i < n_ng (gen_nlp s))%nat -> inside (n_lbg (gen_nlp s)) (n_ubg (gen_nlp s)) i (n_g (gen_nlp s) x d i)) <->
  (g_soft s = false -> dynamics_ok s (dl d) (physical s x)) /\
  (forall i, (i < n_path s)%nat -> if use s then x (P_END s + i)%nat = - cat (path_blocks s x d) i else cat (path_blocks s x d) i <= 0).
Proof.
  intros x d. destruct (diff_some x d) as (b & Eb & Sb & _ & Hb). rewrite <- Hb. cbn [n_ng n_lbg n_ubg n_g gen_nlp]. unfold inside. rewrite Eb. cbn [oget]. split.
  - intro H. split.
    + intros i Hi. rewrite Sb in Hi. specialize (H i ltac:(lia)). destruct (Nat.ltb_spec i (n_diff s)); [|lia]. cbn [above below] in H. lra.
    + intros i Hi. specialize (H (n_diff s + i)%nat ltac:(lia)). destruct (Nat.ltb_spec (n_diff s + i) (n_diff s)); [lia|].
      replace (n_diff s + i - n_diff s)%nat with i in H by lia. destruct (use s); cbn [above below] in H; lra.
  - intros [H1 H2] i Hi. destruct (Nat.ltb_spec i (n_diff s)) as [L|L].
    + cbn [above below]. rewrite H1 by lia. lra.
    + specialize (H2 (i - n_diff s)%nat ltac:(lia)). destruct (use s); cbn [above below]; [rewrite H2; lra|]. split; [exact Logic.I|lra].
Qed.

Lemma feasible_sound : forall t b lb ub X0 LX LG x d, ginv t b -> let t' := gprepare s t lb ub X0 LX LG in
  gfeasible (gen_nlp s) (s_lbx t') (s_ubx t') d x -> solution s (dl d) lb ub b (physical s x).
Proof.
  intros t b lb ub X0 LX LG x d Hi t' [H1 H2]. apply (bounds_iff t b lb ub X0 LX LG x Hi) in H1. apply rows_iff in H2.
  destruct H1 as (A & B & C & D & E). destruct H2 as [F G]. unfold solution. split; [exact A|]. split; [exact B|]. split; [exact C|]. split; [exact D|]. split; [exact F|].
  destruct (path_some x d) as [Sz Hp]. apply (Hp (fun v => v <= 0)). intros i Hx. rewrite Sz in Hx. specialize (G i Hx). destruct (use s); auto.
  specialize (E eq_refl i Hx). lra.
Qed.
Lemma feasible_complete : forall t b lb ub X0 LX LG x d, ginv t b -> let t' := gprepare s t lb ub X0 LX LG in
  solution s (dl d) lb ub b (physical s x) -> exists y, (forall i, (i < P_END s)%nat -> y i = x i) /\ gfeasible (gen_nlp s) (s_lbx t') (s_ubx t') d y.
Proof.
  intros t b lb ub X0 LX LG x d Hi t' (A & B & C & D & F & G).
  set (y := fun i => if (i <? P_END s)%nat then x i else - cat (path_blocks s x d) (i - P_END s)%nat).
  assert (Ey : forall i, (i < P_END s)%nat -> y i = x i) by (intros i Hx; unfold y; destruct (Nat.ltb_spec i (P_END s)); [auto|lia]).
  assert (Ex : forall i, (i < P_END s)%nat -> x i = y i) by (intros; rewrite Ey; auto).
  assert (Es : forall i, y (P_END s + i)%nat = - cat (path_blocks s x d) i) by (intro i; unfold y; destruct (Nat.ltb_spec (P_END s + i) (P_END s)); [lia|]; f_equal; f_equal; lia).
  assert (Ep : forall i, (i < n_path s)%nat -> cat (path_blocks s x d) i <= 0).
  { destruct (path_some x d) as [Sz Hp]. apply (Hp (fun v => v <= 0)) in G. intros i Hx. apply G. rewrite Sz. auto. }
  exists y. split; auto. split.
  - apply (bounds_iff t b lb ub X0 LX LG y Hi). split; [|split; [|split; [|split]]].
    + intros i Hx. rewrite <- (proj1 (agree_phys x y (last s) i Ex ltac:(lia))) by auto. auto.
    + intros k i Hk Hx. rewrite <- (proj1 (agree_phys x y k i Ex ltac:(lia))) by auto. auto.
    + intros k i Hk Hx. rewrite <- (proj1 (proj2 (agree_phys x y k i Ex Hk))) by auto. auto.
    + intros i Hx. rewrite <- (proj2 (proj2 (agree_phys x y 0 i Ex ltac:(lia)))) by auto. auto.
    + intros _ i Hx. rewrite Es. specialize (Ep i Hx). lra.
  - apply rows_iff. split.
    + intro Hso. apply (agree_diff x y); auto.
    + intros i Hx. rewrite <- (agree_path x y d Ex). destruct (use s); [apply Es|auto].
Qed.

(** * the cost *)
Lemma norms_some : forall order l x d v, num_args c = 4%nat -> exists r, add_norms s order l x d v = Some (v + r) /\ norms s (dl d) (physical s x) order l r.
Proof.
  intros order l x d v H. revert v. induction l as [|e l IH]; intro v.
  - exists 0. cbn [add_norms]. rewrite Rplus_0_r. split; [reflexivity|constructor].
  - cbn [add_norms]. destruct (der_rows_some order (w_n e) (weighted e) x d H) as (w & -> & Hw).
    destruct (IH (v + rsum (N * w_n e) (fun i => w i * w i))) as (r & E & Hr). rewrite E. eexists. split; [|].
    2:{ apply (no_cons s (dl d) (physical s x) order e l r (fun i k => w (k * w_n e + i)%nat)); auto. }
    f_equal. rewrite (Nat.mul_comm N), rsum_blocks. rewrite N_last. replace (S (last s)) with (last s + 1)%nat by lia. rewrite Rplus_assoc. f_equal. f_equal.
    apply rsum_ext. intros k _. apply rsum_ext. intros i _. ring.
Qed.
Lemma norms_unique : forall order l w d r1 r2, norms s d w order l r1 -> norms s d w order l r2 -> r1 = r2.
Proof.
  intros order l w d r1 r2 H. revert r2. induction H as [|e l r v H IH Hv]; intros r2 H2; inversion H2; subst; auto.
  f_equal; [|apply IH; auto]. apply rsum_ext. intros k Hk. apply rsum_ext. intros i Hi. f_equal.
  apply (nder_unique order _ _ _ _ (fun k _ => eq_refl) (Hv i Hi) (H5 i Hi)). lia.
Qed.

Lemma soft_val : forall x d, exists e, soft_error s x d = Some e /\ soft_defect s (dl d) (physical s x) e /\ 0 <= e /\ (e = 0 <-> dynamics_ok s (dl d) (physical s x)).
Proof.
  intros x d. destruct dyn_ok as [D1 D2]. unfold soft_error. rewrite soft_some by (auto; apply Hd). eexists. split; [reflexivity|].
  pose proof (soft_zero c (g_t0 s) (g_tf s) (dyn_res c (dyn_func s) (g_t0 s) (g_tf s) x (gU s x) (gP s x) d) Hd Ht) as [Z1 Z2]. cbv zeta in Z1, Z2.
  split; [|split; [exact Z1|etransitivity; [exact Z2|apply res_iff]]].
  set (V0 := fun i k => mtimes (N * nx) (kron nx (cas_comp c)) x (k * nx + i)%nat).
  exists (fun i k => / factor s (g_sx s) i * V0 i k). split.
  - intros i Hi. apply (nder_S 0 _ (fun k => tx (physical s x) k i)).
    + intros k Hk. reflexivity.
    + intros g l Hg Hl Ho. unfold V0. rewrite comp_mul by (auto; apply Hd). rewrite <- rsum_scal. apply rsum_ext. intros j Hj. cbn [tx physical]. unfold comp. ring.
  - rewrite <- ts_len by apply Hd. apply rsum_ext. intros g Hg. f_equal. apply rsum_ext. intros j Hj. f_equal. apply rsum_ext. intros i Hi. f_equal.
    unfold comp, dyn_res.
    assert (E : dyn_rhs c (dyn_func s) (g_t0 s) (g_tf s) x (gU s x) (gP s x) d ((g * P + j) * nx + i)%nat = ts * f_val (dyn_func s) (node_args c x (gU s x) (gP s x) d (g * P + j)) i).
    { unfold dyn_rhs. rewrite (vset_loop N nx (fun k i => ts * f_val (dyn_func s) (node_args c x (gU s x) (gP s x) d k) i)); auto. unfold cas_N. nia. }
    rewrite E, dyn_val. fold (scaled_p (physical s x)). unfold V0. pose proof (fx_pos i Hi). field. lra.
Qed.

Lemma base_some : forall x d, exists v, base_cost s x d = Some v.
Proof.
  intros x d. unfold base_cost, cas_pcost. rewrite (quad_some c ts _ (fun k m => g_lag s (dmul (dinv (g_SX s)) (slice x ((k * P + m) * nx) nx))
    (dmul (dinv (g_SU s)) (slice (gU s x) ((k * P + m) * nu) nu)) (dmul (dinv (g_SP s)) (slice (gP s x) 0 np)) (slice d 0 nd))).
  - eexists. reflexivity.
  - intros k m Hk Hm. reflexivity.
Qed.

Lemma norm_num : cost_rows s z z <> None -> g_zero s = false -> (g_nd s <> [] \/ g_ndd s <> []) -> num_args c = 4%nat.
Proof.
  intros H Hz Hn. unfold cost_rows in H. destruct (base_some z z) as [v Ev]. rewrite Ev in H.
  destruct (soft_val z z) as (e & Ee & _). rewrite Ee in H. rewrite Hz in H.
  set (v' := if g_soft s then v + rho s * e else v) in *.
  replace (if g_soft s then Some (v + rho s * e) else Some v) with (Some v') in H by (unfold v'; destruct (g_soft s); reflexivity).
  destruct (Nat.eq_dec (num_args c) 4) as [|Hne]; auto. exfalso.
  assert (K : forall o e l w, add_norms s o (e :: l) z z w = None).
  { intros o e0 l w. cbn [add_norms]. unfold der_rows, cas_differentiate. rewrite cas_function_none; auto. }
  destruct (g_nd s) as [|e1 l1].
  - cbn [add_norms] in H. destruct (g_ndd s) as [|e2 l2]; [destruct Hn; congruence|]. rewrite K in H. congruence.
  - rewrite K in H. congruence.
Qed.

Lemma cost_some : forall x d v, base_cost s x d = Some v -> exists e n1 n2, cost_rows s x d = Some (v + e + n1 + n2) /\
  (if g_soft s then exists r, e = rho s * r /\ soft_defect s (dl d) (physical s x) r /\ 0 <= r /\ (r = 0 <-> dynamics_ok s (dl d) (physical s x)) else e = 0) /\
  (if g_zero s then n1 = 0 /\ n2 = 0 else norms s (dl d) (physical s x) 1 (g_nd s) n1 /\ norms s (dl d) (physical s x) 2 (g_ndd s) n2).
Proof.
  intros x d v Hv. destruct (setup_parts Hs) as (_ & _ & Hc & _). unfold cost_rows. rewrite Hv.
  destruct (soft_val x d) as (r & Er & Hr). rewrite Er.
  set (e := if g_soft s then rho s * r else 0).
  replace (if g_soft s then Some (v + rho s * r) else Some v) with (Some (v + e)) by (unfold e; destruct (g_soft s); f_equal; ring).
  assert (He : if g_soft s then exists r, e = rho s * r /\ soft_defect s (dl d) (physical s x) r /\ 0 <= r /\ (r = 0 <-> dynamics_ok s (dl d) (physical s x)) else e = 0).
  { unfold e. destruct (g_soft s); [exists r; auto|reflexivity]. }
  destruct (g_zero s) eqn:Ez.
  - exists e, 0, 0. split; [f_equal; ring|]. auto.
  - assert (K : num_args c = 4%nat \/ (g_nd s = [] /\ g_ndd s = [])).
    { destruct Hc as [a Ha]. destruct (g_nd s) eqn:E1; [destruct (g_ndd s) eqn:E2; [auto|]|]; left; apply norm_num; auto; try congruence; [right|left]; congruence. }
    destruct K as [K|[E1 E2]].
    + destruct (norms_some 1 (g_nd s) x d (v + e) K) as (n1 & -> & H1). destruct (norms_some 2 (g_ndd s) x d (v + e + n1) K) as (n2 & -> & H2).
      exists e, n1, n2. auto.
    + rewrite E1, E2. cbn [add_norms]. exists e, 0, 0. split; [f_equal; ring|]. split; auto. split; constructor.
Qed.

(** * slacks *)
Lemma path_slack : forall x d, use s = true -> (forall i, (i < n_path s)%nat -> x (P_END s + i)%nat = - cat (path_blocks s x d) i) ->
  0 <= rsum (n_path s) (fun i => x (P_END s + i)%nat * x (P_END s + i)%nat) /\
  (rsum (n_path s) (fun i => x (P_END s + i)%nat * x (P_END s + i)%nat) = 0 <-> path_all s (dl d) (physical s x) (fun v => v = 0)).
Proof.
  intros x d Hu H. assert (Q : forall i, (i < n_path s)%nat -> 0 <= x (P_END s + i)%nat * x (P_END s + i)%nat) by (intros; nra).
  split; [apply rsum_nonneg; auto|]. destruct (path_some x d) as [Sz Hp]. rewrite <- (Hp (fun v => v = 0)). unfold allb. rewrite Sz. split.
  - intros Z i Hi. pose proof (rsum_nonneg_zero _ _ Q Z i Hi) as E. cbv beta in E. specialize (H i Hi). nra.
  - intro Z. apply rsum_zero. intros i Hi. rewrite H, Z by auto. ring.
Qed.
End Gen.

(** * which set-ups are accepted *)
Lemma count_blocks : forall N l, fold_right (fun e a => N * e_n e + a)%nat 0%nat l = (N * total l)%nat.
Proof. intros N l. induction l; simpl; [lia|]. rewrite IHl. lia. Qed.
Lemma n_path_count : forall s, dims_ok (g_cas s) -> g_t0 s < g_tf s -> (g_nic s <> 0%nat \/ g_nfc s <> 0%nat -> num_args (g_cas s) = 4%nat) -> n_path s = path_count s.
Proof.
  intros s Hd Ht H. unfold n_path, path_blocks, path_count.
  destruct (ineq_some s Hd Ht z z) as (a & -> & Sa & _); [auto|]. destruct (final_some s z z) as (b & -> & Sb & _); [auto|]. cbn [oget].
  rewrite size_app, Sa, Sb, !count_blocks. unfold cas_N, last. destruct (g_nic s =? 0)%nat; lia.
Qed.

Definition calls_ok (s : gocp) : Prop :=
  num_args (g_cas s) = 4%nat \/ (g_nic s = 0%nat /\ g_nfc s = 0%nat /\ (g_zero s = true \/ (g_nd s = [] /\ g_ndd s = []))).
Lemma no_norms : forall s o e l x d w, (num_args (g_cas s) <> 4)%nat -> add_norms s o (e :: l) x d w = None.
Proof. intros s o e l x d w H. cbn [add_norms]. unfold der_rows, cas_differentiate. rewrite cas_function_none; auto. Qed.
Lemma cost_iff : forall s, dims_ok (g_cas s) -> g_t0 s < g_tf s ->
  (cost_rows s z z <> None <-> num_args (g_cas s) = 4%nat \/ g_zero s = true \/ (g_nd s = [] /\ g_ndd s = [])).
Proof.
  intros s Hd Ht. destruct (base_some s z z) as [v Ev]. destruct (dyn_ok s) as [D1 D2].
  assert (Es : exists e, soft_error s z z = Some e) by (unfold soft_error; rewrite soft_some by (auto; apply Hd); eauto). destruct Es as [e Ee].
  unfold cost_rows. rewrite Ev, Ee.
  set (v' := if g_soft s then v + rho s * e else v).
  replace (if g_soft s then Some (v + rho s * e) else Some v) with (Some v') by (unfold v'; destruct (g_soft s); reflexivity).
  destruct (g_zero s); [split; [auto|discriminate]|]. destruct (Nat.eq_dec (num_args (g_cas s)) 4) as [E|E].
  - split; [auto|]. intros _. destruct (norms_some s Hd Ht 1 (g_nd s) z z v' E) as (n1 & -> & _). destruct (norms_some s Hd Ht 2 (g_ndd s) z z (v' + n1) E) as (n2 & -> & _). discriminate.
  - split.
    + intro H. right. right. destruct (g_nd s) as [|e1 l1]; [|rewrite no_norms in H by auto; congruence]. cbn [add_norms] in H.
      destruct (g_ndd s) as [|e2 l2]; [auto|]. rewrite no_norms in H by auto. congruence.
    + intros [H|[H|[-> ->]]]; [contradiction|discriminate|]. cbn [add_norms]. discriminate.
Qed.
Lemma setup_iff : forall s, dims_ok (g_cas s) -> g_t0 s < g_tf s ->
  (setup_ok s = true <-> scales_ok s = true /\ calls_ok s /\ exists pt, penalty_type s = Some pt /\
     (g_slacks s = true -> path_count s <> 0%nat -> pt = QUADRATIC \/ (pt = EXACT /\ path_count s = 1%nat))).
Proof.
  intros s Hd Ht. destruct (dyn_ok s) as [D1 D2]. unfold setup_ok.
  assert (E0 : exists b, diff_block s z z = Some b).
  { unfold diff_block, diff_rows, soft_error. rewrite soft_some by (auto; apply Hd). rewrite cas_dynamics_some by auto. destruct (g_soft s); eauto. }
  destruct E0 as [b0 E0]. rewrite E0. pose proof (cost_iff s Hd Ht) as Hc.
  assert (Hi : ineq_blocks s z z <> None <-> num_args (g_cas s) = 4%nat \/ g_nic s = 0%nat).
  { split.
    - intro H. destruct (Nat.eq_dec (g_nic s) 0); auto. left. apply (ineq_num s); auto. destruct (ineq_blocks s z z); [eauto|congruence].
    - intro H. destruct (ineq_some s Hd Ht z z) as (a & -> & _); [tauto|discriminate]. }
  assert (Hf : final_blocks s z z <> None <-> num_args (g_cas s) = 4%nat \/ g_nfc s = 0%nat).
  { split.
    - intro H. destruct (Nat.eq_dec (g_nfc s) 0); auto. left. apply (final_num s); auto. destruct (final_blocks s z z); [eauto|congruence].
    - intro H. destruct (final_some s z z) as (a & -> & _); [tauto|discriminate]. }
  split.
  - intro H. apply andb_prop in H. destruct H as [Hs H]. split; auto. destruct (penalty_type s) as [pt|]; [|discriminate].
    destruct (cost_rows s z z); [|discriminate]. destruct (ineq_blocks s z z); [|discriminate]. destruct (final_blocks s z z); [|discriminate].
    assert (A := proj1 Hc ltac:(discriminate)). assert (B := proj1 Hi ltac:(discriminate)). assert (C := proj1 Hf ltac:(discriminate)).
    split; [unfold calls_ok; tauto|]. exists pt. split; [reflexivity|]. intros Hu Hn.
    assert (En : n_path s = path_count s) by (apply n_path_count; auto; tauto). unfold use in H. rewrite En, Hu in H.
    apply Nat.eqb_neq in Hn. rewrite Hn in H. cbn [negb andb] in H. destruct pt; auto; [|discriminate]. apply Nat.eqb_eq in H. auto.
  - intros (Hs & Hk & pt & -> & Hp). rewrite Hs. cbn [andb].
    assert (K : (g_nic s <> 0 \/ g_nfc s <> 0 -> num_args (g_cas s) = 4)%nat) by (unfold calls_ok in Hk; tauto).
    destruct (cost_rows s z z); [|exfalso; apply Hc; [unfold calls_ok in Hk; tauto|reflexivity]].
    destruct (ineq_blocks s z z); [|exfalso; apply Hi; [unfold calls_ok in Hk; tauto|reflexivity]].
    destruct (final_blocks s z z); [|exfalso; apply Hf; [unfold calls_ok in Hk; tauto|reflexivity]].
    unfold use. rewrite (n_path_count s Hd Ht K). destruct (g_slacks s); [|reflexivity]. destruct (Nat.eqb_spec (path_count s) 0); [reflexivity|].
    cbn [negb andb]. destruct (Hp eq_refl n) as [->|[-> E1]]; [reflexivity|]. rewrite E1. reflexivity.
Qed.
