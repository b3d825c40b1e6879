(** Proofs about GenericOCP with MSChebyshev (Gms_Model.v). *)
Require Import Arith List Bool Lia Reals Lra String FunctionalExtensionality.
From Verif Require Import Scal RSum PolyR Poly_Spec Blk Cheb_Proofs Ocp_Model Ocp_Proofs Cas_Model Cas_Spec Cas_Proofs Cas_Props Pso_Model Pso_Spec Pso_Proofs
  Nmpc_Model Nmpc_Proofs Gen_Model Gen_Spec Gen_Proofs Gms_Model Gms_Spec.
Import ListNotations.
Local Open Scope R_scope.

Lemma loop_ext : forall A n (f g : nat -> A -> A) a, (forall k v, (k < n)%nat -> f k v = g k v) -> loop n f a = loop n g a.
Proof. induction n as [|n IH]; intros f g a H; [reflexivity|]. rewrite !loop_S. rewrite (IH f g) by (intros; apply H; lia). apply H. lia. Qed.

Section Gms.
Variable dep : ufun (vec R) -> bool.
Variable s : gocp.
Local Notation c := (g_cas s).
Local Notation P := (cP c).
Local Notation Sg := (cS c).
Local Notation nx := (cX c).
Local Notation nu := (cU c).
Local Notation np := (cNP c).
Local Notation nd := (cND c).
Local Notation N := (ms_N c).
Local Notation ts := (cas_ts c (g_t0 s) (g_tf s)).
Hypothesis Hd : dims_ok c.

(** * what an accepted set-up means *)
Lemma m_setup_inv : gms_new dep s <> None -> m_setup_ok dep s = true.
Proof. unfold gms_new. destruct (m_setup_ok dep s); auto. Qed.
Lemma m_setup_parts : m_setup_ok dep s = true -> scales_ok s = true /\ (exists a, m_diff_rows s z z = Some a) /\ (exists a, m_cost dep s z z = Some a) /\
  (exists a, m_ineq_blocks dep s z z = Some a) /\ (exists a, m_final_blocks dep s z z = Some a).
Proof.
  unfold m_setup_ok. intro H. apply andb_prop in H. destruct H as [H1 H2]. split; auto.
  destruct (penalty_type s); [|discriminate]. destruct (m_diff_rows s z z); [|discriminate]. destruct (m_cost dep s z z); [|discriminate].
  destruct (m_ineq_blocks dep s z z); [|discriminate]. destruct (m_final_blocks dep s z z); [|discriminate]. repeat split; eauto.
Qed.
Lemma ms_function_none : forall b f X U Pv Dv, f_nin f <> num_args c -> ms_function c b f X U Pv Dv = None.
Proof.
  intros b f X U Pv Dv H. unfold ms_function.
  assert (K : forall a, List.length a = num_args c -> call f a = None).
  { intros a Ha. unfold call. rewrite Ha. destruct (Nat.eqb_spec (f_nin f) (num_args c)) as [E|E]; [contradiction|].
    destruct (Nat.eqb_spec (num_args c) (f_nin f)); [congruence|reflexivity]. }
  destruct b; apply oloop_none; try apply Hd; intro v.
  - apply oloop_none; [lia|]. intro v'. rewrite K; [reflexivity|apply ms_args_length].
  - rewrite K; [reflexivity|]. unfold extra, num_args. destruct (_ && _); reflexivity.
Qed.
Lemma m_fun_rows_num : forall n F x d v, m_fun_rows dep s n F x d = Some v -> num_args c = 4%nat.
Proof.
  intros n F x d v H. destruct (Nat.eq_dec (num_args c) 4) as [E|E]; auto. unfold m_fun_rows in H. rewrite ms_function_none in H; [discriminate|]. cbn. auto.
Qed.
Lemma m_ineq_num : (exists a, m_ineq_blocks dep s z z = Some a) -> g_nic s <> 0%nat -> num_args c = 4%nat.
Proof.
  intros [a H] Hn. unfold m_ineq_blocks in H. apply Nat.eqb_neq in Hn. rewrite Hn in H.
  destruct (m_fun_rows dep s (g_nic s) (g_ic s) z z) eqn:E; [|discriminate]. apply m_fun_rows_num in E. auto.
Qed.
Lemma m_final_num : (exists a, m_final_blocks dep s z z = Some a) -> g_nfc s <> 0%nat -> num_args c = 4%nat.
Proof.
  intros [a H] Hn. unfold m_final_blocks in H. apply Nat.eqb_neq in Hn. rewrite Hn in H.
  destruct (m_fun_rows dep s (g_nfc s) (g_fc s) z z) eqn:E; [|discriminate]. apply m_fun_rows_num in E. auto.
Qed.
(** an accepted second derivative depends on the state *)
Definition order_ok (order : nat) (l : list dexpr) : Prop := forall e, In e l -> dep (e_f e) = true \/ order = 1%nat.
Lemma m_der_order : forall o n F x d, m_der_rows dep s o n F x d <> None -> dep F = true \/ o = 1%nat.
Proof.
  intros o n F x d H. unfold m_der_rows, ms_differentiate in H. destruct (ms_function _ _ _ _ _ _ _); [|congruence].
  destruct (dep F); auto. destruct (Nat.eqb_spec o 1); auto.
Qed.
Lemma m_diff_order : forall o l x d, m_diff_blocks dep s o l x d <> None -> order_ok o l.
Proof.
  intros o l x d. induction l as [|e l IH]; intros H e' He; [destruct He|]. cbn [m_diff_blocks] in H.
  destruct (m_der_rows dep s o (e_n e) (e_f e) x d) eqn:E1; [|congruence]. destruct (m_diff_blocks dep s o l x d) eqn:E2; [|congruence].
  destruct He as [<-|He]; [apply (m_der_order o (e_n e) (e_f e) x d); congruence|]. apply IH; auto. congruence.
Qed.
Lemma m_ineq_order : (exists a, m_ineq_blocks dep s z z = Some a) -> g_nic s <> 0%nat -> order_ok 1 (g_df s) /\ order_ok 2 (g_ddf s).
Proof.
  intros [a H] Hn. unfold m_ineq_blocks in H. apply Nat.eqb_neq in Hn. rewrite Hn in H.
  destruct (m_fun_rows dep s (g_nic s) (g_ic s) z z); [|discriminate]. destruct (m_diff_blocks dep s 1 (g_df s) z z) eqn:E1; [|discriminate].
  destruct (m_diff_blocks dep s 2 (g_ddf s) z z) eqn:E2; [|discriminate]. split; eapply m_diff_order; rewrite ?E1, ?E2; discriminate.
Qed.

(** * functions at the nodes *)
Lemma m_px_eq : forall x sg j, dmul (dinv (g_SX s)) (slice x ((sg * (P + 1) + j) * nx) nx) = map (mx (m_physical s x) sg j) (seq 0 nx).
Proof. intros. rewrite dmul_slice. unfold g_SX. rewrite inv_factor. reflexivity. Qed.
Lemma m_pu_eq : forall x sg, dmul (dinv (g_SU s)) (slice (mU s x) (sg * nu) nu) = map (mu (m_physical s x) sg) (seq 0 nu).
Proof. intros. rewrite dmul_slice. unfold g_SU. rewrite inv_factor. reflexivity. Qed.
Lemma m_pp_eq : forall x, dmul (dinv (g_SP s)) (slice (mP s x) 0 np) = map (mp (m_physical s x)) (seq 0 np).
Proof. intros. rewrite dmul_slice. unfold g_SP. rewrite inv_factor. reflexivity. Qed.
Lemma m_args4 : forall X U Pv Dv j i, num_args c = 4%nat ->
  ms_args c X U Pv Dv j i = [slice X ((j * (P + 1) + i) * nx) nx; slice U (j * nu) nu; slice Pv 0 np; slice Dv 0 nd].
Proof. intros X U Pv Dv j i H. unfold ms_args, extra. unfold num_args in H. destruct ((np =? 0) && (nd =? 0))%nat; [discriminate|reflexivity]. Qed.
Lemma m_gfun_val : forall n F x d j i, num_args c = 4%nat ->
  f_val (gfun s n F) (ms_args c x (mU s x) (mP s x) d j i) = m_at s (m_physical s x) (dl s d) F j i.
Proof. intros n F x d j i H. rewrite m_args4 by auto. cbn [f_val gfun]. rewrite m_px_eq, m_pu_eq, m_pp_eq. reflexivity. Qed.

Hypothesis Hdep : forall F, F = g_ic s \/ F = g_fc s -> dep F = false -> forall x x' u p d, F x u p d = F x' u p d.

Definition row (F : ufun (vec R)) (n sg j i : nat) : nat := (if dep F then (sg * (P + 1) + j) * n + i else sg * n + i)%nat.
Lemma m_fun_rows_some : forall n F x d, num_args c = 4%nat -> (dep F = true \/ F = g_ic s \/ F = g_fc s) -> exists v, m_fun_rows dep s n F x d = Some v /\
  forall sg j i, (sg < Sg)%nat -> (j <= P)%nat -> (i < n)%nat -> v (row F n sg j i) = m_at s (m_physical s x) (dl s d) F sg j i.
Proof.
  intros n F x d H HF. destruct (C79_function c (gfun s n F) x (mU s x) (mP s x) d) as [A B]; [cbn; auto|]. unfold m_fun_rows, row. destruct (dep F) eqn:E.
  - destruct A as (v & Ev & Hv). exists v. split; [exact Ev|]. intros sg j i Hsg Hj Hi. cbn [f_out gfun] in Hv. rewrite Hv by auto.
    change (inputs c x (mU s x) (mP s x) d (sg * (P + 1) + j) sg) with (ms_args c x (mU s x) (mP s x) d sg j). rewrite m_gfun_val by auto. reflexivity.
  - destruct B as (v & Ev & Hv). exists v. split; [exact Ev|]. intros sg j i Hsg Hj Hi. cbn [f_out gfun] in Hv. rewrite Hv by auto.
    assert (K : inputs c x (mU s x) (mP s x) d 0 sg = [slice x 0 nx; slice (mU s x) (sg * nu) nu; slice (mP s x) 0 np; slice d 0 nd]).
    { change (inputs c x (mU s x) (mP s x) d 0 sg) with (slice x 0 nx :: slice (mU s x) (sg * nu) nu :: extra c (mP s x) d).
      unfold extra. unfold num_args in H. destruct ((np =? 0) && (nd =? 0))%nat; [discriminate|reflexivity]. }
    rewrite K. cbn [f_val gfun]. rewrite m_pu_eq, m_pp_eq. unfold m_at. rewrite (Hdep F ltac:(destruct HF; [congruence|auto]) E (dmul (dinv (g_SX s)) (slice x 0 nx)) (map (mx (m_physical s x) sg j) (seq 0 nx))). reflexivity.
Qed.
Lemma row_bound : forall F n sg j i, (sg < Sg)%nat -> (j <= P)%nat -> (i < n)%nat -> (row F n sg j i < m_fun_size dep s n F)%nat.
Proof.
  intros F n sg j i Hsg Hj Hi. unfold row, m_fun_size, ms_N. destruct (dep F); [|nia].
  assert (sg * (P + 1) + j < Sg * (P + 1))%nat by nia. nia.
Qed.
Lemma row_split : forall F n k, (k < m_fun_size dep s n F)%nat -> exists sg j i, k = row F n sg j i /\ (sg < Sg)%nat /\ (j <= P)%nat /\ (i < n)%nat.
Proof.
  intros F n k Hk. unfold row, m_fun_size, ms_N in *. destruct (dep F).
  - destruct (index_split n (Sg * (P + 1)) k ltac:(lia)) as (t & i & -> & Ht & Hi). destruct (index_split (P + 1) Sg t ltac:(lia)) as (sg & j & -> & Hsg & Hj).
    exists sg, j, i. repeat split; auto; lia.
  - destruct (index_split n Sg k ltac:(lia)) as (sg & i & -> & Hsg & Hi). exists sg, 0%nat, i. repeat split; auto; lia.
Qed.

Hypothesis Ht : g_t0 s < g_tf s.

(** * derivatives on the segments *)
Lemma mder_S : forall n W D V, mder s n W D ->
  (forall g l, (g < Sg)%nat -> (l <= P)%nat -> V g l = rsum (S P) (fun j => cas_D P l j * D g j)) -> mder s (S n) W V.
Proof.
  intros n W D V HD HV. exists D. split; auto. intros g Hg. destruct (interp s Hd Ht g (D g)) as (q & q' & A & B & C).
  exists q, q'. split; auto. split; auto. split; auto. intros l Hl. rewrite HV by auto.
  rewrite <- ts_len by apply Hd. unfold gtime. rewrite <- (seg_diff c Hd (g_t0 s) (g_tf s) q q' g l A B Hl). apply rsum_ext. intros j Hj. rewrite <- C by lia. reflexivity.
Qed.
Lemma mder_inv : forall n W V, mder s (S n) W V -> exists D, mder s n W D /\
  forall g l, (g < Sg)%nat -> (l <= P)%nat -> V g l = rsum (S P) (fun j => cas_D P l j * D g j).
Proof.
  intros n W V (D & HD & H). exists D. split; auto. intros g l Hg Hl. destruct (H g Hg) as (q & q' & A & B & C & E).
  rewrite E by auto. rewrite <- ts_len by apply Hd. unfold gtime. rewrite <- (seg_diff c Hd (g_t0 s) (g_tf s) q q' g l A B Hl).
  apply rsum_ext. intros j Hj. unfold gtime in C. rewrite C by lia. reflexivity.
Qed.
Lemma mder_unique : forall n W W' V V', (forall g j, (g < Sg)%nat -> (j <= P)%nat -> W g j = W' g j) -> mder s n W V -> mder s n W' V' ->
  forall g j, (g < Sg)%nat -> (j <= P)%nat -> V g j = V' g j.
Proof.
  induction n as [|n IH]; intros W W' V V' HW H H' g l Hg Hl.
  - simpl in H, H'. rewrite H, H' by auto. auto.
  - apply mder_inv in H. apply mder_inv in H'. destruct H as (D & HD & H). destruct H' as (D' & HD' & H').
    rewrite H, H' by auto. apply rsum_ext. intros j Hj. f_equal. apply (IH W W'); auto. lia.
Qed.
Lemma iter_mder : forall m v order W i, (i < m)%nat -> (forall g j, (g < Sg)%nat -> (j <= P)%nat -> v ((g * (P + 1) + j) * m + i)%nat = W g j) ->
  mder s order W (fun g j => loop order (fun _ v => mtimes (N * m) (kron m (ms_comp c)) v) v ((g * (P + 1) + j) * m + i)%nat).
Proof.
  intros m v order W i Hi H. induction order as [|n IH].
  - simpl. auto.
  - apply mder_S with (fun g j => loop n (fun _ v => mtimes (N * m) (kron m (ms_comp c)) v) v ((g * (P + 1) + j) * m + i)%nat); auto.
    intros g l Hg Hl. rewrite loop_S. rewrite ms_mul by auto. reflexivity.
Qed.
Lemma m_der_rows_dep : forall order n F x d, num_args c = 4%nat -> dep F = true -> exists v, m_der_rows dep s order n F x d = Some v /\
  forall i, (i < n)%nat -> mder s order (fun g j => m_at s (m_physical s x) (dl s d) F g j i) (fun g j => v ((g * (P + 1) + j) * n + i)%nat).
Proof.
  intros order n F x d H E. destruct (m_fun_rows_some n F x d H (or_introl E)) as (v & Ev & Hv). unfold m_der_rows, ms_differentiate. unfold m_fun_rows in Ev. rewrite Ev.
  unfold row in Hv. rewrite E in *. eexists. split; [reflexivity|]. intros i Hi. apply iter_mder; auto.
Qed.

(** positivity of the factors *)
Hypothesis Hpos : forall l, g_sx s = Some l \/ g_su s = Some l \/ g_sp s = Some l -> forall i, (i < List.length l)%nat -> 0 < nth i l 0.
Hypothesis Hsc : scales_ok s = true.
Lemma mfx_pos : forall i, (i < nx)%nat -> 0 < factor s (g_sx s) i.
Proof.
  pose proof Hsc as H. unfold scales_ok in H. apply andb_prop in H. destruct H as [H _]. apply andb_prop in H. destruct H as [H _].
  apply andb_prop in H. destruct H as [H _]. apply (fac_pos s Hpos); auto.
Qed.
Lemma mfu_pos : forall i, (i < nu)%nat -> 0 < factor s (g_su s) i.
Proof.
  pose proof Hsc as H. unfold scales_ok in H. apply andb_prop in H. destruct H as [H _]. apply andb_prop in H. destruct H as [H _].
  apply andb_prop in H. destruct H as [_ H]. apply (fac_pos s Hpos); auto.
Qed.
Lemma mfp_pos : forall i, (i < np)%nat -> 0 < factor s (g_sp s) i.
Proof.
  pose proof Hsc as H. unfold scales_ok in H. apply andb_prop in H. destruct H as [H _]. apply andb_prop in H. destruct H as [_ H].
  apply (fac_pos s Hpos); auto.
Qed.
Lemma m_der_rows_ctl : forall n F x d, num_args c = 4%nat -> dep F = false -> exists v, m_der_rows dep s 1 n F x d = Some v /\
  forall g i, (S g < Sg)%nat -> (i < nu)%nat -> v (g * nu + i)%nat = factor s (g_su s) i * (mu (m_physical s x) (S g) i - mu (m_physical s x) g i).
Proof.
  intros n F x d H E. destruct (C79_control_difference c (gfun s n F) 1 x (mU s x) (mP s x) d) as [_ (v & Ev & Hv)]; [cbn; auto|].
  unfold m_der_rows. rewrite E. exists v. split; [exact Ev|]. intros g i Hg Hi. rewrite Hv by auto. cbn [mu m_physical]. unfold mU, m_U_START, ms_N.
  pose proof (mfu_pos i Hi). field. lra.
Qed.

(** * path constraints *)
Hypothesis Hex : forall e, In e (g_df s) \/ In e (g_ddf s) -> e_n e <> 0%nat /\ (dep (e_f e) = false -> e_n e = nu).
Lemma m_diff_blocks_some : forall order l x d, num_args c = 4%nat -> order_ok order l ->
  (forall e, In e l -> e_n e <> 0%nat /\ (dep (e_f e) = false -> e_n e = nu)) -> exists b, m_diff_blocks dep s order l x d = Some b /\
  size b = fold_right (fun e a => m_der_size dep s (e_n e) (e_f e) + a)%nat 0%nat l /\
  forall ok, allb ok b <-> forall e, In e l -> m_rate_ok dep s (dl s d) (m_physical s x) order ok e.
Proof.
  intros order l x d H. induction l as [|e l IH]; intros Ho He.
  - exists nil. split; [reflexivity|]. split; [reflexivity|]. intro ok. rewrite allb_nil. split; [intros _ e []|auto].
  - destruct IH as (b & E & Hsz & Hb); [intros e' He'; apply Ho; right; auto|intros e' He'; apply He; right; auto|].
    destruct (He e (or_introl eq_refl)) as [Hn Hu]. cbn [m_diff_blocks].
    assert (V : exists v, m_der_rows dep s order (e_n e) (e_f e) x d = Some v /\ forall ok : R -> Prop,
      ((forall i, (i < m_der_size dep s (e_n e) (e_f e))%nat -> ok (v i - e_c e (i mod e_n e)%nat)) <-> m_rate_ok dep s (dl s d) (m_physical s x) order ok e)).
    { unfold m_der_size, m_rate_ok. destruct (dep (e_f e)) eqn:Ed.
      - destruct (m_der_rows_dep order (e_n e) (e_f e) x d H Ed) as (v & Ev & Hv). exists v. split; auto. intro ok. unfold ms_N. split.
        + intros K i Hi. exists (fun g j => v ((g * (P + 1) + j) * e_n e + i)%nat). split; [apply Hv; auto|]. intros g j Hg Hj.
          assert (B1 : (g * (P + 1) + j < Sg * (P + 1))%nat) by nia.
          assert (B : ((g * (P + 1) + j) * e_n e + i < Sg * (P + 1) * e_n e)%nat) by nia. specialize (K _ B).
          rewrite (Nat.add_comm ((g * (P + 1) + j) * e_n e)), Nat.mod_add, Nat.mod_small in K by lia. rewrite (Nat.add_comm i) in K. exact K.
        + intros K i Hi. destruct (index_split (e_n e) (Sg * (P + 1)) i ltac:(lia)) as (k & t & -> & Hk & Ht').
          destruct (index_split (P + 1) Sg k ltac:(lia)) as (g & j & -> & Hg & Hj). destruct (K t Ht') as (w & Hw & Hok).
          rewrite (mder_unique order _ _ _ _ (fun _ _ _ _ => eq_refl) (Hv t Ht') Hw g j) by lia.
          rewrite (Nat.add_comm ((g * (P + 1) + j) * e_n e)), Nat.mod_add, Nat.mod_small by lia. apply Hok; lia.
      - destruct (Ho e (or_introl eq_refl)) as [|Ho1]; [congruence|]. subst order. specialize (Hu eq_refl).
        destruct (m_der_rows_ctl (e_n e) (e_f e) x d H Ed) as (v & Ev & Hv). exists v. split; auto. intro ok. rewrite Hu. split.
        + intros K g i Hg Hi. rewrite <- Hv by auto. assert (B : (g * nu + i < (Sg - 1) * nu)%nat) by nia. specialize (K _ B).
          rewrite (Nat.add_comm (g * nu)), Nat.mod_add, Nat.mod_small in K by lia. rewrite (Nat.add_comm i) in K. exact K.
        + intros K i Hi. destruct (index_split nu (Sg - 1) i ltac:(lia)) as (g & t & -> & Hg & Ht').
          rewrite (Nat.add_comm (g * nu)), Nat.mod_add, Nat.mod_small by lia. rewrite (Nat.add_comm t). rewrite Hv by lia. apply K; lia. }
    destruct V as (v & Ev & Hv). rewrite Ev, E.
    assert (Q : (m_der_size dep s (e_n e) (e_f e) / e_n e * e_n e = m_der_size dep s (e_n e) (e_f e))%nat).
    { unfold m_der_size. destruct (dep (e_f e)); [rewrite Nat.div_mul by auto; reflexivity|]. rewrite (Hu eq_refl) in *. rewrite Nat.div_mul by auto. reflexivity. }
    rewrite Q, Nat.eqb_refl. eexists. split; [reflexivity|]. split; [cbn [size fold_right]; rewrite Hsz; reflexivity|].
    intro ok. rewrite allb_cons, Hb, Hv. split.
    + intros [K1 K2] e' [<-|He']; auto.
    + intro K1. split; [apply K1; left; auto|intros e' He'; apply K1; right; auto].
Qed.
Definition acc : Prop := g_nic s <> 0%nat -> num_args c = 4%nat /\ order_ok 1 (g_df s) /\ order_ok 2 (g_ddf s).
Lemma m_ineq_some : forall x d, acc -> exists b, m_ineq_blocks dep s x d = Some b /\
  size b = (if (g_nic s =? 0)%nat then 0 else m_fun_size dep s (g_nic s) (g_ic s) +
    (fold_right (fun e a => m_der_size dep s (e_n e) (e_f e) + a) 0 (g_df s) + fold_right (fun e a => m_der_size dep s (e_n e) (e_f e) + a) 0 (g_ddf s)))%nat /\
  forall ok, allb ok b <-> (g_nic s <> 0%nat ->
     (forall g j i, (g < Sg)%nat -> (j <= P)%nat -> (i < g_nic s)%nat -> ok (m_at s (m_physical s x) (dl s d) (g_ic s) g j i)) /\
     (forall e, In e (g_df s) -> m_rate_ok dep s (dl s d) (m_physical s x) 1 ok e) /\
     (forall e, In e (g_ddf s) -> m_rate_ok dep s (dl s d) (m_physical s x) 2 ok e)).
Proof.
  intros x d H. unfold m_ineq_blocks. destruct (Nat.eqb_spec (g_nic s) 0) as [E|E].
  - exists nil. split; [reflexivity|]. split; [reflexivity|]. intro ok. rewrite allb_nil. tauto.
  - destruct (H E) as (H4 & O1 & O2). destruct (m_fun_rows_some (g_nic s) (g_ic s) x d H4 ltac:(auto)) as (v & -> & Hv).
    destruct (m_diff_blocks_some 1 (g_df s) x d H4 O1) as (a & -> & Sa & Ha); [auto|]. destruct (m_diff_blocks_some 2 (g_ddf s) x d H4 O2) as (b & -> & Sb & Hb); [auto|].
    eexists. split; [reflexivity|]. split; [cbn [size]; rewrite size_app, Sa, Sb; reflexivity|]. intro ok. rewrite allb_cons, allb_app, Ha, Hb.
    assert (K : (forall i, (i < m_fun_size dep s (g_nic s) (g_ic s))%nat -> ok (v i)) <->
      (forall g j i, (g < Sg)%nat -> (j <= P)%nat -> (i < g_nic s)%nat -> ok (m_at s (m_physical s x) (dl s d) (g_ic s) g j i))).
    { split.
      - intros K g j i Hg Hj Hi. rewrite <- Hv by auto. apply K. apply row_bound; auto.
      - intros K i Hi. destruct (row_split _ _ _ Hi) as (g & j & t & -> & Hg & Hj & Ht'). rewrite Hv by auto. apply K; auto. }
    rewrite K. tauto.
Qed.
Lemma m_final_some : forall x d, (g_nfc s <> 0%nat -> num_args c = 4%nat) -> exists b, m_final_blocks dep s x d = Some b /\
  size b = (if (g_nfc s =? 0)%nat then 0 else 1)%nat /\
  forall ok, allb ok b <-> (g_nfc s <> 0%nat -> ok (m_at s (m_physical s x) (dl s d) (g_fc s) 0 0 0%nat)).
Proof.
  intros x d H. unfold m_final_blocks. destruct (Nat.eqb_spec (g_nfc s) 0) as [E|E].
  - exists nil. split; [reflexivity|]. split; [reflexivity|]. intro ok. rewrite allb_nil. tauto.
  - specialize (H E). destruct (m_fun_rows_some (g_nfc s) (g_fc s) x d H ltac:(auto)) as (v & -> & Hv). eexists. split; [reflexivity|]. split; [reflexivity|].
    intro ok. rewrite allb_cons, allb_nil. assert (E0 := Hv 0%nat 0%nat 0%nat ltac:(destruct Hd; lia) ltac:(lia) ltac:(lia)). unfold row in E0.
    assert (E1 : v 0%nat = m_at s (m_physical s x) (dl s d) (g_fc s) 0 0 0%nat) by (destruct (dep (g_fc s)); exact E0). rewrite <- E1.
    split; [intros [K _] _; apply K; lia|]. intro K. split; auto. intros i Hi. assert (i = 0)%nat as -> by lia. auto.
Qed.

(** * the cost *)
Lemma m_base_some : forall x d, exists v, m_base_cost s x d = Some v.
Proof.
  intros x d. unfold m_base_cost, ms_pcost. rewrite (quad_some c ts _ (fun k m => g_lag s (dmul (dinv (g_SX s)) (slice x ((k * (P + 1) + m) * nx) nx))
    (dmul (dinv (g_SU s)) (slice (mU s x) (k * nu) nu)) (dmul (dinv (g_SP s)) (slice (mP s x) 0 np)) (slice d 0 nd))).
  - eexists. reflexivity.
  - intros k m Hk Hm. reflexivity.
Qed.
Definition norm_ok (order : nat) (l : list wexpr) : Prop := forall e, In e l -> dep (weighted e) = true \/ order = 1%nat.
Lemma m_norms_some : forall order l x d v, num_args c = 4%nat -> norm_ok order l ->
  exists r, m_norms dep s order l x d v = Some (v + r) /\ m_norms_of dep s (dl s d) (m_physical s x) order l r.
Proof.
  intros order l x d v H. revert v. induction l as [|e l IH]; intros v Ho.
  - exists 0. cbn [m_norms]. rewrite Rplus_0_r. split; [reflexivity|constructor].
  - cbn [m_norms]. destruct (dep (weighted e)) eqn:Ed.
    + destruct (m_der_rows_dep order (w_n e) (weighted e) x d H Ed) as (w & -> & Hw). unfold m_der_size. rewrite Ed.
      destruct (IH (v + rsum (N * w_n e) (fun i => w i * w i))) as (r & E & Hr); [intros e' He'; apply Ho; right; auto|].
      rewrite E. eexists. split; [|].
      2:{ apply (mn_dep dep s (dl s d) (m_physical s x) order e l r (fun i g j => w ((g * (P + 1) + j) * w_n e + i)%nat)); auto. }
      f_equal. unfold ms_N. rewrite (Nat.mul_comm _ (w_n e)), rsum_blocks. rewrite (Nat.mul_comm Sg), rsum_blocks. rewrite Rplus_assoc. f_equal. f_equal.
      replace (P + 1)%nat with (S P) by lia.
      apply rsum_ext. intros g _. apply rsum_ext. intros j _. apply rsum_ext. intros i _. ring.
    + destruct (Ho e (or_introl eq_refl)) as [|Ho1]; [congruence|]. subst order.
      destruct (m_der_rows_ctl (w_n e) (weighted e) x d H Ed) as (w & -> & Hw). unfold m_der_size. rewrite Ed.
      destruct (IH (v + rsum ((Sg - 1) * nu) (fun i => w i * w i))) as (r & E & Hr); [intros e' He'; apply Ho; right; auto|].
      rewrite E. eexists. split; [|apply (mn_ctl dep s (dl s d) (m_physical s x) 1 e l r); auto].
      f_equal. rewrite (Nat.mul_comm (Sg - 1)), rsum_blocks. rewrite Rplus_assoc. f_equal. f_equal.
      apply rsum_ext. intros g Hg. apply rsum_ext. intros i Hi. rewrite Hw by lia. ring.
Qed.
Lemma m_norm_num : forall o l x d v, m_norms dep s o l x d v <> None -> l <> [] -> num_args c = 4%nat.
Proof.
  intros o l x d v H Hl. destruct l as [|e l]; [congruence|]. cbn [m_norms] in H. destruct (Nat.eq_dec (num_args c) 4) as [E|E]; auto. exfalso. apply H.
  unfold m_der_rows, ms_differentiate. rewrite ms_function_none; [reflexivity|]. cbn. auto.
Qed.
Lemma m_norm_order : forall o l x d v, m_norms dep s o l x d v <> None -> norm_ok o l.
Proof.
  intros o l x d. induction l as [|e l IH]; intros v H e' He; [destruct He|]. cbn [m_norms] in H.
  destruct (m_der_rows dep s o (w_n e) (weighted e) x d) eqn:E1; [|congruence].
  destruct He as [<-|He]; [apply (m_der_order o (w_n e) (weighted e) x d); congruence|]. eapply IH; eauto.
Qed.
Lemma m_cost_some : forall x d v, (exists a, m_cost dep s z z = Some a) -> m_base_cost s x d = Some v -> exists n1 n2, m_cost dep s x d = Some (v + n1 + n2) /\
  (if g_zero s then n1 = 0 /\ n2 = 0 else m_norms_of dep s (dl s d) (m_physical s x) 1 (g_nd s) n1 /\ m_norms_of dep s (dl s d) (m_physical s x) 2 (g_ndd s) n2).
Proof.
  intros x d v [a Ha] Hv. unfold m_cost in *. rewrite Hv. destruct (m_base_some z z) as [v0 E0]. rewrite E0 in Ha. destruct (g_zero s).
  - exists 0, 0. split; [f_equal; ring|auto].
  - destruct (m_norms dep s 1 (g_nd s) z z v0) as [v1|] eqn:E1; [|discriminate].
    assert (O1 : norm_ok 1 (g_nd s)) by (apply (m_norm_order 1 _ z z v0); congruence). assert (O2 : norm_ok 2 (g_ndd s)) by (apply (m_norm_order 2 _ z z v1); congruence).
    assert (K1 : exists r, m_norms dep s 1 (g_nd s) x d v = Some (v + r) /\ m_norms_of dep s (dl s d) (m_physical s x) 1 (g_nd s) r).
    { destruct (g_nd s) as [|e l] eqn:El; [exists 0; cbn [m_norms]; rewrite Rplus_0_r; split; [reflexivity|constructor]|].
      rewrite <- El in *. apply m_norms_some; auto. apply (m_norm_num 1 (g_nd s) z z v0); [congruence|rewrite El; discriminate]. }
    destruct K1 as (n1 & -> & H1).
    assert (K2 : exists r, m_norms dep s 2 (g_ndd s) x d (v + n1) = Some (v + n1 + r) /\ m_norms_of dep s (dl s d) (m_physical s x) 2 (g_ndd s) r).
    { destruct (g_ndd s) as [|e l] eqn:El; [exists 0; cbn [m_norms]; rewrite Rplus_0_r; split; [reflexivity|constructor]|].
      rewrite <- El in *. apply m_norms_some; auto. apply (m_norm_num 2 (g_ndd s) z z v1); [congruence|rewrite El; discriminate]. }
    destruct K2 as (n2 & -> & H2). exists n1, n2. auto.
Qed.

(** * a sufficient condition for an accepted set-up *)
Lemma m_accept : num_args c = 4%nat -> order_ok 1 (g_df s) -> order_ok 2 (g_ddf s) -> norm_ok 1 (g_nd s) -> norm_ok 2 (g_ndd s) ->
  penalty_type s = Some QUADRATIC -> m_setup_ok dep s = true.
Proof.
  intros H4 O1 O2 N1 N2 Hp. unfold m_setup_ok. rewrite Hsc, Hp. cbn [andb].
  destruct (dyn_ok s) as [D1 D2]. destruct (ms_collocation c (dyn_func s) (g_t0 s) (g_tf s) z (mU s z) (mP s z) z Hd Ht D1 D2) as (G & EG & _).
  unfold m_diff_rows. rewrite EG. destruct (m_base_some z z) as [v0 E0]. unfold m_cost. rewrite E0.
  destruct (m_norms_some 1 (g_nd s) z z v0 H4 N1) as (n1 & -> & _). destruct (m_norms_some 2 (g_ndd s) z z (v0 + n1) H4 N2) as (n2 & -> & _).
  destruct (m_ineq_some z z) as (a & -> & _); [intros _; auto|]. destruct (m_final_some z z) as (b & -> & _); [auto|].
  destruct (g_zero s); destruct (m_use dep s); reflexivity.
Qed.

Hypothesis Hs : m_setup_ok dep s = true.
Lemma acc_ok : acc.
Proof. destruct (m_setup_parts Hs) as (_ & _ & _ & H1 & _). intro Hn. split; [apply m_ineq_num; auto|]. apply m_ineq_order; auto. Qed.
Lemma m_path_some : forall x d, size (m_path_blocks dep s x d) = m_npath dep s /\
  forall ok, allb ok (m_path_blocks dep s x d) <-> m_path_all dep s (dl s d) (m_physical s x) ok.
Proof.
  destruct (m_setup_parts Hs) as (_ & _ & _ & H1 & H2). pose proof acc_ok as A. pose proof (m_final_num H2) as B. intros x d.
  unfold m_npath, m_path_blocks.
  destruct (m_ineq_some x d A) as (a & -> & Sa & Ha). destruct (m_final_some x d B) as (b & -> & Sb & Hb).
  destruct (m_ineq_some z z A) as (a' & -> & Sa' & _). destruct (m_final_some z z B) as (b' & -> & Sb' & _). cbn [oget].
  split; [rewrite !size_app, Sa, Sb, Sa', Sb'; reflexivity|]. intro ok. rewrite allb_app, Ha, Hb. reflexivity.
Qed.

(** * dynamics *)
Definition m_scaled (w : mtraj) : mtraj := mkMT (mx w) (mu w) (fun i => factor s (g_sp s) i * mp w i).
Lemma m_dyn_val : forall x d g l i, f_val (dyn_func s) (ms_args c x (mU s x) (mP s x) d g l) i =
  factor s (g_sx s) i * m_at s (m_scaled (m_physical s x)) (dl s d) (g_dyn s) g l i.
Proof.
  intros x d g l i.
  assert (E : map (fun i => factor s (g_sp s) i * mp (m_physical s x) i) (seq 0 np) = slice (mP s x) 0 np).
  { unfold slice. apply map_ext_in. intros j Hj. apply in_seq in Hj. cbn [mp m_physical Nat.add]. unfold mP, m_P_START, m_U_START, ms_N.
    pose proof (mfp_pos j ltac:(lia)). field. lra. }
  unfold m_at, m_scaled. cbn [mx mu mp]. rewrite E. unfold ms_args, dyn_func. cbn [f_val]. rewrite m_px_eq, m_pu_eq.
  unfold g_SX. rewrite diag_factor. f_equal. unfold extra. destruct (Nat.eqb_spec np 0) as [E1|E1], (Nat.eqb_spec nd 0) as [E2|E2]; cbn [andb nth]; try reflexivity.
  unfold dl, slice. rewrite E1, E2. reflexivity.
Qed.
Lemma m_diff_some : forall x d, exists G, m_diff_rows s x d = Some G /\
  ((forall i, (i < m_ndiff s)%nat -> G i = 0) <-> m_dynamics_ok s (dl s d) (m_physical s x)).
Proof.
  intros x d. destruct (dyn_ok s) as [D1 D2]. destruct (ms_collocation c (dyn_func s) (g_t0 s) (g_tf s) x (mU s x) (mP s x) d Hd Ht D1 D2) as (G & EG & HG).
  exists G. split; [exact EG|]. unfold m_ndiff. replace (N * nx + (Sg - 1) * nx)%nat with (nx * (Sg * (P + 1)) + nx * (Sg - 1))%nat by (unfold ms_N; lia).
  rewrite HG. unfold m_dynamics_ok. fold (m_scaled (m_physical s x)). split; intros [H J]; (split; [intros g i Hg Hi; destruct (H g i Hg Hi) as (q & q' & Hq & Hq' & Hv & Hc)|intros g i Hg Hi; specialize (J g i Hg Hi)]); pose proof (mfx_pos i Hi) as Hp.
  - exists (fun t => / factor s (g_sx s) i * q t), (fun t => / factor s (g_sx s) i * q' t). split; [apply scale_poly; auto|]. split; [apply scale_deriv; auto|]. split.
    + intros j Hj. unfold gtime. rewrite Hv by auto. reflexivity.
    + intros l Hl. unfold gtime. rewrite Hc by auto. rewrite m_dyn_val. field. lra.
  - cbn [mx m_physical]. f_equal. unfold comp in J. rewrite J. f_equal. lia.
  - exists (fun t => factor s (g_sx s) i * q t), (fun t => factor s (g_sx s) i * q' t). split; [apply scale_poly; auto|]. split; [apply scale_deriv; auto|]. split.
    + intros j Hj. change (factor s (g_sx s) i * q (gtime s g j) = comp nx x (g * (P + 1) + j) i). rewrite Hv by auto. cbn [mx m_physical]. unfold comp. field. lra.
    + intros l Hl. change (factor s (g_sx s) i * q' (gtime s g l) = f_val (dyn_func s) (ms_args c x (mU s x) (mP s x) d g l) i).
      rewrite Hc by auto. rewrite m_dyn_val. reflexivity.
  - cbn [mx m_physical] in J. assert (Hi' : / factor s (g_sx s) i <> 0) by (apply Rinv_neq_0_compat; lra). apply Rmult_eq_reg_l in J; [|exact Hi'].
    unfold comp. rewrite J. f_equal. lia.
Qed.

(** the number of path constraints, and their first values *)
Lemma m_npath_count : m_npath dep s =
  ((if (g_nic s =? 0)%nat then 0 else m_fun_size dep s (g_nic s) (g_ic s) +
    (fold_right (fun e a => m_der_size dep s (e_n e) (e_f e) + a) 0 (g_df s) + fold_right (fun e a => m_der_size dep s (e_n e) (e_f e) + a) 0 (g_ddf s))) +
   (if (g_nfc s =? 0)%nat then 0 else 1))%nat.
Proof.
  destruct (m_setup_parts Hs) as (_ & _ & _ & H1 & H2). pose proof acc_ok as A. pose proof (m_final_num H2) as B. unfold m_npath, m_path_blocks.
  destruct (m_ineq_some z z A) as (a' & -> & Sa' & _). destruct (m_final_some z z B) as (b' & -> & Sb' & _). cbn [oget]. rewrite size_app, Sa', Sb'. reflexivity.
Qed.
Lemma m_cat_ic : forall x d g j i, g_nic s <> 0%nat -> (g < Sg)%nat -> (j <= P)%nat -> (i < g_nic s)%nat ->
  cat (m_path_blocks dep s x d) (row (g_ic s) (g_nic s) g j i) = m_at s (m_physical s x) (dl s d) (g_ic s) g j i.
Proof.
  intros x d g j i Hn Hg Hj Hi. destruct (acc_ok Hn) as (H4 & O1 & O2). unfold m_path_blocks, m_ineq_blocks.
  destruct (m_fun_rows_some (g_nic s) (g_ic s) x d H4 ltac:(auto)) as (v & -> & Hv).
  destruct (m_diff_blocks_some 1 (g_df s) x d H4 O1) as (a & -> & _); [auto|]. destruct (m_diff_blocks_some 2 (g_ddf s) x d H4 O2) as (b & -> & _); [auto|].
  destruct (Nat.eqb_spec (g_nic s) 0); [contradiction|]. cbn [oget app cat]. pose proof (row_bound (g_ic s) (g_nic s) g j i Hg Hj Hi).
  destruct (Nat.ltb_spec (row (g_ic s) (g_nic s) g j i) (m_fun_size dep s (g_nic s) (g_ic s))); [|lia]. apply Hv; auto.
Qed.

(** * points that agree on states, controls and parameters *)
Lemma nx_bound : forall g j, (g < Sg)%nat -> (j <= P)%nat -> ((g * (P + 1) + j) * nx + nx <= N * nx)%nat.
Proof. intros g j Hg Hj. unfold ms_N. assert (g * (P + 1) + j + 1 <= Sg * (P + 1))%nat by nia. nia. Qed.
Lemma nu_bound : forall g, (g < Sg)%nat -> (g * nu + nu <= Sg * nu)%nat.
Proof. intros. nia. Qed.
Lemma m_agree_extra : forall x y d, (forall i, (i < m_VARS s)%nat -> x i = y i) -> extra c (mP s x) d = extra c (mP s y) d.
Proof.
  intros x y d H. unfold extra. destruct (_ && _); auto. f_equal. apply slice_ext. intros i Hi. unfold mP. apply H. unfold m_VARS. lia.
Qed.
Lemma m_agree_u : forall x y g, (forall i, (i < m_VARS s)%nat -> x i = y i) -> (g < Sg)%nat -> slice (mU s x) (g * nu) nu = slice (mU s y) (g * nu) nu.
Proof. intros x y g H Hg. pose proof (nu_bound g Hg). apply slice_ext. intros i Hi. unfold mU. apply H. unfold m_VARS, m_P_START. lia. Qed.
Lemma m_agree_args : forall x y d g j, (forall i, (i < m_VARS s)%nat -> x i = y i) -> (g < Sg)%nat -> (j <= P)%nat ->
  ms_args c x (mU s x) (mP s x) d g j = ms_args c y (mU s y) (mP s y) d g j.
Proof.
  intros x y d g j H Hg Hj. pose proof (nx_bound g j Hg Hj) as A. unfold ms_args. f_equal; [|f_equal].
  - apply slice_ext. intros i Hi. apply H. unfold m_VARS, m_P_START, m_U_START. lia.
  - apply m_agree_u; auto.
  - apply m_agree_extra; auto.
Qed.
Lemma m_agree_fun : forall x y d n F, (forall i, (i < m_VARS s)%nat -> x i = y i) -> m_fun_rows dep s n F x d = m_fun_rows dep s n F y d.
Proof.
  intros x y d n F H. unfold m_fun_rows, ms_function. destruct (dep F).
  - apply oloop_ext. intros g v Hg. apply oloop_ext. intros j v' Hj. rewrite (m_agree_args x y d g j H Hg ltac:(lia)). reflexivity.
  - apply oloop_ext. intros g v Hg. rewrite (m_agree_u x y g H Hg), (m_agree_extra x y d H).
    replace (slice x 0 nx) with (slice y 0 nx); [reflexivity|]. apply slice_ext. intros i Hi. symmetry. apply H. unfold m_VARS, m_P_START, m_U_START, ms_N.
    assert (K : (1 * nx <= Sg * (P + 1) * nx)%nat) by (apply Nat.mul_le_mono_r; destruct Hd as (? & ? & ?); nia). lia.
Qed.
Lemma m_agree_der : forall x y d o n F, (forall i, (i < m_VARS s)%nat -> x i = y i) -> m_der_rows dep s o n F x d = m_der_rows dep s o n F y d.
Proof.
  intros x y d o n F H. pose proof (m_agree_fun x y d n F H) as E. unfold m_fun_rows in E. unfold m_der_rows, ms_differentiate in *. rewrite E.
  destruct (ms_function _ _ _ y _ _ _); [|reflexivity]. destruct (dep F); [reflexivity|]. destruct (o =? 1)%nat; [|reflexivity]. f_equal.
  apply loop_ext. intros g D Hg. extensionality i. unfold vset.
  destruct (Nat.lt_ge_cases i (g * nu)); [rewrite !in_seg_false by lia; reflexivity|]. destruct (Nat.lt_ge_cases i (g * nu + nu)); [|rewrite !in_seg_false by lia; reflexivity].
  rewrite !in_seg_true by lia.
  pose proof (nu_bound (g + 1) ltac:(lia)). pose proof (nu_bound g ltac:(lia)). unfold mU. rewrite !H; auto; unfold m_VARS, m_P_START; lia.
Qed.
Lemma m_agree_path : forall x y d, (forall i, (i < m_VARS s)%nat -> x i = y i) -> m_path_blocks dep s x d = m_path_blocks dep s y d.
Proof.
  intros x y d H. assert (B : forall o l, m_diff_blocks dep s o l x d = m_diff_blocks dep s o l y d).
  { intros o l. induction l as [|e l IH]; [reflexivity|]. cbn [m_diff_blocks]. rewrite (m_agree_der x y d o _ _ H), IH. reflexivity. }
  unfold m_path_blocks, m_ineq_blocks, m_final_blocks. rewrite !(m_agree_fun x y d _ _ H), !B. reflexivity.
Qed.
Lemma m_agree_phys : forall x y g j i, (forall i, (i < m_VARS s)%nat -> x i = y i) -> (g < Sg)%nat -> (j <= P)%nat ->
  ((i < nx)%nat -> mx (m_physical s x) g j i = mx (m_physical s y) g j i) /\ ((i < nu)%nat -> mu (m_physical s x) g i = mu (m_physical s y) g i) /\
  ((i < np)%nat -> mp (m_physical s x) i = mp (m_physical s y) i).
Proof.
  intros x y g j i H Hg Hj. pose proof (nx_bound g j Hg Hj) as A. pose proof (nu_bound g Hg) as B. unfold m_VARS, m_P_START, m_U_START, ms_N in *. cbn [mx mu mp m_physical].
  split; [|split]; intro Hi; f_equal; apply H; lia.
Qed.
Lemma m_agree_diff : forall x y d, (forall i, (i < m_VARS s)%nat -> x i = y i) -> m_dynamics_ok s d (m_physical s x) -> m_dynamics_ok s d (m_physical s y).
Proof.
  intros x y d H [K J]. split.
  - intros g i Hg Hi. destruct (K g i Hg Hi) as (q & q' & Hq & Hq' & Hv & Hc). exists q, q'. split; auto. split; auto. split.
    + intros j Hj. rewrite Hv by auto. apply m_agree_phys; auto.
    + intros l Hl. rewrite Hc by auto. unfold m_at. cbn [mx mu mp].
      f_equal; apply map_ext_in; intros j Hj; apply in_seq in Hj; destruct (m_agree_phys x y g l j H Hg Hl) as (E1 & E2 & E3);
        [apply E1|apply E2|f_equal; apply E3]; lia.
  - intros g i Hg Hi. rewrite <- (proj1 (m_agree_phys x y g P i H ltac:(lia) ltac:(lia))) by auto.
    rewrite <- (proj1 (m_agree_phys x y (S g) 0 i H ltac:(lia) ltac:(lia))) by auto. auto.
Qed.

(** * invariant of the members *)
Variable ipopt : gnlp -> vec (option R) -> vec (option R) -> vec (option R) -> list R -> option (vec R) -> option (vec R) -> option (vec R * vec R * vec R).
Definition mini (k : nat) : Prop := k = (N - 1)%nat.
Definition minv (t : gst) (b : boxes) : Prop :=
  okg 0 nx N (g_SX s) (b_lx b) mini (s_lbx t) /\ okg 0 nx N (g_SX s) (b_ux b) mini (s_ubx t) /\
  okg (m_U_START s) nu Sg (g_SU s) (b_lu b) noskip (s_lbx t) /\ okg (m_U_START s) nu Sg (g_SU s) (b_uu b) noskip (s_ubx t) /\
  okg (m_P_START s) np 1 (g_SP s) (b_lp b) noskip (s_lbx t) /\ okg (m_P_START s) np 1 (g_SP s) (b_up b) noskip (s_ubx t) /\
  (forall i, (m_VARS s <= i)%nat -> s_lbx t i = (if m_use dep s then Some 0 else None) /\ s_ubx t i = None) /\
  List.length (s_p t) = nd.
Lemma N_pos : (1 <= N)%nat.
Proof. unfold ms_N. destruct Hd as (? & ? & ?). nia. Qed.
Lemma m_prepare_inv : forall t b lb ub X0 LX LG, minv t b -> minv (m_prepare s t lb ub X0 LX LG) b.
Proof.
  intros t b lb ub X0 LX LG (A & B & C & D & E & F & G & L). unfold minv. cbn [s_lbx s_ubx s_p m_prepare]. pose proof N_pos as N1.
  assert (HN : m_U_START s = ((N - 1) * nx + nx)%nat) by (unfold m_U_START; nia). assert (HL : (nx <= m_U_START s)%nat) by (rewrite HN; apply Nat.le_add_l).
  assert (Q : m_P_START s = (m_U_START s + Sg * nu)%nat) by reflexivity. assert (Q2 : m_VARS s = (m_P_START s + np)%nat) by reflexivity.
  assert (W : forall old bb, okg 0 nx N (g_SX s) bb mini old -> forall lo, okg 0 nx N (g_SX s) bb mini (fun i => if in_seg (m_U_START s - nx) nx i then sbound (g_SX s) lo (i - (m_U_START s - nx)) else old i)).
  { intros old bb H lo k i Hk Hi Hn. rewrite in_seg_false; [apply H; auto|]. left. unfold mini in Hn. assert (k < N - 1)%nat by lia. nia. }
  assert (W2 : forall old o n m d bb lo, (m_U_START s <= o)%nat -> okg o n m d bb noskip old -> okg o n m d bb noskip (fun i => if in_seg (m_U_START s - nx) nx i then sbound (g_SX s) lo (i - (m_U_START s - nx)) else old i)).
  { intros old o n m d bb lo Ho H k i Hk Hi Hn. rewrite in_seg_false; [apply H; auto|]. lia. }
  repeat split; auto; try (apply W2; auto; lia).
  - rewrite in_seg_false by lia. apply G. auto.
  - rewrite in_seg_false by lia. apply G. auto.
Qed.
Lemma m_solve_st : forall t lb ub X0 LX LG, let t' := fst (m_solve dep s ipopt t lb ub X0 LX LG) in let t0 := m_prepare s t lb ub X0 LX LG in
  s_lbx t' = s_lbx t0 /\ s_ubx t' = s_ubx t0 /\ s_p t' = s_p t0 /\ s_x0 t' = s_x0 t0 /\ s_lamx t' = s_lamx t0 /\ s_lamg t' = s_lamg t0.
Proof. intros. unfold t', m_solve. fold t0. destruct (ipopt _ _ _ _ _ _ _); cbn; auto 10. Qed.
(** the box of the parameters, when there are as many data *)
Lemma pbox_eq : forall lb old, np = nd -> (fun i => if in_seg (m_P_START s) nd i then sbound (g_SP s) lb (if (np =? 1)%nat then 0 else i - m_P_START s)%nat else old i) =
  gput (m_P_START s) np 1 (g_SP s) lb old.
Proof.
  intros lb old E. extensionality i. unfold gput. rewrite <- E. replace (1 * np)%nat with np by lia.
  destruct (Nat.lt_ge_cases i (m_P_START s)); [rewrite !in_seg_false by lia; reflexivity|].
  destruct (Nat.lt_ge_cases i (m_P_START s + np)); [|rewrite !in_seg_false by lia; reflexivity].
  rewrite !in_seg_true by lia. rewrite Nat.mod_small by lia. destruct (Nat.eqb_spec np 1); [|reflexivity]. f_equal. lia.
Qed.
Lemma mrun_inv : forall t b, mrun ipopt dep s t b -> minv t b.
Proof.
  assert (Q : m_P_START s = (m_U_START s + Sg * nu)%nat) by reflexivity. assert (Q2 : m_VARS s = (m_P_START s + np)%nat) by reflexivity.
  assert (Q3 : m_U_START s = (N * nx)%nat) by reflexivity.
  intros t b H. induction H.
  - unfold gms_new in H. destruct (m_setup_ok dep s); [|discriminate]. inversion H. clear H. unfold minv. cbn [s_lbx s_ubx s_p nobox b_lx b_ux b_lu b_uu b_lp b_up].
    repeat split; intros; try (unfold okg, sbound; intros k i Hk Hi _; auto).
    + replace (m_VARS s <=? 0 + (k * nx + i))%nat with false; [rewrite andb_false_r; auto|]. symmetry. apply Nat.leb_gt. assert (k * nx + nx <= N * nx)%nat by nia. lia.
    + replace (m_VARS s <=? m_U_START s + (k * nu + i))%nat with false; [rewrite andb_false_r; auto|]. symmetry. apply Nat.leb_gt. assert (k * nu + nu <= Sg * nu)%nat by nia. lia.
    + replace (m_VARS s <=? m_P_START s + (k * np + i))%nat with false; [rewrite andb_false_r; auto|]. symmetry. apply Nat.leb_gt. assert (k = 0)%nat as -> by lia. lia.
    + apply Nat.leb_le in H. rewrite H, andb_true_r. reflexivity.
    + rewrite map_length, seq_length. reflexivity.
  - destruct IHmrun as (A & B & C & D & E & F & G & L). unfold minv. cbn [s_lbx s_ubx s_p m_state_box set_bounds b_lx b_ux b_lu b_uu b_lp b_up].
    split; [apply gput_in|]. split; [apply gput_in|]. split; [apply gput_out; auto; intros; lia|]. split; [apply gput_out; auto; intros; lia|].
    split; [apply gput_out; auto; intros; lia|]. split; [apply gput_out; auto; intros; lia|]. split; [|exact L].
    intros i Hi. rewrite !gput_end by lia. apply G. auto.
  - destruct IHmrun as (A & B & C & D & E & F & G & L). unfold minv. cbn [s_lbx s_ubx s_p m_control_box set_bounds b_lx b_ux b_lu b_uu b_lp b_up].
    split; [apply gput_out; auto; intros; lia|]. split; [apply gput_out; auto; intros; lia|]. split; [apply gput_in|]. split; [apply gput_in|].
    split; [apply gput_out; auto; intros; lia|]. split; [apply gput_out; auto; intros; lia|]. split; [|exact L].
    intros i Hi. rewrite !gput_end by lia. apply G. auto.
  - unfold m_parameters_box in H1. destruct (_ && _); [|discriminate]. rewrite !pbox_eq in H1 by auto. inversion H1. clear H1 H3.
    destruct IHmrun as (A & B & C & D & E & F & G & L). unfold minv. cbn [s_lbx s_ubx s_p set_bounds b_lx b_ux b_lu b_uu b_lp b_up].
    split; [apply gput_out; auto; intros; lia|]. split; [apply gput_out; auto; intros; lia|]. split; [apply gput_out; auto; intros; lia|]. split; [apply gput_out; auto; intros; lia|].
    split; [apply gput_in|]. split; [apply gput_in|]. split; [|exact L].
    intros i Hi. rewrite !gput_end by lia. apply G. auto.
  - unfold set_parameters in H0. destruct (Nat.eqb_spec (List.length v) (List.length (s_p t))) as [El|]; [|discriminate]. inversion H0. clear H0.
    destruct IHmrun as (A & B & C & D & E & F & G & L). unfold minv. cbn [s_lbx s_ubx s_p set_p]. repeat split; auto; try (apply G; auto). lia.
  - unfold set_parameters_name in H0. destruct (s_map t n) as [[u w]|]; [|discriminate]. destruct (assign (s_p t) u w v) as [p'|] eqn:Ea; [|discriminate]. inversion H0. clear H0.
    apply assign_length in Ea. destruct IHmrun as (A & B & C & D & E & F & G & L). unfold minv. cbn [s_lbx s_ubx s_p set_p]. repeat split; auto; try (apply G; auto). lia.
  - exact IHmrun.
  - exact IHmrun.
  - pose proof (m_prepare_inv t b lb ub X0 LX LG IHmrun) as K. destruct (m_solve_st t lb ub X0 LX LG) as (E1 & E2 & E3 & _).
    unfold minv in *. rewrite E1, E2, E3. exact K.
Qed.

(** * the problem of solve *)
Lemma m_prepare_init : forall t lb ub X0 LX LG i, (i < nx)%nat ->
  s_lbx (m_prepare s t lb ub X0 LX LG) ((N - 1) * nx + i)%nat = sbound (g_SX s) lb i /\ s_ubx (m_prepare s t lb ub X0 LX LG) ((N - 1) * nx + i)%nat = sbound (g_SX s) ub i.
Proof.
  intros t lb ub X0 LX LG i Hi. cbn [s_lbx s_ubx m_prepare]. pose proof N_pos as N1. assert (E : (m_U_START s - nx = (N - 1) * nx)%nat) by (unfold m_U_START; nia).
  rewrite E. rewrite in_seg_true by lia. replace ((N - 1) * nx + i - (N - 1) * nx)%nat with i by lia. auto.
Qed.
Lemma m_bounds_iff : forall t b lb ub X0 LX LG x, minv t b -> let t' := m_prepare s t lb ub X0 LX LG in
  ((forall i, (i < n_nx (gms_nlp dep s))%nat -> inside (s_lbx t') (s_ubx t') i (x i)) <->
   (forall i, (i < nx)%nat -> inside lb ub i (mx (m_physical s x) (Sg - 1) P i)) /\
   (forall g j i, (g < Sg)%nat -> (j <= P)%nat -> ~ (g = Sg - 1 /\ j = P)%nat -> (i < nx)%nat -> inside (b_lx b) (b_ux b) i (mx (m_physical s x) g j i)) /\
   (forall g i, (g < Sg)%nat -> (i < nu)%nat -> inside (b_lu b) (b_uu b) i (mu (m_physical s x) g i)) /\
   (forall i, (i < np)%nat -> inside (b_lp b) (b_up b) i (mp (m_physical s x) i)) /\
   (m_use dep s = true -> forall i, (i < m_npath dep s)%nat -> 0 <= x (m_VARS s + i)%nat)).
Proof.
  intros t b lb ub X0 LX LG x Hi t'. pose proof (m_prepare_inv t b lb ub X0 LX LG Hi) as (A & B & C & D & E & F & G & _). fold t' in A, B, C, D, E, F, G.
  pose proof (m_prepare_init t lb ub X0 LX LG) as I. fold t' in I. pose proof N_pos as N1. destruct Hd as (HP & HS & HX).
  assert (Q : m_P_START s = (m_U_START s + Sg * nu)%nat) by reflexivity. assert (Q2 : m_VARS s = (m_P_START s + np)%nat) by reflexivity.
  assert (Q3 : m_U_START s = (N * nx)%nat) by reflexivity.
  assert (QN : N = (Sg * (P + 1))%nat) by reflexivity.
  assert (Ql : ((Sg - 1) * (P + 1) + P = N - 1)%nat) by (rewrite QN; destruct Sg; [lia|simpl; lia]).
  assert (Sz : n_nx (gms_nlp dep s) = (m_VARS s + if m_use dep s then m_npath dep s else 0)%nat) by reflexivity.
  assert (Mx : forall g j i, mx (m_physical s x) g j i = / factor s (g_sx s) i * x ((g * (P + 1) + j) * nx + i)%nat) by reflexivity.
  assert (Mu : forall g i, mu (m_physical s x) g i = / factor s (g_su s) i * x (m_U_START s + (g * nu + i))%nat) by reflexivity.
  assert (Mp : forall i, mp (m_physical s x) i = / factor s (g_sp s) i * x (m_P_START s + i)%nat) by reflexivity.
  clear HP HX. split.
  - intro H. split; [|split; [|split; [|split]]].
    + intros i Hx. assert (L : ((N - 1) * nx + i < n_nx (gms_nlp dep s))%nat) by (rewrite Sz; nia). specialize (H _ L). destruct (I i Hx) as [I1 I2].
      unfold inside in H. rewrite I1, I2 in H. apply inside_scale in H; [|apply mfx_pos; auto]. rewrite Mx, Ql. exact H.
    + intros g j i Hg Hj Hne Hx. set (k := (g * (P + 1) + j)%nat). assert (Hk : (k < N)%nat) by (unfold k; rewrite QN; nia).
      assert (Hn : ~ mini k).
      { unfold mini. rewrite <- Ql. intro K. apply Hne. unfold k in K. assert (g = Sg - 1)%nat by (destruct (Nat.lt_trichotomy g (Sg - 1)) as [T|[T|T]]; [nia|auto|nia]). subst g. split; [reflexivity|lia]. }
      assert (L : (k * nx + i < n_nx (gms_nlp dep s))%nat) by (rewrite Sz; nia). specialize (H _ L).
      unfold inside in H. pose proof (A k i Hk Hx Hn) as A'. pose proof (B k i Hk Hx Hn) as B'.
      simpl Nat.add in A', B'. rewrite A', B' in H. apply inside_scale in H; [|apply mfx_pos; auto]. rewrite Mx. exact H.
    + intros k i Hk Hx. assert (L : (m_U_START s + (k * nu + i) < n_nx (gms_nlp dep s))%nat) by (rewrite Sz; nia). specialize (H _ L).
      unfold inside in H. rewrite (C k i), (D k i) in H by (auto; lia). apply inside_scale in H; [|apply mfu_pos; auto]. rewrite Mu. exact H.
    + intros i Hx. assert (L : (m_P_START s + (0 * np + i) < n_nx (gms_nlp dep s))%nat) by (rewrite Sz; lia). specialize (H _ L).
      unfold inside in H. rewrite (E 0%nat i), (F 0%nat i) in H by (auto; lia). apply inside_scale in H; [|apply mfp_pos; auto]. rewrite Mp. exact H.
    + intros Hu i Hx. assert (L : (m_VARS s + i < n_nx (gms_nlp dep s))%nat) by (rewrite Sz, Hu; lia). specialize (H _ L).
      destruct (G (m_VARS s + i)%nat ltac:(lia)) as [G1 G2]. unfold inside in H. rewrite G1, Hu in H. apply H.
  - intros (H1 & H2 & H3 & H4 & H5) i Hx. unfold inside.
    destruct (Nat.lt_ge_cases i (m_U_START s)) as [L|L]; [|destruct (Nat.lt_ge_cases i (m_P_START s)) as [L2|L2]; [|destruct (Nat.lt_ge_cases i (m_VARS s)) as [L3|L3]]].
    + destruct (index_split nx N i ltac:(lia)) as (k & j & -> & Hk & Hj). destruct (Nat.eq_dec k (N - 1)) as [->|Hne].
      * destruct (I j Hj) as [-> ->]. apply inside_scale; [apply mfx_pos; auto|]. specialize (H1 j Hj). rewrite Mx, Ql in H1. exact H1.
      * pose proof (A k j ltac:(lia) Hj Hne) as A'. pose proof (B k j ltac:(lia) Hj Hne) as B'.
        simpl Nat.add in A', B'. rewrite A', B'. apply inside_scale; [apply mfx_pos; auto|]. rewrite QN in Hk. rewrite Nat.mul_comm in Hk.
        destruct (index_split (P + 1) Sg k Hk) as (g & l & -> & Hg & Hl). specialize (H2 g l j Hg ltac:(lia)). rewrite Mx in H2. apply H2; [|exact Hj].
        intros [-> ->]. apply Hne. exact Ql.
    + destruct (index_split nu Sg (i - m_U_START s) ltac:(lia)) as (k & j & Ei & Hk & Hj). replace i with (m_U_START s + (k * nu + j))%nat by lia.
      rewrite (C k j), (D k j) by (auto; lia). apply inside_scale; [apply mfu_pos; auto|]. specialize (H3 k j ltac:(lia) Hj). rewrite Mu in H3. exact H3.
    + replace i with (m_P_START s + (0 * np + (i - m_P_START s)))%nat by lia. rewrite (E 0%nat (i - m_P_START s)%nat), (F 0%nat (i - m_P_START s)%nat) by (auto; lia).
      apply inside_scale; [apply mfp_pos; lia|]. specialize (H4 (i - m_P_START s)%nat ltac:(lia)). rewrite Mp in H4. exact H4.
    + destruct (G i L3) as [-> ->]. split; [|exact Logic.I]. destruct (m_use dep s) eqn:Hu; [|exact Logic.I]. rewrite Sz in Hx.
      replace i with (m_VARS s + (i - m_VARS s))%nat by lia. apply H5; auto. lia.
Qed.
Lemma m_rows_iff : forall x d, (forall i, (i < n_ng (gms_nlp dep s))%nat -> inside (n_lbg (gms_nlp dep s)) (n_ubg (gms_nlp dep s)) i (n_g (gms_nlp dep s) x d i)) <->
  m_dynamics_ok s (dl s d) (m_physical s x) /\
  (forall i, (i < m_npath dep s)%nat -> if m_use dep s then x (m_VARS s + i)%nat = - cat (m_path_blocks dep s x d) i else cat (m_path_blocks dep s x d) i <= 0).
Proof.
  intros x d. destruct (m_diff_some x d) as (b & Eb & Hb). rewrite <- Hb. cbn [n_ng n_lbg n_ubg n_g gms_nlp]. unfold inside. rewrite Eb. cbn [oget]. split.
  - intro H. split.
    + intros i Hi. specialize (H i ltac:(lia)). destruct (Nat.ltb_spec i (m_ndiff s)); [|lia]. cbn [above below] in H. lra.
    + intros i Hi. specialize (H (m_ndiff s + i)%nat ltac:(lia)). destruct (Nat.ltb_spec (m_ndiff s + i) (m_ndiff s)); [lia|].
      replace (m_ndiff s + i - m_ndiff s)%nat with i in H by lia. destruct (m_use dep s); cbn [above below] in H; lra.
  - intros [H1 H2] i Hi. destruct (Nat.ltb_spec i (m_ndiff s)) as [L|L].
    + cbn [above below]. rewrite H1 by lia. lra.
    + specialize (H2 (i - m_ndiff s)%nat ltac:(lia)). destruct (m_use dep s); cbn [above below]; [rewrite H2; lra|]. split; [exact Logic.I|lra].
Qed.
Lemma m_sound : forall t b lb ub X0 LX LG x d, minv t b -> let t' := m_prepare s t lb ub X0 LX LG in
  gfeasible (gms_nlp dep s) (s_lbx t') (s_ubx t') d x -> m_solution dep s (dl s d) lb ub b (m_physical s x).
Proof.
  intros t b lb ub X0 LX LG x d Hi t' [H1 H2]. apply (m_bounds_iff t b lb ub X0 LX LG x Hi) in H1. apply m_rows_iff in H2.
  destruct H1 as (A & B & C & D & E). destruct H2 as [F G]. unfold m_solution. split; [exact A|]. split; [exact B|]. split; [exact C|]. split; [exact D|]. split; [exact F|].
  destruct (m_path_some x d) as [Sz Hp]. apply (Hp (fun v => v <= 0)). intros i Hx. rewrite Sz in Hx. specialize (G i Hx). destruct (m_use dep s); auto.
  specialize (E eq_refl i Hx). lra.
Qed.
Lemma m_complete : forall t b lb ub X0 LX LG x d, minv t b -> let t' := m_prepare s t lb ub X0 LX LG in
  m_solution dep s (dl s d) lb ub b (m_physical s x) -> exists y, (forall i, (i < m_VARS s)%nat -> y i = x i) /\ gfeasible (gms_nlp dep s) (s_lbx t') (s_ubx t') d y.
Proof.
  intros t b lb ub X0 LX LG x d Hi t' (A & B & C & D & F & G).
  set (y := fun i => if (i <? m_VARS s)%nat then x i else - cat (m_path_blocks dep s x d) (i - m_VARS s)%nat).
  assert (Ey : forall i, (i < m_VARS s)%nat -> y i = x i) by (intros i Hx; unfold y; destruct (Nat.ltb_spec i (m_VARS s)); [auto|lia]).
  assert (Ex : forall i, (i < m_VARS s)%nat -> x i = y i) by (intros; rewrite Ey; auto).
  assert (Es : forall i, y (m_VARS s + i)%nat = - cat (m_path_blocks dep s x d) i) by (intro i; unfold y; destruct (Nat.ltb_spec (m_VARS s + i) (m_VARS s)); [lia|]; f_equal; f_equal; lia).
  assert (Ep : forall i, (i < m_npath dep s)%nat -> cat (m_path_blocks dep s x d) i <= 0).
  { destruct (m_path_some x d) as [Sz Hp]. apply (Hp (fun v => v <= 0)) in G. intros i Hx. apply G. rewrite Sz. auto. }
  assert (HS : (1 <= Sg)%nat) by (destruct Hd as (? & ? & ?); auto).
  exists y. split; auto. split.
  - apply (m_bounds_iff t b lb ub X0 LX LG y Hi). split; [|split; [|split; [|split]]].
    + intros i Hx. rewrite <- (proj1 (m_agree_phys x y (Sg - 1) P i Ex ltac:(lia) ltac:(lia))) by auto. auto.
    + intros g j i Hg Hj Hne Hx. rewrite <- (proj1 (m_agree_phys x y g j i Ex Hg Hj)) by auto. auto.
    + intros g i Hg Hx. rewrite <- (proj1 (proj2 (m_agree_phys x y g 0 i Ex Hg ltac:(lia)))) by auto. auto.
    + intros i Hx. rewrite <- (proj2 (proj2 (m_agree_phys x y 0 0 i Ex ltac:(lia) ltac:(lia)))) by auto. auto.
    + intros _ i Hx. rewrite Es. specialize (Ep i Hx). lra.
  - apply m_rows_iff. split.
    + apply (m_agree_diff x y); auto.
    + intros i Hx. rewrite <- (m_agree_path x y d Ex). destruct (m_use dep s); [apply Es|auto].
Qed.
End Gms.
