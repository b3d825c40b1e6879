(** Sparse cost and Lagrangian Hessians: every write through valuePtr() meets the entries of
    the node it is meant for. *)
Require Import Arith ZArith List Bool Lia Reals Lra.
From Verif Require Import Scal RSum Blk Sparse Sparse_Proofs Cheb_Model Cheb_Proofs Ocp_Model Ocp_Spec Ocp_Proofs Ocp_Cost_Proofs Ocp_Sparse_Model Ocp_Sparse_Proofs.

Lemma cnt_inv : forall (f : nat -> bool) (rho : nat -> nat) n,
  (forall a b, (a < b)%nat -> (b < n)%nat -> (rho a < rho b)%nat) ->
  (forall i, f i = true -> exists a, (a < n)%nat /\ rho a = i) ->
  (forall a, (a < n)%nat -> f (rho a) = true) ->
  forall a, (a < n)%nat -> cnt f (rho a) = a.
Proof.
  intros f rho n Hm Hi Hf a. induction a as [|a IH]; intro Ha.
  - apply cnt_none. intros i Hlt. destruct (f i) eqn:E; auto. exfalso.
    destruct (Hi i E) as (b & Hb & <-). destruct b; [lia|]. specialize (Hm O (S b)). lia.
  - replace (rho (S a)) with (rho a + (1 + (rho (S a) - rho a - 1)))%nat
      by (specialize (Hm a (S a)); lia).
    rewrite cnt_add, cnt_add, IH by lia. cbn [cnt]. rewrite Nat.add_0_r, Hf by lia.
    rewrite cnt_none; [lia|]. intros i Hlt. destruct (f _) eqn:E; auto. exfalso.
    destruct (Hi _ E) as (b & Hb & Eb).
    destruct (Nat.lt_trichotomy b a) as [L|[->|L]]; [specialize (Hm b a); lia|lia|].
    destruct (Nat.eq_dec b (S a)) as [->|]; [lia|]. specialize (Hm (S a) b). lia.
Qed.

Section P.
Variable o : ocp R.
Local Notation nx := (NX o).
Local Notation nu := (NU o).
Local Notation np := (NP o).
Local Notation P := (PO o).
Local Notation Sg := (SG o).
Local Notation N := (NUM_NODES o).
Local Notation vx := (VARX o).
Local Notation vu := (VARU o).
Local Notation zidx := (zidx o).
Local Notation inz := (inz o).
Local Open Scope R_scope.

(** unknown at position [a] of the argument (x, u, p) of node [n] *)
Definition zrow (n a : nat) : nat :=
  if (a <? nx)%nat then (n * nx + a)%nat
  else if (a <? nx + nu)%nat then (n * nu + vx + (a - nx))%nat
  else (vx + vu + (a - nx - nu))%nat.

Lemma zrow_lt : forall n a, (n < N)%nat -> (a < NZ o)%nat -> (zrow n a < VAR o)%nat.
Proof.
  intros n a Hn Ha. unfold zrow, NZ, VAR in *. unfold VARX, VARU.
  destruct (Nat.ltb_spec a nx); [nia|]. destruct (Nat.ltb_spec a (nx + nu)); [nia|lia].
Qed.
Lemma zidx_zrow : forall n a, (n < N)%nat -> (a < NZ o)%nat -> zidx n (zrow n a) = Some a.
Proof.
  intros n a Hn Ha. unfold zrow, NZ in *. destruct (Nat.ltb_spec a nx).
  - change (n * nx + a)%nat with (ix o n a). rewrite zidx_x by auto. rewrite Nat.eqb_refl. reflexivity.
  - destruct (Nat.ltb_spec a (nx + nu)).
    + replace (n * nu + vx + (a - nx))%nat with (iu o n (a - nx)) by (unfold iu, VARX, NUM_NODES; lia).
      rewrite zidx_u by (auto; lia). rewrite Nat.eqb_refl. f_equal. lia.
    + replace (vx + vu + (a - nx - nu))%nat with (ip o (a - nx - nu)) by (unfold ip, VARX, VARU, NUM_NODES; lia).
      rewrite zidx_p by (auto; lia). f_equal. lia.
Qed.
Lemma zidx_inv : forall n i a, (n < N)%nat -> zidx n i = Some a -> i = zrow n a /\ (a < NZ o)%nat.
Proof.
  intros n i a Hn H. unfold Ocp_Sparse_Proofs.zidx in H. unfold zrow, NZ.
  destruct (in_seg (n * nx) nx i) eqn:E1; [|destruct (in_seg (n * nu + vx) nu i) eqn:E2;
    [|destruct (in_seg (vx + vu) np i) eqn:E3; [|discriminate]]];
  injection H as <-; [apply in_seg_spec in E1|apply in_seg_spec in E2|apply in_seg_spec in E3].
  - rewrite (proj2 (Nat.ltb_lt (i - n * nx) nx)) by lia. lia.
  - rewrite (proj2 (Nat.ltb_ge (nx + (i - (n * nu + vx))) nx)) by lia.
    rewrite (proj2 (Nat.ltb_lt (nx + (i - (n * nu + vx))) (nx + nu))) by lia. lia.
  - rewrite (proj2 (Nat.ltb_ge (nx + nu + (i - (vx + vu))) nx)) by lia.
    rewrite (proj2 (Nat.ltb_ge (nx + nu + (i - (vx + vu))) (nx + nu))) by lia. lia.
Qed.
Lemma zrow_mono : forall n a b, (n < N)%nat -> (a < b)%nat -> (b < NZ o)%nat -> (zrow n a < zrow n b)%nat.
Proof.
  intros n a b Hn Hab Hb. unfold zrow, NZ in *.
  destruct (Nat.ltb_spec a nx), (Nat.ltb_spec b nx); try lia;
  destruct (Nat.ltb_spec a (nx + nu)), (Nat.ltb_spec b (nx + nu)); try lia; unfold VARX, VARU; nia.
Qed.

(** effect of a run of writes at the rows [lo .. lo + len) of node [n] *)
Definition E (n lo len : nat) (f : nat -> R -> R) (i : nat) (v : R) : R :=
  match zidx n i with
  | Some a => if in_seg lo len a then f (a - lo)%nat v else v
  | None => v
  end.

Lemma col_op : forall n c lo len f (M : spmat R) ad, (n < N)%nat -> (c < sp_c M)%nat ->
  sp_r M = VAR o -> (lo + len <= NZ o)%nat ->
  (forall q, (q < len)%nat -> pat M (zrow n (lo + q)) c = true /\ pos M (zrow n (lo + q)) c = (ad + q)%nat) ->
  exists M', oloop len (fun q M => upd M (ad + q) (f q)) M = Some M' /\ same M M' /\
   forall i j, (i < VAR o)%nat -> val M' i j = if (j =? c)%nat then E n lo len f i (val M i j) else val M i j.
Proof.
  intros n c lo len f M ad Hn Hc Hr Hl H.
  destruct (run_upd len f (fun q => zrow n (lo + q)) M c ad) as (M' & EE & S1 & V1 & V2); auto.
  { intros q Hq. rewrite Hr. split; [apply zrow_lt; auto; lia|]. apply H; auto. }
  exists M'. split; auto. split; auto. intros i j Hi. destruct (Nat.eqb_spec j c) as [->|Hne].
  - unfold E. destruct (zidx n i) as [a|] eqn:Ez.
    + destruct (zidx_inv n i a Hn Ez) as (Ei & Ha). destruct (in_seg lo len a) eqn:Es.
      * apply in_seg_spec in Es. replace i with (zrow n (lo + (a - lo))) by (rewrite Ei; f_equal; lia).
        apply V1. lia.
      * apply V2; [rewrite Hr; auto|]. right. intros q Hq Eq. rewrite Eq in Ez. rewrite zidx_zrow in Ez by lia.
        injection Ez as <-. rewrite in_seg_true in Es by lia. discriminate.
    + apply V2; [rewrite Hr; auto|]. right. intros q Hq Eq. rewrite Eq, zidx_zrow in Ez by lia. discriminate.
  - apply V2; [rewrite Hr; auto|]. left; auto.
Qed.

(** a loop over the columns [c0 .. c0 + nc) whose body [j] only touches column [c0 + j] *)
Lemma cols_loop : forall nc c0 (body : nat -> spmat R -> option (spmat R)) (Ef : nat -> nat -> R -> R) M,
  (forall j M1, (j < nc)%nat -> same M M1 -> exists M2, body j M1 = Some M2 /\ same M1 M2 /\
     forall i jj, (i < VAR o)%nat -> val M2 i jj = if (jj =? c0 + j)%nat then Ef j i (val M1 i jj) else val M1 i jj) ->
  exists M', oloop nc body M = Some M' /\ same M M' /\
   forall i jj, (i < VAR o)%nat ->
     val M' i jj = if in_seg c0 nc jj then Ef (jj - c0)%nat i (val M i jj) else val M i jj.
Proof.
  intros nc c0 body Ef M H.
  apply (oloop_inv _ (fun k M' => same M M' /\ forall i jj, (i < VAR o)%nat ->
     val M' i jj = if in_seg c0 k jj then Ef (jj - c0)%nat i (val M i jj) else val M i jj)).
  - split; [apply same_refl|]. intros. rewrite in_seg_false by lia. reflexivity.
  - intros k M1 Hk (S1 & V1). destruct (H k M1 Hk S1) as (M2 & E2 & S2 & V2). exists M2. split; auto.
    split; [eapply same_trans; eauto|]. intros i jj Hi. rewrite V2, V1 by auto.
    destruct (Nat.eqb_spec jj (c0 + k)) as [->|Hne].
    + rewrite (in_seg_false c0 k) by lia. rewrite (in_seg_true c0 (S k)) by lia. f_equal. lia.
    + destruct (in_seg c0 k jj) eqn:Es.
      * apply in_seg_spec in Es. rewrite in_seg_true by lia. reflexivity.
      * rewrite in_seg_false; auto. destruct (Nat.lt_ge_cases jj c0); auto. right.
        destruct (Nat.lt_ge_cases jj (c0 + k)); [rewrite in_seg_true in Es by lia; discriminate|lia].
Qed.

(** the columns of node [n] and of the parameters are complete *)
Definition ready (M : spmat R) (n : nat) : Prop :=
  sp_r M = VAR o /\ sp_c M = VAR o /\
  (forall i c, (i < VAR o)%nat -> (c < nx + nu)%nat -> pat M i (zrow n c) = inz n i) /\
  (forall i m, (i < VAR o)%nat -> (m < np)%nat -> pat M i (vx + vu + m)%nat = true).

Lemma ready_same : forall M M' n, ready M n -> same M M' -> ready M' n.
Proof. intros M M' n (a & b & c & d) (a' & b' & c' & d'). unfold ready. rewrite a', b', c'. auto. Qed.

Lemma inz_zrow : forall n a, (n < N)%nat -> (a < NZ o)%nat -> inz n (zrow n a) = true.
Proof. intros. unfold Ocp_Sparse_Proofs.inz. rewrite zidx_zrow; auto. Qed.

Lemma pos_node : forall M n c a, ready M n -> (n < N)%nat -> (c < nx + nu)%nat -> (a < NZ o)%nat ->
  pat M (zrow n a) (zrow n c) = true /\ pos M (zrow n a) (zrow n c) = (outer M (zrow n c) + a)%nat.
Proof.
  intros M n c a (Hr & Hc & Hp & _) Hn Hcc Ha. pose proof (zrow_lt n a Hn Ha) as Hlt.
  rewrite Hp by auto. rewrite inz_zrow by auto. split; auto. unfold pos. f_equal.
  rewrite (cnt_ext _ (inz n)).
  2:{ intros i Hi. apply Hp; auto. lia. }
  apply (cnt_inv (inz n) (zrow n) (NZ o)); auto.
  - intros; apply zrow_mono; auto.
  - intros i Hi. unfold Ocp_Sparse_Proofs.inz in Hi. destruct (zidx n i) as [b|] eqn:Ez; [|discriminate].
    destruct (zidx_inv n i b Hn Ez). exists b. auto.
  - intros; apply inz_zrow; auto.
Qed.
Lemma pos_p : forall M n m i, ready M n -> (m < np)%nat -> (i < VAR o)%nat ->
  pat M i (vx + vu + m)%nat = true /\ pos M i (vx + vu + m)%nat = (outer M (vx + vu + m) + i)%nat.
Proof.
  intros M n m i (Hr & Hc & _ & Hp) Hm Hi. rewrite Hp by auto. split; auto. unfold pos. f_equal.
  apply cnt_all. intros. apply Hp; auto. lia.
Qed.

Lemma zrow_x : forall n j, (j < nx)%nat -> zrow n j = (n * nx + j)%nat.
Proof. intros n j H. unfold zrow. rewrite (proj2 (Nat.ltb_lt j nx)) by auto. reflexivity. Qed.
Lemma zrow_u : forall n j, (j < nu)%nat -> zrow n (nx + j) = (n * nu + vx + j)%nat.
Proof.
  intros n j H. unfold zrow. rewrite (proj2 (Nat.ltb_ge (nx + j) nx)) by lia.
  rewrite (proj2 (Nat.ltb_lt (nx + j) (nx + nu))) by lia. lia.
Qed.
Lemma zrow_p : forall n j, zrow n (nx + nu + j) = (vx + vu + j)%nat.
Proof.
  intros n j. unfold zrow. rewrite (proj2 (Nat.ltb_ge (nx + nu + j) nx)) by lia.
  rewrite (proj2 (Nat.ltb_ge (nx + nu + j) (nx + nu))) by lia. lia.
Qed.

(** the three kinds of columns *)

Lemma x_op : forall M n j lo len f ad, ready M n -> (n < N)%nat -> (j < nx)%nat -> (lo + len <= NZ o)%nat ->
  ad = (outer M (n * nx + j) + lo)%nat ->
  exists M', oloop len (fun q M => upd M (ad + q) (f q)) M = Some M' /\ same M M' /\
   forall i jj, (i < VAR o)%nat -> val M' i jj = if (jj =? n * nx + j)%nat then E n lo len f i (val M i jj) else val M i jj.
Proof.
  intros M n j lo len f ad HM Hn Hj Hl Had. pose proof HM as (Hr & Hc & _).
  assert (HNZ : (nx <= NZ o)%nat) by (unfold NZ; lia).
  apply col_op; auto.
  - rewrite Hc. rewrite <- zrow_x by auto. apply zrow_lt; auto. lia.
  - intros q Hq. destruct (pos_node M n j (lo + q) HM Hn) as (A & B); [lia|lia|].
    rewrite (zrow_x n j) in A, B by auto. rewrite B. split; auto. lia.
Qed.
Lemma u_op : forall M n j lo len f ad, ready M n -> (n < N)%nat -> (j < nu)%nat -> (lo + len <= NZ o)%nat ->
  ad = (outer M (n * nu + vx + j) + lo)%nat ->
  exists M', oloop len (fun q M => upd M (ad + q) (f q)) M = Some M' /\ same M M' /\
   forall i jj, (i < VAR o)%nat -> val M' i jj = if (jj =? n * nu + vx + j)%nat then E n lo len f i (val M i jj) else val M i jj.
Proof.
  intros M n j lo len f ad HM Hn Hj Hl Had. pose proof HM as (Hr & Hc & _).
  assert (HNZ : (nx + nu <= NZ o)%nat) by (unfold NZ; lia).
  apply col_op; auto.
  - rewrite Hc. rewrite <- zrow_u by auto. apply zrow_lt; auto. lia.
  - intros q Hq. destruct (pos_node M n (nx + j) (lo + q) HM Hn) as (A & B); [lia|lia|].
    rewrite (zrow_u n j) in A, B by auto. rewrite B. split; auto. lia.
Qed.
Lemma p_op : forall M n j lo len f ad, ready M n -> (n < N)%nat -> (j < np)%nat -> (lo + len <= NZ o)%nat ->
  (forall q, (q < len)%nat -> outer M (vx + vu + j) + zrow n (lo + q) = ad + q)%nat ->
  exists M', oloop len (fun q M => upd M (ad + q) (f q)) M = Some M' /\ same M M' /\
   forall i jj, (i < VAR o)%nat -> val M' i jj = if (jj =? vx + vu + j)%nat then E n lo len f i (val M i jj) else val M i jj.
Proof.
  intros M n j lo len f ad HM Hn Hj Hl Had. pose proof HM as (Hr & Hc & _).
  apply col_op; auto.
  - rewrite Hc. unfold VAR. lia.
  - intros q Hq. destruct (pos_p M n j (zrow n (lo + q)) HM Hj) as (A & B); [apply zrow_lt; auto; lia|].
    rewrite B. split; auto.
Qed.

(** contribution of the Hessian [h] of node [n] *)
Definition nadd (n : nat) (h : mat R) (i j : nat) : R :=
  match zidx n i, zidx n j with Some a, Some b => h a b | _, _ => 0 end.
Definition plus (h : mat R) (r b q : nat) (v : R) : R := v + h (r + q)%nat b.


Ltac nzl := unfold NZ; lia.

(** loops over the columns of one kind *)
Lemma x_loop : forall M n lo len (f : nat -> nat -> R -> R) (ad : nat -> spmat R -> nat), ready M n -> (n < N)%nat -> (lo + len <= NZ o)%nat ->
  (forall j M1, ad j M1 = (outer M1 (n * nx + j) + lo)%nat) ->
  exists M', oloop nx (fun j M => oloop len (fun q M1 => upd M1 (ad j M + q) (f j q)) M) M = Some M' /\ same M M' /\
   forall i jj, (i < VAR o)%nat -> val M' i jj = if in_seg (n * nx) nx jj then E n lo len (f (jj - n * nx)%nat) i (val M i jj) else val M i jj.
Proof.
  intros M n lo len f ad HM Hn Hl Had. apply (cols_loop nx (n * nx) _ (fun j => E n lo len (f j))).
  intros j M1 Hj S1. apply x_op; auto. eapply ready_same; eauto.
Qed.
Lemma u_loop : forall M n lo len (f : nat -> nat -> R -> R) (ad : nat -> spmat R -> nat), ready M n -> (n < N)%nat -> (lo + len <= NZ o)%nat ->
  (forall j M1, ad j M1 = (outer M1 (n * nu + vx + j) + lo)%nat) ->
  exists M', oloop nu (fun j M => oloop len (fun q M1 => upd M1 (ad j M + q) (f j q)) M) M = Some M' /\ same M M' /\
   forall i jj, (i < VAR o)%nat -> val M' i jj = if in_seg (n * nu + vx) nu jj then E n lo len (f (jj - (n * nu + vx))%nat) i (val M i jj) else val M i jj.
Proof.
  intros M n lo len f ad HM Hn Hl Had. apply (cols_loop nu (n * nu + vx) _ (fun j => E n lo len (f j))).
  intros j M1 Hj S1. apply u_op; auto. eapply ready_same; eauto.
Qed.
Lemma p_loop : forall M n lo len (f : nat -> nat -> R -> R) (ad : nat -> spmat R -> nat), ready M n -> (n < N)%nat -> (lo + len <= NZ o)%nat ->
  (forall j M1 q, (q < len)%nat -> outer M1 (vx + vu + j) + zrow n (lo + q) = ad j M1 + q)%nat ->
  exists M', oloop np (fun j M => oloop len (fun q M1 => upd M1 (ad j M + q) (f j q)) M) M = Some M' /\ same M M' /\
   forall i jj, (i < VAR o)%nat -> val M' i jj = if in_seg (vx + vu) np jj then E n lo len (f (jj - (vx + vu))%nat) i (val M i jj) else val M i jj.
Proof.
  intros M n lo len f ad HM Hn Hl Had. apply (cols_loop np (vx + vu) _ (fun j => E n lo len (f j))).
  intros j M1 Hj S1. apply p_op; auto. eapply ready_same; eauto.
Qed.

(** all entries of the node except the parameter block *)
Definition pp (i j : nat) : bool := (vx + vu <=? i)%nat && (vx + vu <=? j)%nat.

Lemma zrow_p_ge : forall n a, (n < N)%nat -> (a < NZ o)%nat -> (vx + vu <=? zrow n a)%nat = (nx + nu <=? a)%nat.
Proof.
  intros n a Hn Ha. unfold zrow, NZ in *.
  destruct (Nat.ltb_spec a nx); [|destruct (Nat.ltb_spec a (nx + nu))].
  - rewrite (proj2 (Nat.leb_gt (nx + nu) a)) by lia. apply Nat.leb_gt. unfold VARX, VARU. nia.
  - rewrite (proj2 (Nat.leb_gt (nx + nu) a)) by lia. apply Nat.leb_gt. unfold VARU. nia.
  - rewrite (proj2 (Nat.leb_le (nx + nu) a)) by lia. apply Nat.leb_le. lia.
Qed.

Lemma zidx_p_ge : forall n i a, (n < N)%nat -> zidx n i = Some a -> (vx + vu <=? i)%nat = (nx + nu <=? a)%nat.
Proof. intros n i a Hn H. destruct (zidx_inv n i a Hn H) as (-> & Ha). apply zrow_p_ge; auto. Qed.

Lemma E_ext : forall n lo len f i v a, zidx n i = Some a -> E n lo len f i v = if in_seg lo len a then f (a - lo)%nat v else v.
Proof. intros n lo len f i v a H. unfold E. rewrite H. reflexivity. Qed.

(** membership of a column in the three ranges of node [n] *)
Lemma col_cases : forall n j, (n < N)%nat -> (j < VAR o)%nat ->
  (exists b, zidx n j = Some b /\ (b < nx)%nat /\ (j - n * nx = b)%nat /\
     in_seg (n * nx) nx j = true /\ in_seg (n * nu + vx) nu j = false /\ in_seg (vx + vu) np j = false) \/
  (exists b, zidx n j = Some (nx + b)%nat /\ (b < nu)%nat /\ (j - (n * nu + vx) = b)%nat /\
     in_seg (n * nx) nx j = false /\ in_seg (n * nu + vx) nu j = true /\ in_seg (vx + vu) np j = false) \/
  (exists b, zidx n j = Some (nx + nu + b)%nat /\ (b < np)%nat /\ (j - (vx + vu) = b)%nat /\
     in_seg (n * nx) nx j = false /\ in_seg (n * nu + vx) nu j = false /\ in_seg (vx + vu) np j = true) \/
  (zidx n j = None /\ in_seg (n * nx) nx j = false /\ in_seg (n * nu + vx) nu j = false /\ in_seg (vx + vu) np j = false).
Proof.
  intros n j Hn Hj. unfold Ocp_Sparse_Proofs.zidx.
  destruct (in_seg (n * nx) nx j) eqn:E1.
  - left. exists (j - n * nx)%nat. pose proof (proj1 (in_seg_spec _ _ _) E1). repeat split; auto; try lia.
    + apply in_seg_false. left. unfold VARX. nia.
    + apply in_seg_false. left. unfold VARX. nia.
  - destruct (in_seg (n * nu + vx) nu j) eqn:E2.
    + right. left. exists (j - (n * nu + vx))%nat. pose proof (proj1 (in_seg_spec _ _ _) E2). repeat split; auto; try lia.
      apply in_seg_false. left. unfold VARX, VARU in *. nia.
    + destruct (in_seg (vx + vu) np j) eqn:E3.
      * right. right. left. exists (j - (vx + vu))%nat. pose proof (proj1 (in_seg_spec _ _ _) E3). repeat split; auto; try lia.
      * right. right. right. auto.
Qed.

Ltac seg_dec := repeat match goal with
  | |- context [in_seg ?a ?b ?c] => first [rewrite (in_seg_true a b c) by lia | rewrite (in_seg_false a b c) by lia]
  end.

Lemma hes_add_cols_ok : forall M n h, ready M n -> (n < N)%nat ->
  exists M', hes_add_cols o M n h = Some M' /\ same M M' /\
   forall i j, (i < VAR o)%nat -> (j < VAR o)%nat -> val M' i j = val M i j + nadd n h i j.
Proof.
  intros M n h HM Hn. unfold hes_add_cols, add_n.
  destruct (x_loop M n 0 (nx + nu + np) (fun j q v => v + h q j) (fun j M => outer M (n * nx + j)%nat)) as (M1 & E1 & S1 & V1);
    [auto|auto|nzl|intros; lia|].
  match goal with |- context [obind ?x _] => replace x with (Some M1) by (symmetry; exact E1) end. cbn [obind].
  assert (HM1 : ready M1 n) by (eapply ready_same; eauto).
  destruct (u_loop M1 n 0 (nx + nu + np) (fun j q v => v + h q (nx + j)%nat) (fun j M => outer M (n * nu + vx + j)%nat)) as (M2 & E2 & S2 & V2);
    [auto|auto|nzl|intros; lia|].
  match goal with |- context [obind ?x _] => replace x with (Some M2) by (symmetry; exact E2) end. cbn [obind].
  assert (HM2 : ready M2 n) by (eapply ready_same; eauto).
  destruct (cols_loop np (vx + vu) (fun j M =>
    obind (oloop nx (fun q M1 => upd M1 (outer M (vx + vu + j) + n * nx + q) (fun v => v + h q (nx + nu + j)%nat)) M) (fun M =>
    obind (oloop nu (fun q M1 => upd M1 (outer M (vx + vu + j) + vx + n * nu + q) (fun v => v + h (nx + q)%nat (nx + nu + j)%nat)) M) (fun M =>
    oloop np (fun q M1 => upd M1 (outer M (vx + vu + j) + vx + vu + q) (fun v => v + h (nx + nu + q)%nat (nx + nu + j)%nat)) M)))
    (fun j i v => E n (nx + nu) np (fun q v => v + h (nx + nu + q)%nat (nx + nu + j)%nat) i
       (E n nx nu (fun q v => v + h (nx + q)%nat (nx + nu + j)%nat) i
       (E n 0 nx (fun q v => v + h q (nx + nu + j)%nat) i v))) M2) as (M3 & E3 & S3 & V3).
  { intros j Ma Hj Sa. assert (Ra : ready Ma n) by (eapply ready_same; eauto).
    destruct (p_op Ma n j 0 nx (fun q v => v + h q (nx + nu + j)%nat) (outer Ma (vx + vu + j) + n * nx)) as (Mb & Eb & Sb & Vb); [auto|auto|auto|nzl| |].
    { intros q Hq. rewrite Nat.add_0_l, zrow_x by auto. lia. }
    rewrite Eb. cbn [obind]. assert (Rb : ready Mb n) by (eapply ready_same; eauto).
    destruct (p_op Mb n j nx nu (fun q v => v + h (nx + q)%nat (nx + nu + j)%nat) (outer Mb (vx + vu + j) + vx + n * nu)) as (Mc & Ec & Sc & Vc); [auto|auto|auto|nzl| |].
    { intros q Hq. rewrite zrow_u by auto. lia. }
    rewrite Ec. cbn [obind]. assert (Rc : ready Mc n) by (eapply ready_same; eauto).
    destruct (p_op Mc n j (nx + nu) np (fun q v => v + h (nx + nu + q)%nat (nx + nu + j)%nat) (outer Mc (vx + vu + j) + vx + vu)) as (Md & Ed & Sd & Vd); [auto|auto|auto|nzl| |].
    { intros q Hq. rewrite zrow_p by auto. lia. }
    exists Md. split; auto. split; [eauto using same_trans|].
    intros i jj Hi. rewrite Vd, Vc, Vb by auto. destruct (jj =? vx + vu + j)%nat; reflexivity. }
  exists M3. split; [exact E3|]. split; [eauto using same_trans|].
  intros i j Hi Hj. rewrite V3, V2, V1 by auto. unfold nadd.
  destruct (zidx n i) as [a|] eqn:Ei.
  - pose proof (zidx_inv n i a Hn Ei) as (_ & Ha). unfold NZ in Ha. rewrite !(E_ext n _ _ _ i _ a Ei).
    destruct (col_cases n j Hn Hj) as [(b & -> & Hb & -> & -> & -> & ->)|[(b & -> & Hb & -> & -> & -> & ->)|[(b & -> & Hb & -> & -> & -> & ->)|(-> & -> & -> & ->)]]].
    + seg_dec. rewrite Nat.sub_0_r. reflexivity.
    + seg_dec. rewrite Nat.sub_0_r. reflexivity.
    + assert (Hc : (a < nx \/ nx <= a < nx + nu \/ nx + nu <= a)%nat) by lia.
      destruct Hc as [Hc|[Hc|Hc]]; seg_dec; do 2 f_equal; lia.
    + lra.
  - unfold E. rewrite Ei. destruct (in_seg (n * nx) nx j), (in_seg (n * nu + vx) nu j), (in_seg (vx + vu) np j); lra.
Qed.

Lemma hes_copy_cols_ok : forall M n h, ready M n -> (n < N)%nat ->
  exists M', hes_copy_cols o M n h = Some M' /\ same M M' /\
   forall i j, (i < VAR o)%nat -> (j < VAR o)%nat ->
     val M' i j = if inz n i && inz n j && negb (pp i j) then nadd n h i j else val M i j.
Proof.
  intros M n h HM Hn. unfold hes_copy_cols, copy_n.
  destruct (x_loop M n 0 (nx + nu + np) (fun j q _ => h q j) (fun j M => outer M (n * nx + j)%nat)) as (M1 & E1 & S1 & V1);
    [auto|auto|nzl|intros; lia|].
  match goal with |- context [obind ?x _] => replace x with (Some M1) by (symmetry; exact E1) end. cbn [obind].
  assert (HM1 : ready M1 n) by (eapply ready_same; eauto).
  destruct (u_loop M1 n 0 (nx + nu + np) (fun j q _ => h q (nx + j)%nat) (fun j M => outer M (n * nu + vx + j)%nat)) as (M2 & E2 & S2 & V2);
    [auto|auto|nzl|intros; lia|].
  match goal with |- context [obind ?x _] => replace x with (Some M2) by (symmetry; exact E2) end. cbn [obind].
  assert (HM2 : ready M2 n) by (eapply ready_same; eauto).
  destruct (cols_loop np (vx + vu) (fun j M =>
    obind (oloop nx (fun q M1 => upd M1 (outer M (vx + vu + j) + n * nx + q) (fun _ => h q (nx + nu + j)%nat)) M) (fun M =>
    oloop nu (fun q M1 => upd M1 (outer M (vx + vu + j) + vx + n * nu + q) (fun _ => h (nx + q)%nat (nx + nu + j)%nat)) M))
    (fun j i v => 
       (E n nx nu (fun q _ => h (nx + q)%nat (nx + nu + j)%nat) i
       (E n 0 nx (fun q _ => h q (nx + nu + j)%nat) i v))) M2) as (M3 & E3 & S3 & V3).
  { intros j Ma Hj Sa. assert (Ra : ready Ma n) by (eapply ready_same; eauto).
    destruct (p_op Ma n j 0 nx (fun q _ => h q (nx + nu + j)%nat) (outer Ma (vx + vu + j) + n * nx)) as (Mb & Eb & Sb & Vb); [auto|auto|auto|nzl| |].
    { intros q Hq. rewrite Nat.add_0_l, zrow_x by auto. lia. }
    rewrite Eb. cbn [obind]. assert (Rb : ready Mb n) by (eapply ready_same; eauto).
    destruct (p_op Mb n j nx nu (fun q _ => h (nx + q)%nat (nx + nu + j)%nat) (outer Mb (vx + vu + j) + vx + n * nu)) as (Mc & Ec & Sc & Vc); [auto|auto|auto|nzl| |].
    { intros q Hq. rewrite zrow_u by auto. lia. }
    exists Mc. split; auto. split; [eauto using same_trans|].
    intros i jj Hi. rewrite Vc, Vb by auto. destruct (jj =? vx + vu + j)%nat; reflexivity. }
  exists M3. split; [exact E3|]. split; [eauto using same_trans|].
  intros i j Hi Hj. rewrite V3, V2, V1 by auto. unfold nadd, Ocp_Sparse_Proofs.inz, pp.
  destruct (zidx n i) as [a|] eqn:Ei.
  - pose proof (zidx_inv n i a Hn Ei) as (_ & Ha). rewrite (zidx_p_ge n i a Hn Ei).
    unfold NZ in Ha. rewrite !(E_ext n _ _ _ i _ a Ei).
    assert (Hjp : forall b, zidx n j = Some b -> (vx + vu <=? j)%nat = (nx + nu <=? b)%nat) by (intros; apply (zidx_p_ge n); auto).
    destruct (col_cases n j Hn Hj) as [(b & Eb & Hb & -> & -> & -> & ->)|[(b & Eb & Hb & -> & -> & -> & ->)|[(b & Eb & Hb & -> & -> & -> & ->)|(-> & -> & -> & ->)]]];
      try (rewrite (Hjp _ Eb), Eb).
    + seg_dec. rewrite Nat.sub_0_r. rewrite (proj2 (Nat.leb_gt (nx + nu) b)) by lia. rewrite andb_false_r. reflexivity.
    + seg_dec. rewrite Nat.sub_0_r. rewrite (proj2 (Nat.leb_gt (nx + nu) (nx + b))) by lia. rewrite andb_false_r. reflexivity.
    + rewrite (proj2 (Nat.leb_le (nx + nu) (nx + nu + b))) by lia. rewrite andb_true_r.
      assert (Hc : (a < nx \/ nx <= a < nx + nu \/ nx + nu <= a)%nat) by lia.
      destruct Hc as [Hc|[Hc|Hc]]; seg_dec.
      * rewrite (proj2 (Nat.leb_gt (nx + nu) a)) by lia. cbn. f_equal; lia.
      * rewrite (proj2 (Nat.leb_gt (nx + nu) a)) by lia. cbn. f_equal; lia.
      * rewrite (proj2 (Nat.leb_le (nx + nu) a)) by lia. reflexivity.
    + reflexivity.
  - unfold E. rewrite Ei. destruct (in_seg (n * nx) nx j), (in_seg (n * nu + vx) nu j), (in_seg (vx + vu) np j); reflexivity.
Qed.

Lemma hes_glue_ok : forall M n h, ready M n -> (n < N)%nat ->
  exists M', hes_glue o M n h = Some M' /\ same M M' /\
   forall i j, (i < VAR o)%nat -> (j < VAR o)%nat ->
     val M' i j = if pp i j then val M i j else val M i j + nadd n h i j.
Proof.
  intros M n h HM Hn. unfold hes_glue, add_n.
  destruct (x_loop M n 0 nx (fun j q v => v + h q j) (fun j M => outer M (n * nx + j)%nat)) as (M1 & E1 & S1 & V1);
    [auto|auto|nzl|intros; lia|].
  match goal with |- context [obind ?x _] => replace x with (Some M1) by (symmetry; exact E1) end. cbn [obind].
  assert (R1 : ready M1 n) by (eapply ready_same; eauto).
  destruct (u_loop M1 n 0 nx (fun j q v => v + h q (nx + j)%nat) (fun j M => outer M (n * nu + vx + j)%nat)) as (M2 & E2 & S2 & V2);
    [auto|auto|nzl|intros; lia|].
  match goal with |- context [obind ?x _] => replace x with (Some M2) by (symmetry; exact E2) end. cbn [obind].
  assert (R2 : ready M2 n) by (eapply ready_same; eauto).
  destruct (p_loop M2 n 0 nx (fun j q v => v + h q (nx + nu + j)%nat) (fun j M => outer M (vx + vu + j) + n * nx)%nat) as (M3 & E3 & S3 & V3);
    [auto|auto|nzl|intros; rewrite Nat.add_0_l, zrow_x by auto; lia|].
  match goal with |- context [obind ?x _] => replace x with (Some M3) by (symmetry; exact E3) end. cbn [obind].
  assert (R3 : ready M3 n) by (eapply ready_same; eauto).
  destruct (u_loop M3 n nx nu (fun j q v => v + h (nx + q)%nat (nx + j)%nat) (fun j M => outer M (n * nu + vx + j) + nx)%nat) as (M4 & E4 & S4 & V4);
    [auto|auto|nzl|intros; lia|].
  match goal with |- context [obind ?x _] => replace x with (Some M4) by (symmetry; exact E4) end. cbn [obind].
  assert (R4 : ready M4 n) by (eapply ready_same; eauto).
  destruct (x_loop M4 n nx nu (fun j q v => v + h (nx + q)%nat j) (fun j M => outer M (n * nx + j) + nx)%nat) as (M5 & E5 & S5 & V5);
    [auto|auto|nzl|intros; lia|].
  match goal with |- context [obind ?x _] => replace x with (Some M5) by (symmetry; exact E5) end. cbn [obind].
  assert (R5 : ready M5 n) by (eapply ready_same; eauto).
  destruct (p_loop M5 n nx nu (fun j q v => v + h (nx + q)%nat (nx + nu + j)%nat) (fun j M => outer M (vx + vu + j) + vx + n * nu)%nat) as (M6 & E6 & S6 & V6);
    [auto|auto|nzl|intros; rewrite zrow_u by auto; lia|].
  match goal with |- context [obind ?x _] => replace x with (Some M6) by (symmetry; exact E6) end. cbn [obind].
  assert (R6 : ready M6 n) by (eapply ready_same; eauto).
  destruct (x_loop M6 n (nx + nu) np (fun j q v => v + h (nx + nu + q)%nat j) (fun j M => outer M (n * nx + j) + nx + nu)%nat) as (M7 & E7 & S7 & V7);
    [auto|auto|nzl|intros; lia|].
  match goal with |- context [obind ?x _] => replace x with (Some M7) by (symmetry; exact E7) end. cbn [obind].
  assert (R7 : ready M7 n) by (eapply ready_same; eauto).
  destruct (u_loop M7 n (nx + nu) np (fun j q v => v + h (nx + nu + q)%nat (nx + j)%nat) (fun j M => outer M (n * nu + vx + j) + nx + nu)%nat) as (M8 & E8 & S8 & V8);
    [auto|auto|nzl|intros; lia|].
  exists M8. split; [exact E8|]. split; [eauto 10 using same_trans|].
  intros i j Hi Hj. unfold nadd, pp.
  assert (HV : in_seg (n * nx) nx j = false -> in_seg (n * nu + vx) nu j = false -> in_seg (vx + vu) np j = false -> val M8 i j = val M i j).
  { intros A B C. rewrite V8, B, V7, A, V6, C, V5, A, V4, B, V3, C, V2, B, V1, A by auto. reflexivity. }
  destruct (zidx n i) as [a|] eqn:Ei.
  - pose proof (zidx_inv n i a Hn Ei) as (_ & Ha). rewrite (zidx_p_ge n i a Hn Ei). unfold NZ in Ha.
    assert (Hjp : forall b, zidx n j = Some b -> (vx + vu <=? j)%nat = (nx + nu <=? b)%nat) by (intros; apply (zidx_p_ge n); auto).
    assert (Hc : (a < nx \/ nx <= a < nx + nu \/ nx + nu <= a)%nat) by lia.
    destruct (col_cases n j Hn Hj) as [(b & Eb & Hb & Ej & A & B & C)|[(b & Eb & Hb & Ej & A & B & C)|[(b & Eb & Hb & Ej & A & B & C)|(Eb & A & B & C)]]].
    + rewrite (Hjp _ Eb), Eb. rewrite V8, B, V7, A, V6, C, V5, A, V4, B, V3, C, V2, B, V1, A, Ej by auto.
      rewrite !(E_ext n _ _ _ i _ a Ei). rewrite (proj2 (Nat.leb_gt (nx + nu) b)) by lia. rewrite andb_false_r.
      destruct Hc as [Hc|[Hc|Hc]]; seg_dec; do 2 f_equal; lia.
    + rewrite (Hjp _ Eb), Eb. rewrite V8, B, V7, A, V6, C, V5, A, V4, B, V3, C, V2, B, V1, A, Ej by auto.
      rewrite !(E_ext n _ _ _ i _ a Ei). rewrite (proj2 (Nat.leb_gt (nx + nu) (nx + b))) by lia. rewrite andb_false_r.
      destruct Hc as [Hc|[Hc|Hc]]; seg_dec; do 2 f_equal; lia.
    + rewrite (Hjp _ Eb), Eb. rewrite V8, B, V7, A, V6, C, V5, A, V4, B, V3, C, V2, B, V1, A, Ej by auto.
      rewrite !(E_ext n _ _ _ i _ a Ei). rewrite (proj2 (Nat.leb_le (nx + nu) (nx + nu + b))) by lia. rewrite andb_true_r.
      destruct Hc as [Hc|[Hc|Hc]]; seg_dec.
      * rewrite (proj2 (Nat.leb_gt (nx + nu) a)) by lia. do 2 f_equal; lia.
      * rewrite (proj2 (Nat.leb_gt (nx + nu) a)) by lia. do 2 f_equal; lia.
      * rewrite (proj2 (Nat.leb_le (nx + nu) a)) by lia. reflexivity.
    + rewrite HV, Eb by auto. destruct (_ && _); lra.
  - assert (HE : forall lo len f v, E n lo len f i v = v) by (intros; unfold E; rewrite Ei; reflexivity).
    assert (HW : val M8 i j = val M i j).
    { rewrite V8, HE, V7, HE, V6, HE, V5, HE, V4, HE, V3, HE, V2, HE, V1, HE by auto.
      destruct (in_seg (n * nx) nx j), (in_seg (n * nu + vx) nu j), (in_seg (vx + vu) np j); reflexivity. }
    rewrite HW. destruct (_ && _); lra.
Qed.

(** the parameter block: written as rows of the parameter columns *)
Lemma pp_loop : forall M n (f : nat -> nat -> R -> R), ready M n -> (n < N)%nat ->
  exists M', oloop np (fun j M => oloop np (fun q M1 => upd M1 (outer M (vx + vu + j) + vx + vu + q) (f j q)) M) M = Some M' /\ same M M' /\
   forall i j, (i < VAR o)%nat -> (j < VAR o)%nat ->
     val M' i j = if pp i j then f (j - (vx + vu))%nat (i - (vx + vu))%nat (val M i j) else val M i j.
Proof.
  intros M n f HM Hn.
  destruct (p_loop M n (nx + nu) np f (fun j M => outer M (vx + vu + j) + vx + vu)%nat) as (M1 & E1 & S1 & V1);
    [auto|auto|nzl|intros; rewrite zrow_p by auto; lia|].
  exists M1. split; [exact E1|]. split; auto. intros i j Hi Hj. rewrite V1 by auto. unfold pp.
  destruct (Nat.leb_spec (vx + vu) j) as [Lj|Lj].
  - rewrite in_seg_true by (unfold VAR in *; lia). rewrite andb_true_r.
    destruct (Nat.leb_spec (vx + vu) i) as [Li|Li].
    + assert (Ei : zidx n i = Some (nx + nu + (i - (vx + vu)))%nat).
      { assert (Hlt : (i - (vx + vu) < np)%nat) by (unfold VAR in *; lia).
        rewrite <- (zidx_zrow n (nx + nu + (i - (vx + vu)))) by (auto; nzl). rewrite zrow_p. f_equal. lia. }
      rewrite (E_ext n _ _ _ i _ _ Ei). unfold VAR in *. rewrite in_seg_true by lia. f_equal. lia.
    + unfold E. destruct (zidx n i) as [a|] eqn:Ei; auto.
      pose proof (zidx_p_ge n i a Hn Ei) as Hge. rewrite (proj2 (Nat.leb_gt _ _) Li) in Hge. symmetry in Hge.
      apply Nat.leb_gt in Hge. rewrite in_seg_false by lia. reflexivity.
  - rewrite in_seg_false by lia. rewrite andb_false_r. reflexivity.
Qed.

End P.
