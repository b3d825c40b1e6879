(** The sparsity preserving block BFGS update of the transcription. *)
Require Import Arith ZArith List Bool Lia Reals Lra.
From Verif Require Import Scal RSum Blk Sparse Sparse_Proofs Ocp_Model Ocp_Spec Ocp_Proofs Ocp_Cost_Proofs Ocp_Sparse_Model Ocp_Sparse_Proofs Ocp_Hes_Proofs Ocp_Hes_Asm_Proofs Block_Pd.

Section P.
Variable o : ocp R.
Local Notation nx := (NX o).
Local Notation nu := (NU o).
Local Notation np := (NP o).
Local Notation P := (PO o).
Local Notation Sg := (SG o).
Local Notation N := (NUM_NODES o).
Local Notation vx := (VARX o).
Local Notation vu := (VARU o).
Local Notation zidx := (zidx o).
Local Notation inz := (inz o).
Local Notation zrow := (zrow o).
Local Notation ready := (ready o).
Local Notation E := (E o).
Local Open Scope R_scope.

Ltac nzl := unfold NZ; lia.
Ltac seg_dec := repeat match goal with
  | |- context [in_seg ?a ?b ?c] => first [rewrite (in_seg_true a b c) by lia | rewrite (in_seg_false a b c) by lia]
  end.

Variable c : mat R.
Hypothesis csym : forall a b, c a b = c b a.

Definition node_body (k : nat) (M : spmat R) : option (spmat R) :=
  let X := fun k c => (k * nx + c)%nat in
  let U := fun k c => (k * nu + vx + c)%nat in
    obind (oloop nx (fun j M =>
      obind (add_n M nx (fun r => c (X k r) (X k j)) (outer M (k * nx + j))) (fun M =>
      add_n M nu (fun r => c (U k r) (X k j)) (outer M (k * nx + j) + nx))) M) (fun M =>
    oloop nu (fun j M =>
      obind (add_n M nx (fun r => c (U k j) (X k r)) (outer M (k * nu + vx + j))) (fun M =>
      add_n M nu (fun r => c (U k r) (U k j)) (outer M (k * nu + vx + j) + nx))) M).

(** the part of the correction belonging to node [n] *)
Definition ncor (n i j : nat) : R :=
  if inz n i && inz n j && (i <? vx + vu)%nat && (j <? vx + vu)%nat then c i j else 0.

Lemma node_body_ok : forall M n, ready M n -> (n < N)%nat ->
  exists M', node_body n M = Some M' /\ same M M' /\
   forall i j, (i < VAR o)%nat -> (j < VAR o)%nat -> val M' i j = val M i j + ncor n i j.
Proof.
  intros M n HM Hn. unfold node_body, add_n.
  destruct (cols_loop o nx (n * nx) (fun j M =>
    obind (oloop nx (fun q M1 => upd M1 (outer M (n * nx + j) + q) (fun v => v + c (n * nx + q)%nat (n * nx + j)%nat)) M) (fun M =>
    oloop nu (fun q M1 => upd M1 (outer M (n * nx + j) + nx + q) (fun v => v + c (n * nu + vx + q)%nat (n * nx + j)%nat)) M))
    (fun j i v => E n nx nu (fun q v => v + c (n * nu + vx + q)%nat (n * nx + j)%nat) i
       (E n 0 nx (fun q v => v + c (n * nx + q)%nat (n * nx + j)%nat) i v)) M) as (M1 & E1 & S1 & V1).
  { intros j Ma Hj Sa. assert (Ra : ready Ma n) by (eapply ready_same; eauto).
    destruct (x_op o Ma n j 0 nx (fun q v => v + c (n * nx + q)%nat (n * nx + j)%nat) (outer Ma (n * nx + j))) as (Mb & Eb & Sb & Vb); [auto|auto|auto|nzl|lia|].
    rewrite Eb. cbn [obind]. assert (Rb : ready Mb n) by (eapply ready_same; eauto).
    destruct (x_op o Mb n j nx nu (fun q v => v + c (n * nu + vx + q)%nat (n * nx + j)%nat) (outer Mb (n * nx + j) + nx)) as (Mc & Ec & Sc & Vc); [auto|auto|auto|nzl|lia|].
    exists Mc. split; auto. split; [eauto using same_trans|].
    intros i jj Hi. rewrite Vc, Vb by auto. destruct (jj =? n * nx + j)%nat; reflexivity. }
  match goal with |- context [obind ?x _] => replace x with (Some M1) by (symmetry; exact E1) end. cbn [obind].
  assert (R1 : ready M1 n) by (eapply ready_same; eauto).
  destruct (cols_loop o nu (n * nu + vx) (fun j M =>
    obind (oloop nx (fun q M1 => upd M1 (outer M (n * nu + vx + j) + q) (fun v => v + c (n * nu + vx + j)%nat (n * nx + q)%nat)) M) (fun M =>
    oloop nu (fun q M1 => upd M1 (outer M (n * nu + vx + j) + nx + q) (fun v => v + c (n * nu + vx + q)%nat (n * nu + vx + j)%nat)) M))
    (fun j i v => E n nx nu (fun q v => v + c (n * nu + vx + q)%nat (n * nu + vx + j)%nat) i
       (E n 0 nx (fun q v => v + c (n * nu + vx + j)%nat (n * nx + q)%nat) i v)) M1) as (M2 & E2 & S2 & V2).
  { intros j Ma Hj Sa. assert (Ra : ready Ma n) by (eapply ready_same; eauto).
    destruct (u_op o Ma n j 0 nx (fun q v => v + c (n * nu + vx + j)%nat (n * nx + q)%nat) (outer Ma (n * nu + vx + j))) as (Mb & Eb & Sb & Vb); [auto|auto|auto|nzl|lia|].
    rewrite Eb. cbn [obind]. assert (Rb : ready Mb n) by (eapply ready_same; eauto).
    destruct (u_op o Mb n j nx nu (fun q v => v + c (n * nu + vx + q)%nat (n * nu + vx + j)%nat) (outer Mb (n * nu + vx + j) + nx)) as (Mc & Ec & Sc & Vc); [auto|auto|auto|nzl|lia|].
    exists Mc. split; auto. split; [eauto using same_trans|].
    intros i jj Hi. rewrite Vc, Vb by auto. destruct (jj =? n * nu + vx + j)%nat; reflexivity. }
  exists M2. split; [exact E2|]. split; [eauto using same_trans|].
  intros i j Hi Hj. rewrite V2, V1 by auto. unfold ncor, Ocp_Sparse_Proofs.inz.
  destruct (zidx n i) as [a|] eqn:Ei.
  - pose proof (zidx_inv o n i a Hn Ei) as (Eia & Ha). pose proof (zidx_p_ge o n i a Hn Ei) as Gi.
    unfold NZ in Ha. rewrite !(E_ext o n _ _ _ i _ a Ei).
    replace (i <? vx + vu)%nat with (a <? nx + nu)%nat by (rewrite !Nat.ltb_antisym; congruence).
    assert (Hir : forall q, (a < nx)%nat -> a = q -> i = (n * nx + q)%nat) by (intros q Hq <-; rewrite Eia; apply zrow_x; auto).
    assert (Hiu : forall q, (q < nu)%nat -> a = (nx + q)%nat -> i = (n * nu + vx + q)%nat) by (intros q Hq ->; rewrite Eia; apply zrow_u; auto).
    destruct (col_cases o n j Hn Hj) as [(b & Eb & Hb & Ej & -> & -> & _)|[(b & Eb & Hb & Ej & -> & -> & _)|[(b & Eb & Hb & Ej & -> & -> & _)|(-> & -> & -> & _)]]].
    + destruct (zidx_inv o n j b Hn Eb) as (Ejz & _). rewrite zrow_x in Ejz by auto.
      rewrite (proj2 (Nat.ltb_lt j (vx + vu))) by (rewrite Ejz; unfold VARX; nia). rewrite Eb. cbn [andb]. rewrite andb_true_r.
      replace (j - n * nx)%nat with b by lia. rewrite <- Ejz.
      assert (Hc : (a < nx \/ nx <= a < nx + nu \/ nx + nu <= a)%nat) by lia.
      destruct Hc as [Hc|[Hc|Hc]]; seg_dec.
      * rewrite (proj2 (Nat.ltb_lt a (nx + nu))) by lia. rewrite Nat.sub_0_r, <- (Hir a) by auto. reflexivity.
      * rewrite (proj2 (Nat.ltb_lt a (nx + nu))) by lia. rewrite <- (Hiu (a - nx)%nat) by lia. reflexivity.
      * rewrite (proj2 (Nat.ltb_ge a (nx + nu))) by lia. lra.
    + destruct (zidx_inv o n j (nx + b) Hn Eb) as (Ejz & _). rewrite zrow_u in Ejz by auto.
      rewrite (proj2 (Nat.ltb_lt j (vx + vu))) by (rewrite Ejz; unfold VARU; nia). rewrite Eb. cbn [andb]. rewrite andb_true_r.
      replace (j - (n * nu + vx))%nat with b by lia. rewrite <- Ejz.
      assert (Hc : (a < nx \/ nx <= a < nx + nu \/ nx + nu <= a)%nat) by lia.
      destruct Hc as [Hc|[Hc|Hc]]; seg_dec.
      * rewrite (proj2 (Nat.ltb_lt a (nx + nu))) by lia. rewrite Nat.sub_0_r, <- (Hir a) by auto. rewrite csym. reflexivity.
      * rewrite (proj2 (Nat.ltb_lt a (nx + nu))) by lia. rewrite <- (Hiu (a - nx)%nat) by lia. reflexivity.
      * rewrite (proj2 (Nat.ltb_ge a (nx + nu))) by lia. lra.
    + rewrite (proj2 (Nat.ltb_ge j (vx + vu))) by (destruct (zidx_inv o n j _ Hn Eb) as (Ejz & _); rewrite zrow_p in Ejz; lia).
      rewrite andb_false_r. lra.
    + cbn [andb]. lra.
  - cbn [andb]. unfold Ocp_Hes_Proofs.E. rewrite Ei. destruct (in_seg (n * nx) nx j), (in_seg (n * nu + vx) nu j); lra.
Qed.

Lemma nodes_loop : forall M m, hok o M -> (m <= N)%nat ->
  exists M', oloop m (fun k M => node_body k M) M = Some M' /\ same M M' /\
   forall i j, (i < VAR o)%nat -> (j < VAR o)%nat -> val M' i j = val M i j + rsum m (fun n => ncor n i j).
Proof.
  intros M m HM Hm.
  destruct (oloop_inv _ (fun k M' => same M M' /\
    forall i j, (i < VAR o)%nat -> (j < VAR o)%nat -> val M' i j = val M i j + rsum k (fun n => ncor n i j)) m (fun k M => node_body k M) M) as (M' & H1 & H2).
  - split; [apply same_refl|]. intros. rewrite rsum_0. lra.
  - intros k M1 Hk (S1 & V1). destruct (node_body_ok M1 k) as (M2 & E2 & S2 & V2); [apply hok_ready; [eapply hok_same; eauto|lia]|lia|].
    exists M2. split; auto. split; [eapply same_trans; eauto|]. intros. rewrite V2, V1, rsum_S by auto. lra.
  - exists M'. tauto.
Qed.

Lemma ncor_sum : forall i j, (i < VAR o)%nat -> (j < VAR o)%nat ->
  rsum N (fun n => ncor n i j) = if (i <? vx + vu)%nat && (j <? vx + vu)%nat && hpat o i j then c i j else 0.
Proof.
  intros i j Hi Hj. destruct ((i <? vx + vu)%nat && (j <? vx + vu)%nat) eqn:EE.
  2:{ cbn [andb]. apply rsum_zero. intros n Hn. unfold ncor. rewrite <- !andb_assoc, EE, !andb_false_r. reflexivity. }
  cbn [andb]. apply andb_true_iff in EE. destruct EE as (Li & Lj). apply Nat.ltb_lt in Li, Lj.
  destruct (hpat o i j) eqn:Hp.
  - apply (hpat_node o i j Hi Hj) in Hp. destruct Hp as (n & Hn & A & B).
    rewrite (rsum_isolate N n) by auto. rewrite rsum_zero.
    + unfold ncor. rewrite A, B, (proj2 (Nat.ltb_lt i _)), (proj2 (Nat.ltb_lt j _)) by auto. cbn. lra.
    + intros n' Hn'. destruct (Nat.eqb_spec n' n) as [|Hne]; auto. unfold ncor.
      destruct (inz n' i) eqn:A'; auto. exfalso. apply Hne. unfold Ocp_Sparse_Proofs.inz in A, A'.
      destruct (zidx n i) as [a|] eqn:Ea; [|discriminate]. destruct (zidx n' i) as [a'|] eqn:Ea'; [|discriminate].
      apply (zidx_unique o n' n i a' a); auto.
  - apply rsum_zero. intros n Hn. unfold ncor. destruct (inz n i) eqn:A; auto. destruct (inz n j) eqn:B; auto.
    exfalso. assert (hpat o i j = true) by (apply hpat_node; auto; exists n; auto). congruence.
Qed.

(** parameter columns *)
Lemma pcol_op : forall M j f lo len ad, hok o M -> (j < np)%nat -> (lo + len <= VAR o)%nat ->
  ad = (outer M (vx + vu + j) + lo)%nat ->
  exists M', oloop len (fun q M => upd M (ad + q) (f q)) M = Some M' /\ same M M' /\
   forall i jj, (i < VAR o)%nat ->
     val M' i jj = if (jj =? vx + vu + j)%nat then (if in_seg lo len i then f (i - lo)%nat (val M i jj) else val M i jj) else val M i jj.
Proof.
  intros M j f lo len ad HM Hj Hl ->. pose proof HM as (Hr & Hc & _).
  pose proof (hok_ready o M 0 HM (node0_lt o)) as R0.
  destruct (run_upd len f (fun q => lo + q)%nat M (vx + vu + j) (outer M (vx + vu + j) + lo)%nat) as (M' & EE & S1 & V1 & V2).
  - rewrite Hc. unfold VAR. lia.
  - intros q Hq. rewrite Hr. split; [lia|]. destruct (pos_p o M 0 j (lo + q) R0 Hj) as (A & B); [lia|]. rewrite B. split; auto. lia.
  - exists M'. split; auto. split; auto. intros i jj Hi. destruct (Nat.eqb_spec jj (vx + vu + j)) as [->|Hne].
    + destruct (in_seg lo len i) eqn:Es.
      * apply in_seg_spec in Es. replace i with (lo + (i - lo))%nat at 1 3 by lia. apply V1. lia.
      * apply V2; [rewrite Hr; auto|]. right. intros q Hq ->. rewrite in_seg_true in Es by lia. discriminate.
    + apply V2; [rewrite Hr; auto|]. left; auto.
Qed.
Lemma pcols_ok : forall M, hok o M ->
  exists M', oloop np (fun j M =>
    obind (add_n M (vx + vu) (fun r => c r (vx + vu + j)%nat) (outer M (vx + vu + j))) (fun M =>
    add_n M np (fun r => c (vx + vu + r)%nat (vx + vu + j)%nat) (outer M (vx + vu + j) + vx + vu))) M = Some M' /\ same M M' /\
   forall i j, (i < VAR o)%nat -> (j < VAR o)%nat ->
     val M' i j = val M i j + (if (vx + vu <=? j)%nat then c i j else 0).
Proof.
  intros M HM. unfold add_n.
  destruct (cols_loop o np (vx + vu) (fun j M =>
    obind (oloop (vx + vu) (fun q M1 => upd M1 (outer M (vx + vu + j) + q) (fun v => v + c q (vx + vu + j)%nat)) M) (fun M =>
    oloop np (fun q M1 => upd M1 (outer M (vx + vu + j) + vx + vu + q) (fun v => v + c (vx + vu + q)%nat (vx + vu + j)%nat)) M))
    (fun j i v => v + c i (vx + vu + j)%nat) M) as (M1 & E1 & S1 & V1).
  { intros j Ma Hj Sa. assert (Ra : hok o Ma) by (eapply hok_same; eauto).
    destruct (pcol_op Ma j (fun q v => v + c q (vx + vu + j)%nat) 0 (vx + vu) (outer Ma (vx + vu + j))) as (Mb & Eb & Sb & Vb); [auto|auto|unfold VAR; lia|lia|].
    rewrite Eb. cbn [obind]. assert (Rb : hok o Mb) by (eapply hok_same; eauto).
    destruct (pcol_op Mb j (fun q v => v + c (vx + vu + q)%nat (vx + vu + j)%nat) (vx + vu) np (outer Mb (vx + vu + j) + vx + vu)) as (Mc & Ec & Sc & Vc); [auto|auto|unfold VAR; lia|lia|].
    exists Mc. split; auto. split; [eauto using same_trans|].
    intros i jj Hi. rewrite Vc, Vb by auto. destruct (jj =? vx + vu + j)%nat; auto.
    destruct (Nat.lt_ge_cases i (vx + vu)).
    - rewrite (in_seg_false (vx + vu) np) by lia. rewrite in_seg_true by lia. rewrite Nat.sub_0_r. reflexivity.
    - rewrite (in_seg_true (vx + vu) np) by (unfold VAR in Hi; lia). rewrite in_seg_false by lia.
      replace (vx + vu + (i - (vx + vu)))%nat with i by lia. reflexivity. }
  exists M1. split; [exact E1|]. split; auto. intros i j Hi Hj. rewrite V1 by auto.
  destruct (Nat.leb_spec (vx + vu) j).
  - rewrite in_seg_true by (unfold VAR in Hj; lia). replace (vx + vu + (j - (vx + vu)))%nat with j by lia. reflexivity.
  - rewrite in_seg_false by lia. lra.
Qed.

Lemma prows_ok : forall M, hok o M ->
  exists M', oloop (vx + vu) (fun j M => add_n M np (fun r => c j (vx + vu + r)%nat) (outer M j + nx + nu)) M = Some M' /\ same M M' /\
   forall i j, (i < VAR o)%nat -> (j < VAR o)%nat ->
     val M' i j = val M i j + (if (vx + vu <=? i)%nat && (j <? vx + vu)%nat then c i j else 0).
Proof.
  intros M HM. unfold add_n.
  destruct (cols_loop o (vx + vu) 0 (fun j M => oloop np (fun q M1 => upd M1 (outer M j + nx + nu + q) (fun v => v + c j (vx + vu + q)%nat)) M)
    (fun j i v => if (vx + vu <=? i)%nat then v + c i j else v) M) as (M1 & E1 & S1 & V1).
  { intros j Ma Hj Sa. assert (Ra : hok o Ma) by (eapply hok_same; eauto).
    assert (Hjv : (j < VAR o)%nat) by (unfold VAR; lia).
    destruct (node_exists o j Hjv) as (n & b & Hn & Hb & Eb & Hlt). specialize (Hlt Hj).
    destruct (zidx_inv o n j b Hn Eb) as (Ej & _). pose proof Ra as (Hr & Hc & _).
    destruct (col_op o n j (nx + nu) np (fun q v => v + c j (vx + vu + q)%nat) Ma (outer Ma j + nx + nu)%nat) as (Mb & E2 & S2 & V2);
      [auto|rewrite Hc; auto|auto|nzl| |].
    - intros q Hq. destruct (pos_node o Ma n b (nx + nu + q)) as (A & B); [apply hok_ready; auto|auto|auto|nzl|].
      rewrite <- Ej in A, B. rewrite B. split; auto. lia.
    - exists Mb. split; auto. split; auto. intros i jj Hi. rewrite V2 by auto. rewrite Nat.add_0_l.
      destruct (jj =? j)%nat; auto. unfold Ocp_Hes_Proofs.E.
      destruct (Nat.leb_spec (vx + vu) i) as [Li|Li].
      + replace (zidx n i) with (Some (nx + nu + (i - (vx + vu)))%nat).
        * rewrite in_seg_true by (unfold VAR in Hi; lia). rewrite csym. do 2 f_equal. lia.
        * replace i with (zrow n (nx + nu + (i - (vx + vu)))) at 2 by (rewrite zrow_p; lia).
          rewrite zidx_zrow; auto. unfold NZ, VAR in *; lia.
      + destruct (zidx n i) as [a|] eqn:Ez; auto. pose proof (zidx_p_ge o n i a Hn Ez) as G.
        rewrite (proj2 (Nat.leb_gt (vx + vu) i)) in G by auto. symmetry in G. apply Nat.leb_gt in G.
        rewrite in_seg_false by lia. reflexivity. }
  exists M1. split; [exact E1|]. split; auto. intros i j Hi Hj. rewrite V1 by auto.
  destruct (Nat.ltb_spec j (vx + vu)).
  - rewrite in_seg_true by lia. rewrite Nat.sub_0_r. destruct (vx + vu <=? i)%nat; cbn [andb]; lra.
  - rewrite in_seg_false by lia. rewrite andb_false_r. lra.
Qed.
End P.

Section Q.
Variable o : ocp R.
Local Open Scope R_scope.
Lemma bfgs_corr_sym : forall v s y a b, bfgs_corr o v s y a b = bfgs_corr o v s y b a.
Proof. intros. unfold bfgs_corr. cbn. ring. Qed.

Theorem block_bfgs_ok : forall M s y, hok o M ->
  exists M', block_bfgs o M s y = Some M' /\ hok o M' /\
   forall i j, (i < VAR o)%nat -> (j < VAR o)%nat ->
     val M' i j = val M i j + (if hpat o i j then bfgs_corr o (tab (VAR o) (spmv o M s)) s y i j else 0).
Proof.
  intros M s y HM. unfold block_bfgs. set (c := bfgs_corr o (tab (VAR o) (spmv o M s)) s y).
  assert (cs : forall a b, c a b = c b a) by (intros; apply bfgs_corr_sym).
  destruct (nodes_loop o c cs M (NUM_NODES o) HM (le_n _)) as (M1 & E1 & S1 & V1).
  match goal with |- context [obind ?x _] => replace x with (Some M1) by (symmetry; exact E1) end. cbn [obind].
  assert (H1 : hok o M1) by (eapply hok_same; eauto).
  destruct (pcols_ok o c M1 H1) as (M2 & E2 & S2 & V2).
  match goal with |- context [obind ?x _] => replace x with (Some M2) by (symmetry; exact E2) end. cbn [obind].
  assert (H2 : hok o M2) by (eapply hok_same; eauto).
  destruct (prows_ok o c cs M2 H2) as (M3 & E3 & S3 & V3).
  assert (HV : forall i j, (i < VAR o)%nat -> (j < VAR o)%nat -> val M3 i j = val M i j + (if hpat o i j then c i j else 0)).
  { intros i j Hi Hj. rewrite V3, V2, V1, ncor_sum by auto. unfold hpat. rewrite !Nat.ltb_antisym.
    destruct (VARX o + VARU o <=? i)%nat, (VARX o + VARU o <=? j)%nat; cbn [andb orb negb]; lra. }
  destruct (Nat.eqb_spec (NP o) 0) as [E0|E0].
  - exists M2. split; auto. split; auto. intros i j Hi Hj. rewrite <- HV, V3 by auto.
    rewrite (proj2 (Nat.leb_gt (VARX o + VARU o) i)) by (unfold VAR in Hi; lia). cbn [andb]. lra.
  - exists M3. split; auto. split; auto. eapply hok_same; eauto.
Qed.
End Q.

From Verif Require Import Ocp_Bfgs_Spec.
Section S.
Variable o : ocp R.
Local Notation n := (VAR o).
Local Open Scope R_scope.

Lemma inz_unknown : forall k i, (k < NUM_NODES o)%nat -> (i < VAR o)%nat -> (inz o k i = true <-> node_unknown o k i).
Proof.
  intros k i Hk Hi. unfold node_unknown, ix, iu, ip.
  replace (NX o * (PO o * SG o + 1))%nat with (VARX o) by reflexivity.
  replace (NU o * (PO o * SG o + 1))%nat with (VARU o) by reflexivity. split.
  - unfold inz. destruct (col_cases o k i Hk Hi) as [(b & _ & Hb & Hj & Hs & _)|[(b & _ & Hb & Hj & _ & Hs & _)|[(b & _ & Hb & Hj & _ & _ & Hs)|(-> & _)]]]; [| | |discriminate];
      apply in_seg_spec in Hs; intros _.
    + left. exists b. lia.
    + right; left. exists b. lia.
    + right; right. exists b. lia.
  - intros [(c & Hc & ->)|[(c & Hc & ->)|(c & Hc & ->)]].
    + rewrite <- zrow_x by auto. apply inz_zrow; auto. unfold NZ; lia.
    + rewrite <- zrow_u by auto. apply inz_zrow; auto. unfold NZ; lia.
    + rewrite <- (zrow_p o k). apply inz_zrow; auto. unfold NZ; lia.
Qed.
Lemma hpat_coupled : forall i j, (i < n)%nat -> (j < n)%nat -> (hpat o i j = true <-> coupled o i j).
Proof.
  intros i j Hi Hj. rewrite hpat_node by auto. split; intros (k & Hk & A & B); exists k; split; auto.
  - split; apply inz_unknown; auto.
  - split; apply inz_unknown; auto.
Qed.
Lemma block_hok : forall M, block_matrix o M <-> hok o M.
Proof.
  intro M. split; intros (a & b & c & d); split; auto; split; auto; split; auto; intros i j Hi Hj.
  - specialize (d i j Hi Hj). rewrite <- (hpat_coupled i j Hi Hj) in d.
    destruct (pat M i j), (hpat o i j); auto; [symmetry|]; apply d; auto.
  - rewrite d by auto. apply hpat_coupled; auto.
Qed.

Lemma tab_spmv : forall M s i, (i < n)%nat -> tab n (spmv o M s) i = rmv n (coeff M) s i.
Proof. intros. rewrite tab_spec by auto. reflexivity. Qed.
Lemma scst_div : forall a b, @sdiv R R_scalar (sofZ a) (sofZ b) = IZR a / IZR b.
Proof. reflexivity. Qed.
Lemma bfgs_r_powell : forall M s y i, (i < n)%nat -> Ocp_Sparse_Model.bfgs_r o (tab n (spmv o M s)) s y i = powell_diff n (coeff M) s y i.
Proof.
  intros M s y i Hi. unfold Ocp_Sparse_Model.bfgs_r, powell_diff.
  assert (E : rdot n s (tab n (spmv o M s)) = rdot n s (rmv n (coeff M) s)) by (apply rdot_ext; auto; intros; apply tab_spmv; auto).
  rewrite E. rewrite !scst_div.
  change (@smul R R_scalar (IZR 2 / IZR 10) (rdot n s (rmv n (coeff M) s))) with (2 / 10 * rdot n s (rmv n (coeff M) s)).
  destruct (sleb (2 / 10 * rdot n s (rmv n (coeff M) s)) (rdot n s y)) eqn:L.
  - apply Rleb_true in L. destruct (Rle_dec _ _); [reflexivity|contradiction].
  - apply Rleb_false in L. destruct (Rle_dec _ _); [lra|]. rewrite tab_spmv by auto. reflexivity.
Qed.
Lemma corr_spec : forall M s y i j, (i < n)%nat -> (j < n)%nat ->
  coeff M i j + bfgs_corr o (tab n (spmv o M s)) s y i j = damped_bfgs n (coeff M) s y i j.
Proof.
  intros M s y i j Hi Hj. unfold bfgs_corr, damped_bfgs.
  rewrite !bfgs_r_powell, !tab_spmv by auto.
  replace (dot n s (tab n (spmv o M s))) with (rdot n s (rmv n (coeff M) s)) by (apply rdot_ext; auto; intros; symmetry; apply tab_spmv; auto).
  replace (dot n s (Ocp_Sparse_Model.bfgs_r o (tab n (spmv o M s)) s y)) with (rdot n s (powell_diff n (coeff M) s y))
    by (apply rdot_ext; auto; intros; symmetry; apply bfgs_r_powell; auto).
  cbn. unfold Rdiv. ring.
Qed.

Theorem block_bfgs_spec : forall M s y, block_matrix o M ->
  exists M', block_bfgs o M s y = Some M' /\ block_matrix o M' /\
   forall i j, (i < n)%nat -> (j < n)%nat ->
     (coupled o i j -> coeff M' i j = damped_bfgs n (coeff M) s y i j) /\ (~ coupled o i j -> coeff M' i j = 0).
Proof.
  intros M s y HM. apply block_hok in HM. destruct (block_bfgs_ok o M s y HM) as (M' & E & O & V). exists M'.
  split; auto. split; [apply block_hok; auto|]. intros i j Hi Hj.
  pose proof O as (_ & _ & _ & Hp'). pose proof HM as (_ & _ & _ & Hp). split; intro H.
  - apply hpat_coupled in H; auto. rewrite <- corr_spec by auto. unfold coeff at 1. rewrite Hp', H, V, H by auto.
    f_equal. unfold coeff. rewrite Hp, H by auto. reflexivity.
  - unfold coeff. rewrite Hp' by auto. destruct (hpat o i j) eqn:EE; auto. exfalso. apply H. apply hpat_coupled; auto.
Qed.

Lemma powell_pos : forall A s y, 0 < rdot n s (rmv n A s) -> 0 < rdot n s (powell_diff n A s y).
Proof.
  intros A s y H. destruct (Rle_dec (2 / 10 * rdot n s (rmv n A s)) (rdot n s y)) as [L|L].
  - replace (rdot n s (powell_diff n A s y)) with (rdot n s y); [lra|]. apply rdot_ext; auto. intros i Hi.
    unfold powell_diff. destruct (Rle_dec _ _); [auto|contradiction].
  - set (th := 8 / 10 * rdot n s (rmv n A s) / (rdot n s (rmv n A s) - rdot n s y)).
    replace (rdot n s (powell_diff n A s y)) with (rdot n s (fun i => th * y i + (1 - th) * rmv n A s i)).
    + rewrite rdot_plus_r, !rdot_scal_r.
      replace (th * rdot n s y + (1 - th) * rdot n s (rmv n A s)) with (2 / 10 * rdot n s (rmv n A s)); [lra|].
      unfold th. field. lra.
    + apply rdot_ext; auto. intros i Hi. unfold powell_diff. destruct (Rle_dec _ _); [contradiction|auto].
Qed.

Lemma nodeof_lt : forall i, NP o = 0%nat -> (i < n)%nat -> (nodeof o i < NUM_NODES o)%nat.
Proof.
  intros i H0 Hi. destruct (node_exists o i Hi) as (k & a & Hk & Ha & Ez & Hl).
  destruct (zidx_inv o k i a Hk Ez) as (-> & _). destruct (nodeof_zrow o k a Hk) as (E & _); [unfold NZ in Ha; lia|]. lia.
Qed.

Lemma block_bfgs_spd : forall M s y, NP o = 0%nat -> block_matrix o M -> symmetric n (coeff M) -> posdef n (coeff M) -> nonzero_vec n s ->
  exists M', block_bfgs o M s y = Some M' /\ block_matrix o M' /\ symmetric n (coeff M') /\ posdef n (coeff M').
Proof.
  intros M s y H0 HM HS HP Hs. destruct (block_bfgs_spec M s y HM) as (M' & E & O & V). exists M'. split; auto. split; auto.
  assert (Hh : forall i j, (i < n)%nat -> (j < n)%nat -> hpat o i j = (nodeof o i =? nodeof o j)%nat).
  { intros i j Hi Hj. unfold VAR in Hi, Hj. unfold hpat. rewrite !(proj2 (Nat.leb_gt _ _)) by lia. reflexivity. }
  set (r := powell_diff n (coeff M) s y).
  assert (HV : forall i j, (i < n)%nat -> (j < n)%nat -> coeff M' i j = blk_upd n (nodeof o) (coeff M) s r i j).
  { intros i j Hi Hj. destruct (V i j Hi Hj) as (V1 & V2). unfold blk_upd. destruct (nodeof o i =? nodeof o j)%nat eqn:Q.
    - rewrite V1; [reflexivity|]. apply hpat_coupled; auto. rewrite Hh; auto.
    - apply V2. intro C. apply hpat_coupled in C; auto. rewrite Hh in C by auto. congruence. }
  destruct (blk_upd_posdef n (NUM_NODES o) (nodeof o) (fun i => nodeof_lt i H0) (coeff M) s r HS HP) as (A & B).
  - intros i j Hi Hj Hne. apply block_hok in HM. destruct HM as (_ & _ & _ & Hp). unfold coeff. rewrite Hp, Hh by auto.
    rewrite (proj2 (Nat.eqb_neq _ _)) by auto. reflexivity.
  - auto.
  - apply powell_pos. apply HP; auto.
  - split.
    + intros i j Hi Hj. rewrite !HV by auto. apply A; auto.
    + intros z Hz. specialize (B z Hz). replace (qf n (coeff M') z) with (qf n (blk_upd n (nodeof o) (coeff M) s r) z); auto.
      unfold qf. apply rdot_ext; auto. intros i Hi. apply rdot_ext; auto. intros. symmetry. apply HV; auto.
Qed.
Theorem block_bfgs_run : forall pairs M, NP o = 0%nat -> block_matrix o M -> symmetric n (coeff M) -> posdef n (coeff M) ->
  (forall p, In p pairs -> nonzero_vec n (fst p)) ->
  exists M', Ocp_Spec.run (fun p M => block_bfgs o M (fst p) (snd p)) pairs M = Some M' /\ block_matrix o M' /\
    symmetric n (coeff M') /\ posdef n (coeff M').
Proof.
  induction pairs as [|p l IH]; intros M H0 HM HS HP Hin; cbn [Ocp_Spec.run].
  - exists M. auto.
  - destruct (block_bfgs_spd M (fst p) (snd p)) as (M1 & E & O & S1 & P1); auto; [apply Hin; left; auto|].
    rewrite E. apply IH; auto. intros q Hq. apply Hin. right; auto.
Qed.
End S.

(** * counting the lower triangle of a symmetric pattern *)
Section L.
Definition b2n (b : bool) : nat := if b then 1%nat else 0%nat.
Lemma cnt_nsum : forall f n, cnt f n = nsum n (fun i => b2n (f i)).
Proof. induction n; auto. cbn [cnt nsum]. rewrite IHn. reflexivity. Qed.
Lemma nsum_plus : forall n f g, nsum n (fun i => f i + g i)%nat = (nsum n f + nsum n g)%nat.
Proof. induction n; intros; auto. cbn [nsum]. rewrite IHn. lia. Qed.
Lemma nsum_swap : forall m n f, nsum m (fun i => nsum n (fun j => f i j)) = nsum n (fun j => nsum m (fun i => f i j)).
Proof.
  induction m; intros; cbn [nsum].
  - induction n; auto. cbn [nsum]. rewrite <- IHn. reflexivity.
  - rewrite IHm, <- nsum_plus. reflexivity.
Qed.
Lemma nsum_pick1 : forall n k, (k < n)%nat -> nsum n (fun i => b2n (i =? k)%nat) = 1%nat.
Proof.
  induction n; intros k Hk; [lia|]. cbn [nsum]. destruct (Nat.eq_dec k n) as [->|].
  - rewrite Nat.eqb_refl. rewrite (nsum_ext n _ (fun _ => 0%nat)).
    + replace (nsum n (fun _ => 0%nat)) with 0%nat; [reflexivity|]. clear. induction n; auto. cbn [nsum]. lia.
    + intros i Hi. rewrite (proj2 (Nat.eqb_neq i n)) by lia. reflexivity.
  - rewrite IHn by lia. rewrite (proj2 (Nat.eqb_neq n k)) by lia. reflexivity.
Qed.
Lemma lower_count : forall n (p : nat -> nat -> bool),
  (forall i j, (i < n)%nat -> (j < n)%nat -> p i j = p j i) -> (forall i, (i < n)%nat -> p i i = true) ->
  (2 * nsum n (fun j => cnt (fun i => (j <=? i)%nat && p i j) n) = nsum n (fun j => cnt (fun i => p i j) n) + n)%nat.
Proof.
  intros n p Hs Hd.
  set (L := nsum n (fun j => nsum n (fun i => b2n ((j <=? i)%nat && p i j)))).
  assert (EL : nsum n (fun j => cnt (fun i => (j <=? i)%nat && p i j) n) = L) by (apply nsum_ext; intros; apply cnt_nsum).
  rewrite EL.
  assert (EU : nsum n (fun j => nsum n (fun i => b2n ((i <=? j)%nat && p i j))) = L).
  { rewrite nsum_swap. apply nsum_ext. intros j Hj. apply nsum_ext. intros i Hi. rewrite Hs by auto. reflexivity. }
  assert (ED : nsum n (fun j => nsum n (fun i => b2n (i =? j)%nat)) = n).
  { rewrite (nsum_ext n _ (fun _ => 1%nat)); [|intros; apply nsum_pick1; auto]. clear. induction n; auto. cbn [nsum]. lia. }
  rewrite <- ED at 2. rewrite <- EL at 1.
  replace (2 * nsum n (fun j => cnt (fun i => (j <=? i)%nat && p i j) n))%nat with (L + L)%nat by lia.
  rewrite <- EU at 2. unfold L. rewrite <- !nsum_plus. apply nsum_ext. intros j Hj.
  rewrite cnt_nsum, <- !nsum_plus. apply nsum_ext. intros i Hi.
  destruct (Nat.eqb_spec i j) as [->|Hne].
  - rewrite Nat.leb_refl, Hd by auto. reflexivity.
  - destruct (Nat.leb_spec j i), (Nat.leb_spec i j); try lia; cbn [andb]; destruct (p i j); reflexivity.
Qed.
End L.
Lemma hpat_sym : forall o i j, hpat o i j = hpat o j i.
Proof. intros. unfold hpat. rewrite (Nat.eqb_sym (nodeof o j)). destruct (_ <=? i)%nat, (_ <=? j)%nat; reflexivity. Qed.
Lemma lower_nnz : forall o M, hok o M ->
  nnz_lag_hessian o = nsum (VAR o) (fun j => cnt (fun i => (j <=? i)%nat && pat M i j) (VAR o)).
Proof.
  intros o M HM. pose proof HM as (Hr & Hc & _ & Hp). unfold nnz_lag_hessian. rewrite <- (hok_nonzeros o M HM).
  pose proof (lower_count (VAR o) (pat M)) as HL. unfold nonzeros, ncol. rewrite Hr, Hc.
  rewrite <- HL.
  - rewrite Nat.mul_comm, Nat.div_mul by lia. reflexivity.
  - intros i j Hi Hj. rewrite !Hp by auto. apply hpat_sym.
  - intros i Hi. rewrite Hp by auto. unfold hpat. rewrite Nat.eqb_refl, orb_true_r. reflexivity.
Qed.
Lemma nsum_split2 : forall a b f, nsum (a + b) f = (nsum a f + nsum b (fun i => f (a + i)%nat))%nat.
Proof. induction b; intros; [rewrite Nat.add_0_r; cbn; lia|]. rewrite Nat.add_succ_r. cbn [nsum]. rewrite IHb. lia. Qed.
Lemma nsum_const2 : forall n m f, (forall i, (i < n)%nat -> f i = m) -> nsum n f = (n * m)%nat.
Proof. induction n; intros m f H; auto. cbn [nsum]. rewrite (IHn m), H; auto. lia. Qed.
Lemma nnz_hessian_formula : forall T (o : ocp T), let N := (PO o * SG o + 1)%nat in let z := (NX o + NU o)%nat in
  (2 * nnz_lag_hessian o = N * (z * (z + 1)) + 2 * (NP o * (N * z)) + NP o * (NP o + 1))%nat.
Proof.
  intros T o N z. unfold nnz_lag_hessian.
  assert (HV : VAR o = (N * z + NP o)%nat) by (unfold VAR, VARX, VARU, NUM_NODES, N, z; lia).
  assert (HW : (VARX o + VARU o)%nat = (N * z)%nat) by (unfold VARX, VARU, NUM_NODES, N, z; lia).
  assert (ES : nsum (VAR o) (hes_est o) = (N * z * (z + NP o) + NP o * (N * z + NP o))%nat).
  { rewrite HV, nsum_split2. f_equal; apply nsum_const2; intros i Hi; unfold hes_est; rewrite HW.
    - rewrite (proj2 (Nat.ltb_lt i (N * z))) by lia. unfold z; lia.
    - rewrite (proj2 (Nat.ltb_ge (N * z + i) (N * z))) by lia. exact HV. }
  rewrite ES, HV.
  set (q := (N * z)%nat).
  assert (Ez : exists k, (z * (z + 1) = 2 * k)%nat).
  { clear. induction z as [|z [k IH]]; [exists 0%nat; lia|]. exists (k + z + 1)%nat. lia. }
  assert (Ep : exists k, (NP o * (NP o + 1) = 2 * k)%nat).
  { generalize (NP o) as p. clear. induction p as [|p [k IH]]; [exists 0%nat; lia|]. exists (k + p + 1)%nat. lia. }
  destruct Ez as [a Ea], Ep as [b Eb].
  replace (q * (z + NP o) + NP o * (q + NP o) + (q + NP o))%nat with ((N * a + NP o * q + b) * 2)%nat.
  - rewrite Nat.div_mul by lia. unfold q. rewrite Ea, Eb. lia.
  - replace (q * (z + NP o) + NP o * (q + NP o) + (q + NP o))%nat with (N * (z * (z + 1)) + 2 * (NP o * q) + NP o * (NP o + 1))%nat
      by (unfold q; lia). rewrite Ea, Eb. lia.
Qed.
