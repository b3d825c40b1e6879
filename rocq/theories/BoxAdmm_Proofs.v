(** Lemmas about the boxADMM model that hold for every scalar arithmetic. *)
Require Import ZArith List Bool Lia.
From Verif Require Import Scal Qp_Model Qp_Spec Qp_Proofs Admm_Model Admm_Spec Admm_Proofs BoxAdmm_Model.

Section Generic.
Context {T : Type} {ST : Scalar T}.
Variable lsolve : nat -> mat T -> vec T -> vec T.
Variable full : bool.
Notation body := (box_body lsolve).
Notation solve := (box_solve lsolve full).
Notation obj := (box_obj T).

Lemma bbody_cont : forall s p k o o', body s p k o = Cont o' ->
  let u := box_update lsolve s p o in
  b_x o' = b_x u /\ b_y o' = b_y u /\ b_z o' = b_z u /\ b_q o' = b_q u /\ b_status o' = b_status o.
Proof.
  intros s p k o o'. unfold box_body. cbv zeta.
  set (u := box_update lsolve s p o).
  assert (Eu : b_status u = b_status o) by reflexivity. clearbody u.
  destruct (_ && _); [discriminate|].
  assert (E : forall b : bool, let v := if b then box_residuals_update p u else u in
     b_x v = b_x u /\ b_y v = b_y u /\ b_z v = b_z u /\ b_q v = b_q u /\ b_status v = b_status u)
    by (intros [|]; repeat split).
  destruct (adaptive_rho s); [|intros HH; injection HH; intros; subst; rewrite <- Eu; apply E].
  destruct (adaptive_rho_interval s =? 0)%Z; [discriminate|].
  destruct (Z.rem k (adaptive_rho_interval s) =? 0)%Z; [|intros HH; injection HH; intros; subst; rewrite <- Eu; apply E].
  intros HH; injection HH; intros; subst. rewrite <- Eu.
  unfold box_adapt_rho. cbv zeta. destruct (rho_change_needed _ _ _); destruct (is_check_iter s k); repeat split.
Qed.

Lemma bbody_stop : forall s p k o o', body s p k o = Stop o' ->
  is_check_iter s k = true /\ b_status o' = SOLVED /\
  o' = bset_status SOLVED (box_residuals_update p (box_update lsolve s p o)) /\
  termination_criteria s (b_res o') = true.
Proof.
  intros s p k o o'. unfold box_body. cbv zeta.
  destruct (is_check_iter s k) eqn:Ec; cbn [andb].
  - destruct (termination_criteria _ _) eqn:Et.
    + intros H; injection H; intros; subst. repeat split; auto.
    + destruct (adaptive_rho s); [|discriminate]. destruct (_ =? 0)%Z; [discriminate|].
      destruct (_ =? 0)%Z; discriminate.
  - destruct (adaptive_rho s); [|discriminate]. destruct (adaptive_rho_interval s =? 0)%Z; [discriminate|].
    destruct (Z.rem k (adaptive_rho_interval s) =? 0)%Z; discriminate.
Qed.

Lemma bbody_undef : forall s p k o, body s p k o = Undef -> adaptive_rho s = true /\ adaptive_rho_interval s = 0%Z.
Proof.
  intros s p k o. unfold box_body. cbv zeta.
  destruct (_ && _); [discriminate|].
  destruct (adaptive_rho s); [|discriminate].
  destruct (adaptive_rho_interval s =? 0)%Z eqn:E.
  - intros _. apply Z.eqb_eq in E. auto.
  - destruct (Z.rem k (adaptive_rho_interval s) =? 0)%Z; intros H; discriminate H.
Qed.

Lemma bsolve_cases : forall s p xg yg o o', solve s p xg yg o = Some o' ->
  let init := box_setup full s p xg yg o in
  (exists k o1, visits (body s p) (max_iter s) init k o1 /\ (max_iter s < k)%Z /\
     o' = bset_iter k (bset_status MAX_ITER_EXCEEDED o1)) \/
  (exists k o1 o2, visits (body s p) (max_iter s) init k o1 /\ (k <= max_iter s)%Z /\ body s p k o1 = Stop o2 /\
     o' = bset_iter k o2).
Proof.
  intros s p xg yg o o'. unfold box_solve.
  generalize (qp_loop_run (body s p) (max_iter s) (box_setup full s p xg yg o)).
  destruct (qp_loop _ _ _ _ _) as [[o2 k]|]; [|discriminate].
  intros [[Hv Hk]|[o1 [Hv [Hk Hb]]]] H; injection H; intros; subst.
  - left. exists k, o2. rewrite (proj2 (Z.ltb_lt _ _)) by auto. auto.
  - right. exists k, o1, o2. rewrite (proj2 (Z.ltb_ge _ _)) by auto. auto.
Qed.

Lemma bsolve_defined : forall s p xg yg o,
  (adaptive_rho s = false \/ adaptive_rho_interval s <> 0%Z) -> exists o', solve s p xg yg o = Some o'.
Proof.
  intros. unfold box_solve.
  generalize (qp_loop_run (body s p) (max_iter s) (box_setup full s p xg yg o)).
  destruct (qp_loop _ _ _ _ _) as [[o2 k]|]; [eauto|].
  intros [k1 [o1 [_ [_ Hb]]]]. apply bbody_undef in Hb. destruct Hb, H; congruence.
Qed.

Lemma bsolve_status_truth : forall s p xg yg o o', solve s p xg yg o = Some o' ->
  ((b_status o' = SOLVED /\ (1 <= b_iter o' <= max_iter s)%Z /\ check_termination s <> 0%Z /\
      (Z.rem (b_iter o') (check_termination s) = 0)%Z)
   \/ (b_status o' = MAX_ITER_EXCEEDED /\ b_iter o' = (Z.max 0 (max_iter s) + 1)%Z)).
Proof.
  intros s p xg yg o o' H. destruct (bsolve_cases _ _ _ _ _ _ H) as [[k [o1 [Hv [Hk ->]]]]|[k [o1 [o2 [Hv [Hk [Hb ->]]]]]]].
  - right. simpl. split; auto. apply visits_range in Hv. lia.
  - left. apply bbody_stop in Hb. destruct Hb as (Hc & Hs & _). simpl.
    apply visits_range in Hv. unfold is_check_iter in Hc. apply andb_prop in Hc. destruct Hc as [Hc1 Hc2].
    apply negb_true_iff, Z.eqb_neq in Hc1. apply Z.eqb_eq in Hc2. repeat split; auto; lia.
Qed.

Lemma bsolve_fresh : forall s p xg yg o o', solve s p xg yg o = Some o' -> b_status o' = SOLVED ->
  b_res o' = box_compute_residuals p (b_x o') (b_y o') (b_z o') (b_q o') /\ termination_criteria s (b_res o') = true.
Proof.
  intros s p xg yg o o' H Hs. destruct (bsolve_cases _ _ _ _ _ _ H) as [[k [o1 [Hv [Hk ->]]]]|[k [o1 [o2 [Hv [Hk [Hb ->]]]]]]].
  - discriminate.
  - apply bbody_stop in Hb. destruct Hb as (_ & _ & -> & Ht). split; [reflexivity|exact Ht].
Qed.

(** ** step sizes in step with the constraint types *)
Record box_inv (p : qp_data T) (o : obj) : Prop := {
  bi_ctype : b_ctype o = parse_constraints_bounds p;
  bi_rvec : forall i, (i < qm p)%nat -> b_rho_vec o i = rho_of_type (b_ctype o i) (b_rho o);
  bi_rinv : forall i, (i < qm p)%nat -> b_rho_inv o i = sdiv s1 (b_rho_vec o i);
  bi_rbox : forall i, (i < qn p)%nat -> b_rho_box o i = rho_of_type (b_ctype o (qm p + i)%nat) (b_rho o);
  bi_rboxi : forall i, (i < qn p)%nat -> b_rho_box_inv o i = sdiv s1 (b_rho_box o i);
  bi_K : b_K o = b_Fact o
}.

Lemma bsetup_inv : forall s p xg yg o, box_inv p (box_setup full s p xg yg o).
Proof.
  intros. constructor; try reflexivity; intros; simpl; rewrite tab_spec by auto; reflexivity.
Qed.

Lemma badapt_inv : forall s p o, box_inv p o -> box_inv p (box_adapt_rho s p o).
Proof.
  intros s p o [H1 H2 H3 H4 H5 H6]. unfold box_adapt_rho. cbv zeta.
  destruct (rho_change_needed _ _ _); [|constructor; auto].
  constructor; try reflexivity; auto; intros; simpl; rewrite tab_spec by auto; reflexivity.
Qed.

Lemma bbody_inv : forall s p k o o', box_inv p o -> body s p k o = Cont o' -> box_inv p o'.
Proof.
  intros s p k o o' HI. unfold box_body. cbv zeta.
  set (u := box_update lsolve s p o).
  assert (Iu : box_inv p u) by (destruct HI; constructor; auto). clearbody u.
  assert (E : forall b : bool, box_inv p (if b then box_residuals_update p u else u)).
  { intros [|]; auto. destruct Iu; constructor; auto. }
  destruct (_ && _); [discriminate|].
  destruct (adaptive_rho s); [|intros HH; injection HH; intros; subst; apply E].
  destruct (adaptive_rho_interval s =? 0)%Z; [discriminate|].
  destruct (Z.rem k (adaptive_rho_interval s) =? 0)%Z; [|intros HH; injection HH; intros; subst; apply E].
  intros HH; injection HH; intros; subst. apply badapt_inv.
  destruct (is_check_iter s k); [apply (E true)|destruct Iu; constructor; auto].
Qed.

Lemma bvisits_inv : forall s p xg yg o k o1,
  visits (body s p) (max_iter s) (box_setup full s p xg yg o) k o1 -> box_inv p o1.
Proof.
  intros s p xg yg o k o1 Hv. revert k o1 Hv. apply (visits_inv _ _ _ (box_inv p)); [apply bsetup_inv|].
  intros. eapply bbody_inv; eauto.
Qed.

(** ** the part of m_K that no solve writes stays zero *)
Definition boff (N M : nat) (K : mat T) : Prop :=
  forall i j, (N <= i < N + M)%nat -> (N <= j < N + M)%nat -> i <> j -> K i j = s0.

Lemma boff_construct : forall s p ri rb K, boff (qn p) (qm p) K ->
  boff (qn p) (qm p) (box_construct_kkt_matrix full s p ri rb K).
Proof.
  intros s p ri rb K HK i j Hi Hj Hij. unfold box_construct_kkt_matrix. rewrite tab2_spec by lia.
  destruct (Nat.ltb_spec i (qn p)), (Nat.ltb_spec j (qn p)); try lia.
  destruct (Nat.eqb_spec i j); [contradiction|]. auto.
Qed.

Lemma boff_update : forall p ri rb rp K, boff (qn p) (qm p) K -> boff (qn p) (qm p) (box_update_kkt_rho p ri rb rp K).
Proof.
  intros p ri rb rp K HK i j Hi Hj Hij. unfold box_update_kkt_rho. rewrite tab2_spec by lia.
  destruct (Nat.eqb_spec i j); [contradiction|]. auto.
Qed.

Lemma bbody_K : forall s p k o o', (body s p k o = Cont o' \/ body s p k o = Stop o') ->
  boff (qn p) (qm p) (b_K o) -> boff (qn p) (qm p) (b_K o').
Proof.
  intros s p k o o' Hb HK. destruct Hb as [Hb|Hb].
  - revert Hb. unfold box_body. cbv zeta.
    set (u := box_update lsolve s p o).
    assert (Iu : b_K u = b_K o) by reflexivity. clearbody u.
    assert (E : forall b : bool, b_K (if b then box_residuals_update p u else u) = b_K o) by (intros [|]; auto).
    destruct (_ && _); [discriminate|].
    destruct (adaptive_rho s); [|intros HH; injection HH; intros; subst; rewrite E; auto].
    destruct (adaptive_rho_interval s =? 0)%Z; [discriminate|].
    destruct (Z.rem k (adaptive_rho_interval s) =? 0)%Z; [|intros HH; injection HH; intros; subst; rewrite E; auto].
    intros HH; injection HH; intros; subst.
    unfold box_adapt_rho. cbv zeta.
    match goal with |- context [b_K (if rho_change_needed s ?a ?b then _ else _)] => destruct (rho_change_needed s a b) end;
      [apply boff_update|]; destruct (is_check_iter s k); simpl; rewrite Iu; auto.
  - apply bbody_stop in Hb. destruct Hb as (_ & _ & -> & _). exact HK.
Qed.

Lemma bvisits_K : forall s p xg yg o k o1, boff (qn p) (qm p) (b_K o) ->
  visits (body s p) (max_iter s) (box_setup full s p xg yg o) k o1 -> boff (qn p) (qm p) (b_K o1).
Proof.
  intros s p xg yg o k o1 H0 Hv. revert k o1 Hv. apply (visits_inv _ _ _ (fun o1 => boff (qn p) (qm p) (b_K o1))).
  - apply boff_construct. exact H0.
  - intros. eapply bbody_K; eauto.
Qed.

Lemma bsolve_K : forall s p xg yg o o', solve s p xg yg o = Some o' ->
  boff (qn p) (qm p) (b_K o) -> boff (qn p) (qm p) (b_K o').
Proof.
  intros s p xg yg o o' H HK. destruct (bsolve_cases _ _ _ _ _ _ H) as [[k [o1 [Hv [Hk ->]]]]|[k [o1 [o2 [Hv [Hk [Hb ->]]]]]]].
  - eapply bvisits_K in Hv; eauto.
  - eapply bvisits_K in Hv; eauto. exact (bbody_K _ _ _ _ _ (or_intror Hb) Hv).
Qed.

Lemma reachable_boff : forall N M o, box_reachable lsolve full N M o -> boff N M (b_K o).
Proof.
  intros N M o H. induction H as [r0|s p xg yg o o' H IH HN HM Hs].
  - intros i j _ _ _. reflexivity.
  - subst. eapply bsolve_K; eauto.
Qed.

(** ** the lower triangle (or all) of the initial KKT matrix is determined by the problem *)
Lemma bconstruct_as_read : forall s p ri rb rv K i j, boff (qn p) (qm p) K ->
  (forall i, (i < qm p)%nat -> ri i = sdiv s1 (rv i)) ->
  (i < qn p + qm p)%nat -> (j < qn p + qm p)%nat ->
  as_read full (box_construct_kkt_matrix full s p ri rb K) i j = box_kkt full s p rv rb i j.
Proof.
  intros s p ri rb rv K i j HK Hr Hi Hj. unfold as_read, box_construct_kkt_matrix, box_kkt.
  destruct full.
  - rewrite tab2_spec by auto.
    destruct (Nat.ltb_spec i (qn p)), (Nat.ltb_spec j (qn p)); auto.
    destruct (Nat.eqb_spec i j); [rewrite Hr by lia; reflexivity|apply HK; lia].
  - destruct (Nat.ltb_spec i j).
    + rewrite tab2_spec by auto. unfold as_read.
      destruct (Nat.ltb_spec i (qn p)), (Nat.ltb_spec j (qn p)); try lia; auto.
      * destruct (Nat.eqb_spec j i), (Nat.eqb_spec i j); try lia.
        destruct (Nat.ltb_spec i j); [reflexivity|lia].
      * destruct (Nat.eqb_spec j i), (Nat.eqb_spec i j); try lia. apply HK; lia.
    + rewrite tab2_spec by auto.
      destruct (Nat.ltb_spec i (qn p)), (Nat.ltb_spec j (qn p)); try lia; auto.
      * destruct (Nat.eqb_spec i j); auto. unfold as_read. destruct (Nat.ltb_spec i j); [lia|reflexivity].
      * destruct (Nat.eqb_spec i j); [rewrite Hr by lia; reflexivity|apply HK; lia].
Qed.

(** ** history *)
Hypothesis Hreads : reads_only lsolve full.

Record bsame (p : qp_data T) (r1 r2 : residuals T) (e1 e2 : T) (d : Z) (o1 o2 : obj) : Prop := {
  bs_x : b_x o1 = b_x o2; bs_y : b_y o1 = b_y o2; bs_z : b_z o1 = b_z o2; bs_q : b_q o1 = b_q o2;
  bs_rv : b_rho_vec o1 = b_rho_vec o2; bs_ri : b_rho_inv o1 = b_rho_inv o2;
  bs_rb : b_rho_box o1 = b_rho_box o2; bs_rbi : b_rho_box_inv o1 = b_rho_box_inv o2; bs_rho : b_rho o1 = b_rho o2;
  bs_ct : b_ctype o1 = b_ctype o2; bs_st : b_status o1 = b_status o2;
  bs_K1 : b_K o1 = b_Fact o1; bs_K2 : b_K o2 = b_Fact o2;
  bs_F : forall i j, (i < qn p + qm p)%nat -> (j < qn p + qm p)%nat -> as_read full (b_Fact o1) i j = as_read full (b_Fact o2) i j;
  bs_upd : (b_rho_updates o1 - b_rho_updates o2 = d)%Z;
  bs_res : b_res o1 = b_res o2 \/ (b_res o1 = r1 /\ b_res o2 = r2);
  bs_est : b_rho_estimate o1 = b_rho_estimate o2 \/ (b_rho_estimate o1 = e1 /\ b_rho_estimate o2 = e2)
}.

Lemma bupdate_same : forall s p r1 r2 e1 e2 d o1 o2, bsame p r1 r2 e1 e2 d o1 o2 ->
  bsame p r1 r2 e1 e2 d (box_update lsolve s p o1) (box_update lsolve s p o2).
Proof.
  intros s p r1 r2 e1 e2 d o1 o2 [Hx Hy Hz Hq Hrv Hri Hrb Hrbi Hrho Hct Hst HK1 HK2 HF Hu Hr He].
  assert (Erhs : box_kkt_rhs s p o1 = box_kkt_rhs s p o2).
  { unfold box_kkt_rhs. rewrite Hx, Hy, Hz, Hq, Hri, Hrb. reflexivity. }
  assert (Etil : tab (qn p + qm p) (lsolve (qn p + qm p) (b_Fact o1) (box_kkt_rhs s p o1)) =
                 tab (qn p + qm p) (lsolve (qn p + qm p) (b_Fact o2) (box_kkt_rhs s p o2))).
  { rewrite Erhs. apply tab_ext. apply Hreads. auto. }
  constructor; auto; unfold box_update; cbn [b_x b_y b_z b_q]; rewrite Etil, ?Hx, ?Hy, ?Hz, ?Hq, ?Hrv, ?Hri, ?Hrb, ?Hrbi; reflexivity.
Qed.

Lemma bresid_same : forall p r1 r2 e1 e2 d o1 o2, bsame p r1 r2 e1 e2 d o1 o2 ->
  bsame p r1 r2 e1 e2 d (box_residuals_update p o1) (box_residuals_update p o2) /\
  b_res (box_residuals_update p o1) = b_res (box_residuals_update p o2).
Proof.
  intros p r1 r2 e1 e2 d o1 o2 [Hx Hy Hz Hq Hrv Hri Hrb Hrbi Hrho Hct Hst HK1 HK2 HF Hu Hr He].
  assert (E : b_res (box_residuals_update p o1) = b_res (box_residuals_update p o2)).
  { simpl. rewrite Hx, Hy, Hz, Hq. reflexivity. }
  split; auto. constructor; auto.
Qed.

Lemma bupdK_as_read : forall p ri rb rp K1 K2 i j,
  (forall i j, (i < qn p + qm p)%nat -> (j < qn p + qm p)%nat -> as_read full K1 i j = as_read full K2 i j) ->
  (i < qn p + qm p)%nat -> (j < qn p + qm p)%nat ->
  as_read full (box_update_kkt_rho p ri rb rp K1) i j = as_read full (box_update_kkt_rho p ri rb rp K2) i j.
Proof.
  intros p ri rb rp K1 K2 i j HK Hi Hj. assert (E := HK i j Hi Hj). unfold as_read, box_update_kkt_rho in *.
  destruct full.
  - rewrite !tab2_spec by auto. rewrite E. reflexivity.
  - destruct (Nat.ltb_spec i j); rewrite !tab2_spec by auto; rewrite E; reflexivity.
Qed.

Lemma badapt_same : forall s p r1 r2 e1 e2 d o1 o2, bsame p r1 r2 e1 e2 d o1 o2 -> b_res o1 = b_res o2 ->
  bsame p r1 r2 e1 e2 d (box_adapt_rho s p o1) (box_adapt_rho s p o2).
Proof.
  intros s p r1 r2 e1 e2 d o1 o2 [Hx Hy Hz Hq Hrv Hri Hrb Hrbi Hrho Hct Hst HK1 HK2 HF Hu Hr He] Eres.
  unfold box_adapt_rho. cbv zeta. cbn [b_rho bset_rho_estimate]. rewrite <- Eres, <- Hrho.
  destruct (rho_change_needed _ _ _); [|constructor; auto].
  constructor; auto.
  - simpl. rewrite Hct. reflexivity.
  - simpl. rewrite Hct. reflexivity.
  - simpl. rewrite Hct. reflexivity.
  - simpl. rewrite Hct. reflexivity.
  - intros. cbn [b_Fact box_factorise bset_K b_K].
    replace (b_rho_inv (box_rho_vec_update p (clamp_rho (estimate_rho (b_res o1) (b_rho o1)))
         (bset_rho_estimate (clamp_rho (estimate_rho (b_res o1) (b_rho o1))) o2)))
      with (b_rho_inv (box_rho_vec_update p (clamp_rho (estimate_rho (b_res o1) (b_rho o1)))
         (bset_rho_estimate (clamp_rho (estimate_rho (b_res o1) (b_rho o1))) o1))) by (simpl; rewrite Hct; reflexivity).
    replace (b_rho_box (box_rho_vec_update p (clamp_rho (estimate_rho (b_res o1) (b_rho o1)))
         (bset_rho_estimate (clamp_rho (estimate_rho (b_res o1) (b_rho o1))) o2)))
      with (b_rho_box (box_rho_vec_update p (clamp_rho (estimate_rho (b_res o1) (b_rho o1)))
         (bset_rho_estimate (clamp_rho (estimate_rho (b_res o1) (b_rho o1))) o1))) by (simpl; rewrite Hct; reflexivity).
    cbn [b_rho_box bset_rho_estimate]. rewrite <- Hrb. apply bupdK_as_read; auto.
    cbn [b_K box_rho_vec_update bset_rho_estimate]. rewrite HK1, HK2. exact HF.
  - simpl. lia.
Qed.

Lemma bbody_same : forall s p r1 r2 e1 e2 d k o1 o2, bsame p r1 r2 e1 e2 d o1 o2 ->
  match body s p k o1, body s p k o2 with
  | Stop a, Stop b => bsame p r1 r2 e1 e2 d a b
  | Cont a, Cont b => bsame p r1 r2 e1 e2 d a b
  | Undef, Undef => True
  | _, _ => False
  end.
Proof.
  intros s p r1 r2 e1 e2 d k o1 o2 HS. apply bupdate_same with (s := s) in HS. unfold box_body.
  set (u1 := box_update lsolve s p o1) in *. set (u2 := box_update lsolve s p o2) in *. clearbody u1 u2.
  cbv zeta. destruct (is_check_iter s k); cbn [andb].
  - apply bresid_same in HS. destruct HS as [HS ER].
    set (v1 := box_residuals_update p u1) in *. set (v2 := box_residuals_update p u2) in *. clearbody v1 v2.
    rewrite ER. destruct (termination_criteria s (b_res v2)).
    + destruct HS; constructor; auto.
    + destruct (adaptive_rho s); auto. destruct (_ =? 0)%Z; auto. destruct (_ =? 0)%Z; auto.
      apply badapt_same; auto.
  - destruct (adaptive_rho s); auto. destruct (_ =? 0)%Z; auto. destruct (_ =? 0)%Z; auto.
    apply bresid_same in HS. destruct HS. apply badapt_same; auto.
Qed.

Lemma bloop_same : forall s p r1 r2 e1 e2 d mx fuel k o1 o2, bsame p r1 r2 e1 e2 d o1 o2 ->
  match qp_loop (body s p) mx fuel k o1, qp_loop (body s p) mx fuel k o2 with
  | Some (a, i), Some (b, j) => i = j /\ bsame p r1 r2 e1 e2 d a b
  | None, None => True
  | _, _ => False
  end.
Proof.
  induction fuel as [|fuel IH]; intros k o1 o2 HS; simpl; auto.
  destruct (k <=? mx)%Z; auto.
  assert (HB := bbody_same s p r1 r2 e1 e2 d k o1 o2 HS).
  destruct (body s p k o1), (body s p k o2); try contradiction; auto. apply IH; auto.
Qed.

Lemma bsetup_same : forall s p xg yg o1 o2, boff (qn p) (qm p) (b_K o1) -> boff (qn p) (qm p) (b_K o2) ->
  bsame p (b_res o1) (b_res o2) (b_rho_estimate o1) (b_rho_estimate o2) (b_rho_updates o1 - b_rho_updates o2)
    (box_setup full s p xg yg o1) (box_setup full s p xg yg o2).
Proof.
  intros s p xg yg o1 o2 H1 H2. constructor; auto.
  - intros. unfold box_setup. cbv zeta. cbn [b_Fact box_factorise bset_K bset_status b_K].
    rewrite !bconstruct_as_read with (rv := b_rho_vec (box_setup full s p xg yg o1)); auto;
      intros; simpl; rewrite tab_spec by auto; reflexivity.
  - simpl. lia.
Qed.

Lemma bsolve_history : forall s p xg yg o1 o2,
  box_reachable lsolve full (qn p) (qm p) o1 -> box_reachable lsolve full (qn p) (qm p) o2 ->
  match solve s p xg yg o1, solve s p xg yg o2 with
  | Some a, Some b =>
      b_x a = b_x b /\ b_y a = b_y b /\ b_z a = b_z b /\ b_q a = b_q b /\ b_status a = b_status b /\ b_iter a = b_iter b /\
      (b_rho_updates a - b_rho_updates o1 = b_rho_updates b - b_rho_updates o2)%Z /\
      (b_res a = b_res b \/ (b_res a = b_res o1 /\ b_res b = b_res o2)) /\
      (b_rho_estimate a = b_rho_estimate b \/ (b_rho_estimate a = b_rho_estimate o1 /\ b_rho_estimate b = b_rho_estimate o2))
  | None, None => True
  | _, _ => False
  end.
Proof.
  intros s p xg yg o1 o2 R1 R2. unfold box_solve.
  generalize (bloop_same s p _ _ _ _ _ (max_iter s) (S (Z.to_nat (max_iter s))) 1 _ _
    (bsetup_same s p xg yg o1 o2 (reachable_boff _ _ _ R1) (reachable_boff _ _ _ R2))).
  destruct (qp_loop _ _ _ _ _) as [[a i]|]; destruct (qp_loop _ _ _ _ _) as [[b j]|]; auto.
  intros [-> [Hx Hy Hz Hq Hrv Hri Hrb Hrbi Hrho Hct Hst HK1 HK2 HF Hu Hr He]].
  destruct (max_iter s <? j)%Z; simpl; repeat split; auto; lia.
Qed.

End Generic.
