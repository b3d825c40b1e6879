(** Lemmas about the ADMM model that hold for every scalar type. *)
Require Import ZArith List Bool Lia.
From Verif Require Import Scal Qp_Model Qp_Spec Qp_Proofs Admm_Model Admm_Spec.

Lemma tab_ext : forall {T} {ST : Scalar T} n (f g : vec T), (forall i, (i < n)%nat -> f i = g i) -> tab n f = tab n g.
Proof.
  intros. unfold tab. replace (map f (seq 0 n)) with (map g (seq 0 n)); auto.
  apply map_ext_in. intros a Ha. apply in_seq in Ha. symmetry. apply H. lia.
Qed.

Section Generic.
Context {T : Type} {ST : Scalar T}.
Variable lsolve : nat -> mat T -> vec T -> vec T.
Variable full : bool.
Notation obj := (admm_obj T).
Notation body := (admm_body lsolve).
Notation solve := (admm_solve lsolve full).

Lemma adapt_rho_frame : forall s p o,
  let o' := adapt_rho s p o in
  a_x o' = a_x o /\ a_y o' = a_y o /\ a_z o' = a_z o /\ a_status o' = a_status o /\ a_ctype o' = a_ctype o /\
  a_res o' = a_res o.
Proof.
  intros. unfold o', adapt_rho. simpl. destruct (rho_change_needed _ _ _); simpl; repeat split; auto.
Qed.

Lemma body_cont_status : forall s p k o o', body s p k o = Cont o' -> a_status o' = a_status o.
Proof.
  intros s p k o o'. unfold admm_body.
  set (o1 := admm_update lsolve s p o).
  assert (E1 : a_status o1 = a_status o) by reflexivity. clearbody o1.
  set (o2 := if is_check_iter s k then residuals_update p o1 else o1).
  assert (E2 : a_status o2 = a_status o1) by (unfold o2; destruct (is_check_iter s k); reflexivity).
  clearbody o2.
  destruct (_ && _); [discriminate|].
  destruct (adaptive_rho s); [|intros H; injection H; intros; subst; congruence].
  destruct (_ =? 0)%Z; [discriminate|].
  destruct (_ =? 0)%Z; [|intros H; injection H; intros; subst; congruence].
  intros H; injection H; intros; subst.
  destruct (is_check_iter s k).
  - destruct (adapt_rho_frame s p o2) as (_&_&_&->&_); congruence.
  - destruct (adapt_rho_frame s p (residuals_update p o2)) as (_&_&_&->&_). simpl. congruence.
Qed.

Lemma body_stop : forall s p k o o', body s p k o = Stop o' ->
  is_check_iter s k = true /\ a_status o' = SOLVED /\
  o' = set_status SOLVED (residuals_update p (admm_update lsolve s p o)) /\
  termination_criteria s (a_res o') = true.
Proof.
  intros s p k o o'. unfold admm_body.
  destruct (is_check_iter s k) eqn:Ec; simpl.
  - destruct (termination_criteria _ _) eqn:Et.
    + intros H; injection H; intros; subst. simpl. repeat split; auto.
    + destruct (adaptive_rho s); [|discriminate]. destruct (_ =? 0)%Z; [discriminate|].
      destruct (_ =? 0)%Z; discriminate.
  - destruct (adaptive_rho s); [|discriminate]. destruct (_ =? 0)%Z; [discriminate|].
    destruct (_ =? 0)%Z; discriminate.
Qed.

Lemma body_undef : forall s p k o, body s p k o = Undef -> adaptive_rho s = true /\ adaptive_rho_interval s = 0%Z.
Proof.
  intros s p k o. unfold admm_body. cbv zeta.
  destruct (_ && _); [discriminate|].
  destruct (adaptive_rho s); [|discriminate].
  destruct (adaptive_rho_interval s =? 0)%Z eqn:E.
  - intros _. apply Z.eqb_eq in E. auto.
  - destruct (Z.rem k (adaptive_rho_interval s) =? 0)%Z; intros H; discriminate H.
Qed.

(** What a finished run looks like. *)
Lemma solve_cases : forall s p xg yg o o', solve s p xg yg o = Some o' ->
  let init := admm_setup full s p xg yg o in
  (exists k o1, visits (body s p) (max_iter s) init k o1 /\ (max_iter s < k)%Z /\
     o' = set_iter k (set_status MAX_ITER_EXCEEDED o1)) \/
  (exists k o1 o2, visits (body s p) (max_iter s) init k o1 /\ (k <= max_iter s)%Z /\ body s p k o1 = Stop o2 /\
     o' = set_iter k o2).
Proof.
  intros s p xg yg o o'. unfold admm_solve.
  generalize (qp_loop_run (body s p) (max_iter s) (admm_setup full s p xg yg o)).
  destruct (qp_loop _ _ _ _ _) as [[o2 k]|]; [|discriminate].
  intros [[Hv Hk]|[o1 [Hv [Hk Hb]]]] H; injection H; intros; subst.
  - left. exists k, o2. rewrite (proj2 (Z.ltb_lt _ _)) by lia. auto.
  - right. exists k, o1, o2. destruct (Z.ltb_spec (max_iter s) k); [lia|]. auto.
Qed.

Lemma solve_defined : forall s p xg yg o,
  (adaptive_rho s = false \/ adaptive_rho_interval s <> 0%Z) -> exists o', solve s p xg yg o = Some o'.
Proof.
  intros. unfold admm_solve.
  generalize (qp_loop_run (body s p) (max_iter s) (admm_setup full s p xg yg o)).
  destruct (qp_loop _ _ _ _ _) as [[o2 k]|]; [eauto|].
  intros [k1 [o1 [_ [_ Hb]]]]. apply body_undef in Hb. destruct Hb, H; congruence.
Qed.

Lemma solve_status_truth : forall s p xg yg o o', solve s p xg yg o = Some o' ->
  ((a_status o' = SOLVED /\ (1 <= a_iter o' <= max_iter s)%Z /\ check_termination s <> 0%Z /\
      (Z.rem (a_iter o') (check_termination s) = 0)%Z)
   \/ (a_status o' = MAX_ITER_EXCEEDED /\ a_iter o' = (Z.max 0 (max_iter s) + 1)%Z)).
Proof.
  intros s p xg yg o o' H. destruct (solve_cases _ _ _ _ _ _ H) as [[k [o1 [Hv [Hk ->]]]]|[k [o1 [o2 [Hv [Hk [Hb ->]]]]]]].
  - right. simpl. split; auto. apply visits_range in Hv. lia.
  - left. apply body_stop in Hb. destruct Hb as (Hc & Hs & _). simpl.
    apply visits_range in Hv. unfold is_check_iter in Hc. apply andb_prop in Hc. destruct Hc as [Hc1 Hc2].
    apply negb_true_iff, Z.eqb_neq in Hc1. apply Z.eqb_eq in Hc2.
    repeat split; auto; lia.
Qed.

(** ** Step sizes and the matrix given to the linear solver *)
Lemma parse_spec : forall (p : qp_data T) i, (i < qm p + qn p)%nat ->
  parse_constraints_bounds p i =
  if Nat.ltb i (qm p) then parse_row (qAlb p i) (qAub p i) else parse_row (qxlb p (i - qm p)%nat) (qxub p (i - qm p)%nat).
Proof.
  intros p i Hi. unfold parse_constraints_bounds.
  set (f := fun i => if Nat.ltb i (qm p) then parse_row (qAlb p i) (qAub p i)
                     else parse_row (qxlb p (i - qm p)%nat) (qxub p (i - qm p)%nat)).
  rewrite nth_indep with (d' := f 0%nat) by (rewrite map_length, seq_length; exact Hi).
  rewrite map_nth, seq_nth by exact Hi. reflexivity.
Qed.

Lemma construct_A_spec : forall n m A i j, (i < m + n)%nat -> (j < n)%nat ->
  construct_A n m A i j = (stacked m A i j : T).
Proof. intros. unfold construct_A. rewrite tab2_spec by auto. reflexivity. Qed.

(** everything that is constant or kept in step during the loop *)
Record admm_inv (s : qp_settings T) (p : qp_data T) (o : obj) : Prop := {
  inv_ctype : a_ctype o = parse_constraints_bounds p;
  inv_rvec : forall i, (i < qm p + qn p)%nat -> a_rho_vec o i = rho_of_type (a_ctype o i) (a_rho o);
  inv_rinv : forall i, (i < qm p + qn p)%nat -> a_rho_inv o i = sdiv s1 (a_rho_vec o i);
  inv_fact : forall i j, (i < qn p + (qm p + qn p))%nat -> (j < qn p + (qm p + qn p))%nat ->
     as_read full (a_Fact o) i j = admm_kkt full s p (a_rho_vec o) i j;
  inv_K : a_K o = a_Fact o
}.

Lemma construct_kkt_as_read : forall s p rinv rvec K i j,
  (forall i, (i < qm p + qn p)%nat -> rinv i = sdiv s1 (rvec i)) ->
  (i < qn p + (qm p + qn p))%nat -> (j < qn p + (qm p + qn p))%nat ->
  as_read full (construct_kkt_matrix full s p (construct_A (qn p) (qm p) (qA p)) rinv K) i j = admm_kkt full s p rvec i j.
Proof.
  intros s p rinv rvec K i j Hr Hi Hj. unfold as_read, construct_kkt_matrix, admm_kkt.
  destruct full.
  - rewrite tab2_spec by auto.
    destruct (Nat.ltb_spec i (qn p)), (Nat.ltb_spec j (qn p)).
    + destruct (Nat.eqb i j); reflexivity.
    + apply construct_A_spec; lia.
    + apply construct_A_spec; lia.
    + destruct (Nat.eqb_spec i j); auto. rewrite Hr by lia. reflexivity.
  - destruct (Nat.ltb_spec i j).
    + rewrite tab2_spec by auto. unfold as_read.
      destruct (Nat.ltb_spec i (qn p)), (Nat.ltb_spec j (qn p)); try lia.
      * rewrite (proj2 (Nat.eqb_neq j i)), (proj2 (Nat.eqb_neq i j)), (proj2 (Nat.ltb_lt i j)) by lia. reflexivity.
      * apply construct_A_spec; lia.
      * rewrite (proj2 (Nat.eqb_neq j i)), (proj2 (Nat.eqb_neq i j)) by lia. reflexivity.
    + rewrite tab2_spec by auto. unfold as_read.
      destruct (Nat.ltb_spec i (qn p)), (Nat.ltb_spec j (qn p)); try lia.
      * destruct (Nat.ltb_spec i j); try lia. destruct (Nat.eqb i j); reflexivity.
      * apply construct_A_spec; lia.
      * destruct (Nat.eqb_spec i j); auto. rewrite Hr by lia. reflexivity.
Qed.

Lemma update_kkt_as_read : forall s p rinv rvec rold K i j,
  (forall i, (i < qm p + qn p)%nat -> rinv i = sdiv s1 (rvec i)) ->
  (forall i j, (i < qn p + (qm p + qn p))%nat -> (j < qn p + (qm p + qn p))%nat ->
     as_read full K i j = admm_kkt full s p rold i j) ->
  (i < qn p + (qm p + qn p))%nat -> (j < qn p + (qm p + qn p))%nat ->
  as_read full (update_kkt_rho p rinv K) i j = admm_kkt full s p rvec i j.
Proof.
  intros s p rinv rvec rold K i j Hr HK Hi Hj.
  assert (E := HK i j Hi Hj). unfold admm_kkt in *. unfold as_read, update_kkt_rho in *.
  assert (Hcase : forall a b, (a < qn p + (qm p + qn p))%nat -> (b < qn p + (qm p + qn p))%nat ->
    tab2 (qn p + (qm p + qn p)) (qn p + (qm p + qn p))
      (fun i0 j0 => if (Nat.eqb i0 j0 && Nat.leb (qn p) i0)%bool then sopp (rinv (i0 - qn p)%nat) else K i0 j0) a b
    = if (Nat.eqb a b && Nat.leb (qn p) a)%bool then sopp (rinv (a - qn p)%nat) else K a b).
  { intros. rewrite tab2_spec by auto. reflexivity. }
  rewrite !Hcase by auto. clear Hcase.
  destruct (Nat.eqb_spec i j) as [->|Hne].
  - rewrite Nat.eqb_refl in *. rewrite !Nat.ltb_irrefl in *.
    assert (Hif : forall (X : T), (if full then X else X) = X) by (destruct full; auto).
    rewrite Hif in *. simpl.
    destruct (Nat.ltb_spec j (qn p)) as [Hj1|Hj1].
    + destruct (Nat.leb_spec (qn p) j); [lia|]. exact E.
    + destruct (Nat.leb_spec (qn p) j); [|lia]. rewrite Hr by lia. reflexivity.
  - rewrite (proj2 (Nat.eqb_neq j i)) by auto. simpl. exact E.
Qed.

Lemma setup_inv : forall s p xg yg o, admm_inv s p (admm_setup full s p xg yg o).
Proof.
  intros. assert (Hrinv : forall i, (i < qm p + qn p)%nat ->
    a_rho_inv (admm_setup full s p xg yg o) i = sdiv s1 (a_rho_vec (admm_setup full s p xg yg o) i)).
  { intros. simpl. rewrite tab_spec by auto. reflexivity. }
  constructor; try reflexivity; auto.
  - intros. simpl. rewrite tab_spec by auto. reflexivity.
  - intros. apply construct_kkt_as_read; auto.
Qed.

Lemma setup_rho : forall s p xg yg o, a_rho (admm_setup full s p xg yg o) = rho0 s.
Proof. reflexivity. Qed.

Lemma rho_vec_update_parts : forall p r o,
  (forall i, (i < qm p + qn p)%nat -> a_rho_vec (rho_vec_update p r o) i = rho_of_type (a_ctype o i) r) /\
  (forall i, (i < qm p + qn p)%nat -> a_rho_inv (rho_vec_update p r o) i = sdiv s1 (a_rho_vec (rho_vec_update p r o) i)) /\
  a_rho (rho_vec_update p r o) = r.
Proof.
  intros. simpl. repeat split; intros; rewrite tab_spec by auto; reflexivity.
Qed.

Lemma adapt_inv : forall s p o, admm_inv s p o -> admm_inv s p (adapt_rho s p o).
Proof.
  intros s p o [Hc Hv Hi HF HK]. unfold adapt_rho.
  set (nr := clamp_rho (estimate_rho (a_res o) (a_rho o))).
  destruct (rho_change_needed s nr _) eqn:E.
  - destruct (rho_vec_update_parts p nr (set_rho_estimate nr o)) as (P1 & P2 & P3).
    assert (Hfact : forall i j, (i < qn p + (qm p + qn p))%nat -> (j < qn p + (qm p + qn p))%nat ->
      as_read full (update_kkt_rho p (a_rho_inv (rho_vec_update p nr (set_rho_estimate nr o)))
                       (a_K (rho_vec_update p nr (set_rho_estimate nr o)))) i j
      = admm_kkt full s p (a_rho_vec (rho_vec_update p nr (set_rho_estimate nr o))) i j).
    { intros. apply update_kkt_as_read with (rold := a_rho_vec o); auto.
      intros. simpl a_K. rewrite HK. apply HF; auto. }
    constructor; auto.
  - constructor; auto.
Qed.

Lemma cont_inv : forall s p k o o', admm_inv s p o -> body s p k o = Cont o' -> admm_inv s p o'.
Proof.
  intros s p k o o' HI. unfold admm_body.
  set (o1 := admm_update lsolve s p o).
  assert (I1 : admm_inv s p o1) by (destruct HI; constructor; auto).
  clearbody o1.
  set (o2 := if is_check_iter s k then residuals_update p o1 else o1).
  assert (I2 : admm_inv s p o2).
  { unfold o2; destruct (is_check_iter s k); auto. destruct I1; constructor; auto. }
  clearbody o2.
  destruct (_ && _); [discriminate|].
  destruct (adaptive_rho s); [|intros H; injection H; intros; subst; auto].
  destruct (_ =? 0)%Z; [discriminate|].
  destruct (_ =? 0)%Z; [|intros H; injection H; intros; subst; auto].
  intros H; injection H; intros; subst. apply adapt_inv.
  destruct (is_check_iter s k); auto. destruct I2; constructor; auto.
Qed.

Lemma visits_admm_inv : forall s p xg yg o k o1,
  visits (body s p) (max_iter s) (admm_setup full s p xg yg o) k o1 -> admm_inv s p o1.
Proof.
  intros s p xg yg o k o1 Hv. revert k o1 Hv.
  apply (visits_inv _ _ _ (admm_inv s p)); [apply setup_inv|].
  intros. eapply cont_inv; eauto.
Qed.

(** ** Independence of the object's history *)
(** two objects that agree up to history; r1,r2 / e1,e2 are the stale residuals / rho estimates *)
Record same (s : qp_settings T) (p : qp_data T) (r1 r2 : residuals T) (e1 e2 : T) (d : Z) (o1 o2 : obj) : Prop := {
  sm_x : a_x o1 = a_x o2; sm_y : a_y o1 = a_y o2; sm_z : a_z o1 = a_z o2;
  sm_rv : a_rho_vec o1 = a_rho_vec o2; sm_ri : a_rho_inv o1 = a_rho_inv o2; sm_rho : a_rho o1 = a_rho o2;
  sm_ct : a_ctype o1 = a_ctype o2; sm_st : a_status o1 = a_status o2;
  sm_i1 : admm_inv s p o1; sm_i2 : admm_inv s p o2;
  sm_upd : (a_rho_updates o1 - a_rho_updates o2 = d)%Z;
  sm_res : a_res o1 = a_res o2 \/ (a_res o1 = r1 /\ a_res o2 = r2);
  sm_est : a_rho_estimate o1 = a_rho_estimate o2 \/ (a_rho_estimate o1 = e1 /\ a_rho_estimate o2 = e2)
}.

Hypothesis Hreads : reads_only lsolve full.

Lemma update_same : forall s p r1 r2 e1 e2 d o1 o2, same s p r1 r2 e1 e2 d o1 o2 ->
  same s p r1 r2 e1 e2 d (admm_update lsolve s p o1) (admm_update lsolve s p o2).
Proof.
  intros s p r1 r2 e1 e2 d o1 o2 [Hx Hy Hz Hrv Hri Hrho Hct Hst Hi1 Hi2 Hu Hr He].
  assert (Erhs : compute_kkt_rhs s p o1 = compute_kkt_rhs s p o2).
  { unfold compute_kkt_rhs. rewrite Hx, Hy, Hz, Hri. reflexivity. }
  assert (Etil : tab (qn p + (qm p + qn p)) (lsolve (qn p + (qm p + qn p)) (a_Fact o1) (compute_kkt_rhs s p o1)) =
                 tab (qn p + (qm p + qn p)) (lsolve (qn p + (qm p + qn p)) (a_Fact o2) (compute_kkt_rhs s p o2))).
  { rewrite Erhs. apply tab_ext. apply Hreads. intros.
    rewrite (inv_fact _ _ _ Hi1), (inv_fact _ _ _ Hi2), Hrv by auto. reflexivity. }
  constructor; simpl; auto.
  - rewrite Etil, Hx. reflexivity.
  - rewrite Etil, Hz, Hy, Hri, Hrv. reflexivity.
  - rewrite Etil, Hz, Hy, Hri. reflexivity.
  - destruct Hi1; constructor; auto.
  - destruct Hi2; constructor; auto.
Qed.

Lemma resid_same : forall s p r1 r2 e1 e2 d o1 o2, same s p r1 r2 e1 e2 d o1 o2 ->
  same s p r1 r2 e1 e2 d (residuals_update p o1) (residuals_update p o2) /\
  a_res (residuals_update p o1) = a_res (residuals_update p o2).
Proof.
  intros s p r1 r2 e1 e2 d o1 o2 [Hx Hy Hz Hrv Hri Hrho Hct Hst Hi1 Hi2 Hu Hr He].
  assert (E : a_res (residuals_update p o1) = a_res (residuals_update p o2)).
  { simpl. rewrite Hx, Hy, Hz. reflexivity. }
  split; auto. constructor; auto.
  - destruct Hi1; constructor; auto.
  - destruct Hi2; constructor; auto.
Qed.

Lemma adapt_same : forall s p r1 r2 e1 e2 d o1 o2, same s p r1 r2 e1 e2 d o1 o2 -> a_res o1 = a_res o2 ->
  same s p r1 r2 e1 e2 d (adapt_rho s p o1) (adapt_rho s p o2).
Proof.
  intros s p r1 r2 e1 e2 d o1 o2 [Hx Hy Hz Hrv Hri Hrho Hct Hst Hi1 Hi2 Hu Hr He] Eres.
  assert (A1 := adapt_inv s p o1 Hi1). assert (A2 := adapt_inv s p o2 Hi2).
  constructor; auto; unfold adapt_rho; simpl; rewrite <- ?Eres, <- ?Hrho;
    destruct (rho_change_needed _ _ _); simpl; rewrite <- ?Hct; auto; try lia.
Qed.

Lemma body_same : forall s p r1 r2 e1 e2 d k o1 o2, same s p r1 r2 e1 e2 d o1 o2 ->
  match body s p k o1, body s p k o2 with
  | Stop a, Stop b => same s p r1 r2 e1 e2 d a b
  | Cont a, Cont b => same s p r1 r2 e1 e2 d a b
  | Undef, Undef => True
  | _, _ => False
  end.
Proof.
  intros s p r1 r2 e1 e2 d k o1 o2 HS. apply update_same in HS. unfold admm_body.
  set (u1 := admm_update lsolve s p o1) in *. set (u2 := admm_update lsolve s p o2) in *. clearbody u1 u2.
  cbv zeta. destruct (is_check_iter s k); cbn [andb].
  - apply resid_same in HS. destruct HS as [HS ER].
    set (v1 := residuals_update p u1) in *. set (v2 := residuals_update p u2) in *. clearbody v1 v2.
    rewrite ER. destruct (termination_criteria s (a_res v2)).
    + destruct HS; constructor; auto.
      * destruct sm_i3; constructor; auto.
      * destruct sm_i4; constructor; auto.
    + destruct (adaptive_rho s); auto. destruct (_ =? 0)%Z; auto. destruct (_ =? 0)%Z; auto.
      apply adapt_same; auto.
  - destruct (adaptive_rho s); auto. destruct (_ =? 0)%Z; auto. destruct (_ =? 0)%Z; auto.
    apply resid_same in HS. destruct HS. apply adapt_same; auto.
Qed.

Lemma loop_same : forall s p r1 r2 e1 e2 d mx fuel k o1 o2, same s p r1 r2 e1 e2 d o1 o2 ->
  match qp_loop (body s p) mx fuel k o1, qp_loop (body s p) mx fuel k o2 with
  | Some (a, i), Some (b, j) => i = j /\ same s p r1 r2 e1 e2 d a b
  | None, None => True
  | _, _ => False
  end.
Proof.
  induction fuel as [|fuel IH]; intros k o1 o2 HS; simpl; auto.
  destruct (k <=? mx)%Z; auto.
  assert (HB := body_same s p r1 r2 e1 e2 d k o1 o2 HS).
  destruct (body s p k o1), (body s p k o2); try contradiction; auto. apply IH; auto.
Qed.

Lemma setup_same : forall s p xg yg o1 o2,
  same s p (a_res o1) (a_res o2) (a_rho_estimate o1) (a_rho_estimate o2) (a_rho_updates o1 - a_rho_updates o2)
    (admm_setup full s p xg yg o1) (admm_setup full s p xg yg o2).
Proof.
  intros. constructor; auto using setup_inv. simpl. lia.
Qed.

Lemma solve_history : forall s p xg yg o1 o2,
  match solve s p xg yg o1, solve s p xg yg o2 with
  | Some a, Some b =>
      a_x a = a_x b /\ a_y a = a_y b /\ a_z a = a_z b /\ a_status a = a_status b /\ a_iter a = a_iter b /\
      (a_rho_updates a - a_rho_updates o1 = a_rho_updates b - a_rho_updates o2)%Z /\
      (a_res a = a_res b \/ (a_res a = a_res o1 /\ a_res b = a_res o2)) /\
      (a_rho_estimate a = a_rho_estimate b \/ (a_rho_estimate a = a_rho_estimate o1 /\ a_rho_estimate b = a_rho_estimate o2))
  | None, None => True
  | _, _ => False
  end.
Proof.
  intros. unfold admm_solve.
  generalize (loop_same s p _ _ _ _ _ (max_iter s) (S (Z.to_nat (max_iter s))) 1 _ _ (setup_same s p xg yg o1 o2)).
  destruct (qp_loop _ _ _ _ _) as [[a i]|]; destruct (qp_loop _ _ _ _ _) as [[b j]|]; auto.
  intros [-> [Hx Hy Hz Hrv Hri Hrho Hct Hst Hi1 Hi2 Hu Hr He]].
  destruct (max_iter s <? j)%Z; simpl; repeat split; auto; lia.
Qed.

(** a run that reports SOLVED has fresh residuals *)
Lemma solve_fresh : forall s p xg yg o o', solve s p xg yg o = Some o' -> a_status o' = SOLVED ->
  a_res o' = compute_residuals p (a_x o') (a_y o') (a_z o') /\ termination_criteria s (a_res o') = true.
Proof.
  intros s p xg yg o o' H Hs. destruct (solve_cases _ _ _ _ _ _ H) as [[k [o1 [Hv [Hk ->]]]]|[k [o1 [o2 [Hv [Hk [Hb ->]]]]]]].
  - discriminate.
  - apply body_stop in Hb. destruct Hb as (_ & _ & -> & Ht). split; [reflexivity|exact Ht].
Qed.

End Generic.
