(** Lemmas about the ADMM model over the reals. *)
Require Import ZArith List Bool Lia Reals Lra Psatz.
From Verif Require Import Scal RSum Qp_Model Qp_Spec Qp_Proofs Admm_Model Admm_Spec Admm_SpecR Admm_Proofs.
Local Open Scope R_scope.

(** bounds of the stacked constraint vector (A x, x) *)
Definition lbS (p : qp_data R) (i : nat) : ext R := if Nat.ltb i (qm p) then qAlb p i else qxlb p (i - qm p)%nat.
Definition ubS (p : qp_data R) (i : nat) : ext R := if Nat.ltb i (qm p) then qAub p i else qxub p (i - qm p)%nat.

Lemma consS : forall p, qp_consistent p -> forall i, (i < qm p + qn p)%nat -> consistent (lbS p i) (ubS p i).
Proof.
  intros p [Ha Hx] i Hi. unfold lbS, ubS. destruct (Nat.ltb_spec i (qm p)); [auto|apply Hx; lia].
Qed.

Lemma stacked_mv : forall p x i, (i < qm p + qn p)%nat -> rmv (qn p) (stacked (qm p) (qA p)) x i = stackv p x i.
Proof.
  intros p x i Hi. unfold stackv, stacked. rewrite rmv_def. destruct (Nat.ltb_spec i (qm p)).
  - rewrite rmv_def. reflexivity.
  - transitivity (rsum (qn p) (fun j => if Nat.eqb j (i - qm p) then x j else 0)).
    + apply rsum_ext. intros j Hj. rewrite (Nat.eqb_sym j). destruct (Nat.eqb (i - qm p) j); rsimp; ring.
    + rewrite rsum_delta by lia. reflexivity.
Qed.

Lemma stacked_adj : forall p y j, (j < qn p)%nat ->
  rsum (qm p + qn p) (fun i => stacked (qm p) (qA p) i j * y i) =
  rsum (qm p) (fun i => qA p i j * y i) + y (qm p + j)%nat.
Proof.
  intros p y j Hj. rewrite rsum_split. f_equal.
  - apply rsum_ext. intros i Hi. unfold stacked. rewrite (proj2 (Nat.ltb_lt i (qm p))) by auto. reflexivity.
  - transitivity (rsum (qn p) (fun i => if Nat.eqb i j then y (qm p + i)%nat else 0)).
    + apply rsum_ext. intros i Hi. unfold stacked. destruct (Nat.ltb_spec (qm p + i) (qm p)); [lia|].
      replace (qm p + i - qm p)%nat with i by lia. destruct (Nat.eqb i j); rsimp; ring.
    + rewrite rsum_delta by auto. reflexivity.
Qed.

Lemma as_read_sym : forall full n (H : mat R) i j, symmetric n H -> (i < n)%nat -> (j < n)%nat -> as_read full H i j = H i j.
Proof. intros. unfold as_read. destruct full; auto. destruct (Nat.ltb i j); auto. Qed.

Section R.
Variable lsolve : nat -> mat R -> vec R -> vec R.
Variable full : bool.
Notation body := (admm_body lsolve).
Notation solve := (admm_solve lsolve full).
Notation inv := (admm_inv full).

(** ** rows of the KKT system *)
Lemma kkt_row_top : forall s p rho v j, symmetric (qn p) (qH p) -> (j < qn p)%nat ->
  rmv (qn p + (qm p + qn p)) (admm_kkt full s p rho) v j =
  rmv (qn p) (qH p) v j + sigma s * v j +
  (rsum (qm p) (fun i => qA p i j * v (qn p + i)%nat) + v (qn p + (qm p + j))%nat).
Proof.
  intros s p rho v j Hs Hj. rewrite rmv_def, rsum_split. f_equal.
  - transitivity (rsum (qn p) (fun k => qH p j k * v k + (if Nat.eqb k j then sigma s * v k else 0))).
    + apply rsum_ext. intros k Hk. unfold admm_kkt.
      rewrite (proj2 (Nat.ltb_lt j (qn p))), (proj2 (Nat.ltb_lt k (qn p))) by auto.
      rewrite (Nat.eqb_sym k j). destruct (Nat.eqb_spec j k).
      * subst. rsimp. ring.
      * rewrite (as_read_sym full (qn p)) by auto. ring.
    + rewrite rsum_plus, rsum_delta by auto. rewrite rmv_def. reflexivity.
  - rewrite <- (stacked_adj p (fun i => v (qn p + i)%nat)) by auto.
    apply rsum_ext. intros i Hi. unfold admm_kkt.
    rewrite (proj2 (Nat.ltb_lt j (qn p))) by auto. destruct (Nat.ltb_spec (qn p + i) (qn p)); [lia|].
    replace (qn p + i - qn p)%nat with i by lia. reflexivity.
Qed.

Lemma kkt_row_bottom : forall s p rho v i, (i < qm p + qn p)%nat ->
  rmv (qn p + (qm p + qn p)) (admm_kkt full s p rho) v (qn p + i)%nat =
  stackv p v i - / rho i * v (qn p + i)%nat.
Proof.
  intros s p rho v i Hi. rewrite rmv_def, rsum_split.
  replace (stackv p v i - / rho i * v (qn p + i)%nat) with (stackv p v i + - (/ rho i * v (qn p + i)%nat)) by ring. f_equal.
  - rewrite <- stacked_mv by auto. rewrite rmv_def. apply rsum_ext. intros k Hk. unfold admm_kkt.
    destruct (Nat.ltb_spec (qn p + i) (qn p)); [lia|]. rewrite (proj2 (Nat.ltb_lt k (qn p))) by auto.
    replace (qn p + i - qn p)%nat with i by lia. reflexivity.
  - transitivity (rsum (qm p + qn p) (fun k => if Nat.eqb k i then - (/ rho k * v (qn p + k)%nat) else 0)).
    + apply rsum_ext. intros k Hk. unfold admm_kkt.
      destruct (Nat.ltb_spec (qn p + i) (qn p)), (Nat.ltb_spec (qn p + k) (qn p)); try lia.
      destruct (Nat.eqb_spec (qn p + i) (qn p + k)), (Nat.eqb_spec k i); try lia; rsimp; try ring.
      subst k. replace (qn p + i - qn p)%nat with i by lia. unfold Rdiv. ring.
    + rewrite rsum_delta by auto. reflexivity.
Qed.

(** ** the KKT matrix is nonsingular *)
Lemma admm_kkt_nonsingular : forall s p rho, symmetric (qn p) (qH p) -> psd (qn p) (qH p) -> 0 < sigma s ->
  (forall i, (i < qm p + qn p)%nat -> 0 < rho i) ->
  nonsingular (qn p + (qm p + qn p)) (admm_kkt full s p rho).
Proof.
  intros s p rho Hs Hp Hsig Hrho v Hv.
  set (n := qn p) in *. set (mn := (qm p + qn p)%nat) in *.
  set (w := fun i => v (n + i)%nat).
  assert (Hb : forall i, (i < mn)%nat -> stackv p v i = / rho i * w i).
  { intros i Hi. specialize (Hv (n + i)%nat ltac:(lia)). unfold n, mn in *. rewrite kkt_row_bottom in Hv by auto. unfold w. lra. }
  assert (Ht : forall j, (j < n)%nat -> rmv n (qH p) v j + sigma s * v j + rsum mn (fun i => stacked (qm p) (qA p) i j * w i) = 0).
  { intros j Hj. specialize (Hv j ltac:(lia)). unfold n, mn in *. rewrite kkt_row_top in Hv by auto.
    rewrite stacked_adj by auto. unfold w, n. lra. }
  (* v' (row top) summed *)
  assert (E : qf n (qH p) v + sigma s * rdot n v v + rsum mn (fun i => / rho i * (w i * w i)) = 0).
  { assert (E1 : rdot n v (fun j => rmv n (qH p) v j + sigma s * v j + rsum mn (fun i => stacked (qm p) (qA p) i j * w i)) = 0).
    { rewrite rdot_def. apply rsum_zero. intros j Hj. rewrite Ht by auto. ring. }
    rewrite (rdot_plus_r n (fun j => rmv n (qH p) v j + sigma s * v j)) in E1.
    rewrite (rdot_plus_r n (rmv n (qH p) v)), rdot_scal_r in E1.
    assert (E2 : rdot n v (fun j => rsum mn (fun i => stacked (qm p) (qA p) i j * w i)) =
                 rsum mn (fun i => / rho i * (w i * w i))).
    { rewrite rdot_comm.
      change (fun j => rsum mn (fun i => stacked (qm p) (qA p) i j * w i)) with (rmv mn (mtr (stacked (qm p) (qA p))) w).
      rewrite <- rdot_mv_adj. rewrite rdot_def. apply rsum_ext. intros i Hi.
      unfold n, mn in *. rewrite stacked_mv by auto. rewrite Hb by auto. ring. }
    rewrite E2 in E1. exact E1. }
  assert (H1 : 0 <= qf n (qH p) v) by apply Hp.
  assert (H2 : 0 <= rdot n v v) by apply rdot_self_nonneg.
  assert (H3 : forall i, (i < mn)%nat -> 0 <= / rho i * (w i * w i)).
  { intros i Hi. apply Rmult_le_pos; [left; apply Rinv_0_lt_compat; auto|apply Rle_0_sqr]. }
  assert (H4 : 0 <= rsum mn (fun i => / rho i * (w i * w i))) by (apply rsum_nonneg; auto).
  assert (Hvv : rdot n v v = 0) by nra.
  assert (Hww : rsum mn (fun i => / rho i * (w i * w i)) = 0) by nra.
  intros i Hi. destruct (Nat.lt_ge_cases i n) as [Hin|Hin].
  - apply (rdot_self_zero n); auto.
  - assert (Hz := rsum_nonneg_zero mn _ H3 Hww (i - n)%nat ltac:(lia)). cbv beta in Hz.
    unfold w in Hz. replace (n + (i - n))%nat with i in Hz by lia.
    assert (0 < / rho (i - n)%nat) by (apply Rinv_0_lt_compat, Hrho; lia).
    apply Rsqr_0_uniq. unfold Rsqr. nra.
Qed.

Lemma nonsingular_ext : forall n K K', (forall i j, (i < n)%nat -> (j < n)%nat -> K i j = K' i j) ->
  nonsingular n K -> nonsingular n K'.
Proof.
  intros n K K' HE HK v Hv. apply HK. intros i Hi. rewrite <- (Hv i Hi). apply rmv_ext; auto.
Qed.

(** ** positivity of the step sizes *)
Lemma adapt_rho_a_rho : forall s p o, a_rho (adapt_rho s p o) = a_rho o \/
  (RHO_MIN <= a_rho (adapt_rho s p o) <= RHO_MAX).
Proof.
  intros. unfold adapt_rho. destruct (rho_change_needed _ _ _); [right|left; reflexivity].
  simpl. apply clamp_rho_range.
Qed.

Lemma body_cont_rho : forall s p k o o', body s p k o = Cont o' ->
  a_rho o' = a_rho o \/ (RHO_MIN <= a_rho o' <= RHO_MAX).
Proof.
  intros s p k o o'. unfold admm_body. cbv zeta.
  destruct (_ && _); [discriminate|].
  assert (forall b : bool, a_rho (if b then residuals_update p (admm_update lsolve s p o) else admm_update lsolve s p o) = a_rho o)
    by (intros [|]; reflexivity).
  destruct (adaptive_rho s); [|intros HH; injection HH; intros; subst; left; auto].
  destruct (adaptive_rho_interval s =? 0)%Z; [discriminate|].
  destruct (Z.rem k (adaptive_rho_interval s) =? 0)%Z; [|intros HH; injection HH; intros; subst; left; auto].
  intros HH; injection HH; intros; subst.
  match goal with |- a_rho (adapt_rho s p ?X) = _ \/ _ => assert (E : a_rho X = a_rho o) by (destruct (is_check_iter s k); reflexivity);
    rewrite <- E; apply adapt_rho_a_rho end.
Qed.

Lemma visits_rho : forall s p xg yg o k o1, 
  visits (body s p) (max_iter s) (admm_setup full s p xg yg o) k o1 ->
  a_rho o1 = rho0 s \/ (RHO_MIN <= a_rho o1 <= RHO_MAX).
Proof.
  intros s p xg yg o k o1 Hv. revert k o1 Hv.
  apply (visits_inv _ _ _ (fun o1 => a_rho o1 = rho0 s \/ (RHO_MIN <= a_rho o1 <= RHO_MAX))); [left; reflexivity|].
  intros k o1 o2 _ _ Hr Hb. apply body_cont_rho in Hb. destruct Hb as [->|]; auto.
Qed.

Lemma visits_rho_pos : forall s p xg yg o k o1, 0 < rho0 s ->
  visits (body s p) (max_iter s) (admm_setup full s p xg yg o) k o1 ->
  forall i, (i < qm p + qn p)%nat -> 0 < a_rho_vec o1 i /\ a_rho_inv o1 i = / a_rho_vec o1 i.
Proof.
  intros s p xg yg o k o1 H0 Hv i Hi.
  assert (HI := visits_admm_inv lsolve full _ _ _ _ _ _ _ Hv). split.
  - rewrite (inv_rvec _ _ _ _ HI) by auto. apply rho_of_type_pos.
    destruct (visits_rho _ _ _ _ _ _ _ Hv) as [->|[]]; auto.
    generalize RHO_MIN_pos; lra.
  - rewrite (inv_rinv _ _ _ _ HI) by auto. rsimp. unfold Rdiv. ring.
Qed.

Lemma visits_rho_range : forall s p xg yg o k o1, RHO_MIN <= rho0 s <= RHO_MAX ->
  visits (body s p) (max_iter s) (admm_setup full s p xg yg o) k o1 ->
  forall i, (i < qm p + qn p)%nat -> RHO_MIN <= a_rho_vec o1 i <= 1000 * RHO_MAX.
Proof.
  intros s p xg yg o k o1 H0 Hv i Hi.
  assert (HI := visits_admm_inv lsolve full _ _ _ _ _ _ _ Hv).
  rewrite (inv_rvec _ _ _ _ HI) by auto.
  assert (Hr : RHO_MIN <= a_rho o1 <= RHO_MAX) by (destruct (visits_rho _ _ _ _ _ _ _ Hv) as [->|]; auto).
  generalize RHO_MIN_pos RHO_MIN_le_MAX; intros.
  destruct (a_ctype o1 i); simpl; unfold RHO_EQ_FACTOR, RHO_MIN, RHO_MAX, scst in *; rsimp; lra.
Qed.

(** ** what one iteration does to slack and multipliers *)
Definition relaxed (s : qp_settings R) (p : qp_data R) (o : admm_obj R) (i : nat) : R :=
  let t := lsolve (qn p + (qm p + qn p)) (a_Fact o) (compute_kkt_rhs s p o) in
  alpha s * (a_z o i + a_rho_inv o i * (t (qn p + i)%nat - a_y o i)) + (1 - alpha s) * a_z o i.

Lemma update_z : forall s p o i, (i < qm p + qn p)%nat ->
  a_z (admm_update lsolve s p o) i = proj_row (relaxed s p o i + a_rho_inv o i * a_y o i) (lbS p i) (ubS p i).
Proof.
  intros s p o i Hi. unfold relaxed. simpl. unfold box_projection. rewrite tab_spec by auto.
  unfold lbS, ubS. rewrite !tab_spec by lia. rsimp.
  destruct (Nat.ltb i (qm p)); f_equal; ring.
Qed.

Lemma update_y : forall s p o i, (i < qm p + qn p)%nat ->
  a_y (admm_update lsolve s p o) i = a_y o i + a_rho_vec o i * (relaxed s p o i - a_z (admm_update lsolve s p o) i).
Proof.
  intros s p o i Hi. unfold relaxed. unfold admm_update. cbn [a_y a_z].
  rewrite !tab_spec by lia. rsimp. reflexivity.
Qed.

Lemma update_x : forall s p o j, (j < qn p)%nat ->
  a_x (admm_update lsolve s p o) j =
  alpha s * lsolve (qn p + (qm p + qn p)) (a_Fact o) (compute_kkt_rhs s p o) j + (1 - alpha s) * a_x o j.
Proof.
  intros s p o j Hj. unfold admm_update. cbn [a_x]. rewrite !tab_spec by lia. rsimp. reflexivity.
Qed.

Lemma update_normal : forall s p o i, (i < qm p + qn p)%nat -> qp_consistent p ->
  0 < a_rho_vec o i -> a_rho_inv o i = / a_rho_vec o i ->
  let o' := admm_update lsolve s p o in
  in_bounds (lbS p i) (ubS p i) (a_z o' i) /\ sign_ok (lbS p i) (ubS p i) (a_z o' i) (a_y o' i).
Proof.
  intros s p o i Hi Hc Hr Hri o'. unfold o'. rewrite update_y by auto. rewrite update_z by auto.
  assert (HC := consS p Hc i Hi). split; [apply proj_in_bounds; auto|].
  set (v := relaxed s p o i + a_rho_inv o i * a_y o i).
  replace (a_y o i + a_rho_vec o i * (relaxed s p o i - proj_row v (lbS p i) (ubS p i)))
    with (a_rho_vec o i * (v - proj_row v (lbS p i) (ubS p i))).
  - apply proj_sign; auto.
  - unfold v. rewrite Hri. field. lra.
Qed.

(** ** certificate *)
Lemma residuals_R : forall p x y z,
  compute_residuals p x y z =
  mkRes (Rmax (rnorminf (qm p) (fun i => rmv (qn p) (qA p) x i - z i)) (rnorminf (qn p) (fun j => x j - z (qm p + j)%nat)))
        (rnorminf (qn p) (lag_grad p x y)) (admm_prim_scale p x z) (qp_dual_scale p x y).
Proof.
  intros. unfold compute_residuals. rewrite !sfmax_R. reflexivity.
Qed.

Lemma solved_certificate : forall s p xg yg o o', qp_consistent p -> 0 < rho0 s ->
  solve s p xg yg o = Some o' -> a_status o' = SOLVED ->
  let x := a_x o' in let y := a_y o' in let z := a_z o' in
  let ep := eps_abs s + eps_rel s * admm_prim_scale p x z in
  let ed := eps_abs s + eps_rel s * qp_dual_scale p x y in
  certificate p x y z (fun j => z (qm p + j)%nat) ep ep ed.
Proof.
  intros s p xg yg o o' Hc Hr H Hs x y z ep ed.
  destruct (solve_fresh lsolve full _ _ _ _ _ _ H Hs) as [Eres Ht].
  unfold termination_criteria, eps_prim, eps_dual in Ht. apply andb_prop in Ht. destruct Ht as [Ht1 Ht2].
  rewrite Eres, residuals_R in Ht1, Ht2. rsimp. cbn [res_prim res_dual max_Ax_z max_Hx] in *.
  apply Rleb_true in Ht1, Ht2. fold x y z in Ht1, Ht2. fold ep in Ht1. fold ed in Ht2.
  assert (HN : forall i, (i < qm p + qn p)%nat ->
    in_bounds (lbS p i) (ubS p i) (z i) /\ sign_ok (lbS p i) (ubS p i) (z i) (y i)).
  { destruct (solve_cases _ _ _ _ _ _ _ _ H) as [[k [o1 [Hv [Hk ->]]]]|[k [o1 [o2 [Hv [Hk [Hb ->]]]]]]]; [discriminate|].
    apply body_stop in Hb. destruct Hb as (_ & _ & -> & _). intros i Hi.
    destruct (visits_rho_pos _ _ _ _ _ _ _ Hr Hv i Hi). apply update_normal; auto. }
  repeat split.
  - specialize (HN i ltac:(lia)). unfold lbS, ubS in HN. rewrite (proj2 (Nat.ltb_lt i (qm p))) in HN by auto. apply HN.
  - specialize (HN i ltac:(lia)). unfold lbS, ubS in HN. rewrite (proj2 (Nat.ltb_lt i (qm p))) in HN by auto. apply HN.
  - eapply Rle_trans; [|apply Ht1]. eapply Rle_trans; [|apply Rmax_l].
    apply (rnorminf_ub (qm p) (fun i => rmv (qn p) (qA p) x i - z i)); auto.
  - specialize (HN i ltac:(lia)). unfold lbS, ubS in HN. rewrite (proj2 (Nat.ltb_lt i (qm p))) in HN by auto. apply HN.
  - specialize (HN i ltac:(lia)). unfold lbS, ubS in HN. rewrite (proj2 (Nat.ltb_lt i (qm p))) in HN by auto. apply HN.
  - specialize (HN (qm p + j)%nat ltac:(lia)). unfold lbS, ubS in HN.
    destruct (Nat.ltb_spec (qm p + j) (qm p)); [lia|]. replace (qm p + j - qm p)%nat with j in HN by lia. apply HN.
  - specialize (HN (qm p + j)%nat ltac:(lia)). unfold lbS, ubS in HN.
    destruct (Nat.ltb_spec (qm p + j) (qm p)); [lia|]. replace (qm p + j - qm p)%nat with j in HN by lia. apply HN.
  - eapply Rle_trans; [|apply Ht1]. eapply Rle_trans; [|apply Rmax_r].
    apply (rnorminf_ub (qn p) (fun j => x j - z (qm p + j)%nat)); auto.
  - specialize (HN (qm p + j)%nat ltac:(lia)). unfold lbS, ubS in HN.
    destruct (Nat.ltb_spec (qm p + j) (qm p)); [lia|]. replace (qm p + j - qm p)%nat with j in HN by lia. apply HN.
  - specialize (HN (qm p + j)%nat ltac:(lia)). unfold lbS, ubS in HN.
    destruct (Nat.ltb_spec (qm p + j) (qm p)); [lia|]. replace (qm p + j - qm p)%nat with j in HN by lia. apply HN.
  - intros j Hj. eapply Rle_trans; [|apply Ht2]. apply (rnorminf_ub (qn p) (lag_grad p x y)); auto.
Qed.

Lemma solved_near_optimal : forall s p xg yg o o', qp_consistent p -> 0 < rho0 s ->
  symmetric (qn p) (qH p) -> psd (qn p) (qH p) ->
  solve s p xg yg o = Some o' -> a_status o' = SOLVED ->
  let x := a_x o' in let y := a_y o' in let z := a_z o' in
  let ep := eps_abs s + eps_rel s * admm_prim_scale p x z in
  let ed := eps_abs s + eps_rel s * qp_dual_scale p x y in
  near_optimal p x y ep ed.
Proof.
  intros s p xg yg o o' Hc Hr Hsym Hpsd H Hs x y z ep ed x' Hf.
  destruct (solved_certificate s p xg yg o o' Hc Hr H Hs) as (Ha & Hx & Hd).
  apply approx_kkt_optimal with (za := z) (zx := fun j => z (qm p + j)%nat); auto; intros.
  - apply Ha; auto.
  - apply Hx; auto.
  - apply Ha; auto.
  - apply Hx; auto.
Qed.

(** ** the linear system solved in one iteration *)
Definition tilde (s : qp_settings R) (p : qp_data R) (o : admm_obj R) : vec R :=
  lsolve (qn p + (qm p + qn p)) (a_Fact o) (compute_kkt_rhs s p o).

Hypothesis Hexact : exact_solver full lsolve.

Lemma tilde_solves : forall s p o, inv s p o -> symmetric (qn p) (qH p) -> psd (qn p) (qH p) -> 0 < sigma s ->
  (forall i, (i < qm p + qn p)%nat -> 0 < a_rho_vec o i /\ a_rho_inv o i = / a_rho_vec o i) ->
  (forall j, (j < qn p)%nat ->
     rmv (qn p) (qH p) (tilde s p o) j + sigma s * tilde s p o j +
     (rsum (qm p) (fun i => qA p i j * tilde s p o (qn p + i)%nat) + tilde s p o (qn p + (qm p + j))%nat)
     = sigma s * a_x o j - qh p j) /\
  (forall i, (i < qm p + qn p)%nat ->
     stackv p (tilde s p o) i - / a_rho_vec o i * tilde s p o (qn p + i)%nat = a_z o i - / a_rho_vec o i * a_y o i).
Proof.
  intros s p o HI Hs Hp Hsig Hrho.
  assert (HNS : nonsingular (qn p + (qm p + qn p)) (as_read full (a_Fact o))).
  { apply nonsingular_ext with (K := admm_kkt full s p (a_rho_vec o)).
    - intros. symmetry. apply (inv_fact _ _ _ _ HI); auto.
    - apply admm_kkt_nonsingular; auto. intros; apply Hrho; auto. }
  assert (HE := Hexact _ _ (compute_kkt_rhs s p o) HNS). fold (tilde s p o) in HE.
  assert (HE' : forall i, (i < qn p + (qm p + qn p))%nat ->
     rmv (qn p + (qm p + qn p)) (admm_kkt full s p (a_rho_vec o)) (tilde s p o) i = compute_kkt_rhs s p o i).
  { intros i Hi. rewrite <- HE by auto. apply rmv_ext; auto. intros. symmetry. apply (inv_fact _ _ _ _ HI); auto. }
  split.
  - intros j Hj. rewrite <- (kkt_row_top s p (a_rho_vec o)) by auto. rewrite HE' by lia.
    unfold compute_kkt_rhs. rewrite tab_spec by lia. rewrite (proj2 (Nat.ltb_lt j (qn p))) by auto. reflexivity.
  - intros i Hi. rewrite <- (kkt_row_bottom s p (a_rho_vec o)) by auto. rewrite HE' by lia.
    unfold compute_kkt_rhs. rewrite tab_spec by lia. destruct (Nat.ltb_spec (qn p + i) (qn p)); [lia|].
    replace (qn p + i - qn p)%nat with i by lia. rsimp.
    destruct (Hrho i Hi) as [_ ->]. reflexivity.
Qed.

(** ztilde = A xtilde *)
Lemma relaxed_eq : forall s p o, inv s p o -> symmetric (qn p) (qH p) -> psd (qn p) (qH p) -> 0 < sigma s ->
  (forall i, (i < qm p + qn p)%nat -> 0 < a_rho_vec o i /\ a_rho_inv o i = / a_rho_vec o i) ->
  forall i, (i < qm p + qn p)%nat ->
  relaxed s p o i = alpha s * stackv p (tilde s p o) i + (1 - alpha s) * a_z o i.
Proof.
  intros s p o HI Hs Hp Hsig Hrho i Hi. unfold relaxed. fold (tilde s p o).
  destruct (tilde_solves s p o HI Hs Hp Hsig Hrho) as [_ HB]. specialize (HB i Hi).
  destruct (Hrho i Hi) as [_ ->]. f_equal. f_equal.
  rewrite Rmult_minus_distr_l. lra.
Qed.

(** ** fixed points are KKT points and conversely *)
Lemma fixed_point_kkt : forall s p o, inv s p o -> symmetric (qn p) (qH p) -> psd (qn p) (qH p) -> 0 < sigma s ->
  qp_consistent p -> alpha s <> 0 ->
  (forall i, (i < qm p + qn p)%nat -> 0 < a_rho_vec o i /\ a_rho_inv o i = / a_rho_vec o i) ->
  let o' := admm_update lsolve s p o in
  (forall j, (j < qn p)%nat -> a_x o' j = a_x o j) ->
  (forall i, (i < qm p + qn p)%nat -> a_y o' i = a_y o i) ->
  (forall i, (i < qm p + qn p)%nat -> a_z o' i = a_z o i) ->
  kkt_pair p (a_x o) (a_y o).
Proof.
  intros s p o HI Hs Hp Hsig Hc Hal Hrho o' Hx Hy Hz.
  destruct (tilde_solves s p o HI Hs Hp Hsig Hrho) as [HT HB].
  assert (Ex : forall j, (j < qn p)%nat -> tilde s p o j = a_x o j).
  { intros j Hj. specialize (Hx j Hj). unfold o' in Hx. rewrite update_x in Hx by auto. fold (tilde s p o) in Hx.
    assert (alpha s * (tilde s p o j - a_x o j) = 0) by lra. apply Rmult_integral in H. destruct H; [contradiction|lra]. }
  assert (Estk : forall i, (i < qm p + qn p)%nat -> stackv p (tilde s p o) i = stackv p (a_x o) i).
  { intros i Hi. unfold stackv. destruct (Nat.ltb_spec i (qm p)); [|apply Ex; lia]. apply rmv_ext; auto. }
  assert (Er : forall i, (i < qm p + qn p)%nat -> relaxed s p o i = a_z o i).
  { intros i Hi. specialize (Hy i Hi). unfold o' in Hy. rewrite update_y in Hy by auto. fold o' in Hy.
    rewrite Hz in Hy by auto. destruct (Hrho i Hi) as [Hpos _].
    assert (a_rho_vec o i * (relaxed s p o i - a_z o i) = 0) by lra. apply Rmult_integral in H. destruct H; lra. }
  assert (Ez : forall i, (i < qm p + qn p)%nat -> stackv p (a_x o) i = a_z o i).
  { intros i Hi. assert (E := relaxed_eq s p o HI Hs Hp Hsig Hrho i Hi). rewrite Er in E by auto. rewrite Estk in E by auto.
    assert (alpha s * (stackv p (a_x o) i - a_z o i) = 0) by lra. apply Rmult_integral in H. destruct H; [contradiction|lra]. }
  assert (Ey : forall i, (i < qm p + qn p)%nat -> tilde s p o (qn p + i)%nat = a_y o i).
  { intros i Hi. specialize (HB i Hi). rewrite Estk, Ez in HB by auto. destruct (Hrho i Hi) as [Hpos _].
    assert (0 < / a_rho_vec o i) by (apply Rinv_0_lt_compat; auto). nra. }
  assert (Hbs : forall i, (i < qm p + qn p)%nat ->
     in_bounds (lbS p i) (ubS p i) (a_z o i) /\ sign_ok (lbS p i) (ubS p i) (a_z o i) (a_y o i)).
  { intros i Hi. destruct (Hrho i Hi) as [Hpos Hinv].
    apply proj_fixed_inv with (r := a_rho_inv o i).
    - apply consS; auto.
    - rewrite Hinv. apply Rinv_0_lt_compat; auto.
    - specialize (Hz i Hi). unfold o' in Hz. rewrite update_z in Hz by auto. rewrite Er in Hz by auto. exact Hz. }
  repeat split.
  - intros j Hj. unfold lag_grad. specialize (HT j Hj).
    rewrite Ey, Ex in HT by lia.
    assert (E1 : rsum (qm p) (fun i => qA p i j * tilde s p o (qn p + i)%nat) = rsum (qm p) (fun i => qA p i j * a_y o i))
      by (apply rsum_ext; intros; rewrite Ey by lia; reflexivity).
    assert (E2 : rmv (qn p) (qH p) (tilde s p o) j = rmv (qn p) (qH p) (a_x o) j) by (apply rmv_ext; auto).
    rewrite E1, E2 in HT. lra.
  - specialize (Hbs i ltac:(lia)). specialize (Ez i ltac:(lia)). unfold lbS, ubS, stackv in *.
    rewrite (proj2 (Nat.ltb_lt i (qm p))) in * by auto. rewrite Ez. apply Hbs.
  - specialize (Hbs i ltac:(lia)). specialize (Ez i ltac:(lia)). unfold lbS, ubS, stackv in *.
    rewrite (proj2 (Nat.ltb_lt i (qm p))) in * by auto. rewrite Ez. apply Hbs.
  - specialize (Hbs (qm p + j)%nat ltac:(lia)). specialize (Ez (qm p + j)%nat ltac:(lia)). unfold lbS, ubS, stackv in *.
    destruct (Nat.ltb_spec (qm p + j) (qm p)); [lia|]. replace (qm p + j - qm p)%nat with j in * by lia. rewrite Ez. apply Hbs.
  - specialize (Hbs (qm p + j)%nat ltac:(lia)). specialize (Ez (qm p + j)%nat ltac:(lia)). unfold lbS, ubS, stackv in *.
    destruct (Nat.ltb_spec (qm p + j) (qm p)); [lia|]. replace (qm p + j - qm p)%nat with j in * by lia. rewrite Ez. apply Hbs.
  - specialize (Hbs i ltac:(lia)). specialize (Ez i ltac:(lia)). unfold lbS, ubS, stackv in *.
    rewrite (proj2 (Nat.ltb_lt i (qm p))) in * by auto. rewrite Ez. apply Hbs.
  - specialize (Hbs i ltac:(lia)). specialize (Ez i ltac:(lia)). unfold lbS, ubS, stackv in *.
    rewrite (proj2 (Nat.ltb_lt i (qm p))) in * by auto. rewrite Ez. apply Hbs.
  - specialize (Hbs (qm p + j)%nat ltac:(lia)). specialize (Ez (qm p + j)%nat ltac:(lia)). unfold lbS, ubS, stackv in *.
    destruct (Nat.ltb_spec (qm p + j) (qm p)); [lia|]. replace (qm p + j - qm p)%nat with j in * by lia. rewrite Ez. apply Hbs.
  - specialize (Hbs (qm p + j)%nat ltac:(lia)). specialize (Ez (qm p + j)%nat ltac:(lia)). unfold lbS, ubS, stackv in *.
    destruct (Nat.ltb_spec (qm p + j) (qm p)); [lia|]. replace (qm p + j - qm p)%nat with j in * by lia. rewrite Ez. apply Hbs.
Qed.

Definition at_pair (p : qp_data R) (x y : vec R) (o : admm_obj R) : Prop :=
  (forall j, (j < qn p)%nat -> a_x o j = x j) /\
  (forall i, (i < qm p + qn p)%nat -> a_y o i = y i) /\
  (forall i, (i < qm p + qn p)%nat -> a_z o i = stackv p x i).

Lemma kkt_stacked : forall p x y, kkt_pair p x y -> forall i, (i < qm p + qn p)%nat ->
  in_bounds (lbS p i) (ubS p i) (stackv p x i) /\ sign_ok (lbS p i) (ubS p i) (stackv p x i) (y i).
Proof.
  intros p x y (_ & [Hfa Hfx] & Hsa & Hsx) i Hi. unfold lbS, ubS, stackv.
  destruct (Nat.ltb_spec i (qm p)).
  - split; auto.
  - split; [apply Hfx; lia|].
    specialize (Hsx (i - qm p)%nat ltac:(lia)). replace (qm p + (i - qm p))%nat with i in Hsx by lia. exact Hsx.
Qed.

Lemma kkt_fixed : forall s p o x y, inv s p o -> symmetric (qn p) (qH p) -> psd (qn p) (qH p) -> 0 < sigma s ->
  kkt_pair p x y ->
  (forall i, (i < qm p + qn p)%nat -> 0 < a_rho_vec o i /\ a_rho_inv o i = / a_rho_vec o i) ->
  at_pair p x y o -> at_pair p x y (admm_update lsolve s p o).
Proof.
  intros s p o x y HI Hs Hp Hsig HK Hrho (Hx & Hy & Hz).
  destruct (tilde_solves s p o HI Hs Hp Hsig Hrho) as [HT HB].
  assert (HKS := kkt_stacked p x y HK).
  (* the exact solution of the KKT system is (x, y) *)
  set (v := fun i => if Nat.ltb i (qn p) then tilde s p o i - x i else tilde s p o i - y (i - qn p)%nat).
  assert (Hv : forall i, (i < qn p + (qm p + qn p))%nat -> v i = 0).
  { apply (admm_kkt_nonsingular s p (a_rho_vec o) Hs Hp Hsig); [intros; apply Hrho; auto|].
    assert (Ev1 : forall j, (j < qn p)%nat -> v j = tilde s p o j - x j).
    { intros; unfold v. rewrite (proj2 (Nat.ltb_lt _ _)); auto. }
    assert (Ev2 : forall i, v (qn p + i)%nat = tilde s p o (qn p + i)%nat - y i).
    { intros; unfold v. destruct (Nat.ltb_spec (qn p + i) (qn p)); [lia|]. f_equal. f_equal. lia. }
    intros i Hi. destruct (Nat.lt_ge_cases i (qn p)) as [Hin|Hin].
    - rewrite kkt_row_top by auto.
      rewrite (rmv_ext (qn p) (qH p) (qH p) v (fun j => tilde s p o j - x j)) by auto.
      rewrite rmv_minus, Ev1 by auto.
      rewrite (rsum_ext (qm p) _ (fun k => qA p k i * tilde s p o (qn p + k)%nat - qA p k i * y k))
        by (intros; rewrite Ev2; ring).
      rewrite rsum_minus, Ev2. specialize (HT i Hin). rewrite Hx in HT by auto.
      destruct HK as (Hst & _). specialize (Hst i Hin). unfold lag_grad in Hst. lra.
    - replace i with (qn p + (i - qn p))%nat by lia. rewrite kkt_row_bottom by lia.
      specialize (HB (i - qn p)%nat ltac:(lia)). rewrite Hz, Hy in HB by lia. rewrite Ev2.
      assert (Es : stackv p v (i - qn p)%nat = stackv p (tilde s p o) (i - qn p)%nat - stackv p x (i - qn p)%nat).
      { unfold stackv. destruct (Nat.ltb_spec (i - qn p) (qm p)).
        - rewrite <- rmv_minus. apply rmv_ext; auto.
        - rewrite Ev1 by lia. reflexivity. }
      rewrite Es. lra. }
  assert (Ex : forall j, (j < qn p)%nat -> tilde s p o j = x j).
  { intros j Hj. specialize (Hv j ltac:(lia)). unfold v in Hv. rewrite (proj2 (Nat.ltb_lt j (qn p))) in Hv by auto. lra. }
  assert (Erel : forall i, (i < qm p + qn p)%nat -> relaxed s p o i = stackv p x i).
  { intros i Hi. rewrite relaxed_eq by auto. rewrite Hz by auto.
    assert (E : stackv p (tilde s p o) i = stackv p x i).
    { unfold stackv. destruct (Nat.ltb_spec i (qm p)); [apply rmv_ext; auto|apply Ex; lia]. }
    rewrite E. ring. }
  assert (Ez : forall i, (i < qm p + qn p)%nat -> a_z (admm_update lsolve s p o) i = stackv p x i).
  { intros i Hi. rewrite update_z by auto. rewrite Erel, Hy by auto. destruct (Hrho i Hi) as [Hpos Hinv].
    destruct (HKS i Hi). apply proj_fixed; auto. rewrite Hinv. apply Rinv_0_lt_compat; auto. }
  repeat split; auto.
  - intros j Hj. rewrite update_x by auto. fold (tilde s p o). rewrite Ex, Hx by auto. ring.
  - intros i Hi. rewrite update_y by auto. rewrite Ez, Erel, Hy by auto. ring.
Qed.

End R.
