(** Warm start at an optimum and convergence of the ADMM model (exact arithmetic, exact linear solver). *)
Require Import ZArith List Bool Lia Reals Lra Psatz.
From Verif Require Import Scal RSum Qp_Model Qp_Spec Qp_Proofs Admm_Model Admm_Spec Admm_SpecR Admm_Proofs Admm_ProofsR.
Local Open Scope R_scope.

(** every pass before the current one was a [Cont] *)
Lemma visits_prefix : forall {O} (body : Z -> O -> pass O) mx o0 k o, visits body mx o0 k o ->
  forall j, (1 <= j < k)%Z -> exists oj oj', visits body mx o0 j oj /\ (j <= mx)%Z /\ body j oj = Cont oj'.
Proof.
  intros O body mx o0 k o Hv. induction Hv; intros j Hj; [lia|].
  destruct (Z.eq_dec j k) as [->|]; [eauto|]. apply IHHv. lia.
Qed.

Section Run.
Variable lsolve : nat -> mat R -> vec R -> vec R.
Variable full : bool.
Hypothesis Hexact : exact_solver full lsolve.
Notation body := (admm_body lsolve).
Notation solve := (admm_solve lsolve full).

Lemma body_cont_xyz : forall s p k o o', body s p k o = Cont o' ->
  let u := admm_update lsolve s p o in a_x o' = a_x u /\ a_y o' = a_y u /\ a_z o' = a_z u.
Proof.
  intros s p k o o'. unfold admm_body. cbv zeta.
  set (u := admm_update lsolve s p o). clearbody u.
  destruct (_ && _); [discriminate|].
  assert (E : forall b : bool, let v := if b then residuals_update p u else u in a_x v = a_x u /\ a_y v = a_y u /\ a_z v = a_z u)
    by (intros [|]; repeat split).
  destruct (adaptive_rho s); [|intros HH; injection HH; intros; subst; apply E].
  destruct (adaptive_rho_interval s =? 0)%Z; [discriminate|].
  destruct (Z.rem k (adaptive_rho_interval s) =? 0)%Z; [|intros HH; injection HH; intros; subst; apply E].
  intros HH; injection HH; intros; subst.
  match goal with |- context [adapt_rho s p ?X] => destruct (adapt_rho_frame s p X) as (-> & -> & -> & _) end.
  destruct (is_check_iter s k); repeat split.
Qed.

(** a check pass at which the updated iterate passes the test stops *)
Lemma body_check_stop : forall s p k o, is_check_iter s k = true ->
  let u := admm_update lsolve s p o in
  termination_criteria s (compute_residuals p (a_x u) (a_y u) (a_z u)) = true ->
  exists o', body s p k o = Stop o'.
Proof.
  intros s p k o Hc u Ht. unfold admm_body. cbv zeta. rewrite Hc. fold u. cbn [andb a_res residuals_update].
  rewrite Ht. eauto.
Qed.

Lemma setup_at_pair : forall s p xg yg o, at_pair p xg yg (admm_setup full s p xg yg o).
Proof.
  intros. unfold admm_setup. cbv zeta. repeat split; intros; simpl; rewrite tab_spec by auto; auto.
  rewrite <- stacked_mv by auto. apply rmv_ext; auto. intros. apply construct_A_spec; auto.
Qed.

Lemma visits_at_pair : forall s p xg yg o, symmetric (qn p) (qH p) -> psd (qn p) (qH p) -> 0 < sigma s -> 0 < rho0 s ->
  kkt_pair p xg yg -> forall k o1,
  visits (body s p) (max_iter s) (admm_setup full s p xg yg o) k o1 -> at_pair p xg yg o1.
Proof.
  intros s p xg yg o Hs Hp Hsig Hr HK k o1 Hv. induction Hv as [|k o1 o2 Hv IH Hk Hb]; [apply setup_at_pair|].
  destruct (body_cont_xyz _ _ _ _ _ Hb) as (Ex & Ey & Ez).
  destruct (kkt_fixed lsolve full Hexact s p o1 xg yg) as (Hx & Hy & Hz); auto.
  - eapply visits_admm_inv; eauto.
  - eapply visits_rho_pos; eauto.
  - repeat split; intros; rewrite ?Ex, ?Ey, ?Ez; auto.
Qed.

Lemma rnorminf_le : forall n f c, 0 <= c -> (forall i, (i < n)%nat -> Rabs (f i) <= c) -> rnorminf n f <= c.
Proof.
  induction n; intros; [exact H|rewrite rnorminf_S]. apply Rmax_lub; auto.
Qed.

Lemma prim_scale_nonneg : forall p x z, 0 <= admm_prim_scale p x z.
Proof. intros. unfold admm_prim_scale. eapply Rle_trans; [|apply Rmax_r]. apply rnorminf_nonneg. Qed.
Lemma dual_scale_nonneg : forall p x y, 0 <= qp_dual_scale p x y.
Proof. intros. unfold qp_dual_scale. eapply Rle_trans; [|apply Rmax_l]. apply rnorminf_nonneg. Qed.

Lemma terminates_small : forall s p x y z, 0 <= eps_abs s -> 0 <= eps_rel s ->
  (forall i, (i < qm p)%nat -> Rabs (rmv (qn p) (qA p) x i - z i) <= eps_abs s) ->
  (forall j, (j < qn p)%nat -> Rabs (x j - z (qm p + j)%nat) <= eps_abs s) ->
  (forall j, (j < qn p)%nat -> Rabs (lag_grad p x y j) <= eps_abs s) ->
  termination_criteria s (compute_residuals p x y z) = true.
Proof.
  intros s p x y z Ha Hr H1 H2 H3. rewrite residuals_R. unfold termination_criteria, eps_prim, eps_dual.
  cbn [res_prim res_dual max_Ax_z max_Hx]. rsimp.
  assert (0 <= eps_rel s * admm_prim_scale p x z) by (apply Rmult_le_pos; auto; apply prim_scale_nonneg).
  assert (0 <= eps_rel s * qp_dual_scale p x y) by (apply Rmult_le_pos; auto; apply dual_scale_nonneg).
  apply andb_true_intro; split; apply Rleb_true.
  - apply Rle_trans with (eps_abs s); [|lra]. apply Rmax_lub; apply rnorminf_le; auto.
  - apply Rle_trans with (eps_abs s); [|lra]. apply rnorminf_le; auto.
Qed.

Lemma is_check_mult : forall (s : qp_settings R) k, is_check_iter s k = true <->
  check_termination s <> 0%Z /\ (Z.rem k (check_termination s) = 0)%Z.
Proof.
  intros. unfold is_check_iter. rewrite andb_true_iff, negb_true_iff, Z.eqb_neq, Z.eqb_eq. tauto.
Qed.

Lemma warm_start : forall s p xg yg o, symmetric (qn p) (qH p) -> psd (qn p) (qH p) -> 0 < sigma s -> 0 < rho0 s ->
  0 <= eps_abs s -> 0 <= eps_rel s -> kkt_pair p xg yg ->
  (1 <= Z.abs (check_termination s) <= max_iter s)%Z ->
  (adaptive_rho s = false \/ adaptive_rho_interval s <> 0%Z) ->
  exists o', solve s p xg yg o = Some o' /\ a_status o' = SOLVED /\ a_iter o' = Z.abs (check_termination s) /\
    (forall j, (j < qn p)%nat -> a_x o' j = xg j) /\ (forall i, (i < qm p + qn p)%nat -> a_y o' i = yg i).
Proof.
  intros s p xg yg o Hs Hp Hsig Hr Ha Hrel HK Hct Had.
  set (ct := Z.abs (check_termination s)) in *.
  set (init := admm_setup full s p xg yg o).
  assert (Hupd : forall k o1, visits (body s p) (max_iter s) init k o1 -> at_pair p xg yg (admm_update lsolve s p o1)).
  { intros k o1 Hv. apply (kkt_fixed lsolve full Hexact); auto.
    - eapply visits_admm_inv; eauto.
    - eapply visits_rho_pos; eauto.
    - eapply visits_at_pair; eauto. }
  assert (Hstop : forall k o1, visits (body s p) (max_iter s) init k o1 -> is_check_iter s k = true -> exists o2, body s p k o1 = Stop o2).
  { intros k o1 Hv Hc. apply body_check_stop; auto. destruct (Hupd _ _ Hv) as (Hx & Hy & Hz).
    set (u := admm_update lsolve s p o1) in *. destruct HK as (Hst & _).
    apply terminates_small; auto; intros.
    - rewrite Hz by lia. unfold stackv. rewrite (proj2 (Nat.ltb_lt i (qm p))) by auto.
      rewrite (rmv_ext _ _ (qA p) _ xg) by auto. rewrite Rminus_eq_0, Rabs_R0. auto.
    - rewrite Hz by lia. unfold stackv. destruct (Nat.ltb_spec (qm p + j) (qm p)); [lia|].
      replace (qm p + j - qm p)%nat with j by lia. rewrite Hx by auto. rewrite Rminus_eq_0, Rabs_R0. auto.
    - assert (E : lag_grad p (a_x u) (a_y u) j = lag_grad p xg yg j).
      { unfold lag_grad. rewrite (rmv_ext _ _ (qH p) _ xg) by auto. rewrite Hy by lia.
        f_equal. f_equal. apply rsum_ext. intros. rewrite Hy by lia. reflexivity. }
      rewrite E, Hst, Rabs_R0 by auto. auto. }
  assert (Hctc : is_check_iter s ct = true).
  { apply is_check_mult. split; [lia|]. unfold ct. destruct (Z.abs_eq_or_opp (check_termination s)) as [->| ->].
    - apply Z.rem_same. lia.
    - rewrite Z.rem_opp_l by lia. rewrite Z.rem_same by lia. reflexivity. }
  assert (Hlate : forall k o1, visits (body s p) (max_iter s) init k o1 -> (k <= ct)%Z).
  { intros k o1 Hv. destruct (Z_le_gt_dec k ct); auto.
    destruct (visits_prefix _ _ _ _ _ Hv ct ltac:(lia)) as (oj & oj' & Hvj & _ & Hb).
    destruct (Hstop _ _ Hvj Hctc) as [o2 E]. congruence. }
  destruct (solve_defined lsolve full s p xg yg o Had) as [o' Ho']. exists o'. split; auto.
  destruct (solve_cases _ _ _ _ _ _ _ _ Ho') as [[k [o1 [Hv [Hk ->]]]]|[k [o1 [o2 [Hv [Hk [Hb ->]]]]]]].
  - apply Hlate in Hv. lia.
  - assert (Hkl := Hlate _ _ Hv). destruct (Hupd _ _ Hv) as (Hx & Hy & Hz).
    apply body_stop in Hb. destruct Hb as (Hc & Est & Eo2 & _).
    repeat split; auto.
    + simpl. apply is_check_mult in Hc. destruct Hc as [Hc0 Hc].
      apply visits_range in Hv. apply Z.rem_divide in Hc; auto.
      apply Z.divide_abs_l in Hc. apply Z.divide_pos_le in Hc; [|lia]. fold ct in Hc. lia.
    + intros. rewrite Eo2. apply Hx; auto.
    + intros. rewrite Eo2. apply Hy; auto.
Qed.

(** ** convergence, alpha = 1, fixed step sizes *)
Lemma wsq_nonneg : forall n w f, (forall i, (i < n)%nat -> 0 <= w i) -> 0 <= wsq n w f.
Proof. intros. apply rsum_nonneg. intros. apply Rmult_le_pos; auto. apply Rle_0_sqr. Qed.

Lemma wsq_term : forall n w f i, (forall i, (i < n)%nat -> 0 <= w i) -> (i < n)%nat -> w i * (f i * f i) <= wsq n w f.
Proof. intros. apply (rsum_nonneg_term n (fun i => w i * (f i * f i))); auto. intros. apply Rmult_le_pos; auto. apply Rle_0_sqr. Qed.

Definition normal_at (p : qp_data R) (o : admm_obj R) : Prop :=
  forall i, (i < qm p + qn p)%nat ->
    in_bounds (lbS p i) (ubS p i) (a_z o i) /\ sign_ok (lbS p i) (ubS p i) (a_z o i) (a_y o i).

Lemma wsq_polar : forall n w a a' b,
  2 * rsum n (fun i => w i * ((a' i - a i) * (a' i - b i))) =
  wsq n w (fun i => a' i - b i) + wsq n w (fun i => a' i - a i) - wsq n w (fun i => a i - b i).
Proof.
  intros. unfold wsq. rewrite <- rsum_plus, <- rsum_minus, <- rsum_scal. apply rsum_ext. intros. ring.
Qed.

Section Step.
Variables (s : qp_settings R) (p : qp_data R) (o : admm_obj R).
Hypothesis HI : admm_inv full s p o.
Hypothesis Hsym : symmetric (qn p) (qH p).
Hypothesis Hpsd : psd (qn p) (qH p).
Hypothesis Hsig : 0 < sigma s.
Hypothesis Hal : alpha s = 1.
Hypothesis Hc : qp_consistent p.
Hypothesis Hrho : forall i, (i < qm p + qn p)%nat -> 0 < a_rho_vec o i /\ a_rho_inv o i = / a_rho_vec o i.
Notation u := (admm_update lsolve s p o).
Notation n := (qn p).
Notation mn := (qm p + qn p)%nat.
Notation rho := (a_rho_vec o).

Lemma step_x : forall j, (j < n)%nat -> a_x u j = tilde lsolve s p o j.
Proof. intros. rewrite update_x by auto. rewrite Hal. fold (tilde lsolve s p o). ring. Qed.

Lemma step_w : forall i, (i < mn)%nat -> relaxed lsolve s p o i = stackv p (a_x u) i.
Proof.
  intros i Hi. rewrite relaxed_eq with (full := full) by auto. rewrite Hal.
  assert (E : stackv p (a_x u) i = stackv p (tilde lsolve s p o) i).
  { unfold stackv. destruct (Nat.ltb_spec i (qm p)); [apply rmv_ext; auto; intros; apply step_x; auto|apply step_x; lia]. }
  rewrite E. ring.
Qed.

Lemma step_y : forall i, (i < mn)%nat -> a_y u i = a_y o i + rho i * (stackv p (a_x u) i - a_z u i).
Proof. intros. rewrite update_y by auto. rewrite step_w by auto. reflexivity. Qed.

Lemma step_nu : forall i, (i < mn)%nat -> tilde lsolve s p o (n + i)%nat = a_y u i + rho i * (a_z u i - a_z o i).
Proof.
  intros i Hi. destruct (tilde_solves lsolve full Hexact s p o HI Hsym Hpsd Hsig Hrho) as [_ HB].
  specialize (HB i Hi). rewrite step_y by auto. destruct (Hrho i Hi) as [Hp _].
  assert (E : stackv p (a_x u) i = stackv p (tilde lsolve s p o) i).
  { unfold stackv. destruct (Nat.ltb_spec i (qm p)); [apply rmv_ext; auto; intros; apply step_x; auto|apply step_x; lia]. }
  rewrite <- E in HB.
  assert (E2 : rho i * (stackv p (a_x u) i - / rho i * tilde lsolve s p o (n + i)%nat) = rho i * (a_z o i - / rho i * a_y o i)) by (rewrite HB; reflexivity).
  replace (rho i * (stackv p (a_x u) i - / rho i * tilde lsolve s p o (n + i)%nat))
    with (rho i * stackv p (a_x u) i - tilde lsolve s p o (n + i)%nat) in E2 by (field; lra).
  replace (rho i * (a_z o i - / rho i * a_y o i)) with (rho i * a_z o i - a_y o i) in E2 by (field; lra).
  lra.
Qed.

Lemma step_lag : forall j, (j < n)%nat ->
  lag_grad p (a_x u) (a_y u) j =
  - (sigma s * (a_x u j - a_x o j)) - rsum mn (fun i => stacked (qm p) (qA p) i j * (rho i * (a_z u i - a_z o i))).
Proof.
  intros j Hj. destruct (tilde_solves lsolve full Hexact s p o HI Hsym Hpsd Hsig Hrho) as [HT _].
  specialize (HT j Hj).
  rewrite (rmv_ext n (qH p) (qH p) (tilde lsolve s p o) (a_x u)) in HT by (auto; intros; symmetry; apply step_x; auto).
  rewrite <- step_x in HT by auto.
  rewrite <- (stacked_adj p (fun i => tilde lsolve s p o (n + i)%nat)) in HT by auto.
  rewrite (rsum_ext mn (fun i => stacked (qm p) (qA p) i j * tilde lsolve s p o (n + i)%nat)
             (fun i => stacked (qm p) (qA p) i j * a_y u i + stacked (qm p) (qA p) i j * (rho i * (a_z u i - a_z o i)))) in HT
    by (intros; rewrite step_nu by auto; ring).
  rewrite rsum_plus in HT. rewrite stacked_adj in HT by auto. unfold lag_grad. lra.
Qed.

Lemma step_normal : normal_at p u.
Proof. intros i Hi. destruct (Hrho i Hi). apply update_normal; auto. Qed.

(** c = 1 needs the sign condition before the step, c = 0 does not *)
Lemma step_decrease_gen : forall xs ys c, kkt_pair p xs ys -> (c = 0 \/ (c = 1 /\ normal_at p o)) ->
  dist2 s p rho (a_x u) (a_z u) (a_y u) xs (stackv p xs) ys + c * dist2 s p rho (a_x u) (a_z u) (a_y u) (a_x o) (a_z o) (a_y o)
  <= dist2 s p rho (a_x o) (a_z o) (a_y o) xs (stackv p xs) ys.
Proof.
  intros xs ys c HK HN. assert (HKS := kkt_stacked p xs ys HK).
  set (d := fun j => a_x u j - xs j).
  (* <grad L(x+,y+) - grad L(x*,y* ), d> two ways *)
  assert (E0 : rdot n (fun j => lag_grad p (a_x u) (a_y u) j - lag_grad p xs ys j) d =
    qf n (qH p) d + rsum mn (fun i => (a_y u i - ys i) * (stackv p (a_x u) i - stackv p xs i))).
  { assert (El : forall j, (j < n)%nat -> lag_grad p (a_x u) (a_y u) j - lag_grad p xs ys j =
       rmv n (qH p) d j + rsum mn (fun i => stacked (qm p) (qA p) i j * (a_y u i - ys i))).
    { intros j Hj. unfold lag_grad, d. rewrite rmv_minus. rewrite (stacked_adj p (fun i => a_y u i - ys i)) by auto.
      rewrite (rsum_ext (qm p) (fun i => qA p i j * (a_y u i - ys i)) (fun i => qA p i j * a_y u i - qA p i j * ys i)) by (intros; ring).
      rewrite rsum_minus. ring. }
    rewrite (rdot_ext n _ d (fun j => rmv n (qH p) d j + rsum mn (fun i => stacked (qm p) (qA p) i j * (a_y u i - ys i))) d) by auto.
    rewrite rdot_plus_l. f_equal; [apply rdot_comm|].
    change (fun j => rsum mn (fun i => stacked (qm p) (qA p) i j * (a_y u i - ys i)))
      with (rmv mn (mtr (stacked (qm p) (qA p))) (fun i => a_y u i - ys i)).
    rewrite <- rdot_mv_adj, rdot_def. apply rsum_ext. intros i Hi. rewrite stacked_mv by auto.
    f_equal. unfold stackv, d. destruct (Nat.ltb i (qm p)); [apply rmv_minus|reflexivity]. }
  assert (E1 : rdot n (fun j => lag_grad p (a_x u) (a_y u) j - lag_grad p xs ys j) d =
    - rsum n (fun j => sigma s * ((a_x u j - a_x o j) * (a_x u j - xs j)))
    - rsum mn (fun i => rho i * (a_z u i - a_z o i) * (stackv p (a_x u) i - stackv p xs i))).
  { destruct HK as (Hst & _).
    rewrite (rdot_ext n _ d (fun j => - (sigma s * (a_x u j - a_x o j)) - rsum mn (fun i => stacked (qm p) (qA p) i j * (rho i * (a_z u i - a_z o i)))) d)
      by (auto; intros; rewrite step_lag, Hst by auto; ring).
    rewrite rdot_minus_l. f_equal.
    - rewrite rdot_def, <- rsum_opp. apply rsum_ext. intros. unfold d. ring.
    - change (fun j => rsum mn (fun i => stacked (qm p) (qA p) i j * (rho i * (a_z u i - a_z o i))))
        with (rmv mn (mtr (stacked (qm p) (qA p))) (fun i => rho i * (a_z u i - a_z o i))).
      rewrite <- rdot_mv_adj, rdot_def. apply rsum_ext. intros i Hi. rewrite stacked_mv by auto.
      f_equal. unfold stackv, d. destruct (Nat.ltb i (qm p)); [apply rmv_minus|reflexivity]. }
  assert (Hq : 0 <= qf n (qH p) d) by apply Hpsd.
  set (B := rsum mn (fun i => (a_y u i - a_y o i) * (a_z u i - a_z o i))).
  assert (Hmain : rsum n (fun j => sigma s * ((a_x u j - a_x o j) * (a_x u j - xs j)))
     + rsum mn (fun i => rho i * ((a_z u i - a_z o i) * (a_z u i - stackv p xs i)))
     + rsum mn (fun i => / rho i * ((a_y u i - a_y o i) * (a_y u i - ys i))) <= - B).
  { assert (Hs : rsum mn (fun i => rho i * ((a_z u i - a_z o i) * (a_z u i - stackv p xs i)))
       + rsum mn (fun i => / rho i * ((a_y u i - a_y o i) * (a_y u i - ys i))) + B <=
       rsum mn (fun i => (a_y u i - ys i) * (stackv p (a_x u) i - stackv p xs i)) +
       rsum mn (fun i => rho i * (a_z u i - a_z o i) * (stackv p (a_x u) i - stackv p xs i))).
    { unfold B. rewrite <- !rsum_plus. apply rsum_le. intros i Hi.
      destruct (Hrho i Hi) as [Hp _]. destruct (step_normal i Hi) as [Hb1 Hs1].
      destruct (HKS i Hi) as [Hbs Hss].
      assert (M1 := sign_monotone _ _ _ _ _ _ Hb1 Hbs Hs1 Hss).
      assert (Ew : stackv p (a_x u) i = a_z u i + / rho i * (a_y u i - a_y o i)).
      { rewrite (step_y i Hi). field. lra. }
      rewrite Ew.
      replace (rho i * (a_z u i - a_z o i) * (a_z u i + / rho i * (a_y u i - a_y o i) - stackv p xs i)) with
        (rho i * ((a_z u i - a_z o i) * (a_z u i - stackv p xs i)) + (a_y u i - a_y o i) * (a_z u i - a_z o i)) by (field; lra).
      nra. }
    lra. }
  assert (P1 := wsq_polar n (fun _ => sigma s) (a_x o) (a_x u) xs).
  assert (P2 := wsq_polar mn rho (a_z o) (a_z u) (stackv p xs)).
  assert (P3 := wsq_polar mn (fun i => / rho i) (a_y o) (a_y u) ys).
  assert (HB : (c - 1) * dist2 s p rho (a_x u) (a_z u) (a_y u) (a_x o) (a_z o) (a_y o) <= 2 * B).
  { destruct HN as [->|[-> HN]].
    - (* |2 dy dz| <= rho dz^2 + dy^2 / rho *)
      assert (0 <= wsq n (fun _ => sigma s) (fun j => a_x u j - a_x o j)) by (apply wsq_nonneg; intros; lra).
      assert (0 <= wsq mn rho (fun i => a_z u i - a_z o i) + wsq mn (fun i => / rho i) (fun i => a_y u i - a_y o i) + 2 * B).
      { unfold wsq, B. rewrite <- rsum_scal, <- !rsum_plus. apply rsum_nonneg. intros i Hi.
        destruct (Hrho i Hi) as [Hp _]. assert (0 < / rho i) by (apply Rinv_0_lt_compat; auto).
        set (dz := a_z u i - a_z o i). set (dy := a_y u i - a_y o i).
        replace (rho i * (dz * dz) + / rho i * (dy * dy) + 2 * (dy * dz)) with (/ rho i * ((rho i * dz + dy) * (rho i * dz + dy))) by (field; lra).
        apply Rmult_le_pos; [lra|apply Rle_0_sqr]. }
      unfold dist2. lra.
    - assert (0 <= B); [|lra]. apply rsum_nonneg. intros i Hi.
      destruct (step_normal i Hi) as [Hb1 Hs1]. destruct (HN i Hi) as [Hb0 Hs0].
      apply (sign_monotone _ _ _ _ _ _ Hb1 Hb0 Hs1 Hs0). }
  unfold dist2 in *. cbv beta in *. lra.
Qed.

(** a step shorter than the threshold gives residuals below [e] *)
Lemma step_small : forall e rlo rhi M tau delta, 0 < e -> 0 < rlo -> 0 <= M ->
  (forall i, (i < mn)%nat -> rlo <= rho i <= rhi) ->
  (forall j, (j < n)%nat -> rsum mn (fun i => Rabs (stacked (qm p) (qA p) i j)) <= M) ->
  0 < tau -> tau * (1 + M) <= e -> delta <= rlo * (e * e) -> sigma s * delta <= tau * tau -> rhi * delta <= tau * tau ->
  0 <= delta ->
  dist2 s p rho (a_x u) (a_z u) (a_y u) (a_x o) (a_z o) (a_y o) <= delta ->
  (forall i, (i < qm p)%nat -> Rabs (rmv n (qA p) (a_x u) i - a_z u i) <= e) /\
  (forall j, (j < n)%nat -> Rabs (a_x u j - a_z u (qm p + j)%nat) <= e) /\
  (forall j, (j < n)%nat -> Rabs (lag_grad p (a_x u) (a_y u) j) <= e).
Proof.
  intros e rlo rhi M tau delta He Hlo HM Hr HMj Ht Hte Hd1 Hd2 Hd3 Hd0 HD.
  assert (N1 : 0 <= wsq n (fun _ => sigma s) (fun j => a_x u j - a_x o j)) by (apply wsq_nonneg; intros; lra).
  assert (N2 : 0 <= wsq mn rho (fun i => a_z u i - a_z o i)) by (apply wsq_nonneg; intros i Hi; destruct (Hrho i Hi); lra).
  assert (N3 : 0 <= wsq mn (fun i => / rho i) (fun i => a_y u i - a_y o i)).
  { apply wsq_nonneg. intros i Hi. destruct (Hrho i Hi). left. apply Rinv_0_lt_compat; auto. }
  unfold dist2 in HD.
  assert (Hsq : forall a b, 0 <= b -> a * a <= b * b -> Rabs a <= b).
  { intros a b Hb Hab. apply Rsqr_le_abs_0 in Hab. rewrite (Rabs_right b) in Hab by lra. exact Hab. }
  assert (Hprim : forall i, (i < mn)%nat -> Rabs (stackv p (a_x u) i - a_z u i) <= e).
  { intros i Hi. destruct (Hrho i Hi) as [Hp _]. destruct (Hr i Hi).
    assert (Hdy := wsq_term mn (fun i => / rho i) (fun i => a_y u i - a_y o i) i
      ltac:(intros k Hk; left; apply Rinv_0_lt_compat; apply Hrho; auto) Hi). cbv beta in Hdy.
    rewrite step_y in Hdy by auto.
    set (r := stackv p (a_x u) i - a_z u i) in *.
    replace (/ rho i * ((a_y o i + rho i * r - a_y o i) * (a_y o i + rho i * r - a_y o i))) with (rho i * (r * r)) in Hdy by (field; lra).
    apply Hsq; [lra|]. assert (Hrr : 0 <= r * r) by apply Rle_0_sqr.
    assert (rlo * (r * r) <= rlo * (e * e)) by nra. nra. }
  split; [|split].
  - intros i Hi. specialize (Hprim i ltac:(lia)). unfold stackv in Hprim.
    rewrite (proj2 (Nat.ltb_lt i (qm p))) in Hprim by auto. exact Hprim.
  - intros j Hj. specialize (Hprim (qm p + j)%nat ltac:(lia)). unfold stackv in Hprim.
    destruct (Nat.ltb_spec (qm p + j) (qm p)); [lia|]. replace (qm p + j - qm p)%nat with j in Hprim by lia. exact Hprim.
  - intros j Hj. rewrite step_lag by auto.
    assert (H1 : Rabs (sigma s * (a_x u j - a_x o j)) <= tau).
    { apply Hsq; [lra|].
      assert (Hdx := wsq_term n (fun _ => sigma s) (fun j => a_x u j - a_x o j) j ltac:(intros; lra) Hj). cbv beta in Hdx.
      set (r := a_x u j - a_x o j) in *.
      replace (sigma s * r * (sigma s * r)) with (sigma s * (sigma s * (r * r))) by ring. nra. }
    assert (H2 : forall i, (i < mn)%nat -> Rabs (rho i * (a_z u i - a_z o i)) <= tau).
    { intros i Hi. destruct (Hrho i Hi) as [Hp _]. destruct (Hr i Hi). apply Hsq; [lra|].
      assert (Hdz := wsq_term mn rho (fun i => a_z u i - a_z o i) i ltac:(intros k Hk; left; apply Hrho; auto) Hi). cbv beta in Hdz.
      set (r := a_z u i - a_z o i) in *.
      replace (rho i * r * (rho i * r)) with (rho i * (rho i * (r * r))) by ring.
      assert (rho i * (r * r) <= delta) by lra. nra. }
    assert (H3 : Rabs (rsum mn (fun i => stacked (qm p) (qA p) i j * (rho i * (a_z u i - a_z o i)))) <= tau * M).
    { eapply Rle_trans; [apply rsum_abs|].
      apply Rle_trans with (rsum mn (fun i => tau * Rabs (stacked (qm p) (qA p) i j))).
      - apply rsum_le. intros i Hi. rewrite Rabs_mult. rewrite Rmult_comm.
        apply Rmult_le_compat_r; [apply Rabs_pos|apply H2; auto].
      - rewrite rsum_scal. specialize (HMj j Hj). nra. }
    set (A1 := sigma s * (a_x u j - a_x o j)) in *.
    set (B1 := rsum mn (fun i => stacked (qm p) (qA p) i j * (rho i * (a_z u i - a_z o i)))) in *.
    assert (Rabs (- A1 - B1) <= Rabs A1 + Rabs B1).
    { eapply Rle_trans; [apply Rabs_triang|]. rewrite !Rabs_Ropp. lra. }
    lra.
Qed.
End Step.

(** ** the whole run *)
Section Whole.
Variables (s : qp_settings R) (p : qp_data R) (xg yg : vec R) (ob : admm_obj R) (xs ys : vec R).
Hypothesis Hsym : symmetric (qn p) (qH p).
Hypothesis Hpsd : psd (qn p) (qH p).
Hypothesis Hsig : 0 < sigma s.
Hypothesis Hr0 : 0 < rho0 s.
Hypothesis Hal : alpha s = 1.
Hypothesis Had : adaptive_rho s = false.
Hypothesis HK : kkt_pair p xs ys.
Notation init := (admm_setup full s p xg yg ob).
Notation mn := (qm p + qn p)%nat.

Lemma kkt_consistent : qp_consistent p.
Proof. destruct HK as (_ & [Hfa Hfx] & _). split; intros; eexists; eauto. Qed.

Notation rho_fix := (rho_fix s p).

Lemma body_cont_rho_fix : forall k o o', body s p k o = Cont o' -> a_rho o' = a_rho o.
Proof.
  intros k o o'. unfold admm_body. cbv zeta. rewrite Had.
  destruct (_ && _); [discriminate|]. intros HH; injection HH; intros; subst. destruct (is_check_iter s k); reflexivity.
Qed.

Lemma visits_rho_fix : forall k o, visits (body s p) (max_iter s) init k o -> forall i, (i < mn)%nat -> a_rho_vec o i = rho_fix i.
Proof.
  intros k o Hv i Hi. assert (HI := visits_admm_inv lsolve full _ _ _ _ _ _ _ Hv).
  rewrite (inv_rvec _ _ _ _ HI) by auto. rewrite (inv_ctype _ _ _ _ HI). unfold Admm_SpecR.rho_fix. f_equal.
  clear HI Hi i. induction Hv as [|k o o' Hv IH Hk Hb]; [reflexivity|]. rewrite <- IH. eapply body_cont_rho_fix; eauto.
Qed.

Definition potential (o : admm_obj R) : R := dist2 s p rho_fix (a_x o) (a_z o) (a_y o) xs (stackv p xs) ys.

Lemma dist2_ext : forall r r' x z y x' z' y', (forall i, (i < mn)%nat -> r i = r' i) ->
  dist2 s p r x z y x' z' y' = dist2 s p r' x z y x' z' y'.
Proof.
  intros. unfold dist2, wsq. f_equal; [f_equal|]; apply rsum_ext; intros; rewrite H by auto; reflexivity.
Qed.

Lemma rho_fix_pos : forall i, 0 < rho_fix i.
Proof. intros. unfold Admm_SpecR.rho_fix. apply rho_of_type_pos; auto. Qed.

Lemma potential_nonneg : forall o, 0 <= potential o.
Proof.
  intros. unfold potential, dist2.
  assert (0 <= wsq (qn p) (fun _ => sigma s) (fun j => a_x o j - xs j)) by (apply wsq_nonneg; intros; lra).
  assert (0 <= wsq mn rho_fix (fun i => a_z o i - stackv p xs i)) by (apply wsq_nonneg; intros; left; apply rho_fix_pos).
  assert (0 <= wsq mn (fun i => / rho_fix i) (fun i => a_y o i - ys i)).
  { apply wsq_nonneg; intros; left; apply Rinv_0_lt_compat, rho_fix_pos. }
  lra.
Qed.

Lemma potential_xyz : forall o o', a_x o = a_x o' -> a_y o = a_y o' -> a_z o = a_z o' -> potential o = potential o'.
Proof. intros o o' E1 E2 E3. unfold potential. rewrite E1, E2, E3. reflexivity. Qed.

Lemma visits_monotone : forall k o o', visits (body s p) (max_iter s) init k o -> body s p k o = Cont o' ->
  potential o' <= potential o.
Proof.
  intros k o o' Hv Hb. destruct (body_cont_xyz _ _ _ _ _ Hb) as (Ex & Ey & Ez). rewrite (potential_xyz _ _ Ex Ey Ez).
  assert (H := step_decrease_gen s p o (visits_admm_inv _ _ _ _ _ _ _ _ _ Hv) Hsym Hpsd Hsig Hal kkt_consistent
    (visits_rho_pos _ _ _ _ _ _ _ _ _ Hr0 Hv) xs ys 0 HK (or_introl eq_refl)).
  rewrite !(dist2_ext (a_rho_vec o) rho_fix) in H by (eapply visits_rho_fix; eauto).
  unfold potential. lra.
Qed.

Lemma visits_normal : forall k o, visits (body s p) (max_iter s) init k o -> (2 <= k)%Z -> normal_at p o.
Proof.
  intros k o Hv Hk. inversion Hv as [|k0 o0 o1 Hv0 Hk0 Hb]; subst; [lia|].
  destruct (body_cont_xyz _ _ _ _ _ Hb) as (_ & Ey & Ez). unfold normal_at. rewrite Ey, Ez.
  apply step_normal; [apply kkt_consistent|]. eapply visits_rho_pos; eauto.
Qed.

Notation rho_low := (rho_low s).
Notation rho_high := (rho_high s).
Notation col_mass := (col_mass p).
Definition step_tau : R := eps_abs s / (1 + col_mass).
Definition step_threshold : R := threshold (sigma s) (eps_abs s) s p.

Hypothesis Heps : 0 < eps_abs s.
Hypothesis Hrel : 0 <= eps_rel s.

Lemma col_mass_nonneg : 0 <= col_mass.
Proof. apply rsum_nonneg. intros. apply rsum_nonneg. intros. apply Rabs_pos. Qed.

Lemma rho_fix_range : forall i, rho_low <= rho_fix i <= rho_high.
Proof.
  intros i. unfold Admm_SpecR.rho_fix, Admm_SpecR.rho_low, Admm_SpecR.rho_high. generalize RHO_MIN_pos; intro HP.
  destruct (parse_constraints_bounds p i); unfold rho_of_type, RHO_EQ_FACTOR; rsimp.
  - split; [eapply Rle_trans; [apply Rmin_r|lra]|eapply Rle_trans; [|apply Rmax_r]; lra].
  - split; [eapply Rle_trans; [apply Rmin_r|lra]|eapply Rle_trans; [|apply Rmax_r]; lra].
  - split; [apply Rmin_l|apply Rmax_l].
Qed.

Lemma step_tau_pos : 0 < step_tau.
Proof. unfold step_tau. apply Rdiv_lt_0_compat; auto. generalize col_mass_nonneg; lra. Qed.

Lemma rho_low_pos : 0 < rho_low.
Proof. unfold Admm_SpecR.rho_low. apply Rmin_glb_lt; auto. apply RHO_MIN_pos. Qed.

Lemma step_threshold_pos : 0 < step_threshold.
Proof.
  unfold step_threshold, threshold. cbv zeta. fold step_tau. apply Rmin_glb_lt.
  - apply Rmult_lt_0_compat; [apply rho_low_pos|nra].
  - apply Rdiv_lt_0_compat; [generalize step_tau_pos; nra|]. eapply Rlt_le_trans; [apply Hsig|apply Rmax_l].
Qed.

Lemma check_step_long : forall k o o', visits (body s p) (max_iter s) init k o -> body s p k o = Cont o' ->
  is_check_iter s k = true -> (2 <= k)%Z -> potential o' + step_threshold <= potential o.
Proof.
  intros k o o' Hv Hb Hc Hk. destruct (body_cont_xyz _ _ _ _ _ Hb) as (Ex & Ey & Ez). rewrite (potential_xyz _ _ Ex Ey Ez).
  assert (HI := visits_admm_inv _ _ _ _ _ _ _ _ _ Hv).
  assert (HR := visits_rho_pos _ _ _ _ _ _ _ _ _ Hr0 Hv).
  assert (HF := visits_rho_fix _ _ Hv).
  assert (H := step_decrease_gen s p o HI Hsym Hpsd Hsig Hal kkt_consistent
    HR xs ys 1 HK (or_intror (conj eq_refl (visits_normal _ _ Hv Hk)))).
  destruct (Rle_dec (dist2 s p (a_rho_vec o) (a_x (admm_update lsolve s p o)) (a_z (admm_update lsolve s p o))
     (a_y (admm_update lsolve s p o)) (a_x o) (a_z o) (a_y o)) step_threshold) as [Hle|Hgt].
  - exfalso. assert (HT := step_tau_pos). assert (HM := col_mass_nonneg).
    assert (Hmx : 0 < Rmax (sigma s) rho_high) by (eapply Rlt_le_trans; [apply Hsig|apply Rmax_l]).
    assert (Hdiv : Rmax (sigma s) rho_high * step_threshold <= step_tau * step_tau).
    { apply Rle_trans with (Rmax (sigma s) rho_high * (step_tau * step_tau / Rmax (sigma s) rho_high)).
      - apply Rmult_le_compat_l; [lra|apply Rmin_r].
      - right. field. lra. }
    assert (HTP := step_threshold_pos).
    destruct (step_small s p o HI Hsym Hpsd Hsig Hal HR (eps_abs s) rho_low rho_high col_mass step_tau step_threshold) as (S1 & S2 & S3); auto; try lra.
    + apply rho_low_pos.
    + intros i Hi. rewrite HF by auto. apply rho_fix_range.
    + intros j Hj. unfold col_mass.
      apply (rsum_nonneg_term (qn p) (fun j => rsum mn (fun i => Rabs (stacked (qm p) (qA p) i j)))); auto.
      intros. apply rsum_nonneg. intros. apply Rabs_pos.
    + unfold step_tau. right. field. lra.
    + apply Rmin_l.
    + eapply Rle_trans; [|apply Hdiv]. apply Rmult_le_compat_r; [lra|apply Rmax_l].
    + eapply Rle_trans; [|apply Hdiv]. apply Rmult_le_compat_r; [lra|apply Rmax_r].
    + destruct (body_check_stop s p k o Hc) as [o2 E]; [|congruence].
      apply terminates_small; auto; lra.
  - rewrite !(dist2_ext (a_rho_vec o) rho_fix) in H by auto.
    rewrite (dist2_ext (a_rho_vec o) rho_fix) in Hgt by auto.
    unfold potential. lra.
Qed.

Hypothesis Hct : check_termination s <> 0%Z.
Let ct := Z.abs (check_termination s).

Lemma check_iff : forall k, is_check_iter s k = true <-> (Z.rem k ct = 0)%Z.
Proof.
  intros. rewrite is_check_mult. unfold ct. destruct (Z.abs_eq_or_opp (check_termination s)) as [->| ->]; [tauto|]. rewrite Z.rem_opp_r by auto. tauto.
Qed.

Lemma visits_budget : forall k o, visits (body s p) (max_iter s) init k o ->
  potential o <= potential init /\
  potential o + step_threshold * (IZR ((k - 1) / ct) - 1) <= potential init.
Proof.
  assert (Hctp : (0 < ct)%Z) by (unfold ct; lia). assert (HTP := step_threshold_pos).
  intros k o Hv. induction Hv as [|k o o' Hv [IH1 IH2] Hk Hb].
  - replace ((1 - 1) / ct)%Z with 0%Z by (rewrite Z.div_0_l; lia). lra.
  - assert (Hm := visits_monotone _ _ _ Hv Hb). split; [lra|].
    assert (Hk1 := proj1 (visits_range _ _ _ _ _ Hv)).
    replace (k + 1 - 1)%Z with k by lia.
    destruct (is_check_iter s k) eqn:Hc.
    + destruct (Z_le_gt_dec 2 k) as [H2|H2].
      * assert (Hd := check_step_long _ _ _ Hv Hb Hc H2). apply check_iff in Hc.
        assert (E : ((k - 1) / ct + 1 >= k / ct)%Z).
        { replace ((k - 1) / ct + 1)%Z with ((k - 1 + 1 * ct) / ct)%Z by (rewrite Z.div_add; lia).
          apply Z.le_ge, Z.div_le_mono; lia. }
        assert (IZR (k / ct) <= IZR ((k - 1) / ct) + 1) by (rewrite <- plus_IZR; apply IZR_le; lia). nra.
      * assert (k = 1)%Z by lia. subst k.
        assert (IZR (1 / ct) <= 1). { apply IZR_le. apply Z.div_le_upper_bound; lia. } nra.
    + assert (E : (k / ct = (k - 1) / ct)%Z).
      { assert (Hn : (k mod ct <> 0)%Z).
        { intro E. rewrite <- Z.rem_mod_nonneg in E by lia. apply check_iff in E. congruence. }
        assert (D := Z.div_mod k ct ltac:(lia)). assert (B := Z.mod_pos_bound k ct Hctp).
        apply Z.div_unique with (r := (k mod ct - 1)%Z); lia. }
      rewrite E. lra.
Qed.

Lemma solved_eventually : forall N : nat, potential init < INR N * step_threshold ->
  (ct * (Z.of_nat N + 1) <= max_iter s)%Z ->
  exists o', solve s p xg yg ob = Some o' /\ a_status o' = SOLVED /\ (a_iter o' <= ct * (Z.of_nat N + 1))%Z.
Proof.
  intros N HN Hmx. assert (Hctp : (0 < ct)%Z) by (unfold ct; lia). assert (HTP := step_threshold_pos).
  assert (HB : forall k o, visits (body s p) (max_iter s) init k o -> (k <= ct * (Z.of_nat N + 1))%Z).
  { intros k o Hv. destruct (visits_budget _ _ Hv) as [_ H2]. assert (H0 := potential_nonneg o).
    destruct (Z_le_gt_dec k (ct * (Z.of_nat N + 1))); auto. exfalso.
    assert (Z.of_nat N + 1 <= (k - 1) / ct)%Z by (apply Z.div_le_lower_bound; lia).
    assert (IZR (Z.of_nat N + 1) <= IZR ((k - 1) / ct)) by (apply IZR_le; auto).
    rewrite plus_IZR, <- INR_IZR_INZ in H1. nra. }
  destruct (solve_defined lsolve full s p xg yg ob (or_introl Had)) as [o' Ho']. exists o'. split; auto.
  destruct (solve_cases _ _ _ _ _ _ _ _ Ho') as [[k [o1 [Hv [Hk ->]]]]|[k [o1 [o2 [Hv [Hk [Hb ->]]]]]]].
  - apply HB in Hv. lia.
  - apply body_stop in Hb. destruct Hb as (_ & Hs & _). split; auto. simpl. eapply HB; eauto.
Qed.
End Whole.
End Run.
