(** SQP with exact linearisation: status, local quadratic convergence, and the Maratos effect (property C98). *)
Require Import Reals Lra Lia List ZArith Bool Psatz.
Require Import Verif.Scal Verif.RSum Verif.RNorm Verif.Qp_Model Verif.Qp_Spec Verif.Sqp_Model Verif.Sqp_Spec Verif.Sqp_Proofs
  Verif.Sqp_ProofsR Verif.Sqp_Example Verif.SqpGlob_Spec Verif.SqpExact_Model Verif.SqpExact_Spec Verif.SqpExact_Proofs Verif.SqpTaylor_Proofs.
Import ListNotations.
Local Open Scope R_scope.

(** C98: as for the base class, SOLVED is reported exactly when the termination test passed at the last iterate, otherwise
    all iterations were used; one iterate and one subproblem are recorded per iteration.  Any arithmetic. *)
Theorem C98_status : forall {T : Type} {ST : Scalar T} (P : problem T) st Q W hreg pcc pcs pcu qps qpm s,
  let r := exact_solve P st Q W hreg pcc pcs pcu qps qpm s in
  (1 <= m_iter r <= Z.max 1 (smax_iter st))%Z /\
  Z.of_nat (length (seen r)) = (m_iter r + 1)%Z /\ Z.of_nat (length (steps r)) = m_iter r /\
  m_max_violation r = max_violation P (m_x r) /\
  (m_status r = SqpSolved <-> termination st (m_primal_norm r) (m_dual_norm r) (m_max_violation r) = true) /\
  (m_status r <> SqpSolved -> m_status r = SqpMaxIter /\ m_iter r = Z.max 1 (smax_iter st)).
Proof.
  intros. unfold r. destruct (exact_solve_result P st Q W hreg pcc pcs pcu qps qpm s) as (s' & (G1 & G2 & G3 & G4 & G5 & G6 & G7) & Hi & [(Ht & ->)|(Hm & Ht & ->)]).
  - cbn [set_status m_iter seen steps m_status m_primal_norm m_dual_norm m_max_violation m_x]. split; [exact Hi|]. split; [exact G3|]. split; [exact G4|].
    split; [exact G7|]. split; [split; auto|]. intros X. exfalso. apply X. reflexivity.
  - split; [lia|]. split; [exact G3|]. split; [exact G4|]. split; [exact G7|]. split.
    + rewrite G2. split; [discriminate|]. intros X. unfold terminated in Ht. congruence.
    + intros _. split; [exact G2|lia].
Qed.
Print Assumptions C98_status.

(** C98, a sufficient condition for the Newton region: the Hessian is Lipschitz *)
Theorem C98_lipschitz_hessian_region : forall (P : problem R) grad jac hess mm L rad xs,
  linear_constraints P jac -> cost_derivative P grad -> reads_entries P ->
  gradient_derivative P grad hess -> gradient_reads_entries P grad ->
  lipschitz_hessian P hess L xs rad -> 0 < L ->
  (forall x, near P xs rad x -> forall v, mm * rdot (nx P) v v <= qf (nx P) (hess x) v) ->
  newton_region P grad hess mm L xs rad.
Proof. intros. eapply taylor_region; eauto. Qed.
Print Assumptions C98_lipschitz_hessian_region.

Section Solver.
Variable P : problem R.
Variable st : sqp_settings R.
Variables Q W : Type.
Variable hreg : mat R -> mat R.
Variable pcc : W -> qp_data R -> W * qp_data R.
Variable pcs : W -> vec R * vec R -> vec R * vec R.
Variable pcu : W -> qp_data R -> qp_data R.
Variable qps : Q -> qp_data R -> Q * (vec R * vec R * Z).
Variable qpm : Q -> Q.
Notation solve := (exact_solve P st Q W hreg pcc pcs pcu qps qpm).

(** C98: on problems with linear constraints, from a start in the Newton region of a KKT point, every iterate is feasible and
    stays in the region, the distance to the KKT point never grows and is squared in every iteration (until it is so small
    that the EPSILON in the penalty term decides the line search); after k iterations it is
    (C dist(start))^(2^k) / C or blurred *)
Theorem C98_quadratic_convergence : forall grad jac hess mm L xs ls rad mu s,
  newton_setting P st Q W hreg pcc pcs pcu qps qpm grad jac hess mm L xs ls rad mu s ->
  let r := solve s in let C := newton_factor mm L in let blur := newton_blur (eta st) mm mu in
  Forall (fun e => near P xs rad (fst e)) (seen r) /\
  chain (fun e' e => newton_contracts (nx P) C blur xs (fst e') (fst e)) (seen r) /\
  (C * edist (nx P) (m_x r) xs <= (C * edist (nx P) (m_x s) xs) ^ (2 ^ length (steps r)) \/
   edist (nx P) (m_x r) xs * edist (nx P) (m_x r) xs <= blur).
Proof.
  intros grad jac hess mm L xs ls rad mu s (H1 & H2 & H3 & H4 & H5 & H6 & H7 & H8 & H9 & H10 & H11 & H12 & H13 & H14 & H15).
  destruct (local_run P grad jac hess mm L rad xs ls H1 H3 H4 H5 H7 H8 st Q W hreg pcc pcs pcu qps qpm H12 H2 H6 H9 H10 H11 mu s H13 H14 H15) as [I1 I2 I3 I4 I5].
  cbv zeta. auto.
Qed.
End Solver.
Print Assumptions C98_quadratic_convergence.

(** ** example: minimise x^2 + x^4/12 for x >= 1/4; the solution is the bound *)
Definition nw_cost (x : vec R) : R := x O * x O + x O * x O * (x O * x O) / 12.
Definition nw_grad (x : vec R) : vec R := fun _ => 2 * x O + x O * x O * x O / 3.
Definition nw_hess (x : vec R) : mat R := fun _ _ => 2 + x O * x O.
Definition nw_P : problem R :=
  {| nx := 1; ne := 0; ni := 0; p_cost := nw_cost; p_eq := fun _ _ => 0; p_ineq := fun _ _ => 0;
     p_lag_full := fun x l => (nw_grad x, nw_hess x, nw_grad x, fun i => if Nat.ltb i 0 then 0 else 0, fun _ _ => 0);
     p_lag := fun x l => (nw_grad x, nw_grad x, fun i => if Nat.ltb i 0 then 0 else 0, fun _ _ => 0);
     lbx := fun _ => Fin (/ 4); ubx := fun _ => PInf; lbg := fun _ => MInf; ubg := fun _ => PInf |}.
(** minimise 1/2 H p^2 + h p for p >= l *)
Definition nw_qp (q : unit) (d : qp_data R) : unit * (vec R * vec R * Z) :=
  let p := match qxlb d O with Fin l => Rmax (- qh d O / qH d O O) l | _ => 0 end in
  (q, (fun _ => p, fun _ => - (qH d O O * p + qh d O), 1%Z)).
Definition nw_set : sqp_settings R := mkSqpSettings (/ 2) (/ 4) (/ 2) (/ 10) (/ 10) 4000 100 false.
Definition nw_start : @sqp_state R unit unit :=
  mkSqp (fun _ => 3 / 4) (fun _ => 0) (fun _ => 0) (fun _ _ => 1) (fun _ => 0) 0 0 (Fin 0) 0 SqpMaxIter 0 0 tt tt [] [] [].
Definition nw_solve s := exact_solve nw_P nw_set unit unit (fun H => H) ex_pc (fun _ r => r) (fun _ d => d) nw_qp (fun q => q) s.
Definition nw_xs : vec R := fun _ => / 4.
Definition nw_ls : vec R := fun _ => - (/ 2 + / 192).

Lemma one_rsum f : rsum 1 f = f O. Proof. unfold rsum, ssum. simpl. ring. Qed.
Lemma one_dot u v : rdot 1 u v = u O * v O. Proof. rewrite rdot_def. apply one_rsum. Qed.
Lemma one_norm v : enorm 1 v = Rabs (v O). Proof. unfold enorm. rewrite one_dot. apply (sqrt_Rsqr_abs (v O)). Qed.
Lemma one_mv A x i : rmv 1 A x i = A i O * x O. Proof. rewrite rmv_def. apply one_rsum. Qed.
Lemma nw_near rad x : near nw_P nw_xs rad x -> / 4 <= x O <= / 4 + rad.
Proof.
  intros [(_ & _ & F) D]. specialize (F O (le_n 1)). cbn in F. destruct F as [F _]. unfold edist in D. change (nx nw_P) with 1%nat in D. rewrite one_norm in D.
  unfold nw_xs in D. assert (A := Rle_abs (x O - / 4)). simpl in F. split; lra.
Qed.
Lemma nw_region : newton_region nw_P nw_grad nw_hess 2 (3 / 2) nw_xs (/ 2).
Proof.
  apply (C98_lipschitz_hessian_region nw_P nw_grad (fun _ _ _ => 0) nw_hess 2 (3 / 2) (/ 2) nw_xs).
  - intros r Hr. cbn in Hr. lia.
  - intros x d t. change (nx nw_P) with 1%nat. rewrite one_dot. cbn [p_cost nw_P]. unfold nw_cost, nw_grad.
    set (a := x O). set (b := d O).
    assert (D0 : derivable_pt_lim (fun u => a + u * b) t (0 + (1 * b + t * 0))).
    { apply derivable_pt_lim_plus; [apply derivable_pt_lim_const|]. apply (derivable_pt_lim_mult id (fun _ => b)); [apply derivable_pt_lim_id|apply derivable_pt_lim_const]. }
    assert (D1 := derivable_pt_lim_mult _ _ t _ _ D0 D0). assert (D2 := derivable_pt_lim_mult _ _ t _ _ D1 D1).
    assert (D3 := derivable_pt_lim_plus _ _ t _ _ D1 (derivable_pt_lim_scal _ (/ 12) t _ D2)).
    unfold plus_fct, mult_fct, mult_real_fct in D3.
    eapply derivable_pt_lim_ext; [|match type of D3 with derivable_pt_lim _ _ ?l => replace ((2 * (a + t * b) + (a + t * b) * (a + t * b) * (a + t * b) / 3) * b) with l by field end; exact D3].
    intros u. unfold a, b. field.
  - intros x y E. cbn. unfold nw_cost. rewrite (E O) by (cbn; lia). reflexivity.
  - intros x d w t. change (nx nw_P) with 1%nat. rewrite one_dot, one_mv. unfold nw_hess, nw_grad.
    set (a := x O). set (b := d O). set (c := w O).
    assert (D0 : derivable_pt_lim (fun u => a + u * b) t (0 + (1 * b + t * 0))).
    { apply derivable_pt_lim_plus; [apply derivable_pt_lim_const|]. apply (derivable_pt_lim_mult id (fun _ => b)); [apply derivable_pt_lim_id|apply derivable_pt_lim_const]. }
    assert (D1 := derivable_pt_lim_mult _ _ t _ _ D0 D0). assert (D2 := derivable_pt_lim_mult _ _ t _ _ D1 D0).
    assert (D3 := derivable_pt_lim_scal _ c t _ (derivable_pt_lim_plus _ _ t _ _ (derivable_pt_lim_scal _ 2 t _ D0) (derivable_pt_lim_scal _ (/ 3) t _ D2))).
    unfold plus_fct, mult_fct, mult_real_fct in D3.
    eapply derivable_pt_lim_ext; [|match type of D3 with derivable_pt_lim _ _ ?l => replace ((2 + (a + t * b) * (a + t * b)) * b * c) with l by field end; exact D3].
    intros u. rewrite one_dot. unfold a, b, c. field.
  - intros x y E j Hj. unfold nw_grad. rewrite (E O) by (cbn; lia). reflexivity.
  - intros x y v w Nx Ny. apply nw_near in Nx. apply nw_near in Ny. change (nx nw_P) with 1%nat. unfold edist. rewrite one_dot, !one_mv, !one_norm. unfold nw_hess.
    replace (((2 + y O * y O) * v O - (2 + x O * x O) * v O) * w O) with ((y O - x O) * (y O + x O) * v O * w O) by ring.
    eapply Rle_trans; [apply Rle_abs|]. rewrite !Rabs_mult. apply Rmult_le_compat_r; [apply Rabs_pos|]. apply Rmult_le_compat_r; [apply Rabs_pos|].
    rewrite Rmult_comm. apply Rmult_le_compat_r; [apply Rabs_pos|]. rewrite Rabs_right; lra.
  - lra.
  - intros x _ v. change (nx nw_P) with 1%nat. unfold qf. rewrite !one_dot, one_mv. unfold nw_hess. assert (A := Rle_0_sqr (x O * v O)). unfold Rsqr in A. lra.
Qed.

Notation nw_step := (sqp_step nw_P nw_set unit unit ex_pc (fun _ r => r) (fun _ d => d) nw_qp).
Lemma nw_steps : Forall exact_step (steps (nw_solve nw_start)) /\ Forall (multipliers_below 1) (steps (nw_solve nw_start)).
Proof.
  assert (Ok : forall x, let d := sub_qp nw_P (nw_hess x) (nw_grad x) (fun _ _ => 0) (fun _ => 0) x in
     let r := snd (nw_qp tt d) in exact_step (d, fst r)).
  { intros x. cbv zeta. assert (H0 : 0 < nw_hess x O O) by (unfold nw_hess; nra). split.
    - intros w (i & Hi & Hw). cbn in Hi. assert (i = O) by lia. subst i. cbn [fst sub_qp qn qH nw_P nx]. unfold qf. rewrite one_dot, one_mv.
      assert (W := Rsqr_pos_lt _ Hw). unfold Rsqr in W. nra.
    - cbn [fst snd nw_qp]. set (g := nw_grad x). set (H := nw_hess x) in *. unfold kkt_pair, qp_feasible. cbn [sub_qp qn qm qA qAlb qAub qxlb qxub qh qH nw_P nx ne ni Nat.add lbx ubx].
      split; [|split; [split|split]].
      + intros j Hj. assert (j = O) by lia. subst j. unfold lag_grad. cbn [sub_qp qn qm qA qH qh nw_P nx ne ni Nat.add]. rewrite one_mv. cbn. ring.
      + intros i Hi. lia.
      + intros j Hj. assert (j = O) by lia. subst j. split; [|exact I]. simpl. apply Rmax_r.
      + intros i Hi. lia.
      + intros j Hj. assert (j = O) by lia. subst j. simpl. set (l := / 4 - x O). split.
        * intros Hp. exfalso. assert (M := Rmax_l (- g O / H O O) l). apply (Rmult_le_compat_l (H O O)) in M; [|lra].
          replace (H O O * (- g O / H O O)) with (- g O) in M by (field; lra). lra.
        * intros Hn. f_equal. destruct (Rle_dec (- g O / H O O) l) as [Hl|Hl]; [rewrite Rmax_right; auto|].
          exfalso. rewrite Rmax_left in Hn by lra. replace (H O O * (- g O / H O O)) with (- g O) in Hn by (field; lra). lra. }
  pose (J := fun s : @sqp_state R unit unit => 0 <= m_x s O /\ Forall exact_step (steps s) /\ Forall (multipliers_below 1) (steps s)).
  enough (X : J (nw_solve nw_start)) by apply X.
  unfold nw_solve. apply exact_solve_inv0; unfold J.
  - intros s s' (E1 & _ & _ & _ & _ & _ & _ & _ & _ & E2). rewrite E1, E2. auto.
  - intros s mark lagg H h A b E (X0 & HF & HM). cbn [nw_P p_lag_full] in E. injection E as <- <- <- <- <-. cbv beta.
    set (d := sub_qp nw_P (nw_hess (m_x s)) (nw_grad (m_x s)) (fun _ _ => 0) (fun _ => 0) (m_x s)).
    assert (Es : steps (nw_step mark s (nw_grad (m_x s)) (nw_hess (m_x s)) (nw_grad (m_x s)) (fun _ _ => 0) (fun _ => 0)) = (d, fst (snd (nw_qp (m_q s) d))) :: steps s).
    { unfold sqp_step, ex_pc. fold d. destruct (nw_qp (m_q s) d) as [q [[p0 l0] it]].
      match goal with |- context [step_size_selection ?a1 ?a2 ?a3 ?a4 ?a5 ?a6 ?a7] => destruct (step_size_selection a1 a2 a3 a4 a5 a6 a7) as [[al c] ev] end. reflexivity. }
    destruct (step_spec nw_P nw_set unit unit ex_pc (fun _ r => r) (fun _ d => d) nw_qp mark s (nw_grad (m_x s)) (nw_hess (m_x s)) (nw_grad (m_x s)) (fun _ _ => 0) (fun _ => 0))
      as (p & lk & d2 & i & _ & _ & _ & _ & Hx & _ & _ & _ & _ & _ & _ & _ & _ & _ & _ & Hst).
    set (s' := nw_step mark s (nw_grad (m_x s)) (nw_hess (m_x s)) (nw_grad (m_x s)) (fun _ _ => 0) (fun _ => 0)) in *.
    assert (Ep : p = fst (fst (snd (nw_qp (m_q s) d)))) by (rewrite Es in Hst; injection Hst; intros; subst; reflexivity).
    split; [|split].
    + rewrite Hx, tab_spec by (cbn; lia). rewrite Ep. cbn [nw_qp fst snd]. assert (Rg := spow_range (tau nw_set) i ltac:(cbn; lra)).
      set (a := spow (tau nw_set) i) in *. change (0 <= m_x s O + a * Rmax (- qh d O / qH d O O) (/ 4 - m_x s O)).
      assert (M := Rmax_r (- qh d O / qH d O O) (/ 4 - m_x s O)). set (v := Rmax (- qh d O / qH d O O) (/ 4 - m_x s O)) in *.
      assert (a * (/ 4 - m_x s O) <= a * v) by (apply Rmult_le_compat_l; lra). nra.
    + rewrite Es. constructor; auto. specialize (Ok (m_x s)). cbv zeta in Ok. fold d in Ok. destruct (m_q s). exact Ok.
    + rewrite Es. constructor; auto. unfold multipliers_below. cbn [fst snd nw_qp]. change (qm d + qn d)%nat with 1%nat. apply rnorminf_le; [lra|].
      intros j Hj. cbn [d sub_qp qxlb qH qh nw_P lbx ext_sub]. change (@ssub R R_scalar) with Rminus. unfold nw_hess, nw_grad. set (x := m_x s O) in *.
      assert (H0 : 0 < 2 + x * x) by nra. set (g := 2 * x + x * x * x / 3). set (HH := 2 + x * x) in *.
      destruct (Rle_dec (- g / HH) (/ 4 - x)) as [Hl|Hl].
      * rewrite Rmax_right by auto. assert (B : 0 <= HH * (/ 4 - x) + g).
        { apply (Rmult_le_compat_l HH) in Hl; [|lra]. replace (HH * (- g / HH)) with (- g) in Hl by (field; lra). lra. }
        rewrite Rabs_Ropp, Rabs_right by lra. unfold HH, g. 
        assert (x * x * (3 - 8 * x) <= 6); [|lra]. destruct (Rle_dec x 1); [|nra]. assert (x * x <= 1) by nra. nra.
      * rewrite Rmax_left by lra. replace (HH * (- g / HH) + g) with 0 by (field; lra). rewrite Ropp_0, Rabs_R0. lra.
  - cbn. split; [lra|]. split; constructor.
Qed.
Lemma nw_setting : newton_setting nw_P nw_set unit unit (fun H => H) ex_pc (fun _ r => r) (fun _ d => d) nw_qp (fun q => q)
  nw_grad (fun _ _ _ => 0) nw_hess 2 (3 / 2) nw_xs nw_ls (/ 2) 1 nw_start.
Proof.
  split; [|split; [|split; [|split; [|split; [exact nw_region|split; [|split; [lra|split; [lra|split; [cbn; lra|split; [cbn; lra|split; [cbn; lra|split; [|split; [|split; apply nw_steps]]]]]]]]]]]]].
  - split; intros k Hk; cbn in Hk; [lia|]. cbn. unfold lower_proper, upper_proper. split; discriminate.
  - split; intros x lam; [exists (nw_grad x), (nw_hess x)|exists (nw_grad x)]; reflexivity.
  - intros r Hr. cbn in Hr. lia.
  - split; [|split; [|split]].
    + split; [intros i Hi; cbn in Hi; lia|split; [intros i Hi; cbn in Hi; lia|]]. intros j Hj. split; simpl; auto. unfold nw_xs. lra.
    + intros j Hj. cbn. unfold nw_grad, nw_xs, nw_ls. lra.
    + intros i Hi. cbn in Hi. lia.
    + intros j Hj. split; [unfold nw_ls; lra|]. intros _. reflexivity.
  - intros x lam lagg H h b A _ E i j _ _. cbn [nw_P p_lag_full] in E. injection E as <- <- _ _ _. reflexivity.
  - intros w d w' d1 _ _ E j _. injection E as <- <-. reflexivity.
  - split.
    + split; [intros i Hi; cbn in Hi; lia|split; [intros i Hi; cbn in Hi; lia|]]. intros j Hj. cbn. split; simpl; auto. lra.
    + unfold edist. change (nx nw_P) with 1%nat. rewrite one_norm. cbn. unfold nw_xs. rewrite Rabs_right; lra.
Qed.
(** the distance shrinks like (3/16)^(2^k), or is below 3.3e-8 *)
Example C98_example : let r := nw_solve nw_start in
  3 / 8 * Rabs (m_x r O - / 4) <= (3 / 16) ^ (2 ^ length (steps r)) \/
  (m_x r O - / 4) * (m_x r O - / 4) <= 4 * sqp_eps.
Proof.
  cbv zeta. destruct (C98_quadratic_convergence _ _ _ _ _ _ _ _ _ _ _ _ _ _ _ _ _ _ _ _ nw_setting) as (_ & _ & X). fold (nw_solve nw_start) in X.
  unfold edist in X. change (nx nw_P) with 1%nat in X. rewrite !one_norm in X. unfold newton_factor, newton_blur in X. cbn [eta nw_set m_x nw_start nw_xs] in X.
  unfold nw_xs in X. rewrite (Rabs_right (3 / 4 - / 4)) in X by lra. replace (3 / 2 / (2 * 2) * (3 / 4 - / 4)) with (3 / 16) in X by field.
  replace (3 / 2 / (2 * 2)) with (3 / 8) in X by field. destruct X as [X|X]; [left; exact X|right].
  rewrite <- Rabs_mult, Rabs_right in X by (apply Rle_ge, Rle_0_sqr). eapply Rle_trans; [exact X|]. right. field.
Qed.

(** ** nonlinear constraints: the Maratos effect *)
(** minimise 2 (x^2 + y^2 - 1) - x  subject to  x^2 + y^2 - 1 = 0; solution (1, 0), multiplier -3/2 *)
Definition mar_con (x : vec R) : R := x 0%nat * x 0%nat + x 1%nat * x 1%nat - 1.
Definition mar_grad (x : vec R) : vec R := fun j => match j with O => 4 * x 0%nat - 1 | _ => 4 * x 1%nat end.
Definition mar_jac (x : vec R) : mat R := fun _ j => match j with O => 2 * x 0%nat | _ => 2 * x 1%nat end.
(** Hessian of cost + lam * constraint *)
Definition mar_hess (lam : R) : mat R := fun i j => if Nat.eqb i j then 4 + 2 * lam else 0.
Definition mar_P : problem R :=
  {| nx := 2; ne := 1; ni := 0; p_cost := fun x => 2 * mar_con x - x 0%nat; p_eq := fun x _ => mar_con x; p_ineq := fun _ _ => 0;
     p_lag_full := fun x l => (fun j => mar_grad x j + mar_jac x O j * l O, mar_hess (l O), mar_grad x, fun i => if Nat.ltb i 1 then mar_con x else 0, mar_jac x);
     p_lag := fun x l => (fun j => mar_grad x j + mar_jac x O j * l O, mar_grad x, fun i => if Nat.ltb i 1 then mar_con x else 0, mar_jac x);
     lbx := fun _ => MInf; ubx := fun _ => PInf; lbg := fun _ => MInf; ubg := fun _ => PInf |}.
Definition mar_xs : vec R := fun j => match j with O => 1 | _ => 0 end.
Definition mar_ls : vec R := fun i => match i with O => - (3 / 2) | _ => 0 end.

Lemma two_rsum f : rsum 2 f = f O + f 1%nat. Proof. unfold rsum, ssum. simpl. ring. Qed.
Lemma two_dot u v : rdot 2 u v = u O * v O + u 1%nat * v 1%nat. Proof. rewrite rdot_def. apply two_rsum. Qed.
Lemma two_mv A x i : rmv 2 A x i = A i O * x O + A i 1%nat * x 1%nat. Proof. rewrite rmv_def. apply two_rsum. Qed.
Lemma mar_hess_form v : qf 2 (mar_hess (- (3 / 2))) v = rdot 2 v v.
Proof. unfold qf. rewrite !two_dot, !two_mv. unfold mar_hess. simpl. field. Qed.
Lemma mar_posdef : posdef 2 (mar_hess (- (3 / 2))).
Proof.
  intros v (i & Hi & Hv). rewrite mar_hess_form, rdot_def.
  eapply Rlt_le_trans; [|apply (rsum_nonneg_term 2 (fun j => v j * v j) i (fun j _ => Rle_0_sqr (v j)) Hi)]. exact (Rsqr_pos_lt _ Hv).
Qed.
Lemma mar_proper : proper_bounds mar_P.
Proof. split; intros k Hk; cbn in *; [lia|]. unfold lower_proper, upper_proper. split; discriminate. Qed.
Lemma mar_kkt : nlp_kkt mar_P (mar_grad mar_xs) (mar_jac mar_xs) mar_xs mar_ls.
Proof.
  split; [|split; [|split]].
  - split; [|split]; intros i Hi; cbn in *; [unfold mar_con, mar_xs; ring|lia|split; exact I].
  - intros j Hj. change (ne mar_P + ni mar_P)%nat with 1%nat. rewrite one_rsum. cbn in Hj. unfold mar_grad, mar_jac, mar_xs, mar_ls. destruct j as [|[|j]]; simpl; try lra; lia.
  - intros i Hi. cbn in Hi. lia.
  - intros j Hj. cbn. split; intros X; exfalso; lra.
Qed.
Lemma mar_linearised : linearised_by mar_P mar_grad mar_jac.
Proof.
  split; intros x lam; eexists; [eexists|]; unfold constr_values; reflexivity.
Qed.
Lemma mar_violation x : total_violation mar_P x = Rabs (mar_con x).
Proof. unfold total_violation. change (nx mar_P) with 2%nat. change (ne mar_P) with 1%nat. change (ni mar_P) with 0%nat. rewrite one_rsum, two_rsum. unfold rsum, ssum. simpl. ring. Qed.

Section Maratos.
Variables c s : R.
Hypothesis Hcs : c * c + s * s = 1.
Hypothesis Hs : 0 < s.
Hypothesis Hc : 0 <= c.
Variable x : vec R.
Hypothesis X0 : x 0%nat = c.
Hypothesis X1 : x 1%nat = s.
Notation d := (sub_qp mar_P (mar_hess (- (3 / 2))) (mar_grad x) (mar_jac x) (constr_values mar_P x) x).
Definition mar_step : vec R := fun j => match j with O => s * s | _ => - (s * c) end.
Definition mar_mult : vec R := fun i => match i with O => (c - 4) / 2 | _ => 0 end.
Lemma mar_con0 : mar_con x = 0.
Proof. unfold mar_con. rewrite X0, X1. lra. Qed.
Lemma mar_sub : kkt_pair d mar_step mar_mult.
Proof.
  split; [|split; [|split]].
  - cbn [sub_qp qn mar_P nx]. intros j Hj. unfold lag_grad. cbn [sub_qp qn qm qH qh qA mar_P nx ne ni Nat.add]. rewrite two_mv, one_rsum.
    unfold mar_hess, mar_grad, mar_jac, mar_step, mar_mult. rewrite X0, X1. destruct j as [|[|j]]; [| |lia]; simpl; nra.
  - apply sub_qp_feasible. split; [|split].
    + intros i Hi. cbn [mar_P p_eq nx]. rewrite mar_con0, two_mv. unfold mar_jac, mar_step. rewrite X0, X1. ring.
    + intros i Hi. cbn in Hi. lia.
    + intros j Hj. split; exact I.
  - cbn [sub_qp qm mar_P ne ni Nat.add]. intros i Hi. assert (i = O) by lia. subst i. cbn [sub_qp qAlb qAub qA qn mar_P nx]. unfold constr_values. simpl Nat.ltb. cbv iota.
    rewrite two_mv. unfold mar_jac, mar_step. rewrite X0, X1. cbn [p_eq mar_P]. rewrite mar_con0.
    change (Nat.ltb 0 1) with true. cbv iota. split; intros _; apply (f_equal (@Fin R)); simpl; ring.
  - cbn [sub_qp qn qm mar_P nx ne ni Nat.add]. intros j Hj. split; intros X; exfalso; cbn in X; lra.
Qed.
Lemma mar_unique p lk : kkt_pair d p lk -> p 0%nat = s * s /\ p 1%nat = - (s * c).
Proof.
  intros K. assert (U := kkt_unique d p lk mar_step mar_mult mar_posdef K mar_sub). split; [apply (U O)|apply (U 1%nat)]; cbn; lia.
Qed.
(** the full step lands close to the solution but is rejected *)
Lemma mar_reject p lk st : 0 <= eta st -> kkt_pair d p lk ->
  accept mar_P st x p (rnorminf 3 lk) (p_cost mar_P x + rnorminf 3 lk * l1_violation mar_P x) (rdot 2 (mar_grad x) p - rnorminf 3 lk * l1_violation mar_P x) 1 = false.
Proof.
  intros He K. destruct (mar_unique p lk K) as [P0 P1]. apply not_true_is_false. intros A. apply (accept_R mar_P st x p (mar_grad x)) in A.
  unfold merit in A. rewrite !mar_violation, mar_con0, Rabs_R0 in A. cbn [p_cost mar_P] in A. rewrite mar_con0 in A.
  set (mu := rnorminf 3 lk) in *. assert (M0 : 0 <= mu) by apply rnorminf_nonneg. set (y := along mar_P x p 1) in *.
  assert (Y0 : y 0%nat = c + s * s) by (unfold y, along; rewrite tab_spec by (cbn; lia); rewrite P0, X0; simpl; ring).
  assert (Y1 : y 1%nat = s - s * c) by (unfold y, along; rewrite tab_spec by (cbn; lia); rewrite P1, X1; simpl; ring).
  assert (Ec : mar_con y = s * s).
  { unfold mar_con. rewrite Y0, Y1. replace ((c + s * s) * (c + s * s) + (s - s * c) * (s - s * c) - 1) with ((c * c + s * s) * (1 + s * s) - 1) by ring. rewrite Hcs. ring. }
  rewrite Ec, Y0, X0 in A. rewrite two_dot, P0, P1 in A. unfold mar_grad in A. rewrite X0, X1 in A.
  assert (G : (4 * c - 1) * (s * s) + 4 * s * - (s * c) = - (s * s)) by ring. rewrite G in A.
  assert (S0 : 0 < s * s) by (apply Rmult_lt_0_compat; auto). assert (0 <= mu * Rabs (s * s)) by (apply Rmult_le_pos; [auto|apply Rabs_pos]).
  assert (E0 : 0 < sqp_eps) by (unfold sqp_eps, scst; simpl; apply Rdiv_lt_0_compat; lra).
  assert (0 <= eta st * (s * s)) by (apply Rmult_le_pos; lra). assert (0 <= eta st * (mu * sqp_eps)) by (apply Rmult_le_pos; [auto|apply Rmult_le_pos; lra]).
  rewrite Rmult_0_r, !Rplus_0_r in A. lra.
Qed.
Lemma mar_dist : edist 2 x mar_xs * edist 2 x mar_xs = 2 - 2 * c.
Proof. unfold edist. rewrite enorm_sq, two_dot. unfold mar_xs. rewrite X0, X1. nra. Qed.
Lemma mar_full p lk : kkt_pair d p lk -> edist 2 (fun j => x j + p j) mar_xs = / 2 * (edist 2 x mar_xs * edist 2 x mar_xs).
Proof.
  intros K. destruct (mar_unique p lk K) as [P0 P1]. rewrite mar_dist.
  assert (C1 : c <= 1) by nra.
  unfold edist, enorm. rewrite two_dot. unfold mar_xs. rewrite X0, X1, P0, P1.
  replace ((c + s * s - 1) * (c + s * s - 1) + (s + - (s * c) - 0) * (s + - (s * c) - 0)) with ((1 - c) * (1 - c)); [rewrite sqrt_square; lra|].
  replace (c + s * s - 1) with (c * (1 - c)) by nra. replace (s + - (s * c) - 0) with (s * (1 - c)) by ring.
  replace (c * (1 - c) * (c * (1 - c)) + s * (1 - c) * (s * (1 - c))) with ((c * c + s * s) * ((1 - c) * (1 - c))) by ring. rewrite Hcs. ring.
Qed.
Lemma mar_short p lk a y : kkt_pair d p lk -> 0 <= a <= / 2 -> (forall j, (j < 2)%nat -> y j = x j + a * p j) -> / 3 * edist 2 x mar_xs <= edist 2 y mar_xs.
Proof.
  intros K Ha Ey. destruct (mar_unique p lk K) as [P0 P1].
  assert (A := enorm_entry 2 (fun j => y j - mar_xs j) 1 ltac:(lia)). fold (edist 2 y mar_xs) in A. cbv beta in A. rewrite (Ey 1%nat), X1, P1 in A by lia.
  unfold mar_xs at 1 in A. replace (s + a * - (s * c) - 0) with (s * (1 - a * c)) in A by ring.
  assert (C1 : c <= 1) by nra. assert (AC : a * c <= / 2) by nra.
  assert (B : s / 2 <= Rabs (s * (1 - a * c))) by (rewrite Rabs_right; nra).
  assert (D := mar_dist). assert (D0 := enorm_nonneg 2 (fun j => x j - mar_xs j)). fold (edist 2 x mar_xs) in D0. set (e := edist 2 x mar_xs) in *.
  apply Rle_trans with (s / 2); [|lra]. apply Rnot_lt_le. intros X. assert (s / 2 * (s / 2) < / 3 * e * (/ 3 * e)) by (apply Rmult_le_0_lt_compat; lra). nra.
Qed.
End Maratos.

(** C98, refuted for nonlinear constraints: this problem has a KKT point with a regular constraint and positive definite
    Hessian of the Lagrangian.  Arbitrarily close to it there are feasible starting points from which, with the optimal
    multiplier as guess, the exact subproblem step would square the distance (times 1/2), but the line search rejects the
    full step, whatever the other settings, and a third of the distance remains. *)
Theorem C98_nonlinear_constraints_refuted : exists (P : problem R) grad jac hess xs ls,
  proper_bounds P /\ linearised_by P grad jac /\ nlp_kkt P (grad xs) (jac xs) xs ls /\
  (forall x lam, (lam O = ls O -> exists lagg h b A, p_lag_full P x lam = (lagg, hess, h, b, A))) /\ posdef (nx P) hess /\
  (exists j, (j < nx P)%nat /\ jac xs O j <> 0) /\
  forall rad, 0 < rad -> exists x0, nlp_feasible P x0 /\ 0 < edist (nx P) x0 xs < rad /\
  forall st Q W pcc pcs pcu qps qpm (s : @sqp_state R Q W),
    tau st = / 2 -> 0 <= eta st -> (2 <= ls_max_iter st)%Z -> smax_iter st = 1%Z ->
    (forall w d w' d1, qn d = nx P -> qm d = (ne P + ni P)%nat -> pcc w d = (w', d1) ->
       forall j, (j < nx P)%nat -> qh (pcu w' d1) j = qh d j) ->
    m_x s = x0 -> m_lam s = ls ->
    let r := exact_solve P st Q W (fun H => H) pcc pcs pcu qps qpm s in
    Forall exact_step (steps r) ->
    Forall (fun e => edist (nx P) (fun j => x0 j + fst (snd e) j) xs = / 2 * (edist (nx P) x0 xs * edist (nx P) x0 xs)) (steps r) /\
    / 3 * edist (nx P) x0 xs <= edist (nx P) (m_x r) xs.
Proof.
  exists mar_P, mar_grad, mar_jac, (mar_hess (- (3 / 2))), mar_xs, mar_ls.
  split; [exact mar_proper|]. split; [exact mar_linearised|]. split; [exact mar_kkt|].
  split; [intros x lam E; cbn [mar_P p_lag_full]; rewrite E; repeat eexists|]. split; [exact mar_posdef|].
  split; [exists O; split; [cbn; lia|]; unfold mar_jac, mar_xs; lra|].
  intros rad Hr. set (t := Rmin (/ 2) (rad / 4)). assert (Ht : 0 < t <= / 2) by (split; [apply Rmin_glb_lt; lra|apply Rmin_l]).
  assert (Ht2 : t <= rad / 4) by apply Rmin_r.
  assert (Q0 : 0 < 1 + t * t) by nra. set (c := (1 - t * t) / (1 + t * t)). set (s := 2 * t / (1 + t * t)).
  assert (Hcs : c * c + s * s = 1) by (unfold c, s; field; lra).
  assert (Hs : 0 < s) by (apply Rdiv_lt_0_compat; lra).
  assert (Hc : 0 <= c) by (left; apply Rdiv_lt_0_compat; nra).
  pose (x0 := fun j : nat => match j with O => c | _ => s end).
  assert (D := mar_dist c s Hcs x0 eq_refl eq_refl).
  exists x0. change (nx mar_P) with 2%nat. split; [|split].
  - split; [|split]; intros i Hi; cbn in *; [unfold mar_con, x0; lra|lia|split; exact I].
  - assert (D0 := enorm_nonneg 2 (fun j => x0 j - mar_xs j)). fold (edist 2 x0 mar_xs) in D0. set (e := edist 2 x0 mar_xs) in *.
    assert (E : 2 - 2 * c = 4 * (t * t) / (1 + t * t)) by (unfold c; field; lra).
    assert (E1 : 0 < e * e) by (rewrite D, E; apply Rdiv_lt_0_compat; nra).
    assert (E2 : e * e <= 4 * (t * t)).
    { rewrite D, E. apply Rmult_le_reg_r with (1 + t * t); auto. unfold Rdiv. rewrite Rmult_assoc, Rinv_l, Rmult_1_r by lra. nra. }
    split; [nra|]. apply Rle_lt_trans with (2 * t); [|lra]. apply Rnot_lt_le. intros X. nra.
  - intros st Q W pcc pcs pcu qps qpm s0 Htau Heta Hls Hmax HR Ex El r HO.
    assert (R1 : exists d', m_x r = m_x d' /\ steps r = steps d' /\ d' = sqp_first mar_P st Q W (fun H => H) pcc pcs pcu qps qpm s0).
    { eexists. split; [|split; [|reflexivity]]; unfold r, exact_solve; rewrite Hmax; change (Z.to_nat (1 - 1)) with 0%nat; destruct (terminated _ _ _ _); reflexivity. }
    destruct R1 as (d' & Rx & Rs & Ed). rewrite Rx, Rs in *. clear r Rx Rs. unfold sqp_first in Ed. fold (start Q W s0) in Ed. cbn [p_lag_full mar_P] in Ed.
    assert (St := step_spec mar_P st Q W pcc pcs pcu qps qpm (start Q W s0) (fun j => mar_grad x0 j + mar_jac x0 O j * mar_ls O) (mar_hess (- (3 / 2))) (mar_grad x0) (mar_jac x0) (constr_values mar_P x0)).
    cbn [start m_x m_lam] in Ed, St. rewrite Ex, El in *. 
    change (fun i : nat => if Nat.ltb i 1 then mar_con x0 else 0) with (constr_values mar_P x0) in Ed.
    change (mar_ls O) with (- (3 / 2)) in Ed, St. rewrite <- Ed in St. clear Ed.
    destruct St as (p & lk & d2 & i & (w & w' & d1 & Ec & Eu) & Hi & Hrej & Hacc & Hx & _ & _ & _ & _ & _ & _ & _ & _ & _ & _ & Hst).
    rewrite Hst in *. assert (K := proj2 (Forall_inv HO)). cbn [fst snd] in K.
    split.
    + constructor; [|constructor]. cbn [fst snd]. apply (mar_full c s) with (lk := lk); auto.
    + destruct i as [|i].
      * exfalso. destruct (Hacc ltac:(unfold ls_budget; lia)) as [A _]. cbv beta zeta in A. 
        assert (B : _ ) by (apply (mar_reject c s) with (x := x0) (p := p) (lk := lk) (st := st); auto).
        assert (Eh : rdot 2 (qh d2) p = rdot 2 (mar_grad x0) p).
        { rewrite !rdot_def. apply rsum_ext. intros j Hj. rewrite Eu. f_equal. assert (Y := fun q1 q2 => HR w _ w' d1 q1 q2 Ec j Hj). exact (Y eq_refl eq_refl). }
        cbn [start m_x] in A. rewrite Ex in A. change (nx mar_P) with 2%nat in A. rewrite Eh in A.
        assert (X : forall b, b = false -> b = true -> False) by (intros; congruence). exact (X _ B A).
      * apply (mar_short c s) with (p := p) (lk := lk) (a := tau st ^ S i); auto.
        -- rewrite Htau. simpl. assert (B : 0 <= (/ 2) ^ i <= 1) by (rewrite <- spow_pow; apply spow_range; lra). lra.
        -- intros j Hj. rewrite Hx. cbn [start m_x]. rewrite tab_spec by (cbn; lia). rewrite Ex, spow_pow. reflexivity.
Qed.
Print Assumptions C98_nonlinear_constraints_refuted.
