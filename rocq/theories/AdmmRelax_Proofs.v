(** Convergence of the ADMM model for every relaxation 0 < alpha < 2 (exact arithmetic, exact linear solver). *)
Require Import ZArith List Bool Lia Reals Lra Psatz.
From Verif Require Import Scal RSum Qp_Model Qp_Spec Qp_Proofs Admm_Model Admm_Spec Admm_SpecR Admm_Proofs Admm_ProofsR Admm_Conv AdmmRelax_Spec.
Local Open Scope R_scope.

Section Run.
Variable lsolve : nat -> mat R -> vec R -> vec R.
Variable full : bool.
Hypothesis Hexact : exact_solver full lsolve.
Notation body := (admm_body lsolve).
Notation solve := (admm_solve lsolve full).

Section Step.
Variables (s : qp_settings R) (p : qp_data R) (o : admm_obj R).
Hypothesis HI : admm_inv full s p o.
Hypothesis Hsym : symmetric (qn p) (qH p).
Hypothesis Hpsd : psd (qn p) (qH p).
Hypothesis Hsig : 0 < sigma s.
Hypothesis Hal : 0 < alpha s < 2.
Hypothesis Hc : qp_consistent p.
Hypothesis Hrho : forall i, (i < qm p + qn p)%nat -> 0 < a_rho_vec o i /\ a_rho_inv o i = / a_rho_vec o i.
Notation u := (admm_update lsolve s p o).
Notation n := (qn p).
Notation mn := (qm p + qn p)%nat.
Notation rho := (a_rho_vec o).
Notation al := (alpha s).
Notation xt := (tilde lsolve s p o).
Let dx j := xt j - a_x o j.
Let dz i := stackv p xt i - a_z o i.
Let nu i := tilde lsolve s p o (n + i)%nat.

Lemma r_x j : (j < n)%nat -> a_x u j = a_x o j + al * dx j.
Proof. intros. rewrite update_x by auto. fold xt. unfold dx. ring. Qed.
Lemma r_w i : (i < mn)%nat -> relaxed lsolve s p o i = a_z o i + al * dz i.
Proof. intros. rewrite relaxed_eq with (full := full) by auto. unfold dz. ring. Qed.
Lemma r_y i : (i < mn)%nat -> a_y u i = a_y o i + rho i * (a_z o i + al * dz i - a_z u i).
Proof. intros. rewrite update_y by auto. rewrite r_w by auto. reflexivity. Qed.
Lemma r_nu i : (i < mn)%nat -> nu i = a_y o i + rho i * dz i.
Proof.
  intros Hi. destruct (tilde_solves lsolve full Hexact s p o HI Hsym Hpsd Hsig Hrho) as [_ HB].
  specialize (HB i Hi). destruct (Hrho i Hi) as [Hp _]. unfold dz, nu.
  assert (E : rho i * (stackv p xt i - / rho i * xt (n + i)%nat) = rho i * (a_z o i - / rho i * a_y o i)) by (rewrite HB; reflexivity).
  replace (rho i * (stackv p xt i - / rho i * xt (n + i)%nat)) with (rho i * stackv p xt i - xt (n + i)%nat) in E by (field; lra).
  replace (rho i * (a_z o i - / rho i * a_y o i)) with (rho i * a_z o i - a_y o i) in E by (field; lra).
  lra.
Qed.
Lemma r_lag j : (j < n)%nat -> lag_grad p xt nu j = - (sigma s * dx j).
Proof.
  intros Hj. destruct (tilde_solves lsolve full Hexact s p o HI Hsym Hpsd Hsig Hrho) as [HT _].
  specialize (HT j Hj). unfold lag_grad, dx, nu. lra.
Qed.
Lemma r_normal : normal_at p u.
Proof. intros i Hi. destruct (Hrho i Hi). apply update_normal; auto. Qed.

Lemma stackv_minus x y i : stackv p (fun j => x j - y j) i = stackv p x i - stackv p y i.
Proof. unfold stackv. destruct (Nat.ltb i (qm p)); [apply rmv_minus|reflexivity]. Qed.

(** monotonicity of the optimality system at xtilde, nu *)
Lemma r_mono xs ys : kkt_pair p xs ys ->
  rsum n (fun j => sigma s * (dx j * (xt j - xs j))) + rsum mn (fun i => (nu i - ys i) * (stackv p xt i - stackv p xs i)) <= 0.
Proof.
  intros HK. set (d := fun j => xt j - xs j).
  assert (E0 : rdot n (fun j => lag_grad p xt nu j - lag_grad p xs ys j) d =
    qf n (qH p) d + rsum mn (fun i => (nu i - ys i) * (stackv p xt i - stackv p xs i))).
  { assert (El : forall j, (j < n)%nat -> lag_grad p xt nu j - lag_grad p xs ys j =
       rmv n (qH p) d j + rsum mn (fun i => stacked (qm p) (qA p) i j * (nu i - ys i))).
    { intros j Hj. unfold lag_grad, d. rewrite rmv_minus. rewrite (stacked_adj p (fun i => nu i - ys i)) by auto.
      rewrite (rsum_ext (qm p) (fun i => qA p i j * (nu i - ys i)) (fun i => qA p i j * nu i - qA p i j * ys i)) by (intros; ring).
      rewrite rsum_minus. ring. }
    rewrite (rdot_ext n _ d (fun j => rmv n (qH p) d j + rsum mn (fun i => stacked (qm p) (qA p) i j * (nu i - ys i))) d) by auto.
    rewrite rdot_plus_l. f_equal; [apply rdot_comm|].
    change (fun j => rsum mn (fun i => stacked (qm p) (qA p) i j * (nu i - ys i)))
      with (rmv mn (mtr (stacked (qm p) (qA p))) (fun i => nu i - ys i)).
    rewrite <- rdot_mv_adj, rdot_def. apply rsum_ext. intros i Hi. rewrite stacked_mv by auto.
    f_equal. apply stackv_minus. }
  assert (E1 : rdot n (fun j => lag_grad p xt nu j - lag_grad p xs ys j) d = - rsum n (fun j => sigma s * (dx j * (xt j - xs j)))).
  { destruct HK as (Hst & _). rewrite rdot_def, <- rsum_opp. apply rsum_ext. intros j Hj. rewrite r_lag, Hst by auto. unfold d. ring. }
  assert (Hq : 0 <= qf n (qH p) d) by apply Hpsd. lra.
Qed.

(** the decrease in one step *)
Lemma r_decrease xs ys : kkt_pair p xs ys ->
  rdist2 s p rho (a_x u) (a_z u) (a_y u) xs (stackv p xs) ys +
    al * (2 - al) * (wsq n (fun _ => sigma s) dx + wsq mn rho dz)
  <= rdist2 s p rho (a_x o) (a_z o) (a_y o) xs (stackv p xs) ys.
Proof.
  intros HK. assert (HKS := kkt_stacked p xs ys HK). assert (M := r_mono xs ys HK).
  set (Zs := stackv p xs) in *.
  assert (EX : wsq n (fun _ => sigma s) (fun j => a_x u j - xs j) = wsq n (fun _ => sigma s) (fun j => a_x o j - xs j)
     + 2 * al * rsum n (fun j => sigma s * (dx j * (xt j - xs j))) - al * (2 - al) * wsq n (fun _ => sigma s) dx).
  { unfold wsq. rewrite <- !rsum_scal, <- rsum_plus, <- rsum_minus. apply rsum_ext. intros j Hj. rewrite r_x by auto. unfold dx. ring. }
  set (G := rsum mn (fun i => (a_y u i - ys i) * (a_z u i - Zs i))).
  assert (EZ : wsq mn rho (fun i => a_z u i - Zs i) + wsq mn (fun i => / rho i) (fun i => a_y u i - ys i) + 2 * (1 - al) * G + 2 * al * G =
     wsq mn rho (fun i => a_z o i - Zs i) + wsq mn (fun i => / rho i) (fun i => a_y o i - ys i)
     + 2 * (1 - al) * rsum mn (fun i => (a_y o i - ys i) * (a_z o i - Zs i))
     + 2 * al * rsum mn (fun i => (nu i - ys i) * (stackv p xt i - Zs i)) - al * (2 - al) * wsq mn rho dz).
  { unfold wsq, G. rewrite <- !rsum_scal, <- !rsum_plus, <- rsum_minus. apply rsum_ext. intros i Hi.
    destruct (Hrho i Hi) as [Hp _]. rewrite r_y, r_nu by auto.
    replace (stackv p xt i) with (a_z o i + dz i) by (unfold dz; ring). field. lra. }
  assert (HG : 0 <= G).
  { apply rsum_nonneg. intros i Hi. destruct (r_normal i Hi) as [B1 S1]. destruct (HKS i Hi) as [B2 S2].
    apply (sign_monotone _ _ _ _ _ _ B1 B2 S1 S2). }
  unfold rdist2, dist2. fold G.
  assert (al * (rsum n (fun j => sigma s * (dx j * (xt j - xs j))) + rsum mn (fun i => (nu i - ys i) * (stackv p xt i - Zs i))) <= 0) by nra.
  assert (0 <= al * G) by nra. lra.
Qed.

(** from the second iteration on a short step gives small residuals *)
Lemma r_small d rhi : normal_at p o -> 0 <= d -> 0 <= rhi ->
  (forall i, (i < mn)%nat -> rho i <= rhi) ->
  (forall j, (j < n)%nat -> Rabs (dx j) <= d) -> (forall i, (i < mn)%nat -> Rabs (dz i) <= d) ->
  (forall i, (i < mn)%nat -> Rabs (stackv p (a_x u) i - a_z u i) <= (3 + col_mass p) * d) /\
  (forall j, (j < n)%nat -> Rabs (lag_grad p (a_x u) (a_y u) j) <= (hess_mass p + 3 * rhi * col_mass p + sigma s) * d).
Proof.
  intros HN Hd Hhi Hrh HX HZ.
  assert (A1 : Rabs (1 - al) <= 1) by (apply Rabs_le; lra).
  (* the projection is not expansive *)
  assert (HE : forall i, (i < mn)%nat -> Rabs (a_z u i - a_z o i) <= 2 * d).
  { intros i Hi. destruct (r_normal i Hi) as [B1 S1]. destruct (HN i Hi) as [B0 S0]. destruct (Hrho i Hi) as [Hp _].
    assert (M := sign_monotone _ _ _ _ _ _ B1 B0 S1 S0). rewrite r_y in M by auto.
    set (e := a_z u i - a_z o i) in *. specialize (HZ i Hi).
    replace (a_y o i + rho i * (a_z o i + al * dz i - a_z u i) - a_y o i) with (rho i * (al * dz i - e)) in M by (unfold e; ring).
    assert (Q : 0 <= (al * dz i - e) * e).
    { apply Rmult_le_reg_l with (rho i). auto. rewrite Rmult_0_r, <- Rmult_assoc. exact M. }
    assert (Qa : Rabs (al * dz i) <= 2 * d).
    { rewrite Rabs_mult, (Rabs_right al) by lra. pose proof (Rabs_pos (dz i)). nra. }
    apply Rabs_le. unfold Rabs in Qa. destruct (Rcase_abs (al * dz i)); split; nra. }
  assert (HS : forall i, (i < mn)%nat -> Rabs (stackv p dx i) <= col_mass p * d).
  { intros i Hi. rewrite <- stacked_mv by auto. rewrite rmv_def.
    eapply Rle_trans; [apply rsum_abs|]. unfold col_mass. rewrite <- rsum_scal_r. apply rsum_le. intros j Hj.
    rewrite Rabs_mult. apply Rmult_le_compat; auto using Rabs_pos.
    apply (rsum_nonneg_term mn (fun i => Rabs (stacked (qm p) (qA p) i j))); auto. intros; apply Rabs_pos. }
  split.
  - intros i Hi.
    assert (E : stackv p (a_x u) i = stackv p xt i - (1 - al) * stackv p dx i).
    { rewrite (stackv_minus xt (a_x o)). unfold stackv. destruct (Nat.ltb_spec i (qm p)).
      - rewrite (rmv_ext n (qA p) (qA p) (a_x u) (fun j => al * xt j + (1 - al) * a_x o j)) by (auto; intros; rewrite r_x by auto; unfold dx; ring).
        rewrite rmv_plus, !rmv_scal. ring.
      - rewrite r_x by lia. unfold dx. ring. }
    rewrite E. replace (stackv p xt i) with (a_z o i + dz i) by (unfold dz; ring).
    replace (a_z o i + dz i - (1 - al) * stackv p dx i - a_z u i) with (dz i + (- (a_z u i - a_z o i) + - ((1 - al) * stackv p dx i))) by ring.
    eapply Rle_trans; [apply Rabs_triang|]. assert (B := Rabs_triang (- (a_z u i - a_z o i)) (- ((1 - al) * stackv p dx i))).
    rewrite !Rabs_Ropp in B. rewrite (Rabs_mult (1 - al)) in B.
    specialize (HZ i Hi). specialize (HE i Hi). specialize (HS i Hi). pose proof (Rabs_pos (stackv p dx i)). pose proof (Rabs_pos (1 - al)).
    assert (Rabs (1 - al) * Rabs (stackv p dx i) <= col_mass p * d) by nra. lra.
  - intros j Hj.
    assert (E : lag_grad p (a_x u) (a_y u) j = - ((1 - al) * rmv n (qH p) dx j)
        + rsum mn (fun i => stacked (qm p) (qA p) i j * (a_y u i - nu i)) + - (sigma s * dx j)).
    { rewrite <- (r_lag j Hj). unfold lag_grad. rewrite (stacked_adj p (fun i => a_y u i - nu i)) by auto.
      rewrite (rsum_ext (qm p) (fun i => qA p i j * (a_y u i - nu i)) (fun i => qA p i j * a_y u i - qA p i j * nu i)) by (intros; ring).
      rewrite rsum_minus.
      rewrite (rmv_ext n (qH p) (qH p) (a_x u) (fun j => al * xt j + (1 - al) * a_x o j)) by (auto; intros; rewrite r_x by auto; unfold dx; ring).
      rewrite rmv_plus, !rmv_scal. unfold dx. rewrite rmv_minus. ring. }
    rewrite E.
    assert (H1 : Rabs (rmv n (qH p) dx j) <= hess_mass p * d).
    { rewrite rmv_def. eapply Rle_trans; [apply rsum_abs|].
      apply Rle_trans with (rsum n (fun k => Rabs (qH p j k)) * d).
      - rewrite <- rsum_scal_r. apply rsum_le. intros k Hk. rewrite Rabs_mult. apply Rmult_le_compat_l; auto using Rabs_pos.
      - apply Rmult_le_compat_r; auto. unfold hess_mass.
        apply (rsum_nonneg_term n (fun i => rsum n (fun k => Rabs (qH p i k)))); auto. intros. apply rsum_nonneg. intros. apply Rabs_pos. }
    assert (H2 : Rabs (rsum mn (fun i => stacked (qm p) (qA p) i j * (a_y u i - nu i))) <= col_mass p * (3 * rhi * d)).
    { eapply Rle_trans; [apply rsum_abs|].
      apply Rle_trans with (rsum mn (fun i => Rabs (stacked (qm p) (qA p) i j)) * (3 * rhi * d)).
      - rewrite <- rsum_scal_r. apply rsum_le. intros i Hi. rewrite Rabs_mult. apply Rmult_le_compat_l. apply Rabs_pos.
        rewrite r_y, r_nu by auto. destruct (Hrho i Hi) as [Hp _]. specialize (HZ i Hi). specialize (HE i Hi). specialize (Hrh i Hi).
        replace (a_y o i + rho i * (a_z o i + al * dz i - a_z u i) - (a_y o i + rho i * dz i))
          with (rho i * (- ((1 - al) * dz i) + - (a_z u i - a_z o i))) by ring.
        rewrite Rabs_mult, (Rabs_right (rho i)) by lra.
        assert (B := Rabs_triang (- ((1 - al) * dz i)) (- (a_z u i - a_z o i))). rewrite !Rabs_Ropp in B. rewrite (Rabs_mult (1 - al)) in B.
        pose proof (Rabs_pos (dz i)). pose proof (Rabs_pos (1 - al)).
        assert (Rabs (1 - al) * Rabs (dz i) <= d) by nra.
        assert (B2 : Rabs (- ((1 - al) * dz i) + - (a_z u i - a_z o i)) <= 3 * d) by lra.
        pose proof (Rabs_pos (- ((1 - al) * dz i) + - (a_z u i - a_z o i))). nra.
      - apply Rmult_le_compat_r. nra. unfold col_mass.
        apply (rsum_nonneg_term n (fun j => rsum mn (fun i => Rabs (stacked (qm p) (qA p) i j)))); auto.
        intros. apply rsum_nonneg. intros. apply Rabs_pos. }
    assert (H3 : Rabs (sigma s * dx j) <= sigma s * d).
    { rewrite Rabs_mult, (Rabs_right (sigma s)) by lra. apply Rmult_le_compat_l. lra. auto. }
    set (T1 := rmv n (qH p) dx j) in *. set (T2 := rsum mn _) in *. set (T3 := sigma s * dx j) in *.
    assert (B1 := Rabs_triang (- ((1 - al) * T1) + T2) (- T3)). assert (B2 := Rabs_triang (- ((1 - al) * T1)) T2).
    rewrite Rabs_Ropp in B1, B2. rewrite (Rabs_mult (1 - al)) in B2. pose proof (Rabs_pos T1). pose proof (Rabs_pos (1 - al)).
    assert (Rabs (1 - al) * Rabs T1 <= hess_mass p * d) by nra. lra.
Qed.
End Step.

(** ** the whole run *)
Section Whole.
Variables (s : qp_settings R) (p : qp_data R) (xg yg : vec R) (ob : admm_obj R) (xs ys : vec R).
Hypothesis Hsym : symmetric (qn p) (qH p).
Hypothesis Hpsd : psd (qn p) (qH p).
Hypothesis Hsig : 0 < sigma s.
Hypothesis Hr0 : 0 < rho0 s.
Hypothesis Hal : 0 < alpha s < 2.
Hypothesis Had : adaptive_rho s = false.
Hypothesis HK : kkt_pair p xs ys.
Notation init := (admm_setup full s p xg yg ob).
Notation mn := (qm p + qn p)%nat.
Notation rho_fix := (rho_fix s p).
Notation al := (alpha s).

Definition rpot (x z y : vec R) : R := rdist2 s p rho_fix x z y xs (stackv p xs) ys.
Definition opot (o : admm_obj R) : R := rpot (a_x o) (a_z o) (a_y o).

Lemma rdist2_ext r r' x z y x' z' y' : (forall i, (i < mn)%nat -> r i = r' i) ->
  rdist2 s p r x z y x' z' y' = rdist2 s p r' x z y x' z' y'.
Proof. intros H. unfold rdist2. rewrite (dist2_ext s p r r') by auto. reflexivity. Qed.

(** between multiples of the plain distance *)
Lemma rdist2_bounds x z y x' z' y' : Rmin al (2 - al) * dist2 s p rho_fix x z y x' z' y' <= rdist2 s p rho_fix x z y x' z' y'
  <= Rmax al (2 - al) * dist2 s p rho_fix x z y x' z' y'.
Proof.
  assert (W : 0 <= wsq (qn p) (fun _ => sigma s) (fun j => x j - x' j)) by (apply wsq_nonneg; intros; lra).
  unfold rdist2, dist2. set (X := wsq (qn p) _ _) in *. set (D := rsum mn _).
  set (Z := wsq mn rho_fix _). set (Y := wsq mn (fun i => / rho_fix i) _).
  assert (P : 0 <= Z + Y + 2 * D /\ 0 <= Z + Y - 2 * D).
  { unfold Z, Y, D, wsq. rewrite <- rsum_scal, <- !rsum_plus, <- rsum_minus. split; apply rsum_nonneg; intros i Hi;
    assert (Hp := rho_fix_pos s p Hr0 i); assert (Hq : 0 < / rho_fix i) by (apply Rinv_0_lt_compat; auto);
    set (a := z i - z' i); set (b := y i - y' i).
    - replace (rho_fix i * (a * a) + / rho_fix i * (b * b) + 2 * (b * a)) with (/ rho_fix i * ((rho_fix i * a + b) * (rho_fix i * a + b))) by (field; lra).
      apply Rmult_le_pos; [lra|apply Rle_0_sqr].
    - replace (rho_fix i * (a * a) + / rho_fix i * (b * b) - 2 * (b * a)) with (/ rho_fix i * ((rho_fix i * a - b) * (rho_fix i * a - b))) by (field; lra).
      apply Rmult_le_pos; [lra|apply Rle_0_sqr]. }
  clearbody X Y Z D. destruct P as [P1 P2]. unfold Rmin, Rmax. destruct (Rle_dec al (2 - al)); split; nra.
Qed.
Lemma dist2_nonneg x z y x' z' y' : 0 <= dist2 s p rho_fix x z y x' z' y'.
Proof.
  unfold dist2.
  assert (0 <= wsq (qn p) (fun _ => sigma s) (fun j => x j - x' j)) by (apply wsq_nonneg; intros; lra).
  assert (0 <= wsq mn rho_fix (fun i => z i - z' i)) by (apply wsq_nonneg; intros; left; apply rho_fix_pos; auto).
  assert (0 <= wsq mn (fun i => / rho_fix i) (fun i => y i - y' i)) by (apply wsq_nonneg; intros; left; apply Rinv_0_lt_compat, rho_fix_pos; auto).
  lra.
Qed.
Lemma rpot_nonneg x z y : 0 <= rpot x z y.
Proof.
  unfold rpot. eapply Rle_trans; [|apply rdist2_bounds]. apply Rmult_le_pos. unfold Rmin; destruct (Rle_dec al (2 - al)); lra. apply dist2_nonneg.
Qed.

Lemma opot_xyz o o' : a_x o = a_x o' -> a_y o = a_y o' -> a_z o = a_z o' -> opot o = opot o'.
Proof. intros E1 E2 E3. unfold opot. rewrite E1, E2, E3. reflexivity. Qed.

Lemma update_decrease k o : visits (body s p) (max_iter s) init k o ->
  opot (admm_update lsolve s p o) + al * (2 - al) * (wsq (qn p) (fun _ => sigma s) (fun j => tilde lsolve s p o j - a_x o j) +
     wsq mn rho_fix (fun i => stackv p (tilde lsolve s p o) i - a_z o i)) <= opot o.
Proof.
  intros Hv. assert (D := r_decrease s p o (visits_admm_inv _ _ _ _ _ _ _ _ _ Hv) Hsym Hpsd Hsig Hal (kkt_consistent _ _ _ HK)
    (visits_rho_pos _ _ _ _ _ _ _ _ _ Hr0 Hv) xs ys HK).
  assert (F := visits_rho_fix lsolve full s p xg yg ob Had k o Hv).
  rewrite !(rdist2_ext (a_rho_vec o) rho_fix) in D by auto.
  unfold wsq at 2 in D. rewrite (rsum_ext mn _ (fun i => rho_fix i * ((stackv p (tilde lsolve s p o) i - a_z o i) * (stackv p (tilde lsolve s p o) i - a_z o i)))) in D
    by (intros; rewrite F by auto; reflexivity).
  exact D.
Qed.
Lemma wsqs_nonneg f g : 0 <= wsq (qn p) (fun _ => sigma s) f + wsq mn rho_fix g.
Proof.
  assert (0 <= wsq (qn p) (fun _ => sigma s) f) by (apply wsq_nonneg; intros; lra).
  assert (0 <= wsq mn rho_fix g) by (apply wsq_nonneg; intros; left; apply rho_fix_pos; auto). lra.
Qed.
Lemma update_monotone k o : visits (body s p) (max_iter s) init k o -> opot (admm_update lsolve s p o) <= opot o.
Proof.
  intros Hv. assert (D := update_decrease k o Hv).
  match type of D with _ + _ * (wsq _ _ ?f + wsq _ _ ?g) <= _ => assert (P := wsqs_nonneg f g) end.
  assert (0 < al * (2 - al)) by nra. nra.
Qed.
Lemma rvisits_monotone k o o' : visits (body s p) (max_iter s) init k o -> body s p k o = Cont o' -> opot o' <= opot o.
Proof.
  intros Hv Hb. destruct (body_cont_xyz _ _ _ _ _ _ Hb) as (Ex & Ey & Ez). rewrite (opot_xyz _ _ Ex Ey Ez). eapply update_monotone; eauto.
Qed.
Lemma rvisits_normal k o : visits (body s p) (max_iter s) init k o -> (2 <= k)%Z -> normal_at p o.
Proof.
  intros Hv Hk. inversion Hv as [|k0 o0 o1 Hv0 Hk0 Hb]; subst; [lia|].
  destruct (body_cont_xyz _ _ _ _ _ _ Hb) as (_ & Ey & Ez). unfold normal_at. rewrite Ey, Ez.
  apply r_normal; [apply (kkt_consistent _ _ _ HK)|]. eapply visits_rho_pos; eauto.
Qed.
Lemma rvisits_near k o : visits (body s p) (max_iter s) init k o -> opot o <= opot init.
Proof.
  intros Hv. induction Hv as [|k o o' Hv IH Hk Hb]. lra. assert (H := rvisits_monotone _ _ _ Hv Hb). lra.
Qed.

Lemma opot_init : opot init = rpot xg (stackv p xg) yg.
Proof.
  destruct (setup_at_pair full s p xg yg ob) as (Hx & Hy & Hz). unfold opot, rpot, rdist2, dist2, wsq.
  f_equal; [f_equal; [f_equal|]|f_equal]; apply rsum_ext; intros; rewrite ?Hx, ?Hy, ?Hz by auto; reflexivity.
Qed.

Lemma rresult_near o' : solve s p xg yg ob = Some o' -> opot o' <= rpot xg (stackv p xg) yg.
Proof.
  intros H. rewrite <- opot_init.
  destruct (solve_cases _ _ _ _ _ _ _ _ H) as [[k [o1 [Hv [Hk ->]]]]|[k [o1 [o2 [Hv [Hk [Hb ->]]]]]]].
  - apply (rvisits_near _ _ Hv).
  - apply body_stop in Hb. destruct Hb as (_ & _ & -> & _). eapply Rle_trans; [|apply (rvisits_near _ _ Hv)].
    apply (update_monotone _ _ Hv).
Qed.

Hypothesis Heps : 0 < eps_abs s.
Hypothesis Hrel : 0 <= eps_rel s.
Notation d := (relaxed_step (eps_abs s) s p).
Notation thr := (relaxed_threshold (eps_abs s) s p).

Lemma hess_mass_nonneg : 0 <= hess_mass p.
Proof. apply rsum_nonneg. intros. apply rsum_nonneg. intros. apply Rabs_pos. Qed.
Lemma rho_high_pos : 0 < rho_high s.
Proof. unfold rho_high. eapply Rlt_le_trans; [apply RHO_MIN_pos|apply Rmax_l]. Qed.
Lemma denom_pos : 0 < 3 + col_mass p + hess_mass p + 3 * rho_high s * col_mass p + sigma s.
Proof. assert (H1 := col_mass_nonneg p). assert (H2 := hess_mass_nonneg). assert (H3 := rho_high_pos). nra. Qed.
Lemma d_pos : 0 < d.
Proof. unfold relaxed_step. apply Rdiv_lt_0_compat; auto. apply denom_pos. Qed.
Lemma low_pos : 0 < Rmin (sigma s) (rho_low s).
Proof. apply Rmin_glb_lt; auto. apply rho_low_pos; auto. Qed.
Lemma thr_pos : 0 < thr.
Proof. unfold relaxed_threshold. assert (H1 := d_pos). assert (H2 := low_pos). apply Rmult_lt_0_compat; [apply Rmult_lt_0_compat; lra|apply Rmult_lt_0_compat; [lra|apply Rmult_lt_0_compat; lra]]. Qed.

Lemma rcheck_step_long k o o' : visits (body s p) (max_iter s) init k o -> body s p k o = Cont o' ->
  is_check_iter s k = true -> (2 <= k)%Z -> opot o' + thr <= opot o.
Proof.
  intros Hv Hb Hck Hk. destruct (body_cont_xyz _ _ _ _ _ _ Hb) as (Ex & Ey & Ez). rewrite (opot_xyz _ _ Ex Ey Ez).
  assert (D := update_decrease k o Hv).
  set (f := fun j => tilde lsolve s p o j - a_x o j) in *. set (g := fun i => stackv p (tilde lsolve s p o) i - a_z o i) in *.
  assert (AA : 0 < al * (2 - al)) by nra.
  destruct (Rle_dec (wsq (qn p) (fun _ => sigma s) f + wsq mn rho_fix g) (Rmin (sigma s) (rho_low s) * (d * d))) as [Hle|Hgt].
  2:{ unfold relaxed_threshold. assert (al * (2 - al) * (Rmin (sigma s) (rho_low s) * (d * d)) <= al * (2 - al) * (wsq (qn p) (fun _ => sigma s) f + wsq mn rho_fix g)).
      { apply Rmult_le_compat_l; lra. } lra. }
  exfalso. assert (HD := d_pos). assert (HL := low_pos).
  assert (W1 : 0 <= wsq (qn p) (fun _ => sigma s) f) by (apply wsq_nonneg; intros; lra).
  assert (W2 : 0 <= wsq mn rho_fix g) by (apply wsq_nonneg; intros; left; apply rho_fix_pos; auto).
  assert (Hsq : forall a w, Rmin (sigma s) (rho_low s) <= w -> w * (a * a) <= Rmin (sigma s) (rho_low s) * (d * d) -> Rabs a <= d).
  { intros a w Hw Ha. assert (Q : a * a <= d * d).
    { assert (0 <= a * a) by apply Rle_0_sqr. apply Rmult_le_reg_l with (Rmin (sigma s) (rho_low s)); auto. nra. }
    apply Rsqr_le_abs_0 in Q. rewrite (Rabs_right d) in Q by lra. exact Q. }
  assert (F1 : forall j, (j < qn p)%nat -> Rabs (f j) <= d).
  { intros j Hj. apply (Hsq _ (sigma s)). apply Rmin_l. assert (T := wsq_term (qn p) (fun _ => sigma s) f j ltac:(intros; lra) Hj). cbv beta in T. lra. }
  assert (F2 : forall i, (i < mn)%nat -> Rabs (g i) <= d).
  { intros i Hi. apply (Hsq _ (rho_fix i)). eapply Rle_trans. apply Rmin_r. apply rho_fix_range; auto.
    assert (T := wsq_term mn rho_fix g i ltac:(intros; left; apply rho_fix_pos; auto) Hi). cbv beta in T. lra. }
  destruct (r_small s p o (visits_admm_inv _ _ _ _ _ _ _ _ _ Hv) Hsym Hpsd Hsig Hal (kkt_consistent _ _ _ HK)
    (visits_rho_pos _ _ _ _ _ _ _ _ _ Hr0 Hv) d (rho_high s) (rvisits_normal _ _ Hv Hk)) as [S1 S2]; auto.
  - lra.
  - left. apply rho_high_pos.
  - intros i Hi. rewrite (visits_rho_fix lsolve full s p xg yg ob Had k o Hv) by auto. apply rho_fix_range; auto.
  - assert (H1 := col_mass_nonneg p). assert (H2 := hess_mass_nonneg). assert (H3 := rho_high_pos).
    assert (E : (3 + col_mass p + hess_mass p + 3 * rho_high s * col_mass p + sigma s) * d = eps_abs s).
    { unfold relaxed_step. field. apply Rgt_not_eq, denom_pos. }
    assert (0 <= rho_high s * col_mass p) by nra.
    assert (B1 : (3 + col_mass p) * d <= eps_abs s) by (eapply Rle_trans; [|right; exact E]; apply Rmult_le_compat_r; lra).
    assert (B2 : (hess_mass p + 3 * rho_high s * col_mass p + sigma s) * d <= eps_abs s) by (eapply Rle_trans; [|right; exact E]; apply Rmult_le_compat_r; lra).
    destruct (body_check_stop lsolve s p k o Hck) as [o2 E2]; [|congruence].
    apply terminates_small; auto; try lra.
    + intros i Hi. specialize (S1 i ltac:(lia)). unfold stackv in S1. rewrite (proj2 (Nat.ltb_lt i (qm p))) in S1 by auto. lra.
    + intros j Hj. specialize (S1 (qm p + j)%nat ltac:(lia)). unfold stackv in S1. destruct (Nat.ltb_spec (qm p + j) (qm p)); [lia|].
      replace (qm p + j - qm p)%nat with j in S1 by lia. lra.
    + intros j Hj. specialize (S2 j Hj). lra.
Qed.

Hypothesis Hct : check_termination s <> 0%Z.
Let ct := Z.abs (check_termination s).

Lemma rvisits_budget k o : visits (body s p) (max_iter s) init k o ->
  opot o <= opot init /\ opot o + thr * (IZR ((k - 1) / ct) - 1) <= opot init.
Proof.
  assert (Hctp : (0 < ct)%Z) by (unfold ct; lia). assert (HTP := thr_pos).
  intros Hv. induction Hv as [|k o o' Hv [IH1 IH2] Hk Hb].
  - replace ((1 - 1) / ct)%Z with 0%Z by (rewrite Z.div_0_l; lia). lra.
  - assert (Hm := rvisits_monotone _ _ _ Hv Hb). split; [lra|].
    assert (Hk1 := proj1 (visits_range _ _ _ _ _ Hv)).
    replace (k + 1 - 1)%Z with k by lia.
    destruct (is_check_iter s k) eqn:Hck.
    + destruct (Z_le_gt_dec 2 k) as [H2|H2].
      * assert (Hd := rcheck_step_long _ _ _ Hv Hb Hck H2).
        assert (E : ((k - 1) / ct + 1 >= k / ct)%Z).
        { replace ((k - 1) / ct + 1)%Z with ((k - 1 + 1 * ct) / ct)%Z by (rewrite Z.div_add; lia).
          apply Z.le_ge, Z.div_le_mono; lia. }
        assert (IZR (k / ct) <= IZR ((k - 1) / ct) + 1) by (rewrite <- plus_IZR; apply IZR_le; lia). nra.
      * assert (k = 1)%Z by lia. subst k.
        assert (IZR (1 / ct) <= 1). { apply IZR_le. apply Z.div_le_upper_bound; lia. } nra.
    + assert (E : (k / ct = (k - 1) / ct)%Z).
      { assert (Hn : (k mod ct <> 0)%Z).
        { intro E. rewrite <- Z.rem_mod_nonneg in E by lia. apply (proj2 (check_iff s Hct k)) in E. congruence. }
        assert (D := Z.div_mod k ct ltac:(lia)). assert (B := Z.mod_pos_bound k ct Hctp).
        apply Z.div_unique with (r := (k mod ct - 1)%Z); lia. }
      rewrite E. lra.
Qed.

Lemma rsolved_eventually : forall N : nat, Rmax al (2 - al) * dist2 s p rho_fix xg (stackv p xg) yg xs (stackv p xs) ys < INR N * thr ->
  (ct * (Z.of_nat N + 1) <= max_iter s)%Z ->
  exists o', solve s p xg yg ob = Some o' /\ a_status o' = SOLVED /\ (a_iter o' <= ct * (Z.of_nat N + 1))%Z.
Proof.
  intros N HN0 Hmx. assert (Hctp : (0 < ct)%Z) by (unfold ct; lia). assert (HTP := thr_pos).
  assert (HN : opot init < INR N * thr).
  { rewrite opot_init. unfold rpot. eapply Rle_lt_trans; [apply rdist2_bounds|exact HN0]. }
  assert (HB : forall k o, visits (body s p) (max_iter s) init k o -> (k <= ct * (Z.of_nat N + 1))%Z).
  { intros k o Hv. destruct (rvisits_budget _ _ Hv) as [_ H2]. assert (H0 : 0 <= opot o) by apply rpot_nonneg.
    destruct (Z_le_gt_dec k (ct * (Z.of_nat N + 1))); auto. exfalso.
    assert (Z.of_nat N + 1 <= (k - 1) / ct)%Z by (apply Z.div_le_lower_bound; lia).
    assert (IZR (Z.of_nat N + 1) <= IZR ((k - 1) / ct)) by (apply IZR_le; auto).
    rewrite plus_IZR, <- INR_IZR_INZ in H1. nra. }
  destruct (solve_defined lsolve full s p xg yg ob (or_introl Had)) as [o' Ho']. exists o'. split; auto.
  destruct (solve_cases _ _ _ _ _ _ _ _ Ho') as [[k [o1 [Hv [Hk ->]]]]|[k [o1 [o2 [Hv [Hk [Hb ->]]]]]]].
  - apply HB in Hv. lia.
  - apply body_stop in Hb. destruct Hb as (_ & Hs & _). split; auto. simpl. eapply HB; eauto.
Qed.
End Whole.
End Run.
