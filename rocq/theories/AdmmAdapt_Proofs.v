(** ADMM / boxADMM with adaptive step sizes: either SOLVED or ever more changes of the step size. *)
Require Import ZArith List Bool Lia Reals Lra Psatz.
From Verif Require Import Scal RSum Qp_Model Qp_Spec Qp_Proofs Admm_Model Admm_Spec Admm_SpecR Admm_Proofs Admm_ProofsR Admm_Conv
  BoxAdmm_Model BoxAdmm_Proofs BoxAdmm_ProofsR BoxAdmm_Equiv AdmmRelax_Spec AdmmRelax_Proofs AdmmAdapt_Spec.
Local Open Scope R_scope.

(** ** counting, for any loop *)
Section Budget.
Context {O : Type}.
Variables (body : Z -> O -> pass O) (mx : Z) (init : O) (up : O -> Z) (pot : O -> R) (F thr : R) (ct : Z) (chk : Z -> bool).
Hypothesis HF : 1 <= F.
Hypothesis Hthr : 0 < thr.
Hypothesis Hct : (0 < ct)%Z.
Hypothesis Hchk : forall k, chk k = true <-> (Z.rem k ct = 0)%Z.
Hypothesis Hstep : forall k o o', visits body mx init k o -> (k <= mx)%Z -> body k o = Cont o' ->
  exists P, 0 <= P <= pot o /\ (chk k = true -> (2 <= k)%Z -> P + thr <= pot o) /\
    ((up o' = up o /\ pot o' <= P) \/ (up o' = (up o + 1)%Z /\ pot o' <= F * P)).
Hypothesis Hp0 : 0 <= pot init.

Lemma budget k o : visits body mx init k o -> exists u : nat, up o = (up init + Z.of_nat u)%Z /\
  pot o <= F ^ u * pot init /\ pot o + thr * (IZR ((k - 1) / ct) - 1) <= F ^ u * pot init.
Proof.
  intros Hv. induction Hv as [|k o o' Hv (u & Eu & IH1 & IH2) Hk Hb].
  - exists 0%nat. replace ((1 - 1) / ct)%Z with 0%Z by (symmetry; apply Z.div_small; lia). rewrite pow_O. split; [lia|]. split; lra.
  - destruct (Hstep k o o' Hv Hk Hb) as (P & [P0 P1] & P2 & P3).
    assert (Hk1 := proj1 (visits_range _ _ _ _ _ Hv)). replace (k + 1 - 1)%Z with k by lia.
    assert (Q : P + thr * (IZR (k / ct) - 1) <= F ^ u * pot init).
    { destruct (chk k) eqn:Hck.
      + destruct (Z_le_gt_dec 2 k) as [H2|H2].
        * specialize (P2 eq_refl H2).
          assert (E : ((k - 1) / ct + 1 >= k / ct)%Z).
          { replace ((k - 1) / ct + 1)%Z with ((k - 1 + 1 * ct) / ct)%Z by (rewrite Z.div_add; lia). apply Z.le_ge, Z.div_le_mono; lia. }
          assert (IZR (k / ct) <= IZR ((k - 1) / ct) + 1) by (rewrite <- plus_IZR; apply IZR_le; lia). nra.
        * assert (k = 1)%Z by lia. subst k. assert (IZR (1 / ct) <= 1) by (apply IZR_le; apply Z.div_le_upper_bound; lia). nra.
      + assert (E : (k / ct = (k - 1) / ct)%Z).
        { assert (Hn : (k mod ct <> 0)%Z).
          { intro E. rewrite <- Z.rem_mod_nonneg in E by lia. apply Hchk in E. congruence. }
          assert (D := Z.div_mod k ct ltac:(lia)). assert (B := Z.mod_pos_bound k ct Hct).
          apply Z.div_unique with (r := (k mod ct - 1)%Z); lia. }
        rewrite E. lra. }
    destruct P3 as [[E3 P3]|[E3 P3]].
    + exists u. split; [lia|]. split; lra.
    + exists (S u). split; [lia|]. simpl pow. assert (A : F * P <= F * (F ^ u * pot init)) by (apply Rmult_le_compat_l; lra).
      split; [lra|]. destruct (Rle_dec 0 (IZR (k / ct) - 1)) as [H0|H0].
      * assert (0 <= thr * (IZR (k / ct) - 1)) by (apply Rmult_le_pos; lra).
        assert (F * (P + thr * (IZR (k / ct) - 1)) <= F * (F ^ u * pot init)) by (apply Rmult_le_compat_l; lra). nra.
      * assert (thr * (IZR (k / ct) - 1) <= 0) by nra. lra.
Qed.

(** a visit late enough has seen more than U changes *)
Lemma many_changes (U N : nat) k o : 0 <= pot o -> F ^ U * pot init < INR N * thr -> (ct * (Z.of_nat N + 1) < k)%Z ->
  visits body mx init k o -> (up init + Z.of_nat U < up o)%Z.
Proof.
  intros Hn HN Hk Hv. destruct (budget k o Hv) as (u & Eu & _ & B). rewrite Eu.
  destruct (Nat.le_gt_cases u U) as [H|H]; [exfalso|lia].
  assert (M : F ^ u <= F ^ U) by (apply Rle_pow; auto).
  assert (F ^ u * pot init <= F ^ U * pot init) by (apply Rmult_le_compat_r; auto).
  assert (Z.of_nat N + 1 <= (k - 1) / ct)%Z by (apply Z.div_le_lower_bound; lia).
  assert (Q : IZR (Z.of_nat N + 1) <= IZR ((k - 1) / ct)) by (apply IZR_le; auto).
  rewrite plus_IZR, <- INR_IZR_INZ in Q. nra.
Qed.
End Budget.

(** ** the metric *)
Section Metric.
Variables (s : qp_settings R) (p : qp_data R).
Hypothesis Hsig : 0 < sigma s.
Hypothesis Hr0 : 0 < rho0 s.
Hypothesis Hal : 0 < alpha s < 2.
Notation mn := (qm p + qn p)%nat.
Notation al := (alpha s).
Notation lo := (rho_low s).
Notation hi := (adapt_high s).
Definition rho_in (r : vec R) : Prop := forall i, (i < mn)%nat -> lo <= r i <= hi.

Lemma lo_pos : 0 < lo.
Proof. apply rho_low_pos; auto. Qed.
Lemma lo_le_hi : lo <= hi.
Proof. unfold rho_low, adapt_high. eapply Rle_trans; [apply Rmin_r|]. assert (M := Rmax_l (rho0 s) 1000000). lra. Qed.
Lemma rho_in_pos r i : rho_in r -> (i < mn)%nat -> 0 < r i.
Proof. intros H Hi. assert (L := lo_pos). destruct (H i Hi). lra. Qed.

Lemma metric_bounds r x z y x' z' y' : rho_in r ->
  Rmin al (2 - al) * dist2 s p r x z y x' z' y' <= rdist2 s p r x z y x' z' y' <= Rmax al (2 - al) * dist2 s p r x z y x' z' y'.
Proof.
  intros HR. assert (W : 0 <= wsq (qn p) (fun _ => sigma s) (fun j => x j - x' j)) by (apply wsq_nonneg; intros; lra).
  unfold rdist2, dist2. set (X := wsq (qn p) _ _) in *. set (D := rsum mn _).
  set (Z := wsq mn r _). set (Y := wsq mn (fun i => / r i) _).
  assert (P : 0 <= Z + Y + 2 * D /\ 0 <= Z + Y - 2 * D).
  { unfold Z, Y, D, wsq. rewrite <- rsum_scal, <- !rsum_plus, <- rsum_minus. split; apply rsum_nonneg; intros i Hi;
    assert (Hp := rho_in_pos r i HR Hi); assert (Hq : 0 < / r i) by (apply Rinv_0_lt_compat; auto);
    set (a := z i - z' i); set (b := y i - y' i).
    - replace (r i * (a * a) + / r i * (b * b) + 2 * (b * a)) with (/ r i * ((r i * a + b) * (r i * a + b))) by (field; lra).
      apply Rmult_le_pos; [lra|apply Rle_0_sqr].
    - replace (r i * (a * a) + / r i * (b * b) - 2 * (b * a)) with (/ r i * ((r i * a - b) * (r i * a - b))) by (field; lra).
      apply Rmult_le_pos; [lra|apply Rle_0_sqr]. }
  clearbody X Y Z D. destruct P as [P1 P2]. unfold Rmin, Rmax. destruct (Rle_dec al (2 - al)); split; nra.
Qed.
Lemma metric_nonneg r x z y x' z' y' : rho_in r -> 0 <= dist2 s p r x z y x' z' y'.
Proof.
  intros HR. unfold dist2.
  assert (0 <= wsq (qn p) (fun _ => sigma s) (fun j => x j - x' j)) by (apply wsq_nonneg; intros; lra).
  assert (0 <= wsq mn r (fun i => z i - z' i)) by (apply wsq_nonneg; intros; left; apply rho_in_pos; auto).
  assert (0 <= wsq mn (fun i => / r i) (fun i => y i - y' i)) by (apply wsq_nonneg; intros; left; apply Rinv_0_lt_compat, rho_in_pos; auto).
  lra.
Qed.
Lemma min_pos : 0 < Rmin al (2 - al).
Proof. apply Rmin_glb_lt; lra. Qed.
Lemma rmetric_nonneg r x z y x' z' y' : rho_in r -> 0 <= rdist2 s p r x z y x' z' y'.
Proof.
  intros HR. eapply Rle_trans; [|apply metric_bounds; auto]. apply Rmult_le_pos; [left; apply min_pos|apply metric_nonneg; auto].
Qed.

Lemma dist2_change r r' x z y x' z' y' : rho_in r -> rho_in r' ->
  dist2 s p r' x z y x' z' y' <= hi / lo * dist2 s p r x z y x' z' y'.
Proof.
  intros HR HR'. assert (L := lo_pos). assert (LH := lo_le_hi).
  assert (Q1 : 1 <= hi / lo) by (apply Rmult_le_reg_r with lo; auto; unfold Rdiv; rewrite Rmult_assoc, Rinv_l, Rmult_1_r by lra; lra).
  unfold dist2. set (X := wsq (qn p) _ _).
  assert (HX : 0 <= X) by (apply wsq_nonneg; intros; lra).
  assert (HZ : wsq mn r' (fun i => z i - z' i) <= hi / lo * wsq mn r (fun i => z i - z' i)).
  { unfold wsq. rewrite <- rsum_scal. apply rsum_le. intros i Hi. rewrite <- (Rmult_assoc (hi / lo)). apply Rmult_le_compat_r; [apply Rle_0_sqr|].
    destruct (HR i Hi), (HR' i Hi). apply Rle_trans with hi; auto. apply Rle_trans with (hi / lo * lo); [right; field; lra|].
    apply Rmult_le_compat_l; lra. }
  assert (HY : wsq mn (fun i => / r' i) (fun i => y i - y' i) <= hi / lo * wsq mn (fun i => / r i) (fun i => y i - y' i)).
  { unfold wsq. rewrite <- rsum_scal. apply rsum_le. intros i Hi. rewrite <- (Rmult_assoc (hi / lo)). apply Rmult_le_compat_r; [apply Rle_0_sqr|].
    destruct (HR i Hi), (HR' i Hi). apply Rle_trans with (/ lo); [apply Rinv_le_contravar; auto|].
    apply Rle_trans with (hi / lo * / hi); [right; field; lra|]. apply Rmult_le_compat_l; [lra|apply Rinv_le_contravar; lra]. }
  nra.
Qed.
Lemma factor_ge_1 : 1 <= adapt_factor s.
Proof.
  unfold adapt_factor. assert (L := lo_pos). assert (LH := lo_le_hi). assert (M := min_pos).
  assert (Q1 : 1 <= hi / lo) by (apply Rmult_le_reg_r with lo; auto; unfold Rdiv; rewrite Rmult_assoc, Rinv_l, Rmult_1_r by lra; lra).
  assert (Q2 : 1 <= Rmax al (2 - al) / Rmin al (2 - al)).
  { apply Rmult_le_reg_r with (Rmin al (2 - al)); auto. unfold Rdiv. rewrite Rmult_assoc, Rinv_l, Rmult_1_r, Rmult_1_l by lra.
    eapply Rle_trans; [apply Rmin_l|apply Rmax_l]. }
  nra.
Qed.
Lemma rdist2_change r r' x z y x' z' y' : rho_in r -> rho_in r' ->
  rdist2 s p r' x z y x' z' y' <= adapt_factor s * rdist2 s p r x z y x' z' y'.
Proof.
  intros HR HR'. assert (L := lo_pos). assert (LH := lo_le_hi). assert (M := min_pos).
  assert (Q0 : 0 <= hi / lo) by (apply Rmult_le_pos; [lra|left; apply Rinv_0_lt_compat; auto]).
  assert (MX : 0 <= Rmax al (2 - al)) by (eapply Rle_trans; [|apply Rmax_l]; lra).
  eapply Rle_trans; [apply metric_bounds; auto|].
  eapply Rle_trans; [apply Rmult_le_compat_l; [exact MX|apply (dist2_change r r' x z y x' z' y' HR HR')]|].
  assert (B := proj1 (metric_bounds r x z y x' z' y' HR)).
  unfold adapt_factor. set (d := dist2 _ _ _ _ _ _ _ _ _) in *. set (e := rdist2 _ _ _ _ _ _ _ _ _) in *.
  replace (Rmax al (2 - al) * (hi / lo * d)) with (Rmax al (2 - al) / Rmin al (2 - al) * (hi / lo) * (Rmin al (2 - al) * d)) by (field; lra).
  apply Rmult_le_compat_l; auto. apply Rmult_le_pos; auto. apply Rmult_le_pos; auto. left. apply Rinv_0_lt_compat; auto.
Qed.

Variable e : R.
Hypothesis He : 0 < e.
Notation d := (adapt_step e s p).
Notation thr := (adapt_threshold e s p).
Lemma hi_pos : 0 < hi.
Proof. assert (L := lo_pos). assert (LH := lo_le_hi). lra. Qed.
Lemma adenom_pos : 0 < 3 + col_mass p + hess_mass p + 3 * hi * col_mass p + sigma s.
Proof. assert (H1 := col_mass_nonneg p). assert (H2 := hess_mass_nonneg p). assert (H3 := hi_pos). nra. Qed.
Lemma ad_pos : 0 < d.
Proof. unfold adapt_step. apply Rdiv_lt_0_compat; auto. apply adenom_pos. Qed.
Lemma alow_pos : 0 < Rmin (sigma s) lo.
Proof. apply Rmin_glb_lt; auto. apply lo_pos. Qed.
Lemma athr_pos : 0 < thr.
Proof. unfold adapt_threshold. assert (H1 := ad_pos). assert (H2 := alow_pos). apply Rmult_lt_0_compat; [apply Rmult_lt_0_compat; lra|apply Rmult_lt_0_compat; [lra|apply Rmult_lt_0_compat; lra]]. Qed.
End Metric.

Lemma rho_row_in (s : qp_settings R) c r : 0 < rho0 s -> r = rho0 s \/ RHO_MIN <= r <= RHO_MAX ->
  rho_low s <= rho_of_type c r <= adapt_high s.
Proof.
  intros Hr0 H. assert (L1 := Rmin_l RHO_MIN (rho0 s)). assert (L2 := Rmin_r RHO_MIN (rho0 s)). fold (rho_low s) in L1, L2.
  assert (U1 := Rmax_l (rho0 s) 1000000). assert (U2 := Rmax_r (rho0 s) 1000000). unfold adapt_high.
  rewrite rho_of_type_R. unfold RHO_MIN, RHO_MAX, scst in *. revert H L1 L2. rsimp. intros. destruct c; destruct H as [->|[A B]]; split; lra.
Qed.

(** ** one pass of ADMM *)
Section Adm.
Variable lsolve : nat -> mat R -> vec R -> vec R.
Variable full : bool.
Hypothesis Hexact : exact_solver full lsolve.
Variables (s : qp_settings R) (p : qp_data R) (xs ys : vec R).
Hypothesis Hsym : symmetric (qn p) (qH p).
Hypothesis Hpsd : psd (qn p) (qH p).
Hypothesis Hsig : 0 < sigma s.
Hypothesis Hr0 : 0 < rho0 s.
Hypothesis Hal : 0 < alpha s < 2.
Hypothesis HK : kkt_pair p xs ys.
Notation mn := (qm p + qn p)%nat.
Notation al := (alpha s).
Definition apot (o : admm_obj R) : R := rdist2 s p (a_rho_vec o) (a_x o) (a_z o) (a_y o) xs (stackv p xs) ys.
Definition good (o : admm_obj R) : Prop := admm_inv full s p o /\
  (forall i, (i < mn)%nat -> 0 < a_rho_vec o i /\ a_rho_inv o i = / a_rho_vec o i) /\ rho_in s p (a_rho_vec o).

Lemma good_decrease o : good o -> apot (admm_update lsolve s p o) + al * (2 - al) *
   (wsq (qn p) (fun _ => sigma s) (fun j => tilde lsolve s p o j - a_x o j) + wsq mn (a_rho_vec o) (fun i => stackv p (tilde lsolve s p o) i - a_z o i)) <= apot o.
Proof. intros (HI & HR & _). apply (r_decrease lsolve full Hexact s p o HI Hsym Hpsd Hsig Hal (kkt_consistent _ _ _ HK) HR xs ys HK). Qed.
Lemma good_wsq o f g : good o -> 0 <= wsq (qn p) (fun _ => sigma s) f /\ 0 <= wsq mn (a_rho_vec o) g.
Proof. intros (_ & HR & _). split; apply wsq_nonneg; intros; [lra|left; apply HR; auto]. Qed.
Lemma good_monotone o : good o -> 0 <= apot (admm_update lsolve s p o) <= apot o.
Proof.
  intros HG. split.
  - destruct HG as (_ & _ & HR). apply (rmetric_nonneg s p Hsig Hr0 Hal (a_rho_vec o)); auto.
  - assert (D := good_decrease o HG).
    match type of D with _ + _ * (wsq _ _ ?f + wsq _ _ ?g) <= _ => destruct (good_wsq o f g HG) as [P1 P2] end.
    assert (0 < al * (2 - al)) by nra. nra.
Qed.

(** a short step from a normal state leaves small residuals *)
Lemma good_short e o : 0 < e -> good o -> normal_at p o ->
  apot o < apot (admm_update lsolve s p o) + adapt_threshold e s p ->
  let u := admm_update lsolve s p o in
  (forall i, (i < mn)%nat -> Rabs (stackv p (a_x u) i - a_z u i) <= e) /\ (forall j, (j < qn p)%nat -> Rabs (lag_grad p (a_x u) (a_y u) j) <= e).
Proof.
  intros He HG HN HS u. assert (D := good_decrease o HG). fold u in D, HS.
  set (f := fun j => tilde lsolve s p o j - a_x o j) in *. set (g := fun i => stackv p (tilde lsolve s p o) i - a_z o i) in *.
  destruct (good_wsq o f g HG) as [W1 W2]. destruct HG as (HI & HR & HRI).
  assert (AA : 0 < al * (2 - al)) by nra. unfold adapt_threshold in HS. set (dd := adapt_step e s p) in *.
  assert (HD : 0 < dd) by (apply ad_pos; auto). assert (HL := alow_pos s Hsig Hr0).
  assert (Hle : wsq (qn p) (fun _ => sigma s) f + wsq mn (a_rho_vec o) g <= Rmin (sigma s) (rho_low s) * (dd * dd)).
  { left. apply Rmult_lt_reg_l with (al * (2 - al)); auto. lra. }
  assert (Hsq : forall a w, Rmin (sigma s) (rho_low s) <= w -> w * (a * a) <= Rmin (sigma s) (rho_low s) * (dd * dd) -> Rabs a <= dd).
  { intros a w Hw Ha. assert (Q : a * a <= dd * dd).
    { assert (0 <= a * a) by apply Rle_0_sqr. apply Rmult_le_reg_l with (Rmin (sigma s) (rho_low s)); auto. nra. }
    apply Rsqr_le_abs_0 in Q. rewrite (Rabs_right dd) in Q by lra. exact Q. }
  assert (F1 : forall j, (j < qn p)%nat -> Rabs (f j) <= dd).
  { intros j Hj. apply (Hsq _ (sigma s)). apply Rmin_l. assert (T := wsq_term (qn p) (fun _ => sigma s) f j ltac:(intros; lra) Hj). cbv beta in T. lra. }
  assert (F2 : forall i, (i < mn)%nat -> Rabs (g i) <= dd).
  { intros i Hi. apply (Hsq _ (a_rho_vec o i)). eapply Rle_trans; [apply Rmin_r|]. apply HRI; auto.
    assert (T := wsq_term mn (a_rho_vec o) g i ltac:(intros; left; apply HR; auto) Hi). cbv beta in T. lra. }
  assert (HH := hi_pos s Hr0).
  destruct (r_small lsolve full Hexact s p o HI Hsym Hpsd Hsig Hal (kkt_consistent _ _ _ HK) HR dd (adapt_high s) HN) as [S1 S2]; auto; try lra.
  - intros i Hi. apply HRI; auto.
  - assert (H1 := col_mass_nonneg p). assert (H2 := hess_mass_nonneg p).
    assert (E : (3 + col_mass p + hess_mass p + 3 * adapt_high s * col_mass p + sigma s) * dd = e).
    { unfold dd, adapt_step. field. apply Rgt_not_eq, adenom_pos; auto. }
    assert (0 <= adapt_high s * col_mass p) by nra.
    assert (B1 : (3 + col_mass p) * dd <= e) by (eapply Rle_trans; [|right; exact E]; apply Rmult_le_compat_r; lra).
    assert (B2 : (hess_mass p + 3 * adapt_high s * col_mass p + sigma s) * dd <= e) by (eapply Rle_trans; [|right; exact E]; apply Rmult_le_compat_r; lra).
    split; [intros i Hi; specialize (S1 i Hi); fold u in S1; lra|intros j Hj; specialize (S2 j Hj); fold u in S2; lra].
Qed.
End Adm.

(** ** whole runs *)
Section Run.
Variable lsolve : nat -> mat R -> vec R -> vec R.
Variable full : bool.
Hypothesis Hexact : exact_solver full lsolve.
Variables (s : qp_settings R) (p : qp_data R) (xs ys xg yg : vec R).
Hypothesis Hsym : symmetric (qn p) (qH p).
Hypothesis Hpsd : psd (qn p) (qH p).
Hypothesis Hsig : 0 < sigma s.
Hypothesis Hr0 : 0 < rho0 s.
Hypothesis HK : kkt_pair p xs ys.
Hypothesis Heps : 0 < eps_abs s.
Hypothesis Hrel : 0 <= eps_rel s.
Hypothesis Hint : adaptive_rho s = false \/ adaptive_rho_interval s <> 0%Z.
Hypothesis Hct : check_termination s <> 0%Z.
Notation mn := (qm p + qn p)%nat.
Notation al := (alpha s).
Notation ct := (Z.abs (check_termination s)).
Notation guess_dist := (Rmax al (2 - al) * dist2 s p (rho_fix s p) xg (stackv p xg) yg xs (stackv p xs) ys).

Section ADMM.
Hypothesis Hal : 0 < alpha s < 2.
Variable ob : admm_obj R.
Notation body := (admm_body lsolve s p).
Notation init := (admm_setup full s p xg yg ob).
Notation apot := (apot s p xs ys).

Lemma visits_good k o : visits body (max_iter s) init k o -> good full s p o.
Proof.
  intros Hv. assert (HI := visits_admm_inv _ _ _ _ _ _ _ _ _ Hv). split; [exact HI|]. split; [eapply visits_rho_pos; eauto|].
  intros i Hi. rewrite (inv_rvec _ _ _ _ HI) by auto. apply rho_row_in; auto. eapply visits_rho; eauto.
Qed.
Lemma body_changes k o o' : body k o = Cont o' ->
  (a_rho_updates o' = a_rho_updates o /\ a_rho_vec o' = a_rho_vec o) \/ a_rho_updates o' = (a_rho_updates o + 1)%Z.
Proof.
  unfold admm_body. cbv zeta. set (u := admm_update lsolve s p o).
  assert (Eu : a_rho_updates u = a_rho_updates o /\ a_rho_vec u = a_rho_vec o) by (split; reflexivity). clearbody u. destruct Eu as [<- <-].
  destruct (_ && _); [discriminate|].
  assert (E : forall b : bool, let v := if b then residuals_update p u else u in a_rho_updates v = a_rho_updates u /\ a_rho_vec v = a_rho_vec u)
    by (intros [|]; split; reflexivity).
  destruct (adaptive_rho s); [|intros HH; injection HH as <-; left; apply E].
  destruct (adaptive_rho_interval s =? 0)%Z; [discriminate|].
  destruct (Z.rem k (adaptive_rho_interval s) =? 0)%Z; [|intros HH; injection HH as <-; left; apply E].
  intros HH; injection HH as <-.
  set (v := if is_check_iter s k then _ else _).
  assert (Ev : a_rho_updates v = a_rho_updates u /\ a_rho_vec v = a_rho_vec u) by (unfold v; destruct (is_check_iter s k); split; reflexivity).
  clearbody v. destruct Ev as [<- <-]. unfold adapt_rho. destruct (rho_change_needed _ _ _); [right|left; split]; reflexivity.
Qed.
Lemma avisits_normal k o : visits body (max_iter s) init k o -> (2 <= k)%Z -> normal_at p o.
Proof.
  intros Hv Hk. inversion Hv as [|k0 o0 o1 Hv0 Hk0 Hb]; subst; [lia|].
  destruct (body_cont_xyz _ _ _ _ _ _ Hb) as (_ & Ey & Ez). unfold normal_at. rewrite Ey, Ez.
  apply r_normal; [apply (kkt_consistent _ _ _ HK)|]. eapply visits_rho_pos; eauto.
Qed.

Lemma adapt_pass k o o' : visits body (max_iter s) init k o -> (k <= max_iter s)%Z -> body k o = Cont o' ->
  exists P, 0 <= P <= apot o /\ (is_check_iter s k = true -> (2 <= k)%Z -> P + adapt_threshold (eps_abs s) s p <= apot o) /\
    ((a_rho_updates o' = a_rho_updates o /\ apot o' <= P) \/ (a_rho_updates o' = (a_rho_updates o + 1)%Z /\ apot o' <= adapt_factor s * P)).
Proof.
  intros Hv Hm Hb. assert (HG := visits_good k o Hv). exists (apot (admm_update lsolve s p o)).
  split; [apply (good_monotone lsolve full Hexact); auto|]. split.
  - intros Hck Hk. apply Rnot_lt_le. intros Hlt.
    destruct (good_short lsolve full Hexact s p xs ys Hsym Hpsd Hsig Hr0 Hal HK (eps_abs s) o Heps HG (avisits_normal k o Hv Hk) Hlt) as [S1 S2].
    destruct (body_check_stop lsolve s p k o Hck) as [o2 E2]; [|congruence].
    apply terminates_small; auto; try lra.
    + intros i Hi. specialize (S1 i ltac:(lia)). unfold stackv in S1. rewrite (proj2 (Nat.ltb_lt i (qm p))) in S1 by auto. lra.
    + intros j Hj. specialize (S1 (qm p + j)%nat ltac:(lia)). unfold stackv in S1. destruct (Nat.ltb_spec (qm p + j) (qm p)); [lia|].
      replace (qm p + j - qm p)%nat with j in S1 by lia. lra.
  - destruct (body_cont_xyz _ _ _ _ _ _ Hb) as (Ex & Ey & Ez). unfold AdmmAdapt_Proofs.apot. rewrite Ex, Ey, Ez.
    destruct (body_changes k o o' Hb) as [[E1 E2]|E1].
    + left. split; [exact E1|]. rewrite E2. right. reflexivity.
    + right. split; [exact E1|]. apply rdist2_change; auto. apply HG.
      apply (visits_good (k + 1) o'). eapply visits_next; eauto.
Qed.

Lemma apot_init : 0 <= apot init <= guess_dist.
Proof.
  assert (HG := visits_good 1 init (visits_first _ _ _)). destruct HG as (HI & _ & HR).
  destruct (setup_at_pair full s p xg yg ob) as (Hx & Hy & Hz). unfold AdmmAdapt_Proofs.apot. split; [apply rmetric_nonneg; auto|].
  eapply Rle_trans; [apply metric_bounds; auto|]. right. f_equal.
  rewrite (dist2_ext_l s p _ _ _ _ xg (stackv p xg) yg) by auto. apply dist2_ext. intros i Hi.
  rewrite (inv_rvec _ _ _ _ HI) by auto. rewrite (inv_ctype _ _ _ _ HI). reflexivity.
Qed.
Lemma adapt_result (U N : nat) : adapt_factor s ^ U * guess_dist < INR N * adapt_threshold (eps_abs s) s p ->
  (ct * (Z.of_nat N + 1) <= max_iter s)%Z ->
  exists o', admm_solve lsolve full s p xg yg ob = Some o' /\
    ((a_status o' = SOLVED /\ (a_iter o' <= max_iter s)%Z) \/ (a_rho_updates ob + 1 + Z.of_nat U < a_rho_updates o')%Z).
Proof.
  intros HN Hmx. destruct (solve_defined lsolve full s p xg yg ob Hint) as [o' Ho]. exists o'. split; auto.
  destruct (solve_cases _ _ _ _ _ _ _ _ Ho) as [[k [o1 [Hv [Hk ->]]]]|[k [o1 [o2 [Hv [Hk [Hb ->]]]]]]].
  - right. change (a_rho_updates ob + 1)%Z with (a_rho_updates init). cbn [a_rho_updates set_iter set_status].
    apply (many_changes body (max_iter s) init a_rho_updates apot (adapt_factor s) (adapt_threshold (eps_abs s) s p) ct (is_check_iter s)
      (factor_ge_1 s Hr0 Hal) (athr_pos s p Hsig Hr0 Hal (eps_abs s) Heps) ltac:(lia) (check_iff s Hct) (adapt_pass) (proj1 apot_init) U N k o1).
    + destruct (visits_good k o1 Hv) as (_ & _ & HR). apply rmetric_nonneg; auto.
    + eapply Rle_lt_trans; [|exact HN]. apply Rmult_le_compat_l; [apply pow_le; assert (F1 := factor_ge_1 s Hr0 Hal); lra|apply apot_init].
    + lia.
    + exact Hv.
  - left. apply body_stop in Hb. destruct Hb as (_ & Hs & _). split; auto.
Qed.
End ADMM.

Section Box.
Hypothesis Hal : alpha s = 1.
Variable ob : box_obj R.
Hypothesis Hoff : boff (qn p) (qm p) (b_K ob).
Notation body := (box_body lsolve s p).
Notation init := (box_setup full s p xg yg ob).
Notation A := (toA full s p).
Definition bpot (o : box_obj R) : R := apot s p xs ys (A o).
Lemma Hal2 : 0 < alpha s < 2.
Proof. rewrite Hal. lra. Qed.

Lemma bvisits_good k o : visits body (max_iter s) init k o -> good full s p (A o).
Proof.
  intros Hv. assert (HB := bvisits_inv lsolve full _ _ _ _ _ _ _ Hv). assert (HI := toA_inv full s p o HB).
  split; [exact HI|]. split; [apply toA_rho; eapply bvisits_rho_pos; eauto|].
  intros i Hi. rewrite (inv_rvec _ _ _ _ HI) by auto. apply rho_row_in; auto. cbn [toA a_rho]. eapply bvisits_rho; eauto.
Qed.
Lemma bbody_changes k o o' : body k o = Cont o' ->
  (b_rho_updates o' = b_rho_updates o /\ b_rho_vec o' = b_rho_vec o /\ b_rho_box o' = b_rho_box o) \/ b_rho_updates o' = (b_rho_updates o + 1)%Z.
Proof.
  unfold box_body. cbv zeta. set (u := box_update lsolve s p o).
  assert (Eu : b_rho_updates u = b_rho_updates o /\ b_rho_vec u = b_rho_vec o /\ b_rho_box u = b_rho_box o) by (repeat split; reflexivity).
  clearbody u. destruct Eu as (<- & <- & <-).
  destruct (_ && _); [discriminate|].
  assert (E : forall b : bool, let v := if b then box_residuals_update p u else u in
    b_rho_updates v = b_rho_updates u /\ b_rho_vec v = b_rho_vec u /\ b_rho_box v = b_rho_box u) by (intros [|]; repeat split; reflexivity).
  destruct (adaptive_rho s); [|intros HH; injection HH as <-; left; apply E].
  destruct (adaptive_rho_interval s =? 0)%Z; [discriminate|].
  destruct (Z.rem k (adaptive_rho_interval s) =? 0)%Z; [|intros HH; injection HH as <-; left; apply E].
  intros HH; injection HH as <-.
  set (v := if is_check_iter s k then _ else _).
  assert (Ev : b_rho_updates v = b_rho_updates u /\ b_rho_vec v = b_rho_vec u /\ b_rho_box v = b_rho_box u)
    by (unfold v; destruct (is_check_iter s k); repeat split; reflexivity).
  clearbody v. destruct Ev as (<- & <- & <-). unfold box_adapt_rho. destruct (rho_change_needed _ _ _); [right|left; repeat split]; reflexivity.
Qed.

Lemma badapt_pass k o o' : visits body (max_iter s) init k o -> (k <= max_iter s)%Z -> body k o = Cont o' ->
  exists P, 0 <= P <= bpot o /\ (is_check_iter s k = true -> (2 <= k)%Z -> P + adapt_threshold (eps_abs s / 2) s p <= bpot o) /\
    ((b_rho_updates o' = b_rho_updates o /\ bpot o' <= P) \/ (b_rho_updates o' = (b_rho_updates o + 1)%Z /\ bpot o' <= adapt_factor s * P)).
Proof.
  intros Hv Hm Hb. assert (HG := bvisits_good k o Hv). assert (HB := bvisits_inv lsolve full _ _ _ _ _ _ _ Hv).
  assert (HFa := bvisits_fact _ _ _ _ _ _ _ _ _ Hoff Hv). assert (HGr := bvisits_rho_pos _ _ _ _ _ _ _ _ _ Hr0 Hv).
  destruct (box_update_sim lsolve full Hexact s p o HB HFa HGr Hsym Hpsd Hsig Hal) as (Sx & Sy & Sz).
  exists (apot s p xs ys (admm_update lsolve s p (A o))).
  split; [apply (good_monotone lsolve full Hexact s p xs ys Hsym Hpsd Hsig Hr0 Hal2 HK); auto|]. split.
  - intros Hck Hk. apply Rnot_lt_le. intros Hlt.
    assert (HNo := bvisits_normal lsolve full Hexact s p xg yg ob xs ys Hoff Hsym Hpsd Hsig Hr0 Hal HK k o Hv Hk).
    destruct (good_short lsolve full Hexact s p xs ys Hsym Hpsd Hsig Hr0 Hal2 HK (eps_abs s / 2) (A o) ltac:(lra) HG HNo Hlt) as [S1 S2].
    destruct (bbody_check_stop lsolve s p k o Hck) as [o2 E2]; [|congruence].
    set (u := box_update lsolve s p o) in *. set (v := admm_update lsolve s p (A o)) in *.
    apply bterminates_small; auto; try lra.
    + intros i Hi. specialize (Sz i ltac:(lia)). rewrite stk_l in Sz by auto. rewrite Sz.
      rewrite (rmv_ext _ _ (qA p) (b_x u) (a_x v)) by auto.
      specialize (S1 i ltac:(lia)). unfold stackv in S1. rewrite (proj2 (Nat.ltb_lt i (qm p))) in S1 by auto. exact S1.
    + intros j Hj. specialize (Sz (qm p + j)%nat ltac:(lia)). rewrite stk_r in Sz. rewrite Sz, Sx by auto.
      specialize (S1 (qm p + j)%nat ltac:(lia)). unfold stackv in S1. destruct (Nat.ltb_spec (qm p + j) (qm p)); [lia|].
      replace (qm p + j - qm p)%nat with j in S1 by lia. exact S1.
    + intros j Hj. assert (E : lag_grad p (b_x u) (b_y u) j = lag_grad p (a_x v) (a_y v) j).
      { unfold lag_grad. rewrite (rmv_ext _ _ (qH p) (b_x u) (a_x v)) by auto. rewrite Sy by lia.
        f_equal. f_equal. apply rsum_ext. intros. rewrite Sy by lia. reflexivity. }
      rewrite E. eapply Rle_trans; [apply S2; auto|lra].
  - destruct (bbody_cont _ _ _ _ _ _ Hb) as (Ex & Ey & Ez & Eq & _).
    assert (EP : bpot o' = rdist2 s p (a_rho_vec (A o')) (a_x (admm_update lsolve s p (A o))) (a_z (admm_update lsolve s p (A o)))
                                 (a_y (admm_update lsolve s p (A o))) xs (stackv p xs) ys).
    { unfold bpot, AdmmAdapt_Proofs.apot. cbn [toA a_x a_y a_z a_rho_vec]. rewrite Ex, Ey, Ez, Eq. unfold rdist2, dist2, wsq.
      f_equal; [f_equal; [f_equal|]|f_equal]; apply rsum_ext; intros; rewrite ?Sx, ?Sy, ?Sz by auto; reflexivity. }
    rewrite EP. destruct (bbody_changes k o o' Hb) as [(E1 & E2 & E3)|E1].
    + left. split; [exact E1|]. cbn [toA a_rho_vec]. rewrite E2, E3. right. reflexivity.
    + right. split; [exact E1|]. apply rdist2_change; auto; [apply Hal2|apply HG|].
      apply (bvisits_good (k + 1) o'). eapply visits_next; eauto.
Qed.
Lemma bpot_init : 0 <= bpot init <= guess_dist.
Proof.
  assert (HG := bvisits_good 1 init (visits_first _ _ _)). destruct HG as (HI & _ & HR). assert (Hal' := Hal2).
  destruct (proj1 (b_at_pair_A full s p xg yg init) (bsetup_at_pair full s p xg yg ob)) as (Hx & Hy & Hz).
  unfold bpot, AdmmAdapt_Proofs.apot. split; [apply rmetric_nonneg; auto|].
  eapply Rle_trans; [apply metric_bounds; auto|]. right. f_equal.
  rewrite (dist2_ext_l s p _ _ _ _ xg (stackv p xg) yg) by auto. apply dist2_ext. intros i Hi.
  rewrite (inv_rvec _ _ _ _ HI) by auto. rewrite (inv_ctype _ _ _ _ HI). reflexivity.
Qed.
Lemma badapt_result (U N : nat) : adapt_factor s ^ U * guess_dist < INR N * adapt_threshold (eps_abs s / 2) s p ->
  (ct * (Z.of_nat N + 1) <= max_iter s)%Z ->
  exists o', box_solve lsolve full s p xg yg ob = Some o' /\
    ((b_status o' = SOLVED /\ (b_iter o' <= max_iter s)%Z) \/ (b_rho_updates ob + 1 + Z.of_nat U < b_rho_updates o')%Z).
Proof.
  intros HN Hmx. destruct (bsolve_defined lsolve full s p xg yg ob Hint) as [o' Ho]. exists o'. split; auto.
  destruct (bsolve_cases _ _ _ _ _ _ _ _ Ho) as [[k [o1 [Hv [Hk ->]]]]|[k [o1 [o2 [Hv [Hk [Hb ->]]]]]]].
  - right. change (b_rho_updates ob + 1)%Z with (b_rho_updates init). cbn [b_rho_updates bset_iter bset_status].
    apply (many_changes body (max_iter s) init b_rho_updates bpot (adapt_factor s) (adapt_threshold (eps_abs s / 2) s p) ct (is_check_iter s)
      (factor_ge_1 s Hr0 Hal2) (athr_pos s p Hsig Hr0 Hal2 (eps_abs s / 2) ltac:(lra)) ltac:(lia) (check_iff s Hct) (badapt_pass) (proj1 bpot_init) U N k o1).
    + destruct (bvisits_good k o1 Hv) as (_ & _ & HR). apply rmetric_nonneg; auto. apply Hal2.
    + eapply Rle_lt_trans; [|exact HN]. apply Rmult_le_compat_l; [apply pow_le; assert (F1 := factor_ge_1 s Hr0 Hal2); lra|apply bpot_init].
    + lia.
    + exact Hv.
  - left. apply bbody_stop in Hb. destruct Hb as (_ & Hs & _). split; auto.
Qed.
End Box.
End Run.

Lemma adapt_count_exists (B thr : R) : 0 < thr -> exists N : nat, B < INR N * thr.
Proof.
  intros T. destruct (archimed (B / thr)) as [U _]. exists (Z.to_nat (up (B / thr))).
  assert (U2 : B / thr < INR (Z.to_nat (up (B / thr)))) by (eapply Rlt_le_trans; [apply U|]; rewrite INR_IZR_INZ; apply IZR_le; lia).
  apply Rmult_lt_reg_r with (/ thr). apply Rinv_0_lt_compat; auto. rewrite Rmult_assoc, Rinv_r, Rmult_1_r by lra. exact U2.
Qed.
