(** The ADMM iterates converge to one optimum (exact arithmetic, exact linear solver). *)
Require Import ZArith List Bool Lia Reals Lra Psatz.
From Verif Require Import Scal RSum Qp_Model Qp_Spec Qp_Proofs Admm_Model Admm_Spec Admm_SpecR Admm_Proofs Admm_ProofsR Admm_Conv
  AdmmRelax_Spec AdmmRelax_Proofs BoxAdmm_Model BoxAdmm_Proofs BoxAdmm_ProofsR BoxAdmm_Equiv AdmmLimit_Spec Bolzano.
Local Open Scope R_scope.

(** closedness of bounds and sign conditions *)
Lemma in_bounds_closed : forall lb ub (z : nat -> R) l, (forall k, in_bounds lb ub (z k)) -> Un_cv z l -> in_bounds lb ub l.
Proof.
  intros lb ub z l H C. split.
  - destruct lb as [b| |]; simpl; auto.
    + apply (cv_ge z l b C). intros k. apply (H k).
    + apply (H O).
  - destruct ub as [b| |]; simpl; auto.
    + apply (cv_le z l b C). intros k. apply (H k).
    + apply (H O).
Qed.

Lemma sign_ok_closed : forall lb ub (z y : nat -> R) l m, (forall k, sign_ok lb ub (z k) (y k)) -> Un_cv z l -> Un_cv y m ->
  sign_ok lb ub l m.
Proof.
  intros lb ub z y l m H Cz Cy. split; intros Hm.
  - destruct (cv_eventually_pos y m Cy Hm) as [N HN].
    assert (E : forall k, (N <= k)%nat -> ub = Fin (z k)) by (intros k Hk; apply (H k); auto).
    rewrite (E N (le_n N)). f_equal.
    assert (Ez : forall k, (N <= k)%nat -> z k = z N).
    { intros k Hk. assert (X : Fin (z k) = Fin (z N)) by (rewrite <- (E k Hk); apply E; lia). injection X. auto. }
    apply (UL_sequence z); [|exact Cz]. intros eps He. exists N. intros k Hk. rewrite Ez by lia.
    unfold R_dist. rewrite Rminus_diag_eq, Rabs_R0; auto.
  - destruct (cv_eventually_neg y m Cy Hm) as [N HN].
    assert (E : forall k, (N <= k)%nat -> lb = Fin (z k)) by (intros k Hk; apply (H k); auto).
    rewrite (E N (le_n N)). f_equal.
    assert (Ez : forall k, (N <= k)%nat -> z k = z N).
    { intros k Hk. assert (X : Fin (z k) = Fin (z N)) by (rewrite <- (E k Hk); apply E; lia). injection X. auto. }
    apply (UL_sequence z); [|exact Cz]. intros eps He. exists N. intros k Hk. rewrite Ez by lia.
    unfold R_dist. rewrite Rminus_diag_eq, Rabs_R0; auto.
Qed.

Lemma kkt_unstack : forall p x y,
  (forall j, (j < qn p)%nat -> lag_grad p x y j = 0) ->
  (forall i, (i < qm p + qn p)%nat -> in_bounds (lbS p i) (ubS p i) (stackv p x i) /\ sign_ok (lbS p i) (ubS p i) (stackv p x i) (y i)) ->
  kkt_pair p x y.
Proof.
  intros p x y HL HS. split; [exact HL|].
  assert (HA : forall i, (i < qm p)%nat -> in_bounds (qAlb p i) (qAub p i) (rmv (qn p) (qA p) x i) /\
     sign_ok (qAlb p i) (qAub p i) (rmv (qn p) (qA p) x i) (y i)).
  { intros i Hi. specialize (HS i ltac:(lia)). unfold lbS, ubS, stackv in HS.
    destruct (Nat.ltb_spec i (qm p)); [exact HS|lia]. }
  assert (HX : forall j, (j < qn p)%nat -> in_bounds (qxlb p j) (qxub p j) (x j) /\ sign_ok (qxlb p j) (qxub p j) (x j) (y (qm p + j)%nat)).
  { intros j Hj. specialize (HS (qm p + j)%nat ltac:(lia)). unfold lbS, ubS, stackv in HS.
    destruct (Nat.ltb_spec (qm p + j) (qm p)); [lia|]. replace (qm p + j - qm p)%nat with j in HS by lia. exact HS. }
  split; [split|split]; intros; try apply HA; try apply HX; auto.
Qed.

Section Limit.
Variable lsolve : nat -> mat R -> vec R -> vec R.
Variable full : bool.
Hypothesis Hexact : exact_solver full lsolve.
Variables (s : qp_settings R) (p : qp_data R) (xg yg : vec R) (ob : admm_obj R).
Hypothesis Hsym : symmetric (qn p) (qH p).
Hypothesis Hpsd : psd (qn p) (qH p).
Hypothesis Hsig : 0 < sigma s.
Hypothesis Hr0 : 0 < rho0 s.
Hypothesis Hal : 0 < alpha s < 2.
Notation n := (qn p).
Notation mn := (qm p + qn p)%nat.
Notation al := (alpha s).
Notation rfix := (rho_fix s p).

(** the iterates when nothing stops them *)
Definition it (k : nat) : admm_obj R := Nat.iter k (admm_update lsolve s p) (admm_setup full s p xg yg ob).
Definition free (K : Z) : qp_settings R :=
  mkSettings (eps_rel s) (eps_abs s) K (rho0 s) (sigma s) (alpha s) 0 false (adaptive_rho_tolerance s) (adaptive_rho_interval s).

Lemma it_visits : forall K k, (Z.of_nat k <= K)%Z ->
  visits (admm_body lsolve (free K) p) (max_iter (free K)) (admm_setup full (free K) p xg yg ob) (Z.of_nat k + 1) (it k).
Proof.
  intros K k. induction k as [|k IH]; intros Hk.
  - apply visits_first.
  - replace (Z.of_nat (S k) + 1)%Z with (Z.of_nat k + 1 + 1)%Z by lia.
    apply visits_next with (it k); [apply IH; lia|simpl; lia|reflexivity].
Qed.
Lemma it_inv : forall k, admm_inv full s p (it k).
Proof.
  intros k. pose proof (visits_admm_inv lsolve full _ _ _ _ _ _ _ (it_visits (Z.of_nat k) k (Z.le_refl _))) as H.
  destruct H as [H1 H2 H3 H4 H5]. constructor; auto.
Qed.
Lemma it_rho : forall k i, (i < mn)%nat -> 0 < a_rho_vec (it k) i /\ a_rho_inv (it k) i = / a_rho_vec (it k) i.
Proof. intros k. apply (visits_rho_pos lsolve full (free (Z.of_nat k)) p _ _ _ _ _ Hr0 (it_visits (Z.of_nat k) k (Z.le_refl _))). Qed.
Lemma it_fix : forall k i, (i < mn)%nat -> a_rho_vec (it k) i = rfix i.
Proof. intros k. apply (visits_rho_fix lsolve full (free (Z.of_nat k)) p xg yg ob eq_refl _ _ (it_visits (Z.of_nat k) k (Z.le_refl _))). Qed.

(** distance to an optimum along the iterates *)
Definition pot (xs ys : vec R) (k : nat) : R := rdist2 s p rfix (a_x (it k)) (a_z (it k)) (a_y (it k)) xs (stackv p xs) ys.
Definition dxk (k j : nat) : R := tilde lsolve s p (it k) j - a_x (it k) j.
Definition dzk (k i : nat) : R := stackv p (tilde lsolve s p (it k)) i - a_z (it k) i.
Definition stepk (k : nat) : R := wsq n (fun _ => sigma s) (dxk k) + wsq mn rfix (dzk k).

Lemma pot_nonneg : forall xs ys k, 0 <= pot xs ys k.
Proof. intros. apply (rpot_nonneg s p xs ys Hsig Hr0 Hal). Qed.
Lemma pot_step : forall xs ys k, kkt_pair p xs ys -> pot xs ys (S k) + al * (2 - al) * stepk k <= pot xs ys k.
Proof.
  intros xs ys k HK.
  exact (update_decrease lsolve full Hexact (free (Z.of_nat k)) p xg yg ob xs ys Hsym Hpsd Hsig Hr0 Hal eq_refl HK _ _
    (it_visits (Z.of_nat k) k (Z.le_refl _))).
Qed.
Lemma stepk_nonneg : forall k, 0 <= stepk k.
Proof. intros. apply (wsqs_nonneg s p Hsig Hr0). Qed.
Lemma pot_mono : forall xs ys k, kkt_pair p xs ys -> pot xs ys (S k) <= pot xs ys k.
Proof.
  intros xs ys k HK. pose proof (pot_step xs ys k HK). pose proof (stepk_nonneg k).
  assert (0 < al * (2 - al)) by nra. assert (0 <= al * (2 - al) * stepk k) by (apply Rmult_le_pos; lra). lra.
Qed.

Lemma it_normal : forall k, qp_consistent p -> normal_at p (it (S k)).
Proof. intros k Hc. change (it (S k)) with (admm_update lsolve s p (it k)). apply (r_normal lsolve s p (it k) Hc (it_rho k)). Qed.

Section Opt.
Variables xs ys : vec R.
Hypothesis HK : kkt_pair p xs ys.

Lemma steps_vanish : forall e, 0 < e -> exists K, forall k, (K <= k)%nat ->
  (forall j, (j < n)%nat -> Rabs (dxk k j) <= e) /\ (forall i, (i < mn)%nat -> Rabs (dzk k i) <= e).
Proof.
  intros e He. assert (AA : 0 < al * (2 - al)) by nra.
  assert (HL := low_pos s Hsig Hr0).
  set (low := Rmin (sigma s) (rho_low s)) in *.
  assert (C : Un_cv (fun k => al * (2 - al) * stepk k) 0).
  { apply (cv_summable (pot xs ys)).
    - intros; apply pot_nonneg.
    - intros k. apply Rmult_le_pos; [lra|apply stepk_nonneg].
    - intros k. apply (pot_step xs ys k HK). }
  destruct (C (al * (2 - al) * (low * (e * e)))) as [K HN].
  { apply Rmult_lt_0_compat; [exact AA|]. apply Rmult_lt_0_compat; [exact HL|nra]. }
  exists K. intros k Hk. specialize (HN k Hk). unfold R_dist in HN. rewrite Rminus_0_r in HN.
  assert (S0 := stepk_nonneg k).
  rewrite Rabs_right in HN by (apply Rle_ge, Rmult_le_pos; lra).
  assert (Hle : stepk k <= low * (e * e)).
  { apply Rmult_le_reg_l with (al * (2 - al)); [exact AA|lra]. }
  unfold stepk in Hle.
  assert (W1 : 0 <= wsq n (fun _ => sigma s) (dxk k)) by (apply wsq_nonneg; intros; lra).
  assert (W2 : 0 <= wsq mn rfix (dzk k)) by (apply wsq_nonneg; intros; left; apply rho_fix_pos; auto).
  assert (Hsq : forall a w, low <= w -> w * (a * a) <= low * (e * e) -> Rabs a <= e).
  { intros a w Hw Ha. assert (Q : a * a <= e * e).
    { assert (0 <= a * a) by apply Rle_0_sqr. apply Rmult_le_reg_l with low; auto. nra. }
    apply Rsqr_le_abs_0 in Q. rewrite (Rabs_right e) in Q by lra. exact Q. }
  split.
  - intros j Hj. apply (Hsq _ (sigma s)). apply Rmin_l.
    assert (T := wsq_term n (fun _ => sigma s) (dxk k) j ltac:(intros; lra) Hj). cbv beta in T. lra.
  - intros i Hi. apply (Hsq _ (rfix i)). eapply Rle_trans. apply Rmin_r. apply rho_fix_range; auto.
    assert (T := wsq_term mn rfix (dzk k) i ltac:(intros; left; apply rho_fix_pos; auto) Hi). cbv beta in T. lra.
Qed.

(** residuals tend to zero *)
Lemma residuals_vanish :
  (forall i, (i < mn)%nat -> Un_cv (fun k => stackv p (a_x (it k)) i - a_z (it k) i) 0) /\
  (forall j, (j < n)%nat -> Un_cv (fun k => lag_grad p (a_x (it k)) (a_y (it k)) j) 0).
Proof.
  assert (Hc := kkt_consistent p xs ys HK).
  assert (H1 := col_mass_nonneg p). assert (H2 := hess_mass_nonneg p). assert (H3 := rho_high_pos s).
  assert (H4 : 0 <= rho_high s * col_mass p) by nra.
  set (C := 3 + col_mass p + hess_mass p + 3 * rho_high s * col_mass p + sigma s).
  assert (HC : 0 < C) by (unfold C; nra).
  assert (X : forall e, 0 < e -> exists K, forall k, (K <= k)%nat ->
     (forall i, (i < mn)%nat -> Rabs (stackv p (a_x (it k)) i - a_z (it k) i) < e) /\
     (forall j, (j < n)%nat -> Rabs (lag_grad p (a_x (it k)) (a_y (it k)) j) < e)).
  { intros e He. assert (Hd : 0 < e / 2 / C) by (apply Rdiv_lt_0_compat; lra).
    destruct (steps_vanish (e / 2 / C) Hd) as [K HKs].
    exists (S (S K)). intros k Hk. destruct k as [|[|k]]; [lia|lia|].
    destruct (HKs (S k) ltac:(lia)) as [F1 F2].
    destruct (r_small lsolve full Hexact s p (it (S k)) (it_inv (S k)) Hsym Hpsd Hsig Hal Hc (it_rho (S k)) (e / 2 / C) (rho_high s)
      (it_normal k Hc)) as [S1 S2].
    - lra.
    - left. exact H3.
    - intros i Hi. rewrite it_fix by auto. apply rho_fix_range; auto.
    - exact F1.
    - exact F2.
    - change (admm_update lsolve s p (it (S k))) with (it (S (S k))) in S1, S2.
      assert (B : C * (e / 2 / C) = e / 2) by (field; lra).
      split; intros q Hq.
      + eapply Rle_lt_trans; [apply S1; exact Hq|].
        apply Rle_lt_trans with (C * (e / 2 / C)); [apply Rmult_le_compat_r; [lra|unfold C; lra]|lra].
      + eapply Rle_lt_trans; [apply S2; exact Hq|].
        apply Rle_lt_trans with (C * (e / 2 / C)); [apply Rmult_le_compat_r; [lra|unfold C; lra]|lra]. }
  split; intros q Hq e He; destruct (X e He) as [K HX]; exists K; intros k Hk; destruct (HX k ltac:(lia)) as [A1 A2];
    unfold R_dist; rewrite Rminus_0_r; [apply A1|apply A2]; exact Hq.
Qed.

(** the iterates stay bounded *)
Lemma small_terms : forall xs' ys' k,
  let B := pot xs' ys' k / Rmin al (2 - al) in
  (forall j, (j < n)%nat -> sigma s * ((a_x (it k) j - xs' j) * (a_x (it k) j - xs' j)) <= B) /\
  (forall i, (i < mn)%nat -> rfix i * ((a_z (it k) i - stackv p xs' i) * (a_z (it k) i - stackv p xs' i)) <= B) /\
  (forall i, (i < mn)%nat -> / rfix i * ((a_y (it k) i - ys' i) * (a_y (it k) i - ys' i)) <= B).
Proof.
  intros xs' ys' k B.
  assert (Hm : 0 < Rmin al (2 - al)) by (apply Rmin_glb_lt; lra).
  pose proof (proj1 (rdist2_bounds s p Hsig Hr0 (a_x (it k)) (a_z (it k)) (a_y (it k)) xs' (stackv p xs') ys')) as L.
  change (rdist2 s p rfix (a_x (it k)) (a_z (it k)) (a_y (it k)) xs' (stackv p xs') ys') with (pot xs' ys' k) in L.
  assert (D : dist2 s p rfix (a_x (it k)) (a_z (it k)) (a_y (it k)) xs' (stackv p xs') ys' <= B).
  { unfold B. apply Rmult_le_reg_l with (Rmin al (2 - al)); [exact Hm|].
    replace (Rmin al (2 - al) * (pot xs' ys' k / Rmin al (2 - al))) with (pot xs' ys' k) by (field; lra). exact L. }
  unfold dist2 in D.
  set (fx := fun j => a_x (it k) j - xs' j) in *. set (fz := fun i => a_z (it k) i - stackv p xs' i) in *.
  set (fy := fun i => a_y (it k) i - ys' i) in *.
  assert (Wp : forall i, (i < mn)%nat -> 0 <= rfix i) by (intros; left; apply rho_fix_pos; auto).
  assert (Wi : forall i, (i < mn)%nat -> 0 <= / rfix i) by (intros; left; apply Rinv_0_lt_compat, rho_fix_pos; auto).
  assert (W1 : 0 <= wsq n (fun _ => sigma s) fx) by (apply wsq_nonneg; intros; lra).
  assert (W2 : 0 <= wsq mn rfix fz) by (apply wsq_nonneg; auto).
  assert (W3 : 0 <= wsq mn (fun i => / rfix i) fy) by (apply wsq_nonneg; auto).
  split; [|split]; intros q Hq.
  - assert (T := wsq_term n (fun _ => sigma s) fx q ltac:(intros; lra) Hq). cbv beta in T. unfold fx at 1 2 in T. lra.
  - assert (T := wsq_term mn rfix fz q Wp Hq). cbv beta in T. unfold fz at 1 2 in T. lra.
  - assert (T := wsq_term mn (fun i => / rfix i) fy q Wi Hq). cbv beta in T. unfold fy at 1 2 in T. lra.
Qed.

Lemma pot_le0 : forall xs' ys' k, kkt_pair p xs' ys' -> pot xs' ys' k <= pot xs' ys' O.
Proof. intros xs' ys' k H. induction k as [|k IH]; [lra|]. pose proof (pot_mono xs' ys' k H). lra. Qed.

Lemma sq_bound : forall w a t B, 0 < w -> w * ((a - t) * (a - t)) <= B -> Rabs a <= 1 + Rabs t + B / w.
Proof.
  intros w a t B Hw H.
  assert (Q : (a - t) * (a - t) <= B / w).
  { apply Rmult_le_reg_l with w; [exact Hw|]. replace (w * (B / w)) with B by (field; lra). exact H. }
  assert (T : Rabs a <= Rabs (a - t) + Rabs t).
  { replace a with ((a - t) + t) at 1 by ring. apply Rabs_triang. }
  assert (E : Rabs (a - t) * Rabs (a - t) = (a - t) * (a - t)).
  { rewrite <- Rabs_mult. apply Rabs_right, Rle_ge, Rle_0_sqr. }
  assert (Rabs (a - t) <= 1 + (a - t) * (a - t)); [|lra].
  rewrite <- E. set (v := Rabs (a - t)). nra.
Qed.

Definition pack (x z y : vec R) : vec R :=
  fun i => if Nat.ltb i n then x i else if Nat.ltb i (n + mn) then z (i - n)%nat else y (i - (n + mn))%nat.

Lemma pack_x : forall x z y j, (j < n)%nat -> pack x z y j = x j.
Proof. intros. unfold pack. rewrite (proj2 (Nat.ltb_lt j n)) by auto. reflexivity. Qed.
Lemma pack_z : forall x z y i, (i < mn)%nat -> pack x z y (n + i)%nat = z i.
Proof.
  intros. unfold pack. destruct (Nat.ltb_spec (n + i) n); [lia|]. destruct (Nat.ltb_spec (n + i) (n + mn)); [|lia]. f_equal; lia.
Qed.
Lemma pack_y : forall x z y i, (i < mn)%nat -> pack x z y (n + mn + i)%nat = y i.
Proof.
  intros. unfold pack. destruct (Nat.ltb_spec (n + mn + i) n); [lia|]. destruct (Nat.ltb_spec (n + mn + i) (n + mn)); [lia|]. f_equal; lia.
Qed.

(** a limit point, which is an optimum *)
Lemma limit_point : exists (phi : nat -> nat) xl yl, (forall k, (phi k < phi (S k))%nat) /\ kkt_pair p xl yl /\
  (forall j, (j < n)%nat -> Un_cv (fun k => a_x (it (phi k)) j) (xl j)) /\
  (forall i, (i < mn)%nat -> Un_cv (fun k => a_z (it (phi k)) i) (stackv p xl i)) /\
  (forall i, (i < mn)%nat -> Un_cv (fun k => a_y (it (phi k)) i) (yl i)).
Proof.
  set (B := pot xs ys O / Rmin al (2 - al)).
  assert (Hm : 0 < Rmin al (2 - al)) by (apply Rmin_glb_lt; lra).
  assert (HB : 0 <= B).
  { apply Rmult_le_pos; [apply pot_nonneg|left; apply Rinv_0_lt_compat; exact Hm]. }
  set (u := fun k => pack (a_x (it k)) (a_z (it k)) (a_y (it k))).
  assert (Bk : forall k, pot xs ys k / Rmin al (2 - al) <= B).
  { intros k. unfold B, Rdiv. apply Rmult_le_compat_r; [left; apply Rinv_0_lt_compat; exact Hm|apply pot_le0; exact HK]. }
  (* component-wise bound, uniform in k *)
  set (t := pack xs (stackv p xs) ys).
  set (w := pack (fun _ => sigma s) rfix (fun i => / rfix i)).
  assert (Hw : forall i, 0 < w i).
  { intros i. unfold w, pack. destruct (Nat.ltb i n); [exact Hsig|]. destruct (Nat.ltb i (n + mn)).
    - apply rho_fix_pos; auto.
    - apply Rinv_0_lt_compat, rho_fix_pos; auto. }
  assert (Hu : forall k i, (i < n + mn + mn)%nat -> Rabs (u k i) <= 1 + Rabs (t i) + B / w i).
  { intros k i Hi. apply sq_bound; [apply Hw|].
    destruct (small_terms xs ys k) as (S1 & S2 & S3).
    destruct (Nat.lt_ge_cases i n) as [L1|L1].
    - unfold u, t, w. rewrite !pack_x by exact L1. eapply Rle_trans; [apply S1; exact L1|apply Bk].
    - destruct (Nat.lt_ge_cases i (n + mn)) as [L2|L2].
      + replace i with (n + (i - n))%nat by lia. unfold u, t, w. rewrite !pack_z by lia.
        eapply Rle_trans; [apply S2; lia|apply Bk].
      + replace i with (n + mn + (i - (n + mn)))%nat by lia. unfold u, t, w. rewrite !pack_y by lia.
        eapply Rle_trans; [apply S3; lia|apply Bk]. }
  set (M := rsum (n + mn + mn) (fun i => 1 + Rabs (t i) + B / w i)).
  assert (Hpos : forall i, (i < n + mn + mn)%nat -> 0 <= 1 + Rabs (t i) + B / w i).
  { intros i Hi. pose proof (Rabs_pos (t i)). assert (0 <= B / w i); [|lra].
    apply Rmult_le_pos; [exact HB|left; apply Rinv_0_lt_compat, Hw]. }
  destruct (bw_vec (n + mn + mn) u M) as (phi & l & Hphi & Hl).
  { intros k i Hi. eapply Rle_trans; [apply Hu; exact Hi|].
    apply (rsum_nonneg_term (n + mn + mn) (fun i => 1 + Rabs (t i) + B / w i)); auto. }
  set (xl := fun j => l j). set (zl := fun i => l (n + i)%nat). set (yl := fun i => l (n + mn + i)%nat).
  assert (Cx : forall j, (j < n)%nat -> Un_cv (fun k => a_x (it (phi k)) j) (xl j)).
  { intros j Hj. apply (cv_ext (fun k => u (phi k) j)); [intros; unfold u; apply pack_x; exact Hj|]. apply Hl. lia. }
  assert (Cz : forall i, (i < mn)%nat -> Un_cv (fun k => a_z (it (phi k)) i) (zl i)).
  { intros i Hi. apply (cv_ext (fun k => u (phi k) (n + i)%nat)); [intros; unfold u; apply pack_z; exact Hi|]. apply Hl. lia. }
  assert (Cy : forall i, (i < mn)%nat -> Un_cv (fun k => a_y (it (phi k)) i) (yl i)).
  { intros i Hi. apply (cv_ext (fun k => u (phi k) (n + mn + i)%nat)); [intros; unfold u; apply pack_y; exact Hi|]. apply Hl. lia. }
  destruct residuals_vanish as [R1 R2].
  assert (Cs : forall i, (i < mn)%nat -> Un_cv (fun k => stackv p (a_x (it (phi k))) i) (stackv p xl i)).
  { intros i Hi. unfold stackv. destruct (Nat.ltb_spec i (qm p)).
    - apply (cv_rmv n (qA p) (fun k => a_x (it (phi k)))). exact Cx.
    - apply Cx. lia. }
  assert (Ez : forall i, (i < mn)%nat -> stackv p xl i = zl i).
  { intros i Hi. assert (C1 := CV_minus _ _ _ _ (Cs i Hi) (Cz i Hi)).
    assert (C2 := cv_sub _ _ phi Hphi (R1 i Hi)).
    assert (E := UL_sequence _ _ _ C1 C2). lra. }
  exists phi, xl, yl. split; [exact Hphi|]. split; [|split; [exact Cx|split; [|exact Cy]]].
  2:{ intros i Hi. rewrite Ez by exact Hi. apply Cz; exact Hi. }
  apply kkt_unstack.
  - intros j Hj. apply (UL_sequence (fun k => lag_grad p (a_x (it (phi k))) (a_y (it (phi k))) j)).
    + unfold lag_grad. apply CV_plus; [apply CV_plus; [apply CV_plus|]|].
      * apply (cv_rmv n (qH p) (fun k => a_x (it (phi k)))). exact Cx.
      * apply cv_const.
      * apply (cv_rsum (qm p) (fun k i => qA p i j * a_y (it (phi k)) i) (fun i => qA p i j * yl i)).
        intros i Hi. apply CV_mult; [apply cv_const|apply Cy; lia].
      * apply Cy. lia.
    + apply (cv_sub _ _ phi Hphi (R2 j Hj)).
  - intros i Hi. rewrite Ez by exact Hi.
    assert (Nk : forall k, in_bounds (lbS p i) (ubS p i) (a_z (it (phi (S k))) i) /\
        sign_ok (lbS p i) (ubS p i) (a_z (it (phi (S k))) i) (a_y (it (phi (S k))) i)).
    { intros k. assert (Hk : (0 < phi (S k))%nat) by (pose proof (Hphi k); lia).
      destruct (phi (S k)) as [|q]; [lia|]. apply (it_normal q (kkt_consistent p xs ys HK) i Hi). }
    assert (Sh : forall k, (S k < S (S k))%nat) by (intros; lia).
    assert (Cz' := cv_sub (fun k => a_z (it (phi k)) i) _ S Sh (Cz i Hi)).
    assert (Cy' := cv_sub (fun k => a_y (it (phi k)) i) _ S Sh (Cy i Hi)).
    split.
    + apply (in_bounds_closed _ _ _ _ (fun k => proj1 (Nk k)) Cz').
    + apply (sign_ok_closed _ _ _ _ _ _ (fun k => proj2 (Nk k)) Cz' Cy').
Qed.

Lemma cv_sq_term : forall w (u : nat -> R) l, Un_cv u l -> Un_cv (fun k => w * ((u k - l) * (u k - l))) 0.
Proof.
  intros w u l C. assert (D := CV_minus _ _ _ _ C (cv_const l)).
  assert (E := CV_mult _ _ _ _ (cv_const w) (CV_mult _ _ _ _ D D)).
  replace (w * ((l - l) * (l - l))) with 0 in E by ring. exact E.
Qed.

Lemma cv_of_sq : forall w (u d : nat -> R) l, 0 < w -> (forall k, w * ((u k - l) * (u k - l)) <= d k) -> Un_cv d 0 -> Un_cv u l.
Proof.
  intros w u d l Hw H C e He. destruct (C (w * (e * e))) as [K HK0]; [apply Rmult_lt_0_compat; [exact Hw|nra]|].
  exists K. intros k Hk. specialize (HK0 k Hk). unfold R_dist in *. rewrite Rminus_0_r in HK0.
  assert (Q : w * ((u k - l) * (u k - l)) < w * (e * e)).
  { eapply Rle_lt_trans; [apply H|]. eapply Rle_lt_trans; [apply Rle_abs|exact HK0]. }
  apply Rmult_lt_reg_l in Q; [|exact Hw]. apply Rsqr_lt_abs_0 in Q. rewrite (Rabs_right e) in Q by lra. exact Q.
Qed.

(** the whole sequence converges *)
Theorem it_converges : exists xl yl, kkt_pair p xl yl /\
  (forall j, (j < n)%nat -> Un_cv (fun k => a_x (it k) j) (xl j)) /\
  (forall i, (i < mn)%nat -> Un_cv (fun k => a_y (it k) i) (yl i)) /\
  (forall i, (i < mn)%nat -> Un_cv (fun k => a_z (it k) i) (stackv p xl i)).
Proof.
  destruct limit_point as (phi & xl & yl & Hphi & HKl & Cx & Cz & Cy).
  exists xl, yl. split; [exact HKl|].
  assert (Cp : Un_cv (pot xl yl) 0).
  { apply (cv_mono_sub _ phi (pot_nonneg xl yl)).
    - intros k. apply pot_mono; exact HKl.
    - assert (Cd : Un_cv (fun k => Rmax al (2 - al) *
         dist2 s p rfix (a_x (it (phi k))) (a_z (it (phi k))) (a_y (it (phi k))) xl (stackv p xl) yl) 0).
      { replace 0 with (Rmax al (2 - al) * (rsum n (fun _ => 0) + rsum mn (fun _ => 0) + rsum mn (fun _ => 0))).
        2:{ rewrite !rsum_zero by auto. ring. }
        apply CV_mult; [apply cv_const|]. unfold dist2, wsq. apply CV_plus; [apply CV_plus|].
        - apply (cv_rsum n (fun k j => sigma s * ((a_x (it (phi k)) j - xl j) * (a_x (it (phi k)) j - xl j)))).
          intros; apply cv_sq_term; auto.
        - apply (cv_rsum mn (fun k i => rfix i * ((a_z (it (phi k)) i - stackv p xl i) * (a_z (it (phi k)) i - stackv p xl i)))).
          intros; apply cv_sq_term; auto.
        - apply (cv_rsum mn (fun k i => / rfix i * ((a_y (it (phi k)) i - yl i) * (a_y (it (phi k)) i - yl i)))).
          intros; apply cv_sq_term; auto. }
      refine (cv_squeeze0 _ _ _ Cd). intros k. cbv beta. rewrite Rabs_right by (apply Rle_ge, pot_nonneg).
      apply (rdist2_bounds s p Hsig Hr0). }
  assert (Hm : 0 < Rmin al (2 - al)) by (apply Rmin_glb_lt; lra).
  assert (Cb : Un_cv (fun k => pot xl yl k / Rmin al (2 - al)) 0).
  { replace 0 with (0 * / Rmin al (2 - al)) by ring. apply CV_mult; [exact Cp|apply cv_const]. }
  split; [|split]; intros q Hq.
  - apply (cv_of_sq (sigma s) _ (fun k => pot xl yl k / Rmin al (2 - al))); auto. intros k. apply (small_terms xl yl k); exact Hq.
  - apply (cv_of_sq (/ rfix q) _ (fun k => pot xl yl k / Rmin al (2 - al))); auto.
    + apply Rinv_0_lt_compat, rho_fix_pos; auto.
    + intros k. apply (small_terms xl yl k); exact Hq.
  - apply (cv_of_sq (rfix q) _ (fun k => pot xl yl k / Rmin al (2 - al))); auto.
    + apply rho_fix_pos; auto.
    + intros k. apply (small_terms xl yl k); exact Hq.
Qed.

End Opt.

(** runs of the solver follow these iterates, whatever exact linear solver they use *)
Definition follows (o : admm_obj R) (k : nat) : Prop :=
  (forall j, (j < n)%nat -> a_x o j = a_x (it k) j) /\ (forall i, (i < mn)%nat -> a_y o i = a_y (it k) i) /\
  (forall i, (i < mn)%nat -> a_z o i = a_z (it k) i).
Definition bfollows (o : box_obj R) (k : nat) : Prop := agree p (it k) o.

Lemma it_a_rho : forall k, a_rho (it k) = rho0 s.
Proof. induction k as [|k IH]; [reflexivity|]. change (a_rho (it k) = rho0 s). exact IH. Qed.

Lemma inv_settings : forall f s' o, sigma s' = sigma s -> admm_inv f s p o -> admm_inv f s' p o.
Proof.
  intros f s' o E [H1 H2 H3 H4 H5]. constructor; auto. intros i j Hi Hj. rewrite H4 by auto. unfold admm_kkt. rewrite E. reflexivity.
Qed.

Lemma update_settings : forall s' o, sigma s' = sigma s -> alpha s' = alpha s ->
  let u := admm_update lsolve s' p o in let v := admm_update lsolve s p o in a_x u = a_x v /\ a_y u = a_y v /\ a_z u = a_z v.
Proof.
  intros s' o E1 E2. unfold admm_update, compute_kkt_rhs. cbv zeta. cbn [a_x a_y a_z]. rewrite E1, E2. repeat split.
Qed.

Lemma follows_update : forall l' f' s' k o, exact_solver f' l' -> same_iteration s s' -> admm_inv f' s' p o -> a_rho o = rho0 s ->
  follows o k -> follows (admm_update l' s' p o) (S k).
Proof.
  intros l' f' s' k o He (E1 & E2 & E3 & E4) HI Hr (Fx & Fy & Fz).
  destruct (update_settings s' (it k) E1 E2) as (Ux & Uy & Uz).
  change (admm_update lsolve s p (it k)) with (it (S k)) in Ux, Uy, Uz. unfold follows. rewrite <- Ux, <- Uy, <- Uz.
  apply (update_determined l' f' lsolve full He Hexact s' p o (it k)); auto.
  - apply inv_settings; [exact E1|apply it_inv].
  - rewrite Hr. exact Hr0.
  - rewrite Hr, it_a_rho. reflexivity.
  - rewrite E1. exact Hsig.
Qed.

Lemma visits_it : forall l' f' s' ob' k o, exact_solver f' l' -> same_iteration s s' ->
  visits (admm_body l' s' p) (max_iter s') (admm_setup f' s' p xg yg ob') k o -> follows o (Z.to_nat (k - 1)).
Proof.
  intros l' f' s' ob' k o He HS Hv. induction Hv as [|k o o' Hv IH Hk Hb].
  - destruct (setup_at_pair f' s' p xg yg ob') as (Ax & Ay & Az). destruct (setup_at_pair full s p xg yg ob) as (Bx & By & Bz).
    change (it (Z.to_nat (1 - 1))) with (admm_setup full s p xg yg ob).
    unfold follows. change (it (Z.to_nat (1 - 1))) with (admm_setup full s p xg yg ob).
    split; [|split]; intros i Hi; rewrite ?Ax, ?Ay, ?Az, ?Bx, ?By, ?Bz by exact Hi; reflexivity.
  - pose proof (visits_range _ _ _ _ _ Hv) as Hr.
    replace (Z.to_nat (k + 1 - 1)) with (S (Z.to_nat (k - 1))) by lia.
    destruct (body_cont_xyz _ _ _ _ _ _ Hb) as (Ex & Ey & Ez). unfold follows. rewrite Ex, Ey, Ez.
    apply (follows_update l' f' s' _ o He HS).
    + eapply visits_admm_inv; eauto.
    + destruct HS as (E1 & E2 & E3 & E4). rewrite (visits_a_rho l' f' s' p xg yg ob' E4 _ _ Hv). exact E3.
    + exact IH.
Qed.

Lemma bvisits_it : forall l' f' s' ob' k o, alpha s = 1 -> boff n (qm p) (b_K ob') -> exact_solver f' l' -> same_iteration s s' ->
  visits (box_body l' s' p) (max_iter s') (box_setup f' s' p xg yg ob') k o -> bfollows o (Z.to_nat (k - 1)) /\
  bfollows (box_update l' s' p o) (S (Z.to_nat (k - 1))).
Proof.
  intros l' f' s' ob' k o Ha1 Hoff He HS Hv.
  assert (Hr' : 0 < rho0 s') by (destruct HS as (_ & _ & -> & _); exact Hr0).
  assert (Hs' : 0 < sigma s') by (destruct HS as (-> & _); exact Hsig).
  assert (Hup : forall k o, visits (box_body l' s' p) (max_iter s') (box_setup f' s' p xg yg ob') k o -> bfollows o (Z.to_nat (k - 1)) ->
    bfollows (box_update l' s' p o) (S (Z.to_nat (k - 1)))).
  { clear k o Hv. intros k o Hv IH.
    assert (HIb := bvisits_inv l' f' _ _ _ _ _ _ _ Hv).
    assert (HFa := bvisits_fact l' f' _ _ _ _ _ _ _ Hoff Hv).
    assert (HG := bvisits_rho_pos l' f' _ _ _ _ _ _ _ Hr' Hv).
    destruct (box_update_sim l' f' He s' p o HIb HFa HG Hsym Hpsd Hs' ltac:(destruct HS as (_ & -> & _); exact Ha1)) as (Sx & Sy & Sz).
    unfold bfollows in *. apply (agree_stk f' s' p) in IH.
    destruct (follows_update l' f' s' (Z.to_nat (k - 1)) (toA f' s' p o) He HS) as (Ux & Uy & Uz).
    - apply (toA_inv f' s' p o HIb).
    - cbn [toA a_rho]. destruct HS as (E1 & E2 & E3 & E4). rewrite (visits_b_rho l' f' s' p xg yg ob' E4 _ _ Hv). exact E3.
    - exact IH.
    - apply (agree_stk f' s' p). cbn [toA a_x a_y a_z].
      split; [|split]; intros i Hi; rewrite ?Sx, ?Sy, ?Sz by exact Hi; [apply Ux|apply Uy|apply Uz]; exact Hi. }
  cut (bfollows o (Z.to_nat (k - 1))); [intros H; split; [exact H|apply Hup; assumption]|].
  induction Hv as [|k o o' Hv IH Hk Hb].
  - destruct (setup_at_pair full s p xg yg ob) as (Hx & Hy & Hz).
    destruct (bsetup_at_pair f' s' p xg yg ob') as (Bx & By & Bz & Bq).
    unfold bfollows, agree. change (it (Z.to_nat (1 - 1))) with (admm_setup full s p xg yg ob).
    repeat split; intros; rewrite ?Bx, ?By, ?Bz, ?Bq, ?Hx, ?Hy, ?Hz by (auto; lia); auto.
    + unfold stackv. rewrite (proj2 (Nat.ltb_lt i (qm p))) by auto. reflexivity.
    + unfold stackv. destruct (Nat.ltb_spec (qm p + j) (qm p)); [lia|]. f_equal. lia.
  - pose proof (visits_range _ _ _ _ _ Hv) as Hr.
    replace (Z.to_nat (k + 1 - 1)) with (S (Z.to_nat (k - 1))) by lia.
    destruct (bbody_cont _ _ _ _ _ _ Hb) as (Bx & By & Bz & Bq & _).
    assert (U := Hup k o Hv IH). unfold bfollows, agree in *. rewrite Bx, By, Bz, Bq. exact U.
Qed.

(** the size of the vectors entering the relative tolerances at iterate k *)
Definition scale (k : nat) : R :=
  admm_prim_scale p (a_x (it k)) (a_z (it k)) + box_prim_scale p (a_x (it k)) (a_z (it k)) + qp_dual_scale p (a_x (it k)) (a_y (it k)).

Lemma prim_scale_nonneg : forall x z, 0 <= admm_prim_scale p x z.
Proof. intros. unfold admm_prim_scale. eapply Rle_trans; [apply rnorminf_nonneg|]. eapply Rle_trans; [apply Rmax_l|]. apply Rmax_l. Qed.
Lemma bprim_scale_nonneg : forall x z, 0 <= box_prim_scale p x z.
Proof. intros. unfold box_prim_scale. eapply Rle_trans; [apply rnorminf_nonneg|]. apply Rmax_l. Qed.
Lemma dual_scale_nonneg : forall x y, 0 <= qp_dual_scale p x y.
Proof. intros. unfold qp_dual_scale. eapply Rle_trans; [apply rnorminf_nonneg|]. apply Rmax_l. Qed.

Lemma norminf_ext : forall N f g, (forall i, (i < N)%nat -> f i = g i) -> rnorminf N f = rnorminf N g.
Proof.
  intros N f g H. apply Rle_antisym; apply rnorminf_le; try apply rnorminf_nonneg; intros i Hi.
  - rewrite H by exact Hi. apply rnorminf_ub; exact Hi.
  - rewrite <- H by exact Hi. apply rnorminf_ub; exact Hi.
Qed.

(** what a stopped iterate satisfies when both tolerances are at most tol *)
Definition small_residual (tol : R) (k : nat) : Prop :=
  (forall i, (i < mn)%nat -> Rabs (stackv p (a_x (it k)) i - a_z (it k) i) <= tol * (1 + scale k)) /\
  (forall j, (j < n)%nat -> Rabs (lag_grad p (a_x (it k)) (a_y (it k)) j) <= tol * (1 + scale k)).

Lemma tol_le : forall tol a b w k, 0 < tol -> a <= tol -> b <= tol -> 0 <= w -> w <= scale k -> a + b * w <= tol * (1 + scale k).
Proof.
  intros tol a b w k Ht Ha Hb Hw Hs. assert (b * w <= tol * w) by (apply Rmult_le_compat_r; auto).
  assert (tol * w <= tol * scale k) by (apply Rmult_le_compat_l; lra). lra.
Qed.

Lemma lag_ext : forall x x' y y' j, (j < n)%nat -> (forall j, (j < n)%nat -> x j = x' j) -> (forall i, (i < mn)%nat -> y i = y' i) ->
  lag_grad p x y j = lag_grad p x' y' j.
Proof.
  intros x x' y y' j Hj Hx Hy. unfold lag_grad. rewrite (rmv_ext _ _ (qH p) x x') by auto. rewrite (Hy (qm p + j)%nat) by lia.
  f_equal. f_equal. apply rsum_ext. intros. rewrite Hy by lia. reflexivity.
Qed.

Lemma dual_scale_ext : forall x x' y y', (forall j, (j < n)%nat -> x j = x' j) -> (forall i, (i < mn)%nat -> y i = y' i) ->
  qp_dual_scale p x y = qp_dual_scale p x' y'.
Proof.
  intros x x' y y' Hx Hy. unfold qp_dual_scale.
  rewrite (norminf_ext n (rmv n (qH p) x) (rmv n (qH p) x')) by (intros; apply rmv_ext; auto).
  rewrite (norminf_ext n (fun j => rsum (qm p) (fun i => qA p i j * y i)) (fun j => rsum (qm p) (fun i => qA p i j * y' i)))
    by (intros; apply rsum_ext; intros; rewrite Hy by lia; reflexivity).
  rewrite (norminf_ext n (fun j => y (qm p + j)%nat) (fun j => y' (qm p + j)%nat)) by (intros; apply Hy; lia).
  reflexivity.
Qed.
Lemma prim_scale_ext : forall x x' z z', (forall j, (j < n)%nat -> x j = x' j) -> (forall i, (i < mn)%nat -> z i = z' i) ->
  admm_prim_scale p x z = admm_prim_scale p x' z'.
Proof.
  intros x x' z z' Hx Hz. unfold admm_prim_scale.
  rewrite (norminf_ext (qm p) (rmv n (qA p) x) (rmv n (qA p) x')) by (intros; apply rmv_ext; auto).
  rewrite (norminf_ext n x x') by auto. rewrite (norminf_ext mn z z') by auto. reflexivity.
Qed.
Lemma bprim_scale_ext : forall x x' z z', (forall j, (j < n)%nat -> x j = x' j) -> (forall i, (i < qm p)%nat -> z i = z' i) ->
  box_prim_scale p x z = box_prim_scale p x' z'.
Proof.
  intros x x' z z' Hx Hz. unfold box_prim_scale.
  rewrite (norminf_ext (qm p) (rmv n (qA p) x) (rmv n (qA p) x')) by (intros; apply rmv_ext; auto).
  rewrite (norminf_ext n x x') by auto. rewrite (norminf_ext (qm p) z z') by auto. reflexivity.
Qed.

(** the iterate a run ends with *)
Lemma run_it : forall l' f' s' ob' o', qp_consistent p -> exact_solver f' l' -> same_iteration s s' -> admm_solve l' f' s' p xg yg ob' = Some o' ->
  exists k, follows o' k /\ (a_iter o' <= Z.of_nat k + 1)%Z /\
    (a_status o' = SOLVED -> (0 < k)%nat /\ forall tol, 0 < tol -> eps_abs s' <= tol -> eps_rel s' <= tol -> small_residual tol k).
Proof.
  intros l' f' s' ob' o' Hc He HS H.
  assert (Hr' : 0 < rho0 s') by (destruct HS as (_ & _ & -> & _); exact Hr0).
  assert (HC := solved_certificate l' f' s' p xg yg ob' o' Hc Hr' H).
  destruct (solve_cases _ _ _ _ _ _ _ _ H) as [[k [o1 [Hv [Hk ->]]]]|[k [o1 [o2 [Hv [Hk [Hb ->]]]]]]].
  - exists (Z.to_nat (k - 1)). pose proof (visits_range _ _ _ _ _ Hv).
    split; [exact (visits_it l' f' s' ob' k o1 He HS Hv)|]. cbn [a_iter a_status set_iter set_status].
    split; [lia|discriminate].
  - pose proof (visits_range _ _ _ _ _ Hv). apply body_stop in Hb. destruct Hb as (_ & Hst & E2 & _).
    exists (S (Z.to_nat (k - 1))).
    assert (HF : follows (set_iter k o2) (S (Z.to_nat (k - 1)))).
    { subst o2. refine (follows_update l' f' s' _ o1 He HS _ _ (visits_it l' f' s' ob' k o1 He HS Hv)).
      - eapply visits_admm_inv; eauto.
      - destruct HS as (E1 & _ & E3 & E4). rewrite (visits_a_rho l' f' s' p xg yg ob' E4 _ _ Hv). exact E3. }
    split; [exact HF|]. split; [cbn [a_iter set_iter]; lia|]. intros Hs. split; [lia|]. intros tol Ht Ha Hr.
    specialize (HC Hs). cbv zeta in HC. set (o' := set_iter k o2) in *. set (k' := S (Z.to_nat (k - 1))) in *.
    destruct HF as (Fx & Fy & Fz). destruct HC as (C1 & C2 & C3).
    rewrite (prim_scale_ext (a_x o') (a_x (it k')) (a_z o') (a_z (it k')) Fx Fz) in C1, C2.
    rewrite (dual_scale_ext (a_x o') (a_x (it k')) (a_y o') (a_y (it k')) Fx Fy) in C3.
    assert (P1 := prim_scale_nonneg (a_x (it k')) (a_z (it k'))). assert (P2 := bprim_scale_nonneg (a_x (it k')) (a_z (it k'))).
    assert (P3 := dual_scale_nonneg (a_x (it k')) (a_y (it k'))).
    split.
    + intros i Hi. eapply Rle_trans; [|apply (tol_le tol (eps_abs s') (eps_rel s') (admm_prim_scale p (a_x (it k')) (a_z (it k'))) k' Ht Ha Hr P1)].
      2: unfold scale; lra.
      unfold stackv. rewrite <- Fz by exact Hi. destruct (Nat.ltb_spec i (qm p)).
      * rewrite <- (rmv_ext _ _ (qA p) (a_x o') (a_x (it k'))) by auto. apply C1; auto.
      * rewrite <- Fx by lia. assert (Hj : (i - qm p < n)%nat) by lia.
        replace (a_z o' i) with (a_z o' (qm p + (i - qm p))%nat) by (f_equal; lia). apply C2; auto.
    + intros j Hj. eapply Rle_trans; [|apply (tol_le tol (eps_abs s') (eps_rel s') (qp_dual_scale p (a_x (it k')) (a_y (it k'))) k' Ht Ha Hr P3)].
      2: unfold scale; lra.
      rewrite <- (lag_ext (a_x o') _ (a_y o') _ j Hj Fx Fy). apply C3; exact Hj.
Qed.

Lemma brun_it : forall l' f' s' ob' o', alpha s = 1 -> boff n (qm p) (b_K ob') -> qp_consistent p -> exact_solver f' l' -> same_iteration s s' ->
  box_solve l' f' s' p xg yg ob' = Some o' ->
  exists k, bfollows o' k /\ (b_iter o' <= Z.of_nat k + 1)%Z /\
    (b_status o' = SOLVED -> (0 < k)%nat /\ forall tol, 0 < tol -> eps_abs s' <= tol -> eps_rel s' <= tol -> small_residual tol k).
Proof.
  intros l' f' s' ob' o' Ha1 Hoff Hc He HS H.
  assert (Hr' : 0 < rho0 s') by (destruct HS as (_ & _ & -> & _); exact Hr0).
  assert (HC := bsolved_certificate l' f' s' p xg yg ob' o' Hc Hr' H).
  destruct (bsolve_cases _ _ _ _ _ _ _ _ H) as [[k [o1 [Hv [Hk ->]]]]|[k [o1 [o2 [Hv [Hk [Hb ->]]]]]]].
  - exists (Z.to_nat (k - 1)). pose proof (visits_range _ _ _ _ _ Hv).
    split; [exact (proj1 (bvisits_it l' f' s' ob' k o1 Ha1 Hoff He HS Hv))|]. cbn [b_iter b_status bset_iter bset_status].
    split; [lia|discriminate].
  - pose proof (visits_range _ _ _ _ _ Hv). apply bbody_stop in Hb. destruct Hb as (_ & Hst & E2 & _).
    exists (S (Z.to_nat (k - 1))).
    assert (HF : bfollows (bset_iter k o2) (S (Z.to_nat (k - 1)))).
    { subst o2. exact (proj2 (bvisits_it l' f' s' ob' k o1 Ha1 Hoff He HS Hv)). }
    split; [exact HF|]. split; [cbn [b_iter bset_iter]; lia|]. intros Hs. split; [lia|]. intros tol Ht Ha Hr.
    specialize (HC Hs). cbv zeta in HC. set (o' := bset_iter k o2) in *. set (k' := S (Z.to_nat (k - 1))) in *.
    destruct HF as (Fx & Fy & Fz & Fq). destruct HC as (ea & ex & N1 & N2 & N3 & C1 & C2 & C3).
    rewrite (bprim_scale_ext (b_x o') (a_x (it k')) (b_z o') (a_z (it k')) Fx Fz) in N3.
    rewrite (dual_scale_ext (b_x o') (a_x (it k')) (b_y o') (a_y (it k')) Fx Fy) in C3.
    assert (P1 := prim_scale_nonneg (a_x (it k')) (a_z (it k'))). assert (P2 := bprim_scale_nonneg (a_x (it k')) (a_z (it k'))).
    assert (P3 := dual_scale_nonneg (a_x (it k')) (a_y (it k'))).
    split.
    + intros i Hi. eapply Rle_trans; [|apply (tol_le tol (eps_abs s') (eps_rel s') (box_prim_scale p (a_x (it k')) (a_z (it k'))) k' Ht Ha Hr P2)].
      2: unfold scale; lra.
      unfold stackv. destruct (Nat.ltb_spec i (qm p)).
      * rewrite <- Fz by exact H1. rewrite <- (rmv_ext _ _ (qA p) (b_x o') (a_x (it k'))) by auto.
        eapply Rle_trans; [apply C1; auto|]. lra.
      * rewrite <- Fx by lia. assert (Hj : (i - qm p < n)%nat) by lia.
        replace (a_z (it k') i) with (a_z (it k') (qm p + (i - qm p))%nat) by (f_equal; lia). rewrite <- Fq by exact Hj.
        eapply Rle_trans; [apply C2; auto|]. lra.
    + intros j Hj. eapply Rle_trans; [|apply (tol_le tol (eps_abs s') (eps_rel s') (qp_dual_scale p (a_x (it k')) (a_y (it k'))) k' Ht Ha Hr P3)].
      2: unfold scale; lra.
      rewrite <- (lag_ext (b_x o') _ (b_y o') _ j Hj Fx Fy). apply C3; exact Hj.
Qed.

(** an iterate with both residuals zero is an optimum, and the iteration stays there *)
Lemma zero_residual_kkt : forall k, qp_consistent p -> (0 < k)%nat ->
  (forall i, (i < mn)%nat -> stackv p (a_x (it k)) i = a_z (it k) i) ->
  (forall j, (j < n)%nat -> lag_grad p (a_x (it k)) (a_y (it k)) j = 0) -> kkt_pair p (a_x (it k)) (a_y (it k)).
Proof.
  intros k Hc Hk H1 H2. apply kkt_unstack; [exact H2|]. intros i Hi. rewrite H1 by exact Hi.
  destruct k as [|q]; [lia|]. apply (it_normal q Hc i Hi).
Qed.

Lemma pot_self : forall k, (forall i, (i < mn)%nat -> stackv p (a_x (it k)) i = a_z (it k) i) -> pot (a_x (it k)) (a_y (it k)) k = 0.
Proof.
  intros k H. apply Rle_antisym; [|apply pot_nonneg].
  eapply Rle_trans; [apply (rdist2_bounds s p Hsig Hr0)|]. right.
  unfold dist2, wsq. rewrite !rsum_zero; [ring| | |]; intros i Hi; cbv beta; rewrite ?H by exact Hi; ring.
Qed.

Lemma pot_later : forall xl yl k q, kkt_pair p xl yl -> pot xl yl (k + q) <= pot xl yl k.
Proof.
  intros xl yl k q H. induction q as [|q IH]; [rewrite Nat.add_0_r; lra|].
  rewrite Nat.add_succ_r. pose proof (pot_mono xl yl (k + q) H). lra.
Qed.

Lemma zero_sq : forall w a t, 0 < w -> w * ((a - t) * (a - t)) <= 0 -> a = t.
Proof.
  intros w a t Hw H. assert (Q : (a - t) * (a - t) <= 0).
  { apply Rmult_le_reg_l with w; [exact Hw|]. rewrite Rmult_0_r. exact H. }
  assert (Z0 : (a - t) * (a - t) = 0) by (apply Rle_antisym; [exact Q|apply Rle_0_sqr]).
  apply Rmult_integral in Z0. destruct Z0; lra.
Qed.

Lemma stays : forall k q, kkt_pair p (a_x (it k)) (a_y (it k)) -> (forall i, (i < mn)%nat -> stackv p (a_x (it k)) i = a_z (it k) i) ->
  (forall j, (j < n)%nat -> a_x (it (k + q)) j = a_x (it k) j) /\ (forall i, (i < mn)%nat -> a_y (it (k + q)) i = a_y (it k) i) /\
  (forall i, (i < mn)%nat -> a_z (it (k + q)) i = a_z (it k) i).
Proof.
  intros k q HKk Hz. assert (P : pot (a_x (it k)) (a_y (it k)) (k + q) <= 0).
  { eapply Rle_trans; [apply pot_later; exact HKk|]. right. apply pot_self; exact Hz. }
  assert (Hm : 0 < Rmin al (2 - al)) by (apply Rmin_glb_lt; lra).
  destruct (small_terms (a_x (it k)) (a_y (it k)) (k + q)) as (S1 & S2 & S3).
  assert (B : pot (a_x (it k)) (a_y (it k)) (k + q) / Rmin al (2 - al) <= 0).
  { apply Rmult_le_reg_l with (Rmin al (2 - al)); [exact Hm|]. rewrite Rmult_0_r.
    replace (Rmin al (2 - al) * (pot (a_x (it k)) (a_y (it k)) (k + q) / Rmin al (2 - al))) with (pot (a_x (it k)) (a_y (it k)) (k + q)) by (field; lra).
    exact P. }
  split; [|split]; intros i Hi.
  - apply (zero_sq (sigma s)); auto. eapply Rle_trans; [apply S1; exact Hi|exact B].
  - apply (zero_sq (/ rfix i)); auto. apply Rinv_0_lt_compat, rho_fix_pos; auto. eapply Rle_trans; [apply S3; exact Hi|exact B].
  - rewrite <- Hz by exact Hi. apply (zero_sq (rfix i)); auto. apply rho_fix_pos; auto. eapply Rle_trans; [apply S2; exact Hi|exact B].
Qed.

Lemma cv_stationary : forall (u : nat -> R) l k, Un_cv u l -> (forall q, u (k + q)%nat = u k) -> u k = l.
Proof.
  intros u l k C H. apply (UL_sequence u); [|exact C]. intros e He. exists k. intros m Hm.
  replace m with (k + (m - k))%nat by lia. rewrite H. unfold R_dist. rewrite Rminus_diag_eq, Rabs_R0; auto.
Qed.

(** tolerances under which iterate k does not stop the solver, unless it is an optimum *)
Definition at_optimum (k : nat) : Prop :=
  kkt_pair p (a_x (it k)) (a_y (it k)) /\ forall i, (i < mn)%nat -> stackv p (a_x (it k)) i = a_z (it k) i.

Lemma abs_zero : forall a, Rabs a <= 0 -> a = 0.
Proof. intros a H. destruct (Req_dec a 0) as [E|E]; [exact E|]. apply Rabs_no_R0 in E. pose proof (Rabs_pos a). lra. Qed.

Lemma tol_one : forall k, qp_consistent p -> (0 < k)%nat -> at_optimum k \/ exists tol, 0 < tol /\ ~ small_residual tol k.
Proof.
  intros k Hc Hk.
  set (r1 := rnorminf mn (fun i => stackv p (a_x (it k)) i - a_z (it k) i)).
  set (r2 := rnorminf n (lag_grad p (a_x (it k)) (a_y (it k)))).
  assert (N1 : 0 <= r1) by apply rnorminf_nonneg. assert (N2 : 0 <= r2) by apply rnorminf_nonneg.
  assert (HS : 0 <= scale k).
  { pose proof (prim_scale_nonneg (a_x (it k)) (a_z (it k))). pose proof (bprim_scale_nonneg (a_x (it k)) (a_z (it k))).
    pose proof (dual_scale_nonneg (a_x (it k)) (a_y (it k))). unfold scale. lra. }
  set (r := r1 + r2). assert (N : 0 <= r) by (unfold r; lra).
  destruct (Rle_lt_or_eq_dec 0 r N) as [Hp|Hz].
  - right. exists (r / (3 * (1 + scale k))). assert (HD : 0 < 3 * (1 + scale k)) by lra.
    assert (HT : 0 < r / (3 * (1 + scale k))) by (apply Rdiv_lt_0_compat; lra).
    split; [exact HT|]. intros [B1 B2].
    assert (E : r / (3 * (1 + scale k)) * (1 + scale k) = r / 3) by (field; lra). rewrite E in B1, B2.
    assert (r1 <= r / 3) by (apply rnorminf_le; [lra|exact B1]). assert (r2 <= r / 3) by (apply rnorminf_le; [lra|exact B2]).
    unfold r in *. lra.
  - left. assert (Z1 : r1 <= 0) by (unfold r in Hz; lra). assert (Z2 : r2 <= 0) by (unfold r in Hz; lra).
    assert (Q1 : forall i, (i < mn)%nat -> stackv p (a_x (it k)) i = a_z (it k) i).
    { intros i Hi. assert (B := rnorminf_ub mn (fun i => stackv p (a_x (it k)) i - a_z (it k) i) i Hi). fold r1 in B. cbv beta in B.
      assert (stackv p (a_x (it k)) i - a_z (it k) i = 0) by (apply abs_zero; lra). lra. }
    split; [|exact Q1]. apply (zero_residual_kkt k Hc Hk Q1).
    intros j Hj. assert (B := rnorminf_ub n (lag_grad p (a_x (it k)) (a_y (it k))) j Hj). fold r2 in B. apply abs_zero. lra.
Qed.

Lemma small_mono : forall t1 t2 k, t1 <= t2 -> small_residual t1 k -> small_residual t2 k.
Proof.
  intros t1 t2 k H [B1 B2].
  assert (HS : 0 <= 1 + scale k).
  { pose proof (prim_scale_nonneg (a_x (it k)) (a_z (it k))). pose proof (bprim_scale_nonneg (a_x (it k)) (a_z (it k))).
    pose proof (dual_scale_nonneg (a_x (it k)) (a_y (it k))). unfold scale. lra. }
  assert (t1 * (1 + scale k) <= t2 * (1 + scale k)) by (apply Rmult_le_compat_r; auto).
  split; intros i Hi; [specialize (B1 i Hi)|specialize (B2 i Hi)]; lra.
Qed.

Lemma tol_all : forall K, qp_consistent p -> exists tol, 0 < tol /\ forall k, (0 < k < K)%nat -> small_residual tol k -> at_optimum k.
Proof.
  intros K Hc. induction K as [|K (tol & Ht & IH)].
  - exists 1. split; [lra|]. intros. lia.
  - destruct (Nat.eq_dec K 0) as [->|HK0].
    + exists 1. split; [lra|]. intros. lia.
    + destruct (tol_one K Hc ltac:(lia)) as [H|(t2 & Ht2 & H)].
      * exists tol. split; [exact Ht|]. intros k Hk Hsm. destruct (Nat.eq_dec k K) as [->|]; [exact H|].
        apply IH; [lia|exact Hsm].
      * exists (Rmin tol t2). split; [apply Rmin_glb_lt; auto|]. intros k Hk Hsm.
        destruct (Nat.eq_dec k K) as [->|].
        -- exfalso. apply H. revert Hsm. apply small_mono. apply Rmin_r.
        -- apply IH; [lia|]. revert Hsm. apply small_mono. apply Rmin_l.
Qed.

(** uniform closeness in finitely many components *)
Lemma cv_uniform : forall N (u : nat -> vec R) l, (forall i, (i < N)%nat -> Un_cv (fun k => u k i) (l i)) ->
  forall e, 0 < e -> exists K, forall k i, (K <= k)%nat -> (i < N)%nat -> Rabs (u k i - l i) < e.
Proof.
  induction N as [|N IH]; intros u l H e He.
  - exists O. intros; lia.
  - destruct (IH u l ltac:(intros; apply H; lia) e He) as [K1 H1]. destruct (H N ltac:(lia) e He) as [K2 H2].
    exists (Nat.max K1 K2). intros k i Hk Hi. destruct (Nat.eq_dec i N) as [->|]; [apply H2; lia|apply H1; lia].
Qed.

Lemma limit_all : forall xs ys, kkt_pair p xs ys -> exists xl yl, kkt_pair p xl yl /\
  forall e, 0 < e -> exists (K : Z) tol, 0 < tol /\
    forall l' f', exact_solver f' l' -> forall s', same_iteration s s' ->
    (forall ob' o', admm_solve l' f' s' p xg yg ob' = Some o' ->
       (K < a_iter o')%Z \/ (a_status o' = SOLVED /\ eps_abs s' <= tol /\ eps_rel s' <= tol) ->
       close p e (a_x o') (a_y o') (a_z o') xl yl) /\
    (alpha s = 1 -> forall ob' o', boff n (qm p) (b_K ob') -> box_solve l' f' s' p xg yg ob' = Some o' ->
       (K < b_iter o')%Z \/ (b_status o' = SOLVED /\ eps_abs s' <= tol /\ eps_rel s' <= tol) ->
       close p e (b_x o') (b_y o') (box_rows p o') xl yl).
Proof.
  intros xs ys HK. assert (Hc := kkt_consistent p xs ys HK).
  destruct (it_converges xs ys HK) as (xl & yl & HKl & Cx & Cy & Cz).
  exists xl, yl. split; [exact HKl|]. intros e He.
  destruct (cv_uniform n (fun k => a_x (it k)) xl Cx e He) as [K1 H1].
  destruct (cv_uniform mn (fun k => a_y (it k)) yl Cy e He) as [K2 H2].
  destruct (cv_uniform mn (fun k => a_z (it k)) (stackv p xl) Cz e He) as [K3 H3].
  set (K := Nat.max K1 (Nat.max K2 K3)).
  assert (W : forall k, (K <= k)%nat -> close p e (a_x (it k)) (a_y (it k)) (a_z (it k)) xl yl).
  { intros k Hk. unfold K in Hk. split; [|split]; intros; [apply H1|apply H2|apply H3]; auto; lia. }
  destruct (tol_all K Hc) as (tol & Ht & HT). exists (Z.of_nat K + 1)%Z, tol. split; [exact Ht|].
  assert (Wt : forall k, (0 < k)%nat -> small_residual tol k -> close p e (a_x (it k)) (a_y (it k)) (a_z (it k)) xl yl).
  { intros k Hk Hsm. destruct (Nat.le_gt_cases K k) as [L|L]; [apply W; exact L|].
    destruct (HT k ltac:(lia) Hsm) as [HKk Hz].
    assert (Z0 : forall a b : R, a = b -> Rabs (a - b) < e).
    { intros a b ->. rewrite Rminus_diag_eq, Rabs_R0; auto. }
    split; [|split]; intros i Hi; apply Z0.
    - apply (cv_stationary (fun k => a_x (it k) i) (xl i) k (Cx i Hi)). intros q. apply (stays k q HKk Hz); exact Hi.
    - apply (cv_stationary (fun k => a_y (it k) i) (yl i) k (Cy i Hi)). intros q. apply (stays k q HKk Hz); exact Hi.
    - apply (cv_stationary (fun k => a_z (it k) i) (stackv p xl i) k (Cz i Hi)). intros q. apply (stays k q HKk Hz); exact Hi. }
  intros l' f' He' s' HS. split.
  - intros ob' o' Ho Hcase. destruct (run_it l' f' s' ob' o' Hc He' HS Ho) as (k & (Fx & Fy & Fz) & Hi & Hsol).
    assert (G : close p e (a_x (it k)) (a_y (it k)) (a_z (it k)) xl yl).
    { destruct Hcase as [Hlt|(Hst & Ha & Hr)]; [apply W; lia|]. destruct (Hsol Hst) as [Hk Hsm]. apply (Wt k Hk). apply Hsm; auto. }
    destruct G as (G1 & G2 & G3). split; [|split]; intros i Hi'; rewrite ?Fx, ?Fy, ?Fz by exact Hi'; auto.
  - intros Ha1 ob' o' Hoff Ho Hcase. destruct (brun_it l' f' s' ob' o' Ha1 Hoff Hc He' HS Ho) as (k & (Fx & Fy & Fz & Fq) & Hi & Hsol).
    assert (G : close p e (a_x (it k)) (a_y (it k)) (a_z (it k)) xl yl).
    { destruct Hcase as [Hlt|(Hst & Ha & Hr)]; [apply W; lia|]. destruct (Hsol Hst) as [Hk Hsm]. apply (Wt k Hk). apply Hsm; auto. }
    destruct G as (G1 & G2 & G3). split; [|split]; intros i Hi'; rewrite ?Fx, ?Fy by exact Hi'; auto.
    unfold box_rows. specialize (G3 i Hi'). destruct (Nat.ltb_spec i (qm p)).
    + rewrite Fz by auto. exact G3.
    + rewrite Fq by lia. replace (qm p + (i - qm p))%nat with i by lia. exact G3.
Qed.

End Limit.
