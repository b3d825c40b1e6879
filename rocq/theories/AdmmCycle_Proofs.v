(** ADMM with adaptive step sizes runs in a cycle on the problem of AdmmCycle_Traj. *)
Require Import ZArith List Bool Lia Reals Lra Psatz.
From Verif Require Import Scal RSum Qp_Model Qp_Spec Qp_Proofs Admm_Model Admm_Spec Admm_SpecR Admm_Proofs Admm_ProofsR Admm_Conv
  BoxAdmm_Model BoxAdmm_Proofs BoxAdmm_ProofsR BoxAdmm_Equiv
  AdmmRelax_Spec AdmmRelax_Proofs FixI AdmmCycle_Traj.
Local Open Scope R_scope.

(** minimise x^2/2 + 100 x subject to -10 <= 2 x <= 10, -1 <= x <= 3 *)
Definition cycle_qp : qp_data R :=
  mkQP 1 1 (fun _ _ => 1) (fun _ => 100) (fun _ _ => 2) (fun _ => Fin (-10)) (fun _ => Fin 10) (fun _ => Fin (-1)) (fun _ => Fin 3).
(** the defaults of qp_base.hpp 17-36 *)
Definition default_qp_settings (adaptive : bool) (mx : Z) : qp_settings R :=
  mkSettings (1 / 1000) (1 / 1000) mx (1 / 10) (1 / 1000000) 1 25 adaptive 5 25.

Lemma cycle_sym : symmetric (qn cycle_qp) (qH cycle_qp).
Proof. intros i j _ _; reflexivity. Qed.
Lemma cycle_psd : psd (qn cycle_qp) (qH cycle_qp).
Proof. intros x. unfold qf, bf. cbn [qn cycle_qp]. rexpand. cbn [qH cycle_qp]. nra. Qed.
Lemma cycle_kkt : kkt_pair cycle_qp (fun _ => -1) (fun i => if Nat.eqb i 0 then 0 else -99).
Proof.
  unfold kkt_pair. split; [intros j Hj; unfold lag_grad; cbn [qm qn qH qA qh cycle_qp Nat.add]; rexpand; cbv beta; change (Nat.eqb 0 0) with true; change (Nat.eqb (S j) 0) with false; cbv iota; lra|].
  unfold qp_feasible, in_bounds, sign_ok. cbn [qm qn qAlb qAub qxlb qxub qA cycle_qp].
  split; [split; intros; rexpand; simpl; split; lra|]. split; (intros i Hi; assert (i = 0)%nat by lia; subst i; rexpand; simpl; repeat split; intros; lra).
Qed.

Lemma proj_clip v lo hi : proj_row v (Fin lo) (Fin hi) = clip lo hi v.
Proof.
  unfold proj_row, clampU, clampL, clip. rewrite ?smax_R, ?smin_R. reflexivity.
Qed.

Section Cycle.
Variable lsolve : nat -> mat R -> vec R -> vec R.
Variable full : bool.
Hypothesis He : exact_solver full lsolve.
Variables (mx : Z) (ob : admm_obj R).
Notation p := cycle_qp.
Notation s := (default_qp_settings true mx).
Notation body := (admm_body lsolve s p).
Notation init := (admm_setup full s p (fun _ => 0) (fun _ => 0) ob).

Definition shape (o : admm_obj R) (r : R) (c : cst) : Prop :=
  a_rho o = r /\ a_x o 0%nat = cx c /\ a_z o 0%nat = cz1 c /\ a_z o 1%nat = cz2 c /\ a_y o 0%nat = cy1 c /\ a_y o 1%nat = cy2 c.

Lemma parse_cycle i : (i < 2)%nat -> parse_constraints_bounds p i = INEQUALITY_CONSTRAINT.
Proof.
  intros Hi. assert (E : forall a b : R, -1000 < a -> b < 1000 -> a + 1 < b -> parse_row (Fin a) (Fin b) = INEQUALITY_CONSTRAINT).
  { intros a b A1 A2 A3. destruct (parse_row_R (Fin a) (Fin b)) as [[P1 _] [P2 _]]. destruct (parse_row (Fin a) (Fin b)); auto.
    - destruct (P2 eq_refl) as [_ G]. simpl in G. lra.
    - destruct (P1 eq_refl) as [G _]. simpl in G. lra. }
  destruct i as [|[|]]; [| |lia].
  - change (parse_row (Fin (-10)) (Fin 10) = INEQUALITY_CONSTRAINT). apply E; lra.
  - change (parse_row (Fin (-1)) (Fin 3) = INEQUALITY_CONSTRAINT). apply E; lra.
Qed.

Lemma cycle_update_gen o r c : admm_inv full s p o ->
  (forall i, (i < qm p + qn p)%nat -> 0 < a_rho_vec o i /\ a_rho_inv o i = / a_rho_vec o i) ->
  shape o r c -> 0 < r -> shape (admm_update lsolve s p o) r (cstep r c).
Proof.
  intros HI HR (S0 & S1 & S2 & S3 & S4 & S5) Hr. assert (Hsg : 0 < sigma s) by (simpl; lra).
  assert (RV : forall i, (i < 2)%nat -> a_rho_vec o i = r).
  { intros i Hi. rewrite (inv_rvec _ _ _ _ HI) by exact Hi. rewrite (inv_ctype _ _ _ _ HI), parse_cycle by auto. exact S0. }
  destruct (tilde_solves lsolve full He s p o HI cycle_sym cycle_psd Hsg HR) as [HT HB].
  specialize (HT 0%nat ltac:(simpl; lia)). assert (HB0 := HB 0%nat ltac:(simpl; lia)). assert (HB1 := HB 1%nat ltac:(simpl; lia)). clear HB.
  set (xt := tilde lsolve s p o) in *.
  rewrite RV in HB0, HB1 by lia.
  assert (E0 : forall v, stackv p v 0%nat = 2 * v 0%nat) by (intros; unfold stackv; cbn [qm qn qA cycle_qp Nat.ltb Nat.leb]; rexpand; cbn [qA cycle_qp]; ring).
  assert (E1 : forall v, stackv p v 1%nat = v 0%nat) by (intros; reflexivity).
  rewrite E0 in HB0. rewrite E1 in HB1. cbn [qm qn qH qA qh cycle_qp sigma default_qp_settings Nat.add] in HT, HB0, HB1.
  rewrite rmv_def, !rsum_S, !rsum_0 in HT. cbn [qm qn qH qA qh cycle_qp Nat.add] in HT.
  rewrite S1 in HT. rewrite S2, S4 in HB0. rewrite S3, S5 in HB1.
  assert (N0 : xt 1%nat = r * (2 * xt 0%nat) - r * cz1 c + cy1 c).
  { assert (E : r * (2 * xt 0%nat - / r * xt 1%nat) = r * (cz1 c - / r * cy1 c)) by (rewrite HB0; reflexivity).
    replace (r * (2 * xt 0%nat - / r * xt 1%nat)) with (r * (2 * xt 0%nat) - xt 1%nat) in E by (field; lra).
    replace (r * (cz1 c - / r * cy1 c)) with (r * cz1 c - cy1 c) in E by (field; lra). lra. }
  assert (N1 : xt 2%nat = r * xt 0%nat - r * cz2 c + cy2 c).
  { assert (E : r * (xt 0%nat - / r * xt 2%nat) = r * (cz2 c - / r * cy2 c)) by (rewrite HB1; reflexivity).
    replace (r * (xt 0%nat - / r * xt 2%nat)) with (r * xt 0%nat - xt 2%nat) in E by (field; lra).
    replace (r * (cz2 c - / r * cy2 c)) with (r * cz2 c - cy2 c) in E by (field; lra). lra. }
  assert (X : xt 0%nat = cx (cstep r c)).
  { unfold cstep. cbn [cx]. fold sig in HT. assert (D : 0 < 1 + sig + 5 * r) by (unfold sig; lra).
    apply Rmult_eq_reg_r with (1 + sig + 5 * r); [|lra]. unfold Rdiv. rewrite Rmult_assoc, Rinv_l, Rmult_1_r by lra.
    rewrite N0, N1 in HT. lra. }
  assert (W0 : relaxed lsolve s p o 0%nat = 2 * cx (cstep r c)).
  { rewrite (r_w lsolve full He s p o HI cycle_sym cycle_psd Hsg HR) by (simpl; lia). fold xt. rewrite E0, X. cbn [alpha default_qp_settings]. ring. }
  assert (W1 : relaxed lsolve s p o 1%nat = cx (cstep r c)).
  { rewrite (r_w lsolve full He s p o HI cycle_sym cycle_psd Hsg HR) by (simpl; lia). fold xt. rewrite E1, X. cbn [alpha default_qp_settings]. ring. }
  assert (I0 : a_rho_inv o 0%nat = / r) by (rewrite (proj2 (HR 0%nat ltac:(simpl; lia))), RV by lia; reflexivity).
  assert (I1 : a_rho_inv o 1%nat = / r) by (rewrite (proj2 (HR 1%nat ltac:(simpl; lia))), RV by lia; reflexivity).
  assert (Z0 : a_z (admm_update lsolve s p o) 0%nat = cz1 (cstep r c)).
  { rewrite update_z by (simpl; lia). rewrite W0, I0, S4. change (lbS p 0) with (Fin (-10)). change (ubS p 0) with (Fin 10).
    rewrite proj_clip. unfold cstep. cbn [cx cz1]. f_equal. unfold Rdiv. ring. }
  assert (Z1 : a_z (admm_update lsolve s p o) 1%nat = cz2 (cstep r c)).
  { rewrite update_z by (simpl; lia). rewrite W1, I1, S5. change (lbS p 1) with (Fin (-1)). change (ubS p 1) with (Fin 3).
    rewrite proj_clip. unfold cstep. cbn [cx cz2]. f_equal. unfold Rdiv. ring. }
  split; [exact S0|]. split; [rewrite update_x by (simpl; lia); change (lsolve _ _ _ 0%nat) with (xt 0%nat); rewrite X; cbn [alpha default_qp_settings]; ring|].
  split; [exact Z0|]. split; [exact Z1|]. split.
  - rewrite update_y by (simpl; lia). rewrite W0, Z0, RV, S4 by lia. unfold cstep. cbn [cx cy1 cz1]. match goal with |- context[?n / (1 + sig + 5 * r)] => set (xx := n / (1 + sig + 5 * r)) end. set (cc := clip _ _ _). field. lra.
  - rewrite update_y by (simpl; lia). rewrite W1, Z1, RV, S5 by lia. unfold cstep. cbn [cx cy2 cz2]. match goal with |- context[?n / (1 + sig + 5 * r)] => set (xx := n / (1 + sig + 5 * r)) end. set (cc := clip _ _ _). field. lra.
Qed.

Lemma cycle_update k o r c : visits body (max_iter s) init k o -> shape o r c -> 0 < r -> shape (admm_update lsolve s p o) r (cstep r c).
Proof.
  intros Hv HS Hr. assert (Hr0 : 0 < rho0 s) by (simpl; lra). apply cycle_update_gen; auto.
  eapply visits_admm_inv; eauto. eapply visits_rho_pos; eauto.
Qed.

Lemma cycle_res o r c : shape o r c -> compute_residuals p (a_x o) (a_y o) (a_z o) = mkRes (c_rp false c) (c_rd c) (c_mp false c) (c_md c).
Proof.
  intros (S0 & S1 & S2 & S3 & S4 & S5). rewrite residuals_R. unfold admm_prim_scale, qp_dual_scale, lag_grad.
  cbn [qm qn qh qA qH cycle_qp Nat.add].
  assert (N1 : forall f, rnorminf 1 f = Rabs (f 0%nat)).
  { intros. rewrite rnorminf_S. change (rnorminf 0 f) with 0. apply Rmax_right, Rabs_pos. }
  assert (N2 : forall f, rnorminf 2 f = Rmax (Rabs (f 0%nat)) (Rabs (f 1%nat))) by (intros; rewrite rnorminf_S, N1; reflexivity).
  rewrite N2, !N1. rewrite !rmv_def, !rsum_S, !rsum_0. cbn [qm qn qh qA qH cycle_qp Nat.add].
  rewrite S1, S2, S3, S4, S5. unfold c_rp, both, c_rd, c_mp, c_md.
  rewrite !Rplus_0_l, !Rmult_1_l. rewrite (Rabs_right 100) by lra. reflexivity.
Qed.

Lemma cycle_est c r : c_new false r c = clamp_rho (estimate_rho (mkRes (c_rp false c) (c_rd c) (c_mp false c) (c_md c)) r).
Proof.
  unfold clamp_rho. rewrite sfmax_R, sfmin_R. unfold RHO_MIN, RHO_MAX, estimate_rho, DIV_BY_ZERO_REGUL, scst. rsimp. reflexivity.
Qed.

Lemma cycle_step k o r c : visits body (max_iter s) init k o -> shape o r c -> 0 < r ->
  (Z.rem k 25 <> 0%Z -> exists o', body k o = Cont o' /\ shape o' r (cstep r c)) /\
  (Z.rem k 25 = 0%Z -> c_go false (cstep r c) -> c_change r (c_new false r (cstep r c)) ->
     exists o', body k o = Cont o' /\ shape o' (c_new false r (cstep r c)) (cstep r c) /\ a_rho_updates o' = (a_rho_updates o + 1)%Z).
Proof.
  intros Hv HS Hr. assert (HU := cycle_update k o r c Hv HS Hr). set (n := cstep r c) in *.
  unfold admm_body, is_check_iter. cbn [check_termination adaptive_rho adaptive_rho_interval default_qp_settings].
  change (25 =? 0)%Z with false. cbn [negb andb]. split.
  - intros Hk. rewrite (proj2 (Z.eqb_neq _ _) Hk). cbn [andb]. eexists. split; [reflexivity|exact HU].
  - intros Hk Hg Hc. rewrite (proj2 (Z.eqb_eq _ _) Hk). cbn [andb].
    set (u := admm_update lsolve s p o) in *.
    assert (ER : a_res (residuals_update p u) = mkRes (c_rp false n) (c_rd n) (c_mp false n) (c_md n)) by (apply (cycle_res u r n HU)).
    assert (ET : termination_criteria s (a_res (residuals_update p u)) = false).
    { rewrite ER. unfold termination_criteria, eps_prim, eps_dual. cbn [res_prim res_dual max_Ax_z max_Hx eps_abs eps_rel default_qp_settings]. rsimp.
      destruct Hg as [G|G]; apply andb_false_iff; [left|right]; apply Rleb_false; lra. }
    rewrite ET. eexists. split; [reflexivity|].
    assert (ERho : a_rho (residuals_update p u) = r) by (apply HU).
    unfold adapt_rho. rewrite ER, ERho, <- cycle_est. change (a_rho (set_rho_estimate (c_new false r n) (residuals_update p u))) with (a_rho (residuals_update p u)).
    rewrite ERho.
    assert (EC : rho_change_needed s (c_new false r n) r = true).
    { unfold rho_change_needed. cbn [adaptive_rho_tolerance default_qp_settings]. rsimp. apply orb_true_iff.
      destruct Hc as [G|G]; [left|right]; apply Rltb_true; exact G. }
    rewrite EC. split; [|reflexivity]. split; [reflexivity|]. destruct HU as (_ & HU). exact HU.
Qed.

Lemma Zrem_25 q j : (0 <= q)%Z -> (0 <= j < 25)%Z -> Z.rem (25 * q + j + 1) 25 = (if (j =? 24)%Z then 0 else j + 1)%Z.
Proof.
  intros. rewrite Z.rem_mod_nonneg by lia. destruct (Z.eqb_spec j 24).
  - subst. symmetry. apply Z.mod_unique_pos with (q := (q + 1)%Z); lia.
  - symmetry. apply Z.mod_unique_pos with (q := q); lia.
Qed.

Lemma cycle_visits k o : visits body (max_iter s) init k o ->
  forall q j : nat, (j < 25)%nat -> (k = 25 * Z.of_nat q + Z.of_nat j + 1)%Z ->
  shape o (fst (ctraj false q)) (csteps j (fst (ctraj false q)) (snd (ctraj false q))) /\ a_rho_updates o = (a_rho_updates init + Z.of_nat q)%Z.
Proof.
  intros Hv. induction Hv as [|k o o' Hv IH Hk Hb]; intros q j Hj Ek.
  - assert (q = 0%nat) by lia. assert (j = 0%nat) by lia. subst q j.
    destruct (setup_at_pair full s p (fun _ => 0) (fun _ => 0) ob) as (Hx & Hy & Hz). split; [|simpl; lia].
    split; [reflexivity|]. split; [apply Hx; simpl; lia|]. split; [rewrite Hz by (simpl; lia); unfold stackv; cbn [qm qn qA cycle_qp Nat.ltb Nat.leb]; rexpand; simpl; ring|].
    split; [rewrite Hz by (simpl; lia); reflexivity|]. split; apply Hy; simpl; lia.
  - assert (Hk1 := proj1 (visits_range _ _ _ _ _ Hv)).
    destruct j as [|j].
    + destruct q as [|q]; [lia|].
      destruct (IH q 24%nat ltac:(lia) ltac:(lia)) as [HS HN]. destruct (ctraj_goes false q) as (G1 & G2 & G3).
      destruct (proj2 (cycle_step k o _ _ Hv HS G3)) as (o1 & E & HS1 & HN1).
      * replace k with (25 * Z.of_nat q + 24 + 1)%Z by lia. apply (Zrem_25 (Z.of_nat q) 24); lia.
      * exact G1.
      * exact G2.
      * rewrite Hb in E. injection E as <-. split; [exact HS1|]. rewrite HN1, HN. lia.
    + destruct (IH q j ltac:(lia) ltac:(lia)) as [HS HN]. destruct (ctraj_goes false q) as (G1 & G2 & G3).
      destruct (proj1 (cycle_step k o _ _ Hv HS G3)) as (o1 & E & HS1).
      * replace k with (25 * Z.of_nat q + Z.of_nat j + 1)%Z by lia. rewrite Zrem_25 by lia. destruct (Z.eqb_spec (Z.of_nat j) 24); lia.
      * assert (EN : a_rho_updates o1 = a_rho_updates o).
        { revert E. unfold admm_body, is_check_iter. cbn [check_termination adaptive_rho adaptive_rho_interval default_qp_settings].
          change (25 =? 0)%Z with false. cbn [negb andb].
          replace (Z.rem k 25 =? 0)%Z with false. cbn [andb]. intros E. injection E as <-. reflexivity.
          symmetry. apply Z.eqb_neq. replace k with (25 * Z.of_nat q + Z.of_nat j + 1)%Z by lia. rewrite Zrem_25 by lia. destruct (Z.eqb_spec (Z.of_nat j) 24); lia. }
        rewrite Hb in E. injection E as <-. split; [exact HS1|]. rewrite EN. exact HN.
Qed.

Lemma cycle_never k o o' : visits body (max_iter s) init k o -> body k o <> Stop o'.
Proof.
  intros Hv Hb. assert (Hk1 := proj1 (visits_range _ _ _ _ _ Hv)).
  set (q := Z.to_nat ((k - 1) / 25)). set (j := Z.to_nat ((k - 1) mod 25)).
  assert (D := Z.div_mod (k - 1) 25 ltac:(lia)). assert (B := Z.mod_pos_bound (k - 1) 25 ltac:(lia)). assert (B2 := Z.div_pos (k - 1) 25 ltac:(lia) ltac:(lia)).
  destruct (cycle_visits k o Hv q j ltac:(unfold j; lia) ltac:(unfold q, j; lia)) as [HS _].
  destruct (ctraj_goes false q) as (G1 & G2 & G3).
  destruct (cycle_step k o _ _ Hv HS G3) as [C1 C2].
  destruct (Z.eq_dec (Z.rem k 25) 0) as [E|E].
  - assert (Ej : j = 24%nat).
    { assert (R := Zrem_25 (Z.of_nat q) (Z.of_nat j) ltac:(lia) ltac:(unfold j; lia)).
      replace (25 * Z.of_nat q + Z.of_nat j + 1)%Z with k in R by (unfold q, j; lia). destruct (Z.eqb_spec (Z.of_nat j) 24); lia. }
    rewrite Ej in C2. destruct (C2 E G1 G2) as (o1 & E1 & _). congruence.
  - destruct (C1 E) as (o1 & E1 & _). congruence.
Qed.

Lemma cycle_result : exists o', admm_solve lsolve full s p (fun _ => 0) (fun _ => 0) ob = Some o' /\ a_status o' = MAX_ITER_EXCEEDED /\
  (forall N : nat, mx = (25 * Z.of_nat N)%Z ->
     18 / 100 < Rabs (a_x o' 0%nat - -1) /\ a_rho_updates o' = (a_rho_updates ob + 1 + Z.of_nat N)%Z).
Proof.
  destruct (solve_defined lsolve full s p (fun _ => 0) (fun _ => 0) ob) as [o' Ho]; [right; discriminate|].
  exists o'. split; auto.
  destruct (solve_cases _ _ _ _ _ _ _ _ Ho) as [[k [o1 [Hv [Hk ->]]]]|[k [o1 [o2 [Hv [Hk [Hb ->]]]]]]].
  - split; [reflexivity|]. intros N EN. assert (R := visits_range _ _ _ _ _ Hv). cbn [max_iter default_qp_settings] in *.
    destruct (cycle_visits k o1 Hv N 0%nat ltac:(lia) ltac:(lia)) as [(_ & HX & _) HN]. cbn [a_x a_rho_updates set_iter set_status]. rewrite HX, HN.
    split; [apply ctraj_far|]. cbn [admm_setup set_status factorise_kkt_matrix set_K rho_vec_update a_rho_updates]. lia.
  - exfalso. eapply cycle_never; eauto.
Qed.
End Cycle.

Section BoxCycle.
Variable lsolve : nat -> mat R -> vec R -> vec R.
Variable full : bool.
Hypothesis He : exact_solver full lsolve.
Variables (mx : Z) (ob : box_obj R).
Notation p := cycle_qp.
Notation s := (default_qp_settings true mx).
Notation body := (box_body lsolve s p).
Notation init := (box_setup full s p (fun _ => 0) (fun _ => 0) ob).

Definition bshape (o : box_obj R) (r : R) (c : cst) : Prop :=
  b_rho o = r /\ b_x o 0%nat = cx c /\ b_z o 0%nat = cz1 c /\ b_q o 0%nat = cz2 c /\ b_y o 0%nat = cy1 c /\ b_y o 1%nat = cy2 c.
Lemma cycle_boff K : boff (qn p) (qm p) K.
Proof. intros i j Hi Hj Hn. cbn [qn qm cycle_qp] in *. lia. Qed.

Lemma bcycle_update k o r c : visits body (max_iter s) init k o -> bshape o r c -> 0 < r -> bshape (box_update lsolve s p o) r (cstep r c).
Proof.
  intros Hv HS Hr. assert (Hr0 : 0 < rho0 s) by (simpl; lra). assert (Hsg : 0 < sigma s) by (simpl; lra).
  assert (HI := bvisits_inv lsolve full _ _ _ _ _ _ _ Hv).
  assert (HF := bvisits_fact lsolve full _ _ _ _ _ _ _ (cycle_boff _) Hv).
  assert (HG := bvisits_rho_pos lsolve full _ _ _ _ _ _ _ Hr0 Hv).
  destruct (box_update_sim lsolve full He s p o HI HF HG cycle_sym cycle_psd Hsg eq_refl) as (Sx & Sy & Sz).
  destruct (cycle_update_gen lsolve full He mx (toA full s p o) r c (toA_inv full s p o HI) (toA_rho full s p o HG) HS Hr) as (U0 & U1 & U2 & U3 & U4 & U5).
  split; [apply HS|]. split; [rewrite Sx by (simpl; lia); exact U1|]. split; [rewrite <- U2, <- Sz by (simpl; lia); reflexivity|].
  split; [rewrite <- U3, <- Sz by (simpl; lia); reflexivity|]. split; rewrite Sy by (simpl; lia); assumption.
Qed.

Lemma bcycle_res o r c : bshape o r c ->
  box_compute_residuals p (b_x o) (b_y o) (b_z o) (b_q o) = mkRes (c_rp true c) (c_rd c) (c_mp true c) (c_md c).
Proof.
  intros (S0 & S1 & S2 & S3 & S4 & S5). rewrite bresiduals_R. unfold box_prim_scale, qp_dual_scale, lag_grad.
  cbn [qm qn qh qA qH cycle_qp Nat.add].
  assert (N1 : forall f, rnorminf 1 f = Rabs (f 0%nat)).
  { intros. rewrite rnorminf_S. change (rnorminf 0 f) with 0. apply Rmax_right, Rabs_pos. }
  rewrite !N1. rewrite !rmv_def, !rsum_S, !rsum_0. cbn [qm qn qh qA qH cycle_qp Nat.add].
  rewrite S1, S2, S3, S4, S5. unfold c_rp, both, c_rd, c_mp, c_md.
  rewrite !Rplus_0_l, !Rmult_1_l. rewrite (Rabs_right 100) by lra. reflexivity.
Qed.

Lemma bcycle_est c r : c_new true r c = clamp_rho (estimate_rho (mkRes (c_rp true c) (c_rd c) (c_mp true c) (c_md c)) r).
Proof.
  unfold clamp_rho. rewrite sfmax_R, sfmin_R. unfold RHO_MIN, RHO_MAX, estimate_rho, DIV_BY_ZERO_REGUL, scst. rsimp. reflexivity.
Qed.

Lemma bcycle_step k o r c : visits body (max_iter s) init k o -> bshape o r c -> 0 < r ->
  (Z.rem k 25 <> 0%Z -> exists o', body k o = Cont o' /\ bshape o' r (cstep r c)) /\
  (Z.rem k 25 = 0%Z -> c_go true (cstep r c) -> c_change r (c_new true r (cstep r c)) ->
     exists o', body k o = Cont o' /\ bshape o' (c_new true r (cstep r c)) (cstep r c) /\ b_rho_updates o' = (b_rho_updates o + 1)%Z).
Proof.
  intros Hv HS Hr. assert (HU := bcycle_update k o r c Hv HS Hr). set (n := cstep r c) in *.
  unfold box_body, is_check_iter. cbn [check_termination adaptive_rho adaptive_rho_interval default_qp_settings].
  change (25 =? 0)%Z with false. cbn [negb andb]. split.
  - intros Hk. rewrite (proj2 (Z.eqb_neq _ _) Hk). cbn [andb]. eexists. split; [reflexivity|exact HU].
  - intros Hk Hg Hc. rewrite (proj2 (Z.eqb_eq _ _) Hk). cbn [andb].
    set (u := box_update lsolve s p o) in *.
    assert (ER : b_res (box_residuals_update p u) = mkRes (c_rp true n) (c_rd n) (c_mp true n) (c_md n)) by (apply (bcycle_res u r n HU)).
    assert (ET : termination_criteria s (b_res (box_residuals_update p u)) = false).
    { rewrite ER. unfold termination_criteria, eps_prim, eps_dual. cbn [res_prim res_dual max_Ax_z max_Hx eps_abs eps_rel default_qp_settings]. rsimp.
      destruct Hg as [G|G]; apply andb_false_iff; [left|right]; apply Rleb_false; lra. }
    rewrite ET. eexists. split; [reflexivity|].
    assert (ERho : b_rho (box_residuals_update p u) = r) by (apply HU).
    unfold box_adapt_rho. rewrite ER, ERho, <- bcycle_est. change (b_rho (bset_rho_estimate (c_new true r n) (box_residuals_update p u))) with (b_rho (box_residuals_update p u)).
    rewrite ERho.
    assert (EC : rho_change_needed s (c_new true r n) r = true).
    { unfold rho_change_needed. cbn [adaptive_rho_tolerance default_qp_settings]. rsimp. apply orb_true_iff.
      destruct Hc as [G|G]; [left|right]; apply Rltb_true; exact G. }
    rewrite EC. split; [|reflexivity]. split; [reflexivity|]. destruct HU as (_ & HU). exact HU.
Qed.

Lemma bcycle_visits k o : visits body (max_iter s) init k o ->
  forall q j : nat, (j < 25)%nat -> (k = 25 * Z.of_nat q + Z.of_nat j + 1)%Z ->
  bshape o (fst (ctraj true q)) (csteps j (fst (ctraj true q)) (snd (ctraj true q))) /\ b_rho_updates o = (b_rho_updates init + Z.of_nat q)%Z.
Proof.
  intros Hv. induction Hv as [|k o o' Hv IH Hk Hb]; intros q j Hj Ek.
  - assert (q = 0%nat) by lia. assert (j = 0%nat) by lia. subst q j.
    destruct (bsetup_at_pair full s p (fun _ => 0) (fun _ => 0) ob) as (Hx & Hy & Hz & Hq). split; [|simpl; lia].
    split; [reflexivity|]. split; [apply Hx; simpl; lia|].
    split; [rewrite Hz by (simpl; lia); cbn [qm qn qA cycle_qp]; rexpand; simpl; ring|].
    split; [apply Hq; simpl; lia|]. split; apply Hy; simpl; lia.
  - assert (Hk1 := proj1 (visits_range _ _ _ _ _ Hv)).
    destruct j as [|j].
    + destruct q as [|q]; [lia|].
      destruct (IH q 24%nat ltac:(lia) ltac:(lia)) as [HS HN]. destruct (ctraj_goes true q) as (G1 & G2 & G3).
      destruct (proj2 (bcycle_step k o _ _ Hv HS G3)) as (o1 & E & HS1 & HN1).
      * replace k with (25 * Z.of_nat q + 24 + 1)%Z by lia. apply (Zrem_25 (Z.of_nat q) 24); lia.
      * exact G1.
      * exact G2.
      * rewrite Hb in E. injection E as <-. split; [exact HS1|]. rewrite HN1, HN. lia.
    + destruct (IH q j ltac:(lia) ltac:(lia)) as [HS HN]. destruct (ctraj_goes true q) as (G1 & G2 & G3).
      destruct (proj1 (bcycle_step k o _ _ Hv HS G3)) as (o1 & E & HS1).
      * replace k with (25 * Z.of_nat q + Z.of_nat j + 1)%Z by lia. rewrite Zrem_25 by lia. destruct (Z.eqb_spec (Z.of_nat j) 24); lia.
      * assert (EN : b_rho_updates o1 = b_rho_updates o).
        { revert E. unfold box_body, is_check_iter. cbn [check_termination adaptive_rho adaptive_rho_interval default_qp_settings].
          change (25 =? 0)%Z with false. cbn [negb andb].
          replace (Z.rem k 25 =? 0)%Z with false. cbn [andb]. intros E. injection E as <-. reflexivity.
          symmetry. apply Z.eqb_neq. replace k with (25 * Z.of_nat q + Z.of_nat j + 1)%Z by lia. rewrite Zrem_25 by lia. destruct (Z.eqb_spec (Z.of_nat j) 24); lia. }
        rewrite Hb in E. injection E as <-. split; [exact HS1|]. rewrite EN. exact HN.
Qed.

Lemma bcycle_never k o o' : visits body (max_iter s) init k o -> body k o <> Stop o'.
Proof.
  intros Hv Hb. assert (Hk1 := proj1 (visits_range _ _ _ _ _ Hv)).
  set (q := Z.to_nat ((k - 1) / 25)). set (j := Z.to_nat ((k - 1) mod 25)).
  assert (D := Z.div_mod (k - 1) 25 ltac:(lia)). assert (B := Z.mod_pos_bound (k - 1) 25 ltac:(lia)). assert (B2 := Z.div_pos (k - 1) 25 ltac:(lia) ltac:(lia)).
  destruct (bcycle_visits k o Hv q j ltac:(unfold j; lia) ltac:(unfold q, j; lia)) as [HS _].
  destruct (ctraj_goes true q) as (G1 & G2 & G3).
  destruct (bcycle_step k o _ _ Hv HS G3) as [C1 C2].
  destruct (Z.eq_dec (Z.rem k 25) 0) as [E|E].
  - assert (Ej : j = 24%nat).
    { assert (R := Zrem_25 (Z.of_nat q) (Z.of_nat j) ltac:(lia) ltac:(unfold j; lia)).
      replace (25 * Z.of_nat q + Z.of_nat j + 1)%Z with k in R by (unfold q, j; lia). destruct (Z.eqb_spec (Z.of_nat j) 24); lia. }
    rewrite Ej in C2. destruct (C2 E G1 G2) as (o1 & E1 & _). congruence.
  - destruct (C1 E) as (o1 & E1 & _). congruence.
Qed.

Lemma bcycle_result : exists o', box_solve lsolve full s p (fun _ => 0) (fun _ => 0) ob = Some o' /\ b_status o' = MAX_ITER_EXCEEDED /\
  (forall N : nat, mx = (25 * Z.of_nat N)%Z ->
     18 / 100 < Rabs (b_x o' 0%nat - -1) /\ b_rho_updates o' = (b_rho_updates ob + 1 + Z.of_nat N)%Z).
Proof.
  destruct (bsolve_defined lsolve full s p (fun _ => 0) (fun _ => 0) ob) as [o' Ho]; [right; discriminate|].
  exists o'. split; auto.
  destruct (bsolve_cases _ _ _ _ _ _ _ _ Ho) as [[k [o1 [Hv [Hk ->]]]]|[k [o1 [o2 [Hv [Hk [Hb ->]]]]]]].
  - split; [reflexivity|]. intros N EN. assert (R := visits_range _ _ _ _ _ Hv). cbn [max_iter default_qp_settings] in *.
    destruct (bcycle_visits k o1 Hv N 0%nat ltac:(lia) ltac:(lia)) as [(_ & HX & _) HN]. cbn [b_x b_rho_updates bset_iter bset_status]. rewrite HX, HN.
    split; [apply ctraj_far|]. cbn [box_setup bset_status box_factorise bset_K box_rho_vec_update b_rho_updates]. lia.
  - exfalso. eapply bcycle_never; eauto.
Qed.
End BoxCycle.
