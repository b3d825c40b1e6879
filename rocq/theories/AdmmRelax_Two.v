(** A problem on which ADMM with alpha = 2 runs in a circle. *)
Require Import ZArith List Bool Lia Reals Lra Psatz.
From Verif Require Import Scal RSum Qp_Model Qp_Spec Qp_Proofs Admm_Model Admm_Spec Admm_SpecR Admm_Proofs Admm_ProofsR Admm_Conv BoxAdmm_Equiv AdmmRelax_Spec AdmmRelax_Proofs.
Local Open Scope R_scope.

Definition circle_qp : qp_data R :=
  mkQP 1 0 (fun _ _ => 0) (fun _ => 0) (fun _ _ => 0) (fun _ => MInf) (fun _ => PInf) (fun _ => Fin 0) (fun _ => Fin 0).
Definition circle_settings (mx : Z) : qp_settings R := mkSettings 0 (1/2) mx (1/1000) 1 2 1 false 5 25.
Lemma circle_sym : symmetric (qn circle_qp) (qH circle_qp).
Proof. intros i j _ _; reflexivity. Qed.
Lemma circle_psd : psd (qn circle_qp) (qH circle_qp).
Proof.
  intros x. right. symmetry. unfold qf, bf. rewrite rdot_def. apply rsum_zero. intros i Hi. rewrite rmv_def.
  rewrite rsum_zero by (intros; simpl; ring). ring.
Qed.
Lemma circle_kkt : kkt_pair circle_qp (fun _ => 0) (fun _ => 0).
Proof.
  unfold kkt_pair. split; [intros; unfold lag_grad; rewrite rmv_def, rsum_zero by (intros; simpl; ring); cbn [qm circle_qp qh]; rewrite rsum_0; ring|].
  unfold qp_feasible, in_bounds, sign_ok. simpl. split; [split; intros; [lia|split; simpl; lra]|]. split; intros; [lia|simpl; lra].
Qed.

Section Circle.
Variable lsolve : nat -> mat R -> vec R -> vec R.
Variable full : bool.
Hypothesis He : exact_solver full lsolve.
Variables (mx : Z) (ob : admm_obj R).
Notation p := circle_qp.
Notation s := (circle_settings mx).
Notation init := (admm_setup full s p (fun _ => 1) (fun _ => 0) ob).

Lemma circle_rho : rho_fix s p 0%nat = 1.
Proof.
  unfold rho_fix. assert (E : parse_constraints_bounds p 0%nat = EQUALITY_CONSTRAINT).
  { change (parse_constraints_bounds p 0%nat) with (parse_row (Fin 0) (Fin 0)).
    apply (proj2 (parse_row_R (Fin 0) (Fin 0))). simpl. split; [intros [H _]; lra|lra]. }
  rewrite E. unfold rho_of_type, RHO_EQ_FACTOR. rsimp. simpl. lra.
Qed.

Lemma circle_update k o : visits (admm_body lsolve s p) (max_iter s) init k o ->
  let x := a_x o 0%nat in let y := a_y o 0%nat in let z := a_z o 0%nat in let u := admm_update lsolve s p o in
  a_x u 0%nat = z - y /\ a_z u 0%nat = 0 /\ a_y u 0%nat = x.
Proof.
  intros Hv x y z u.
  assert (Hr0 : 0 < rho0 s) by (simpl; lra). assert (Hsg : 0 < sigma s) by (simpl; lra).
  assert (HI := visits_admm_inv _ _ _ _ _ _ _ _ _ Hv). assert (HR := visits_rho_pos _ _ _ _ _ _ _ _ _ Hr0 Hv).
  assert (R1 : a_rho_vec o 0%nat = 1).
  { rewrite (visits_rho_fix lsolve full s p _ _ ob eq_refl k o Hv) by (simpl; lia). apply circle_rho. }
  destruct (tilde_solves lsolve full He s p o HI circle_sym circle_psd Hsg HR) as [HT HB].
  specialize (HT 0%nat ltac:(simpl; lia)). specialize (HB 0%nat ltac:(simpl; lia)).
  set (xt := tilde lsolve s p o) in *.
  rewrite R1 in HB. change (stackv p xt 0%nat) with (xt 0%nat) in HB.
  rewrite rmv_def, rsum_zero in HT by (intros; simpl; ring). cbn [qm qn qh circle_qp sigma circle_settings Nat.add] in HT, HB. rewrite rsum_0 in HT.
  rewrite Rinv_1 in HB. fold x in HT. fold y z in HB.
  assert (X2 : 2 * xt 0%nat = x + z - y) by lra.
  assert (Ux : a_x u 0%nat = z - y).
  { unfold u. rewrite r_x by (simpl; lia). change (tilde lsolve s p o 0%nat) with (xt 0%nat). cbn [alpha circle_settings]. fold x. lra. }
  assert (Uz : a_z u 0%nat = 0).
  { unfold u. rewrite update_z by (simpl; lia). change (lbS p 0) with (Fin 0). change (ubS p 0) with (Fin 0).
    set (w := _ + _). destruct (proj_in_bounds (Fin 0) (Fin 0) w) as [L U]; [exists 0; split; cbn; lra|]. unfold above in L; unfold below in U. apply Rle_antisym; assumption. }
  repeat split; auto. unfold u in *. rewrite (r_y lsolve full He s p o HI circle_sym circle_psd Hsg HR) by (simpl; lia).
  rewrite Uz, R1. change (stackv p (tilde lsolve s p o) 0%nat) with (xt 0%nat). cbn [alpha circle_settings]. fold x y z. lra.
Qed.

Lemma circle_visits k o : visits (admm_body lsolve s p) (max_iter s) init k o ->
  let x := a_x o 0%nat in let y := a_y o 0%nat in let z := a_z o 0%nat in x * x = 1 /\ (z - y) * (z - y) = 1.
Proof.
  intros Hv. induction Hv as [|k o o' Hv IH Hk Hb].
  - destruct (setup_at_pair full s p (fun _ => 1) (fun _ => 0) ob) as (Hx & Hy & Hz). cbv zeta.
    rewrite Hx, Hy, Hz by (simpl; lia). change (stackv p (fun _ => 1) 0%nat) with 1. split; ring.
  - destruct (body_cont_xyz _ _ _ _ _ _ Hb) as (-> & -> & ->). destruct (circle_update k o Hv) as (-> & -> & ->). cbv zeta in IH. destruct IH. split; lra.
Qed.

Lemma circle_never o' : admm_solve lsolve full s p (fun _ => 1) (fun _ => 0) ob = Some o' -> a_status o' <> SOLVED.
Proof.
  intros H.
  destruct (solve_cases _ _ _ _ _ _ _ _ H) as [[k [o1 [Hv [Hk ->]]]]|[k [o1 [o2 [Hv [Hk [Hb ->]]]]]]].
  - discriminate.
  - exfalso. apply body_stop in Hb. destruct Hb as (_ & _ & -> & Ht). cbn [a_res set_status residuals_update] in Ht.
    destruct (circle_update k o1 Hv) as (Ux & Uz & Uy). destruct (circle_visits k o1 Hv) as [_ Hq]. cbv zeta in Hq.
    rewrite residuals_R in Ht. unfold termination_criteria, eps_prim in Ht. apply andb_prop in Ht. destruct Ht as [Ht _].
    cbn [res_prim max_Ax_z] in Ht. revert Ht. rsimp. intros Ht. apply Rleb_true in Ht.
    assert (T := Rmax_r (rnorminf (qm p) (fun i => rmv (qn p) (qA p) (a_x (admm_update lsolve s p o1)) i - a_z (admm_update lsolve s p o1) i))
      (rnorminf (qn p) (fun j => a_x (admm_update lsolve s p o1) j - a_z (admm_update lsolve s p o1) (qm p + j)%nat))).
    assert (T2 := rnorminf_ub (qn p) (fun j => a_x (admm_update lsolve s p o1) j - a_z (admm_update lsolve s p o1) (qm p + j)%nat) 0%nat ltac:(simpl; lia)).
    cbv beta in T2. cbn [qm circle_qp Nat.add] in T2. rewrite Ux, Uz in T2.
    cbn [eps_abs eps_rel circle_settings] in Ht.
    set (a := a_z o1 0%nat - a_y o1 0%nat) in *.
    assert (B : Rabs (a - 0) <= 1 / 2) by (eapply Rle_trans; [exact T2|]; eapply Rle_trans; [exact T|]; eapply Rle_trans; [exact Ht|]; lra).
    unfold Rabs in B. destruct (Rcase_abs (a - 0)); nra.
Qed.
End Circle.
