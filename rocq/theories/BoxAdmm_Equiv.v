(** ADMM and boxADMM compute the same iterates (alpha = 1); the result of a run is never farther
    from an optimum than the guess. *)
Require Import ZArith List Bool Lia Reals Lra Psatz.
From Verif Require Import Scal RSum Qp_Model Qp_Spec Qp_Proofs Admm_Model Admm_Spec Admm_SpecR Admm_Proofs Admm_ProofsR Admm_Conv
  BoxAdmm_Model BoxAdmm_Proofs BoxAdmm_ProofsR.
Local Open Scope R_scope.

Lemma tilde_unique : forall lsolve full, exact_solver full lsolve ->
  forall s p o v, admm_inv full s p o -> symmetric (qn p) (qH p) -> psd (qn p) (qH p) -> 0 < sigma s ->
  (forall i, (i < qm p + qn p)%nat -> 0 < a_rho_vec o i /\ a_rho_inv o i = / a_rho_vec o i) ->
  (forall j, (j < qn p)%nat ->
     rmv (qn p) (qH p) v j + sigma s * v j +
     (rsum (qm p) (fun i => qA p i j * v (qn p + i)%nat) + v (qn p + (qm p + j))%nat)
     = sigma s * a_x o j - qh p j) ->
  (forall i, (i < qm p + qn p)%nat ->
     stackv p v i - / a_rho_vec o i * v (qn p + i)%nat = a_z o i - / a_rho_vec o i * a_y o i) ->
  forall i, (i < qn p + (qm p + qn p))%nat -> tilde lsolve s p o i = v i.
Proof.
  intros lsolve full Hex s p o v HI Hs Hp Hsig Hrho Hv1 Hv2 i Hi.
  destruct (tilde_solves lsolve full Hex s p o HI Hs Hp Hsig Hrho) as [HT HB].
  set (t := tilde lsolve s p o) in *. set (d := fun i => t i - v i).
  assert (Hd : d i = 0); [|unfold d in Hd; lra].
  apply (admm_kkt_nonsingular full s p (a_rho_vec o) Hs Hp Hsig); auto.
  - intros; apply Hrho; auto.
  - intros k Hk. destruct (Nat.lt_ge_cases k (qn p)) as [Hkn|Hkn].
    + rewrite kkt_row_top by auto. unfold d. rewrite rmv_minus.
      rewrite (rsum_ext (qm p) _ (fun i => qA p i k * t (qn p + i)%nat - qA p i k * v (qn p + i)%nat)) by (intros; ring).
      rewrite rsum_minus. specialize (HT k Hkn). specialize (Hv1 k Hkn). lra.
    + replace k with (qn p + (k - qn p))%nat by lia. rewrite kkt_row_bottom by lia.
      set (i0 := (k - qn p)%nat). assert (Hi0 : (i0 < qm p + qn p)%nat) by (unfold i0; lia).
      specialize (HB i0 Hi0). specialize (Hv2 i0 Hi0).
      assert (E : stackv p d i0 = stackv p t i0 - stackv p v i0).
      { unfold stackv, d. destruct (Nat.ltb i0 (qm p)); [rewrite rmv_minus|]; ring. }
      rewrite E. unfold d. lra.
Qed.

(** an ADMM iteration is determined by the problem, the step sizes and (x,y,z) *)
Lemma update_determined : forall l1 f1 l2 f2, exact_solver f1 l1 -> exact_solver f2 l2 ->
  forall s p o1 o2, admm_inv f1 s p o1 -> admm_inv f2 s p o2 -> 0 < a_rho o1 -> a_rho o1 = a_rho o2 ->
  symmetric (qn p) (qH p) -> psd (qn p) (qH p) -> 0 < sigma s ->
  (forall j, (j < qn p)%nat -> a_x o1 j = a_x o2 j) ->
  (forall i, (i < qm p + qn p)%nat -> a_y o1 i = a_y o2 i) ->
  (forall i, (i < qm p + qn p)%nat -> a_z o1 i = a_z o2 i) ->
  let u1 := admm_update l1 s p o1 in let u2 := admm_update l2 s p o2 in
  (forall j, (j < qn p)%nat -> a_x u1 j = a_x u2 j) /\
  (forall i, (i < qm p + qn p)%nat -> a_y u1 i = a_y u2 i) /\
  (forall i, (i < qm p + qn p)%nat -> a_z u1 i = a_z u2 i).
Proof.
  intros l1 f1 l2 f2 E1 E2 s p o1 o2 I1 I2 Hr0 Hr Hs Hp Hsig Hx Hy Hz u1 u2.
  assert (Rv : forall i, (i < qm p + qn p)%nat -> a_rho_vec o1 i = a_rho_vec o2 i).
  { intros i Hi. rewrite (inv_rvec _ _ _ _ I1), (inv_rvec _ _ _ _ I2), (inv_ctype _ _ _ _ I1), (inv_ctype _ _ _ _ I2), Hr by auto. reflexivity. }
  assert (P1 : forall i, (i < qm p + qn p)%nat -> 0 < a_rho_vec o1 i /\ a_rho_inv o1 i = / a_rho_vec o1 i).
  { intros i Hi. split; [rewrite (inv_rvec _ _ _ _ I1) by auto; apply rho_of_type_pos; auto|].
    rewrite (inv_rinv _ _ _ _ I1) by auto. rsimp. unfold Rdiv. ring. }
  assert (P2 : forall i, (i < qm p + qn p)%nat -> 0 < a_rho_vec o2 i /\ a_rho_inv o2 i = / a_rho_vec o2 i).
  { intros i Hi. split; [rewrite <- Rv by auto; apply P1; auto|].
    rewrite (inv_rinv _ _ _ _ I2) by auto. rsimp. unfold Rdiv. ring. }
  assert (Ri : forall i, (i < qm p + qn p)%nat -> a_rho_inv o1 i = a_rho_inv o2 i).
  { intros i Hi. destruct (P1 i Hi) as [_ ->], (P2 i Hi) as [_ ->]. rewrite Rv by auto. reflexivity. }
  assert (HT : forall i, (i < qn p + (qm p + qn p))%nat -> tilde l1 s p o1 i = tilde l2 s p o2 i).
  { destruct (tilde_solves l2 f2 E2 s p o2 I2 Hs Hp Hsig P2) as [T2 B2].
    apply (tilde_unique l1 f1 E1); auto.
    - intros j Hj. rewrite T2, Hx by auto. reflexivity.
    - intros i Hi. rewrite Rv, Hz, Hy by auto. apply B2; auto. }
  assert (HR : forall i, (i < qm p + qn p)%nat -> relaxed l1 s p o1 i = relaxed l2 s p o2 i).
  { intros i Hi. unfold relaxed. fold (tilde l1 s p o1) (tilde l2 s p o2). rewrite HT by lia. rewrite Hz, Hy, Ri by auto. reflexivity. }
  assert (Hz' : forall i, (i < qm p + qn p)%nat -> a_z u1 i = a_z u2 i).
  { intros i Hi. unfold u1, u2. rewrite !update_z by auto. rewrite HR, Ri, Hy by auto. reflexivity. }
  split; [|split; auto].
  - intros j Hj. unfold u1, u2. rewrite !update_x by auto. fold (tilde l1 s p o1) (tilde l2 s p o2). rewrite HT, Hx by (auto; lia). reflexivity.
  - intros i Hi. unfold u1, u2. rewrite !update_y by auto. fold u1 u2. rewrite HR, Rv, Hy, Hz' by auto. reflexivity.
Qed.

Section Equiv.
Variables (lA lB : nat -> mat R -> vec R -> vec R) (fA fB : bool).
Hypothesis EA : exact_solver fA lA.
Hypothesis EB : exact_solver fB lB.
Variables (s : qp_settings R) (p : qp_data R) (xg yg : vec R) (oA : admm_obj R) (oB : box_obj R).
Hypothesis Hoff : boff (qn p) (qm p) (b_K oB).
Hypothesis Hsym : symmetric (qn p) (qH p).
Hypothesis Hpsd : psd (qn p) (qH p).
Hypothesis Hsig : 0 < sigma s.
Hypothesis Hr0 : 0 < rho0 s.
Hypothesis Hal : alpha s = 1.
Hypothesis Had : adaptive_rho s = false.

(** same (x, y, z) up to the layout *)
Definition agree (a : admm_obj R) (b : box_obj R) : Prop :=
  (forall j, (j < qn p)%nat -> b_x b j = a_x a j) /\
  (forall i, (i < qm p + qn p)%nat -> b_y b i = a_y a i) /\
  (forall i, (i < qm p)%nat -> b_z b i = a_z a i) /\
  (forall j, (j < qn p)%nat -> b_q b j = a_z a (qm p + j)%nat).

Lemma agree_stk : forall a b, agree a b <->
  (forall j, (j < qn p)%nat -> a_x (toA fB s p b) j = a_x a j) /\
  (forall i, (i < qm p + qn p)%nat -> a_y (toA fB s p b) i = a_y a i) /\
  (forall i, (i < qm p + qn p)%nat -> a_z (toA fB s p b) i = a_z a i).
Proof.
  intros a b. unfold agree. cbn [toA a_x a_y a_z]. split.
  - intros (Hx & Hy & Hz & Hq). repeat split; auto. intros i Hi. unfold stk. destruct (Nat.ltb_spec i (qm p)); auto.
    rewrite Hq by lia. f_equal. lia.
  - intros (Hx & Hy & Hz). repeat split; auto.
    + intros i Hi. rewrite <- Hz by lia. rewrite stk_l by auto. reflexivity.
    + intros j Hj. rewrite <- Hz by lia. rewrite stk_r. reflexivity.
Qed.

Lemma visits_a_rho : forall k a, visits (admm_body lA s p) (max_iter s) (admm_setup fA s p xg yg oA) k a -> a_rho a = rho0 s.
Proof.
  intros k a Hv. induction Hv as [|k a a' Hv IH Hk Hb]; [reflexivity|]. rewrite <- IH. eapply body_cont_rho_fix; eauto.
Qed.
Lemma visits_b_rho : forall k b, visits (box_body lB s p) (max_iter s) (box_setup fB s p xg yg oB) k b -> b_rho b = rho0 s.
Proof.
  intros k b Hv. induction Hv as [|k b b' Hv IH Hk Hb]; [reflexivity|]. rewrite <- IH.
  revert Hb. unfold box_body. cbv zeta. rewrite Had.
  destruct (_ && _); [discriminate|]. intros HH; injection HH; intros; subst. destruct (is_check_iter s k); reflexivity.
Qed.

Lemma agree_update : forall k a b,
  visits (admm_body lA s p) (max_iter s) (admm_setup fA s p xg yg oA) k a ->
  visits (box_body lB s p) (max_iter s) (box_setup fB s p xg yg oB) k b ->
  agree a b -> agree (admm_update lA s p a) (box_update lB s p b).
Proof.
  intros k a b Va Vb Hag.
  assert (HIb := bvisits_inv lB fB _ _ _ _ _ _ _ Vb).
  assert (HFa := bvisits_fact lB fB _ _ _ _ _ _ _ Hoff Vb).
  assert (HG := bvisits_rho_pos lB fB _ _ _ _ _ _ _ Hr0 Vb).
  destruct (box_update_sim lB fB EB s p b HIb HFa HG Hsym Hpsd Hsig Hal) as (Sx & Sy & Sz).
  apply agree_stk in Hag. destruct Hag as (Ax & Ay & Az).
  destruct (update_determined lB fB lA fA EB EA s p (toA fB s p b) a) as (Ux & Uy & Uz); auto.
  - apply (toA_inv fB s p b HIb).
  - eapply visits_admm_inv; eauto.
  - cbn [toA a_rho]. rewrite (visits_b_rho _ _ Vb). auto.
  - cbn [toA a_rho]. rewrite (visits_b_rho _ _ Vb), (visits_a_rho _ _ Va). auto.
  - apply agree_stk. cbn [toA a_x a_y a_z]. repeat split; intros; rewrite ?Sx, ?Sy, ?Sz by auto; auto.
Qed.

Lemma visits_agree : forall k a b,
  visits (admm_body lA s p) (max_iter s) (admm_setup fA s p xg yg oA) k a ->
  visits (box_body lB s p) (max_iter s) (box_setup fB s p xg yg oB) k b -> agree a b.
Proof.
  intros k a b Va. revert b. induction Va as [|k a a' Va IH Hk Hb]; intros b Vb.
  - assert (b = box_setup fB s p xg yg oB).
    { eapply visits_det; [apply Vb|apply visits_first]. Unshelve. exact (max_iter s). }
    subst b. destruct (setup_at_pair fA s p xg yg oA) as (Hx & Hy & Hz).
    destruct (bsetup_at_pair fB s p xg yg oB) as (Bx & By & Bz & Bq).
    repeat split; intros; rewrite ?Bx, ?By, ?Bz, ?Bq, ?Hx, ?Hy, ?Hz by (auto; lia); auto.
    + unfold stackv. rewrite (proj2 (Nat.ltb_lt i (qm p))) by auto. reflexivity.
    + unfold stackv. destruct (Nat.ltb_spec (qm p + j) (qm p)); [lia|]. f_equal. lia.
  - inversion Vb as [E|k0 b0 b1 Vb0 Hk0 Hb0]; subst.
    + apply visits_range in Va. lia.
    + assert (k0 = k) by lia. subst k0.
      destruct (body_cont_xyz _ _ _ _ _ _ Hb) as (Ex & Ey & Ez).
      destruct (bbody_cont _ _ _ _ _ _ Hb0) as (Bx & By & Bz & Bq & _).
      specialize (IH b0 Vb0). destruct (agree_update k a b0 Va Vb0 IH) as (Gx & Gy & Gz & Gq).
      repeat split; intros; rewrite ?Ex, ?Ey, ?Ez, ?Bx, ?By, ?Bz, ?Bq; auto.
Qed.

(** without convergence checks the two solvers return the same point *)
Lemma results_agree : check_termination s = 0%Z -> forall a b,
  admm_solve lA fA s p xg yg oA = Some a -> box_solve lB fB s p xg yg oB = Some b ->
  agree a b /\ a_status a = b_status b /\ a_iter a = b_iter b.
Proof.
  intros Hct a b Ha Hb.
  destruct (solve_cases _ _ _ _ _ _ _ _ Ha) as [[k [o1 [Hv [Hk ->]]]]|[k [o1 [o2 [Hv [Hk [Hst ->]]]]]]].
  2:{ apply body_stop in Hst. destruct Hst as (Hc & _). unfold is_check_iter in Hc. rewrite Hct in Hc. discriminate. }
  destruct (bsolve_cases _ _ _ _ _ _ _ _ Hb) as [[k' [o1' [Hv' [Hk' ->]]]]|[k' [o1' [o2' [Hv' [Hk' [Hst' ->]]]]]]].
  2:{ apply bbody_stop in Hst'. destruct Hst' as (Hc & _). unfold is_check_iter in Hc. rewrite Hct in Hc. discriminate. }
  assert (k = k') by (apply visits_range in Hv, Hv'; lia). subst k'.
  split; [|split; reflexivity]. apply (visits_agree k o1 o1' Hv Hv').
Qed.
End Equiv.

(** ** distance of the returned point to an optimum *)
Section Monotone.
Variable lsolve : nat -> mat R -> vec R -> vec R.
Variable full : bool.
Hypothesis Hexact : exact_solver full lsolve.
Variables (s : qp_settings R) (p : qp_data R) (xg yg : vec R) (xs ys : vec R).
Hypothesis Hsym : symmetric (qn p) (qH p).
Hypothesis Hpsd : psd (qn p) (qH p).
Hypothesis Hsig : 0 < sigma s.
Hypothesis Hr0 : 0 < rho0 s.
Hypothesis Hal : alpha s = 1.
Hypothesis Had : adaptive_rho s = false.
Hypothesis HK : kkt_pair p xs ys.

Definition far (x z y : vec R) : R := dist2 s p (rho_fix s p) x z y xs (stackv p xs) ys.

Lemma visits_near : forall ob k o, visits (admm_body lsolve s p) (max_iter s) (admm_setup full s p xg yg ob) k o ->
  far (a_x o) (a_z o) (a_y o) <= far xg (stackv p xg) yg.
Proof.
  intros ob k o Hv. induction Hv as [|k o o' Hv IH Hk Hb].
  - destruct (setup_at_pair full s p xg yg ob) as (Hx & Hy & Hz). right. apply dist2_ext_l; auto.
  - eapply Rle_trans; [|apply IH].
    apply (visits_monotone lsolve full Hexact s p xg yg ob xs ys Hsym Hpsd Hsig Hr0 Hal Had HK k o o' Hv Hb).
Qed.

Lemma result_near : forall ob o', admm_solve lsolve full s p xg yg ob = Some o' ->
  far (a_x o') (a_z o') (a_y o') <= far xg (stackv p xg) yg.
Proof.
  intros ob o' H.
  destruct (solve_cases _ _ _ _ _ _ _ _ H) as [[k [o1 [Hv [Hk ->]]]]|[k [o1 [o2 [Hv [Hk [Hb ->]]]]]]].
  - apply (visits_near _ _ _ Hv).
  - apply body_stop in Hb. destruct Hb as (_ & _ & -> & _). eapply Rle_trans; [|apply (visits_near _ _ _ Hv)].
    assert (HI := visits_admm_inv lsolve full _ _ _ _ _ _ _ Hv).
    assert (D := step_decrease_gen lsolve full Hexact s p o1 HI Hsym Hpsd Hsig Hal (kkt_consistent _ _ _ HK)
      (visits_rho_pos _ _ _ _ _ _ _ _ _ Hr0 Hv) xs ys 0 HK (or_introl eq_refl)).
    rewrite !(dist2_ext s p (a_rho_vec o1) (rho_fix s p)) in D by (eapply visits_rho_fix; eauto).
    unfold far. simpl. simpl in D. lra.
Qed.

Lemma bvisits_near : forall ob k o, boff (qn p) (qm p) (b_K ob) ->
  visits (box_body lsolve s p) (max_iter s) (box_setup full s p xg yg ob) k o ->
  far (b_x o) (stk p (b_z o) (b_q o)) (b_y o) <= far xg (stackv p xg) yg.
Proof.
  intros ob k o Hoff Hv. induction Hv as [|k o o' Hv IH Hk Hb].
  - destruct (bsetup_at_pair full s p xg yg ob) as (Hx & Hy & Hz & Hq). right. apply dist2_ext_l; auto.
    intros i Hi. unfold stk, stackv. destruct (Nat.ltb_spec i (qm p)); auto. apply Hq. lia.
  - eapply Rle_trans; [|apply IH].
    apply (bvisits_monotone lsolve full Hexact s p xg yg ob xs ys Hoff Hsym Hpsd Hsig Hr0 Hal Had HK k o o' Hv Hb).
Qed.

Lemma bresult_near : forall ob o', boff (qn p) (qm p) (b_K ob) -> box_solve lsolve full s p xg yg ob = Some o' ->
  far (b_x o') (stk p (b_z o') (b_q o')) (b_y o') <= far xg (stackv p xg) yg.
Proof.
  intros ob o' Hoff H.
  destruct (bsolve_cases _ _ _ _ _ _ _ _ H) as [[k [o1 [Hv [Hk ->]]]]|[k [o1 [o2 [Hv [Hk [Hb ->]]]]]]].
  - apply (bvisits_near _ _ _ Hoff Hv).
  - apply bbody_stop in Hb. destruct Hb as (_ & _ & -> & _). eapply Rle_trans; [|apply (bvisits_near _ _ _ Hoff Hv)].
    assert (HI := bvisits_inv lsolve full _ _ _ _ _ _ _ Hv).
    assert (HFa := bvisits_fact lsolve full _ _ _ _ _ _ _ Hoff Hv).
    assert (HG := bvisits_rho_pos lsolve full _ _ _ _ _ _ _ Hr0 Hv).
    destruct (box_update_sim lsolve full Hexact s p o1 HI HFa HG Hsym Hpsd Hsig Hal) as (Sx & Sy & Sz).
    assert (D := step_decrease_gen lsolve full Hexact s p (toA full s p o1) (toA_inv full s p o1 HI) Hsym Hpsd Hsig Hal (kkt_consistent _ _ _ HK)
      (toA_rho full s p o1 HG) xs ys 0 HK (or_introl eq_refl)).
    rewrite !(dist2_ext s p (a_rho_vec (toA full s p o1)) (rho_fix s p)) in D by (eapply bvisits_rho_fix; eauto).
    unfold far. cbn [bset_iter bset_status box_residuals_update b_x b_y b_z b_q].
    rewrite (dist2_ext_l s p (rho_fix s p) (b_x (box_update lsolve s p o1)) _ _ (a_x (admm_update lsolve s p (toA full s p o1)))
       (a_z (admm_update lsolve s p (toA full s p o1))) (a_y (admm_update lsolve s p (toA full s p o1)))); auto.
    simpl. simpl in D. lra.
Qed.
End Monotone.

(** ** classification of constraint rows *)
Lemma parse_row_R : forall lb ub : ext R,
  (parse_row lb ub = LOOSE_BOUNDS <-> far_below lb (- 10000000000) /\ far_above ub 10000000000) /\
  (parse_row lb ub = EQUALITY_CONSTRAINT <->
     ~ (far_below lb (- 10000000000) /\ far_above ub 10000000000) /\ gap_below lb ub (1 / 10000)).
Proof.
  intros lb ub. unfold parse_row, LOOSE_BOUNDS_THRESH, EQ_TOL, scst. rsimp.
  assert (E1 : ext_lt_s lb (- 10000000000) = true <-> far_below lb (- 10000000000)).
  { destruct lb; simpl; rsimp; [apply Rltb_true| |]; split; intros; auto; discriminate || contradiction. }
  assert (E2 : s_lt_ext 10000000000 ub = true <-> far_above ub 10000000000).
  { destruct ub; simpl; rsimp; [apply Rltb_true| |]; split; intros; auto; discriminate || contradiction. }
  assert (E3 : ext_sub_lt ub lb (1 / 10000) = true <-> gap_below lb ub (1 / 10000)).
  { destruct ub, lb; simpl; rsimp; try apply Rltb_true; split; intros; auto; discriminate || contradiction. }
  rewrite <- E1, <- E2, <- E3.
  destruct (ext_lt_s lb _), (s_lt_ext _ ub), (ext_sub_lt ub lb _); cbn [andb];
  (split; split; intros; try discriminate; repeat split; auto; try (intros [? ?]; discriminate); try tauto; try (destruct H; discriminate)).
Qed.

Lemma visits_nonsingular : forall lsolve full s p xg yg o k o1,
  symmetric (qn p) (qH p) -> psd (qn p) (qH p) -> 0 < sigma s -> 0 < rho0 s ->
  visits (admm_body lsolve s p) (max_iter s) (admm_setup full s p xg yg o) k o1 ->
  nonsingular (qn p + (qm p + qn p)) (as_read full (a_Fact o1)).
Proof.
  intros lsolve full s p xg yg o k o1 Hs Hp Hsig Hr Hv.
  apply nonsingular_ext with (K := admm_kkt full s p (a_rho_vec o1)).
  - intros. symmetry. apply (inv_fact _ _ _ _ (visits_admm_inv _ _ _ _ _ _ _ _ _ Hv)); auto.
  - apply admm_kkt_nonsingular; auto. intros. eapply visits_rho_pos; eauto.
Qed.

Lemma bvisits_nonsingular : forall lsolve full s p xg yg o k o1, boff (qn p) (qm p) (b_K o) ->
  symmetric (qn p) (qH p) -> psd (qn p) (qH p) -> 0 < sigma s -> 0 < rho0 s ->
  visits (box_body lsolve s p) (max_iter s) (box_setup full s p xg yg o) k o1 ->
  nonsingular (qn p + qm p) (as_read full (b_Fact o1)).
Proof.
  intros lsolve full s p xg yg o k o1 H0 Hs Hp Hsig Hr Hv.
  apply nonsingular_ext with (K := box_kkt full s p (b_rho_vec o1) (b_rho_box o1)).
  - intros. symmetry. apply (bvisits_fact _ _ _ _ _ _ _ _ _ H0 Hv); auto.
  - destruct (bvisits_rho_pos _ _ _ _ _ _ _ _ _ Hr Hv) as [Ha Hb].
    apply box_kkt_nonsingular; auto; intros; [apply Ha|apply Hb]; auto.
Qed.

Lemma visits_fixed_point : forall lsolve full, exact_solver full lsolve ->
  forall s p xg yg ob k o, symmetric (qn p) (qH p) -> psd (qn p) (qH p) -> 0 < sigma s -> 0 < rho0 s ->
  qp_consistent p -> alpha s <> 0 ->
  visits (admm_body lsolve s p) (max_iter s) (admm_setup full s p xg yg ob) k o ->
  let o' := admm_update lsolve s p o in
  (forall j, (j < qn p)%nat -> a_x o' j = a_x o j) ->
  (forall i, (i < qm p + qn p)%nat -> a_y o' i = a_y o i) ->
  (forall i, (i < qm p + qn p)%nat -> a_z o' i = a_z o i) ->
  kkt_pair p (a_x o) (a_y o).
Proof.
  intros lsolve full He s p xg yg ob k o Hs Hp Hsig Hr Hc Hal Hv o' Hx Hy Hz.
  apply (fixed_point_kkt lsolve full He s p o); auto.
  - eapply visits_admm_inv; eauto.
  - eapply visits_rho_pos; eauto.
Qed.

Lemma solved_eventually_guess : forall lsolve full, exact_solver full lsolve ->
  forall s p xg yg ob xs ys, symmetric (qn p) (qH p) -> psd (qn p) (qH p) -> 0 < sigma s -> 0 < rho0 s ->
  alpha s = 1 -> adaptive_rho s = false -> kkt_pair p xs ys ->
  0 < eps_abs s -> 0 <= eps_rel s -> check_termination s <> 0%Z ->
  forall N : nat,
    dist2 s p (rho_fix s p) xg (stackv p xg) yg xs (stackv p xs) ys < INR N * threshold (sigma s) (eps_abs s) s p ->
    (Z.abs (check_termination s) * (Z.of_nat N + 1) <= max_iter s)%Z ->
    exists o', admm_solve lsolve full s p xg yg ob = Some o' /\ a_status o' = SOLVED /\
      (a_iter o' <= Z.abs (check_termination s) * (Z.of_nat N + 1))%Z.
Proof.
  intros lsolve full He s p xg yg ob xs ys Hs Hp Hsig Hr Hal Had HK Hea Her Hct N HN Hmx.
  apply (solved_eventually lsolve full He s p xg yg ob xs ys); auto.
  unfold potential. destruct (setup_at_pair full s p xg yg ob) as (Hx & Hy & Hz).
  rewrite (dist2_ext_l s p _ _ _ _ xg (stackv p xg) yg); auto.
Qed.

Lemma bsolved_eventually_guess : forall lsolve full, exact_solver full lsolve ->
  forall s p xg yg ob xs ys, boff (qn p) (qm p) (b_K ob) ->
  symmetric (qn p) (qH p) -> psd (qn p) (qH p) -> 0 < sigma s -> 0 < rho0 s ->
  alpha s = 1 -> adaptive_rho s = false -> kkt_pair p xs ys ->
  0 < eps_abs s -> 0 <= eps_rel s -> check_termination s <> 0%Z ->
  forall N : nat,
    dist2 s p (rho_fix s p) xg (stackv p xg) yg xs (stackv p xs) ys < INR N * threshold (sigma s) (eps_abs s / 2) s p ->
    (Z.abs (check_termination s) * (Z.of_nat N + 1) <= max_iter s)%Z ->
    exists o', box_solve lsolve full s p xg yg ob = Some o' /\ b_status o' = SOLVED /\
      (b_iter o' <= Z.abs (check_termination s) * (Z.of_nat N + 1))%Z.
Proof.
  intros lsolve full He s p xg yg ob xs ys H0 Hs Hp Hsig Hr Hal Had HK Hea Her Hct N HN Hmx.
  apply (bsolved_eventually lsolve full He s p xg yg ob xs ys); auto.
  unfold bpotential, potential. cbn [toA a_x a_y a_z]. destruct (bsetup_at_pair full s p xg yg ob) as (Hx & Hy & Hz & Hq).
  rewrite (dist2_ext_l s p _ _ _ _ xg (stackv p xg) yg); auto.
  intros i Hi. unfold stk, stackv. destruct (Nat.ltb_spec i (qm p)); auto. apply Hq. lia.
Qed.

Lemma bound_exists : forall s p xg yg xs ys, 0 < sigma s -> 0 < rho0 s -> 0 < eps_abs s ->
  exists N : nat, dist2 s p (rho_fix s p) xg (stackv p xg) yg xs (stackv p xs) ys
                  < INR N * threshold (sigma s) (eps_abs s) s p.
Proof.
  intros s p xg yg xs ys Hs Hr He. assert (HT := step_threshold_pos s p Hs Hr He). unfold step_threshold in HT.
  set (D := dist2 _ _ _ _ _ _ _ _ _) in *. set (t := threshold _ _ _ _) in *.
  destruct (archimed (Rabs D / t)) as [HA _]. exists (Z.to_nat (up (Rabs D / t))).
  assert (0 <= Rabs D / t) by (apply Rmult_le_pos; [apply Rabs_pos|left; apply Rinv_0_lt_compat; auto]).
  rewrite INR_IZR_INZ, Z2Nat.id by (apply le_IZR; lra).
  apply Rle_lt_trans with (Rabs D / t * t); [|apply Rmult_lt_compat_r; auto].
  replace (Rabs D / t * t) with (Rabs D) by (field; lra). apply RRle_abs.
Qed.

Lemma ctype_rows : forall (p : qp_data R),
  (forall i, (i < qm p)%nat -> parse_constraints_bounds p i = parse_row (qAlb p i) (qAub p i)) /\
  (forall j, (j < qn p)%nat -> parse_constraints_bounds p (qm p + j)%nat = parse_row (qxlb p j) (qxub p j)).
Proof.
  intros p. unfold parse_constraints_bounds. set (g := fun i => if Nat.ltb i (qm p) then _ else _).
  assert (E : forall i, (i < qm p + qn p)%nat -> nth i (map g (seq 0 (qm p + qn p))) INEQUALITY_CONSTRAINT = g i).
  { intros i Hi. rewrite nth_indep with (d' := g 0%nat) by (rewrite map_length, seq_length; auto).
    rewrite map_nth, seq_nth by auto. reflexivity. }
  split; intros; rewrite E by lia; unfold g.
  - rewrite (proj2 (Nat.ltb_lt _ _)) by auto. reflexivity.
  - destruct (Nat.ltb_spec (qm p + j) (qm p)); [lia|]. replace (qm p + j - qm p)%nat with j by lia. reflexivity.
Qed.

Lemma rho_of_type_R : forall c (r : R), rho_of_type c r =
  match c with LOOSE_BOUNDS => 1 / 1000000 | EQUALITY_CONSTRAINT => 1000 * r | INEQUALITY_CONSTRAINT => r end.
Proof. intros [| |] r; unfold rho_of_type, RHO_MIN, RHO_EQ_FACTOR, scst; rsimp; reflexivity. Qed.

Lemma step_sizes : forall lsolve full s p xg yg o k o1,
  visits (admm_body lsolve s p) (max_iter s) (admm_setup full s p xg yg o) k o1 ->
  (forall i, (i < qm p)%nat -> a_ctype o1 i = parse_row (qAlb p i) (qAub p i)) /\
  (forall j, (j < qn p)%nat -> a_ctype o1 (qm p + j)%nat = parse_row (qxlb p j) (qxub p j)) /\
  (forall i, (i < qm p + qn p)%nat -> a_rho_vec o1 i =
      match a_ctype o1 i with
      | LOOSE_BOUNDS => 1 / 1000000 | EQUALITY_CONSTRAINT => 1000 * a_rho o1 | INEQUALITY_CONSTRAINT => a_rho o1 end) /\
  (0 < rho0 s -> forall i, (i < qm p + qn p)%nat -> 0 < a_rho_vec o1 i) /\
  (1 / 1000000 <= rho0 s <= 1000000 ->
     forall i, (i < qm p + qn p)%nat -> 1 / 1000000 <= a_rho_vec o1 i <= 1000000000).
Proof.
  intros lsolve full s p xg yg o k o1 Hv. assert (HI := visits_admm_inv _ _ _ _ _ _ _ _ _ Hv).
  rewrite (inv_ctype _ _ _ _ HI). destruct (ctype_rows p) as [C1 C2].
  split; auto. split; auto. split; [|split].
  - intros. rewrite (inv_rvec _ _ _ _ HI) by auto. rewrite (inv_ctype _ _ _ _ HI). apply rho_of_type_R.
  - intros. eapply visits_rho_pos; eauto.
  - intros H i Hi. assert (HR : RHO_MIN <= rho0 s <= RHO_MAX) by (unfold RHO_MIN, RHO_MAX, scst; rsimp; lra).
    assert (HV := visits_rho_range _ _ _ _ _ _ _ _ _ HR Hv i Hi). unfold RHO_MIN, RHO_MAX, scst in HV. rsimp. lra.
Qed.

Lemma bstep_sizes : forall lsolve full s p xg yg o k o1,
  visits (box_body lsolve s p) (max_iter s) (box_setup full s p xg yg o) k o1 ->
  (forall i, (i < qm p)%nat -> b_ctype o1 i = parse_row (qAlb p i) (qAub p i)) /\
  (forall j, (j < qn p)%nat -> b_ctype o1 (qm p + j)%nat = parse_row (qxlb p j) (qxub p j)) /\
  (forall i, (i < qm p)%nat -> b_rho_vec o1 i =
      match b_ctype o1 i with
      | LOOSE_BOUNDS => 1 / 1000000 | EQUALITY_CONSTRAINT => 1000 * b_rho o1 | INEQUALITY_CONSTRAINT => b_rho o1 end) /\
  (forall j, (j < qn p)%nat -> b_rho_box o1 j =
      match b_ctype o1 (qm p + j)%nat with
      | LOOSE_BOUNDS => 1 / 1000000 | EQUALITY_CONSTRAINT => 1000 * b_rho o1 | INEQUALITY_CONSTRAINT => b_rho o1 end) /\
  (1 / 1000000 <= rho0 s <= 1000000 ->
     (forall i, (i < qm p)%nat -> 1 / 1000000 <= b_rho_vec o1 i <= 1000000000) /\
     (forall j, (j < qn p)%nat -> 1 / 1000000 <= b_rho_box o1 j <= 1000000000)).
Proof.
  intros lsolve full s p xg yg o k o1 Hv. assert (HI := bvisits_inv _ _ _ _ _ _ _ _ _ Hv).
  rewrite (bi_ctype _ _ HI). destruct (ctype_rows p) as [C1 C2].
  split; auto. split; auto. split; [|split].
  - intros. rewrite (bi_rvec _ _ HI) by auto. rewrite (bi_ctype _ _ HI). apply rho_of_type_R.
  - intros. rewrite (bi_rbox _ _ HI) by auto. rewrite (bi_ctype _ _ HI). apply rho_of_type_R.
  - intros H. assert (HR : RHO_MIN <= rho0 s <= RHO_MAX) by (unfold RHO_MIN, RHO_MAX, scst; rsimp; lra).
    destruct (bvisits_rho_range _ _ _ _ _ _ _ _ _ HR Hv) as [V1 V2]. unfold RHO_MIN, RHO_MAX, scst in *. rsimp.
    split; intros i Hi; [specialize (V1 i Hi)|specialize (V2 i Hi)]; lra.
Qed.
