(** Proofs about the Riccati solver and the regulator. *)
Require Import Arith Bool List Reals Lra Lia FunctionalExtensionality.
From Verif Require Import Scal RSum PolyR Lqr_Model Lqr_Spec Lqr_Proofs.
Import ListNotations.
Local Open Scope R_scope.

(** * Line search *)
Lemma ls_fold (poly : R -> R) roots s0 :
  let step := fun s root =>
    if Rle_dec (1 / 100000) root then if Rle_dec root 2 then if Rlt_dec (poly root) (snd s) then (root, poly root) else s else s else s in
  let s := fold_left step roots s0 in
  snd s0 = poly (fst s0) -> 1 / 100000 <= fst s0 <= 2 ->
  snd s = poly (fst s) /\ 1 / 100000 <= fst s <= 2 /\ snd s <= snd s0 /\
  forall r, In r roots -> 1 / 100000 <= r <= 2 -> snd s <= poly r.
Proof.
  intro step. revert s0. induction roots as [|x roots IH]; intros s0 s H0 H1.
  - cbn in *. subst s. repeat split; auto; try lra. intros r [].
  - cbn [fold_left] in s. destruct (IH (step s0 x)) as (A & B & C & D).
    + unfold step. repeat destruct Rle_dec; auto. destruct Rlt_dec; auto.
    + unfold step. repeat destruct Rle_dec; auto. destruct Rlt_dec; cbn; auto; lra.
    + fold s in A, B, C, D. assert (snd (step s0 x) <= snd s0) as E.
      { unfold step. repeat destruct Rle_dec; try lra. destruct Rlt_dec; cbn; lra. }
      repeat split; auto; try lra. intros r [<-|Hr] Hr2; [|auto].
      assert (snd (step s0 x) <= poly x); [|lra].
      unfold step. repeat destruct Rle_dec; try lra. destruct Rlt_dec; cbn; lra.
Qed.
Lemma quartic_peval a b c x : quartic a b c x = peval [a; -2 * a; a - 2 * b; 2 * b; c] x.
Proof. unfold quartic. cbn. ring. Qed.
Lemma quartic_derivative a b c x : derivable_pt_lim (quartic a b c) x (-2 * a + 2 * (a - 2 * b) * x + 6 * b * x ^ 2 + 4 * c * x ^ 3).
Proof.
  apply (derivable_pt_lim_ext (peval [a; -2 * a; a - 2 * b; 2 * b; c])); [intro; symmetry; apply quartic_peval|].
  replace (-2 * a + 2 * (a - 2 * b) * x + 6 * b * x ^ 2 + 4 * c * x ^ 3) with (peval (pder [a; -2 * a; a - 2 * b; 2 * b; c]) x) by (cbn; ring).
  apply peval_derivable.
Qed.
Lemma line_search_min ext a b c : 0 < c -> line_search_roots_ok ext a b c ->
  let t := line_search_care ext a b c in
  1 / 100000 <= t <= 2 /\ forall s, 1 / 100000 <= s <= 2 -> quartic a b c t <= quartic a b c s.
Proof.
  intros Hc Hr t. unfold line_search_care in t. destruct (Req_EM_T c 0) as [E|_]; [lra|].
  set (poly := fun x => 1 / c * quartic a b c x) in t.
  set (am := if Rlt_dec (poly (1 / 100000)) (poly 2) then 1 / 100000 else 2) in t.
  set (roots := cubic_roots ext _ _ _ _) in t.
  assert (1 / 100000 <= am <= 2) as Ham by (unfold am; destruct Rlt_dec; lra).
  destruct (ls_fold poly roots (am, poly am) eq_refl Ham) as (P1 & P2 & P3 & P4). fold t in P1, P2, P3, P4.
  split; [exact P2|].
  assert (0 < 1 / c) as Hic by (apply Rdiv_lt_0_compat; lra).
  assert (forall s, 1 / 100000 <= s <= 2 -> poly t <= poly s) as Hmin.
  { (* the minimum over the interval is attained *)
    destruct (continuity_ab_min poly (1 / 100000) 2 ltac:(lra)) as (xm & Hxm & Hin).
    { intros x _. apply derivable_continuous_pt. exists (1 / c * (-2 * a + 2 * (a - 2 * b) * x + 6 * b * x ^ 2 + 4 * c * x ^ 3)).
      apply (derivable_pt_lim_scal (quartic a b c)). apply quartic_derivative. }
    intros s Hs. apply Rle_trans with (poly xm); [|auto].
    fold t in P1. rewrite P1 in P3, P4. cbn [snd] in P3.
    assert (poly am <= poly (1 / 100000) /\ poly am <= poly 2) as [Q1 Q2] by (unfold am; destruct Rlt_dec as [Hlt|Hge]; [split; [apply Rle_refl|left; exact Hlt]|apply Rnot_lt_le in Hge; split; [exact Hge|apply Rle_refl]]).
    destruct (Req_dec xm (1 / 100000)) as [->|N1]; [exact (Rle_trans _ _ _ P3 Q1)|]. destruct (Req_dec xm 2) as [->|N2]; [exact (Rle_trans _ _ _ P3 Q2)|].
    apply P4; [|lra]. apply Hr.
    assert (derivable_pt_lim poly xm (1 / c * (-2 * a + 2 * (a - 2 * b) * xm + 6 * b * xm ^ 2 + 4 * c * xm ^ 3))) as Hd.
    { apply (derivable_pt_lim_scal (quartic a b c)). apply quartic_derivative. }
    pose (pr := exist _ _ Hd : derivable_pt poly xm).
    assert (derive_pt poly xm pr = 0) as E.
    { apply deriv_minimum with (a := 1 / 100000) (b := 2); try lra. intros x H1 H2. apply Hxm. lra. }
    unfold derive_pt, pr in E. cbn [proj1_sig] in E.
    replace (1 / (4 * c) * (-2 * a) + 1 / (4 * c) * (2 * (a - 2 * b)) * xm + 1 / (4 * c) * (6 * b) * xm ^ 2 + 1 / (4 * c) * (4 * c) * xm ^ 3)
      with (1 / 4 * (1 / c * (-2 * a + 2 * (a - 2 * b) * xm + 6 * b * xm ^ 2 + 4 * c * xm ^ 3))) by (field; lra).
    rewrite E. ring. }
  intros s Hs. specialize (Hmin s Hs). unfold poly in Hmin. apply Rmult_le_reg_l in Hmin; auto.
Qed.

(** * Newton's method for the Riccati equation *)
Lemma sym_meq n X : symmetric n X <-> meq n n (mtr X) X.
Proof.
  split; intro H.
  - intros i j Hi Hj. unfold mtr. symmetry. apply H; auto.
  - intros i j Hi Hj. symmetry. exact (H i j Hi Hj).
Qed.
Lemma newton_residual n A B C X H t : symmetric n X -> symmetric n B ->
  lyapunov_solution n (mtr (msub A (mmul n B X))) (mopp (riccati n A B C X)) H ->
  meq n n (riccati n A B C (madd X (mscal t H)))
          (madd (mscal (1 - t) (riccati n A B C X)) (mscal (- (t * t)) (mmul n (mmul n H B) H))).
Proof.
  intros HX HB HL i j Hi Hj. specialize (HL i j Hi Hj). rewrite mtr_tr in HL.
  assert (mtr (msub A (mmul n B X)) = msub (mtr A) (mmul n (mtr X) (mtr B))) as E1 by (rewrite <- mtr_mul; reflexivity).
  rewrite E1, mmul_sub_l, mmul_sub_r in HL.
  assert (mmul n (mmul n (mtr X) (mtr B)) H i j = mmul n (mmul n X B) H i j) as E2.
  { apply (mmul_ext n n n); auto using meq_refl. apply mmul_ext; apply sym_meq; auto. }
  unfold madd, msub, mopp in HL. rewrite E2 in HL.
  unfold riccati in *. rewrite ?mmul_add_l, ?mmul_add_r, ?mmul_scal_l, ?mmul_scal_r, ?mmul_add_l, ?mmul_scal_l.
  unfold madd, msub, mscal in *. rewrite <- (mmul_assoc n n H B X) in HL.
  set (q1 := mmul n (mmul n X B) H i j) in *. set (q2 := mmul n (mmul n H B) X i j) in *.
  set (q3 := mmul n (mmul n X B) X i j) in *. set (q4 := mmul n (mmul n H B) H i j) in *.
  set (q5 := mmul n X A i j) in *. set (q6 := mmul n H A i j) in *. set (q7 := mmul n (mtr A) X i j) in *. set (q8 := mmul n (mtr A) H i j) in *.
  assert (q8 + q6 = q1 + q2 - (C i j + (q5 + q7 - q3))) as E3 by lra.
  replace q8 with (q1 + q2 - (C i j + (q5 + q7 - q3)) - q6) by lra. ring.
Qed.
Lemma symmetric_add n A B : symmetric n A -> symmetric n B -> symmetric n (madd A B).
Proof. intros H G i j Hi Hj. unfold madd. rewrite (H i j), (G i j) by auto. reflexivity. Qed.
Lemma symmetric_scal n c A : symmetric n A -> symmetric n (mscal c A).
Proof. intros H i j Hi Hj. unfold mscal. rewrite (H i j) by auto. reflexivity. Qed.
Lemma symmetric_sandwich n H B : symmetric n H -> symmetric n B -> symmetric n (mmul n (mmul n H B) H).
Proof.
  intros HH HB. apply sym_meq. rewrite !mtr_mul, mmul_assoc.
  apply mmul_ext; [apply sym_meq; auto|]. apply mmul_ext; apply sym_meq; auto.
Qed.
Lemma symmetric_riccati n A B C X : symmetric n B -> symmetric n C -> symmetric n X -> symmetric n (riccati n A B C X).
Proof.
  intros HB HC HX i j Hi Hj. unfold riccati, madd, msub. rewrite (HC i j) by auto.
  rewrite (symmetric_sandwich n X B HX HB i j) by auto.
  assert (mmul n X A i j = mmul n (mtr A) X j i) as ->.
  { transitivity (mtr (mmul n (mtr A) X) i j); [|reflexivity]. rewrite mtr_mul, mtr_tr.
    apply (mmul_ext n n n); auto using meq_refl; apply meq_sym, sym_meq; auto. }
  assert (mmul n (mtr A) X i j = mmul n X A j i) as ->.
  { transitivity (mtr (mmul n X A) i j); [|reflexivity]. rewrite mtr_mul.
    apply (mmul_ext n n n); auto using meq_refl; apply meq_sym, sym_meq; auto. }
  ring.
Qed.
(** the unique solution for a symmetric right-hand side is symmetric *)
Lemma lyapunov_symmetric n A Q X : lyapunov_regular n A -> symmetric n Q -> lyapunov_solution n A Q X -> symmetric n X.
Proof.
  intros Hreg HQ HX.
  assert (meq n n (msub X (mtr X)) mzero) as E.
  { apply Hreg. rewrite <- (mtr_tr A) at 1.
    assert (mmul n A (mtr X) = mtr (mmul n X (mtr A))) as E1 by (rewrite mtr_mul, mtr_tr; reflexivity).
    assert (mmul n (mtr X) (mtr A) = mtr (mmul n A X)) as E2 by (rewrite mtr_mul; reflexivity).
    rewrite mtr_tr. intros i j Hi Hj. rewrite mmul_sub_l, mmul_sub_r, E1, E2.
    change (mmul n A X i j - mmul n X (mtr A) j i + (mmul n X (mtr A) i j - mmul n A X j i) = 0).
    pose proof (HX i j Hi Hj) as H1. pose proof (HX j i Hj Hi) as H2. pose proof (HQ i j Hi Hj) as H3.
    unfold madd in H1, H2. lra. }
  intros i j Hi Hj. specialize (E i j Hi Hj). unfold msub, mtr, mzero in E. lra.
Qed.
Lemma trace_sym n P V : symmetric n V -> mtrace n (mmul n P V) = rsum n (fun i => rsum n (fun j => P i j * V i j)).
Proof.
  intro HV. unfold mtrace. apply rsum_ext. intros i Hi. rewrite mmul_rsum. apply rsum_ext. intros j Hj. rewrite (HV j i) by auto. reflexivity.
Qed.
Lemma fro_quartic n P V t : fro2 n (madd (mscal (1 - t) P) (mscal (- (t * t)) V)) =
  quartic (fro2 n P) (rsum n (fun i => rsum n (fun j => P i j * V i j))) (fro2 n V) t.
Proof.
  unfold fro2, quartic.
  rewrite (rsum_ext n _ (fun i => (1 - t) ^ 2 * rsum n (fun j => P i j * P i j) + (-2 * (1 - t) * t ^ 2) * rsum n (fun j => P i j * V i j) + t ^ 4 * rsum n (fun j => V i j * V i j))).
  - rewrite !rsum_plus, !rsum_scal. ring.
  - intros i _. rewrite <- !rsum_scal, <- !rsum_plus. apply rsum_ext. intros j _. unfold madd, mscal. ring.
Qed.
Lemma fro2_ext n A B : meq n n A B -> fro2 n A = fro2 n B.
Proof. intro H. unfold fro2. apply rsum_ext. intros i Hi. apply rsum_ext. intros j Hj. rewrite H by auto. reflexivity. Qed.
Lemma fro2_nonneg n A : 0 <= fro2 n A.
Proof. unfold fro2. apply rsum_nonneg. intros i _. apply rsum_nonneg. intros j _. nra. Qed.
Lemma fro2_zero n A : fro2 n A = 0 -> meq n n A mzero.
Proof.
  intros H i j Hi Hj. unfold fro2 in H.
  assert (rsum n (fun j => A i j * A i j) = 0) as H1.
  { apply (rsum_nonneg_zero n (fun i => rsum n (fun j => A i j * A i j))); auto. intros. apply rsum_nonneg. intros. nra. }
  assert (A i j * A i j = 0) as H2.
  { apply (rsum_nonneg_zero n (fun j => A i j * A i j)); auto. intros. nra. }
  unfold mzero. nra.
Qed.
Lemma mnorm_fro n A : mnorm n A = sqrt (fro2 n A).
Proof. reflexivity. Qed.
Lemma fro2_sym n A : symmetric n A -> mtrace n (mmul n A A) = fro2 n A.
Proof. intro H. rewrite trace_sym by auto. reflexivity. Qed.

(** one iteration *)
Lemma newton_step_facts ext n A B C X :
  symmetric n B -> symmetric n C -> symmetric n X ->
  lyapunov_regular n (mtr (msub A (mmul n B X))) ->
  lyapunov_solution n (mtr (msub A (mmul n B X))) (mopp (riccati n A B C X)) (newton_dir ext n A B C X) ->
  let H := newton_dir ext n A B C X in let R := riccati n A B C X in let V := mmul n (mmul n H B) H in
  symmetric n H /\ exists t, newton_step ext n A B C X = madd X (mscal t H) /\
  t = line_search_care ext (fro2 n R) (rsum n (fun i => rsum n (fun j => R i j * V i j))) (fro2 n V) /\
  forall s, fro2 n (riccati n A B C (madd X (mscal s H))) = quartic (fro2 n R) (rsum n (fun i => rsum n (fun j => R i j * V i j))) (fro2 n V) s.
Proof.
  intros HB HC HX Hreg HL H R V.
  assert (symmetric n R) as HR by (apply symmetric_riccati; auto).
  assert (symmetric n H) as HH.
  { refine (lyapunov_symmetric n _ (mopp R) H Hreg _ HL). intros i j Hi Hj. unfold mopp. rewrite (HR i j) by auto. reflexivity. }
  assert (symmetric n V) as HV by (apply symmetric_sandwich; auto).
  split; [exact HH|]. eexists. split; [reflexivity|]. split.
  - fold H R V. rewrite !fro2_sym, trace_sym by auto. reflexivity.
  - intro s. rewrite <- fro_quartic. apply fro2_ext. apply newton_residual; auto.
Qed.

Lemma iter_shift {T} (f : T -> T) k x : Nat.iter k f (f x) = Nat.iter (S k) f x.
Proof. induction k as [|k IH]; [reflexivity|]. change (f (Nat.iter k f (f x)) = f (Nat.iter (S k) f x)). rewrite IH. reflexivity. Qed.
(** the loop returns an iterate *)
Lemma newton_loop_iterate ext n A B C : forall fuel err X, exists k, (k <= fuel)%nat /\
  newton_loop ext fuel n A B C err X =
    (match k with O => err | S j => Some (mnorm n (riccati n A B C (newton_iterate ext n A B C X j))) end, newton_iterate ext n A B C X k) /\
  (forall j, (j < k)%nat -> j <> 0%nat -> 1 / 100000 < mnorm n (riccati n A B C (newton_iterate ext n A B C X (j - 1)))) /\
  (match err with None => True | Some e => k <> 0%nat -> 1 / 100000 < e end) /\
  ((k < fuel)%nat -> match k with O => match err with None => False | Some e => e <= 1 / 100000 end
                               | S j => mnorm n (riccati n A B C (newton_iterate ext n A B C X j)) <= 1 / 100000 end).
Proof.
  induction fuel as [|f IH]; intros err X.
  - exists 0%nat. cbn. repeat split; auto; try (intros; lia). destruct err; auto. intro; lia.
  - cbn [newton_loop]. destruct (match err with None => true | Some e => if Rlt_dec (1 / 100000) e then true else false end) eqn:E.
    + destruct (IH (Some (mnorm n (riccati n A B C X))) (newton_step ext n A B C X)) as (k & Hk & Hl & Hj & Hr & He).
      exists (S k). split; [lia|].
      assert (forall j, newton_iterate ext n A B C (newton_step ext n A B C X) j = newton_iterate ext n A B C X (S j)) as Ei.
      { intro j. unfold newton_iterate. apply iter_shift. }
      rewrite Hl. split; [|split; [|split]].
      * destruct k; rewrite ?Ei; reflexivity.
      * intros j Hj1 Hj0. destruct j as [|j]; [lia|]. replace (S j - 1)%nat with j by lia. destruct j as [|j].
        -- apply Hr. lia.
        -- rewrite <- Ei. replace j with (S j - 1)%nat by lia. apply Hj; lia.
      * destruct err as [e|]; [|exact I]. destruct (Rlt_dec (1 / 100000) e); [auto|discriminate].
      * intro Hk2. specialize (He ltac:(lia)). destruct k as [|k]; [exact He|]. rewrite <- Ei. exact He.
    + exists 0%nat. split; [lia|]. split; [reflexivity|]. split; [intros; lia|].
      destruct err as [e|]; [|discriminate]. destruct (Rlt_dec (1 / 100000) e); [discriminate|]. split; intros; [lia|lra].
Qed.
