(** Properties of the Lyapunov, Riccati and LQR solvers (src/control/lqr.hpp, namespace oc of src/polymath.cpp). *)
Require Import Arith Bool List Reals Lra Lia.
From Verif Require Import Scal RSum PolyR Lqr_Model Lqr_Spec Lqr_Proofs Lqr_Care_Proofs Lqr_Gain_Proofs Lqr_Case_Proofs.
Import ListNotations.
Local Open Scope R_scope.

(** * Kernels for the examples: exact in dimension 1, and in dimension 2 for triangular matrices *)
Definition demo_with (roots : list R) : extern := {|
  schur := fun n A => (A, meye);
  lu_solve := fun n M v => if (n =? 2)%nat
    then fun i => let det := M 0%nat 0%nat * M 1%nat 1%nat - M 0%nat 1%nat * M 1%nat 0%nat in
         if (i =? 0)%nat then (M 1%nat 1%nat * v 0%nat - M 0%nat 1%nat * v 1%nat) / det else (M 0%nat 0%nat * v 1%nat - M 1%nat 0%nat * v 0%nat) / det
    else fun i => v i / M i i;
  svd := fun n A => (mscal (if Rle_dec 0 (A 0%nat 0%nat) then 1 else -1) meye, fun _ => Rabs (A 0%nat 0%nat), meye);
  min_re_eig := fun n A => A 0%nat 0%nat;
  cubic_roots := fun _ _ _ _ => roots;
  noalias_sandwich := eigen_noalias |}.
Definition demo : extern := demo_with [1; 1; 1].
Lemma eye_orthogonal n : orthogonal n meye.
Proof. split; rewrite mtr_eye; apply meye_l. Qed.
Lemma demo_schur rs n A : upper_triangular n A -> schur_ok (demo_with rs) n A.
Proof.
  intro H. split; [split; [apply eye_orthogonal|]|split].
  - cbn [schur demo_with fst snd]. rewrite mtr_eye. apply meq_sym. eapply meq_trans; [apply meye_r|apply meye_l].
  - intros i j Hi Hj. apply H; auto. lia.
  - intros _. exact H.
Qed.
Lemma demo_noalias rs n : (n <= 6)%nat -> noalias_ok (demo_with rs) n.
Proof. intros H U X. cbn [noalias_sandwich demo_with]. rewrite eigen_noalias_small by auto. apply meq_refl. Qed.
Lemma demo_lu1 rs : lu_ok (demo_with rs) 1.
Proof.
  intros M v H i Hi. assert (i = 0%nat) as -> by lia. change (0 + M 0%nat 0%nat * (v 0%nat / M 0%nat 0%nat) = v 0%nat).
  destruct (Req_dec (M 0%nat 0%nat) 0) as [E|E]; [|field; auto]. exfalso.
  assert (1 = 0); [|lra]. apply (H (fun _ => 1)) with (i := 0%nat); [|lia].
  intros i Hi'. assert (i = 0%nat) as -> by lia. change (0 + M 0%nat 0%nat * 1 = 0). rewrite E. ring.
Qed.
Lemma demo_lu2 rs : lu_ok (demo_with rs) 2.
Proof.
  intros M v H.
  set (a := M 0%nat 0%nat). set (b := M 0%nat 1%nat). set (c := M 1%nat 0%nat). set (d := M 1%nat 1%nat).
  assert (forall x, (a * x 0%nat + b * x 1%nat = 0) -> (c * x 0%nat + d * x 1%nat = 0) -> x 0%nat = 0 /\ x 1%nat = 0) as Hx.
  { intros x E0 E1. assert (forall i, (i < 2)%nat -> rmv 2 M x i = 0) as E.
    { intros i Hi. assert (i = 0 \/ i = 1)%nat as [-> | ->] by lia.
      - change (0 + a * x 0%nat + b * x 1%nat = 0). lra.
      - change (0 + c * x 0%nat + d * x 1%nat = 0). lra. }
    split; apply (H x E); lia. }
  assert (a * d - b * c <> 0) as Hd.
  { intro E.
    assert (d = 0 /\ - c = 0) as [D1 D2] by (apply (Hx (fun i => match i with 0%nat => d | _ => - c end)); lra).
    assert (- b = 0 /\ a = 0) as [D3 D4] by (apply (Hx (fun i => match i with 0%nat => - b | _ => a end)); lra).
    assert (1 = 0 /\ 0 = 0) as [D _]; [|lra]. apply (Hx (fun i => match i with 0%nat => 1 | _ => 0 end)); nra. }
  intros i Hi. assert (i = 0 \/ i = 1)%nat as [-> | ->] by lia; unfold a, b, c, d in Hd.
  - change (0 + a * ((d * v 0%nat - b * v 1%nat) / (a * d - b * c)) + b * ((a * v 1%nat - c * v 0%nat) / (a * d - b * c)) = v 0%nat). field. exact Hd.
  - change (0 + c * ((d * v 0%nat - b * v 1%nat) / (a * d - b * c)) + d * ((a * v 1%nat - c * v 0%nat) / (a * d - b * c)) = v 1%nat). field. exact Hd.
Qed.
Lemma demo_svd1 rs A : svd_ok (demo_with rs) 1 A.
Proof.
  unfold svd_ok. cbn [svd demo_with fst snd]. split; [|split; [|split]].
  - split; apply meq_1; rewrite mmul_1; unfold mtr, mscal, meye; cbn [Nat.eqb]; destruct Rle_dec; lra.
  - apply eye_orthogonal.
  - intros. apply Rabs_pos.
  - apply meq_1. rewrite mmul_1. unfold mtr, mscal, meye. cbn [Nat.eqb]. destruct Rle_dec.
    + rewrite Rabs_right by lra. ring.
    + rewrite Rabs_left by lra. ring.
Qed.
Lemma demo_kernels1 rs : kernels_ok (demo_with rs) 1.
Proof.
  split; [|split; [|split]].
  - intro A. apply demo_schur. intros i j Hj Hi. lia.
  - apply demo_lu1.
  - apply demo_svd1.
  - apply demo_noalias. lia.
Qed.

(** * C40: Lyapunov equation *)
(** What holds: for matrices with real spectrum and at most 6 rows the result is the solution, and the only one. *)
Theorem C40_solves_partial : forall ext m A Q, (m <= 6)%nat -> noalias_sandwich ext = eigen_noalias ->
  lu_ok ext m -> schur_ok ext m A -> real_spectrum m A -> lyapunov_regular m A ->
  lyapunov_solution m A Q (lyapunov ext m A Q) /\
  (forall X, lyapunov_solution m A Q X -> meq m m X (lyapunov ext m A Q)).
Proof.
  intros ext m A Q Hm Hn Hl HS Hr Hreg.
  assert (noalias_ok ext m) as HN by (intros U X; rewrite Hn, eigen_noalias_small by auto; apply meq_refl).
  pose proof (lyapunov_solves ext m A Q HN Hl HS Hr Hreg) as H. split; auto.
  intros X HX i j Hi Hj. set (Y := lyapunov ext m A Q) in *.
  assert (lyapunov_solution m A mzero (msub X Y)) as HD.
  { intros a b Ha Hb. specialize (H a b Ha Hb). specialize (HX a b Ha Hb). rewrite mmul_sub_l, mmul_sub_r.
    unfold madd, msub, mzero in *. lra. }
  specialize (Hreg _ HD i j Hi Hj). unfold msub, mzero in Hreg. lra.
Qed.
(** What is false: for a complex pair of eigenvalues no correct kernels give a solution. *)
Theorem C40_complex_refuted : exists A Q, lyapunov_regular 2 A /\ (exists X, lyapunov_solution 2 A Q X) /\
  forall ext, noalias_ok ext 2 -> lu_ok ext 2 -> schur_ok ext 2 A -> ~ lyapunov_solution 2 A Q (lyapunov ext 2 A Q).
Proof.
  exists spiral, meye. split; [apply spiral_regular|]. split; [|intros; apply spiral_not_solved; auto].
  exists (mscal (1 / 2) meye). intros i j Hi Hj. assert (i = 0 \/ i = 1)%nat as [-> | ->] by lia; assert (j = 0 \/ j = 1)%nat as [-> | ->] by lia;
    unfold madd; rewrite !mmul_rsum, !rsum_2; unfold mtr, mscal, meye; cbn; lra.
Qed.
(** Also false: the aliased product makes the result zero from 7 rows on, whatever the matrices. *)
Theorem C40_alias_refuted : forall ext m A Q, (7 <= m)%nat -> noalias_sandwich ext = eigen_noalias ->
  lyapunov ext m A Q = mzero /\ (~ meq m m Q mzero -> ~ lyapunov_solution m A Q (lyapunov ext m A Q)).
Proof.
  intros ext m A Q Hm Hn.
  assert (lyapunov ext m A Q = mzero) as E by (unfold lyapunov; destruct (schur ext m A); rewrite Hn; apply eigen_noalias_large; auto).
  split; auto. rewrite E. intros HQ H. apply HQ. intros i j Hi Hj. rewrite <- (H i j Hi Hj). rewrite mmul_zero_l, mmul_zero_r. unfold madd, mzero. ring.
Qed.
Example C40_ex : let A := fun i j => match i, j with 0%nat, 0%nat => 1 | 0%nat, _ => 2 | 1%nat, 1%nat => 3 | _, _ => 0 end in
  lyapunov_solution 2 A meye (lyapunov demo 2 A meye) /\ lyapunov demo 2 A meye 1%nat 1%nat = 1 / 6.
Proof.
  intro A.
  assert (upper_triangular 2 A) as HT by (intros i j Hj Hi; assert (i = 1 /\ j = 0)%nat as [-> ->] by lia; reflexivity).
  assert (lyapunov_solution 2 A meye (lyapunov demo 2 A meye)) as H.
  { apply C40_solves_partial; [lia|reflexivity|apply demo_lu2|apply demo_schur; auto| |].
    - exists A, meye. split; auto. split; [apply eye_orthogonal|]. rewrite mtr_eye. apply meq_sym. eapply meq_trans; [apply meye_r|apply meye_l].
    - intros Y HY. pose proof (HY 0%nat 0%nat ltac:(lia) ltac:(lia)) as H00. pose proof (HY 0%nat 1%nat ltac:(lia) ltac:(lia)) as H01.
      pose proof (HY 1%nat 0%nat ltac:(lia) ltac:(lia)) as H10. pose proof (HY 1%nat 1%nat ltac:(lia) ltac:(lia)) as H11.
      unfold madd, mzero in *. rewrite !mmul_rsum, !rsum_2 in H00, H01, H10, H11. unfold mtr, A in H00, H01, H10, H11.
      intros i j Hi Hj. assert (i = 0 \/ i = 1)%nat as [-> | ->] by lia; assert (j = 0 \/ j = 1)%nat as [-> | ->] by lia; lra. }
  split; auto. specialize (H 1%nat 1%nat ltac:(lia) ltac:(lia)). unfold madd in H. rewrite !mmul_rsum, !rsum_2 in H. unfold mtr, meye in H.
  cbn [Nat.eqb] in H. unfold A at 1 2 3 4 in H. change (0 * lyapunov demo 2 A meye 0%nat 1%nat + 3 * lyapunov demo 2 A meye 1%nat 1%nat + (lyapunov demo 2 A meye 1%nat 0%nat * 0 + lyapunov demo 2 A meye 1%nat 1%nat * 3) = 1) in H. lra.
Qed.

(** * C41: LQR *)
Lemma riccati_residual n A B C X : riccati n A B C X = care_residual n A B C X.
Proof. apply mx_ext. intros. unfold riccati, care_residual, madd, msub. ring. Qed.

(** The step length minimises the residual polynomial on [1e-5, 2]. *)
Theorem C41_line_search : forall ext a b c, 0 < c -> line_search_roots_ok ext a b c ->
  let f := fun x => (1 - x) * (1 - x) * a - 2 * ((1 - x) * (x * x)) * b + x * x * (x * x) * c in
  let t := line_search_care ext a b c in
  1 / 100000 <= t <= 2 /\ forall s, 1 / 100000 <= s <= 2 -> f t <= f s.
Proof.
  intros ext a b c Hc Hr f t. assert (forall x, f x = quartic a b c x) as E by (intro x; unfold f, quartic; ring).
  destruct (line_search_min ext a b c Hc Hr) as [H1 H2]. split; auto. intros s Hs. rewrite !E. apply H2; auto.
Qed.
Example C41_line_search_ex : line_search_roots_ok demo 2 (-2) 1 /\ line_search_care demo 2 (-2) 1 = 1.
Proof.
  assert (line_search_roots_ok demo 2 (-2) 1) as H.
  { intros x Hx. cbn [cubic_roots demo demo_with]. left.
    assert ((x - 1) * (x - 1) * (x - 1) = 0) as E by lra.
    apply Rmult_integral in E as [E|E]; [apply Rmult_integral in E as [E|E]|]; lra. }
  split; auto. destruct (C41_line_search demo 2 (-2) 1 ltac:(lra) H) as [Ht Hm]. set (t := line_search_care demo 2 (-2) 1) in *.
  specialize (Hm 1 ltac:(lra)). cbv beta in Hm.
  assert ((t - 1) * (t - 1) * ((t - 1) * (t - 1)) <= 0) as E by lra.
  assert (0 <= (t - 1) * (t - 1)) as E1 by apply Rle_0_sqr. assert ((t - 1) * (t - 1) = 0) as E2 by nra. apply Rmult_integral in E2. lra.
Qed.

(** One Newton iteration: the direction solves the linearised equation, the step length is the best one in [1e-5, 2],
    and the residual does not grow as long as the quadratic term is at most 1e5 times the residual. Exact arithmetic;
    closed loops with complex eigenvalues are excluded (C40). *)
Theorem C41_newton_step_partial : forall ext n A B C X,
  let Ac := msub A (mmul n B X) in
  noalias_ok ext n -> lu_ok ext n -> schur_ok ext n (mtr Ac) -> real_spectrum n (mtr Ac) -> lyapunov_regular n (mtr Ac) ->
  symmetric n B -> symmetric n C -> symmetric n X ->
  exists t H, newton_step ext n A B C X = madd X (mscal t H) /\ symmetric n H /\
  meq n n (madd (mmul n (mtr Ac) H) (mmul n H Ac)) (mopp (care_residual n A B C X)) /\
  let V := mmul n (mmul n H B) H in
  let E := care_residual n A B C X in
  (~ meq n n V mzero -> line_search_roots_ok ext (fro2 n E) (rsum n (fun i => rsum n (fun j => E i j * V i j))) (fro2 n V) -> 1 / 100000 <= t <= 2 /\
    (forall s, 1 / 100000 <= s <= 2 -> mnorm n (care_residual n A B C (madd X (mscal t H))) <= mnorm n (care_residual n A B C (madd X (mscal s H)))) /\
    (mnorm n V <= 100000 * mnorm n (care_residual n A B C X) -> mnorm n (care_residual n A B C (madd X (mscal t H))) <= mnorm n (care_residual n A B C X))).
Proof.
  intros ext n A B C X Ac Hn Hl HS Hr Hreg HB HC HX.
  assert (lyapunov_solution n (mtr Ac) (mopp (riccati n A B C X)) (newton_dir ext n A B C X)) as HL by (apply lyapunov_solves; auto).
  destruct (newton_step_facts ext n A B C X HB HC HX Hreg HL) as (HH & t & Ht & Et & Hq).
  set (H := newton_dir ext n A B C X) in *. set (V := mmul n (mmul n H B) H) in *.
  exists t, H. split; [exact Ht|]. split; [exact HH|]. split; [rewrite <- riccati_residual; exact HL|].
  cbv zeta. rewrite <- riccati_residual. intros HV Hroots.
  assert (0 < fro2 n V) as Hc.
  { destruct (Req_dec (fro2 n V) 0) as [E|E]; [exfalso; apply HV; apply fro2_zero; auto|]. pose proof (fro2_nonneg n V). lra. }
  destruct (line_search_min ext (fro2 n (riccati n A B C X)) (rsum n (fun i => rsum n (fun j => riccati n A B C X i j * V i j))) (fro2 n V) Hc Hroots) as [Hr1 Hr2].
  rewrite <- Et in Hr1, Hr2.
  assert (forall s, 1 / 100000 <= s <= 2 -> mnorm n (riccati n A B C (madd X (mscal t H))) <= mnorm n (riccati n A B C (madd X (mscal s H)))) as Hmin.
  { intros s Hs. rewrite !mnorm_fro. apply sqrt_le_1_alt. rewrite !Hq. apply Hr2; auto. }
  split; [exact Hr1|]. split.
  - intros s Hs. rewrite <- !riccati_residual. apply Hmin; auto.
  - intro Hb. rewrite <- riccati_residual. fold V in Hb. eapply Rle_trans; [apply (Hmin (1 / 100000)); lra|]. rewrite !mnorm_fro in *. apply sqrt_le_1_alt.
    rewrite Hq, <- fro_quartic. eapply Rle_trans; [apply convex_fro; lra|].
    set (a := fro2 n (riccati n A B C X)) in *. set (c := fro2 n V) in *.
    assert (0 <= a) as Ha by apply fro2_nonneg.
    assert (c <= 10000000000 * a) as Hca.
    { rewrite <- (sqrt_sqrt c) by lra. rewrite <- (sqrt_sqrt a) by lra.
      replace (10000000000 * (sqrt a * sqrt a)) with ((100000 * sqrt a) * (100000 * sqrt a)) by ring.
      apply Rmult_le_compat; auto; apply sqrt_pos. }
    lra.
Qed.
Example C41_newton_step_ex : newton_step (demo_with [3 / 2; 9 / 4; 3]) 1 (one 0) (one 1) (one 1) (one 3) 0%nat 0%nat = 1.
Proof.
  set (ext := demo_with [3 / 2; 9 / 4; 3]).
  destruct (C41_newton_step_partial ext 1 (one 0) (one 1) (one 1) (one 3)) as (t & H & -> & _ & HL & HV);
    try (intros i j _ _; reflexivity).
  - apply demo_noalias. lia.
  - apply demo_lu1.
  - apply demo_schur. intros i j Hj Hi. lia.
  - apply spectrum_1.
  - apply regular_1. unfold mtr, msub. rewrite mmul_1. unfold one. lra.
  - specialize (HL 0%nat 0%nat ltac:(lia) ltac:(lia)).
    unfold care_residual, madd, msub, mopp, mtr in HL. rewrite !mmul_1 in HL. unfold one in HL. cbv beta in HL.
    assert (H 0%nat 0%nat = - (4 / 3)) as EH by lra.
    assert (forall X, care_residual 1 (one 0) (one 1) (one 1) X 0%nat 0%nat = 1 - X 0%nat 0%nat * X 0%nat 0%nat) as ER.
    { intro X. unfold care_residual, madd, msub, mtr. rewrite !mmul_1. unfold one. ring. }
    assert (forall A, fro2 1 A = A 0%nat 0%nat * A 0%nat 0%nat) as EF by (intro A; unfold fro2; rewrite !rsum_S, !rsum_0; ring).
    assert (mmul 1 (mmul 1 H (one 1)) H 0%nat 0%nat = 16 / 9) as EV by (rewrite !mmul_1, EH; unfold one; lra).
    cbv zeta in HV. destruct HV as (Ht & Hm & _).
    + intro E. specialize (E 0%nat 0%nat ltac:(lia) ltac:(lia)). rewrite EV in E. unfold mzero in E. lra.
    + intros x Hx. rewrite !rsum_S, !rsum_0, !EF, !ER, !EV in Hx. unfold one in Hx. cbn [cubic_roots ext demo_with].
      assert ((x - 3 / 2) * ((x - 9 / 4) * (x - 3)) = 0) as E by lra.
      apply Rmult_integral in E as [E|E]; [left; lra|]. apply Rmult_integral in E as [E|E]; [right; left; lra|right; right; left; lra].
    + specialize (Hm (3 / 2) ltac:(lra)). rewrite !mnorm_fro in Hm.
      assert (forall s, fro2 1 (care_residual 1 (one 0) (one 1) (one 1) (madd (one 3) (mscal s H))) = (1 - (3 - 4 / 3 * s) * (3 - 4 / 3 * s)) * (1 - (3 - 4 / 3 * s) * (3 - 4 / 3 * s))) as E.
      { intro s. rewrite EF, ER. unfold madd, mscal, one. rewrite EH. ring. }
      rewrite !E in Hm. replace (1 - (3 - 4 / 3 * (3 / 2)) * (3 - 4 / 3 * (3 / 2))) with 0 in Hm by lra. rewrite Rmult_0_l, sqrt_0 in Hm.
      fold (Rsqr (1 - (3 - 4 / 3 * t) * (3 - 4 / 3 * t))) in Hm. rewrite sqrt_Rsqr_abs in Hm.
      assert (1 - (3 - 4 / 3 * t) * (3 - 4 / 3 * t) = 0) as E0.
      { destruct (Req_dec (1 - (3 - 4 / 3 * t) * (3 - 4 / 3 * t)) 0) as [|N]; auto. apply Rabs_pos_lt in N. lra. }
      unfold madd, mscal, one. rewrite EH.
      assert ((t - 3 / 2) * (t - 3) = 0) as E1 by lra. apply Rmult_integral in E1 as [E1|E1]; [|lra]. replace t with (3 / 2) by lra. lra.
Qed.

(** The iteration returns one of the iterates X_0, X_1, ...; it stops before the limit only after an iterate with
    residual at most 1e-5 was seen, and returns the iterate after that one. *)
Theorem C41_newton_stop : forall ext kmax n A B C X0, (0 < kmax)%nat ->
  exists k, (1 <= k <= kmax)%nat /\ newton_ls_care ext kmax n A B C X0 = newton_iterate ext n A B C X0 k /\
  (forall j, (S j < k)%nat -> 1 / 100000 < mnorm n (care_residual n A B C (newton_iterate ext n A B C X0 j))) /\
  ((k < kmax)%nat -> mnorm n (care_residual n A B C (newton_iterate ext n A B C X0 (k - 1))) <= 1 / 100000).
Proof.
  intros ext kmax n A B C X0 Hk. unfold newton_ls_care.
  destruct (newton_loop_iterate ext n A B C kmax None X0) as (k & Hle & -> & Hj & _ & He). exists k.
  assert (k <> 0%nat) as Hk0 by (intros ->; apply He; auto).
  split; [lia|]. split; [reflexivity|]. split.
  - intros j Hjk. rewrite <- riccati_residual. specialize (Hj (S j) Hjk ltac:(lia)). replace (S j - 1)%nat with j in Hj by lia. exact Hj.
  - intro Hlt. specialize (He Hlt). destruct k as [|k]; [lia|]. replace (S k - 1)%nat with k by lia. rewrite <- riccati_residual. exact He.
Qed.
(** For linear equations (B = 0) the step length is 2, so the iteration never gets closer to the solution. *)
Theorem C41_linear_refuted : forall ext n A C X0 kmax,
  noalias_ok ext n -> lu_ok ext n -> schur_ok ext n (mtr A) -> real_spectrum n (mtr A) -> lyapunov_regular n (mtr A) ->
  symmetric n C -> symmetric n X0 ->
  mnorm n (care_residual n A mzero C (newton_ls_care ext kmax n A mzero C X0)) = mnorm n (care_residual n A mzero C X0).
Proof. intros. rewrite <- !riccati_residual. apply zero_loop; auto. Qed.
Example C41_linear_ex : care_solution 1 (one (-1)) mzero (one 1) (one (1 / 2)) /\
  mnorm 1 (care_residual 1 (one (-1)) mzero (one 1) (newton_ls_care demo 20 1 (one (-1)) mzero (one 1) mzero)) = 1.
Proof.
  split.
  - apply meq_1. unfold care_residual, madd, msub. rewrite !mmul_1. unfold mtr, one, mzero. lra.
  - rewrite C41_linear_refuted; try (intros i j _ _; reflexivity).
    + rewrite mnorm_fro. unfold fro2. rewrite !rsum_S, !rsum_0. unfold care_residual, madd, msub. rewrite !mmul_1. unfold mtr, one, mzero.
      replace (0 + _) with 1 by ring. apply sqrt_1.
    + apply demo_noalias. lia.
    + apply demo_lu1.
    + apply demo_schur. intros i j Hj Hi. lia.
    + apply spectrum_1.
    + apply regular_1. unfold mtr, one. lra.
Qed.

(** The initial guess. First formula, used when it gives a symmetric matrix: the closed loop A - B X is similar to one
    that decays with rate b (100 in lqr.hpp). Second formula: x'Xx decreases along the closed loop. Partial: closed
    loops and shifted matrices with complex eigenvalues are excluded, as are pseudo-inverses of singular matrices. *)
Theorem C41_initial_guess_partial : forall ext shift n A B,
  let T := fst (schur ext n A) in let U := snd (schur ext n A) in
  let Ts := madd T (mscal (shift n T) meye) in
  let TD := mmul n (mtr U) B in
  let X0 := init_newton_care ext shift n A B in
  noalias_ok ext n -> lu_ok ext n -> (forall A, schur_ok ext n A) -> symmetric n B -> psd n B ->
  real_spectrum n Ts -> lyapunov_regular n Ts ->
  (forall Z, svd_ok ext n Z) -> (forall Z, lyapunov_solution n Ts (mmul n (mscal 2 TD) (mtr TD)) Z -> forall i, (i < n)%nat -> 1 / 1000000 < snd (fst (svd ext n Z)) i) ->
  let X := init_gain ext shift n A B in let Ac := msub A (mmul n B X) in
  (mnorm n (msub X (mtr X)) <= 1 / 10 ^ 12 -> X0 = X /\ exists W, symmetric n W /\ (exists Wi, inverse n W Wi) /\ lyapunov_solution n Ac (mscal (-2 * shift n T) W) W) /\
  (1 / 10 ^ 12 < mnorm n (msub X (mtr X)) -> real_spectrum n (mtr Ac) -> lyapunov_regular n (mtr Ac) ->
   symmetric n X0 /\ forall x, 2 * form n n X0 x (rmv n (msub A (mmul n B X0)) x) <= - (1 / 2) * rsum n (fun i => x i * x i)).
Proof.
  intros ext shift n A B T U Ts TD X0 Hn Hl HS HB HBp Hr Hreg Hsvd Hsv X Ac.
  set (Q := mmul n (mscal 2 TD) (mtr TD)). set (Z := lyapunov ext n Ts Q).
  assert (lyapunov_solution n Ts Q Z) as HZ by (apply lyapunov_solves; auto).
  assert (symmetric n Z) as HZs.
  { apply (lyapunov_symmetric n Ts Q); auto. unfold Q. rewrite mmul_scal_l. apply symmetric_scal. intros i j _ _.
    rewrite !mmul_rsum. apply rsum_ext. intros. unfold mtr. ring. }
  assert (X = mmul n (mmul n (mtr TD) (pinv ext n Z)) (mtr U)) as EX.
  { unfold X, init_gain, Z, Q, Ts, TD, T, U. destruct (schur ext n A) as [T' U']. reflexivity. }
  assert (X0 = if Rlt_dec (1 / 10 ^ 12) (mnorm n (msub X (mtr X)))
    then lyapunov ext n (mtr (msub A (mmul n B X))) (mopp (madd (mmul n (mmul n (mtr X) B) X) (mscal (1 / 2) meye))) else X) as E0 by reflexivity.
  split.
  - intro Hb. destruct Rlt_dec as [Hc|_] in E0; [lra|]. split; auto. exists (mmul n (mmul n U Z) (mtr U)).
    destruct (HS A) as (HF & _). fold T U in HF. pose proof (pinv_inverse ext n Z (Hsvd Z) (Hsv Z HZ)) as [HI1 HI2]. split; [|split].
    + apply sym_meq. rewrite !mtr_mul, mtr_tr, <- mmul_assoc. apply mmul_ext; [|apply meq_refl]. apply mmul_ext; [apply meq_refl|]. apply sym_meq; auto.
    + exists (mmul n (mmul n U (pinv ext n Z)) (mtr U)).
      assert (forall P, meq n n P meye -> meq n n (mmul n (mmul n U P) (mtr U)) meye) as HP.
      { intros P E. apply meq_trans with (mmul n U (mtr U)); [|apply HF]. apply mmul_ext; [|apply meq_refl].
        eapply meq_trans; [apply mmul_ext; [apply meq_refl|exact E]|apply meye_r]. }
      split; (eapply meq_trans; [apply sandwich; apply HF|]); apply HP; auto.
    + unfold Ac. rewrite EX. apply (first_guess n A B (shift n T) T U Z (pinv ext n Z)); auto. split; auto.
  - intros Hb Hr' Hreg'. destruct Rlt_dec as [_|Hc] in E0; [|lra].
    assert (lyapunov_solution n (mtr Ac) (mopp (madd (mmul n (mmul n (mtr X) B) X) (mscal (1 / 2) meye))) X0) as HL by (rewrite E0; apply lyapunov_solves; auto).
    assert (symmetric n X0) as Hs.
    { refine (lyapunov_symmetric n _ _ X0 Hreg' _ HL). intros i j Hi Hj. unfold mopp. f_equal.
      assert (symmetric n (madd (mmul n (mmul n (mtr X) B) X) (mscal (1 / 2) meye))) as HS2; [|apply HS2; auto].
      apply symmetric_add; [|apply symmetric_scal; apply sym_meq; rewrite mtr_eye; apply meq_refl].
      apply sym_meq. rewrite !mtr_mul, mtr_tr, <- mmul_assoc. apply mmul_ext; [|apply meq_refl]. apply mmul_ext; [apply meq_refl|]. apply sym_meq; auto. }
    split; auto. intro x. apply (second_guess_decrease n A B X X0 x); auto.
Qed.
(** the hypotheses on the kernels are those of kernels_ok; one state, lqr.hpp: Z = 1/100, X = 100 *)
Example C41_initial_guess_ex : kernels_ok demo 1 /\ (let Ts := madd (one 0) (mscal 100 meye) in
  real_spectrum 1 Ts /\ lyapunov_regular 1 Ts /\
  (forall Z, lyapunov_solution 1 Ts (mmul 1 (mscal 2 (mmul 1 (mtr meye) (one 1))) (mtr (mmul 1 (mtr meye) (one 1)))) Z -> 1 / 1000000 < snd (fst (svd demo 1 Z)) 0%nat)) /\
  init_newton_care demo (fun _ _ => 100) 1 (one 0) (one 1) 0%nat 0%nat = 100.
Proof.
  split; [apply demo_kernels1|]. split.
  - split; [apply spectrum_1|]. split; [apply regular_1; unfold madd, mscal, meye, one; cbn [Nat.eqb]; lra|].
    intros Z H. specialize (H 0%nat 0%nat ltac:(lia) ltac:(lia)). unfold madd in H. rewrite !mmul_1 in H. unfold mtr in H. unfold mscal, meye, one in H. rewrite mmul_1 in H.
    cbn [Nat.eqb] in H. cbn [svd demo demo_with fst snd]. rewrite Rabs_right; lra.
  - rewrite (init_1 demo (demo_kernels1 _) _ (one 0) (one 1) 100) by (auto; unfold one; lra). unfold one. rewrite Rabs_right by lra. destruct Rlt_dec; lra.
Qed.

(** The gain: with an invertible weight, R K = G'S + M' for the S that is returned. *)
Theorem C41_gain : forall ext care failed nx nu F G Q R M check S K,
  lqr ext care failed nx nu F G Q R M check = Gain S K -> (forall S K, failed <> Gain S K) ->
  svd_ok ext nu R -> (forall i, (i < nu)%nat -> 1 / 1000000 < snd (fst (svd ext nu R)) i) ->
  meq nu nx (mmul nu R K) (madd (mmul nx (mtr G) S) (mtr M)).
Proof.
  intros ext care failed nx nu F G Q R M check S K H Hf Hs Hv. unfold lqr in H.
  match type of H with (if ?b then _ else _) = _ => destruct b end; [exfalso; eapply Hf; eauto|].
  destruct (lqr_equation ext nx nu F G Q R M) as [[A B] C]. injection H as <- <-.
  rewrite <- mmul_assoc. eapply meq_trans; [apply mmul_ext; [apply (proj1 (pinv_inverse ext nu R Hs Hv))|apply meq_refl]|apply meye_l].
Qed.
(** Optimality. Without cross term, if the returned S is symmetric and leaves a residual of Frobenius norm at most eps
    in the Riccati equation, no control does better than u = -K x along any trajectory, up to eps times the integral of
    |x|^2; for eps = 0 the feedback is optimal and x'Sx is the optimal cost. Partial: M = 0, weights whose singular
    values exceed 1e-6, and S as accurate as assumed. *)
Theorem C41_optimal_partial : forall ext care failed nx nu F G Q R check S K eps x u J N t0 t1,
  lqr ext care failed nx nu F G Q R mzero check = Gain S K -> (forall S K, failed <> Gain S K) ->
  svd_ok ext nu R -> (forall i, (i < nu)%nat -> 1 / 1000000 < snd (fst (svd ext nu R)) i) ->
  symmetric nu R -> psd nu R -> symmetric nx S ->
  0 <= eps -> (forall Ri, inverse nu R Ri -> mnorm nx (care_residual nx F (mmul nu (mmul nu G Ri) (mtr G)) Q S) <= eps) ->
  t0 <= t1 -> trajectory nx nu F G x u t0 t1 ->
  accumulates J (fun t => form nx nx Q (x t) (x t) + form nu nu R (u t) (u t)) t0 t1 ->
  accumulates N (fun t => rsum nx (fun i => x t i * x t i)) t0 t1 ->
  let V := fun t => form nx nx S (x t) (x t) in
  V t0 - V t1 - eps * (N t1 - N t0) <= J t1 - J t0 /\
  ((forall t i, t0 <= t <= t1 -> (i < nu)%nat -> u t i = - rmv nx K (x t) i) ->
   J t1 - J t0 <= V t0 - V t1 + eps * (N t1 - N t0)).
Proof.
  intros ext care failed nx nu F G Q R check S K eps x u J N t0 t1 H Hf Hs Hv HR HRp HS He HE H01 HT HJ HN V.
  pose proof (pinv_inverse ext nu R Hs Hv) as HI.
  assert (K = mmul nu (pinv ext nu R) (mmul nx (mtr G) S)) as EK.
  { unfold lqr in H. match type of H with (if ?b then _ else _) = _ => destruct b end; [exfalso; eapply Hf; eauto|].
    destruct (lqr_equation ext nx nu F G Q R mzero) as [[A B] C]. injection H as <- <-. f_equal. apply mx_ext. intros. unfold madd, mtr, mzero. ring. }
  specialize (HE _ HI).
  assert (fro2 nx (care_residual nx F (mmul nu (mmul nu G (pinv ext nu R)) (mtr G)) Q S) <= eps * eps) as HE2.
  { rewrite mnorm_fro in HE. rewrite <- (sqrt_sqrt (fro2 _ _)) by apply fro2_nonneg. apply Rmult_le_compat; auto; apply sqrt_pos. }
  rewrite EK. exact (cost_bound nx nu F G Q R (pinv ext nu R) S eps x u J N t0 t1 HS HR HRp HI He HE2 H01 HT HJ HN).
Qed.
(** non-vacuity: x' = u, cost x^2 + u^2, an exact Riccati solver, and the optimal trajectory exp(-t) *)
Example C41_optimal_ex :
  let x := fun t (_ : nat) => exp (-1 * t) in let u := fun t (_ : nat) => - exp (-1 * t) in
  let J := fun t => - exp (-2 * t) in let N := fun t => - (exp (-2 * t) / 2) in
  lqr demo (fun _ _ _ _ => one 1) Empty 1 1 (one 0) (one 1) (one 1) (one 1) mzero false =
    Gain (one 1) (mmul 1 (pinv demo 1 (one 1)) (madd (mmul 1 (mtr (one 1)) (one 1)) (mtr mzero))) /\
  svd_ok demo 1 (one 1) /\ 1 / 1000000 < snd (fst (svd demo 1 (one 1))) 0%nat /\
  (forall Ri, inverse 1 (one 1) Ri -> mnorm 1 (care_residual 1 (one 0) (mmul 1 (mmul 1 (one 1) Ri) (mtr (one 1))) (one 1) (one 1)) <= 0) /\
  (forall t0 t1, trajectory 1 1 (one 0) (one 1) x u t0 t1 /\
   accumulates J (fun t => form 1 1 (one 1) (x t) (x t) + form 1 1 (one 1) (u t) (u t)) t0 t1 /\
   accumulates N (fun t => rsum 1 (fun i => x t i * x t i)) t0 t1).
Proof.
  intros x u J N. split; [reflexivity|]. split; [apply demo_svd1|]. split; [cbn [svd demo demo_with fst snd]; unfold one; rewrite Rabs_R1; lra|].
  split.
  - intros Ri [H _]. specialize (H 0%nat 0%nat ltac:(lia) ltac:(lia)). rewrite mmul_1 in H. unfold meye, one in H. cbn [Nat.eqb] in H.
    rewrite mnorm_fro. unfold fro2. rewrite !rsum_S, !rsum_0. unfold care_residual, madd, msub. rewrite !mmul_1. unfold mtr, one.
    replace (Ri 0%nat 0%nat) with 1 by lra. replace (0 + _) with 0 by ring. rewrite sqrt_0. lra.
  - intros t0 t1.
    assert (forall t, exp (-1 * t) * exp (-1 * t) = exp (-2 * t)) as E2 by (intro t; rewrite <- exp_plus; f_equal; ring).
    split; [|split].
    + intros t i _ _. unfold x, u. change (derivable_pt_lim (fun t => exp (-1 * t)) t (0 + 0 * exp (-1 * t) + (0 + 1 * - exp (-1 * t)))).
      replace (0 + 0 * exp (-1 * t) + (0 + 1 * - exp (-1 * t))) with (-1 * exp (-1 * t)) by ring. apply exp_derivative.
    + intros t _. unfold J, form. rewrite !rsum_S, !rsum_0. unfold x, u, one.
      replace (0 + (0 + exp (-1 * t) * 1 * exp (-1 * t)) + (0 + (0 + - exp (-1 * t) * 1 * - exp (-1 * t)))) with (- (-2 * (exp (-1 * t) * exp (-1 * t)))) by ring.
      rewrite E2. apply (derivable_pt_lim_opp (fun t => exp (-2 * t))). apply exp_derivative.
    + intros t _. unfold N. rewrite !rsum_S, !rsum_0. unfold x. rewrite Rplus_0_l, E2.
      apply (derivable_pt_lim_ext (fun t => (- / 2) * exp (-2 * t))); [intro; field|].
      replace (exp (-2 * t)) with ((- / 2) * (-2 * exp (-2 * t))) by field. apply (derivable_pt_lim_scal (fun t => exp (-2 * t))). apply exp_derivative.
Qed.

(** What is false. The solver of lqr.hpp returns the initial guess: with one state and one input the gain does not
    depend on the weights, and S solves the Riccati equation only for a single value of q. *)
Theorem C41_hpp_refuted : forall ext f g q r, kernels_ok ext 1 ->
  1 / 1000000 < r -> -100 < f -> 1 / 1000000 < (g * g / r) * (g * g / r) / (f + 100) ->
  exists S K, lqr_hpp ext 1 1 (one f) (one g) (one q) (one r) mzero false = Gain S K /\
  S 0%nat 0%nat = (f + 100) * r / (g * g) /\ K 0%nat 0%nat = (f + 100) / g /\
  (care_solution 1 (one f) (one (g * g / r)) (one q) S -> q = (10000 - f * f) * r / (g * g)).
Proof.
  intros ext f g q r HK Hr Hf Hg.
  assert (g <> 0) as Hg0 by (intros ->; replace (0 * 0 / r * (0 * 0 / r) / (f + 100)) with 0 in Hg by (field; split; lra); lra).
  unfold lqr_hpp, lqr. cbn [andb]. cbv zeta. unfold lqr_equation. set (A := msub _ _). set (B := mmul 1 _ (mtr (one g))). set (C := madd _ _).
  eexists; eexists. split; [reflexivity|].
  assert (pinv ext 1 (one r) 0%nat 0%nat = 1 / r) as EP by (rewrite pinv_1 by auto; unfold one; rewrite Rabs_right by lra; destruct Rlt_dec; lra).
  assert (A 0%nat 0%nat = f) as EA by (unfold A, msub; rewrite !mmul_1; unfold mtr, mzero, one; ring).
  assert (B 0%nat 0%nat = g * g / r) as EB by (unfold B; rewrite !mmul_1, EP; unfold mtr, one; field; lra).
  assert (care_hpp ext 1 A B C 0%nat 0%nat = (f + 100) * r / (g * g)) as ES.
  { unfold care_hpp. rewrite (init_1 ext HK _ A B 100), EA, EB by (auto; rewrite EA; lra).
    rewrite Rabs_right by lra. destruct Rlt_dec; [|lra]. field. split; lra. }
  split; [exact ES|]. split.
  - rewrite mmul_1, EP. unfold madd. rewrite mmul_1, ES. unfold mtr, mzero, one. field. split; lra.
  - intro H. specialize (H 0%nat 0%nat ltac:(lia) ltac:(lia)). unfold care_residual, madd, msub in H. rewrite !mmul_1, ES in H. unfold mtr, one, mzero in H.
    match type of H with ?l + q = 0 => assert (l = - ((10000 - f * f) * r / (g * g))) as E by (field; split; lra) end. lra.
Qed.
(** x' = u with cost x^2 + u^2: the gain is 100, the optimal one is 1 *)
Example C41_hpp_ex : exists S K, lqr_hpp demo 1 1 (one 0) (one 1) (one 1) (one 1) mzero false = Gain S K /\
  K 0%nat 0%nat = 100 /\ ~ care_solution 1 (one 0) (one (1 * 1 / 1)) (one 1) S /\ feedback_cost 0 1 1 1 0 1 < feedback_cost 0 1 1 1 0 (K 0%nat 0%nat).
Proof.
  destruct (C41_hpp_refuted demo 0 1 1 1 (demo_kernels1 _)) as (S & K & H & _ & HK & HC); try lra.
  exists S, K. split; auto. rewrite HK. split; [lra|]. split; [intro E; apply HC in E; lra|]. unfold feedback_cost. lra.
Qed.

(** Also false: with a cross term the constant of the Riccati equation has the wrong sign in front of M R^-1 M', so even
    an exact Riccati solver gives a gain that is not optimal. x' = u with cost x^2 + m x u + u^2: the optimal gain is 1
    whatever m, and every exact solver leads to a costlier one. *)
Theorem C41_cross_refuted : forall ext care failed m, kernels_ok ext 1 -> m <> 0 ->
  (forall A B C, 0 < B 0%nat 0%nat -> 0 <= C 0%nat 0%nat -> care_solution 1 A B C (care 1%nat A B C) /\ 0 <= care 1%nat A B C 0%nat 0%nat) ->
  exists S K, lqr ext care failed 1 1 (one 0) (one 1) (one 1) (one 1) (one m) false = Gain S K /\
  ~ regulator_equation 1 1 (one 0) (one 1) (one 1) (one 1) (one m) S /\
  (0 <= m -> K 0%nat 0%nat = sqrt (1 + 2 * m * m) /\ forall c, feedback_cost 0 1 1 1 c 1 < feedback_cost 0 1 1 1 c (K 0%nat 0%nat)).
Proof.
  intros ext care failed m HK Hm Hcare.
  unfold lqr. cbn [andb]. cbv zeta. unfold lqr_equation. set (A := msub _ _). set (B := mmul 1 _ (mtr (one 1))). set (C := madd _ _).
  eexists; eexists. split; [reflexivity|]. set (S := care 1%nat A B C).
  assert (pinv ext 1 (one 1) 0%nat 0%nat = 1) as EP by (rewrite pinv_1 by auto; unfold one; rewrite Rabs_right by lra; destruct Rlt_dec; lra).
  assert (A 0%nat 0%nat = - m) as EA by (unfold A, msub; rewrite !mmul_1, EP; unfold mtr, one; ring).
  assert (B 0%nat 0%nat = 1) as EB by (unfold B; rewrite !mmul_1, EP; unfold mtr, one; ring).
  assert (C 0%nat 0%nat = 1 + m * m) as EC by (unfold C, madd; rewrite !mmul_1, EP; unfold mtr, one; ring).
  set (s := S 0%nat 0%nat).
  assert (- m * s + s * - m - s * 1 * s + (1 + m * m) = 0) as E1.
  { destruct (Hcare A B C) as [H _]; [rewrite EB; lra|rewrite EC; nra|]. specialize (H 0%nat 0%nat ltac:(lia) ltac:(lia)). fold S in H. unfold care_residual, madd, msub in H.
    rewrite !mmul_1 in H. unfold mtr in H. rewrite EA, EB, EC in H. exact H. }
  assert (0 <= s) as Hs.
  { destruct (Hcare A B C) as [_ H]; [rewrite EB; lra|rewrite EC; nra|]. exact H. }
  split.
  - intro H. specialize (H 0%nat 0%nat ltac:(lia) ltac:(lia)). unfold care_residual, madd, msub in H. rewrite !mmul_1 in H. unfold mtr in H. rewrite !mmul_1 in H.
    unfold one, mzero in H. fold s in H. nra.
  - intro Hm0. assert (mmul 1 (pinv ext 1 (one 1)) (madd (mmul 1 (mtr (one 1)) S) (mtr (one m))) 0%nat 0%nat = s + m) as EK.
    { rewrite mmul_1, EP. unfold madd. rewrite mmul_1. unfold mtr, one. fold s. ring. }
    rewrite EK. assert ((s + m) * (s + m) = 1 + 2 * m * m) as E2 by lra. split.
    + rewrite <- E2. fold (Rsqr (s + m)). rewrite sqrt_Rsqr; lra.
    + intro c. set (k := s + m) in *. assert (0 < m * m) as Hmm by (apply Rsqr_pos_lt; auto).
      assert (0 <= k) as Hk0 by (unfold k; lra).
      assert (1 < k) as Hk by (apply Rnot_le_lt; intro Hle; assert (k * k <= 1 * 1) by (apply Rmult_le_compat; auto); lra). unfold feedback_cost.
      replace ((1 - 2 * c * 1 + 1 * 1 * 1) / (2 * (1 * 1 - 0))) with (1 - c) by field.
      replace ((1 - 2 * c * k + 1 * k * k) / (2 * (1 * k - 0))) with ((1 - c) + (k - 1) * (k - 1) / (2 * k)) by (field; lra).
      assert (0 < (k - 1) * (k - 1) / (2 * k)); [|lra]. apply Rdiv_lt_0_compat; [|lra]. apply Rmult_lt_0_compat; lra.
Qed.
Example C41_cross_ex : let care := fun (_ : nat) (A B C : mx) =>
    one ((A 0%nat 0%nat + sqrt (A 0%nat 0%nat * A 0%nat 0%nat + B 0%nat 0%nat * C 0%nat 0%nat)) / B 0%nat 0%nat) in
  forall A B C : mx, 0 < B 0%nat 0%nat -> 0 <= C 0%nat 0%nat -> care_solution 1 A B C (care 1%nat A B C) /\ 0 <= care 1%nat A B C 0%nat 0%nat.
Proof.
  intros care A B C HB HC. unfold care. set (a := A 0%nat 0%nat). set (b := B 0%nat 0%nat) in *. set (c := C 0%nat 0%nat) in *.
  assert (0 <= b * c) as Hbc by (apply Rmult_le_pos; lra). assert (0 <= a * a) as Ha by apply Rle_0_sqr.
  set (w := sqrt (a * a + b * c)). assert (w * w = a * a + b * c) as Ew by (apply sqrt_sqrt; lra). split.
  - apply meq_1. unfold care_residual, madd, msub. rewrite !mmul_1. unfold mtr, one, mzero. fold a b c.
    replace (a * ((a + w) / b) + (a + w) / b * a - (a + w) / b * b * ((a + w) / b) + c) with ((a * a + b * c - w * w) / b) by (field; lra).
    rewrite Ew. field. lra.
  - unfold one. apply Rmult_le_pos; [|left; apply Rinv_0_lt_compat; auto].
    assert (Rabs a <= w) as H by (rewrite <- sqrt_Rsqr_abs; apply sqrt_le_1_alt; unfold Rsqr; lra). pose proof (Rle_abs (- a)). rewrite Rabs_Ropp in H0. lra.
Qed.
(** Also false: an input weight of at most 1e-6 is inverted to 0, the gain is 0 whatever the system. *)
Theorem C41_small_weight_refuted : forall ext care failed f g q r, kernels_ok ext 1 -> 0 < r <= 1 / 1000000 ->
  exists S K, lqr ext care failed 1 1 (one f) (one g) (one q) (one r) mzero false = Gain S K /\ K 0%nat 0%nat = 0 /\
  (0 < q -> g <> 0 -> ~ (r * K 0%nat 0%nat = g * S 0%nat 0%nat /\ care_solution 1 (one f) (one (g * g / r)) (one q) S)).
Proof.
  intros ext care failed f g q r HK Hr. unfold lqr. cbn [andb]. cbv zeta. unfold lqr_equation. set (A := msub _ _). set (B := mmul 1 _ (mtr (one g))). set (C := madd _ _).
  eexists; eexists. split; [reflexivity|]. set (S := care 1%nat A B C).
  assert (pinv ext 1 (one r) 0%nat 0%nat = 0) as EP by (rewrite pinv_1 by auto; unfold one; rewrite Rabs_right by lra; destruct Rlt_dec; lra).
  assert (mmul 1 (pinv ext 1 (one r)) (madd (mmul 1 (mtr (one g)) S) (mtr mzero)) 0%nat 0%nat = 0) as EK by (rewrite mmul_1, EP; ring).
  split; [exact EK|]. intros Hq Hg [H1 H2]. rewrite EK in H1.
  specialize (H2 0%nat 0%nat ltac:(lia) ltac:(lia)). unfold care_residual, madd, msub in H2. rewrite !mmul_1 in H2. unfold mtr, one, mzero in H2.
  assert (S 0%nat 0%nat = 0) as E.
  { assert (g * S 0%nat 0%nat = 0) as E by lra. apply Rmult_integral in E as [E|E]; tauto. }
  rewrite E in H2. lra.
Qed.
Example C41_small_weight_ex : kernels_ok demo 1 /\ care_solution 1 (one 0) (one (1 * 1 / (1 / 1000000))) (one 1) (one (1 / 1000)).
Proof.
  split; [apply demo_kernels1|]. apply meq_1. unfold care_residual, madd, msub. rewrite !mmul_1. unfold mtr, one, mzero. lra.
Qed.
(** Also false: weights that fail the positivity check make lqr.hpp assign an empty matrix to a fixed-size reference. *)
Theorem C41_check_refuted : forall ext, kernels_ok ext 1 -> (forall A, min_re_eig ext 1 A = A 0%nat 0%nat) ->
  lqr_hpp ext 1 1 (one 0) (one 1) (one (-1)) (one 1) mzero true = Undefined /\
  lqr_cpp ext 1 1 (one 0) (one 1) (one (-1)) (one 1) mzero true = Empty.
Proof.
  intros ext HK He. unfold lqr_hpp, lqr_cpp, lqr. cbn [andb]. rewrite He.
  unfold msub. rewrite !mmul_1. unfold mtr, mzero, one.
  destruct Rlt_dec as [H|H]; [split; reflexivity|]. exfalso. apply H. lra.
Qed.
Example C41_check_ex : kernels_ok demo 1 /\ forall A, min_re_eig demo 1 A = A 0%nat 0%nat.
Proof. split; [apply demo_kernels1|reflexivity]. Qed.

Print Assumptions C40_solves_partial.
Print Assumptions C40_complex_refuted.
Print Assumptions C40_alias_refuted.
Print Assumptions C41_line_search.
Print Assumptions C41_newton_step_partial.
Print Assumptions C41_newton_stop.
Print Assumptions C41_linear_refuted.
Print Assumptions C41_initial_guess_partial.
Print Assumptions C41_gain.
Print Assumptions C41_optimal_partial.
Print Assumptions C41_hpp_refuted.
Print Assumptions C41_cross_refuted.
Print Assumptions C41_small_weight_refuted.
Print Assumptions C41_check_refuted.
