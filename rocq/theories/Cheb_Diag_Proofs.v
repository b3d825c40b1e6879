(** Diagonal entries of the Chebyshev differentiation matrix. *)
Require Import Arith ZArith List Bool Lia Reals Lra.
From Verif Require Import Scal RSum PolyR Poly_Spec Cheb_Model Cheb_Proofs.
Import ListNotations.
Local Open Scope R_scope.

Lemma cheb_T_list : forall n, exists l, (length l <= S n)%nat /\ forall t, peval l (cos t) = cos (INR n * t).
Proof.
  intro n. enough (H : (exists l, (length l <= S n)%nat /\ forall t, peval l (cos t) = cos (INR n * t)) /\
    (exists l, (length l <= S (S n))%nat /\ forall t, peval l (cos t) = cos (INR (S n) * t))) by apply H.
  induction n as [|n [[l0 [L0 E0]] [l1 [L1 E1]]]].
  - split.
    + exists [1]. split; [simpl; lia|]. intro t. simpl. rewrite Rmult_0_l, cos_0. ring.
    + exists [0; 1]. split; [simpl; lia|]. intro t. simpl. rewrite Rmult_1_l. ring.
  - split; [eauto|]. exists (padd (pmul [0; 2] l1) (pscal (-1) l0)). split.
    + rewrite length_add, length_scal. pose proof (length_mul_le [0; 2] l1 1 (S n) ltac:(simpl; lia) L1). lia.
    + intro t. rewrite peval_add, peval_mul, peval_scal, E0, E1. rewrite !S_INR.
      replace ((INR n + 1 + 1) * t) with ((INR n + 1) * t + t) by ring. replace (INR n * t) with ((INR n + 1) * t - t) by ring.
      rewrite cos_plus, cos_minus. simpl. ring.
Qed.

Lemma node_poly_list : forall N, (1 <= N)%nat -> exists w, (length w <= S (S N))%nat /\
  forall t, peval w (cos t) = sin t * sin (INR N * t).
Proof.
  intros N HN. destruct (cheb_T_list (N - 1)) as [a [La Ea]]. destruct (cheb_T_list (S N)) as [b [Lb Eb]].
  exists (pscal (/ 2) (padd a (pscal (-1) b))). split.
  - rewrite length_scal, length_add, length_scal. lia.
  - intro t. rewrite peval_scal, peval_add, peval_scal, Ea, Eb. rewrite S_INR, minus_INR by auto. simpl (INR 1).
    replace ((INR N - 1) * t) with (INR N * t - t) by ring. replace ((INR N + 1) * t) with (INR N * t + t) by ring.
    rewrite cos_plus, cos_minus. field.
Qed.

Lemma sin_theta_N : forall N i, (1 <= N)%nat -> sin (INR N * cheb_theta N i) = 0.
Proof.
  intros. unfold cheb_theta. replace (INR N * (INR i * (PI / INR N))) with (INR i * PI) by (field; apply not_0_INR; lia).
  rewrite INR_IZR_INZ. apply sin_eq_0_1. eauto.
Qed.
Lemma cos_theta_N : forall N i, (1 <= N)%nat -> cos (INR N * cheb_theta N i) <> 0.
Proof.
  intros N i HN E. pose proof (sin_theta_N N i HN) as S0. pose proof (sin2_cos2 (INR N * cheb_theta N i)) as H.
  rewrite E, S0 in H. unfold Rsqr in H. lra.
Qed.

Lemma diag_quo : forall N l q, (1 <= N)%nat -> (l <= N)%nat -> (length q <= S N)%nat ->
  (forall j, (j <= N)%nat -> j <> l -> peval q (cheb_nodes N j) = 0) ->
  cheb_D N l l * peval q (cheb_nodes N l) = peval (pder q) (cheb_nodes N l).
Proof.
  intros N l q HN Hl Hq Hz. rewrite <- (cheb_D_exact N q l HN Hl Hq).
  rewrite (rsum_isolate (S N) l) by lia. rewrite (rsum_zero (S N)); [ring|].
  intros j Hj. destruct (Nat.eqb_spec j l); auto. rewrite Hz by (auto; lia). ring.
Qed.

Lemma d_cos : forall t, derivable_pt_lim cos t (- sin t).
Proof. exact derivable_pt_lim_cos. Qed.
Lemma d_pcos : forall q t, derivable_pt_lim (fun t => peval q (cos t)) t (peval (pder q) (cos t) * - sin t).
Proof. intros. apply (derivable_pt_lim_comp cos (peval q)); [apply d_cos|apply peval_derivable]. Qed.
Lemma d_lin : forall n t, derivable_pt_lim (fun t => n * t) t n.
Proof. intros. pose proof (derivable_pt_lim_scal id n t 1 (derivable_pt_lim_id t)) as H. rewrite Rmult_1_r in H. exact H. Qed.
Lemma d_sinN : forall n t, derivable_pt_lim (fun t => sin (n * t)) t (cos (n * t) * n).
Proof. intros. apply (derivable_pt_lim_comp (fun t => n * t) sin); [apply d_lin|apply derivable_pt_lim_sin]. Qed.
Lemma d_cosN : forall n t, derivable_pt_lim (fun t => cos (n * t)) t (- sin (n * t) * n).
Proof. intros. apply (derivable_pt_lim_comp (fun t => n * t) cos); [apply d_lin|apply derivable_pt_lim_cos]. Qed.
Lemma d_mul : forall f g x a b, derivable_pt_lim f x a -> derivable_pt_lim g x b -> derivable_pt_lim (fun t => f t * g t) x (a * g x + f x * b).
Proof. intros. apply (derivable_pt_lim_mult f g); auto. Qed.
Lemma d_add : forall f g x a b, derivable_pt_lim f x a -> derivable_pt_lim g x b -> derivable_pt_lim (fun t => f t + g t) x (a + b).
Proof. intros. apply (derivable_pt_lim_plus f g); auto. Qed.
Lemma d_cosc : forall c t, derivable_pt_lim (fun t => cos t - c) t (- sin t).
Proof.
  intros. replace (- sin t) with (- sin t - 0) by ring. apply (derivable_pt_lim_minus cos (fun _ => c)); [apply d_cos|apply derivable_pt_lim_const].
Qed.

Lemma node_interior : forall N l, (0 < l < N)%nat -> -1 < cheb_nodes N l < 1.
Proof.
  intros N l Hl. pose proof (nodes_decreasing N) as H.
  split; [rewrite <- (nodes_last N) by lia|rewrite <- (nodes_first N)]; apply H; lia.
Qed.

(** D_ll = - x_l / (2 (1 - x_l^2)) at the interior nodes *)
Lemma diag_interior : forall N l, (0 < l < N)%nat ->
  cheb_D N l l = - cheb_nodes N l / (2 * (1 - cheb_nodes N l ^ 2)).
Proof.
  intros N l Hl. assert (HN : (1 <= N)%nat) by lia.
  destruct (node_poly_list N HN) as (w & Lw & Ew). set (th := cheb_theta N l).
  assert (Hw : forall j, peval w (cheb_nodes N j) = 0).
  { intro j. unfold cheb_nodes. rewrite Ew, sin_theta_N by auto. ring. }
  set (q := pquo w (cheb_nodes N l)).
  assert (Lq : (length q <= S N)%nat) by (unfold q; rewrite length_quo; lia).
  assert (Hq : forall j, (j <= N)%nat -> j <> l -> peval q (cheb_nodes N j) = 0).
  { intros j Hj Hne. apply quo_other; auto. apply nodes_distinct; auto; lia. }
  pose proof (diag_quo N l q HN ltac:(lia) Lq Hq) as HD.
  assert (Id : forall t, (cos t - cos th) * peval q (cos t) = sin t * sin (INR N * t)).
  { intro t. rewrite <- Ew. rewrite (peval_quo w (cheb_nodes N l) (cos t)), Hw. fold q. unfold cheb_nodes. fold th. ring. }
  (* first derivative, everywhere *)
  assert (Id1 : forall t, - sin t * peval q (cos t) + (cos t - cos th) * (peval (pder q) (cos t) * - sin t) =
                          cos t * sin (INR N * t) + sin t * (cos (INR N * t) * INR N)).
  { intro t. apply derivable_unique with (fun t => sin t * sin (INR N * t)) t.
    - apply derivable_pt_lim_ext with (fun t => (cos t - cos th) * peval q (cos t)); [exact Id|].
      apply (d_mul (fun t => cos t - cos th) (fun t => peval q (cos t))); [apply d_cosc|apply d_pcos].
    - apply (d_mul sin (fun t => sin (INR N * t))); [apply derivable_pt_lim_sin|apply d_sinN]. }
  (* second derivative at th *)
  assert (Id2 : (- cos th * peval q (cos th) + - sin th * (peval (pder q) (cos th) * - sin th)) +
     (- sin th * (peval (pder q) (cos th) * - sin th)) =
     (- sin th * sin (INR N * th) + cos th * (cos (INR N * th) * INR N)) +
     (cos th * (cos (INR N * th) * INR N) + sin th * (- sin (INR N * th) * INR N * INR N))).
  { apply derivable_unique with (fun t => cos t * sin (INR N * t) + sin t * (cos (INR N * t) * INR N)) th.
    - apply derivable_pt_lim_ext with (fun t => - sin t * peval q (cos t) + (cos t - cos th) * (peval (pder q) (cos t) * - sin t)); [exact Id1|].
      apply d_add.
      + apply (d_mul (fun t => - sin t) (fun t => peval q (cos t))); [|apply d_pcos].
        apply (derivable_pt_lim_opp sin). apply derivable_pt_lim_sin.
      + replace (- sin th * (peval (pder q) (cos th) * - sin th)) with
          (- sin th * (peval (pder q) (cos th) * - sin th) + (cos th - cos th) * ((peval (pder (pder q)) (cos th) * - sin th) * - sin th + peval (pder q) (cos th) * - cos th)) by ring.
        apply (d_mul (fun t => cos t - cos th) (fun t => peval (pder q) (cos t) * - sin t)); [apply d_cosc|].
        apply (d_mul (fun t => peval (pder q) (cos t)) (fun t => - sin t)); [apply d_pcos|].
        apply (derivable_pt_lim_opp sin). apply derivable_pt_lim_sin.
    - apply d_add.
      + apply (d_mul cos (fun t => sin (INR N * t))); [apply d_cos|apply d_sinN].
      + apply (d_mul sin (fun t => cos (INR N * t) * INR N)); [apply derivable_pt_lim_sin|].
        replace (- sin (INR N * th) * INR N * INR N) with ((- sin (INR N * th) * INR N) * INR N + cos (INR N * th) * 0) by ring.
        apply (d_mul (fun t => cos (INR N * t)) (fun _ => INR N)); [apply d_cosN|apply derivable_pt_lim_const]. }
  assert (S0 : sin (INR N * th) = 0) by (apply sin_theta_N; auto). pose proof (cos_theta_N N l HN) as C0. fold th in C0.
  assert (HR : INR N <> 0) by (apply not_0_INR; lia).
  change (cheb_nodes N l) with (cos th) in *.
  pose proof (node_interior N l Hl) as Hint. change (cheb_nodes N l) with (cos th) in Hint.
  pose proof (sin2_cos2 th) as SC. unfold Rsqr in SC.
  assert (Hs : sin th <> 0). { intro E. rewrite E in SC. nra. }
  specialize (Id1 th). rewrite S0 in Id1, Id2.
  assert (Q : peval q (cos th) = - (cos (INR N * th) * INR N)).
  { apply Rmult_eq_reg_l with (- sin th); [|lra]. lra. }
  assert (HQ : peval q (cos th) <> 0) by (rewrite Q; intro E; apply C0; nra).
  assert (Q' : 2 * (sin th * sin th) * peval (pder q) (cos th) = - cos th * peval q (cos th)) by (rewrite Q in *; lra).
  rewrite <- HD in Q'.
  assert (E2 : 1 - cos th ^ 2 = sin th * sin th) by (simpl; lra). rewrite E2.
  apply Rmult_eq_reg_r with (2 * (sin th * sin th) * peval q (cos th)).
  - transitivity (2 * (sin th * sin th) * (cheb_D N l l * peval q (cos th))); [ring|]. rewrite Q'. field. auto.
  - repeat apply Rmult_integral_contrapositive_currified; auto.
Qed.

(** polynomial with given zeros and its logarithmic derivative *)
Lemma zeros_poly : forall n (y : nat -> R), exists l, (length l <= S n)%nat /\
  (forall j, (j < n)%nat -> peval l (y j) = 0) /\
  (forall z, (forall j, (j < n)%nat -> z <> y j) -> peval l z <> 0 /\ peval (pder l) z = peval l z * rsum n (fun j => / (z - y j))).
Proof.
  intros n y. induction n as [|n (l & Ll & Hz & Hd)].
  - exists [1]. split; [simpl; lia|]. split; [intros; lia|]. intros z _. rewrite rsum_0. cbn. split; lra.
  - exists (pmul [- y n; 1] l). split; [apply (length_mul_le _ _ 1 n); auto|]. split.
    + intros j Hj. rewrite peval_mul. destruct (Nat.eq_dec j n) as [->|]; [simpl; ring|rewrite Hz by lia; ring].
    + intros z Hne. destruct (Hd z) as [A B]; [intros; apply Hne; lia|]. assert (z - y n <> 0) by (pose proof (Hne n ltac:(lia)); lra).
      rewrite peval_der_mul, peval_mul, B, rsum_S. cbn. split.
      * apply Rmult_integral_contrapositive_currified; auto. lra.
      * field. auto.
Qed.

Lemma diag_first : forall N, (1 <= N)%nat -> / 2 <= cheb_D N 0%nat 0%nat.
Proof.
  intros N HN. destruct (zeros_poly N (fun j => cheb_nodes N (S j))) as (l & Ll & Hz & Hd).
  destruct (Hd (cheb_nodes N 0)) as [A B]; [intros; apply nodes_distinct; auto; lia|].
  pose proof (diag_quo N 0 l HN ltac:(lia) Ll) as HD. rewrite B in HD.
  assert (E : cheb_D N 0%nat 0%nat = rsum N (fun j => / (cheb_nodes N 0 - cheb_nodes N (S j)))).
  { apply Rmult_eq_reg_r with (peval l (cheb_nodes N 0)); auto. rewrite HD; [ring|].
    intros [|j] Hj Hne; [lia|]. apply Hz. lia. }
  rewrite E. destruct N as [|n]; [lia|]. rewrite rsum_first.
  assert (T : forall j, (j < S n)%nat -> / 2 <= / (cheb_nodes (S n) 0 - cheb_nodes (S n) (S j))).
  { intros j Hj. rewrite nodes_first. pose proof (nodes_decreasing (S n) 0 (S j) ltac:(lia) ltac:(lia) ltac:(lia)) as H. rewrite nodes_first in H.
    assert (-1 <= cheb_nodes (S n) (S j)) by (unfold cheb_nodes; apply COS_bound).
    apply Rinv_le_contravar; lra. }
  assert (0 <= rsum n (fun i => / (cheb_nodes (S n) 0 - cheb_nodes (S n) (S (S i))))).
  { apply rsum_nonneg. intros i Hi. specialize (T (S i) ltac:(lia)). lra. }
  specialize (T 0%nat ltac:(lia)). lra.
Qed.

Lemma sin_half : forall a, 0 <= a <= 1 -> a / 2 <= sin a.
Proof.
  intros a [H0 H1]. assert (a <= PI) by (pose proof PI2_3_2; lra). destruct (SIN a H0 H) as [L _].
  apply Rle_trans with (sin_lb a); [|exact L]. unfold sin_lb, sin_approx, sin_term. cbn [sum_f_R0 pow Nat.mul Nat.add fact INR].
  assert (0 <= a * a <= 1) by (split; nra). set (b := a * a) in *.
  assert (0 <= a * b <= a) by (split; nra). assert (0 <= a * b * b) by nra. assert (a * b * b * b <= a) by nra. assert (0 <= a * b * b * b) by nra.
  simpl. unfold b in *. lra.
Qed.

Lemma node_zero_or_large : forall N l, (0 < l < N)%nat -> cheb_nodes N l = 0 \/ / (2 * INR N) <= Rabs (cheb_nodes N l).
Proof.
  intros N l Hl. assert (HR : 2 <= INR N) by (change 2 with (INR 2); apply le_INR; lia).
  assert (HP := PI2_3_2). assert (HP4 := PI_4).
  assert (Small : / (2 * INR N) <= sin (PI / (2 * INR N))).
  { apply Rle_trans with (PI / (2 * INR N) / 2).
    - unfold Rdiv. rewrite Rmult_assoc. assert (0 < / (2 * INR N)) by (apply Rinv_0_lt_compat; lra). nra.
    - apply sin_half. split.
      + apply Rlt_le, Rdiv_lt_0_compat; lra.
      + apply Rmult_le_reg_r with (2 * INR N); [lra|]. unfold Rdiv. rewrite Rmult_assoc, Rinv_l by lra. lra. }
  assert (Main : forall k, (0 < k)%nat -> (2 * k < N)%nat -> / (2 * INR N) <= cheb_nodes N k).
  { intros k Hk Hk2. apply Rle_trans with (1 := Small). unfold cheb_nodes, cheb_theta. rewrite <- cos_shift.
    rewrite cos_shift. rewrite <- sin_shift. apply sin_incr_1.
    - apply Rle_trans with 0; [lra|]. apply Rlt_le, Rdiv_lt_0_compat; lra.
    - apply Rmult_le_reg_r with (2 * INR N); [lra|]. unfold Rdiv. rewrite Rmult_assoc, Rinv_l by lra. nra.
    - assert (INR k <= INR N) by (apply le_INR; lia).
      assert (0 <= INR k * (PI / INR N)) by (apply Rmult_le_pos; [apply pos_INR|apply Rlt_le, Rdiv_lt_0_compat; lra]).
      assert (INR k * (PI / INR N) <= PI / 2).
      { apply Rmult_le_reg_r with (2 * INR N); [lra|]. replace (INR k * (PI / INR N) * (2 * INR N)) with (2 * INR k * PI) by (field; lra).
        assert (2 * INR k <= INR N) by (replace 2 with (INR 2) by reflexivity; rewrite <- mult_INR; apply le_INR; lia). nra. }
      lra.
    - assert (0 <= INR k * (PI / INR N)) by (apply Rmult_le_pos; [apply pos_INR|apply Rlt_le, Rdiv_lt_0_compat; lra]). lra.
    - apply Rmult_le_reg_r with (2 * INR N); [lra|].
      replace (PI / (2 * INR N) * (2 * INR N)) with PI by (field; lra).
      replace ((PI / 2 - INR k * (PI / INR N)) * (2 * INR N)) with (PI * (INR N - 2 * INR k)) by (field; lra).
      assert (2 * INR k + 1 <= INR N).
      { replace (2 * INR k + 1) with (INR (2 * k + 1)) by (rewrite plus_INR, mult_INR; simpl; ring). apply le_INR. lia. }
      nra. }
  destruct (Nat.lt_total (2 * l) N) as [L|[L|L]].
  - right. rewrite Rabs_right; [apply Main; lia|]. apply Rle_ge. apply Rle_trans with (/ (2 * INR N)); [|apply Main; lia].
    apply Rlt_le, Rinv_0_lt_compat. lra.
  - left. pose proof (nodes_symmetric N l ltac:(lia) ltac:(lia)) as E. replace (N - l)%nat with l in E by lia. lra.
  - right. assert (E := nodes_symmetric N l ltac:(lia) ltac:(lia)). rewrite <- Rabs_Ropp, <- E.
    pose proof (Main (N - l)%nat ltac:(lia) ltac:(lia)). pose proof (Rle_abs (cheb_nodes N (N - l))). lra.
Qed.

Lemma diag_zero_or_large : forall N l, (1 <= N)%nat -> (l <= N)%nat -> cheb_D N l l = 0 \/ / (4 * INR N) <= Rabs (cheb_D N l l).
Proof.
  intros N l HN Hl. assert (HR : 1 <= INR N) by (change 1 with (INR 1); apply le_INR; lia).
  assert (H4 : / (4 * INR N) <= / 2) by (apply Rinv_le_contravar; lra).
  pose proof (diag_first N HN) as HF.
  destruct (Nat.eq_dec l 0) as [->|H0]; [right; rewrite Rabs_right; lra|].
  destruct (Nat.eq_dec l N) as [->|H1].
  - right. pose proof (D_mirror N 0 0 HN ltac:(lia) ltac:(lia)) as E. rewrite Nat.sub_0_r in E. rewrite E, Rabs_Ropp, Rabs_right; lra.
  - rewrite diag_interior by lia. pose proof (node_interior N l ltac:(lia)) as Hi.
    destruct (node_zero_or_large N l ltac:(lia)) as [E|E].
    + left. rewrite E. unfold Rdiv. ring.
    + right. set (x := cheb_nodes N l) in *. assert (HX : 0 < 1 - x ^ 2 <= 1) by (simpl; split; nra).
      unfold Rdiv. rewrite Rabs_mult, Rabs_Ropp. rewrite (Rabs_right (/ _)) by (apply Rle_ge, Rlt_le, Rinv_0_lt_compat; lra).
      assert (I : / 2 <= / (2 * (1 - x ^ 2))) by (apply Rinv_le_contravar; lra).
      replace (/ (4 * INR N)) with (/ (2 * INR N) * / 2) by (field; lra).
      apply Rmult_le_compat; auto; [apply Rlt_le, Rinv_0_lt_compat; lra|lra].
Qed.
