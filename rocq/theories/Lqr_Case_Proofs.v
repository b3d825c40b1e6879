(** Proofs about particular cases: the Lyapunov solver on a complex pair and in large dimension, descent of the Newton
    residual, systems with one state. *)
Require Import Arith Bool List Reals Lra Lia FunctionalExtensionality.
From Verif Require Import Scal RSum PolyR Lqr_Model Lqr_Spec Lqr_Proofs Lqr_Care_Proofs Lqr_Gain_Proofs.
Import ListNotations.
Local Open Scope R_scope.

(** * Lyapunov solver *)
Lemma eigen_noalias_small m U X : (m <= 6)%nat -> eigen_noalias m U X = mmul m (mmul m U X) (mtr U).
Proof. intro H. unfold eigen_noalias. replace (3 * m <? 20)%nat with true; auto. symmetry. apply Nat.ltb_lt. lia. Qed.
Lemma eigen_noalias_large m U X : (7 <= m)%nat -> eigen_noalias m U X = mzero.
Proof.
  intro H. unfold eigen_noalias. replace (3 * m <? 20)%nat with false; [|symmetry; apply Nat.ltb_ge; lia].
  rewrite mmul_zero_r, mmul_zero_l. reflexivity.
Qed.
Lemma orthogonal_cancel n U X Y : orthogonal n U ->
  meq n n (mmul n (mmul n U X) (mtr U)) Y -> meq n n X (mmul n (mmul n (mtr U) Y) U).
Proof.
  intros [HO HO'] H. apply meq_sym.
  apply meq_trans with (mmul n (mmul n (mtr U) (mmul n (mmul n U X) (mtr U))) U).
  { apply mmul_ext; [|apply meq_refl]. apply mmul_ext; [apply meq_refl|]. apply meq_sym; auto. }
  rewrite <- !mmul_assoc. rewrite !(mmul_assoc n n (mmul n (mmul n (mtr U) U) X)).
  apply meq_trans with (mmul n (mmul n meye X) meye).
  - apply mmul_ext; [|exact HO']. apply mmul_ext; [exact HO'|apply meq_refl].
  - eapply meq_trans; [apply meye_r|apply meye_l].
Qed.
(** the result is a solution exactly when every entry below the diagonal of T meets a zero column *)
Lemma lyapunov_iff ext m A Q : noalias_ok ext m -> lu_ok ext m -> schur_ok ext m A ->
  let T := fst (schur ext m A) in let U := snd (schur ext m A) in
  (forall c, (c < m)%nat -> injective m (madd T (mscal (T c c) meye))) ->
  let Y := lyap_cols ext T (mmul m (mmul m (mtr U) Q) U) m m in
  lyapunov_solution m A Q (lyapunov ext m A Q) <-> (forall r c, (r < m)%nat -> (S c < m)%nat -> T (S c) c * Y r c = 0).
Proof.
  intros Hn Hl (HS & Hq & _) T U Hi Y.
  pose proof (lyapunov_residual ext m A Q Hn HS) as HR. cbv zeta in HR. fold T U in HR. fold Y in HR.
  pose proof (back_residual ext T (mmul m (mmul m (mtr U) Q) U) m Hl Hq Hi) as HB. cbv zeta in HB. fold Y in HB.
  assert (orthogonal m U) as HO by (destruct HS; auto).
  unfold lyapunov_solution. split.
  - intros H r c Hr Hc.
    assert (meq m m (mmul m (mmul m U (madd (mmul m T Y) (mmul m Y (mtr T)))) (mtr U)) Q) as H1 by (eapply meq_trans; [apply meq_sym; exact HR|exact H]).
    apply orthogonal_cancel in H1; auto. specialize (H1 r (S c) Hr Hc). rewrite (HB r (S c) Hr Hc) in H1. lra.
  - intro H. eapply meq_trans; [exact HR|]. apply meq_trans with (mmul m (mmul m U (mmul m (mmul m (mtr U) Q) U)) (mtr U)); [|apply sandwich_back; auto].
    apply mmul_ext; [|apply meq_refl]. apply mmul_ext; [apply meq_refl|].
    intros r c Hr Hc. rewrite HB by auto. destruct c as [|c]; [lra|]. rewrite H by auto. lra.
Qed.

(** the 2 by 2 matrix with eigenvalues 1 + i and 1 - i *)
Definition spiral : mx := fun i j => match i, j with 0%nat, 1%nat => -1 | _, _ => 1 end.
Lemma rsum_2 f : rsum 2 f = f 0%nat + f 1%nat.
Proof. rewrite !rsum_S, rsum_0. lra. Qed.
Lemma spiral_regular : lyapunov_regular 2 spiral.
Proof.
  intros Y H. pose proof (H 0%nat 0%nat) as H00. pose proof (H 0%nat 1%nat) as H01. pose proof (H 1%nat 0%nat) as H10. pose proof (H 1%nat 1%nat) as H11.
  unfold madd, mtr, mzero in *. rewrite !mmul_rsum, !rsum_2 in H00, H01, H10, H11. cbn [spiral] in H00, H01, H10, H11.
  specialize (H00 ltac:(lia) ltac:(lia)). specialize (H01 ltac:(lia) ltac:(lia)). specialize (H10 ltac:(lia) ltac:(lia)). specialize (H11 ltac:(lia) ltac:(lia)).
  intros i j Hi Hj. assert (i = 0 \/ i = 1)%nat as [-> | ->] by lia; assert (j = 0 \/ j = 1)%nat as [-> | ->] by lia; unfold mzero; lra.
Qed.
Lemma spiral_schur T U : schur_form 2 spiral T U ->
  exists d, d * d = 1 /\ T 0%nat 0%nat = 1 /\ T 1%nat 1%nat = 1 /\ T 1%nat 0%nat = d /\ T 0%nat 1%nat = - d.
Proof.
  intros [HO HA]. pose proof HO as [_ HU].
  assert (meq 2 2 T (mmul 2 (mmul 2 (mtr U) spiral) U)) as HT by (apply orthogonal_cancel; auto; apply meq_sym; auto).
  set (p := U 0%nat 0%nat). set (q := U 0%nat 1%nat). set (r := U 1%nat 0%nat). set (s := U 1%nat 1%nat).
  pose proof (HU 0%nat 0%nat ltac:(lia) ltac:(lia)) as H00. pose proof (HU 0%nat 1%nat ltac:(lia) ltac:(lia)) as H01. pose proof (HU 1%nat 1%nat ltac:(lia) ltac:(lia)) as H11.
  pose proof (HT 0%nat 0%nat ltac:(lia) ltac:(lia)) as T00. pose proof (HT 0%nat 1%nat ltac:(lia) ltac:(lia)) as T01.
  pose proof (HT 1%nat 0%nat ltac:(lia) ltac:(lia)) as T10. pose proof (HT 1%nat 1%nat ltac:(lia) ltac:(lia)) as T11.
  rewrite !mmul_rsum, !rsum_2 in *. unfold mtr, meye in *. cbn [Nat.eqb] in *.
  rewrite !mmul_rsum, !rsum_2 in *. cbn [spiral] in *. fold p q r s in H00, H01, H11, T00, T01, T10, T11.
  exists (p * s - q * r). repeat split.
  - replace ((p * s - q * r) * (p * s - q * r)) with ((p * p + r * r) * (q * q + s * s) - (p * q + r * s) * (p * q + r * s)) by ring.
    rewrite H00, H01, H11. ring.
  - rewrite T00. lra.
  - rewrite T11. lra.
  - rewrite T10. lra.
  - rewrite T01. lra.
Qed.
Lemma spiral_not_solved ext : noalias_ok ext 2 -> lu_ok ext 2 -> schur_ok ext 2 spiral ->
  ~ lyapunov_solution 2 spiral meye (lyapunov ext 2 spiral meye).
Proof.
  intros Hn Hl HS H.
  pose proof HS as (HF & _ & _).
  set (T := fst (schur ext 2 spiral)) in *. set (U := snd (schur ext 2 spiral)) in *.
  destruct (spiral_schur T U HF) as (d & Hd & T00 & T11 & T10 & T01).
  assert (forall c, (c < 2)%nat -> injective 2 (madd T (mscal (T c c) meye))) as Hi.
  { intros c Hc x Hx.
    assert (T c c = 1) as Ec by (assert (c = 0 \/ c = 1)%nat as [-> | ->] by lia; auto). rewrite Ec in Hx.
    pose proof (Hx 0%nat ltac:(lia)) as H0. pose proof (Hx 1%nat ltac:(lia)) as H1.
    change (rsum 2 (fun j => madd T (mscal 1 meye) 0%nat j * x j) = 0) in H0.
    change (rsum 2 (fun j => madd T (mscal 1 meye) 1%nat j * x j) = 0) in H1.
    rewrite rsum_2 in H0, H1. unfold madd, mscal, meye in H0, H1. cbn [Nat.eqb] in H0, H1. rewrite T00, T01 in H0. rewrite T10, T11 in H1.
    assert (x 1%nat = 2 * (d * x 0%nat)) as E1.
    { assert (d * (2 * x 0%nat - d * x 1%nat) = 0) as E by (replace (2 * x 0%nat - d * x 1%nat) with 0 by lra; ring).
      replace (d * (2 * x 0%nat - d * x 1%nat)) with (2 * (d * x 0%nat) - d * d * x 1%nat) in E by ring. rewrite Hd in E. lra. }
    assert (d * x 0%nat = 0) as E2 by lra.
    assert (x 0%nat = 0) as E0 by (replace (x 0%nat) with (d * (d * x 0%nat)) by (replace (d * (d * x 0%nat)) with (d * d * x 0%nat) by ring; rewrite Hd; ring); rewrite E2; ring).
    intros i Hi. assert (i = 0 \/ i = 1)%nat as [-> | ->] by lia; auto. rewrite E1, E0. ring. }
  apply (proj1 (lyapunov_iff ext 2 spiral meye Hn Hl HS Hi)) with (c := 0%nat) (r := 0%nat) in H as Z0; [|lia|lia].
  apply (proj1 (lyapunov_iff ext 2 spiral meye Hn Hl HS Hi)) with (c := 0%nat) (r := 1%nat) in H as Z1; [|lia|lia].
  fold T U in Z0, Z1. set (Q1 := mmul 2 (mmul 2 (mtr U) meye) U) in *. set (Y := lyap_cols ext T Q1 2 2) in *.
  assert (d <> 0) as Hd0 by (intro E; rewrite E in Hd; lra).
  rewrite T10 in Z0, Z1. apply Rmult_integral in Z0 as [|Z0]; [tauto|]. apply Rmult_integral in Z1 as [|Z1]; [tauto|].
  pose proof (col_equation ext T Q1 2 Hl 0 0 ltac:(lia) ltac:(lia) (Hi 0%nat ltac:(lia))) as C00.
  pose proof (col_equation ext T Q1 2 Hl 0 1 ltac:(lia) ltac:(lia) (Hi 0%nat ltac:(lia))) as C10.
  pose proof (col_equation ext T Q1 2 Hl 1 0 ltac:(lia) ltac:(lia) (Hi 1%nat ltac:(lia))) as C01.
  pose proof (col_equation ext T Q1 2 Hl 1 1 ltac:(lia) ltac:(lia) (Hi 1%nat ltac:(lia))) as C11.
  cbv zeta beta in C00, C10, C01, C11. change (lyap_cols ext T Q1 2 2) with Y in C00, C10, C01, C11.
  assert (meq 2 2 Q1 meye) as EQ.
  { unfold Q1. destruct HF as [[_ HU] _]. eapply meq_trans; [|exact HU]. apply mmul_ext; [apply meye_r|apply meq_refl]. }
  rewrite (EQ 0%nat 0%nat) in C00 by lia. rewrite (EQ 1%nat 0%nat) in C10 by lia. rewrite (EQ 0%nat 1%nat) in C01 by lia. rewrite (EQ 1%nat 1%nat) in C11 by lia.
  unfold meye in C00, C10, C01, C11. cbn [Nat.eqb Nat.sub Nat.add] in C00, C10, C01, C11.
  rewrite rsum_2, rsum_S, rsum_0 in C00, C10. rewrite rsum_2, rsum_0 in C01, C11. cbn [Nat.add] in C00, C10.
  rewrite T00, T01, Z0, Z1 in C00. rewrite T10, T11, T00, T01, Z0, Z1 in C10. rewrite T00, T01, T11 in C01. rewrite T10, T11 in C11.
  (* column 0 vanishes: column 1 is (- d, 0), which does not solve its own equation *)
  assert (Y 1%nat 1%nat = 0) as Y11.
  { replace (Y 1%nat 1%nat) with (d * (d * Y 1%nat 1%nat)) by (replace (d * (d * Y 1%nat 1%nat)) with (d * d * Y 1%nat 1%nat) by ring; rewrite Hd; ring).
    replace (d * Y 1%nat 1%nat) with 0 by lra. ring. }
  assert (d * Y 0%nat 1%nat = -1) as Y01 by lra.
  rewrite Y11 in C01. assert (Y 0%nat 1%nat = 0) as E by lra. rewrite E in Y01. lra.
Qed.

(** * Descent *)
Lemma convex_fro n P V s : 0 <= s <= 1 ->
  fro2 n (madd (mscal (1 - s) P) (mscal (- (s * s)) V)) <= (1 - s) * fro2 n P + s * (s * s * fro2 n V).
Proof.
  intro Hs. unfold fro2. rewrite <- !rsum_scal, <- rsum_plus. apply rsum_le. intros i _. rewrite <- !rsum_scal, <- rsum_plus. apply rsum_le. intros j _.
  unfold madd, mscal. set (p := P i j). set (v := V i j).
  assert (0 <= (1 - s) * s * ((p + s * v) * (p + s * v))) as H.
  { apply Rmult_le_pos; [apply Rmult_le_pos; lra|apply Rle_0_sqr]. }
  assert ((1 - s) * (p * p) + s * (s * s * (v * v)) - ((1 - s) * p + - (s * s) * v) * ((1 - s) * p + - (s * s) * v) = (1 - s) * s * ((p + s * v) * (p + s * v))) as E by ring.
  lra.
Qed.

(** * One state *)
Section One.
Variable ext : extern.
Hypothesis HK : kernels_ok ext 1.
Lemma mmul_1 A B i j : mmul 1 A B i j = A i 0%nat * B 0%nat j.
Proof. rewrite mmul_rsum, rsum_S, rsum_0. ring. Qed.
Lemma meq_1 A B : A 0%nat 0%nat = B 0%nat 0%nat -> meq 1 1 A B.
Proof. intros H i j Hi Hj. assert (i = 0%nat) as -> by lia. assert (j = 0%nat) as -> by lia. exact H. Qed.
Lemma spectrum_1 A : real_spectrum 1 A.
Proof.
  exists A, meye. split; [split; [split|]|].
  - apply meq_1. rewrite mmul_1. unfold meye, mtr. cbn. ring.
  - apply meq_1. rewrite mmul_1. unfold meye, mtr. cbn. ring.
  - apply meq_1. rewrite !mmul_1. unfold meye, mtr. cbn. ring.
  - intros i j Hj Hi. lia.
Qed.
Lemma regular_1 A : A 0%nat 0%nat <> 0 -> lyapunov_regular 1 A.
Proof.
  intros H Y HY. apply meq_1. specialize (HY 0%nat 0%nat ltac:(lia) ltac:(lia)). unfold madd, mzero in HY. rewrite !mmul_1 in HY. unfold mtr in HY.
  unfold mzero. assert (2 * A 0%nat 0%nat * Y 0%nat 0%nat = 0) as E by lra. apply Rmult_integral in E as [E|E]; auto. lra.
Qed.
Lemma lyapunov_1 A Q : A 0%nat 0%nat <> 0 -> lyapunov ext 1 A Q 0%nat 0%nat = Q 0%nat 0%nat / (2 * A 0%nat 0%nat).
Proof.
  intro H. destruct HK as (HS & HL & _ & HN).
  pose proof (lyapunov_solves ext 1 A Q HN HL (HS A) (spectrum_1 A) (regular_1 A H)) as E.
  specialize (E 0%nat 0%nat ltac:(lia) ltac:(lia)). unfold madd in E. rewrite !mmul_1 in E. unfold mtr in E.
  apply Rmult_eq_reg_l with (2 * A 0%nat 0%nat); [|lra]. replace (2 * A 0%nat 0%nat * (Q 0%nat 0%nat / (2 * A 0%nat 0%nat))) with (Q 0%nat 0%nat) by (field; auto). lra.
Qed.
Lemma schur_1 A : let T := fst (schur ext 1 A) in let U := snd (schur ext 1 A) in
  U 0%nat 0%nat * U 0%nat 0%nat = 1 /\ T 0%nat 0%nat = A 0%nat 0%nat.
Proof.
  destruct HK as (HS & _). destruct (HS A) as ([[HO _] HA] & _). intros T U. fold T U in HO, HA.
  specialize (HO 0%nat 0%nat ltac:(lia) ltac:(lia)). specialize (HA 0%nat 0%nat ltac:(lia) ltac:(lia)).
  rewrite !mmul_1 in *. unfold mtr, meye in *. cbn [Nat.eqb] in HO. split; auto.
  rewrite HA. replace (U 0%nat 0%nat * T 0%nat 0%nat * U 0%nat 0%nat) with (U 0%nat 0%nat * U 0%nat 0%nat * T 0%nat 0%nat) by ring. rewrite HO. ring.
Qed.
Lemma pinv_1 A : pinv ext 1 A 0%nat 0%nat = if Rlt_dec (1 / 1000000) (Rabs (A 0%nat 0%nat)) then 1 / A 0%nat 0%nat else 0.
Proof.
  destruct HK as (_ & _ & HV & _). specialize (HV A). unfold svd_ok, pinv in *. destruct (svd ext 1 A) as [[U s] V]. cbn [fst snd] in HV.
  destruct HV as ([HU _] & [HW _] & Hs & HA).
  specialize (HU 0%nat 0%nat ltac:(lia) ltac:(lia)). specialize (HW 0%nat 0%nat ltac:(lia) ltac:(lia)). specialize (HA 0%nat 0%nat ltac:(lia) ltac:(lia)). specialize (Hs 0%nat ltac:(lia)).
  rewrite mmul_1 in *. unfold mtr, meye in *. cbn [Nat.eqb] in *. rewrite HA.
  set (u := U 0%nat 0%nat) in *. set (v := V 0%nat 0%nat) in *. set (a := s 0%nat) in *.
  assert (Rabs (u * a * v) = a) as ->.
  { rewrite !Rabs_mult, (Rabs_right a) by lra.
    assert (Rabs u = 1) as Eu by (apply Rsqr_inj; [apply Rabs_pos|lra|rewrite <- Rsqr_abs; unfold Rsqr; lra]).
    assert (Rabs v = 1) as Ev by (apply Rsqr_inj; [apply Rabs_pos|lra|rewrite <- Rsqr_abs; unfold Rsqr; lra]).
    rewrite Eu, Ev. ring. }
  destruct (Rlt_dec (1 / 1000000) a) as [H|H]; [|ring].
  assert (a <> 0) by lra. assert (u <> 0) by (intro E; rewrite E in HU; lra). assert (v <> 0) by (intro E; rewrite E in HW; lra).
  apply Rmult_eq_reg_l with (u * a * v).
  2:{ intro E. apply Rmult_integral in E as [E|E]; [|tauto]. apply Rmult_integral in E as [E|E]; tauto. }
  replace (u * a * v * (v * (1 / a) * u)) with ((u * u) * (v * v)) by (field; auto). rewrite HU, HW. field. auto.
Qed.
Lemma init_1 shift A B b : (forall TA, TA 0%nat 0%nat = A 0%nat 0%nat -> shift 1%nat TA = b) ->
  A 0%nat 0%nat + b <> 0 ->
  init_newton_care ext shift 1 A B 0%nat 0%nat =
    if Rlt_dec (1 / 1000000) (Rabs (B 0%nat 0%nat * B 0%nat 0%nat / (A 0%nat 0%nat + b))) then (A 0%nat 0%nat + b) / B 0%nat 0%nat else 0.
Proof.
  intros Hb Hn.
  assert (init_gain ext shift 1 A B 0%nat 0%nat =
    if Rlt_dec (1 / 1000000) (Rabs (B 0%nat 0%nat * B 0%nat 0%nat / (A 0%nat 0%nat + b))) then (A 0%nat 0%nat + b) / B 0%nat 0%nat else 0) as E.
  { unfold init_gain. destruct (schur_1 A) as [HU HT]. destruct (schur ext 1 A) as [T U]. cbn [fst snd] in HU, HT.
    rewrite (Hb T HT). set (TD := mmul 1 (mtr U) B).
    assert (TD 0%nat 0%nat = U 0%nat 0%nat * B 0%nat 0%nat) as ED by (unfold TD; rewrite mmul_1; reflexivity).
    assert (madd T (mscal b meye) 0%nat 0%nat = A 0%nat 0%nat + b) as ET by (unfold madd, mscal, meye; cbn [Nat.eqb]; rewrite HT; ring).
    rewrite !mmul_1, pinv_1, lyapunov_1; [|rewrite ET; auto]. rewrite mmul_1, ET. unfold mtr, mscal. rewrite ED.
    set (u := U 0%nat 0%nat) in *. set (g := B 0%nat 0%nat). set (a := A 0%nat 0%nat) in *.
    replace (2 * (u * g) * (u * g) / (2 * (a + b))) with (u * u * (g * g / (a + b))) by (field; auto). rewrite HU, Rmult_1_l.
    destruct (Rlt_dec (1 / 1000000) (Rabs (g * g / (a + b)))) as [H|H]; [|ring].
    assert (g <> 0). { intro E. rewrite E in H. replace (0 * 0 / (a + b)) with 0 in H by (field; auto). rewrite Rabs_R0 in H. lra. }
    replace (u * g * (1 / (g * g / (a + b))) * u) with (u * u * ((a + b) / g)) by (field; auto). rewrite HU. ring. }
  unfold init_newton_care. cbv zeta. rewrite <- E. destruct (Rlt_dec (1 / 10 ^ 12) _) as [H|H]; auto. exfalso.
  assert (forall X, mnorm 1 (msub X (mtr X)) = 0) as E0.
  { intro X. rewrite mnorm_fro. unfold fro2. rewrite !rsum_S, !rsum_0. unfold msub, mtr. replace (0 + _) with 0 by ring. apply sqrt_0. }
  rewrite E0 in H.
  assert (0 < 1 / 10 ^ 12) by (apply Rmult_lt_0_compat; [lra|apply Rinv_0_lt_compat; apply pow_lt; lra]). lra.
Qed.
End One.

(** x(t) = exp((f - g k) t) is the closed loop and its cost up to t is feedback_cost (1 - exp(2 (f - g k) t)) *)
Lemma exp_derivative l t : derivable_pt_lim (fun t => exp (l * t)) t (l * exp (l * t)).
Proof.
  replace (l * exp (l * t)) with (exp (l * t) * l) by ring.
  apply (derivable_pt_lim_comp (fun t => l * t) exp t l (exp (l * t))); [|apply derivable_pt_lim_exp].
  cut (derivable_pt_lim (fun t => l * t) t (l * 1)); [rewrite Rmult_1_r; auto|].
  apply (derivable_pt_lim_scal (fun t => t) l). apply derivable_pt_lim_id.
Qed.
Lemma feedback_cost_accumulates f g q r m k t0 t1 : f < g * k ->
  let x := fun t (_ : nat) => exp ((f - g * k) * t) in let u := fun t (_ : nat) => - k * exp ((f - g * k) * t) in
  trajectory 1 1 (one f) (one g) x u t0 t1 /\
  accumulates (fun t => feedback_cost f g q r m k * (1 - exp (2 * (f - g * k) * t)))
    (fun t => q * x t 0%nat * x t 0%nat + 2 * m * x t 0%nat * u t 0%nat + r * u t 0%nat * u t 0%nat) t0 t1.
Proof.
  intros H x u. split.
  - intros t i _ _. unfold x, u.
    change (derivable_pt_lim (fun t => exp ((f - g * k) * t)) t (0 + f * exp ((f - g * k) * t) + (0 + g * (- k * exp ((f - g * k) * t))))).
    replace (0 + f * exp ((f - g * k) * t) + (0 + g * (- k * exp ((f - g * k) * t)))) with ((f - g * k) * exp ((f - g * k) * t)) by ring.
    apply exp_derivative.
  - intros t _. unfold x, u.
    replace (q * exp ((f - g * k) * t) * exp ((f - g * k) * t) + 2 * m * exp ((f - g * k) * t) * (- k * exp ((f - g * k) * t)) + r * (- k * exp ((f - g * k) * t)) * (- k * exp ((f - g * k) * t)))
      with ((q - 2 * m * k + r * k * k) * (exp ((f - g * k) * t) * exp ((f - g * k) * t))) by ring.
    rewrite <- exp_plus. replace ((f - g * k) * t + (f - g * k) * t) with (2 * (f - g * k) * t) by ring.
    replace ((q - 2 * m * k + r * k * k) * exp (2 * (f - g * k) * t)) with (feedback_cost f g q r m k * (0 - 2 * (f - g * k) * exp (2 * (f - g * k) * t))).
    2:{ unfold feedback_cost. field. lra. }
    apply (derivable_pt_lim_scal (fun t => 1 - exp (2 * (f - g * k) * t))).
    apply (derivable_pt_lim_minus (fun _ => 1) (fun t => exp (2 * (f - g * k) * t))); [apply derivable_pt_lim_const|apply exp_derivative].
Qed.

(** * Linear equations: the step length is 2 and the residual only changes its sign *)
Lemma zero_step ext n A C X : noalias_ok ext n -> lu_ok ext n -> schur_ok ext n (mtr A) -> real_spectrum n (mtr A) -> lyapunov_regular n (mtr A) ->
  symmetric n C -> symmetric n X ->
  let X' := newton_step ext n A mzero C X in
  symmetric n X' /\ fro2 n (riccati n A mzero C X') = fro2 n (riccati n A mzero C X).
Proof.
  intros Hn Hl HS Hr Hreg HC HX X'.
  assert (symmetric n mzero) as HB by (intros i j _ _; reflexivity).
  assert (msub A (mmul n mzero X) = A) as EA by (rewrite mmul_zero_l; apply mx_ext; intros; unfold msub, mzero; ring).
  assert (lyapunov_solution n (mtr (msub A (mmul n mzero X))) (mopp (riccati n A mzero C X)) (newton_dir ext n A mzero C X)) as HL.
  { unfold newton_dir. rewrite EA. apply lyapunov_solves; auto. }
  destruct (newton_step_facts ext n A mzero C X HB HC HX) as (HH & t & Ht & Et & Hq); [rewrite EA; auto|exact HL|].
  set (H := newton_dir ext n A mzero C X) in *. set (P := riccati n A mzero C X) in *.
  assert (mmul n (mmul n H mzero) H = mzero) as EV by (rewrite mmul_zero_r, mmul_zero_l; reflexivity).
  assert (fro2 n mzero = 0) as E0 by (unfold fro2; apply rsum_zero; intros; apply rsum_zero; intros; unfold mzero; ring).
  rewrite EV, E0 in Et. unfold line_search_care in Et. destruct (Req_EM_T 0 0) as [_|N]; [|lra].
  unfold X'. rewrite Ht, Et. split.
  - apply symmetric_add; auto. apply symmetric_scal; auto.
  - rewrite Hq, EV, E0, (rsum_zero n (fun i => rsum n (fun j => P i j * mzero i j))); [unfold quartic; ring|].
    intros; apply rsum_zero; intros; unfold mzero; ring.
Qed.
Lemma zero_loop ext n A C X kmax : noalias_ok ext n -> lu_ok ext n -> schur_ok ext n (mtr A) -> real_spectrum n (mtr A) -> lyapunov_regular n (mtr A) ->
  symmetric n C -> symmetric n X ->
  mnorm n (riccati n A mzero C (newton_ls_care ext kmax n A mzero C X)) = mnorm n (riccati n A mzero C X).
Proof.
  intros Hn Hl HS Hr Hreg HC HX. unfold newton_ls_care.
  destruct (newton_loop_iterate ext n A mzero C kmax None X) as (k & _ & -> & _). cbn [snd]. clear kmax.
  assert (symmetric n (newton_iterate ext n A mzero C X k) /\ fro2 n (riccati n A mzero C (newton_iterate ext n A mzero C X k)) = fro2 n (riccati n A mzero C X)) as [_ E].
  2:{ rewrite !mnorm_fro, E. reflexivity. }
  induction k as [|k [IHs IH]]; [split; auto|].
  change (newton_iterate ext n A mzero C X (S k)) with (newton_step ext n A mzero C (newton_iterate ext n A mzero C X k)).
  destruct (zero_step ext n A C (newton_iterate ext n A mzero C X k)) as [H1 H2]; auto. split; auto. rewrite H2; auto.
Qed.
