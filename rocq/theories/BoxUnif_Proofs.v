(** boxADMM on a family of QPs: one bound for the multipliers and the scales of the tolerances, one iteration budget
    (property C105). *)
Require Import Arith ZArith List Bool Lia Reals Lra.
From Verif Require Import Scal RSum RNorm Qp_Model Qp_Spec Qp_Proofs Admm_Model Admm_Spec Admm_SpecR Admm_ProofsR Admm_Conv
  BoxAdmm_Model BoxAdmm_ProofsR BoxAdmm_Props QpDist_Spec QpDist_Proofs.
Local Open Scope R_scope.

Lemma sq_bound : forall w t V, 0 < w -> w * (t * t) <= V -> Rabs t <= sqrt (V / w).
Proof.
  intros w t V Hw H. rewrite <- (sqrt_Rsqr_abs t). apply sqrt_le_1_alt. unfold Rsqr. apply (Rmult_le_reg_l w); [exact Hw|].
  replace (w * (V / w)) with V by (field; lra). exact H.
Qed.
Lemma wsq_term : forall n w f i, (forall k, (k < n)%nat -> 0 <= w k) -> (i < n)%nat -> w i * (f i * f i) <= wsq n w f.
Proof.
  intros n w f i H Hi. unfold wsq. apply (rsum_nonneg_term n (fun k => w k * (f k * f k)) i); [|exact Hi].
  intros k Hk. apply Rmult_le_pos; [auto|apply Rle_0_sqr].
Qed.
Lemma wsq_up : forall n w f a b, 0 <= a -> (forall k, (k < n)%nat -> 0 <= w k <= a) -> (forall k, (k < n)%nat -> Rabs (f k) <= b) ->
  wsq n w f <= INR n * (a * (b * b)).
Proof.
  intros n w f a b Ha Hw Hf. unfold wsq. rewrite <- rsum_const. apply rsum_le. intros k Hk. destruct (Hw k Hk). pose proof (Hf k Hk) as F.
  assert (E : f k * f k = Rabs (f k) * Rabs (f k)) by (rewrite <- Rabs_mult; symmetry; apply Rabs_pos_eq; apply Rle_0_sqr). rewrite E. pose proof (Rabs_pos (f k)).
  apply Rmult_le_compat; try assumption; [apply Rmult_le_pos; assumption|apply Rmult_le_compat; assumption].
Qed.

Lemma lin_bound : forall n (a x : nat -> R) B, (forall j, (j < n)%nat -> Rabs (x j) <= B) ->
  Rabs (rsum n (fun j => a j * x j)) <= rsum n (fun j => Rabs (a j)) * B.
Proof.
  intros n a x B H. eapply Rle_trans; [apply rsum_abs|]. rewrite (Rmult_comm _ B), <- rsum_scal. apply rsum_le. intros j Hj.
  rewrite Rabs_mult, (Rmult_comm B). apply Rmult_le_compat_l; [apply Rabs_pos|auto].
Qed.

(** total size of the entries *)
Definition mass (k n : nat) (M : mat R) : R := rsum k (fun i => rsum n (fun j => Rabs (M i j))).
Lemma mass_nonneg : forall k n M, 0 <= mass k n M.
Proof. intros. apply rsum_nonneg. intros. apply rsum_nonneg. intros. apply Rabs_pos. Qed.
Lemma mass_row : forall k n M i, (i < k)%nat -> rsum n (fun j => Rabs (M i j)) <= mass k n M.
Proof. intros k n M i Hi. apply (rsum_nonneg_term k (fun i => rsum n (fun j => Rabs (M i j))) i); [|exact Hi]. intros. apply rsum_nonneg. intros. apply Rabs_pos. Qed.
Lemma mass_col : forall k n M j, (j < n)%nat -> rsum k (fun i => Rabs (M i j)) <= mass k n M.
Proof.
  intros k n M j Hj. unfold mass. apply rsum_le. intros i Hi. apply (rsum_nonneg_term n (fun j => Rabs (M i j)) j); [|exact Hj]. intros. apply Rabs_pos.
Qed.

(** the family: sizes, size of the optimum and of the data *)
Definition family (n m : nat) (B Bl am cm hm hb : R) (d : qp_data R) (xq yq : vec R) : Prop :=
  qn d = n /\ qm d = m /\ symmetric n (qH d) /\ psd n (qH d) /\ kkt_pair d xq yq /\
  (forall j, (j < n)%nat -> Rabs (xq j) <= B) /\ (forall i, (i < m + n)%nat -> Rabs (yq i) <= Bl) /\
  mass m n (qA d) <= am /\ col_mass d = cm /\ mass n n (qH d) <= hm /\ (forall j, (j < n)%nat -> Rabs (qh d j) <= hb).

Lemma uniform : forall n m B Bl am cm hm hb sg r0, 0 <= B -> 0 <= Bl -> 0 <= am -> 0 <= cm -> 0 <= hm -> 0 <= hb -> 0 < sg -> 0 < r0 ->
  exists Y S, 0 <= Y /\ 0 <= S /\ forall ea, 0 < ea -> exists N : nat,
  forall lsolve full s d xq yq ob, exact_solver full lsolve -> sigma s = sg -> rho0 s = r0 -> alpha s = 1 -> adaptive_rho s = false ->
    eps_abs s = ea -> 0 <= eps_rel s -> check_termination s <> 0%Z -> (Z.abs (check_termination s) * Z.of_nat N <= max_iter s)%Z ->
    family n m B Bl am cm hm hb d xq yq -> box_reachable lsolve full n m ob ->
    exists o', box_solve_cold lsolve full s d ob = Some o' /\ b_status o' = SOLVED /\
      rnorm1 (m + n) (fun i => b_y o' i - yq i) <= Y /\
      let e := ea + eps_rel s * S in certificate d (b_x o') (b_y o') (b_z o') (b_q o') e e e.
Proof.
  intros n m B Bl am cm hm hb sg r0 HB HBl Ham Hcm Hhm Hhb Hsg Hr0.
  set (rl := Rmin (RHO_MIN : R) r0). set (rh := Rmax (RHO_MIN : R) (1000 * r0)). pose proof RHO_MIN_pos as HRM.
  assert (Hrl : 0 < rl) by (unfold rl; apply Rmin_glb_lt; assumption).
  assert (Hrh : 0 < rh) by (unfold rh; eapply Rlt_le_trans; [exact HRM|apply Rmax_l]).
  set (K := (1 + am) * B). assert (HK0 : 0 <= K) by (apply Rmult_le_pos; lra).
  set (V := INR n * (sg * (B * B)) + INR (m + n) * (rh * (K * K)) + INR (m + n) * (/ rl * (Bl * Bl))).
  assert (Pn : forall k, 0 <= INR k) by (intro; apply pos_INR).
  assert (HV : 0 <= V).
  { unfold V. repeat apply Rplus_le_le_0_compat; (apply Rmult_le_pos; [apply Pn|]); (apply Rmult_le_pos; [|apply Rle_0_sqr]); try lra. apply Rlt_le, Rinv_0_lt_compat, Hrl. }
  set (Xb := B + sqrt (V / sg)). set (Zb := K + sqrt (V / rl)). set (Yb := Bl + sqrt (V / / rh)).
  assert (HX : 0 <= Xb) by (unfold Xb; pose proof (sqrt_pos (V / sg)); lra).
  assert (HZ : 0 <= Zb) by (unfold Zb; pose proof (sqrt_pos (V / rl)); lra).
  assert (HY : 0 <= Yb) by (unfold Yb; pose proof (sqrt_pos (V / / rh)); lra).
  exists (INR (m + n) * sqrt (V / / rh)), (am * Xb + Zb + Xb + hm * Xb + am * Yb + hb + Yb).
  split; [apply Rmult_le_pos; [apply Pn|apply sqrt_pos]|].
  assert (HaX : 0 <= am * Xb) by (apply Rmult_le_pos; assumption). assert (HhX : 0 <= hm * Xb) by (apply Rmult_le_pos; assumption). assert (HaY : 0 <= am * Yb) by (apply Rmult_le_pos; assumption).
  split; [lra|]. set (S := am * Xb + Zb + Xb + hm * Xb + am * Yb + hb + Yb).
  intros ea Hea.
  set (th := Rmin (rl * (ea / 2 * (ea / 2))) (ea / 2 / (1 + cm) * (ea / 2 / (1 + cm)) / Rmax sg rh)).
  assert (Hth : 0 < th).
  { unfold th. apply Rmin_glb_lt; [apply Rmult_lt_0_compat; [exact Hrl|nra]|].
    assert (0 < ea / 2 / (1 + cm)) by (apply Rdiv_lt_0_compat; lra). apply Rdiv_lt_0_compat; [nra|]. eapply Rlt_le_trans; [exact Hsg|apply Rmax_l]. }
  destruct (archimed_cor1 (th / (V + 1))) as (N0 & HN0 & HN1); [apply Rdiv_lt_0_compat; lra|].
  assert (HN : V < INR N0 * th).
  { assert (0 < INR N0) by (apply lt_0_INR; exact HN1).
    apply (Rmult_lt_compat_l (INR N0 * (V + 1))) in HN0; [|apply Rmult_lt_0_compat; lra].
    replace (INR N0 * (V + 1) * / INR N0) with (V + 1) in HN0 by (field; lra).
    replace (INR N0 * (V + 1) * (th / (V + 1))) with (INR N0 * th) in HN0 by (field; lra). lra. }
  exists (Datatypes.S N0). intros lsolve full s d xq yq ob He Es Er Ea Ed Eea Hrel Hct Hmx (Hn & Hm & Hsym & Hpsd & HKK & Bx & By & BA & Bc & BH & Bh) Hreach. subst n m.
  assert (Hsg' : 0 < sigma s) by (rewrite Es; exact Hsg). assert (Hr0' : 0 < rho0 s) by (rewrite Er; exact Hr0).
  assert (Hea' : 0 < eps_abs s) by (rewrite Eea; exact Hea).
  assert (Range : forall i, rl <= rho_fix s d i <= rh).
  { intro i. unfold rl, rh. rewrite <- Er. apply rho_fix_range; auto. }
  assert (RowB : forall i x b, (i < qm d)%nat -> (forall j, (j < qn d)%nat -> Rabs (x j) <= b) -> 0 <= b -> Rabs (rmv (qn d) (qA d) x i) <= am * b).
  { intros i x b Hi Hx Hb. rewrite rmv_def. eapply Rle_trans; [apply (lin_bound (qn d) (qA d i) x b Hx)|]. apply Rmult_le_compat_r; [exact Hb|].
    eapply Rle_trans; [apply mass_row; exact Hi|exact BA]. }
  assert (Sx : forall i, (i < qm d + qn d)%nat -> Rabs (stackv d xq i) <= K).
  { intros i Hi. unfold stackv. destruct (Nat.ltb_spec i (qm d)).
    - eapply Rle_trans; [apply (RowB i xq B); assumption|]. unfold K. lra.
    - eapply Rle_trans; [apply Bx; lia|]. unfold K. assert (0 <= am * B) by (apply Rmult_le_pos; assumption). lra. }
  assert (D0 : dist2 s d (rho_fix s d) (fun _ => 0) (stackv d (fun _ => 0)) (fun _ => 0) xq (stackv d xq) yq <= V).
  { unfold dist2, V. apply Rplus_le_compat; [apply Rplus_le_compat|].
    - apply wsq_up; [lra|intros; rewrite Es; lra|]. intros j Hj. rewrite Rminus_0_l, Rabs_Ropp. auto.
    - apply wsq_up; [lra|intros k _; destruct (Range k); lra|]. intros i Hi.
      assert (Z : stackv d (fun _ => 0) i = 0) by (unfold stackv; destruct (Nat.ltb i (qm d)); [rewrite rmv_def; apply rsum_zero; intros; ring|reflexivity]).
      rewrite Z, Rminus_0_l, Rabs_Ropp. auto.
    - apply wsq_up; [apply Rlt_le, Rinv_0_lt_compat, Hrl| |].
      + intros k _. destruct (Range k). split; [apply Rlt_le, Rinv_0_lt_compat; lra|apply Rinv_le_contravar; lra].
      + intros i Hi. rewrite Rminus_0_l, Rabs_Ropp. auto. }
  assert (Eth : threshold (sigma s) (eps_abs s / 2) s d = th).
  { unfold threshold, th, rho_low, rho_high, rl, rh. rewrite Bc, Es, Er, Eea. reflexivity. }
  destruct (C51_box_solved lsolve full He s d (fun _ => 0) (fun _ => 0) ob xq yq Hreach Hsym Hpsd Hsg' Hr0' Ea Ed HKK Hea' Hrel Hct N0) as (o' & E & St & _).
  { rewrite Eth. lra. }
  { replace (Z.of_nat N0 + 1)%Z with (Z.of_nat (Datatypes.S N0)) by lia. exact Hmx. }
  exists o'. split; [exact E|]. split; [exact St|].
  pose proof (C51_box_result_near lsolve full He s d _ _ xq yq Hsym Hpsd Hsg' Hr0' Ea Ed HKK ob o' Hreach E) as D.
  set (zz := fun i => if Nat.ltb i (qm d) then b_z o' i else b_q o' (i - qm d)%nat) in *.
  assert (D1 := Rle_trans _ _ _ D D0). clear D D0. unfold dist2 in D1. rewrite Es in D1.
  assert (W1 : 0 <= wsq (qn d) (fun _ => sg) (fun j => b_x o' j - xq j)) by (apply rsum_nonneg; intros; apply Rmult_le_pos; [lra|apply Rle_0_sqr]).
  assert (W2 : 0 <= wsq (qm d + qn d) (rho_fix s d) (fun i => zz i - stackv d xq i)) by (apply rsum_nonneg; intros k _; apply Rmult_le_pos; [destruct (Range k); lra|apply Rle_0_sqr]).
  assert (W3 : 0 <= wsq (qm d + qn d) (fun i => / rho_fix s d i) (fun i => b_y o' i - yq i)).
  { apply rsum_nonneg; intros k _; apply Rmult_le_pos; [apply Rlt_le, Rinv_0_lt_compat; destruct (Range k); lra|apply Rle_0_sqr]. }
  assert (Tr : forall a b c, Rabs (a - b) <= c -> Rabs a <= Rabs b + c).
  { intros a b c Hc. replace a with (b + (a - b)) by ring. eapply Rle_trans; [apply Rabs_triang|]. lra. }
  assert (FX : forall j, (j < qn d)%nat -> Rabs (b_x o' j) <= Xb).
  { intros j Hj. eapply Rle_trans; [apply (Tr _ (xq j) (sqrt (V / sg)))|unfold Xb; specialize (Bx j Hj); lra].
    apply sq_bound; [exact Hsg|]. pose proof (wsq_term (qn d) (fun _ => sg) (fun j => b_x o' j - xq j) j ltac:(intros; lra) Hj) as T. cbv beta in T. lra. }
  assert (FZ : forall i, (i < qm d)%nat -> Rabs (b_z o' i) <= Zb).
  { intros i Hi. pose proof (Sx i ltac:(lia)) as Sxi. eapply Rle_trans; [apply (Tr _ (stackv d xq i) (sqrt (V / rl)))|unfold Zb; lra].
    apply sq_bound; [exact Hrl|]. pose proof (wsq_term (qm d + qn d) (rho_fix s d) (fun i => zz i - stackv d xq i) i ltac:(intros k _; destruct (Range k); lra) ltac:(lia)) as T. cbv beta in T.
    unfold zz at 1 2 in T. destruct (Nat.ltb_spec i (qm d)); [|lia]. set (u := b_z o' i - stackv d xq i) in *.
    assert (rl * (u * u) <= rho_fix s d i * (u * u)) by (apply Rmult_le_compat_r; [apply Rle_0_sqr|apply Range]). lra. }
  assert (FY : forall i, (i < qm d + qn d)%nat -> Rabs (b_y o' i - yq i) <= sqrt (V / / rh)).
  { intros i Hi. apply sq_bound; [apply Rinv_0_lt_compat, Hrh|].
    pose proof (wsq_term (qm d + qn d) (fun i => / rho_fix s d i) (fun i => b_y o' i - yq i) i ltac:(intros k _; apply Rlt_le, Rinv_0_lt_compat; destruct (Range k); lra) Hi) as T. cbv beta in T.
    set (u := b_y o' i - yq i) in *. destruct (Range i) as [Ra Rb].
    assert (/ rh * (u * u) <= / rho_fix s d i * (u * u)) by (apply Rmult_le_compat_r; [apply Rle_0_sqr|apply Rinv_le_contravar; lra]). lra. }
  assert (FY2 : forall i, (i < qm d + qn d)%nat -> Rabs (b_y o' i) <= Yb).
  { intros i Hi. eapply Rle_trans; [apply (Tr _ (yq i)); apply FY; exact Hi|]. unfold Yb. specialize (By i Hi). lra. }
  split.
  { rewrite rnorm1_def, <- rsum_const. apply rsum_le. exact FY. }
  destruct (C03_box_solved_certificate lsolve full s d _ _ ob o' (kkt_consistent d xq yq HKK) Hr0' E St) as (ex & ez & P1 & P2 & P3 & (Ca & Cx & Cd)).
  set (e := ea + eps_rel s * S).
  assert (Sp : box_prim_scale d (b_x o') (b_z o') <= S).
  { unfold box_prim_scale, S. repeat apply Rmax_lub; apply rnorminf_le; try lra; intros k Hk.
    - eapply Rle_trans; [apply (RowB k (b_x o') Xb Hk FX HX)|lra].
    - eapply Rle_trans; [apply FZ; exact Hk|lra].
    - eapply Rle_trans; [apply FX; exact Hk|lra]. }
  assert (Sd : qp_dual_scale d (b_x o') (b_y o') <= S).
  { unfold qp_dual_scale, S. repeat apply Rmax_lub; apply rnorminf_le; try lra; intros k Hk.
    - rewrite rmv_def. eapply Rle_trans; [apply (lin_bound (qn d) (qH d k) (b_x o') Xb FX)|].
      assert (rsum (qn d) (fun j => Rabs (qH d k j)) * Xb <= hm * Xb); [|lra]. apply Rmult_le_compat_r; [exact HX|]. eapply Rle_trans; [apply mass_row; exact Hk|exact BH].
    - eapply Rle_trans; [apply (lin_bound (qm d) (fun i => qA d i k) (b_y o') Yb); intros; apply FY2; lia|].
      assert (rsum (qm d) (fun i => Rabs (qA d i k)) * Yb <= am * Yb); [|lra]. apply Rmult_le_compat_r; [exact HY|]. eapply Rle_trans; [apply mass_col; exact Hk|exact BA].
    - eapply Rle_trans; [apply Bh; exact Hk|lra].
    - eapply Rle_trans; [apply FY2; lia|lra]. }
  rewrite Eea in P3, Cd.
  assert (Mp : eps_rel s * box_prim_scale d (b_x o') (b_z o') <= eps_rel s * S) by (apply Rmult_le_compat_l; assumption).
  assert (Md : eps_rel s * qp_dual_scale d (b_x o') (b_y o') <= eps_rel s * S) by (apply Rmult_le_compat_l; assumption).
  split; [|split].
  - intros i Hi. destruct (Ca i Hi) as (A1 & A2 & A3). split; [exact A1|]. split; [unfold e; lra|exact A3].
  - intros j Hj. destruct (Cx j Hj) as (A1 & A2 & A3). split; [exact A1|]. split; [unfold e; lra|exact A3].
  - intros j Hj. eapply Rle_trans; [apply Cd; exact Hj|]. unfold e. lra.
Qed.
