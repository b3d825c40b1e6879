(** Proofs about the regulator gain, the pseudo-inverse, the initial guess and the one-dimensional case. *)
Require Import Arith Bool List Reals Lra Lia FunctionalExtensionality.
From Verif Require Import Scal RSum PolyR Lqr_Model Lqr_Spec Lqr_Proofs Lqr_Care_Proofs.
Import ListNotations.
Local Open Scope R_scope.

(** * Pseudo-inverse *)
Lemma diag_mul n A s B i j : mmul n (fun i j => A i j * s j) B i j = rsum n (fun k => A i k * s k * B k j).
Proof. reflexivity. Qed.
Lemma pinv_inverse ext n A : svd_ok ext n A -> (forall i, (i < n)%nat -> 1 / 1000000 < snd (fst (svd ext n A)) i) ->
  inverse n A (pinv ext n A).
Proof.
  unfold svd_ok, pinv. destruct (svd ext n A) as [[U s] V]. cbn [fst snd]. intros (HU & HV & _ & HA) Hs.
  set (d := fun i => if Rlt_dec (1 / 1000000) (s i) then 1 / s i else 0).
  set (D := fun (e : nat -> R) => (fun i j => if (i =? j)%nat then e i else 0) : mx).
  assert (forall W e, meq n n (fun i j => W i j * e j) (mmul n W (D e))) as ED.
  { intros W e i j Hi Hj. rewrite mmul_rsum. unfold D.
    rewrite (rsum_ext n _ (fun k => if (k =? j)%nat then (fun k => W i k * e k) k else 0)).
    - rewrite rsum_delta by auto. reflexivity.
    - intros k _. destruct (k =? j)%nat; ring. }
  assert (forall e f, (forall i, (i < n)%nat -> e i * f i = 1) -> meq n n (mmul n (D e) (D f)) meye) as EI.
  { intros e f H i j Hi Hj. rewrite mmul_rsum. unfold D, meye.
    rewrite (rsum_ext n _ (fun k => if (k =? i)%nat then (fun k => if (i =? j)%nat then e k * f k else 0) k else 0)).
    - rewrite rsum_delta by auto. destruct (i =? j)%nat; [apply H; auto|reflexivity].
    - intros k _. rewrite (Nat.eqb_sym i k). destruct (Nat.eqb_spec k i) as [->|]; [|ring]. destruct (i =? j)%nat; ring. }
  assert (forall i, (i < n)%nat -> s i * d i = 1) as Hsd.
  { intros i Hi. unfold d. specialize (Hs i Hi). destruct (Rlt_dec (1 / 1000000) (s i)); [field; lra|lra]. }
  assert (forall P P' e f, orthogonal n P -> orthogonal n P' -> (forall i, (i < n)%nat -> e i * f i = 1) ->
     meq n n (mmul n (mmul n (mmul n P (D e)) (mtr P')) (mmul n (mmul n P' (D f)) (mtr P))) meye) as EE.
  { intros P P' e f [HP1 HP2] [HQ1 HQ2] He. rewrite !mmul_assoc. rewrite <- (mmul_assoc n n (mtr P') P').
    eapply meq_trans.
    { apply mmul_ext; [apply meq_refl|]. apply mmul_ext; [apply meq_refl|].
      eapply meq_trans; [apply mmul_ext; [exact HQ2|apply meq_refl]|]. apply meye_l. }
    rewrite <- (mmul_assoc n n (D e) (D f)). eapply meq_trans.
    { apply mmul_ext; [apply meq_refl|]. eapply meq_trans; [apply mmul_ext; [apply EI; exact He|apply meq_refl]|]. apply meye_l. }
    exact HP1. }
  assert (meq n n A (mmul n (mmul n U (D s)) (mtr V))) as HA2.
  { eapply meq_trans; [exact HA|]. apply mmul_ext; [apply ED|apply meq_refl]. }
  assert (meq n n (mmul n (fun i j => V i j * d j) (mtr U)) (mmul n (mmul n V (D d)) (mtr U))) as HB2.
  { apply mmul_ext; [apply ED|apply meq_refl]. }
  split.
  - eapply meq_trans; [apply mmul_ext; [exact HA2|exact HB2]|]. apply EE; auto.
  - eapply meq_trans; [apply mmul_ext; [exact HB2|exact HA2]|]. apply EE; auto. intros. rewrite Rmult_comm. auto.
Qed.

(** * The optimal gain *)
Lemma form_mmul n m M v w : form n m M v w = mmul m (mmul n (fun _ i => v i) M) (fun j _ => w j) 0%nat 0%nat.
Proof.
  unfold form. rewrite mmul_rsum. rewrite (rsum_swap n m). apply rsum_ext. intros j _. rewrite mmul_rsum, <- rsum_scal_r. reflexivity.
Qed.
Lemma form_ext n m M M' v v' w w' : meq n m M M' -> (forall i, (i < n)%nat -> v i = v' i) -> (forall i, (i < m)%nat -> w i = w' i) ->
  form n m M v w = form n m M' v' w'.
Proof.
  intros HM Hv Hw. unfold form. apply rsum_ext. intros i Hi. apply rsum_ext. intros j Hj. rewrite HM, Hv, Hw by auto. reflexivity.
Qed.
Lemma form_tr n m M v w : form n m M v w = form m n (mtr M) w v.
Proof. unfold form. rewrite (rsum_swap n m). apply rsum_ext. intros. apply rsum_ext. intros. unfold mtr. ring. Qed.
Lemma form_mul n k m P M v w : form n m (mmul k P M) v w = form n k P v (rmv m M w).
Proof.
  unfold form. apply rsum_ext. intros i _.
  rewrite (rsum_ext k (fun l => v i * P i l * rmv m M w l) (fun l => rsum m (fun j => v i * P i l * M l j * w j))).
  2:{ intros l _. change (rmv m M w l) with (rsum m (fun j => M l j * w j)). rewrite <- rsum_scal. apply rsum_ext. intros. ring. }
  rewrite (rsum_swap k m). apply rsum_ext. intros j _. rewrite mmul_rsum.
  rewrite <- rsum_scal, <- rsum_scal_r. apply rsum_ext. intros. ring.
Qed.
Lemma form_add_m n m M M' v w : form n m (madd M M') v w = form n m M v w + form n m M' v w.
Proof. unfold form. rewrite <- rsum_plus. apply rsum_ext. intros. rewrite <- rsum_plus. apply rsum_ext. intros. unfold madd. ring. Qed.
Lemma form_sub_m n m M M' v w : form n m (msub M M') v w = form n m M v w - form n m M' v w.
Proof. unfold form. rewrite <- rsum_minus. apply rsum_ext. intros. rewrite <- rsum_minus. apply rsum_ext. intros. unfold msub. ring. Qed.
Lemma form_add_r n m M v w w' : form n m M v (fun i => w i + w' i) = form n m M v w + form n m M v w'.
Proof. unfold form. rewrite <- rsum_plus. apply rsum_ext. intros. rewrite <- rsum_plus. apply rsum_ext. intros. ring. Qed.
Lemma form_add_l n m M v v' w : form n m M (fun i => v i + v' i) w = form n m M v w + form n m M v' w.
Proof. unfold form. rewrite <- rsum_plus. apply rsum_ext. intros. rewrite <- rsum_plus. apply rsum_ext. intros. ring. Qed.
Lemma form_zero n m v w : form n m mzero v w = 0.
Proof. unfold form. apply rsum_zero. intros. apply rsum_zero. intros. unfold mzero. ring. Qed.
Lemma form_eye n v w : form n n meye v w = rsum n (fun i => v i * w i).
Proof.
  unfold form. apply rsum_ext. intros i Hi.
  rewrite (rsum_ext n _ (fun j => if (j =? i)%nat then (fun j => v i * w j) j else 0)).
  - rewrite rsum_delta by auto. reflexivity.
  - intros j _. unfold meye. rewrite (Nat.eqb_sym i j). destruct (j =? i)%nat; ring.
Qed.
Lemma form_sym n M v w : symmetric n M -> form n n M v w = form n n M w v.
Proof. intro H. rewrite form_tr. apply form_ext; auto. apply sym_meq; auto. Qed.
Lemma rmv_mmul n m A B x i : rmv m (mmul n A B) x i = rmv n A (rmv m B x) i.
Proof.
  change (rsum m (fun j => mmul n A B i j * x j) = rsum n (fun k => A i k * rmv m B x k)).
  rewrite (rsum_ext m _ (fun j => rsum n (fun k => A i k * B k j * x j))).
  2:{ intros. rewrite mmul_rsum, <- rsum_scal_r. reflexivity. }
  rewrite rsum_swap. apply rsum_ext. intros k _.
  change (rmv m B x k) with (rsum m (fun j => B k j * x j)). rewrite <- rsum_scal. apply rsum_ext. intros; ring.
Qed.

(** completing the square *)
Lemma complete_square nx nu F G Q R Ri S x u :
  symmetric nx S -> symmetric nu R -> inverse nu R Ri ->
  let E := care_residual nx F (mmul nu (mmul nu G Ri) (mtr G)) Q S in
  let K := mmul nu Ri (mmul nx (mtr G) S) in
  let e := fun i => u i + rmv nx K x i in
  form nx nx Q x x + form nu nu R u u + 2 * form nx nx S x (fun i => rmv nx F x i + rmv nu G u i) = form nu nu R e e + form nx nx E x x.
Proof.
  intros HS HR [HI _] E K e.
  set (g := rmv nx (mmul nx (mtr G) S) x). set (k := rmv nx K x).
  assert (forall i, (i < nu)%nat -> rmv nu R k i = g i) as Ek.
  { intros i Hi. unfold k, K. rewrite <- rmv_mmul, <- mmul_assoc. unfold g.
    change (rsum nx (fun j => mmul nu (mmul nu R Ri) (mmul nx (mtr G) S) i j * x j) = rsum nx (fun j => mmul nx (mtr G) S i j * x j)).
    apply rsum_ext. intros j Hj. f_equal.
    assert (meq nu nx (mmul nu (mmul nu R Ri) (mmul nx (mtr G) S)) (mmul nx (mtr G) S)) as E0; [|apply E0; auto].
    eapply meq_trans; [apply mmul_ext; [exact HI|apply meq_refl]|]. apply meye_l. }
  assert (forall w, form nu nu R w k = rsum nu (fun i => w i * g i)) as Ewk.
  { intro w. unfold form. apply rsum_ext. intros i Hi. rewrite <- (Ek i Hi).
    change (rmv nu R k i) with (rsum nu (fun j => R i j * k j)). rewrite <- rsum_scal. apply rsum_ext. intros; ring. }
  unfold e. fold k. rewrite !form_add_r, !form_add_l, !Ewk.
  rewrite (form_sym nu R k u HR), Ewk.
  (* the term linear in u *)
  assert (form nx nx S x (rmv nu G u) = rsum nu (fun i => u i * g i)) as E1.
  { rewrite <- form_mul, form_tr, mtr_mul. unfold form. apply rsum_ext. intros i Hi. unfold g.
    change (rmv nx (mmul nx (mtr G) S) x i) with (rsum nx (fun j => mmul nx (mtr G) S i j * x j)). rewrite <- rsum_scal.
    apply rsum_ext. intros j Hj.
    rewrite (mmul_ext nu nx nx (mtr G) (mtr G) (mtr S) S (meq_refl _ _ _)); [ring| |auto|auto]. apply sym_meq; auto. }
  (* the quadratic terms *)
  assert (form nx nx S x (rmv nx F x) = form nx nx (mmul nx S F) x x) as E2 by (rewrite form_mul; reflexivity).
  assert (form nx nx (mmul nx S F) x x = form nx nx (mmul nx (mtr F) S) x x) as E3.
  { rewrite form_tr, mtr_mul. apply form_ext; auto. apply mmul_ext; [apply meq_refl|apply sym_meq; auto]. }
  assert (form nx nx (mmul nx (mmul nx S (mmul nu (mmul nu G Ri) (mtr G))) S) x x = rsum nu (fun i => k i * g i)) as E4.
  { assert (mmul nx (mmul nx S (mmul nu (mmul nu G Ri) (mtr G))) S = mmul nu (mmul nx S G) K) as ->.
    { unfold K. rewrite !mmul_assoc. reflexivity. }
    rewrite form_mul. fold k. rewrite form_tr, mtr_mul. unfold form. apply rsum_ext. intros i Hi. unfold g.
    change (rmv nx (mmul nx (mtr G) S) x i) with (rsum nx (fun j => mmul nx (mtr G) S i j * x j)). rewrite <- rsum_scal.
    apply rsum_ext. intros j Hj.
    rewrite (mmul_ext nu nx nx (mtr G) (mtr G) (mtr S) S (meq_refl _ _ _)); [ring| |auto|auto]. apply sym_meq; auto. }
  unfold E, care_residual. rewrite form_add_m, form_sub_m, form_add_m, E4, E1, E2. lra.
Qed.

(** derivative of x'Sx *)
Lemma rsum_derivative n (f : nat -> R -> R) (f' : nat -> R) t : (forall i, (i < n)%nat -> derivable_pt_lim (f i) t (f' i)) ->
  derivable_pt_lim (fun t => rsum n (fun i => f i t)) t (rsum n f').
Proof.
  induction n as [|n IH]; intro H.
  - rewrite rsum_0. apply (derivable_pt_lim_ext (fun _ => 0)); [reflexivity|apply derivable_pt_lim_const].
  - rewrite rsum_S. apply (derivable_pt_lim_ext (fun t => rsum n (fun i => f i t) + f n t)); [reflexivity|].
    apply (derivable_pt_lim_plus (fun t => rsum n (fun i => f i t)) (f n)); [apply IH; intros; apply H; lia|apply H; lia].
Qed.
Lemma form_derivative n S (x : R -> nat -> R) x' t : symmetric n S -> (forall i, (i < n)%nat -> derivable_pt_lim (fun t => x t i) t (x' i)) ->
  derivable_pt_lim (fun t => form n n S (x t) (x t)) t (2 * form n n S (x t) x').
Proof.
  intros HS Hx.
  replace (2 * form n n S (x t) x') with (form n n S x' (x t) + form n n S (x t) x') by (rewrite (form_sym n S x' (x t) HS); ring).
  unfold form. rewrite <- rsum_plus.
  apply (rsum_derivative n (fun i t => rsum n (fun j => x t i * S i j * x t j))). intros i Hi. rewrite <- rsum_plus.
  apply (rsum_derivative n (fun j t => x t i * S i j * x t j)). intros j Hj.
  replace (x' i * S i j * x t j + x t i * S i j * x' j) with ((x' i * S i j + x t i * 0) * x t j + x t i * S i j * x' j) by ring.
  apply (derivable_pt_lim_mult (fun t => x t i * S i j) (fun t => x t j)); [|apply Hx; auto].
  apply (derivable_pt_lim_mult (fun t => x t i) (fun _ => S i j)); [apply Hx; auto|apply derivable_pt_lim_const].
Qed.

(** * Cost along a trajectory *)
Lemma nonneg_derivative_le (f f' : R -> R) t0 t1 : t0 <= t1 -> (forall t, t0 <= t <= t1 -> derivable_pt_lim f t (f' t)) ->
  (forall t, t0 <= t <= t1 -> 0 <= f' t) -> f t0 <= f t1.
Proof.
  intros H01 Hd Hp. destruct (Req_dec t0 t1) as [->|Hn]; [lra|].
  assert (t0 < t1) as Hlt by lra. destruct (MVT_cor2 f f' t0 t1 Hlt Hd) as (c & Hc & Hi).
  assert (0 <= f' c * (t1 - t0)) by (apply Rmult_le_pos; [apply Hp|]; lra). lra.
Qed.
Lemma zero_derivative_eq (f f' : R -> R) t0 t1 : t0 <= t1 -> (forall t, t0 <= t <= t1 -> derivable_pt_lim f t (f' t)) ->
  (forall t, t0 <= t <= t1 -> f' t = 0) -> f t0 = f t1.
Proof.
  intros H01 Hd Hp. destruct (Req_dec t0 t1) as [->|Hn]; [lra|].
  assert (t0 < t1) as Hlt by lra. destruct (MVT_cor2 f f' t0 t1 Hlt Hd) as (c & Hc & Hi).
  rewrite (Hp c) in Hc by lra. lra.
Qed.
(** |x'Ex| against the Frobenius norm *)
Lemma rsum_cs n (a b : nat -> R) : rsum n (fun i => a i * b i) * rsum n (fun i => a i * b i) <= rsum n (fun i => a i * a i) * rsum n (fun i => b i * b i).
Proof.
  set (A := rsum n (fun i => a i * a i)). set (B := rsum n (fun i => b i * b i)). set (C := rsum n (fun i => a i * b i)).
  assert (forall s t, 0 <= s * s * A + 2 * (s * t) * C + t * t * B) as H.
  { intros s t. assert (0 <= rsum n (fun i => (s * a i + t * b i) * (s * a i + t * b i))) as H by (apply rsum_nonneg; intros; apply Rle_0_sqr).
    rewrite (rsum_ext n _ (fun i => s * s * (a i * a i) + 2 * (s * t) * (a i * b i) + t * t * (b i * b i))) in H by (intros; ring).
    rewrite !rsum_plus, !rsum_scal in H. exact H. }
  assert (0 <= A) as HA by (apply rsum_nonneg; intros; apply Rle_0_sqr).
  assert (0 <= B) as HB by (apply rsum_nonneg; intros; apply Rle_0_sqr).
  destruct (Req_dec A 0) as [E|E].
  - rewrite E in *. assert (C = 0) as ->; [|lra].
    destruct (Req_dec C 0) as [|N]; auto. exfalso. pose proof (H (- (B + 1) / (2 * C)) 1) as H1.
    replace (2 * (- (B + 1) / (2 * C) * 1) * C) with (- (B + 1)) in H1 by (field; auto). lra.
  - pose proof (H (- C) A) as H1. assert (0 <= A * (A * B - C * C)) as H2 by (replace (A * (A * B - C * C)) with (- C * - C * A + 2 * (- C * A) * C + A * A * B) by ring; auto).
    assert (0 < A) by lra. assert (0 <= A * B - C * C); [|lra].
    apply Rmult_le_reg_l with A; auto. lra.
Qed.
Lemma form_norm n E x : form n n E x x * form n n E x x <= fro2 n E * (rsum n (fun i => x i * x i) * rsum n (fun i => x i * x i)).
Proof.
  set (N := rsum n (fun i => x i * x i)).
  assert (form n n E x x = rsum n (fun i => x i * rmv n E x i)) as ->.
  { unfold form. apply rsum_ext. intros i _. change (rmv n E x i) with (rsum n (fun j => E i j * x j)). rewrite <- rsum_scal. apply rsum_ext. intros; ring. }
  eapply Rle_trans; [apply rsum_cs|]. fold N. rewrite (Rmult_comm (fro2 n E)), Rmult_assoc.
  assert (0 <= N) by (apply rsum_nonneg; intros; apply Rle_0_sqr).
  apply Rmult_le_compat_l; auto. unfold fro2. rewrite <- rsum_scal. apply rsum_le. intros i Hi.
  change (rmv n E x i) with (rsum n (fun j => E i j * x j)). eapply Rle_trans; [apply rsum_cs|]. fold N. lra.
Qed.
Lemma form_norm_bound n E eps x : 0 <= eps -> fro2 n E <= eps * eps ->
  - (eps * rsum n (fun i => x i * x i)) <= form n n E x x <= eps * rsum n (fun i => x i * x i).
Proof.
  intros He HE. set (N := rsum n (fun i => x i * x i)). set (f := form n n E x x).
  assert (0 <= N) as HN by (apply rsum_nonneg; intros; apply Rle_0_sqr).
  pose proof (form_norm n E x) as H. fold N f in H.
  assert (f * f <= (eps * N) * (eps * N)) as H1.
  { eapply Rle_trans; [exact H|]. replace ((eps * N) * (eps * N)) with (eps * eps * (N * N)) by ring. apply Rmult_le_compat_r; auto. apply Rmult_le_pos; auto. }
  assert (0 <= eps * N) as H2 by (apply Rmult_le_pos; auto).
  split; apply Rnot_lt_le; intro Hlt.
  - assert ((eps * N) * (eps * N) < (- f) * (- f)) by (apply Rmult_le_0_lt_compat; lra). lra.
  - assert ((eps * N) * (eps * N) < f * f) by (apply Rmult_le_0_lt_compat; lra). lra.
Qed.
Lemma form_nonneg n M x : psd n M -> 0 <= form n n M x x.
Proof.
  intro H. unfold form. eapply Rle_trans; [apply (H x)|]. right. unfold qf, bf.
  apply rsum_ext. intros i _. change (rmv n M x i) with (rsum n (fun j => M i j * x j)). rewrite <- rsum_scal. apply rsum_ext. intros; ring.
Qed.
Lemma cost_bound nx nu F G Q R Ri S eps x u J N t0 t1 :
  symmetric nx S -> symmetric nu R -> psd nu R -> inverse nu R Ri ->
  0 <= eps -> fro2 nx (care_residual nx F (mmul nu (mmul nu G Ri) (mtr G)) Q S) <= eps * eps ->
  t0 <= t1 -> trajectory nx nu F G x u t0 t1 ->
  accumulates J (fun t => form nx nx Q (x t) (x t) + form nu nu R (u t) (u t)) t0 t1 ->
  accumulates N (fun t => rsum nx (fun i => x t i * x t i)) t0 t1 ->
  let V := fun t => form nx nx S (x t) (x t) in
  let K := mmul nu Ri (mmul nx (mtr G) S) in
  V t0 - V t1 - eps * (N t1 - N t0) <= J t1 - J t0 /\
  ((forall t i, t0 <= t <= t1 -> (i < nu)%nat -> u t i = - rmv nx K (x t) i) ->
   J t1 - J t0 <= V t0 - V t1 + eps * (N t1 - N t0)).
Proof.
  intros HS HR HRp HI He HE H01 HT HJ HN V K.
  set (E := care_residual nx F (mmul nu (mmul nu G Ri) (mtr G)) Q S) in *.
  set (V' := fun t => 2 * form nx nx S (x t) (fun i => rmv nx F (x t) i + rmv nu G (u t) i)).
  assert (forall t, t0 <= t <= t1 -> derivable_pt_lim V t (V' t)) as HV.
  { intros t Ht. unfold V, V'. apply (form_derivative nx S x); auto. }
  set (L := fun t => form nx nx Q (x t) (x t) + form nu nu R (u t) (u t)) in *.
  set (e := fun t i => u t i + rmv nx K (x t) i).
  assert (forall t, L t + V' t = form nu nu R (e t) (e t) + form nx nx E (x t) (x t)) as HC.
  { intro t. unfold L, V', e, E, K. exact (complete_square nx nu F G Q R Ri S (x t) (u t) HS HR HI). }
  set (n2 := fun t => rsum nx (fun i => x t i * x t i)) in *.
  split.
  - assert (V t0 + J t0 + eps * N t0 <= V t1 + J t1 + eps * N t1); [|lra].
    apply (nonneg_derivative_le (fun t => V t + J t + eps * N t) (fun t => V' t + L t + eps * n2 t)); auto.
    + intros t Ht. apply (derivable_pt_lim_plus (fun t => V t + J t) (fun t => eps * N t)).
      * apply (derivable_pt_lim_plus V J); auto.
      * apply (derivable_pt_lim_scal N eps); auto.
    + intros t Ht. pose proof (form_norm_bound nx E eps (x t) He HE) as [Hb _]. fold (n2 t) in Hb.
      pose proof (form_nonneg nu R (e t) HRp). specialize (HC t). lra.
  - intro Hu. assert (- V t0 - J t0 + eps * N t0 <= - V t1 - J t1 + eps * N t1); [|lra].
    apply (nonneg_derivative_le (fun t => - V t - J t + eps * N t) (fun t => - V' t - L t + eps * n2 t)); auto.
    + intros t Ht. apply (derivable_pt_lim_plus (fun t => - V t - J t) (fun t => eps * N t)).
      * apply (derivable_pt_lim_minus (fun t => - V t) J); auto. apply (derivable_pt_lim_opp V); auto.
      * apply (derivable_pt_lim_scal N eps); auto.
    + intros t Ht. pose proof (form_norm_bound nx E eps (x t) He HE) as [_ Hb]. fold (n2 t) in Hb.
      assert (form nu nu R (e t) (e t) = 0) as Z.
      { rewrite <- (form_zero nu nu (e t) (e t)). unfold form. apply rsum_ext. intros i Hi. apply rsum_ext. intros j Hj.
        unfold e. rewrite (Hu t i), (Hu t j) by auto. unfold mzero. ring. }
      specialize (HC t). lra.
Qed.

(** * Initial guess *)
(** the second equation of the initial guess gives a closed loop along which x'Xx decreases *)
Lemma second_guess n A B X X1 : symmetric n B -> symmetric n X1 ->
  lyapunov_solution n (mtr (msub A (mmul n B X))) (mopp (madd (mmul n (mmul n (mtr X) B) X) (mscal (1 / 2) meye))) X1 ->
  let D := msub X1 X in
  meq n n (madd (mmul n (mtr (msub A (mmul n B X1))) X1) (mmul n X1 (msub A (mmul n B X1))))
          (mopp (madd (mscal (1 / 2) meye) (madd (mmul n (mmul n X1 B) X1) (mmul n (mmul n (mtr D) B) D)))).
Proof.
  intros HB HX HL D i j Hi Hj. specialize (HL i j Hi Hj). rewrite mtr_tr in HL.
  assert (forall W, mtr (msub A (mmul n B W)) = msub (mtr A) (mmul n (mtr W) (mtr B))) as E1 by (intro W; rewrite <- mtr_mul; reflexivity).
  rewrite E1 in HL |- *. unfold D. change (mtr (msub X1 X)) with (msub (mtr X1) (mtr X)).
  rewrite ?mmul_sub_l, ?mmul_sub_r, ?mmul_sub_l in *.
  unfold madd, msub, mopp, mscal in *.
  assert (forall W Z, mmul n (mmul n (mtr W) (mtr B)) Z i j = mmul n (mmul n (mtr W) B) Z i j) as E2.
  { intros W Z. apply (mmul_ext n n n); auto using meq_refl. apply mmul_ext; auto using meq_refl. apply sym_meq; auto. }
  assert (forall W, mmul n (mmul n (mtr X1) B) W i j = mmul n (mmul n X1 B) W i j) as E3.
  { intros W. apply (mmul_ext n n n); auto using meq_refl. apply mmul_ext; auto using meq_refl. apply sym_meq; auto. }
  rewrite ?E2, ?E3, <- ?mmul_assoc in *. lra.
Qed.
Lemma second_guess_decrease n A B X X1 x : symmetric n B -> psd n B -> symmetric n X1 ->
  lyapunov_solution n (mtr (msub A (mmul n B X))) (mopp (madd (mmul n (mmul n (mtr X) B) X) (mscal (1 / 2) meye))) X1 ->
  2 * form n n X1 x (rmv n (msub A (mmul n B X1)) x) <= - (1 / 2) * rsum n (fun i => x i * x i).
Proof.
  intros HB Hp HX HL. pose proof (second_guess n A B X X1 HB HX HL) as E. cbv zeta in E.
  set (D := msub X1 X) in *. set (Ac := msub A (mmul n B X1)) in *.
  assert (forall W, 0 <= form n n (mmul n (mmul n (mtr W) B) W) x x) as Hq.
  { intro W. rewrite form_mul, form_tr, mtr_mul, mtr_tr, form_mul.
    rewrite (form_ext n n (mtr B) B _ (rmv n W x) _ (rmv n W x)); auto; [|apply sym_meq; auto]. apply form_nonneg; auto. }
  pose proof (form_ext n n _ _ x x x x E (fun _ _ => eq_refl) (fun _ _ => eq_refl)) as H.
  rewrite form_add_m in H.
  assert (form n n (mmul n (mtr Ac) X1) x x = form n n (mmul n X1 Ac) x x) as E1.
  { rewrite form_tr, mtr_mul, mtr_tr. apply form_ext; auto. apply mmul_ext; auto using meq_refl. apply sym_meq; auto. }
  rewrite E1, form_mul in H.
  set (P := madd (mscal (1 / 2) meye) (madd (mmul n (mmul n X1 B) X1) (mmul n (mmul n (mtr D) B) D))) in *.
  assert (form n n (mopp P) x x = - form n n P x x) as E2.
  { unfold form. rewrite <- rsum_opp. apply rsum_ext. intros. rewrite <- rsum_opp. apply rsum_ext. intros. unfold mopp. ring. }
  rewrite E2 in H. unfold P in H. rewrite !form_add_m in H.
  assert (form n n (mscal (1 / 2) meye) x x = 1 / 2 * rsum n (fun i => x i * x i)) as E3.
  { rewrite <- form_eye. unfold form. rewrite <- rsum_scal. apply rsum_ext. intros. rewrite <- rsum_scal. apply rsum_ext. intros. unfold mscal. ring. }
  rewrite E3 in H. pose proof (Hq D). pose proof (Hq X1) as H1.
  rewrite (form_ext n n _ (mmul n (mmul n X1 B) X1) x x x x) in H1; auto.
  2:{ apply mmul_ext; auto using meq_refl. apply mmul_ext; auto using meq_refl. apply sym_meq; auto. }
  lra.
Qed.

(** the first gain: with W = U Z U', the closed loop A - B X satisfies (A - BX) W + W (A - BX)' = -2 b W *)
Lemma first_guess n A B b T U Z Zi : symmetric n B -> symmetric n Z -> schur_form n A T U ->
  lyapunov_solution n (madd T (mscal b meye)) (mmul n (mscal 2 (mmul n (mtr U) B)) (mtr (mmul n (mtr U) B))) Z ->
  inverse n Z Zi ->
  let X := mmul n (mmul n (mtr (mmul n (mtr U) B)) Zi) (mtr U) in
  let W := mmul n (mmul n U Z) (mtr U) in
  lyapunov_solution n (msub A (mmul n B X)) (mscal (-2 * b) W) W.
Proof.
  intros HB HZs HS HL [_ HZ] X W. pose proof HS as [[HO HO'] HA].
  set (BB := mmul n B (mtr B)).
  assert (meq n n (mmul n (mmul n B X) W) BB) as E1.
  { unfold X, W, BB. rewrite mtr_mul, mtr_tr, !mmul_assoc.
    apply mmul_ext; [apply meq_refl|]. eapply meq_trans; [|apply meye_r]. apply mmul_ext; [apply meq_refl|].
    rewrite <- (mmul_assoc n n (mtr U) U).
    apply meq_trans with (mmul n U (mmul n Zi (mmul n meye (mmul n Z (mtr U))))).
    { apply mmul_ext; [apply meq_refl|]. apply mmul_ext; [apply meq_refl|]. apply mmul_ext; [exact HO'|apply meq_refl]. }
    apply meq_trans with (mmul n U (mmul n Zi (mmul n Z (mtr U)))).
    { apply mmul_ext; [apply meq_refl|]. apply mmul_ext; [apply meq_refl|]. apply meye_l. }
    rewrite <- (mmul_assoc n n Zi Z). apply meq_trans with (mmul n U (mmul n meye (mtr U))).
    { apply mmul_ext; [apply meq_refl|]. apply mmul_ext; [exact HZ|apply meq_refl]. }
    apply meq_trans with (mmul n U (mtr U)); [|exact HO]. apply mmul_ext; [apply meq_refl|apply meye_l]. }
  assert (meq n n W (mtr W)) as Ws.
  { unfold W. rewrite !mtr_mul, mtr_tr, <- mmul_assoc. apply mmul_ext; [|apply meq_refl]. apply mmul_ext; [apply meq_refl|].
    apply meq_sym. apply sym_meq; auto. }
  assert (meq n n (mmul n W (mtr (mmul n B X))) BB) as E2.
  { apply meq_trans with (mmul n (mtr W) (mtr (mmul n B X))); [apply mmul_ext; [exact Ws|apply meq_refl]|].
    rewrite <- mtr_mul. apply meq_trans with (mtr BB); [apply mtr_ext; exact E1|]. unfold BB. rewrite mtr_mul, mtr_tr. apply meq_refl. }
  assert (meq n n (mmul n A W) (mmul n (mmul n U (mmul n T Z)) (mtr U))) as E3.
  { eapply meq_trans; [apply mmul_ext; [exact HA|apply meq_refl]|]. apply sandwich. split; auto. }
  assert (meq n n (mmul n W (mtr A)) (mmul n (mmul n U (mmul n Z (mtr T))) (mtr U))) as E4.
  { eapply meq_trans; [apply mmul_ext; [apply meq_refl|apply mtr_ext; exact HA]|].
    rewrite !mtr_mul, mtr_tr, <- (mmul_assoc n n U). apply sandwich. split; auto. }
  assert (meq n n (mmul n (mmul n U (mmul n (mscal 2 (mmul n (mtr U) B)) (mtr (mmul n (mtr U) B)))) (mtr U)) (mscal 2 BB)) as E5.
  { rewrite mtr_mul, mtr_tr, mmul_scal_l, mmul_scal_r, mmul_scal_l. intros i j Hi Hj. unfold mscal. f_equal.
    pose proof (sandwich_back n U BB (conj HO HO') i j Hi Hj) as E. rewrite <- E. unfold BB. rewrite !mmul_assoc. reflexivity. }
  assert (meq n n (mmul n (mmul n U (madd (mmul n (madd T (mscal b meye)) Z) (mmul n Z (mtr (madd T (mscal b meye)))))) (mtr U)) (mscal 2 BB)) as E6.
  { eapply meq_trans; [|exact E5]. apply mmul_ext; [|apply meq_refl]. apply mmul_ext; [apply meq_refl|exact HL]. }
  change (mtr (madd T (mscal b meye))) with (madd (mtr T) (mscal b (mtr meye))) in E6. rewrite mtr_eye in E6.
  rewrite !mmul_add_l, !mmul_add_r, !mmul_add_l, !mmul_scal_l, !mmul_scal_r, !mmul_scal_l in E6.
  intros i j Hi Hj. specialize (E6 i j Hi Hj). specialize (E1 i j Hi Hj). specialize (E2 i j Hi Hj). specialize (E3 i j Hi Hj). specialize (E4 i j Hi Hj).
  assert (mmul n (mmul n U (mmul n meye Z)) (mtr U) i j = W i j) as E7.
  { apply (mmul_ext n n n); auto using meq_refl. apply mmul_ext; [apply meq_refl|apply meye_l]. }
  assert (mmul n (mmul n U (mmul n Z meye)) (mtr U) i j = W i j) as E8.
  { apply (mmul_ext n n n); auto using meq_refl. apply mmul_ext; [apply meq_refl|apply meye_r]. }
  change (mtr (msub A (mmul n B X))) with (msub (mtr A) (mtr (mmul n B X))).
  rewrite mmul_sub_l, mmul_sub_r. unfold madd, msub, mscal in *. rewrite E7, E8 in E6. rewrite E1, E2, E3, E4. lra.
Qed.
