(** Proofs about the Chebyshev basis. *)
Require Import ZArith List Bool Lia Reals Ratan Lra.
From Verif Require Import Scal RSum PolyR Poly_Spec Cheb_Model.
Import ListNotations.
Local Open Scope R_scope.

Lemma INR_pos : forall N, (1 <= N)%nat -> 0 < INR N.
Proof. intros. apply lt_0_INR; lia. Qed.
Lemma theta_range : forall N i, (1 <= N)%nat -> (i <= N)%nat -> 0 <= cheb_theta N i <= PI.
Proof.
  intros N i HN Hi. unfold cheb_theta. assert (HP := PI_RGT_0). assert (H := INR_pos N HN).
  assert (0 <= INR i) by apply pos_INR. assert (INR i <= INR N) by (apply le_INR; auto).
  assert (0 <= PI / INR N) by (apply Rlt_le, Rdiv_lt_0_compat; auto).
  split; [apply Rmult_le_pos; auto|].
  replace PI with (INR N * (PI / INR N)) at 2 by (field; lra). apply Rmult_le_compat_r; auto.
Qed.
Lemma theta_lt : forall N i j, (1 <= N)%nat -> (i < j)%nat -> cheb_theta N i < cheb_theta N j.
Proof.
  intros N i j HN Hi. unfold cheb_theta. assert (HP := PI_RGT_0). assert (H := INR_pos N HN).
  assert (INR i < INR j) by (apply lt_INR; auto).
  assert (0 < PI / INR N) by (apply Rdiv_lt_0_compat; auto). apply Rmult_lt_compat_r; auto.
Qed.
Lemma theta_N : forall N, (1 <= N)%nat -> cheb_theta N N = PI.
Proof. intros. unfold cheb_theta. field. assert (H0 := INR_pos N H). lra. Qed.

Lemma nodes_first : forall N, cheb_nodes N 0 = 1.
Proof. intros. unfold cheb_nodes, cheb_theta. rewrite Rmult_0_l. apply cos_0. Qed.
Lemma nodes_last : forall N, (1 <= N)%nat -> cheb_nodes N N = -1.
Proof. intros. unfold cheb_nodes. rewrite theta_N; auto. apply cos_PI. Qed.
Lemma nodes_decreasing : forall N i j, (1 <= N)%nat -> (i < j)%nat -> (j <= N)%nat -> cheb_nodes N j < cheb_nodes N i.
Proof.
  intros. unfold cheb_nodes. apply cos_decreasing_1.
  - apply theta_range; auto; lia.
  - apply theta_range; auto; lia.
  - apply theta_range; auto; lia.
  - apply theta_range; auto; lia.
  - apply theta_lt; auto.
Qed.
Lemma theta_mirror : forall N i, (1 <= N)%nat -> (i <= N)%nat -> cheb_theta N (N - i) = PI - cheb_theta N i.
Proof.
  intros. unfold cheb_theta. rewrite minus_INR by auto. field. assert (H1 := INR_pos N H); lra.
Qed.
Lemma nodes_symmetric : forall N i, (1 <= N)%nat -> (i <= N)%nat -> cheb_nodes N (N - i) = - cheb_nodes N i.
Proof.
  intros. unfold cheb_nodes. rewrite theta_mirror by auto.
  rewrite cos_minus, cos_PI, sin_PI. ring.
Qed.
Lemma nodes_distinct : forall N, (1 <= N)%nat -> distinct (S N) (cheb_nodes N).
Proof.
  intros N HN i j Hi Hj Hne. destruct (Nat.lt_total i j) as [H|[H|H]]; [|lia|].
  - assert (H1 := nodes_decreasing N i j HN H). intro E. rewrite E in H1. specialize (H1 ltac:(lia)). lra.
  - assert (H1 := nodes_decreasing N j i HN H). intro E. rewrite E in H1. specialize (H1 ltac:(lia)). lra.
Qed.

(** * trapezoidal cosine sums *)
Definition hw (N j : nat) : R := if (j =? 0)%nat || (j =? N)%nat then 1 / 2 else 1.

Lemma trapezoid : forall N f, (1 <= N)%nat ->
  rsum (S N) (fun j => hw N j * f j) = rsum N (fun j => (f j + f (S j)) / 2).
Proof.
  intros N f HN.
  assert (E : forall n, (1 <= n)%nat -> rsum n (fun j => (f j + f (S j)) / 2)
              = f O / 2 + rsum (n - 1) (fun j => f (S j)) + f n / 2).
  { induction n; intros Hn; [lia|]. rewrite rsum_S. destruct n.
    - simpl Nat.sub. rewrite !rsum_0. field.
    - rewrite IHn by lia. replace (S (S n) - 1)%nat with (S (S n - 1)) by lia. rewrite rsum_S.
      replace (S (S n - 1)) with (S n) by lia. field. }
  rewrite E by auto. rewrite rsum_first. destruct N; [lia|]. rewrite rsum_S.
  unfold hw at 1. simpl Nat.eqb at 1. cbv iota. simpl orb.
  unfold hw at 2. rewrite Nat.eqb_refl, orb_true_r.
  replace (S N - 1)%nat with N by lia.
  rewrite (rsum_ext N (fun i => hw (S N) (S i) * f (S i)) (fun j => f (S j))).
  - field.
  - intros i Hi. unfold hw. assert (H1 : (S i =? S N)%nat = false) by (apply Nat.eqb_neq; lia). rewrite H1. simpl. ring.
Qed.

Lemma cos_trapezoid : forall N t, (1 <= N)%nat ->
  rsum (S N) (fun j => hw N j * cos (INR j * t)) * (2 * sin (t / 2)) = cos (t / 2) * sin (INR N * t).
Proof.
  intros N t HN. rewrite trapezoid by auto. clear HN.
  induction N; [rewrite rsum_0; change (INR 0) with 0; rewrite (Rmult_0_l t), sin_0; ring|].
  rewrite rsum_S, Rmult_plus_distr_r, IHN, S_INR.
  set (h := t / 2). set (u := INR N * t).
  replace ((INR N + 1) * t) with (u + 2 * h) by (unfold u, h; field).
  rewrite cos_plus, sin_plus, cos_2a, sin_2a.
  assert (P := sin2_cos2 h). unfold Rsqr in P.
  transitivity (cos h * sin u + (cos u * (sin h * (1 + (cos h * cos h - sin h * sin h))) - sin u * (2 * sin h * cos h * sin h))); [field|].
  replace (sin h * (1 + (cos h * cos h - sin h * sin h))) with (2 * sin h * (cos h * cos h))
    by (replace 1 with (sin h * sin h + cos h * cos h); ring).
  replace (sin u * (cos h * cos h - sin h * sin h) + cos u * (2 * sin h * cos h))
    with (sin u * (1 - 2 * (sin h * sin h)) + cos u * (2 * sin h * cos h))
    by (replace 1 with (sin h * sin h + cos h * cos h); ring).
  ring.
Qed.

Lemma sin_nPI : forall m, sin (INR m * PI) = 0.
Proof.
  intros. apply sin_eq_0_1. exists (Z.of_nat m). rewrite <- INR_IZR_INZ. reflexivity.
Qed.
Lemma cos_nPI : forall m, cos (INR m * PI) = (-1) ^ m.
Proof.
  induction m; [simpl; rewrite Rmult_0_l; apply cos_0|].
  rewrite S_INR, Rmult_plus_distr_r, Rmult_1_l, cos_plus, cos_PI, sin_PI, IHm. simpl; ring.
Qed.

Definition cs (N m j : nat) : R := cos (INR m * cheb_theta N j).

Lemma cs_sum_zero : forall N m, (1 <= N)%nat -> (0 < m)%nat -> (m < 2 * N)%nat ->
  rsum (S N) (fun j => hw N j * cs N m j) = 0.
Proof.
  intros N m HN Hm Hm2. assert (HNR := INR_pos N HN). assert (HP := PI_RGT_0).
  set (t := INR m * (PI / INR N)).
  assert (H := cos_trapezoid N t HN).
  replace (INR N * t) with (INR m * PI) in H by (unfold t; field; lra).
  rewrite sin_nPI, Rmult_0_r in H.
  assert (Hs : 0 < sin (t / 2)).
  { assert (0 < INR m) by (apply lt_0_INR; auto).
    assert (0 < PI / INR N) by (apply Rdiv_lt_0_compat; auto).
    apply sin_gt_0.
    - unfold t. assert (0 < INR m * (PI / INR N)) by (apply Rmult_lt_0_compat; auto). lra.
    - assert (INR m < 2 * INR N) by (replace 2 with (INR 2) by (simpl; lra); rewrite <- mult_INR; apply lt_INR; auto).
      unfold t. assert (INR m * (PI / INR N) < 2 * INR N * (PI / INR N)) by (apply Rmult_lt_compat_r; auto).
      replace (2 * INR N * (PI / INR N)) with (2 * PI) in H3 by (field; lra). lra. }
  rewrite (rsum_ext _ _ (fun j => hw N j * cos (INR j * t))).
  2:{ intros j _. unfold cs, cheb_theta, t. do 2 f_equal. ring. }
  apply Rmult_integral in H. destruct H; auto. lra.
Qed.
Lemma hw_sum : forall N, (1 <= N)%nat -> rsum (S N) (hw N) = INR N.
Proof.
  intros. rewrite (rsum_ext _ _ (fun j => hw N j * 1)) by (intros; ring).
  rewrite (trapezoid N (fun _ => 1)) by auto.
  rewrite (rsum_ext _ _ (fun _ => 1)) by (intros; field). rewrite rsum_const; ring.
Qed.
Lemma cs_0 : forall N j, cs N 0 j = 1.
Proof. intros. unfold cs. simpl. rewrite Rmult_0_l. apply cos_0. Qed.
Lemma cs_2N : forall N j, (1 <= N)%nat -> cs N (2 * N) j = 1.
Proof.
  intros. unfold cs, cheb_theta. assert (H0 := INR_pos N H).
  replace (INR (2 * N) * (INR j * (PI / INR N))) with (INR (2 * j) * PI).
  - rewrite cos_nPI. rewrite pow_mult. replace ((-1) ^ 2) with 1 by ring. apply pow1.
  - rewrite !mult_INR. simpl (INR 2). field. lra.
Qed.
Lemma cs_N : forall N j, (1 <= N)%nat -> cs N N j = (-1) ^ j.
Proof.
  intros. unfold cs, cheb_theta. assert (H0 := INR_pos N H).
  replace (INR N * (INR j * (PI / INR N))) with (INR j * PI) by (field; lra). apply cos_nPI.
Qed.
Lemma cos_prod : forall a b, cos a * cos b = / 2 * cos (a - b) + / 2 * cos (a + b).
Proof. intros. rewrite cos_minus, cos_plus. field. Qed.
Lemma cs_prod : forall N m n j, (n <= m)%nat -> cs N m j * cs N n j = / 2 * cs N (m - n) j + / 2 * cs N (m + n) j.
Proof.
  intros. unfold cs. rewrite cos_prod. rewrite minus_INR, plus_INR by auto.
  rewrite Rmult_minus_distr_r, Rmult_plus_distr_r. auto.
Qed.
(** discrete orthogonality *)
Definition orth_sum (N m n : nat) : R := rsum (S N) (fun j => hw N j * (cs N m j * cs N n j)).
Lemma orth_sym : forall N m n, orth_sum N m n = orth_sum N n m.
Proof. intros. apply rsum_ext; intros; ring. Qed.
Lemma orth_le : forall N m n, (n <= m)%nat -> orth_sum N m n =
  / 2 * rsum (S N) (fun j => hw N j * cs N (m - n) j) + / 2 * rsum (S N) (fun j => hw N j * cs N (m + n) j).
Proof.
  intros. unfold orth_sum. rewrite <- !rsum_scal, <- rsum_plus. apply rsum_ext; intros.
  rewrite cs_prod by auto. ring.
Qed.
Lemma orth_ne : forall N m n, (1 <= N)%nat -> (m <= N)%nat -> (n <= N)%nat -> m <> n -> orth_sum N m n = 0.
Proof.
  intros N m n HN Hm Hn Hne.
  assert (G : forall m n, (n < m)%nat -> (m <= N)%nat -> orth_sum N m n = 0).
  { clear m n Hm Hn Hne. intros m n Hlt Hm. rewrite orth_le by lia. rewrite !cs_sum_zero by lia. ring. }
  destruct (Nat.lt_total m n) as [H|[H|H]]; [rewrite orth_sym; auto|lia|auto].
Qed.
Lemma orth_eq : forall N m, (1 <= N)%nat -> (0 < m)%nat -> (m < N)%nat -> orth_sum N m m = INR N / 2.
Proof.
  intros. rewrite orth_le by lia. rewrite Nat.sub_diag, (cs_sum_zero N (m + m)) by lia.
  rewrite (rsum_ext _ _ (hw N)) by (intros; rewrite cs_0; ring). rewrite hw_sum by auto. field.
Qed.
Lemma orth_0 : forall N, (1 <= N)%nat -> orth_sum N 0 0 = INR N.
Proof.
  intros. unfold orth_sum. rewrite (rsum_ext _ _ (hw N)) by (intros; rewrite cs_0; ring). apply hw_sum; auto.
Qed.
Lemma orth_N : forall N, (1 <= N)%nat -> orth_sum N N N = INR N.
Proof.
  intros. rewrite orth_le by lia. rewrite Nat.sub_diag.
  rewrite (rsum_ext (S N) (fun j => hw N j * cs N 0 j) (hw N)) by (intros; rewrite cs_0; ring).
  rewrite (rsum_ext (S N) (fun j => hw N j * cs N (N + N) j) (hw N)).
  - rewrite hw_sum by auto. field.
  - intros. replace (N + N)%nat with (2 * N)%nat by lia. rewrite cs_2N by auto. ring.
Qed.

(** * trigonometric expansion of polynomials *)
Definition span (n : nat) (f : R -> R) : Prop :=
  exists a : nat -> R, forall t, f t = rsum (S n) (fun k => a k * cos (INR k * t)).

Lemma span_basis : forall n k, (k <= n)%nat -> span n (fun t => cos (INR k * t)).
Proof.
  intros. exists (fun i => if (i =? k)%nat then 1 else 0). intro t.
  rewrite (rsum_ext _ _ (fun i => if (i =? k)%nat then cos (INR i * t) else 0)).
  - rewrite rsum_delta; auto; lia.
  - intros. destruct (i =? k)%nat; ring.
Qed.
Lemma span_plus : forall n f g, span n f -> span n g -> span n (fun t => f t + g t).
Proof.
  intros n f g [a Ha] [b Hb]. exists (fun k => a k + b k). intro t. rewrite Ha, Hb, <- rsum_plus.
  apply rsum_ext; intros; ring.
Qed.
Lemma span_scal : forall n c f, span n f -> span n (fun t => c * f t).
Proof.
  intros n c f [a Ha]. exists (fun k => c * a k). intro t. rewrite Ha, <- rsum_scal.
  apply rsum_ext; intros; ring.
Qed.
Lemma span_ext : forall n f g, (forall t, f t = g t) -> span n f -> span n g.
Proof. intros n f g H [a Ha]. exists a. intro t. rewrite <- H; auto. Qed.
Lemma span_sum : forall n m f, (forall k, (k < m)%nat -> span n (f k)) -> span n (fun t => rsum m (fun k => f k t)).
Proof.
  intros n m f. induction m; intros H.
  - exists (fun _ => 0). intro t. rewrite rsum_0, rsum_zero; auto. intros; ring.
  - apply span_ext with (fun t => rsum m (fun k => f k t) + f m t); [intro; rewrite rsum_S; auto|].
    apply span_plus; auto.
Qed.
Lemma span_cos : forall n f, span n f -> span (S n) (fun t => cos t * f t).
Proof.
  intros n f [a Ha].
  apply span_ext with (fun t => rsum (S n) (fun k => a k * (/ 2 * cos (INR (S k) * t) + / 2 * cos (INR (k - 1 + (1 - k)) * t)))).
  - intro t. rewrite Ha, <- rsum_scal. apply rsum_ext. intros k _.
    destruct k.
    + change (0 - 1 + (1 - 0))%nat with 1%nat. change (INR 0) with 0. change (INR 1) with 1. rewrite Rmult_0_l, cos_0, (Rmult_1_l t). field.
    + replace (S k - 1 + (1 - S k))%nat with k by lia.
      rewrite (Rmult_comm (cos t)), Rmult_assoc. f_equal. rewrite cos_prod. rewrite !S_INR.
      replace ((INR k + 1) * t - t) with (INR k * t) by ring.
      replace ((INR k + 1) * t + t) with ((INR k + 1 + 1) * t) by ring. ring.
  - apply span_sum. intros k Hk. apply span_scal. apply span_plus; apply span_scal; apply span_basis; lia.
Qed.
Lemma span_mono : forall n m f, (n <= m)%nat -> span n f -> span m f.
Proof.
  intros n m f H [a Ha]. apply span_ext with (fun t => rsum (S n) (fun k => a k * cos (INR k * t))); [intro; symmetry; auto|].
  apply span_sum. intros. apply span_scal. apply span_basis. lia.
Qed.
Lemma span_const : forall n c, span n (fun _ => c).
Proof.
  intros. apply span_ext with (fun t => c * cos (INR 0 * t)).
  - intro. simpl. rewrite Rmult_0_l, cos_0. ring.
  - apply span_scal. apply span_basis. lia.
Qed.
Lemma span_poly : forall p n, (length p <= S n)%nat -> span n (fun t => peval p (cos t)).
Proof.
  induction p; intros n H; simpl.
  - apply span_const.
  - apply span_plus; [apply span_const|]. destruct n.
    + simpl in H. destruct p; [|simpl in H; lia]. apply span_ext with (fun _ => 0); [intro; simpl; ring|apply span_const].
    + apply span_cos. apply IHp. simpl in H. lia.
Qed.

Lemma is_poly_list : forall n p, is_poly n p -> exists l, (length l <= S n)%nat /\ forall x, p x = peval l x.
Proof.
  intros n p [a Ha]. exists (plist (S n) a). split; [rewrite length_plist; lia|].
  intro x. rewrite peval_plist. auto.
Qed.
Lemma list_is_poly : forall n l, (length l <= S n)%nat -> is_poly n (peval l).
Proof. intros. exists (pcoef l). intro x. apply peval_coef; auto. Qed.

(** * differentiation matrix *)
Lemma c_inv : forall N j, / cheb_c N j = (-1) ^ j * hw N j.
Proof.
  intros. unfold cheb_c, hw. assert (H : (-1) ^ j * (-1) ^ j = 1) by (rewrite <- Rpow_mult_distr; replace (-1 * -1) with 1 by ring; apply pow1).
  assert ((-1) ^ j <> 0) by (apply pow_nonzero; lra).
  assert (/ (-1) ^ j = (-1) ^ j) by (apply Rmult_eq_reg_l with ((-1) ^ j); auto; rewrite H; field; auto).
  destruct (_ || _); rewrite Rinv_mult, H1; field.
Qed.
Lemma c_nonzero : forall N j, cheb_c N j <> 0.
Proof.
  intros. unfold cheb_c. apply Rmult_integral_contrapositive_currified; [apply pow_nonzero; lra|].
  destruct (_ || _); lra.
Qed.
Lemma cheb_annihilates : forall N q, (1 <= N)%nat -> (length q <= N)%nat ->
  rsum (S N) (fun j => / cheb_c N j * peval q (cheb_nodes N j)) = 0.
Proof.
  intros N q HN Hq. destruct (span_poly q (N - 1)) as [a Ha]; [lia|].
  rewrite (rsum_ext _ _ (fun j => rsum (S (N - 1)) (fun k => a k * (hw N j * (cs N N j * cs N k j))))).
  2:{ intros j _. rewrite c_inv. unfold cheb_nodes. rewrite Ha, <- rsum_scal. apply rsum_ext.
      intros k _. rewrite cs_N by auto. unfold cs. ring. }
  rewrite rsum_swap. apply rsum_zero. intros k Hk. rewrite rsum_scal. fold (orth_sum N N k).
  rewrite orth_ne by lia. ring.
Qed.

Lemma D_off : forall N i j, i <> j -> cheb_D N i j = / cheb_c N j / / cheb_c N i / (cheb_nodes N i - cheb_nodes N j).
Proof.
  intros. unfold cheb_D, cheb_Dn. destruct (Nat.eqb_spec i j); [contradiction|].
  rewrite Rplus_0_r, Rminus_0_r. unfold Rdiv. rewrite Rinv_inv. ring.
Qed.
Lemma D_row_sum : forall N i, (i <= N)%nat -> rsum (S N) (fun j => cheb_D N i j) = 0.
Proof.
  intros. unfold cheb_D. rewrite rsum_minus. fold (rsum (S N)).
  set (s := rsum (S N) (fun k => cheb_Dn N i k)).
  rewrite (rsum_ext _ (fun j => if (i =? j)%nat then s else 0) (fun j => if (j =? i)%nat then (fun _ => s) j else 0)).
  - rewrite rsum_delta by lia. ring.
  - intros. rewrite Nat.eqb_sym. destruct (i0 =? i)%nat; auto.
Qed.

Lemma D_apply : forall N i v, (i <= N)%nat ->
  rsum (S N) (fun j => cheb_D N i j * v j) =
  rsum (S N) (fun j => if (j =? i)%nat then 0 else cheb_D N i j * (v j - v i)).
Proof.
  intros N i v Hi.
  assert (E : rsum (S N) (fun j => cheb_D N i j * v j) = rsum (S N) (fun j => cheb_D N i j * (v j - v i))).
  { rewrite (rsum_ext _ (fun j => cheb_D N i j * (v j - v i)) (fun j => cheb_D N i j * v j - cheb_D N i j * v i)) by (intros; ring).
    rewrite rsum_minus, rsum_scal_r, D_row_sum by auto. ring. }
  rewrite E. apply rsum_ext. intros j Hj. destruct (Nat.eqb_spec j i); subst; ring.
Qed.

Lemma cheb_D_exact : forall N p i, (1 <= N)%nat -> (i <= N)%nat -> (length p <= S N)%nat ->
  rsum (S N) (fun j => cheb_D N i j * peval p (cheb_nodes N j)) = peval (pder p) (cheb_nodes N i).
Proof.
  intros N p i HN Hi Hp.
  rewrite (diff_from_weights N (cheb_nodes N) (fun j => / cheb_c N j) p i).
  - rewrite (D_apply N i (fun j => peval p (cheb_nodes N j))) by auto.
    apply rsum_ext. intros j Hj. destruct (Nat.eqb_spec j i); auto. rewrite D_off by auto. auto.
  - intros; apply cheb_annihilates; auto.
  - apply nodes_distinct; auto.
  - lia.
  - apply Rinv_neq_0_compat, c_nonzero.
  - auto.
Qed.

Lemma cheb_D_poly : forall N p p', (1 <= N)%nat -> is_poly N p -> derivative_of p p' ->
  forall i, (i <= N)%nat -> rsum (S N) (fun j => cheb_D N i j * p (cheb_nodes N j)) = p' (cheb_nodes N i).
Proof.
  intros N p p' HN Hp Hd i Hi. destruct (is_poly_list N p Hp) as [l [Hl He]].
  rewrite (rsum_ext _ _ (fun j => cheb_D N i j * peval l (cheb_nodes N j))) by (intros; rewrite He; auto).
  rewrite cheb_D_exact by auto. apply derivable_unique with (peval l) (cheb_nodes N i); [apply peval_derivable|].
  apply derivable_pt_lim_ext with p; auto.
Qed.

Lemma c_mirror : forall N i, (i <= N)%nat -> cheb_c N (N - i) = (-1) ^ N * cheb_c N i.
Proof.
  intros. unfold cheb_c.
  assert (E : (-1) ^ (N - i) = (-1) ^ N * (-1) ^ i).
  { replace N with ((N - i) + i)%nat at 2 by lia. rewrite pow_add, Rmult_assoc, <- Rpow_mult_distr.
    replace (-1 * -1) with 1 by ring. rewrite pow1. ring. }
  rewrite E. destruct (Nat.eqb_spec (N - i) 0), (Nat.eqb_spec (N - i) N), (Nat.eqb_spec i 0), (Nat.eqb_spec i N); simpl; try lia; ring.
Qed.
Lemma Dn_mirror : forall N i j, (1 <= N)%nat -> (i <= N)%nat -> (j <= N)%nat -> i <> j ->
  cheb_Dn N (N - i) (N - j) = - cheb_Dn N i j.
Proof.
  intros N i j HN Hi Hj Hne. unfold cheb_Dn. rewrite !c_mirror, !nodes_symmetric by auto.
  destruct (Nat.eqb_spec i j); [contradiction|]. destruct (Nat.eqb_spec (N - i) (N - j)); [lia|].
  rewrite !Rplus_0_r. assert (H := nodes_distinct N HN i j ltac:(lia) ltac:(lia) Hne).
  assert (Hc := c_nonzero N j). assert ((-1) ^ N <> 0) by (apply pow_nonzero; lra).
  field. repeat split; auto; lra.
Qed.
Lemma D_mirror : forall N i j, (1 <= N)%nat -> (i <= N)%nat -> (j <= N)%nat ->
  cheb_D N (N - i) (N - j) = - cheb_D N i j.
Proof.
  intros N i j HN Hi Hj.
  assert (Off : forall i j, (i <= N)%nat -> (j <= N)%nat -> i <> j -> cheb_D N (N - i) (N - j) = - cheb_D N i j).
  { clear i j Hi Hj. intros i j Hi Hj Hne. unfold cheb_D.
    destruct (Nat.eqb_spec i j); [contradiction|]. destruct (Nat.eqb_spec (N - i) (N - j)); [lia|].
    rewrite Dn_mirror by auto. ring. }
  destruct (Nat.eq_dec i j) as [->|Hne]; [|auto].
  assert (H1 := D_row_sum N j Hj). assert (H2 := D_row_sum N (N - j) ltac:(lia)).
  rewrite (rsum_isolate (S N) j) in H1 by lia. rewrite rsum_rev in H2.
  rewrite (rsum_isolate (S N) j) in H2 by lia.
  replace (S N - 1 - j)%nat with (N - j)%nat in H2 by lia.
  rewrite (rsum_ext (S N) (fun i => if (i =? j)%nat then 0 else cheb_D N (N - j) (S N - 1 - i))
             (fun i => - (if (i =? j)%nat then 0 else cheb_D N j i))) in H2.
  - rewrite rsum_opp in H2. lra.
  - intros k Hk. destruct (Nat.eqb_spec k j); [ring|]. replace (S N - 1 - k)%nat with (N - k)%nat by lia.
    apply Off; auto; lia.
Qed.

(** * Clenshaw-Curtis weights *)
Definition cc_b (N k : nat) : R := if (2 * k =? N)%nat then 1 else 2.
Lemma cc_loop_sum : forall K t v, cc_loop K t v =
  v - rsum K (fun k => 2 / (4 * INR (S k) ^ 2 - 1) * cos (2 * INR (S k) * t)).
Proof.
  induction K; intros; [rewrite rsum_0; simpl; ring|]. rewrite rsum_S.
  change (cc_loop (S K) t v) with (cc_loop K t v - 2 / (4 * INR (S K) ^ 2 - 1) * cos (2 * INR (S K) * t)).
  rewrite IHK. ring.
Qed.
Lemma half_even : forall N, Nat.even N = true -> N = (2 * (N / 2))%nat.
Proof. intros. apply Nat.even_spec in H. destruct H as [k ->]. rewrite Nat.mul_comm, Nat.div_mul by lia. lia. Qed.
Lemma half_odd : forall N, Nat.even N = false -> N = (2 * (N / 2) + 1)%nat.
Proof.
  intros. assert (Nat.odd N = true) by (unfold Nat.odd; rewrite H; auto).
  apply Nat.odd_spec in H0. destruct H0 as [k ->].
  replace (2 * k + 1)%nat with (1 + k * 2)%nat by lia. rewrite Nat.div_add by lia. simpl. lia.
Qed.
Lemma cc_den : forall k, (1 <= k)%nat -> 0 < 4 * INR k ^ 2 - 1.
Proof. intros. assert (1 <= INR k) by (replace 1 with (INR 1) by reflexivity; apply le_INR; auto). nra. Qed.

Lemma cc_v_sum : forall N t, (1 <= N)%nat ->
  cc_v N t = 1 - rsum (N / 2) (fun k => cc_b N (S k) / (4 * INR (S k) ^ 2 - 1) * cos (INR (2 * S k) * t)).
Proof.
  intros N t HN. unfold cc_v. destruct (Nat.even N) eqn:E.
  - assert (H := half_even N E). set (M := (N / 2)%nat) in *. destruct M as [|M]; [lia|].
    rewrite cc_loop_sum. replace (S M - 1)%nat with M by lia. rewrite rsum_S.
    assert (Eb : cc_b N (S M) = 1) by (unfold cc_b; rewrite <- H, Nat.eqb_refl; auto). rewrite Eb.
    rewrite (rsum_ext M _ (fun k => cc_b N (S k) / (4 * INR (S k) ^ 2 - 1) * cos (INR (2 * S k) * t))).
    + replace (4 * INR (S M) ^ 2 - 1) with (INR N ^ 2 - 1).
      2:{ rewrite H at 1. rewrite mult_INR. simpl (INR 2). ring. }
      rewrite <- H. unfold Rdiv. ring.
    + intros k Hk. unfold cc_b. destruct (Nat.eqb_spec (2 * S k) N); [lia|]. rewrite mult_INR. simpl (INR 2).
      replace (1 + 1) with 2 by ring. auto.
  - assert (H := half_odd N E). set (M := (N / 2)%nat) in *.
    replace ((N - 1) / 2)%nat with M.
    2:{ rewrite H. replace (2 * M + 1 - 1)%nat with (M * 2)%nat by lia. rewrite Nat.div_mul; lia. }
    rewrite cc_loop_sum. f_equal. apply rsum_ext. intros k Hk. unfold cc_b.
    destruct (Nat.eqb_spec (2 * S k) N); [lia|]. rewrite mult_INR. simpl (INR 2). replace (1 + 1) with 2 by ring. auto.
Qed.

Lemma cc_tele : forall M, rsum M (fun k => 2 / (4 * INR (S k) ^ 2 - 1)) = 1 - 1 / (2 * INR M + 1).
Proof.
  induction M; [rewrite rsum_0; simpl; field|]. rewrite rsum_S, IHM.
  assert (0 <= INR M) by apply pos_INR. rewrite S_INR. field.
  repeat split; nra.
Qed.
Lemma cc_v_0 : forall N, (1 <= N)%nat -> cc_v N 0 = if Nat.even N then INR N / (INR N ^ 2 - 1) else 1 / INR N.
Proof.
  intros N HN. rewrite cc_v_sum by auto.
  rewrite (rsum_ext _ _ (fun k => cc_b N (S k) / (4 * INR (S k) ^ 2 - 1))).
  2:{ intros. rewrite Rmult_0_r, cos_0. ring. }
  destruct (Nat.even N) eqn:E.
  - assert (H := half_even N E). set (M := (N / 2)%nat) in *. destruct M as [|M]; [lia|].
    rewrite rsum_S. assert (Eb : cc_b N (S M) = 1) by (unfold cc_b; rewrite <- H, Nat.eqb_refl; auto). rewrite Eb.
    rewrite (rsum_ext M _ (fun k => 2 / (4 * INR (S k) ^ 2 - 1))).
    + rewrite cc_tele. rewrite H, mult_INR, S_INR. simpl (INR 2). assert (0 <= INR M) by apply pos_INR.
      field. repeat split; nra.
    + intros k Hk. unfold cc_b. destruct (Nat.eqb_spec (2 * S k) N); [lia|]. auto.
  - assert (H := half_odd N E). set (M := (N / 2)%nat) in *.
    rewrite (rsum_ext M _ (fun k => 2 / (4 * INR (S k) ^ 2 - 1))).
    + rewrite cc_tele. rewrite H, plus_INR, mult_INR. simpl (INR 2). simpl (INR 1). assert (0 <= INR M) by apply pos_INR.
      field. nra.
    + intros k Hk. unfold cc_b. destruct (Nat.eqb_spec (2 * S k) N); [lia|]. auto.
Qed.
Lemma cc_v_PI : forall N, (1 <= N)%nat -> cc_v N PI = cc_v N 0.
Proof.
  intros. rewrite !cc_v_sum by auto. f_equal. apply rsum_ext. intros k _. f_equal.
  rewrite cos_nPI, Rmult_0_r, cos_0, pow_mult. replace ((-1) ^ 2) with 1 by ring. apply pow1.
Qed.

Lemma cc_weight_uniform : forall N i, (1 <= N)%nat -> (i <= N)%nat ->
  cheb_int_weights N i = hw N i * (2 / INR N * cc_v N (cheb_theta N i)).
Proof.
  intros N i HN Hi. unfold cheb_int_weights, hw. destruct ((i =? 0)%nat || (i =? N)%nat) eqn:E; [|ring].
  assert (Ev : cc_v N (cheb_theta N i) = cc_v N 0).
  { apply orb_true_iff in E. destruct E as [E|E]; apply Nat.eqb_eq in E; subst i.
    - f_equal. unfold cheb_theta. simpl. ring.
    - rewrite theta_N by auto. apply cc_v_PI; auto. }
  rewrite Ev, cc_v_0 by auto. assert (HR := INR_pos N HN). destruct (Nat.even N) eqn:Ee.
  - assert (2 <= INR N).
    { assert (H := half_even N Ee). replace 2 with (INR 2) by (simpl; lra). apply le_INR. lia. }
    field. split; nra.
  - field. lra.
Qed.

(** integral of cos (n t) as a function of x = cos t over [-1,1] *)
Definition cheb_moment (n : nat) : R := if Nat.even n then 2 / (1 - INR n ^ 2) else 0.

Lemma cc_moment : forall N n, (1 <= N)%nat -> (n <= N)%nat ->
  rsum (S N) (fun i => cheb_int_weights N i * cs N n i) = cheb_moment n.
Proof.
  intros N n HN Hn. assert (HR := INR_pos N HN).
  rewrite (rsum_ext _ _ (fun i => 2 / INR N * (hw N i * (cs N 0 i * cs N n i))
      - 2 / INR N * rsum (N / 2) (fun k => cc_b N (S k) / (4 * INR (S k) ^ 2 - 1) * (hw N i * (cs N (2 * S k) i * cs N n i))))).
  2:{ intros i Hi. rewrite cc_weight_uniform by lia. rewrite cc_v_sum by auto. rewrite cs_0.
      rewrite (rsum_ext (N / 2) (fun k => cc_b N (S k) / (4 * INR (S k) ^ 2 - 1) * (hw N i * (cs N (2 * S k) i * cs N n i)))
         (fun k => (cc_b N (S k) / (4 * INR (S k) ^ 2 - 1) * cos (INR (2 * S k) * cheb_theta N i)) * (hw N i * cs N n i))).
      - rewrite rsum_scal_r. ring.
      - intros. unfold cs. ring. }
  rewrite rsum_minus, !rsum_scal, rsum_swap. fold (orth_sum N 0 n).
  rewrite (rsum_ext (N / 2) _ (fun k => cc_b N (S k) / (4 * INR (S k) ^ 2 - 1) * orth_sum N (2 * S k) n)).
  2:{ intros. rewrite rsum_scal. auto. }
  assert (HM : (2 * (N / 2) <= N)%nat) by (apply Nat.mul_div_le; lia).
  unfold cheb_moment. destruct (Nat.even n) eqn:E.
  - assert (Hh := half_even n E). set (m := (n / 2)%nat) in *. destruct m as [|m].
    + assert (n = O) by lia. subst n. rewrite orth_0 by auto. rewrite rsum_zero.
      * change (INR (2 * 0)) with 0. replace (1 - 0 ^ 2) with 1 by ring. field. lra.
      * intros k Hk. rewrite orth_ne by lia. ring.
    + rewrite (orth_ne N 0 n) by lia.
      assert (Hm : (m < N / 2)%nat).
      { apply Nat.div_le_lower_bound; lia. }
      rewrite (rsum_isolate _ m) by auto. rewrite rsum_zero.
      2:{ intros k Hk. destruct (Nat.eqb_spec k m); auto. rewrite orth_ne by lia. ring. }
      rewrite <- Hh.
      assert (Hd := cc_den (S m) ltac:(lia)).
      assert (Hn2 : INR n ^ 2 = 4 * INR (S m) ^ 2) by (rewrite Hh, mult_INR; simpl (INR 2); ring).
      rewrite Hn2. unfold cc_b. destruct (Nat.eqb_spec (2 * S m) N) as [EN|EN].
      * replace n with N by lia. rewrite orth_N by auto. field. repeat split; lra.
      * rewrite orth_eq by lia. field. repeat split; lra.
  - assert (Hh := half_odd n E). rewrite orth_ne by lia. rewrite rsum_zero; [ring|].
    intros k Hk. rewrite orth_ne by lia. ring.
Qed.

(** derivative of a finite sum *)
Lemma derivable_rsum : forall n (f f' : nat -> R -> R) x,
  (forall k, (k < n)%nat -> derivable_pt_lim (f k) x (f' k x)) ->
  derivable_pt_lim (fun y => rsum n (fun k => f k y)) x (rsum n (fun k => f' k x)).
Proof.
  induction n; intros f f' x H.
  - rewrite rsum_0. apply derivable_pt_lim_ext with (fct_cte 0); [intro; auto|]. apply derivable_pt_lim_const.
  - rewrite rsum_S. apply derivable_pt_lim_ext with (plus_fct (fun y => rsum n (fun k => f k y)) (f n)).
    + intro. unfold plus_fct. rewrite rsum_S. auto.
    + apply derivable_pt_lim_plus; auto.
Qed.
Lemma derivable_cos_lin : forall c x, derivable_pt_lim (fun t => cos (c * t)) x (- sin (c * x) * c).
Proof.
  intros. apply (derivable_pt_lim_comp (fun t => c * t) cos).
  - apply derivable_pt_lim_ext with (mult_real_fct c id); [intro; auto|].
    replace c with (c * 1) at 2 by ring. apply derivable_pt_lim_scal, derivable_pt_lim_id.
  - apply derivable_pt_lim_cos.
Qed.
Lemma derivable_sin_lin : forall c x, derivable_pt_lim (fun t => sin (c * t)) x (cos (c * x) * c).
Proof.
  intros. apply (derivable_pt_lim_comp (fun t => c * t) sin).
  - apply derivable_pt_lim_ext with (mult_real_fct c id); [intro; auto|].
    replace c with (c * 1) at 2 by ring. apply derivable_pt_lim_scal, derivable_pt_lim_id.
  - apply derivable_pt_lim_sin.
Qed.

Definition mom_prim (k : nat) (t : R) : R :=
  if (k =? 1)%nat then / 4 * cos (2 * t)
  else / (2 * (INR k + 1)) * cos ((INR k + 1) * t) - / (2 * (INR k - 1)) * cos ((INR k - 1) * t).
Lemma mom_prim_der : forall k x, derivable_pt_lim (mom_prim k) x (- (cos (INR k * x) * sin x)).
Proof.
  intros k x. unfold mom_prim. destruct (Nat.eqb_spec k 1) as [->|Hk].
  - simpl INR. rewrite Rmult_1_l.
    replace (- (cos x * sin x)) with (/ 4 * (- sin (2 * x) * 2)) by (rewrite sin_2a; field).
    apply (derivable_pt_lim_scal (fun t => cos (2 * t))). apply derivable_cos_lin.
  - assert (Hk1 : INR k - 1 <> 0). { intro E. apply Hk. apply INR_eq. simpl. lra. }
    assert (Hk2 : INR k + 1 <> 0). { assert (0 <= INR k) by apply pos_INR. lra. }
    replace (- (cos (INR k * x) * sin x)) with
      (/ (2 * (INR k + 1)) * (- sin ((INR k + 1) * x) * (INR k + 1)) - / (2 * (INR k - 1)) * (- sin ((INR k - 1) * x) * (INR k - 1))).
    + apply (derivable_pt_lim_minus (fun t => / (2 * (INR k + 1)) * cos ((INR k + 1) * t)) (fun t => / (2 * (INR k - 1)) * cos ((INR k - 1) * t))).
      * apply (derivable_pt_lim_scal (fun t => cos ((INR k + 1) * t))). apply derivable_cos_lin.
      * apply (derivable_pt_lim_scal (fun t => cos ((INR k - 1) * t))). apply derivable_cos_lin.
    + replace ((INR k + 1) * x) with (INR k * x + x) by ring. replace ((INR k - 1) * x) with (INR k * x - x) by ring.
      rewrite sin_plus, sin_minus. field. split; auto.
Qed.
Lemma mom_prim_diff : forall k, mom_prim k 0 - mom_prim k PI = cheb_moment k.
Proof.
  intros k. unfold mom_prim, cheb_moment. destruct (Nat.eqb_spec k 1) as [->|Hk].
  - simpl. rewrite Rmult_0_r, cos_0. rewrite cos_2PI. ring.
  - assert (Hk1 : INR k - 1 <> 0). { intro E. apply Hk. apply INR_eq. simpl. lra. }
    assert (Hk2 : INR k + 1 <> 0). { assert (0 <= INR k) by apply pos_INR. lra. }
    rewrite !Rmult_0_r, cos_0.
    assert (E1 : cos ((INR k + 1) * PI) = - (-1) ^ k).
    { replace ((INR k + 1) * PI) with (INR k * PI + PI) by ring. rewrite cos_plus, cos_nPI, cos_PI, sin_PI. ring. }
    assert (E2 : cos ((INR k - 1) * PI) = - (-1) ^ k).
    { replace ((INR k - 1) * PI) with (INR k * PI - PI) by ring. rewrite cos_minus, cos_nPI, cos_PI, sin_PI. ring. }
    rewrite E1, E2. destruct (Nat.even k) eqn:E.
    + assert (Ep : (-1) ^ k = 1) by (rewrite (half_even k E), pow_mult; replace ((-1) ^ 2) with 1 by ring; apply pow1).
      rewrite Ep.
      field. repeat split; auto. intro. assert (H1 : (INR k - 1) * (INR k + 1) = 0) by lra.
      apply Rmult_integral in H1. destruct H1; contradiction.
    + assert (Ep : (-1) ^ k = -1) by (rewrite (half_odd k E), pow_add, pow_mult; replace ((-1) ^ 2) with 1 by ring; rewrite pow1; ring).
      rewrite Ep. field. repeat split; auto.
Qed.

Lemma integral_expansion : forall n F p a, (forall x, derivable_pt_lim F x (p x)) ->
  (forall t, p (cos t) = rsum n (fun k => a k * cos (INR k * t))) ->
  F 1 - F (-1) = rsum n (fun k => a k * cheb_moment k).
Proof.
  intros n F p a HF Ha.
  assert (E := derive_eq_diff (comp F cos) (fun t => rsum n (fun k => a k * mom_prim k t)) (fun t => - (p (cos t) * sin t))).
  assert (E1 : forall x, derivable_pt_lim (comp F cos) x (- (p (cos x) * sin x))).
  { intro x. replace (- (p (cos x) * sin x)) with (p (cos x) * - sin x) by ring.
    apply derivable_pt_lim_comp; [apply derivable_pt_lim_cos|apply HF]. }
  assert (E2 : forall x, derivable_pt_lim (fun t => rsum n (fun k => a k * mom_prim k t)) x (- (p (cos x) * sin x))).
  { intro x. rewrite Ha. replace (- (rsum n (fun k => a k * cos (INR k * x)) * sin x))
      with (rsum n (fun k => a k * - (cos (INR k * x) * sin x))).
    - apply (derivable_rsum n (fun k t => a k * mom_prim k t) (fun k t => a k * - (cos (INR k * t) * sin t))).
      intros k Hk. apply (derivable_pt_lim_scal (mom_prim k)). apply mom_prim_der.
    - rewrite <- rsum_scal_r, <- rsum_opp. apply rsum_ext; intros; ring. }
  specialize (E E1 E2 PI 0). unfold comp in E. rewrite cos_0, cos_PI in E. rewrite E, <- rsum_minus.
  apply rsum_ext. intros. rewrite <- mom_prim_diff. ring.
Qed.

Lemma cc_exact : forall N p F, (1 <= N)%nat -> is_poly N p -> derivative_of F p ->
  rsum (S N) (fun i => cheb_int_weights N i * p (cheb_nodes N i)) = F 1 - F (-1).
Proof.
  intros N p F HN Hp HF. destruct (is_poly_list N p Hp) as [l [Hl He]].
  destruct (span_poly l N Hl) as [a Ha].
  rewrite (integral_expansion (S N) F p a HF) by (intro; rewrite He; apply Ha).
  rewrite (rsum_ext _ _ (fun i => rsum (S N) (fun k => a k * (cheb_int_weights N i * cs N k i)))).
  - rewrite rsum_swap. apply rsum_ext. intros k Hk. rewrite rsum_scal, cc_moment by lia. auto.
  - intros i _. rewrite He. unfold cheb_nodes. rewrite Ha, <- rsum_scal. apply rsum_ext. intros. unfold cs. ring.
Qed.

Lemma cc_sum : forall N, (1 <= N)%nat -> rsum (S N) (cheb_int_weights N) = 2.
Proof.
  intros. assert (E := cc_moment N 0 H ltac:(lia)).
  rewrite (rsum_ext _ _ (cheb_int_weights N)) in E by (intros; rewrite cs_0; ring).
  rewrite E. unfold cheb_moment. simpl. field.
Qed.
Lemma cc_symmetric : forall N i, (1 <= N)%nat -> (i <= N)%nat -> cheb_int_weights N (N - i) = cheb_int_weights N i.
Proof.
  intros N i HN Hi. rewrite !cc_weight_uniform by lia. rewrite theta_mirror by auto.
  assert (E1 : hw N (N - i) = hw N i).
  { unfold hw. destruct (Nat.eqb_spec (N - i) 0), (Nat.eqb_spec (N - i) N), (Nat.eqb_spec i 0), (Nat.eqb_spec i N); auto; lia. }
  rewrite E1. do 2 f_equal. rewrite !cc_v_sum by auto. f_equal. apply rsum_ext. intros k _. f_equal.
  rewrite Rmult_minus_distr_l, cos_minus, cos_nPI, sin_nPI, pow_mult.
  replace ((-1) ^ 2) with 1 by ring. rewrite pow1. ring.
Qed.
Lemma cc_positive : forall N i, (1 <= N)%nat -> (i <= N)%nat -> 0 < cheb_int_weights N i.
Proof.
  intros N i HN Hi. rewrite cc_weight_uniform by auto. assert (HR := INR_pos N HN).
  apply Rmult_lt_0_compat; [unfold hw; destruct (_ || _); lra|].
  apply Rmult_lt_0_compat; [apply Rdiv_lt_0_compat; lra|].
  apply Rlt_le_trans with (cc_v N 0).
  - rewrite cc_v_0 by auto. destruct (Nat.even N) eqn:Ee; [|apply Rdiv_lt_0_compat; lra].
    assert (2 <= INR N).
    { assert (H := half_even N Ee). replace 2 with (INR 2) by (simpl; lra). apply le_INR. lia. }
    apply Rdiv_lt_0_compat; nra.
  - rewrite !cc_v_sum by auto. apply Rplus_le_compat_l. apply Ropp_le_contravar.
    apply rsum_le. intros k Hk. apply Rmult_le_compat_l.
    + apply Rlt_le, Rdiv_lt_0_compat; [unfold cc_b; destruct (_ =? _)%nat; lra|apply cc_den; lia].
    + rewrite Rmult_0_r, cos_0. apply COS_bound.
Qed.

(** affine substitution keeps the degree *)
Lemma poly_affine : forall s d l n, (length l <= S n)%nat -> is_poly n (fun x => peval l (s * x + d)).
Proof.
  intros s d. induction l; intros n H.
  - exists (fun _ => 0). intro. rewrite rsum_zero; auto. intros; ring.
  - destruct n.
    + destruct l; [|simpl in H; lia]. exists (fun _ => a). intro x. rewrite rsum_S, rsum_0. simpl. ring.
    + destruct (IHl n ltac:(simpl in H; lia)) as [c Hc].
      assert (P : is_poly (S n) (peval (padd [a] (pmul [d; s] (plist (S n) c))))).
      { apply list_is_poly. rewrite length_add. simpl length at 1.
        assert (length (pmul [d; s] (plist (S n) c)) <= S (1 + n))%nat by (apply length_mul_le; [simpl; lia|rewrite length_plist; lia]). lia. }
      destruct P as [e He]. exists e. intro x. rewrite <- He.
      rewrite peval_add, peval_mul, peval_plist, <- Hc. simpl. ring.
Qed.

Lemma integrate_exact : forall N f F t0 tf, (1 <= N)%nat -> is_poly N f -> derivative_of F f ->
  cheb_integrate N f t0 tf = F tf - F t0.
Proof.
  intros N f F t0 tf HN Hf HF. unfold cheb_integrate. set (s := (tf - t0) / 2). set (d := (tf + t0) / 2).
  destruct (is_poly_list N f Hf) as [l [Hl He]].
  assert (Hpoly : is_poly N (fun x => s * f (s * x + d))).
  { destruct (poly_affine s d l N Hl) as [c Hc']. exists (fun k => s * c k). intro x. rewrite He, Hc', <- rsum_scal.
    apply rsum_ext; intros; ring. }
  assert (E := cc_exact N (fun x => s * f (s * x + d)) (fun x => F (s * x + d)) HN Hpoly).
  replace (F tf - F t0) with (F (s * 1 + d) - F (s * -1 + d)) by (f_equal; f_equal; try f_equal; unfold s, d; field).
  rewrite <- E.
  - change (s * rsum (S N) (fun i => f (s * cheb_nodes N i + d) * cheb_int_weights N i)
            = rsum (S N) (fun i => cheb_int_weights N i * (s * f (s * cheb_nodes N i + d)))).
    rewrite <- rsum_scal. apply rsum_ext; intros; ring.
  - intro x. replace (s * f (s * x + d)) with (f (s * x + d) * s) by ring.
    apply (derivable_pt_lim_comp (fun y => s * y + d) F); [|apply HF].
    apply derivable_pt_lim_ext with (plus_fct (mult_real_fct s id) (fct_cte d)); [intro; auto|].
    replace s with (s * 1 + 0) at 2 by ring.
    apply derivable_pt_lim_plus; [apply derivable_pt_lim_scal, derivable_pt_lim_id|apply derivable_pt_lim_const].
Qed.

(** * Gauss-Lobatto-Chebyshev weights *)
Lemma quad_hw : forall N i, cheb_quad_weights N i = PI / INR N * hw N i.
Proof. intros. unfold cheb_quad_weights, hw. destruct (_ || _); ring. Qed.

Lemma quad_exact : forall N p G, (1 <= N)%nat -> is_poly (2 * N - 1) p ->
  (forall t, derivable_pt_lim G t (p (cos t))) ->
  rsum (S N) (fun i => cheb_quad_weights N i * p (cheb_nodes N i)) = G PI - G 0.
Proof.
  intros N p G HN Hp HG. assert (HR := INR_pos N HN). destruct (is_poly_list _ p Hp) as [l [Hl He]].
  destruct (span_poly l (2 * N - 1) Hl) as [a Ha].
  set (M := S (2 * N - 1)) in *.
  assert (L : rsum (S N) (fun i => cheb_quad_weights N i * p (cheb_nodes N i)) = PI * a O).
  { rewrite (rsum_ext _ _ (fun i => rsum M (fun k => PI / INR N * a k * (hw N i * cs N k i)))).
    - rewrite rsum_swap. unfold M. rewrite rsum_first.
      rewrite rsum_scal, (rsum_ext (S N) _ (hw N)) by (intros; rewrite cs_0; ring). rewrite hw_sum by auto.
      rewrite rsum_zero; [field; lra|]. intros k Hk. rewrite rsum_scal, cs_sum_zero by lia. ring.
    - intros i _. rewrite He, quad_hw. unfold cheb_nodes. rewrite Ha, <- rsum_scal. apply rsum_ext. intros. unfold cs. ring. }
  rewrite L.
  set (prim := fun (k : nat) (t : R) => match k with O => t | S _ => / INR k * sin (INR k * t) end).
  assert (E := derive_eq_diff G (fun t => rsum M (fun k => a k * prim k t)) (fun t => p (cos t)) HG).
  assert (E2 : forall x, derivable_pt_lim (fun t => rsum M (fun k => a k * prim k t)) x (p (cos x))).
  { intro x. rewrite He, Ha. apply (derivable_rsum M (fun k t => a k * prim k t) (fun k t => a k * cos (INR k * t))).
    intros k Hk. apply (derivable_pt_lim_scal (prim k)). unfold prim. destruct k.
    - change (INR 0) with 0. rewrite Rmult_0_l, cos_0. apply derivable_pt_lim_id.
    - assert (INR (S k) <> 0) by (apply not_0_INR; lia).
      replace (cos (INR (S k) * x)) with (/ INR (S k) * (cos (INR (S k) * x) * INR (S k))) by (field; auto).
      apply (derivable_pt_lim_scal (fun t => sin (INR (S k) * t))). apply derivable_sin_lin. }
  rewrite (E E2 0 PI), <- rsum_minus. unfold M. rewrite rsum_first. rewrite rsum_zero.
  - simpl prim. ring.
  - intros k _. unfold prim. rewrite sin_nPI, (Rmult_0_r (INR (S k))), sin_0. ring.
Qed.

(** * Chebyshev projection *)
Lemma eval_node : forall N n i, (1 <= N)%nat -> (i <= N)%nat -> cheb_eval (cheb_nodes N i) n = cs N n i.
Proof.
  intros. unfold cheb_eval, cheb_nodes, cs. rewrite acos_cos; auto. apply theta_range; auto.
Qed.

Lemma project_expansion : forall N f a b al, (1 <= N)%nat ->
  (forall t, f ((b - a) / 2 * cos t + (b + a) / 2) = rsum (S N) (fun k => al k * cos (INR k * t))) ->
  forall n, (n <= N)%nat -> cheb_project N f a b n = if (n =? N)%nat then 2 * al n else al n.
Proof.
  intros N f a b al HN Ha n Hn. unfold cheb_project. assert (HR := INR_pos N HN). assert (HP := PI_RGT_0).
  change (cheb_norm_factors N n * rsum (S N) (fun i => f ((b - a) / 2 * cheb_nodes N i + (b + a) / 2)
    * cheb_eval (cheb_nodes N i) n * cheb_quad_weights N i) = (if (n =? N)%nat then 2 * al n else al n)).
  rewrite (rsum_ext (S N) _ (fun i => rsum (S N) (fun k => PI / INR N * al k * (hw N i * (cs N k i * cs N n i))))).
  2:{ intros i Hi. rewrite quad_hw, eval_node by lia. unfold cheb_nodes. rewrite Ha.
      rewrite Rmult_assoc, <- rsum_scal_r. apply rsum_ext. intros k _. unfold cs. ring. }
  rewrite rsum_swap.
  rewrite (rsum_ext (S N) _ (fun k => PI / INR N * al k * orth_sum N k n)) by (intros; rewrite rsum_scal; auto).
  rewrite (rsum_isolate (S N) n) by lia. rewrite rsum_zero.
  2:{ intros k Hk. destruct (Nat.eqb_spec k n); auto. rewrite orth_ne by lia. ring. }
  unfold cheb_norm_factors. destruct (Nat.eqb_spec n N) as [->|Hne].
  - destruct (Nat.eqb_spec N 0); [lia|]. rewrite orth_N by auto. field. lra.
  - destruct (Nat.eqb_spec n 0) as [->|H0].
    + rewrite orth_0 by auto. field. lra.
    + rewrite orth_eq by lia. field. lra.
Qed.

Lemma project_reproduces : forall N f a b, (1 <= N)%nat -> a < b -> is_poly (N - 1) f ->
  forall x, a <= x <= b -> cheb_proj_eval N (cheb_project N f a b) a b x = f x.
Proof.
  intros N f a b HN Hab Hf x Hx. destruct (is_poly_list _ f Hf) as [l [Hl He]].
  set (s := (b - a) / 2). set (d := (b + a) / 2). assert (Hs : 0 < s) by (unfold s; lra).
  destruct (poly_affine s d l (N - 1) Hl) as [c Hc].
  destruct (span_poly (plist (S (N - 1)) c) (N - 1)) as [al Hal]; [rewrite length_plist; lia|].
  set (al' := fun k => if (k <? N)%nat then al k else 0).
  assert (Ha : forall t, f (s * cos t + d) = rsum (S N) (fun k => al' k * cos (INR k * t))).
  { intro t. rewrite He, Hc. rewrite <- peval_plist, Hal. rewrite (rsum_S N). unfold al' at 2. rewrite Nat.ltb_irrefl.
    replace (S (N - 1)) with N by lia. rewrite Rmult_0_l, Rplus_0_r. apply rsum_ext. intros k Hk. unfold al'.
    apply Nat.ltb_lt in Hk. rewrite Hk. auto. }
  unfold cheb_proj_eval. fold s d. set (y := (x - d) / s).
  assert (Hy : -1 <= y <= 1).
  { unfold y. split.
    - apply Rmult_le_reg_r with s; auto. unfold Rdiv. rewrite Rmult_assoc, Rinv_l by lra. unfold s, d. lra.
    - apply Rmult_le_reg_r with s; auto. unfold Rdiv. rewrite Rmult_assoc, Rinv_l by lra. unfold s, d. lra. }
  change (rsum (S N) (fun i => cheb_project N f a b i * cheb_eval y i) = f x).
  transitivity (f (s * cos (acos y) + d)).
  2:{ f_equal. rewrite cos_acos by auto. unfold y. field. lra. }
  rewrite Ha. apply rsum_ext. intros k Hk. rewrite (project_expansion N f a b al') by (auto; lia).
  unfold cheb_eval. destruct (Nat.eqb_spec k N) as [->|H]; auto. unfold al'. rewrite Nat.ltb_irrefl. ring.
Qed.

(** the top coefficient is doubled *)
Lemma project_id_order_one : forall x, -1 <= x <= 1 -> cheb_proj_eval 1 (cheb_project 1 (fun y => y) (-1) 1) (-1) 1 x = 2 * x.
Proof.
  intros x Hx. unfold cheb_proj_eval.
  change (rsum 2 (fun i => cheb_project 1 (fun y => y) (-1) 1 i * cheb_eval ((x - (1 + -1) / 2) / ((1 - -1) / 2)) i) = 2 * x).
  assert (E : forall n, (n <= 1)%nat -> cheb_project 1 (fun y => y) (-1) 1 n = if (n =? 1)%nat then 2 * INR n else INR n).
  { apply (project_expansion 1 (fun y => y) (-1) 1 INR); [lia|]. intro t. rewrite !rsum_S, rsum_0. change (INR 0) with 0.
    change (INR 1) with 1. rewrite (Rmult_1_l t). field. }
  rewrite !rsum_S, rsum_0. rewrite !E by lia. simpl Nat.eqb. cbv iota. unfold cheb_eval. change (INR 0) with 0. change (INR 1) with 1.
  replace ((x - (1 + -1) / 2) / ((1 - -1) / 2)) with x by field. rewrite (Rmult_1_l (acos x)), cos_acos by auto. ring.
Qed.
