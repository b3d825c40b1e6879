(** Proofs about poly_mul, poly_diff and the Legendre basis. *)
Require Import ZArith List Bool Lia Reals Lra Sorting.Permutation Sorting.Sorted.
From Verif Require Import Scal RSum PolyR Leg_Math Poly_Spec Cheb_Proofs Legendre_Model.
Import ListNotations.
Local Open Scope R_scope.

Lemma spow_pow : forall x k, @spow R R_scalar x k = x ^ k.
Proof. induction k; [reflexivity|]. cbn [spow pow smul R_scalar]. rewrite IHk; auto. Qed.
Lemma poly_eval_R : forall n (p : vec R) x, poly_eval n p x = rsum n (fun k => p k * x ^ k).
Proof. intros. unfold poly_eval. apply rsum_ext. intros. rewrite spow_pow. reflexivity. Qed.
Lemma poly_eval_peval : forall n l x, (length l <= n)%nat -> poly_eval n (pcoef l) x = peval l x.
Proof. intros. rewrite poly_eval_R. symmetry. apply peval_coef; auto. Qed.
Lemma poly_eval_ext : forall n (p q : vec R) x, (forall k, (k < n)%nat -> p k = q k) -> poly_eval n p x = poly_eval n q x.
Proof. intros. rewrite !poly_eval_R. apply rsum_ext. intros. rewrite H; auto. Qed.

Lemma eps_pos : 0 < @pm_eps R R_scalar <= 1.
Proof.
  unfold pm_eps, scst. cbn [sdiv sofZ R_scalar].
  assert (H : 1 <= IZR (2 ^ 52)) by (apply IZR_le; vm_compute; discriminate).
  split.
  - apply Rdiv_lt_0_compat; lra.
  - apply Rmult_le_reg_r with (IZR (2 ^ 52)); [lra|]. unfold Rdiv. rewrite Rmult_assoc, Rinv_l; lra.
Qed.

Lemma scan_spec : forall n (p : vec R) a, (a < n)%nat -> pm_eps <= Rabs (p a) -> (forall k, (a < k)%nat -> (k < n)%nat -> p k = 0) ->
  pm_scan n p = Some a.
Proof.
  induction n; intros p a Ha Hp Hz; [lia|].
  cbn [pm_scan sleb sabs R_scalar]. assert (He := eps_pos).
  destruct (Nat.eq_dec a n) as [->|Hne].
  - unfold Rleb. destruct (Rle_dec _ _); [auto|contradiction].
  - rewrite (Hz n) by lia. rewrite Rabs_R0. unfold Rleb. destruct (Rle_dec _ _); [lra|].
    apply IHn; auto. lia.
Qed.

Lemma pm_row_spec : forall n i (p1 p2 : vec R) J prod k,
  pm_row n i p1 p2 J prod k = if ((i <=? k) && (k <? i + J) && (k <? n))%nat%bool then p1 (k - i)%nat * p2 i else prod k.
Proof.
  intros n i p1 p2. induction J; intros prod k.
  - simpl. destruct (Nat.leb_spec i k); simpl; auto. destruct (Nat.ltb_spec k (i + 0)); [lia|auto].
  - cbn [pm_row]. destruct (Nat.ltb_spec (i + J) n) as [H|H].
    + unfold upd. destruct (Nat.eqb_spec k (i + J)) as [->|Hk].
      * destruct (Nat.leb_spec i (i + J)); [|lia]. destruct (Nat.ltb_spec (i + J) (i + S J)); [|lia].
        destruct (Nat.ltb_spec (i + J) n); [|lia]. simpl. replace (i + J - i)%nat with J by lia. reflexivity.
      * rewrite IHJ. destruct (Nat.leb_spec i k), (Nat.ltb_spec k (i + J)), (Nat.ltb_spec k (i + S J)), (Nat.ltb_spec k n); simpl; auto; lia.
    + rewrite IHJ. destruct (Nat.leb_spec i k), (Nat.ltb_spec k (i + J)), (Nat.ltb_spec k (i + S J)), (Nat.ltb_spec k n); simpl; auto; lia.
Qed.

(** rows below the only non-zero coefficient of p2 write zeros *)
Lemma pm_rows_zero : forall n (p1 p2 : vec R) J I, (forall i, (i < I)%nat -> p2 i = 0) ->
  forall k, pm_rows n p1 p2 J I (fun _ => 0) k = 0.
Proof.
  induction I; intros H k; cbn [pm_rows]; auto. rewrite pm_row_spec. rewrite H by lia.
  destruct (_ && _)%bool; [ring|]. apply IHI. auto.
Qed.

Lemma mul_monomial : forall n (p1 p2 : vec R) a m, (m < n)%nat -> (a < n)%nat ->
  pm_eps <= Rabs (p1 a) -> (forall k, (a < k)%nat -> (k < n)%nat -> p1 k = 0) ->
  pm_eps <= Rabs (p2 m) -> (forall k, k <> m -> (k < n)%nat -> p2 k = 0) ->
  exists q, poly_mul n p1 p2 = Some q /\
    forall k, (k < n)%nat -> q k = if (m <=? k)%nat then p1 (k - m)%nat * p2 m else 0.
Proof.
  intros n p1 p2 a m Hm Ha H1 H1z H2 H2z. unfold poly_mul.
  rewrite (scan_spec n p1 a), (scan_spec n p2 m) by (auto; intros; apply H2z; lia).
  eexists; split; [reflexivity|]. intros k Hk. rewrite tab_spec by auto. cbn [pm_rows]. rewrite pm_row_spec.
  change (@s0 R R_scalar) with 0.
  rewrite pm_rows_zero by (intros; apply H2z; lia).
  destruct (Nat.leb_spec m k); simpl; auto. destruct (Nat.ltb_spec k n); [|lia]. rewrite andb_true_r.
  destruct (Nat.ltb_spec k (m + S a)); auto.
  rewrite H1z by lia. ring.
Qed.

(** the product coefficients, cut at size n *)
Definition conv (p q : vec R) (k : nat) : R := rsum (S k) (fun i => p (k - i)%nat * q i).
Lemma conv_monomial : forall (p q : vec R) m k, (forall i, i <> m -> (i <= k)%nat -> q i = 0) ->
  conv p q k = if (m <=? k)%nat then p (k - m)%nat * q m else 0.
Proof.
  intros. unfold conv. destruct (Nat.leb_spec m k).
  - rewrite (rsum_isolate (S k) m) by lia. rewrite rsum_zero; [ring|]. intros i Hi.
    destruct (Nat.eqb_spec i m); auto. rewrite H by lia. ring.
  - apply rsum_zero. intros. rewrite H by lia. ring.
Qed.

Lemma diff_spec : forall n (p : vec R), (1 <= n)%nat ->
  derivative_of (fun x => poly_eval n p x) (fun x => poly_eval n (poly_diff n p) x).
Proof.
  intros n p Hn x.
  apply derivable_pt_lim_ext with (peval (plist n p)).
  - intro y. rewrite peval_plist, poly_eval_R. auto.
  - replace (poly_eval n (poly_diff n p) x) with (peval (pder (plist n p)) x); [apply peval_derivable|].
    rewrite (peval_coef _ n) by (rewrite length_der, length_plist; lia).
    rewrite poly_eval_R. apply rsum_ext. intros k Hk. f_equal. unfold poly_diff. rewrite tab_spec by auto.
    assert (HD : forall q j i, pcoef (pder_from j q) i = INR (j + i) * pcoef q i).
    { induction q; intros j i; [unfold pcoef; destruct i; simpl; ring|].
      destruct i; [unfold pcoef; simpl; rewrite Nat.add_0_r; auto|].
      change (pcoef (pder_from j (a :: q)) (S i)) with (pcoef (pder_from (S j) q) i).
      rewrite IHq. change (pcoef (a :: q) (S i)) with (pcoef q i). do 2 f_equal. lia. }
    unfold pder. rewrite HD.
    assert (HT : pcoef (tl (plist n p)) k = pcoef (plist n p) (S k)).
    { destruct (plist n p); [unfold pcoef; destruct k; auto|reflexivity]. }
    rewrite HT. cbn [smul sofZ s0 R_scalar]. destruct (Nat.ltb_spec k (n - 1)).
    + rewrite pcoef_plist by lia. rewrite <- INR_IZR_INZ. replace (1 + k)%nat with (k + 1)%nat by lia.
      replace (k + 1)%nat with (S k) by lia. auto.
    + rewrite pcoef_over by (rewrite length_plist; lia). ring.
Qed.

(** * basis *)
Lemma leg_a_R : forall n, @leg_a R R_scalar n = (2 * INR n + 1) / (INR n + 1).
Proof.
  intros. unfold leg_a. cbn [sdiv sofZ R_scalar]. rewrite !plus_IZR, mult_IZR, <- INR_IZR_INZ. auto.
Qed.
Lemma leg_c_R : forall n, @leg_c R R_scalar n = INR n / (INR n + 1).
Proof.
  intros. unfold leg_c. cbn [sdiv sofZ R_scalar]. rewrite plus_IZR, <- INR_IZR_INZ. auto.
Qed.

Lemma build_spec : forall N m, (1 <= N)%nat -> (m <= N - 1)%nat ->
  exists L, @leg_build R R_scalar N m = Some L /\
    forall c i, (c <= S m)%nat -> (i <= N)%nat -> L c i = pcoef (leg c) i.
Proof.
  intros N m HN. induction m; intros Hm.
  - eexists; split; [reflexivity|]. intros c i Hc Hi. cbv beta.
    destruct c as [|[|c]]; [| |lia].
    + rewrite leg_0. unfold pcoef. destruct i as [|[|i]]; simpl; auto.
    + rewrite leg_1. unfold pcoef. destruct i as [|[|[|i]]]; simpl; auto.
  - destruct (IHm ltac:(lia)) as [L [HL HLs]]. cbn [leg_build]. rewrite HL.
    assert (Hlead := leg_lead (S m)). assert (He := eps_pos).
    destruct (mul_monomial (N + 1) (L (S m)) (fun i => if (i =? 1)%nat then 1 else 0) (S m) 1) as [q [Hq Hqs]].
    + lia.
    + lia.
    + rewrite HLs by lia. rewrite Rabs_right; lra.
    + intros k H1 H2. rewrite HLs by lia. apply pcoef_over. rewrite length_leg. lia.
    + simpl. rewrite Rabs_right; lra.
    + intros k H1 H2. destruct (Nat.eqb_spec k 1); [contradiction|auto].
    + change (@s1 R R_scalar) with 1 in *. change (@s0 R R_scalar) with 0 in *. rewrite Hq.
      eexists; split; [reflexivity|]. intros c i Hc Hi. unfold upd.
      destruct (Nat.eqb_spec c (S m + 1)) as [->|Hne].
      * rewrite tab_spec by lia. rewrite Hqs by lia. replace (S m + 1)%nat with (S (S m)) by lia.
        replace (S m - 1)%nat with m by lia. rewrite leg_rec, pcoef_add, !pcoef_scal.
        cbn [ssub smul R_scalar]. rewrite leg_a_R, leg_c_R. rewrite (HLs m i) by lia.
        destruct i as [|i].
        -- change (pcoef (0 :: leg (S m)) 0) with 0. change (1 <=? 0)%nat with false. cbv iota. ring.
        -- change (pcoef (0 :: leg (S m)) (S i)) with (pcoef (leg (S m)) i). change (1 <=? S i)%nat with true. cbv iota.
           replace (S i - 1)%nat with i by lia. rewrite HLs by lia. simpl Nat.eqb. cbv iota. ring.
      * apply HLs; lia.
Qed.
Lemma basis_spec : forall N, (1 <= N)%nat -> exists L, @legendre_basis R R_scalar N = Some L /\
  (forall c i, (c <= N)%nat -> (i <= N)%nat -> L c i = pcoef (leg c) i) /\
  (forall c x, (c <= N)%nat -> poly_eval (N + 1) (L c) x = peval (leg c) x).
Proof.
  intros N HN. destruct (build_spec N (N - 1) HN (le_n _)) as [L [HL HLs]]. exists L. split; [auto|]. split.
  - intros. apply HLs; lia.
  - intros c x Hc. rewrite (poly_eval_ext _ _ (pcoef (leg c))).
    + apply poly_eval_peval. rewrite length_leg. lia.
    + intros. apply HLs; lia.
Qed.

(** * sorting the nodes *)
Lemma sort_ins_perm : forall (a : R) l, Permutation (a :: l) (sort_ins a l).
Proof.
  induction l; simpl; auto. destruct (Rleb a a0); auto.
  eapply perm_trans; [apply perm_swap|]. constructor; auto.
Qed.
Lemma sort_perm : forall l : list R, Permutation l (sort_list l).
Proof.
  induction l; simpl; auto. eapply perm_trans; [|apply sort_ins_perm]. constructor; auto.
Qed.
Lemma sort_ins_sorted : forall (a : R) l, StronglySorted Rle l -> StronglySorted Rle (sort_ins a l).
Proof.
  induction l; intros H; simpl; [repeat constructor|]. inversion H; subst.
  unfold Rleb. destruct (Rle_dec a a0).
  - constructor; auto. constructor; auto. eapply Forall_impl; [|eassumption]. intros; simpl in *; lra.
  - constructor; auto. apply Permutation_Forall with (a :: l); [apply sort_ins_perm|]. constructor; auto. lra.
Qed.
Lemma sort_sorted : forall l : list R, StronglySorted Rle (sort_list l).
Proof. induction l; simpl; [constructor|]. apply sort_ins_sorted; auto. Qed.

Lemma sorted_nth_le : forall l (H : StronglySorted Rle l) i j, (i <= j)%nat -> (j < length l)%nat -> nth i l 0 <= nth j l 0.
Proof.
  induction 1 as [|a l Hs IH Hf]; intros i j Hij Hj; [simpl in Hj; lia|].
  destruct j; [assert (i = O) by lia; subst; lra|]. destruct i; simpl.
  - rewrite Forall_forall in Hf. apply Hf. apply nth_In. simpl in Hj. lia.
  - apply IH; simpl in *; lia.
Qed.

(** what is asked of the root finder: the N-1 zeros of P_N' strictly between -1 and 1, in any order *)
Definition good_roots (N : nat) (roots : nat -> R) : Prop :=
  (forall i, (i < N - 1)%nat -> -1 < roots i < 1 /\ peval (pder (leg N)) (roots i) = 0) /\
  (forall i j, (i < N - 1)%nat -> (j < N - 1)%nat -> i <> j -> roots i <> roots j).

Lemma nodes_lgl : forall N roots, (1 <= N)%nat -> good_roots N roots -> lgl_nodes N (legendre_nodes N roots).
Proof.
  intros N roots HN [Hr Hd]. unfold legendre_nodes.
  set (l0 := (ssub 0%S 1%S) :: map roots (seq 0 (N - 1)) ++ [1%S]).
  change (ssub 0%S 1%S) with (0 - 1) in l0. change (@s1 R R_scalar) with 1 in l0.
  assert (Hlen0 : length l0 = S N) by (unfold l0; simpl; rewrite app_length, map_length, seq_length; simpl; lia).
  assert (Hin0 : forall y, In y l0 -> y = -1 \/ y = 1 \/ exists i, (i < N - 1)%nat /\ y = roots i).
  { intros y [H|H]; [left; lra|]. apply in_app_or in H. destruct H as [H|[H|[]]]; [|auto].
    apply in_map_iff in H. destruct H as [i [H1 H2]]. apply in_seq in H2. right; right. exists i. split; [lia|auto]. }
  assert (Hnd0 : NoDup l0).
  { unfold l0. constructor.
    - intro H. apply in_app_or in H. destruct H as [H|[H|[]]]; [|lra].
      apply in_map_iff in H. destruct H as [i [H1 H2]]. apply in_seq in H2.
      destruct (Hr i ltac:(lia)). lra.
    - apply Permutation_NoDup with (1 :: map roots (seq 0 (N - 1))); [apply Permutation_cons_append|].
      constructor.
      + intro H. apply in_map_iff in H. destruct H as [i [H1 H2]]. apply in_seq in H2. destruct (Hr i ltac:(lia)). lra.
      + assert (G : forall n s, (s + n <= N - 1)%nat -> NoDup (map roots (seq s n))).
        { induction n; intros s Hs; simpl; constructor.
          - intro H. apply in_map_iff in H. destruct H as [i [H1 H2]]. apply in_seq in H2.
            apply (Hd s i); try lia. auto.
          - apply IHn. lia. }
        apply (G (N - 1)%nat 0%nat). lia. }
  set (l := sort_list l0).
  assert (Hp : Permutation l0 l) by apply sort_perm.
  assert (Hlen : length l = S N) by (rewrite <- Hlen0; symmetry; apply Permutation_length; auto).
  assert (Hs : StronglySorted Rle l) by apply sort_sorted.
  assert (Hnd : NoDup l) by (apply Permutation_NoDup with l0; auto).
  assert (Hin : forall i, (i <= N)%nat -> In (nth i l 0) l0).
  { intros. apply Permutation_in with l; [apply Permutation_sym; auto|]. apply nth_In. lia. }
  assert (Hinc : forall i j, (i < j)%nat -> (j <= N)%nat -> nth i l 0 < nth j l 0).
  { intros i j Hij Hj. assert (H := sorted_nth_le l Hs i j ltac:(lia) ltac:(lia)).
    assert (nth i l 0 <> nth j l 0); [|lra].
    intro E. rewrite (NoDup_nth l 0) in Hnd. specialize (Hnd i j ltac:(lia) ltac:(lia) E). lia. }
  assert (Hbd : forall y, In y l0 -> -1 <= y <= 1).
  { intros y Hy. destruct (Hin0 y Hy) as [->|[->|[i [Hi ->]]]]; try lra. destruct (Hr i Hi). lra. }
  assert (Hfirst : nth 0 l 0 = -1).
  { assert (H1 : In (-1) l) by (apply Permutation_in with l0; auto; left; lra).
    destruct (In_nth l (-1) 0 H1) as [k [Hk Ek]].
    assert (H2 := Hbd _ (Hin 0%nat ltac:(lia))).
    destruct (Nat.eq_dec k 0) as [->|Hk0]; auto.
    assert (H3 := Hinc 0%nat k ltac:(lia) ltac:(lia)). lra. }
  assert (Hlast : nth N l 0 = 1).
  { assert (H1 : In 1 l).
    { apply Permutation_in with l0; auto. right. apply in_or_app. right. left; auto. }
    destruct (In_nth l 1 0 H1) as [k [Hk Ek]].
    assert (H2 := Hbd _ (Hin N ltac:(lia))).
    destruct (Nat.eq_dec k N) as [->|Hk0]; auto.
    assert (H3 := Hinc k N ltac:(lia) ltac:(lia)). lra. }
  constructor; auto.
  intros i H0 H1. destruct (Hin0 _ (Hin i ltac:(lia))) as [E|[E|[k [Hk E]]]].
  - assert (H3 := Hinc 0%nat i H0 ltac:(lia)). fold l in E. lra.
  - assert (H3 := Hinc i N H1 ltac:(lia)). fold l in E. lra.
  - cbv zeta. fold l. change (@s0 R R_scalar) with 0. rewrite E. apply Hr; auto.
Qed.

(** * the class on its own nodes *)
Section Class.
Variables (N : nat) (x : nat -> R) (L : nat -> nat -> R).
Hypothesis HN : (1 <= N)%nat.
Hypothesis Hx : lgl_nodes N x.
Hypothesis HL : forall c y, (c <= N)%nat -> poly_eval (N + 1) (L c) y = peval (leg c) y.

Lemma D_off : forall i j, i <> j -> legendre_D N (L N) x i j = lg_off N x i j.
Proof.
  intros i j H. unfold legendre_D. destruct (Nat.eqb_spec i j); [contradiction|]. rewrite !HL by auto. reflexivity.
Qed.
Lemma IZR_NN1 : IZR ((Z.of_nat N + 1) * Z.of_nat N) = INR N * (INR N + 1).
Proof. rewrite mult_IZR, plus_IZR, <- INR_IZR_INZ. ring. Qed.
Lemma D_diag : forall i, (i <= N)%nat -> legendre_D N (L N) x i i = - lg_diag N x i.
Proof.
  intros i Hi. rewrite (lg_diag_val N x HN Hx i Hi). unfold legendre_D. rewrite Nat.eqb_refl.
  cbn [sdiv sofZ sopp s0 R_scalar]. rewrite IZR_NN1.
  destruct (Nat.eqb_spec i 0), (Nat.eqb_spec i N); lra.
Qed.

(** what multiplying by the computed matrix yields *)
Lemma D_apply : forall p i, (i <= N)%nat -> (length p <= S N)%nat ->
  rsum (S N) (fun j => legendre_D N (L N) x i j * peval p (x j)) = peval (pder p) (x i) - 2 * lg_diag N x i * peval p (x i).
Proof.
  intros p i Hi Hp. rewrite <- (lgl_diff N x HN Hx p i Hi Hp).
  rewrite (rsum_isolate (S N) i) by lia. rewrite D_diag by auto.
  rewrite (rsum_isolate (S N) i (fun j => (if (j =? i)%nat then _ else _) * _)) by lia.
  rewrite Nat.eqb_refl.
  rewrite (rsum_ext (S N) (fun j => if (j =? i)%nat then 0 else legendre_D N (L N) x i j * peval p (x j))
     (fun j => if (j =? i)%nat then 0 else (if (j =? i)%nat then lg_diag N x i else lg_off N x i j) * peval p (x j))).
  - ring.
  - intros j Hj. destruct (Nat.eqb_spec j i); auto. rewrite D_off by auto. auto.
Qed.

Lemma weights_val : forall i, (i <= N)%nat -> legendre_weights N (L N) x i = 2 / (INR N * (INR N + 1)) / peval (leg N) (x i) ^ 2.
Proof.
  intros. unfold legendre_weights. cbn [sdiv sofZ smul R_scalar]. rewrite HL by auto.
  rewrite mult_IZR, plus_IZR, <- INR_IZR_INZ. f_equal. ring.
Qed.
Lemma quad_exact : forall p, (length p <= 2 * N)%nat ->
  rsum (S N) (fun i => legendre_weights N (L N) x i * peval p (x i)) = pint p (-1) 1.
Proof.
  intros p Hp. rewrite <- (lgl_quadrature N x HN Hx p Hp). apply rsum_ext. intros i Hi. rewrite weights_val by lia. auto.
Qed.
Lemma weights_pos : forall i, (i <= N)%nat -> 0 < legendre_weights N (L N) x i.
Proof.
  intros i Hi. rewrite weights_val by auto. assert (H := NN1 N x HN Hx). assert (H1 := lgl_P_nonzero N x HN Hx i Hi).
  apply Rdiv_lt_0_compat; [apply Rdiv_lt_0_compat; lra|].
  apply Rlt_gt. rewrite <- Rsqr_pow2. apply Rsqr_pos_lt; auto.
Qed.

Lemma disc_orth : forall k n, (k <= N)%nat -> (n <= N)%nat ->
  rsum (S N) (fun i => peval (leg k) (x i) * peval (leg n) (x i) * legendre_weights N (L N) x i)
  = if (k =? n)%nat then / legendre_norm_factors N n else 0.
Proof.
  intros k n Hk Hn. assert (HR := NR N x HN Hx).
  destruct (Nat.eq_dec (k + n) (2 * N)) as [E|E].
  - assert (k = N) by lia. assert (n = N) by lia. subst k n. rewrite Nat.eqb_refl. unfold legendre_norm_factors.
    rewrite Nat.ltb_irrefl. cbn [sdiv sofZ R_scalar]. rewrite <- INR_IZR_INZ.
    rewrite (rsum_ext (S N) _ (fun _ => 2 / (INR N * (INR N + 1)))).
    + rewrite rsum_const, S_INR. field. split; lra.
    + intros i Hi. rewrite weights_val by lia. field. repeat split; try lra. apply (lgl_P_nonzero N x HN Hx i). lia.
  - rewrite (rsum_ext (S N) _ (fun i => legendre_weights N (L N) x i * peval (pmul (leg k) (leg n)) (x i))).
    2:{ intros. rewrite peval_mul. ring. }
    rewrite quad_exact.
    + change (pint (pmul (leg k) (leg n)) (-1) 1) with (ip (leg k) (leg n)).
      destruct (Nat.eqb_spec k n) as [->|Hne]; [|apply leg_orth; auto].
      rewrite leg_norm. unfold legendre_norm_factors. destruct (Nat.ltb_spec n N); [|lia].
      cbn [sdiv sofZ sadd smul s1 R_scalar]. rewrite <- INR_IZR_INZ. assert (0 <= INR n) by apply pos_INR. field. lra.
    + replace (2 * N)%nat with (S (2 * N - 1)) by lia.
      apply Nat.le_trans with (S (k + n)); [|lia]. apply length_mul_le; rewrite length_leg; lia.
Qed.

Lemma project_reproduces : forall f a b, a <> b -> is_poly N f ->
  forall y, legendre_proj_eval N L (legendre_project N L x f a b) a b y = f y.
Proof.
  intros f a b Hab Hf y. destruct (is_poly_list _ f Hf) as [l [Hl He]].
  set (s := (b - a) / 2). set (d := (b + a) / 2).
  destruct (poly_affine s d l N Hl) as [c Hc].
  destruct (leg_span (S N) (plist (S N) c)) as [al Hal]; [rewrite length_plist; lia|].
  assert (Ha : forall t, f (s * t + d) = rsum (S N) (fun k => al k * peval (leg k) t)).
  { intro t. rewrite He, Hc, <- Hal, peval_plist. auto. }
  assert (Hco : forall n, (n <= N)%nat -> legendre_project N L x f a b n = al n).
  { intros n Hn. unfold legendre_project. cbn [sdiv sofZ sadd ssub smul R_scalar]. fold s d.
    rewrite (rsum_ext (S N) _ (fun i => rsum (S N) (fun k => al k * (peval (leg k) (x i) * peval (leg n) (x i) * legendre_weights N (L N) x i)))).
    2:{ intros i Hi. rewrite Ha, HL by auto. rewrite Rmult_assoc, <- rsum_scal_r. apply rsum_ext. intros; ring. }
    rewrite rsum_swap. rewrite (rsum_ext (S N) _ (fun k => if (k =? n)%nat then (fun k => al k * / legendre_norm_factors N n) k else 0)).
    - rewrite rsum_delta by lia.
      assert (Hnf : @legendre_norm_factors R R_scalar N n <> 0).
      { unfold legendre_norm_factors. cbn [sdiv sofZ sadd smul s1 R_scalar]. rewrite <- !INR_IZR_INZ.
        assert (0 <= INR n) by apply pos_INR. assert (HR := NR N x HN Hx). destruct (n <? N)%nat; lra. }
      field. auto.
    - intros k Hk. rewrite rsum_scal, disc_orth by lia. destruct (k =? n)%nat; ring. }
  unfold legendre_proj_eval. cbn [sdiv sofZ sadd ssub smul R_scalar]. fold s d.
  assert (Hs : s <> 0) by (unfold s; intro; apply Hab; lra).
  transitivity (f (s * ((y - d) / s) + d)); [|f_equal; field; auto].
  rewrite Ha. apply rsum_ext. intros k Hk. rewrite Hco, HL by lia. auto.
Qed.

Lemma integrate_exact : forall f F t0 tf, is_poly (2 * N - 1) f -> derivative_of F f ->
  legendre_integrate N (L N) x f t0 tf = F tf - F t0.
Proof.
  intros f F t0 tf Hf HF. unfold legendre_integrate. cbn [sdiv sofZ sadd ssub smul R_scalar].
  set (s := (tf - t0) / 2). set (d := (tf + t0) / 2).
  destruct (is_poly_list _ f Hf) as [l [Hl He]].
  destruct (poly_affine s d l _ Hl) as [c Hc].
  rewrite (rsum_ext (S N) _ (fun i => legendre_weights N (L N) x i * peval (plist (S (2 * N - 1)) c) (x i))).
  2:{ intros. rewrite He, Hc, peval_plist. ring. }
  rewrite quad_exact by (rewrite length_plist; lia).
  rewrite <- pint_scal. rewrite <- (pint_spec _ (fun y => F (s * y + d))).
  - f_equal; f_equal; unfold s, d; field.
  - intro y. rewrite peval_scal, peval_plist, <- Hc, <- He.
    replace (s * f (s * y + d)) with (f (s * y + d) * s) by ring.
    apply (derivable_pt_lim_comp (fun z => s * z + d) F); [|apply HF].
    apply derivable_pt_lim_ext with (plus_fct (mult_real_fct s id) (fct_cte d)); [intro; auto|].
    replace s with (s * 1 + 0) at 2 by ring.
    apply derivable_pt_lim_plus; [apply derivable_pt_lim_scal, derivable_pt_lim_id|apply derivable_pt_lim_const].
Qed.
End Class.
