(** Proofs about the splines. *)
Require Import ZArith List Bool Lia Reals Lra.
From Verif Require Import Scal RSum PolyR Poly_Spec Cheb_Proofs Legendre_Model Legendre_Proofs Spline_Model.
Import ListNotations.
Local Open Scope R_scope.

Fixpoint rprod (l : list R) : R := match l with [] => 1 | a :: m => a * rprod m end.

(** degree and value of the monic polynomial *)
Lemma monic_gen : forall roots (p : vec R) m, (forall k, (m < k)%nat -> p k = 0) ->
  (forall k, (m + length roots < k)%nat -> fold_left mul_root roots p k = 0) /\
  (forall n y, (m + length roots < n)%nat ->
     poly_eval n (fold_left mul_root roots p) y = poly_eval n p y * rprod (map (fun r => y - r) roots)).
Proof.
  induction roots as [|r roots IH]; intros p m Hp; simpl fold_left.
  - split; [intros; apply Hp; simpl in *; lia|]. intros. simpl. ring.
  - assert (Hq : forall k, (S m < k)%nat -> mul_root p r k = 0).
    { intros k Hk. unfold mul_root. destruct k; [lia|]. cbn [ssub smul R_scalar]. rewrite !Hp by lia. ring. }
    destruct (IH (mul_root p r) (S m) Hq) as [H1 H2]. split.
    + intros k Hk. apply H1. simpl in Hk. lia.
    + intros n y Hn. simpl length in Hn. rewrite H2 by lia.
      assert (E : poly_eval n (mul_root p r) y = (y - r) * poly_eval n p y).
      { rewrite !poly_eval_R. destruct n; [lia|]. rewrite rsum_first.
        rewrite (rsum_ext n (fun i => mul_root p r (S i) * y ^ S i) (fun i => y * (p i * y ^ i) - r * (p (S i) * y ^ S i))).
        - rewrite rsum_minus, !rsum_scal. unfold mul_root at 1. cbn [ssub smul s0 R_scalar].
          rewrite (rsum_first n (fun k => p k * y ^ k)) at 1.
          assert (E1 : rsum n (fun i => p i * y ^ i) = rsum (S n) (fun k => p k * y ^ k)) by (rewrite rsum_S, Hp by lia; ring).
          rewrite E1, (rsum_first n (fun k => p k * y ^ k)). simpl pow. ring.
        - intros i _. unfold mul_root. cbn [ssub smul R_scalar]. simpl pow. ring. }
      rewrite E. simpl. ring.
Qed.

Lemma other_length : forall n i (x : vec R), (i < n)%nat -> length (other_nodes n i x) = (n - 1)%nat.
Proof.
  intros n i x Hi. unfold other_nodes. rewrite map_length.
  assert (G : forall m s, length (filter (fun j => negb (i =? j)%nat) (seq s m)) =
     if ((s <=? i) && (i <? s + m))%nat%bool then (m - 1)%nat else m).
  { induction m; intros s; simpl.
    - destruct (Nat.leb_spec s i), (Nat.ltb_spec i (s + 0)); simpl; auto; lia.
    - destruct (Nat.eqb_spec i s) as [->|Hne]; simpl; rewrite IHm.
      + destruct (Nat.leb_spec (S s) s); [lia|]. destruct (Nat.leb_spec s s); [|lia]. destruct (Nat.ltb_spec s (s + S m)); [|lia]. simpl. lia.
      + destruct (Nat.leb_spec (S s) i), (Nat.leb_spec s i), (Nat.ltb_spec i (S s + m)), (Nat.ltb_spec i (s + S m)); simpl; auto; try lia. }
  rewrite G. destruct (Nat.leb_spec 0 i), (Nat.ltb_spec i (0 + n)); simpl; auto; lia.
Qed.

Definition lag_num (n i : nat) (x : vec R) (y : R) : R := rprod (map (fun r => y - r) (other_nodes n i x)).

Lemma rprod_zero : forall l, In 0 l -> rprod l = 0.
Proof. induction l; intros H; [destruct H|]. simpl. destruct H as [->|H]; [ring|]. rewrite IHl by auto; ring. Qed.
Lemma rprod_nonzero : forall l, (forall a, In a l -> a <> 0) -> rprod l <> 0.
Proof.
  induction l; intros H; simpl; [lra|]. apply Rmult_integral_contrapositive_currified.
  - apply H; left; auto.
  - apply IHl. intros; apply H; right; auto.
Qed.
Lemma lag_num_other : forall n i j x, (j < n)%nat -> i <> j -> lag_num n i x (x j) = 0.
Proof.
  intros. unfold lag_num. apply rprod_zero. apply in_map_iff. exists (x j). split; [lra|].
  unfold other_nodes. apply in_map. apply filter_In. split; [apply in_seq; lia|].
  destruct (Nat.eqb_spec i j); [contradiction|auto].
Qed.
Lemma lag_num_self : forall n i x, (i < n)%nat -> distinct n x -> lag_num n i x (x i) <> 0.
Proof.
  intros n i x Hi Hd. apply rprod_nonzero. intros a Ha. apply in_map_iff in Ha. destruct Ha as [r [<- Hr]].
  unfold other_nodes in Hr. apply in_map_iff in Hr. destruct Hr as [j [<- Hj]]. apply filter_In in Hj.
  destruct Hj as [H1 H2]. apply in_seq in H1. apply negb_true_iff, Nat.eqb_neq in H2.
  assert (x i <> x j) by (apply Hd; lia). lra.
Qed.

Lemma basis_monic : forall n i (x : vec R) y, (i < n)%nat ->
  poly_eval n (tab n (monic (other_nodes n i x))) y = lag_num n i x y.
Proof.
  intros n i x y Hi. rewrite (poly_eval_ext n _ (monic (other_nodes n i x))) by (intros; apply tab_spec; auto).
  unfold monic, lag_num.
  assert (H0 : forall k, (0 < k)%nat -> (fun j => if (j =? 0)%nat then 1%S else 0%S) k = 0).
  { intros k Hk. destruct k; [lia|reflexivity]. }
  destruct (monic_gen (other_nodes n i x) _ 0%nat H0) as [_ H].
  rewrite H by (rewrite other_length by auto; lia).
  assert (E : poly_eval n (fun j : nat => if (j =? 0)%nat then 1%S else 0%S) y = 1).
  { rewrite poly_eval_R. destruct n; [lia|]. rewrite rsum_first. rewrite rsum_zero.
    - cbn. ring.
    - intros. cbn [Nat.eqb]. change (@s0 R R_scalar) with 0. ring. }
  rewrite E. ring.
Qed.

Lemma lagrange_eval_sum : forall n (x : vec R) B v y d, (2 <= n)%nat -> lagrange_basis n x = Some B -> distinct n x ->
  lagrange_eval n y v B d = rsum n (fun i => v d i * (lag_num n i x y / lag_num n i x (x i))).
Proof.
  intros n x B v y d Hn HB Hd. unfold lagrange_basis in HB. destruct (Nat.ltb_spec n 2); [lia|]. injection HB as <-.
  unfold lagrange_eval. rewrite poly_eval_R.
  rewrite (rsum_ext n _ (fun k => rsum n (fun i => v d i * (tab n (monic (other_nodes n i x)) k / lag_num n i x (x i)) * y ^ k))).
  - rewrite rsum_swap. apply rsum_ext. intros i Hi.
    rewrite (rsum_ext n _ (fun k => (v d i / lag_num n i x (x i)) * (tab n (monic (other_nodes n i x)) k * y ^ k))).
    + rewrite rsum_scal, <- (basis_monic n i x y Hi), poly_eval_R. unfold Rdiv. ring.
    + intros. unfold Rdiv. ring.
  - intros k Hk. rewrite tab_spec by auto. rewrite <- rsum_scal_r. apply rsum_ext. intros i Hi.
    cbn [smul R_scalar]. rewrite tab2_spec by auto. cbv zeta. rewrite basis_monic by auto. reflexivity.
Qed.

Lemma lagrange_at_nodes : forall n (x : vec R) B v d j, (2 <= n)%nat -> lagrange_basis n x = Some B -> distinct n x ->
  (j < n)%nat -> lagrange_eval n (x j) v B d = v d j.
Proof.
  intros n x B v d j Hn HB Hd Hj. rewrite (lagrange_eval_sum n x B v (x j) d Hn HB Hd).
  rewrite (rsum_isolate n j) by auto. rewrite rsum_zero.
  - field. apply lag_num_self; auto.
  - intros i Hi. destruct (Nat.eqb_spec i j); auto. rewrite lag_num_other by auto. unfold Rdiv. ring.
Qed.

(** the interpolant as a polynomial list *)
Lemma lagrange_poly : forall n (x : vec R) B v d, exists l, (length l <= n)%nat /\
  forall y, lagrange_eval n y v B d = peval l y.
Proof.
  intros. exists (plist n (tab n (fun k => ssum n (fun i => (v d i * B i k)%S)))).
  split; [rewrite length_plist; lia|]. intro y. unfold lagrange_eval. rewrite poly_eval_R, peval_plist. auto.
Qed.

Lemma lagrange_reproduces : forall n (x : vec R) B v d p, (2 <= n)%nat -> lagrange_basis n x = Some B -> distinct n x ->
  is_poly (n - 1) p -> (forall j, (j < n)%nat -> v d j = p (x j)) ->
  forall y, lagrange_eval n y v B d = p y.
Proof.
  intros n x B v d p Hn HB Hd Hp Hv y.
  destruct (lagrange_poly n x B v d) as [l [Hl He]]. destruct (is_poly_list _ p Hp) as [q [Hq Hpq]].
  rewrite He, Hpq. apply (interp_unique n) with x; auto; [lia|].
  intros i Hi. rewrite <- He, <- Hpq, <- Hv by auto. apply (lagrange_at_nodes n x B v d i); auto.
Qed.

(** * cubic spline *)
Lemma Int_part_bounds : forall x, IZR (Int_part x) <= x < IZR (Int_part x) + 1.
Proof. intros. assert (H := base_Int_part x). lra. Qed.
Lemma Int_part_unique : forall x z, IZR z <= x < IZR z + 1 -> Int_part x = z.
Proof.
  intros x z H. assert (H1 := Int_part_bounds x).
  assert (IZR (Int_part x) < IZR (z + 1)) by (rewrite plus_IZR; lra).
  assert (IZR z < IZR (Int_part x + 1)) by (rewrite plus_IZR; lra).
  apply lt_IZR in H0. apply lt_IZR in H2. lia.
Qed.
Lemma div_bounds : forall x len a b, 0 < len -> a * len <= x < b * len -> a <= x / len < b.
Proof.
  intros x len a b Hl [H1 H2]. split.
  - apply Rmult_le_reg_r with len; auto. unfold Rdiv. rewrite Rmult_assoc, Rinv_l by lra. lra.
  - apply Rmult_lt_reg_r with len; auto. unfold Rdiv. rewrite Rmult_assoc, Rinv_l by lra. lra.
Qed.

Lemma cubic_inside : forall cols coef len x j, (Z.of_nat cols <= 2 ^ 31)%Z -> 0 < len -> (j < cols)%nat ->
  INR j * len <= x < (INR j + 1) * len ->
  cubic_eval cols coef len x = Some (coef 0%nat j + x * (coef 1%nat j + x * (coef 2%nat j + x * coef 3%nat j))).
Proof.
  intros cols coef len x j Hc Hl Hj Hx. unfold cubic_eval, floor_int.
  assert (E : Int_part (x / len) = Z.of_nat j).
  { apply Int_part_unique. rewrite <- INR_IZR_INZ. apply div_bounds; auto. }
  rewrite E. destruct (Z.leb_spec (- 2 ^ 31) (Z.of_nat j)); [|lia]. destruct (Z.leb_spec (Z.of_nat j) (2 ^ 31 - 1)); [|lia]. cbv beta iota zeta.
  cbn [andb].
  replace (Z.max 0 (Z.min (Z.of_nat j) (Z.of_nat cols))) with (Z.of_nat j) by lia.
  destruct (Z.ltb_spec (Z.of_nat j) (Z.of_nat cols)); [|lia]. rewrite Nat2Z.id. auto.
Qed.
Lemma cubic_left : forall cols coef len x, (1 <= cols)%nat -> 0 < len -> - IZR (2 ^ 31) * len <= x < 0 ->
  cubic_eval cols coef len x = Some (coef 0%nat 0%nat + x * (coef 1%nat 0%nat + x * (coef 2%nat 0%nat + x * coef 3%nat 0%nat))).
Proof.
  intros cols coef len x Hc Hl Hx. unfold cubic_eval, floor_int.
  assert (Hb : - IZR (2 ^ 31) <= x / len < 0) by (apply div_bounds; auto; lra).
  assert (H := Int_part_bounds (x / len)). set (z := Int_part (x / len)) in *.
  assert (Hz1 : (z < 0)%Z) by (apply lt_IZR; lra).
  assert (Hz2 : (- 2 ^ 31 <= z)%Z).
  { assert (IZR (- 2 ^ 31 - 1) < IZR z) by (rewrite minus_IZR, opp_IZR; lra). apply lt_IZR in H0. lia. }
  destruct (Z.leb_spec (- 2 ^ 31) z); [|lia]. destruct (Z.leb_spec z (2 ^ 31 - 1)); [|lia]. cbn [andb].
  replace (Z.max 0 (Z.min z (Z.of_nat cols))) with 0%Z by lia.
  destruct (Z.ltb_spec 0 (Z.of_nat cols)); [|lia]. auto.
Qed.
Lemma cubic_right : forall cols coef len x, 0 < len -> INR cols * len <= x -> cubic_eval cols coef len x = None.
Proof.
  intros cols coef len x Hl Hx. unfold cubic_eval, floor_int.
  assert (H := Int_part_bounds (x / len)). set (z := Int_part (x / len)) in *.
  assert (Hd : INR cols <= x / len).
  { apply Rmult_le_reg_r with len; auto. unfold Rdiv. rewrite Rmult_assoc, Rinv_l by lra. lra. }
  assert (Hz : (Z.of_nat cols <= z)%Z).
  { rewrite INR_IZR_INZ in Hd. assert (IZR (Z.of_nat cols) < IZR (z + 1)) by (rewrite plus_IZR; lra). apply lt_IZR in H0. lia. }
  destruct (_ && _)%bool; auto.
  replace (Z.max 0 (Z.min z (Z.of_nat cols))) with (Z.of_nat cols) by lia. rewrite Z.ltb_irrefl. auto.
Qed.
