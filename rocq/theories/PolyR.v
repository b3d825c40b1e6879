(** Polynomials over the reals as coefficient lists (constant term first):
    evaluation, ring operations, derivative, antiderivative, division by a
    linear factor, and the interpolation facts built on them. *)
Require Import ZArith List Bool Lia Reals Lra.
From Verif Require Import Scal RSum.
Import ListNotations.
Local Open Scope R_scope.

Fixpoint peval (p : list R) (x : R) : R :=
  match p with [] => 0 | a :: q => a + x * peval q x end.

Fixpoint padd (p q : list R) : list R :=
  match p, q with
  | [], _ => q
  | _, [] => p
  | a :: p', b :: q' => (a + b) :: padd p' q'
  end.
Definition pscal (c : R) (p : list R) : list R := map (fun a => c * a) p.
Fixpoint pmul (p q : list R) : list R :=
  match p with [] => [] | a :: p' => padd (pscal a q) (0 :: pmul p' q) end.

(** a_0 + a_1 x + ... starting with factor k: k a_0, (k+1) a_1, ... *)
Fixpoint pder_from (k : nat) (p : list R) : list R :=
  match p with [] => [] | a :: q => INR k * a :: pder_from (S k) q end.
Definition pder (p : list R) : list R := pder_from 1 (tl p).
Fixpoint pant_from (k : nat) (p : list R) : list R :=
  match p with [] => [] | a :: q => a / INR k :: pant_from (S k) q end.
Definition pant (p : list R) : list R := 0 :: pant_from 1 p.

(** synthetic division by (x - r) *)
Fixpoint pquo (p : list R) (r : R) : list R :=
  match p with [] => [] | a :: q => match q with [] => [] | _ => peval q r :: pquo q r end end.

Definition pint (p : list R) (a b : R) : R := peval (pant p) b - peval (pant p) a.

Lemma peval_add : forall p q x, peval (padd p q) x = peval p x + peval q x.
Proof.
  induction p; intros q x; simpl; [lra|]. destruct q; simpl; [lra|]. rewrite IHp; lra.
Qed.
Lemma peval_scal : forall c p x, peval (pscal c p) x = c * peval p x.
Proof. induction p; intros; simpl; [lra|]. unfold pscal in IHp. rewrite IHp; lra. Qed.
Lemma peval_mul : forall p q x, peval (pmul p q) x = peval p x * peval q x.
Proof.
  induction p; intros q x; simpl; [lra|]. rewrite peval_add, peval_scal. simpl. rewrite IHp; lra.
Qed.
Lemma length_add : forall p q, length (padd p q) = Nat.max (length p) (length q).
Proof. induction p; intros [|b q]; simpl; auto. Qed.
Lemma length_scal : forall c p, length (pscal c p) = length p.
Proof. intros; apply map_length. Qed.
Lemma length_mul_le : forall p q m n, (length p <= S m)%nat -> (length q <= S n)%nat -> (length (pmul p q) <= S (m + n))%nat.
Proof.
  induction p; intros q m n Hp Hq; simpl; [lia|]. rewrite length_add, length_scal. simpl in *.
  destruct p; [simpl; lia|]. destruct m; [simpl in Hp; lia|].
  specialize (IHp q m n). lia.
Qed.
Lemma length_der_from : forall p k, length (pder_from k p) = length p.
Proof. induction p; simpl; auto. Qed.
Lemma length_der : forall p, length (pder p) = (length p - 1)%nat.
Proof. intros [|a p]; unfold pder; rewrite length_der_from; simpl; lia. Qed.
Lemma length_ant_from : forall p k, length (pant_from k p) = length p.
Proof. induction p; simpl; auto. Qed.
Lemma length_ant : forall p, length (pant p) = S (length p).
Proof. intros; unfold pant; simpl; rewrite length_ant_from; auto. Qed.
Lemma length_quo : forall p r, length (pquo p r) = (length p - 1)%nat.
Proof.
  induction p as [|a p IH]; intros; simpl; auto. destruct p as [|b p]; [reflexivity|].
  change (length (peval (b :: p) r :: pquo (b :: p) r)) with (S (length (pquo (b :: p) r))).
  rewrite IH; simpl; lia.
Qed.

Lemma peval_quo : forall p r x, peval p x = (x - r) * peval (pquo p r) x + peval p r.
Proof.
  induction p as [|a p IH]; intros; [simpl; lra|]. destruct p as [|b p]; [simpl; lra|].
  change (pquo (a :: b :: p) r) with (peval (b :: p) r :: pquo (b :: p) r).
  change (peval (a :: b :: p) x) with (a + x * peval (b :: p) x).
  change (peval (a :: b :: p) r) with (a + r * peval (b :: p) r).
  change (peval (peval (b :: p) r :: pquo (b :: p) r) x)
    with (peval (b :: p) r + x * peval (pquo (b :: p) r) x).
  rewrite (IH r x) at 1. ring.
Qed.

(** derivative *)
Lemma peval_der_from_S : forall p k x, peval (pder_from (S k) p) x = peval (pder_from k p) x + peval p x.
Proof.
  induction p; intros k x; [simpl; lra|].
  change (INR (S k) * a + x * peval (pder_from (S (S k)) p) x
          = INR k * a + x * peval (pder_from (S k) p) x + (a + x * peval p x)).
  rewrite IHp, S_INR; ring.
Qed.
Lemma peval_der_cons : forall a p x, peval (pder (a :: p)) x = peval p x + x * peval (pder p) x.
Proof.
  intros a p x. unfold pder; simpl tl. destruct p as [|b p]; [simpl; lra|]. simpl tl.
  change (peval (pder_from 1 (b :: p)) x) with (INR 1 * b + x * peval (pder_from 2 p) x).
  rewrite peval_der_from_S. simpl. ring.
Qed.
Lemma peval_derivable : forall p x, derivable_pt_lim (peval p) x (peval (pder p) x).
Proof.
  induction p; intros x.
  - simpl. apply (derivable_pt_lim_const 0).
  - rewrite peval_der_cons.
    change (peval (a :: p)) with (plus_fct (fct_cte a) (mult_fct id (peval p))).
    replace (peval p x + x * peval (pder p) x) with (0 + (1 * peval p x + id x * peval (pder p) x)) by (unfold id; ring).
    apply derivable_pt_lim_plus; [apply derivable_pt_lim_const|].
    apply derivable_pt_lim_mult; [apply derivable_pt_lim_id|apply IHp].
Qed.

Lemma peval_continuity : forall p, continuity (peval p).
Proof.
  intros p x. apply derivable_continuous_pt. exists (peval (pder p) x). apply peval_derivable.
Qed.

Lemma pder_from_ant_from : forall p k, (0 < k)%nat -> pder_from k (pant_from k p) = p.
Proof.
  induction p; intros; simpl; auto. f_equal; [|apply IHp; lia].
  field. apply not_0_INR; lia.
Qed.
Lemma pder_ant : forall p, pder (pant p) = p.
Proof. intros. unfold pder, pant; simpl. apply pder_from_ant_from; lia. Qed.

(** a function with zero derivative everywhere is constant *)
Lemma derive_zero_const : forall f, (forall x, derivable_pt_lim f x 0) -> forall a b, f a = f b.
Proof.
  intros f H.
  assert (pr : derivable f) by (intro x; exists 0; apply H).
  assert (G : forall a b, a < b -> f a = f b).
  { intros a b Hab. destruct (MVT_cor1 f a b pr Hab) as [c [Hc _]].
    assert (E : derive_pt f c (pr c) = 0).
    { apply derive_pt_eq_0. apply H. }
    rewrite E in Hc. lra. }
  intros a b. destruct (Rtotal_order a b) as [Hl|[He|Hl]]; [auto|subst; auto|symmetry; auto].
Qed.

Lemma derive_eq_diff : forall f g h, (forall x, derivable_pt_lim f x (h x)) -> (forall x, derivable_pt_lim g x (h x)) ->
  forall a b, f b - f a = g b - g a.
Proof.
  intros f g h Hf Hg a b.
  assert (E : (f - g)%F a = (f - g)%F b).
  { apply derive_zero_const. intro x. replace 0 with (h x - h x) by ring.
    apply derivable_pt_lim_minus; auto. }
  unfold minus_fct in E. lra.
Qed.

(** the formal integral is the increment of any antiderivative *)
Lemma pint_spec : forall p F, (forall x, derivable_pt_lim F x (peval p x)) ->
  forall a b, F b - F a = pint p a b.
Proof.
  intros p F HF a b. unfold pint. apply derive_eq_diff with (peval p); auto.
  intro x. rewrite <- (pder_ant p) at 2. apply peval_derivable.
Qed.

Lemma pint_ext : forall p q a b, (forall x, peval p x = peval q x) -> pint p a b = pint q a b.
Proof.
  intros. unfold pint. apply derive_eq_diff with (peval p).
  - intro x. rewrite <- (pder_ant p) at 2. apply peval_derivable.
  - intro x. rewrite H. rewrite <- (pder_ant q) at 2. apply peval_derivable.
Qed.
Lemma derivable_pt_lim_ext : forall f g x l, (forall y, f y = g y) -> derivable_pt_lim f x l -> derivable_pt_lim g x l.
Proof.
  intros f g x l E H eps He. destruct (H eps He) as [d Hd]. exists d. intros h H1 H2.
  rewrite <- !E. auto.
Qed.
Lemma pint_add : forall p q a b, pint (padd p q) a b = pint p a b + pint q a b.
Proof.
  intros. unfold pint.
  replace (peval (pant p) b - peval (pant p) a + (peval (pant q) b - peval (pant q) a))
    with ((peval (pant p) + peval (pant q))%F b - (peval (pant p) + peval (pant q))%F a) by (unfold plus_fct; ring).
  apply derive_eq_diff with (fun x => peval p x + peval q x); intro x.
  - rewrite <- peval_add. rewrite <- (pder_ant (padd p q)) at 2. apply peval_derivable.
  - apply derivable_pt_lim_plus.
    + rewrite <- (pder_ant p) at 2. apply peval_derivable.
    + rewrite <- (pder_ant q) at 2. apply peval_derivable.
Qed.
Lemma pint_scal : forall c p a b, pint (pscal c p) a b = c * pint p a b.
Proof.
  intros. unfold pint.
  replace (c * (peval (pant p) b - peval (pant p) a))
    with ((mult_real_fct c (peval (pant p))) b - (mult_real_fct c (peval (pant p))) a) by (unfold mult_real_fct; ring).
  apply derive_eq_diff with (fun x => c * peval p x); intro x.
  - rewrite <- peval_scal. rewrite <- (pder_ant (pscal c p)) at 2. apply peval_derivable.
  - apply derivable_pt_lim_scal. rewrite <- (pder_ant p) at 2. apply peval_derivable.
Qed.
Lemma derivable_unique : forall f x l l', derivable_pt_lim f x l -> derivable_pt_lim f x l' -> l = l'.
Proof. intros; eapply uniqueness_limite; eauto. Qed.
Lemma peval_der_mul : forall p q x,
  peval (pder (pmul p q)) x = peval (pder p) x * peval q x + peval p x * peval (pder q) x.
Proof.
  intros. apply derivable_unique with (peval (pmul p q)) x; [apply peval_derivable|].
  apply derivable_pt_lim_ext with (mult_fct (peval p) (peval q)).
  - intro y. unfold mult_fct. rewrite peval_mul; auto.
  - apply derivable_pt_lim_mult; apply peval_derivable.
Qed.
Lemma peval_der_ext : forall p q, (forall x, peval p x = peval q x) -> forall x, peval (pder p) x = peval (pder q) x.
Proof.
  intros. apply derivable_unique with (peval p) x; [apply peval_derivable|].
  apply derivable_pt_lim_ext with (peval q); [intro; symmetry; auto|apply peval_derivable].
Qed.
Lemma peval_der_add : forall p q x, peval (pder (padd p q)) x = peval (pder p) x + peval (pder q) x.
Proof.
  intros. apply derivable_unique with (peval (padd p q)) x; [apply peval_derivable|].
  apply derivable_pt_lim_ext with (plus_fct (peval p) (peval q)).
  - intro; unfold plus_fct; rewrite peval_add; auto.
  - apply derivable_pt_lim_plus; apply peval_derivable.
Qed.
Lemma peval_der_scal : forall c p x, peval (pder (pscal c p)) x = c * peval (pder p) x.
Proof.
  intros. apply derivable_unique with (peval (pscal c p)) x; [apply peval_derivable|].
  apply derivable_pt_lim_ext with (mult_real_fct c (peval p)).
  - intro; unfold mult_real_fct; rewrite peval_scal; auto.
  - apply derivable_pt_lim_scal; apply peval_derivable.
Qed.
Lemma pint_der : forall p a b, pint (pder p) a b = peval p b - peval p a.
Proof. intros. symmetry. apply pint_spec. intro; apply peval_derivable. Qed.
Lemma pint_parts : forall p q a b,
  pint (pmul (pder p) q) a b + pint (pmul p (pder q)) a b = peval p b * peval q b - peval p a * peval q a.
Proof.
  intros. rewrite <- pint_add, <- !peval_mul, <- pint_der. apply pint_ext.
  intro x. rewrite peval_add, !peval_mul, peval_der_mul. ring.
Qed.

(** sums of polynomials *)
Fixpoint psum (n : nat) (f : nat -> list R) : list R :=
  match n with O => [] | S k => padd (psum k f) (f k) end.
Lemma peval_psum : forall n f x, peval (psum n f) x = rsum n (fun k => peval (f k) x).
Proof. induction n; intros; simpl psum; [reflexivity|]. rewrite peval_add, IHn, rsum_S; auto. Qed.
Lemma length_psum : forall n f m, (forall k, (k < n)%nat -> (length (f k) <= m)%nat) -> (length (psum n f) <= m)%nat.
Proof.
  induction n; intros; simpl; [lia|]. rewrite length_add. assert (length (psum n f) <= m)%nat by (apply IHn; auto).
  specialize (H n (Nat.lt_succ_diag_r n)). lia.
Qed.
Lemma pint_psum : forall n f a b, pint (psum n f) a b = rsum n (fun k => pint (f k) a b).
Proof.
  induction n; intros; simpl psum.
  - unfold pint, pant; rewrite rsum_0; simpl; ring.
  - rewrite pint_add, IHn, rsum_S; auto.
Qed.

(** coefficients *)
Definition pcoef (p : list R) (k : nat) : R := nth k p 0.
Lemma pcoef_add : forall p q k, pcoef (padd p q) k = pcoef p k + pcoef q k.
Proof.
  unfold pcoef. induction p; intros q k; simpl.
  - destruct k; lra.
  - destruct q; simpl; [destruct k; simpl; try lra|]. destruct k; simpl; [lra|]. apply IHp.
Qed.
Lemma pcoef_scal : forall c p k, pcoef (pscal c p) k = c * pcoef p k.
Proof.
  unfold pcoef. induction p; intros k; simpl; destruct k; simpl; try lra. apply IHp.
Qed.
Lemma pcoef_over : forall p k, (length p <= k)%nat -> pcoef p k = 0.
Proof. intros; apply nth_overflow; auto. Qed.
Lemma pcoef_psum : forall n f k, pcoef (psum n f) k = rsum n (fun i => pcoef (f i) k).
Proof.
  induction n; intros; simpl psum; [rewrite rsum_0; unfold pcoef; destruct k; auto|].
  rewrite pcoef_add, IHn, rsum_S; auto.
Qed.
Lemma peval_coef : forall p n x, (length p <= n)%nat -> peval p x = rsum n (fun k => pcoef p k * x ^ k).
Proof.
  induction p; intros n x H.
  - simpl. rewrite rsum_zero; auto. intros. unfold pcoef. destruct i; simpl; ring.
  - destruct n; [simpl in H; lia|]. rewrite rsum_first. simpl in H.
    change (peval (a :: p) x) with (a + x * peval p x). rewrite (IHp n x) by lia.
    unfold pcoef at 2; simpl. rewrite <- rsum_scal. rewrite Rmult_1_r. f_equal. apply rsum_ext. intros i _.
    unfold pcoef; simpl. ring.
Qed.

Definition plist (n : nat) (a : nat -> R) : list R := map a (seq 0 n).
Lemma length_plist : forall n a, length (plist n a) = n.
Proof. intros; unfold plist; rewrite map_length, seq_length; auto. Qed.
Lemma pcoef_plist : forall n a k, (k < n)%nat -> pcoef (plist n a) k = a k.
Proof.
  intros. unfold pcoef, plist. rewrite nth_indep with (d' := a O) by (rewrite map_length, seq_length; auto).
  rewrite map_nth, seq_nth; auto.
Qed.
Lemma peval_plist : forall n a x, peval (plist n a) x = rsum n (fun k => a k * x ^ k).
Proof.
  intros. rewrite (peval_coef _ n) by (rewrite length_plist; lia).
  apply rsum_ext; intros; rewrite pcoef_plist; auto.
Qed.

(** leading coefficient of the quotient *)
Lemma pcoef_quo_lead : forall n p r, (length p <= S (S n))%nat -> pcoef (pquo p r) n = pcoef p (S n).
Proof.
  induction n; intros p r H; destruct p as [|a p]; auto; destruct p as [|b p]; auto.
  - destruct p; [|simpl in H; lia]. unfold pcoef; simpl. ring.
  - change (pquo (a :: b :: p) r) with (peval (b :: p) r :: pquo (b :: p) r).
    unfold pcoef. change (nth (S n) (peval (b :: p) r :: pquo (b :: p) r) 0) with (pcoef (pquo (b :: p) r) n).
    rewrite IHn; auto. simpl in *; lia.
Qed.

(** a polynomial with as many distinct roots as coefficients vanishes *)
Lemma pquo_coefs_zero : forall p r, (forall k, pcoef (pquo p r) k = 0) -> peval p r = 0 -> forall k, pcoef p k = 0.
Proof.
  induction p as [|a p IH]; intros r H H0 k; [unfold pcoef; destruct k; auto|].
  destruct p as [|b p].
  - simpl in H0. destruct k as [|[|k]]; unfold pcoef; simpl; lra.
  - change (pquo (a :: b :: p) r) with (peval (b :: p) r :: pquo (b :: p) r) in H.
    assert (E : peval (b :: p) r = 0) by (specialize (H O); exact H).
    assert (Z : forall k, pcoef (b :: p) k = 0).
    { apply (IH r); auto. intro j. specialize (H (S j)); exact H. }
    destruct k.
    + unfold pcoef; change (a + r * peval (b :: p) r = 0) in H0. rewrite E in H0. simpl; lra.
    + specialize (Z k); exact Z.
Qed.

Definition distinct (n : nat) (x : nat -> R) : Prop :=
  forall i j, (i < n)%nat -> (j < n)%nat -> i <> j -> x i <> x j.

Lemma roots_zero_coef : forall n p x, (length p <= n)%nat -> distinct n x ->
  (forall i, (i < n)%nat -> peval p (x i) = 0) -> forall k, pcoef p k = 0.
Proof.
  induction n; intros p x Hl Hd Hr k.
  - destruct p; [unfold pcoef; destruct k; auto|simpl in Hl; lia].
  - assert (Hn : peval p (x n) = 0) by (apply Hr; lia).
    apply (pquo_coefs_zero p (x n)); [|exact Hn].
    apply (IHn _ x).
    + rewrite length_quo; lia.
    + intros i j Hi Hj; apply Hd; lia.
    + intros i Hi. assert (Hq := Hr i (Nat.lt_lt_succ_r _ _ Hi)). rewrite (peval_quo p (x n)), Hn, Rplus_0_r in Hq.
      apply Rmult_integral in Hq. destruct Hq as [Hq|Hq]; auto.
      exfalso. apply (Hd i n); [lia|lia|lia|lra].
Qed.

Lemma coefs_zero_eval : forall p, (forall k, pcoef p k = 0) -> forall x, peval p x = 0.
Proof.
  intros. rewrite (peval_coef p (length p)) by lia. apply rsum_zero; intros. rewrite H; ring.
Qed.
Lemma roots_zero : forall n p x, (length p <= n)%nat -> distinct n x ->
  (forall i, (i < n)%nat -> peval p (x i) = 0) -> forall y, peval p y = 0.
Proof. intros. apply coefs_zero_eval. apply roots_zero_coef with n x; auto. Qed.
Lemma interp_unique : forall n p q x, (length p <= n)%nat -> (length q <= n)%nat -> distinct n x ->
  (forall i, (i < n)%nat -> peval p (x i) = peval q (x i)) -> forall y, peval p y = peval q y.
Proof.
  intros n p q x Hp Hq Hd He y.
  assert (E : peval (padd p (pscal (-1) q)) y = 0).
  { apply (roots_zero n) with x; auto.
    - rewrite length_add, length_scal; lia.
    - intros i Hi. rewrite peval_add, peval_scal, He; auto; ring. }
  rewrite peval_add, peval_scal in E. lra.
Qed.

(** * Node polynomial facts *)
(** [w] is a node polynomial of the n nodes x: degree <= n, vanishing at the nodes with simple zeros. *)
Record node_poly (n : nat) (x : nat -> R) (w : list R) : Prop := {
  np_len : (length w <= S n)%nat;
  np_zero : forall j, (j < n)%nat -> peval w (x j) = 0;
  np_simple : forall j, (j < n)%nat -> peval (pder w) (x j) <> 0 }.

Lemma quo_at : forall p r, peval (pquo p r) r = peval (pder p) r.
Proof.
  intros. symmetry.
  apply derivable_unique with (peval p) r; [apply peval_derivable|].
  apply derivable_pt_lim_ext with (plus_fct (mult_fct (minus_fct id (fct_cte r)) (peval (pquo p r))) (fct_cte (peval p r))).
  - intro y. unfold plus_fct, mult_fct, minus_fct, fct_cte, id. symmetry. apply peval_quo.
  - replace (peval (pquo p r) r) with (((1 - 0) * peval (pquo p r) r + (id r - fct_cte r r) * peval (pder (pquo p r)) r) + 0)
      by (unfold id, fct_cte; ring).
    apply derivable_pt_lim_plus; [|apply derivable_pt_lim_const].
    apply (derivable_pt_lim_mult (minus_fct id (fct_cte r)) (peval (pquo p r))); [|apply peval_derivable].
    apply derivable_pt_lim_minus; [apply derivable_pt_lim_id|apply derivable_pt_lim_const].
Qed.
Lemma quo_other : forall p r y, peval p r = 0 -> peval p y = 0 -> y <> r -> peval (pquo p r) y = 0.
Proof.
  intros p r y Hr Hy Hne. rewrite (peval_quo p r), Hr, Rplus_0_r in Hy.
  apply Rmult_integral in Hy. destruct Hy as [Hy|Hy]; auto. exfalso; apply Hne; lra.
Qed.

Lemma divided_difference_zero : forall n x w q, node_poly (S n) x w -> distinct (S n) x -> (length q <= n)%nat ->
  rsum (S n) (fun j => peval q (x j) / peval (pder w) (x j)) = 0.
Proof.
  intros n x w q [Hl Hz Hs] Hd Hq.
  set (c := fun j => peval q (x j) / peval (pder w) (x j)).
  set (r := padd (psum (S n) (fun j => pscal (c j) (pquo w (x j)))) (pscal (-1) q)).
  assert (Hr : forall k, pcoef r k = 0).
  { apply (roots_zero_coef (S n)) with x; auto.
    - unfold r. rewrite length_add, length_scal.
      assert (length (psum (S n) (fun j => pscal (c j) (pquo w (x j)))) <= S n)%nat; [|lia].
      apply length_psum. intros. rewrite length_scal, length_quo. lia.
    - intros i Hi. unfold r. rewrite peval_add, peval_scal, peval_psum.
      rewrite (rsum_isolate (S n) i) by auto.
      rewrite (rsum_zero (S n)).
      + rewrite peval_scal, quo_at. unfold c. field. apply Hs; auto.
      + intros j Hj. destruct (Nat.eqb_spec j i); auto.
        rewrite peval_scal, (quo_other w (x j)); auto; try ring. }
  specialize (Hr n). unfold r in Hr. rewrite pcoef_add, pcoef_scal, (pcoef_over q) in Hr by auto.
  rewrite pcoef_psum in Hr.
  rewrite (rsum_ext _ _ (fun j => pcoef w (S n) * c j)) in Hr.
  2:{ intros i Hi. rewrite pcoef_scal, pcoef_quo_lead by auto. ring. }
  rewrite rsum_scal in Hr.
  assert (Hlead : pcoef w (S n) <> 0).
  { intro E. assert (Z : forall k, pcoef w k = 0).
    { intro k. set (w' := plist (S n) (pcoef w)).
      assert (Hw' : forall y, peval w' y = peval w y).
      { intro y. unfold w'. rewrite peval_plist. rewrite (peval_coef w (S (S n))) by auto. rewrite (rsum_S (S n)), E. ring. }
      assert (Z : forall k, pcoef w' k = 0).
      { apply (roots_zero_coef (S n)) with x; auto.
        - unfold w'; rewrite length_plist; lia.
        - intros; rewrite Hw'; auto. }
      destruct (Nat.lt_ge_cases k (S n)) as [H1|H1].
      - specialize (Z k). unfold w' in Z. rewrite pcoef_plist in Z; auto.
      - destruct (Nat.eq_dec k (S n)) as [->|H2]; auto. apply pcoef_over; lia. }
    apply (Hs O); [lia|]. rewrite (peval_der_ext w []).
    - reflexivity.
    - intro y. rewrite coefs_zero_eval; auto. }
  change (rsum (S n) c = 0).
  assert (Hr' : pcoef w (S n) * rsum (S n) c = 0) by lra.
  apply Rmult_integral in Hr'. destruct Hr'; [contradiction|auto].
Qed.

(** Differentiation at the nodes from any weights annihilating lower degrees. *)
Lemma diff_from_weights : forall n x (b : nat -> R) p i,
  (forall q, (length q <= n)%nat -> rsum (S n) (fun j => b j * peval q (x j)) = 0) ->
  distinct (S n) x -> (i < S n)%nat -> b i <> 0 -> (length p <= S n)%nat ->
  peval (pder p) (x i) =
    rsum (S n) (fun j => if Nat.eqb j i then 0 else b j / b i / (x i - x j) * (peval p (x j) - peval p (x i))).
Proof.
  intros n x b p i Hb Hd Hi Hbi Hp.
  assert (H := Hb (pquo p (x i)) ltac:(rewrite length_quo; lia)).
  rewrite (rsum_isolate (S n) i) in H by auto. rewrite quo_at in H.
  assert (E : rsum (S n) (fun j => if Nat.eqb j i then 0 else b j / b i / (x i - x j) * (peval p (x j) - peval p (x i)))
              = - / b i * rsum (S n) (fun k => if Nat.eqb k i then 0 else b k * peval (pquo p (x i)) (x k))).
  { rewrite <- rsum_scal. apply rsum_ext. intros j Hj. destruct (Nat.eqb_spec j i); [ring|].
    rewrite (peval_quo p (x i) (x j)). field. split; auto.
    assert (x i <> x j) by (apply Hd; auto). lra. }
  rewrite E. clear E.
  set (s := rsum (S n) _) in *. assert (s = - (b i * peval (pder p) (x i))) by lra. rewrite H0. field; auto.
Qed.
