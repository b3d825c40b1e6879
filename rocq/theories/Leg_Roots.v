(** The Legendre polynomial of degree n has n simple roots in (-1,1), and its
    derivative n - 1; hence Legendre-Gauss-Lobatto nodes exist for every order. *)
Require Import ZArith List Bool Lia Reals Lra.
From Verif Require Import Scal RSum PolyR Leg_Math Legendre_Proofs.
Import ListNotations.
Local Open Scope R_scope.

Lemma finite_choice : forall n (P : nat -> R -> Prop), (forall k, (k < n)%nat -> exists t, P k t) ->
  exists f : nat -> R, forall k, (k < n)%nat -> P k (f k).
Proof.
  induction n; intros P H.
  - exists (fun _ => 0). intros; lia.
  - destruct (IHn P) as [f Hf]; [intros; apply H; lia|]. destruct (H n) as [t Ht]; [lia|].
    exists (fun k => if (k =? n)%nat then t else f k). intros k Hk.
    destruct (Nat.eqb_spec k n) as [->|]; auto. apply Hf; lia.
Qed.

Definition incr (n : nat) (x : nat -> R) : Prop := forall i j, (i < j)%nat -> (j < n)%nat -> x i < x j.
Lemma incr_distinct : forall n x, incr n x -> forall i j, (i < n)%nat -> (j < n)%nat -> i <> j -> x i <> x j.
Proof.
  intros n x H i j Hi Hj Hne. destruct (Nat.lt_ge_cases i j).
  - specialize (H i j). lra || (assert (x i < x j) by (apply H; lia); lra).
  - assert (x j < x i) by (apply H; lia). lra.
Qed.
Lemma incr_succ : forall n x, (forall i, (S i < n)%nat -> x i < x (S i)) -> incr n x.
Proof.
  intros n x H i j Hij. induction j; intros Hj; [lia|]. destruct (Nat.eq_dec i j) as [->|].
  - apply H; lia.
  - apply Rlt_trans with (x j); [apply IHj; lia|apply H; lia].
Qed.

(** sign between the roots *)
Lemma root_sign : forall n p x y k, (length p <= S n)%nat -> 0 < pcoef p n -> incr n x ->
  (forall j, (j < n)%nat -> peval p (x j) = 0) -> (k <= n)%nat ->
  (forall j, (j < k)%nat -> x j < y) -> (forall j, (k <= j)%nat -> (j < n)%nat -> y < x j) ->
  0 < (-1) ^ (n - k) * peval p y.
Proof.
  induction n; intros p x y k Hl Hc Hx Hr Hk H1 H2.
  - replace k with 0%nat by lia. simpl. rewrite (peval_coef p 1) by lia. rewrite rsum_S, rsum_0. simpl. lra.
  - assert (E := peval_quo p (x n) y). rewrite (Hr n), Rplus_0_r in E by lia.
    assert (Hq : (length (pquo p (x n)) <= S n)%nat) by (rewrite length_quo; lia).
    assert (Hcq : 0 < pcoef (pquo p (x n)) n) by (rewrite pcoef_quo_lead; auto).
    assert (Hrq : forall j, (j < n)%nat -> peval (pquo p (x n)) (x j) = 0).
    { intros j Hj. apply quo_other; [apply Hr; lia|apply Hr; lia|]. assert (x j < x n) by (apply Hx; lia). lra. }
    assert (Hxq : incr n x) by (intros i j Hi Hj; apply Hx; lia).
    destruct (Nat.eq_dec k (S n)) as [->|Hne].
    + rewrite Nat.sub_diag. simpl pow. rewrite E.
      assert (G : 0 < (-1) ^ (n - n) * peval (pquo p (x n)) y).
      { apply IHn with x; auto; intros; lia. }
      rewrite Nat.sub_diag in G. simpl pow in G. assert (x n < y) by (apply H1; lia).
      rewrite Rmult_1_l in G |- *. apply Rmult_lt_0_compat; lra.
    + assert (G : 0 < (-1) ^ (n - k) * peval (pquo p (x n)) y).
      { apply IHn with x; auto; lia. }
      replace (S n - k)%nat with (S (n - k)) by lia. rewrite E.
      assert (y < x n) by (apply H2; lia).
      replace ((-1) ^ S (n - k) * ((y - x n) * peval (pquo p (x n)) y))
        with ((x n - y) * ((-1) ^ (n - k) * peval (pquo p (x n)) y)) by (simpl pow; ring).
      apply Rmult_lt_0_compat; lra.
Qed.

Lemma poly_ivt : forall p a b, a < b -> peval p a * peval p b < 0 -> exists t, a < t < b /\ peval p t = 0.
Proof.
  intros p a b Hab H. destruct (IVT_cor (peval p) a b) as [t [Ht H0]]; [apply peval_continuity|lra|lra|].
  exists t. split; auto. destruct Ht as [[Ha|Ha] [Hb|Hb]]; try lra; subst; rewrite ?H0 in H; lra.
Qed.

Lemma sq_sign : forall m, (-1) ^ m * (-1) ^ m = 1.
Proof. intros. rewrite <- Rpow_mult_distr. replace (-1 * -1) with 1 by ring. apply pow1. Qed.

Lemma leg_interlace : forall n, exists r s : nat -> R,
  incr n r /\ incr (S n) s /\
  (forall i, (i < n)%nat -> peval (leg n) (r i) = 0) /\
  (forall i, (i < S n)%nat -> peval (leg (S n)) (s i) = 0 /\ -1 < s i < 1) /\
  (forall i, (i < n)%nat -> s i < r i < s (S i)).
Proof.
  induction n.
  - exists (fun _ => 0), (fun _ => 0). repeat split; try (intros i j; lia); try (intros; lia); try lra.
    rewrite leg_1_eval. auto.
  - destruct IHn as (r & s & Hr & Hs & Zr & Zs & Hi).
    set (z := fun k => if (k =? 0)%nat then -1 else if (k =? S (S n))%nat then 1 else s (k - 1)%nat).
    assert (Hz : forall k, (k <= S n)%nat -> z k < z (S k)).
    { intros k Hk. unfold z. destruct (Nat.eqb_spec k 0); destruct (Nat.eqb_spec (S k) (S (S n))); subst; simpl.
      - lra.
      - destruct (Zs 0%nat); [lia|]. lra.
      - destruct (Nat.eqb_spec k (S (S n))); [lia|]. replace (k - 1)%nat with n by lia. destruct (Zs n); [lia|lra].
      - destruct (Nat.eqb_spec k (S (S n))); [lia|]. replace (k - 0)%nat with (S (k - 1)) by lia. apply Hs; lia. }
    assert (Sz : forall k, (k <= S (S n))%nat -> 0 < (-1) ^ (S (S n) - k) * peval (leg (S (S n))) (z k)).
    { intros k Hk. unfold z. destruct (Nat.eqb_spec k 0) as [->|H0].
      - rewrite Nat.sub_0_r, leg_at_m1, sq_sign. lra.
      - destruct (Nat.eqb_spec k (S (S n))) as [->|H1].
        + rewrite Nat.sub_diag, leg_at_1. simpl. lra.
        + set (i := (k - 1)%nat). assert (Hin : (i <= n)%nat) by lia.
          assert (B := leg_bonnet n (s i)). destruct (Zs i) as [Z _]; [lia|]. rewrite Z, Rmult_0_r in B.
          assert (G : 0 < (-1) ^ (n - i) * peval (leg n) (s i)).
          { apply root_sign with r; auto.
            - rewrite length_leg; lia.
            - assert (L := leg_lead n). lra.
            - intros j Hj. destruct (Hi j); [lia|]. destruct (Nat.eq_dec (S j) i) as [<-|]; auto.
              apply Rlt_trans with (s (S j)); auto. apply Hs; lia.
            - intros j Hj1 Hj2. destruct (Hi j); [lia|]. destruct (Nat.eq_dec j i) as [->|]; auto.
              apply Rlt_trans with (s j); auto. apply Hs; lia. }
          replace (S (S n) - k)%nat with (S (n - i)) by lia.
          assert (P := pos_INR (S n)). assert (P1 : 0 < INR (S n)) by (apply lt_0_INR; lia).
          apply Rmult_lt_reg_l with (INR (S n) + 1); [lra|]. rewrite Rmult_0_r.
          replace ((INR (S n) + 1) * ((-1) ^ S (n - i) * peval (leg (S (S n))) (s i)))
            with ((-1) ^ S (n - i) * ((INR (S n) + 1) * peval (leg (S (S n))) (s i))) by ring.
          rewrite B. replace ((-1) ^ S (n - i) * (0 - INR (S n) * peval (leg n) (s i)))
            with (INR (S n) * ((-1) ^ (n - i) * peval (leg n) (s i))) by (simpl pow; ring).
          apply Rmult_lt_0_compat; auto. }
    assert (Ht : exists t : nat -> R, forall k, (k < S (S n))%nat -> z k < t k < z (S k) /\ peval (leg (S (S n))) (t k) = 0).
    { apply finite_choice with (P := fun k t => z k < t < z (S k) /\ peval (leg (S (S n))) t = 0).
      intros k Hk. apply poly_ivt; [apply Hz; lia|].
      assert (A := Sz k). assert (B := Sz (S k)). replace (S (S n) - k)%nat with (S (S (S n) - S k)) in A by lia.
      set (e := (-1) ^ (S (S n) - S k)) in *. change ((-1) ^ S (S (S n) - S k)) with (-1 * e) in A.
      assert (A' : 0 < -1 * e * peval (leg (S (S n))) (z k)) by (apply A; lia).
      assert (B' : 0 < e * peval (leg (S (S n))) (z (S k))) by (apply B; lia).
      assert (C := Rmult_lt_0_compat _ _ A' B').
      assert (Q : e * e = 1) by apply sq_sign.
      replace (-1 * e * peval (leg (S (S n))) (z k) * (e * peval (leg (S (S n))) (z (S k))))
        with (- (e * e) * (peval (leg (S (S n))) (z k) * peval (leg (S (S n))) (z (S k)))) in C by ring.
      rewrite Q in C. lra. }
    destruct Ht as [t Ht]. exists s, t.
    assert (Hzm : forall k, (k <= S (S n))%nat -> -1 <= z k).
    { induction k; intros Hk; [unfold z; simpl; lra|]. assert (z k < z (S k)) by (apply Hz; lia). assert (-1 <= z k) by (apply IHk; lia). lra. }
    assert (HzM : forall d, (d <= S (S n))%nat -> z (S (S n) - d)%nat <= 1).
    { induction d; intros Hd.
      - rewrite Nat.sub_0_r. unfold z. rewrite Nat.eqb_refl. simpl. lra.
      - assert (z (S (S n) - S d)%nat < z (S (S (S n) - S d))%nat) by (apply Hz; lia).
        replace (S (S (S n) - S d))%nat with (S (S n) - d)%nat in H by lia.
        assert (z (S (S n) - d)%nat <= 1) by (apply IHd; lia). lra. }
    split; [exact Hs|]. split.
    { apply incr_succ. intros i Hi'. destruct (Ht i); [lia|]. destruct (Ht (S i)); [lia|]. lra. }
    split; [intros; apply Zs; lia|]. split.
    { intros i Hi'. destruct (Ht i) as [B Z]; [lia|]. split; [exact Z|].
      assert (-1 <= z i) by (apply Hzm; lia).
      assert (z (S i) <= 1). { replace (S i) with (S (S n) - (S n - i))%nat by lia. apply HzM; lia. } lra. }
    intros i Hi'. destruct (Ht i) as [B _]; [lia|]. destruct (Ht (S i)) as [B' _]; [lia|].
    assert (E : z (S i) = s i).
    { unfold z. simpl. destruct (Nat.eqb_spec i (S n)); [lia|]. rewrite Nat.sub_0_r. auto. }
    rewrite E in *. lra.
Qed.

Lemma leg_roots : forall n, exists r : nat -> R, incr n r /\
  forall i, (i < n)%nat -> peval (leg n) (r i) = 0 /\ -1 < r i < 1.
Proof.
  destruct n.
  - exists (fun _ => 0). split; [intros i j; lia|intros; lia].
  - destruct (leg_interlace n) as (r & s & _ & Hs & _ & Zs & _). exists s. auto.
Qed.

Theorem good_roots_exist : forall N, (1 <= N)%nat -> exists roots, good_roots N roots.
Proof.
  intros N HN. destruct (leg_roots N) as (r & Hr & Zr).
  destruct (finite_choice (N - 1) (fun i t => r i < t < r (S i) /\ peval (pder (leg N)) t = 0)) as [t Ht].
  { intros k Hk. assert (L : r k < r (S k)) by (apply Hr; lia).
    destruct (MVT_cor2 (peval (leg N)) (peval (pder (leg N))) (r k) (r (S k)) L) as (c & E & Hc).
    - intros. apply peval_derivable.
    - exists c. split; auto. destruct (Zr k) as [Z1 _]; [lia|]. destruct (Zr (S k)) as [Z2 _]; [lia|].
      rewrite Z1, Z2, Rminus_0_r in E. symmetry in E. apply Rmult_integral in E. destruct E; lra. }
  exists t. split.
  - intros i Hi. destruct (Ht i Hi) as [B Z]. split; auto.
    destruct (Zr i) as [_ Z1]; [lia|]. destruct (Zr (S i)) as [_ Z2]; [lia|]. lra.
  - apply incr_distinct. apply incr_succ. intros i Hi.
    destruct (Ht i) as [B _]; [lia|]. destruct (Ht (S i)) as [B' _]; [lia|]. lra.
Qed.

(** a polynomial of degree N - 1 has no further roots: any N - 1 distinct roots are these *)
Lemma good_roots_complete : forall N roots y, (1 <= N)%nat -> good_roots N roots ->
  peval (pder (leg N)) y = 0 -> exists i, (i < N - 1)%nat /\ y = roots i.
Proof.
  intros N roots y HN [H1 H2] Hy.
  assert (D : (exists i, (i < N - 1)%nat /\ y = roots i) \/ forall i, (i < N - 1)%nat -> y <> roots i).
  { clear - y. induction (N - 1)%nat as [|m IH].
    - right. intros; lia.
    - destruct IH as [[i [Hi E]]|IH]; [left; exists i; split; [lia|auto]|].
      destruct (Req_dec y (roots m)) as [->|Hne]; [left; exists m; split; [lia|auto]|].
      right. intros i Hi. destruct (Nat.eq_dec i m) as [->|]; auto. apply IH; lia. }
  destruct D as [D|D]; auto. exfalso.
  assert (Z : forall x, peval (pder (leg N)) x = 0).
  { apply (roots_zero N) with (fun i => if (i =? N - 1)%nat then y else roots i).
    - rewrite length_der, length_leg. lia.
    - intros i j Hi Hj Hne. destruct (Nat.eqb_spec i (N - 1)), (Nat.eqb_spec j (N - 1)); subst; try lia.
      + apply D. lia.
      + intro E. apply (D i); [lia|auto].
      + apply H2; lia.
    - intros i Hi. destruct (Nat.eqb_spec i (N - 1)); auto. apply H1. lia. }
  assert (E := leg_der_1 N). rewrite Z in E. assert (0 < INR N) by (apply lt_0_INR; lia). nra.
Qed.
