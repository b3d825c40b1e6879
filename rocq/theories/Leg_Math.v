(** Mathematics of Legendre polynomials and Legendre-Gauss-Lobatto nodes, built
    from Bonnet's recurrence on coefficient lists. *)
Require Import ZArith List Bool Lia Reals Lra.
From Verif Require Import Scal RSum PolyR.
Import ListNotations.
Local Open Scope R_scope.

Fixpoint leg_pair (n : nat) : list R * list R :=
  match n with
  | O => ([1], [0; 1])
  | S k => let (p, q) := leg_pair k in
           (q, padd (pscal ((2 * INR (S k) + 1) / (INR (S k) + 1)) (0 :: q))
                    (pscal (- (INR (S k) / (INR (S k) + 1))) p))
  end.
Definition leg (n : nat) : list R := fst (leg_pair n).

Lemma leg_snd : forall n, snd (leg_pair n) = leg (S n).
Proof. intros. unfold leg. simpl. destruct (leg_pair n); auto. Qed.
Lemma leg_rec : forall n, leg (S (S n)) =
  padd (pscal ((2 * INR (S n) + 1) / (INR (S n) + 1)) (0 :: leg (S n))) (pscal (- (INR (S n) / (INR (S n) + 1))) (leg n)).
Proof.
  intros. rewrite <- (leg_snd (S n)). rewrite <- (leg_snd n) at 1. unfold leg.
  change (leg_pair (S n)) with (let (p, q) := leg_pair n in
           (q, padd (pscal ((2 * INR (S n) + 1) / (INR (S n) + 1)) (0 :: q))
                    (pscal (- (INR (S n) / (INR (S n) + 1))) p))).
  destruct (leg_pair n) as [p q]. reflexivity.
Qed.
Lemma leg_0 : leg 0 = [1]. Proof. reflexivity. Qed.
Lemma leg_1 : leg 1 = [0; 1]. Proof. reflexivity. Qed.
Global Opaque leg.

Lemma pair_ind : forall P : nat -> Prop, P O -> P 1%nat -> (forall n, P n -> P (S n) -> P (S (S n))) -> forall n, P n.
Proof.
  intros P H0 H1 HS n. assert (P n /\ P (S n)); [|tauto]. induction n; [auto|]. destruct IHn; split; auto.
Qed.

Lemma length_leg : forall n, length (leg n) = S n.
Proof.
  apply pair_ind; [rewrite leg_0; auto|rewrite leg_1; auto|]. intros n H0 H1.
  rewrite leg_rec, length_add, !length_scal. simpl length at 1. rewrite H0, H1. lia.
Qed.

Lemma INR_S_pos : forall n, 0 < INR (S n).
Proof. intros. apply lt_0_INR; lia. Qed.

(** Bonnet *)
Lemma leg_bonnet : forall n x, (INR (S n) + 1) * peval (leg (S (S n))) x =
  (2 * INR (S n) + 1) * x * peval (leg (S n)) x - INR (S n) * peval (leg n) x.
Proof.
  intros. rewrite leg_rec, peval_add, !peval_scal. change (peval (0 :: leg (S n)) x) with (0 + x * peval (leg (S n)) x).
  assert (H := INR_S_pos n). field. lra.
Qed.
Lemma leg_bonnet_der : forall n x, (INR (S n) + 1) * peval (pder (leg (S (S n)))) x =
  (2 * INR (S n) + 1) * (peval (leg (S n)) x + x * peval (pder (leg (S n))) x) - INR (S n) * peval (pder (leg n)) x.
Proof.
  intros. rewrite leg_rec, peval_der_add, !peval_der_scal, peval_der_cons.
  assert (H := INR_S_pos n). field. lra.
Qed.

Lemma leg_0_eval : forall x, peval (leg 0) x = 1.
Proof. intros; rewrite leg_0; simpl; ring. Qed.
Lemma leg_1_eval : forall x, peval (leg 1) x = x.
Proof. intros; rewrite leg_1; simpl; ring. Qed.
Lemma leg_0_der : forall x, peval (pder (leg 0)) x = 0.
Proof. intros; rewrite leg_0; simpl; ring. Qed.
Lemma leg_1_der : forall x, peval (pder (leg 1)) x = 1.
Proof. intros; rewrite leg_1; unfold pder; simpl; ring. Qed.

Lemma leg_BC : forall n x,
  x * peval (pder (leg (S n))) x - peval (pder (leg n)) x = INR (S n) * peval (leg (S n)) x /\
  (x ^ 2 - 1) * peval (pder (leg (S n))) x = INR (S n) * (x * peval (leg (S n)) x - peval (leg n) x).
Proof.
  induction n; intros x.
  - rewrite leg_0_der, leg_1_der, leg_0_eval, leg_1_eval. simpl. split; ring.
  - destruct (IHn x) as [B C]. assert (H := INR_S_pos n).
    assert (Bo := leg_bonnet n x). assert (Bd := leg_bonnet_der n x).
    rewrite (S_INR (S n)). set (k := INR (S n)) in *.
    set (L0 := peval (leg n) x) in *. set (L1 := peval (leg (S n)) x) in *. set (L2 := peval (leg (S (S n))) x) in *.
    set (D0 := peval (pder (leg n)) x) in *. set (D1 := peval (pder (leg (S n))) x) in *. set (D2 := peval (pder (leg (S (S n)))) x) in *.
    assert (A : D2 = x * D1 + (k + 1) * L1).
    { apply Rmult_eq_reg_l with (k + 1); [|lra]. rewrite Bd. replace D0 with (x * D1 - k * L1) by lra. ring. }
    assert (B' : x * D2 - D1 = (k + 1) * L2).
    { rewrite A, Bo. replace (x * (x * D1 + (k + 1) * L1) - D1) with ((x ^ 2 - 1) * D1 + (k + 1) * x * L1) by ring. rewrite C. ring. }
    split; auto.
    replace ((x ^ 2 - 1) * D2) with (x * (x * D2 - D1) - (D2 - x * D1)) by ring. rewrite B'. rewrite A. ring.
Qed.

Definition one_minus_x2 : list R := [1; 0; -1].
Lemma omx2_eval : forall x, peval one_minus_x2 x = 1 - x ^ 2.
Proof. intros. unfold one_minus_x2. simpl. ring. Qed.
(** (1 - x^2) P_n' *)
Definition legw (n : nat) : list R := pmul one_minus_x2 (pder (leg n)).
Lemma legw_eval : forall n x, peval (legw n) x = (1 - x ^ 2) * peval (pder (leg n)) x.
Proof. intros. unfold legw. rewrite peval_mul, omx2_eval. auto. Qed.
Lemma length_legw : forall n, (1 <= n)%nat -> (length (legw n) <= S (S n))%nat.
Proof.
  intros. unfold legw. replace (S (S n)) with (S (2 + (n - 1)))%nat by lia. apply length_mul_le; [simpl; lia|].
  rewrite length_der, length_leg. lia.
Qed.

(** Legendre's differential equation ((1 - x^2) P')' + n (n+1) P = 0 *)
Lemma leg_ode : forall n x, peval (pder (legw n)) x = - (INR n * (INR n + 1)) * peval (leg n) x.
Proof.
  intros [|n] x.
  - rewrite (peval_der_ext (legw 0) []); [change (INR 0) with 0; simpl; ring|].
    intro y. rewrite legw_eval, leg_0_der. simpl; ring.
  - rewrite (peval_der_ext (legw (S n))
       (pscal (INR (S n)) (padd (leg n) (pscal (-1) (0 :: leg (S n)))))).
    + rewrite peval_der_scal, peval_der_add, peval_der_scal, peval_der_cons.
      destruct (leg_BC n x) as [B _].
      replace (peval (pder (leg n)) x) with (x * peval (pder (leg (S n))) x - INR (S n) * peval (leg (S n)) x) by lra. ring.
    + intro y. rewrite legw_eval, peval_scal, peval_add, peval_scal.
      change (peval (0 :: leg (S n)) y) with (0 + y * peval (leg (S n)) y).
      destruct (leg_BC n y) as [_ C]. replace ((1 - y ^ 2) * peval (pder (leg (S n))) y) with (- ((y ^ 2 - 1) * peval (pder (leg (S n))) y)) by ring.
      rewrite C. ring.
Qed.

Lemma leg_at_1 : forall n, peval (leg n) 1 = 1.
Proof.
  apply pair_ind; [apply leg_0_eval|apply leg_1_eval|]. intros n H0 H1.
  assert (B := leg_bonnet n 1). rewrite H0, H1 in B. assert (H := INR_S_pos n).
  apply Rmult_eq_reg_l with (INR (S n) + 1); lra.
Qed.
Lemma leg_at_m1 : forall n, peval (leg n) (-1) = (-1) ^ n.
Proof.
  apply pair_ind; [rewrite leg_0_eval; auto|rewrite leg_1_eval; simpl; ring|]. intros n H0 H1.
  assert (B := leg_bonnet n (-1)). rewrite H0, H1 in B. assert (H := INR_S_pos n).
  apply Rmult_eq_reg_l with (INR (S n) + 1); [|lra]. rewrite B. simpl. ring.
Qed.
Lemma leg_parity : forall n x, peval (leg n) (- x) = (-1) ^ n * peval (leg n) x.
Proof.
  intros n x. revert n. apply pair_ind; [rewrite !leg_0_eval; simpl; ring|rewrite !leg_1_eval; simpl; ring|]. intros n H0 H1.
  assert (B := leg_bonnet n (-x)). assert (B' := leg_bonnet n x). rewrite H0, H1 in B. assert (H := INR_S_pos n).
  apply Rmult_eq_reg_l with (INR (S n) + 1); [|lra]. rewrite B.
  change ((-1) ^ (S (S n))) with (-1 * (-1 * (-1) ^ n)). change ((-1) ^ (S n)) with (-1 * (-1) ^ n).
  replace ((INR (S n) + 1) * (-1 * (-1 * (-1) ^ n) * peval (leg (S (S n))) x))
    with ((-1) ^ n * ((INR (S n) + 1) * peval (leg (S (S n))) x)) by ring.
  rewrite B'. ring.
Qed.
Lemma legw_der_alt : forall n x, peval (pder (legw n)) x = -2 * x * peval (pder (leg n)) x + (1 - x ^ 2) * peval (pder (pder (leg n))) x.
Proof.
  intros. unfold legw. rewrite peval_der_mul, omx2_eval.
  replace (peval (pder one_minus_x2) x) with (-2 * x) by (unfold one_minus_x2, pder; simpl; ring). ring.
Qed.
Lemma leg_der_1 : forall n, peval (pder (leg n)) 1 = INR n * (INR n + 1) / 2.
Proof.
  intros. assert (H := leg_ode n 1). rewrite legw_der_alt, leg_at_1 in H.
  replace (1 - 1 ^ 2) with 0 in H by ring. lra.
Qed.
Lemma leg_der_m1 : forall n, peval (pder (leg n)) (-1) = - (INR n * (INR n + 1) / 2) * (-1) ^ n.
Proof.
  intros. assert (H := leg_ode n (-1)). rewrite legw_der_alt, leg_at_m1 in H.
  replace (1 - (-1) ^ 2) with 0 in H by ring.
  apply Rmult_eq_reg_l with 2; [|lra].
  replace (2 * (- (INR n * (INR n + 1) / 2) * (-1) ^ n)) with (- (INR n * (INR n + 1)) * (-1) ^ n) by field. rewrite <- H. ring.
Qed.

(** leading coefficient *)
Lemma leg_lead : forall n, 1 <= pcoef (leg n) n.
Proof.
  apply pair_ind; [rewrite leg_0; unfold pcoef; simpl; lra|rewrite leg_1; unfold pcoef; simpl; lra|]. intros n _ H1.
  rewrite leg_rec, pcoef_add, !pcoef_scal, (pcoef_over (leg n)) by (rewrite length_leg; lia).
  change (pcoef (0 :: leg (S n)) (S (S n))) with (pcoef (leg (S n)) (S n)).
  assert (H := INR_S_pos n). rewrite Rmult_0_r, Rplus_0_r.
  assert (1 <= (2 * INR (S n) + 1) / (INR (S n) + 1)).
  { apply Rmult_le_reg_r with (INR (S n) + 1); [lra|]. unfold Rdiv. rewrite Rmult_assoc, Rinv_l by lra. lra. }
  nra.
Qed.

(** orthogonality *)
Definition ip (p q : list R) : R := pint (pmul p q) (-1) 1.
Lemma ip_comm : forall p q, ip p q = ip q p.
Proof. intros. apply pint_ext. intro. rewrite !peval_mul. ring. Qed.
Lemma ip_ext : forall p q p' q', (forall x, peval p x = peval p' x) -> (forall x, peval q x = peval q' x) -> ip p q = ip p' q'.
Proof. intros. apply pint_ext. intro. rewrite !peval_mul, H, H0. auto. Qed.
Lemma ip_add_r : forall p q r, ip p (padd q r) = ip p q + ip p r.
Proof.
  intros. unfold ip. rewrite <- pint_add. apply pint_ext. intro. rewrite peval_add, !peval_mul, peval_add. ring.
Qed.
Lemma ip_scal_r : forall p q c, ip p (pscal c q) = c * ip p q.
Proof.
  intros. unfold ip. rewrite <- pint_scal. apply pint_ext. intro. rewrite peval_scal, !peval_mul, peval_scal. ring.
Qed.
Lemma ip_nil_r : forall p, ip p [] = 0.
Proof.
  intros. rewrite (ip_ext p [] p (pscal 0 [])), ip_scal_r; auto. ring.
Qed.
Lemma ip_parts : forall p q, ip (pder p) q = peval p 1 * peval q 1 - peval p (-1) * peval q (-1) - ip p (pder q).
Proof. intros. assert (H := pint_parts p q (-1) 1). unfold ip. lra. Qed.

Lemma leg_sturm : forall m n, INR m * (INR m + 1) * ip (leg m) (leg n) = pint (pmul one_minus_x2 (pmul (pder (leg m)) (pder (leg n)))) (-1) 1.
Proof.
  intros. assert (H := ip_parts (legw m) (leg n)).
  rewrite !legw_eval in H. replace (1 - 1 ^ 2) with 0 in H by ring. replace (1 - (-1) ^ 2) with 0 in H by ring.
  rewrite (ip_ext (pder (legw m)) (leg n) (pscal (- (INR m * (INR m + 1))) (leg m)) (leg n)) in H.
  - rewrite ip_comm, ip_scal_r, (ip_comm (leg n)) in H.
    replace (ip (legw m) (pder (leg n))) with (pint (pmul one_minus_x2 (pmul (pder (leg m)) (pder (leg n)))) (-1) 1) in H.
    + lra.
    + apply pint_ext. intro. unfold legw. rewrite !peval_mul. ring.
  - intro. rewrite leg_ode, peval_scal. auto.
  - auto.
Qed.
Lemma leg_orth : forall m n, m <> n -> ip (leg m) (leg n) = 0.
Proof.
  intros m n Hne. assert (H1 := leg_sturm m n). assert (H2 := leg_sturm n m).
  rewrite (ip_comm (leg n)) in H2.
  rewrite (pint_ext _ (pmul one_minus_x2 (pmul (pder (leg m)) (pder (leg n))))) in H2.
  2:{ intro. rewrite !peval_mul. ring. }
  rewrite <- H1 in H2.
  assert (E : (INR m - INR n) * (INR m + INR n + 1) * ip (leg m) (leg n) = 0) by lra.
  assert (0 <= INR m) by apply pos_INR. assert (0 <= INR n) by apply pos_INR.
  apply Rmult_integral in E. destruct E as [E|E]; auto. apply Rmult_integral in E. destruct E as [E|E]; [|lra].
  exfalso. apply Hne. apply INR_eq. lra.
Qed.
Lemma leg_norm : forall n, ip (leg n) (leg n) = 2 / (2 * INR n + 1).
Proof.
  induction n.
  - rewrite leg_0. unfold ip, pint, pant. simpl. field.
  - assert (H := INR_S_pos n).
    (* <x P_{n+1}, P_n> two ways *)
    set (X := ip (leg (S n)) (0 :: leg n)).
    assert (E1 : INR (S n) * ip (leg (S n)) (leg (S n)) = (2 * INR n + 1) * X).
    { destruct n.
      - unfold X. rewrite leg_1, leg_0. simpl INR. replace (2 * 0 + 1) with 1 by ring. reflexivity.
      - assert (Bo : forall x, INR (S (S n)) * peval (leg (S (S n))) x = (2 * INR (S n) + 1) * x * peval (leg (S n)) x - INR (S n) * peval (leg n) x).
        { intro x. rewrite (S_INR (S n)). apply leg_bonnet. }
        rewrite <- ip_scal_r.
        rewrite (ip_ext (leg (S (S n))) (pscal (INR (S (S n))) (leg (S (S n)))) (leg (S (S n)))
                  (padd (pscal (2 * INR (S n) + 1) (0 :: leg (S n))) (pscal (- INR (S n)) (leg n)))).
        + rewrite ip_add_r, !ip_scal_r, (leg_orth (S (S n)) n) by lia. fold X. ring.
        + auto.
        + intro x. rewrite peval_scal, Bo, peval_add, !peval_scal. simpl peval. ring. }
    assert (E2 : (2 * INR (S n) + 1) * X = INR (S n) * ip (leg n) (leg n)).
    { unfold X. rewrite <- ip_scal_r.
      transitivity (ip (leg n) (padd (pscal (INR (S n) + 1) (leg (S (S n)))) (pscal (INR (S n)) (leg n)))).
      - rewrite <- (ip_comm _ (leg n)). apply pint_ext. intro x. rewrite !peval_mul, peval_scal, peval_add, !peval_scal.
        assert (B := leg_bonnet n x). simpl (peval (0 :: leg n) x).
        rewrite B. ring.
      - rewrite ip_add_r, !ip_scal_r, (leg_orth n (S (S n))) by lia. ring. }
    rewrite IHn in E2. assert (0 <= INR n) by apply pos_INR. rewrite S_INR in *.
    apply Rmult_eq_reg_l with (INR n + 1); [|lra]. rewrite E1.
    apply Rmult_eq_reg_l with (2 * (INR n + 1) + 1); [|lra].
    transitivity ((2 * INR n + 1) * ((2 * (INR n + 1) + 1) * X)); [ring|]. rewrite E2. field. lra.
Qed.

(** cutting off a vanishing top coefficient *)
Lemma cut_top : forall n p, (length p <= S n)%nat -> pcoef p n = 0 -> forall x, peval (plist n (pcoef p)) x = peval p x.
Proof.
  intros. rewrite peval_plist, (peval_coef p (S n)) by auto. rewrite rsum_S, H0. ring.
Qed.

(** every polynomial of degree < n is a combination of P_0 .. P_{n-1} *)
Lemma leg_span : forall n p, (length p <= n)%nat -> exists c : nat -> R, forall x, peval p x = rsum n (fun k => c k * peval (leg k) x).
Proof.
  induction n; intros p Hp.
  - exists (fun _ => 0). intro. destruct p; [|simpl in Hp; lia]. reflexivity.
  - set (d := pcoef p n / pcoef (leg n) n). assert (HL := leg_lead n).
    set (q := padd p (pscal (- d) (leg n))).
    assert (Hq0 : pcoef q n = 0) by (unfold q; rewrite pcoef_add, pcoef_scal; unfold d; field; lra).
    assert (Hql : (length q <= S n)%nat) by (unfold q; rewrite length_add, length_scal, length_leg; lia).
    destruct (IHn (plist n (pcoef q))) as [c Hc]; [rewrite length_plist; lia|].
    exists (fun k => if (k =? n)%nat then d else c k). intro x.
    rewrite rsum_S, Nat.eqb_refl.
    rewrite (rsum_ext n _ (fun k => c k * peval (leg k) x)).
    + rewrite <- Hc, cut_top by auto. unfold q. rewrite peval_add, peval_scal. ring.
    + intros k Hk. destruct (Nat.eqb_spec k n); [lia|auto].
Qed.
Lemma ip_rsum_r : forall p n c (f : nat -> list R) q, (forall x, peval q x = rsum n (fun k => c k * peval (f k) x)) ->
  ip p q = rsum n (fun k => c k * ip p (f k)).
Proof.
  intros. rewrite (ip_ext p q p (psum n (fun k => pscal (c k) (f k)))); auto.
  - induction n in q, H |- *; [simpl; rewrite ip_nil_r; auto|].
    simpl psum. rewrite ip_add_r, ip_scal_r, rsum_S. f_equal. apply (IHn (psum n (fun k => pscal (c k) (f k)))).
    intro x. rewrite peval_psum. apply rsum_ext; intros; apply peval_scal.
  - intro x. rewrite H, peval_psum. apply rsum_ext; intros; symmetry; apply peval_scal.
Qed.
Lemma leg_orth_low : forall n q, (length q <= n)%nat -> ip (leg n) q = 0.
Proof.
  intros n q Hq. destruct (leg_span n q Hq) as [c Hc]. rewrite (ip_rsum_r (leg n) n c leg q Hc).
  apply rsum_zero. intros k Hk. rewrite leg_orth by lia. ring.
Qed.

(** P_n and P_{n+1} have no common zero *)
Lemma leg_no_common : forall n x, peval (leg n) x = 0 -> peval (leg (S n)) x = 0 -> False.
Proof.
  induction n; intros x H0 H1.
  - rewrite leg_0_eval in H0. lra.
  - assert (B := leg_bonnet n x). rewrite H0, H1 in B. assert (H := INR_S_pos n).
    apply (IHn x); auto. apply Rmult_eq_reg_l with (INR (S n)); lra.
Qed.

(** Legendre-Gauss-Lobatto nodes: -1, 1 and the zeros of P_N' between, increasing *)
Record lgl_nodes (N : nat) (x : nat -> R) : Prop := {
  lgl_first : x O = -1;
  lgl_last : x N = 1;
  lgl_incr : forall i j, (i < j)%nat -> (j <= N)%nat -> x i < x j;
  lgl_root : forall i, (0 < i)%nat -> (i < N)%nat -> peval (pder (leg N)) (x i) = 0 }.

Section Nodes.
Variables (N : nat) (x : nat -> R).
Hypothesis HN : (1 <= N)%nat.
Hypothesis Hx : lgl_nodes N x.
Set Default Proof Using "All".

Lemma lgl_distinct : distinct (S N) x.
Proof.
  intros i j Hi Hj Hne. destruct (Nat.lt_total i j) as [H|[H|H]]; [|lia|].
  - assert (H1 := lgl_incr N x Hx i j H ltac:(lia)). lra.
  - assert (H1 := lgl_incr N x Hx j i H ltac:(lia)). lra.
Qed.
Lemma NR : 0 < INR N. Proof. apply lt_0_INR; lia. Qed.
Lemma NN1 : 0 < INR N * (INR N + 1). Proof. assert (H := NR). nra. Qed.
Lemma lgl_end : forall i, (i <= N)%nat -> i = O \/ i = N \/ (0 < i < N)%nat.
Proof. intros. lia. Qed.
Lemma lgl_P_nonzero : forall i, (i <= N)%nat -> peval (leg N) (x i) <> 0.
Proof.
  intros i Hi. destruct (lgl_end i Hi) as [->|[->|H]].
  - rewrite (lgl_first N x Hx), leg_at_m1. apply pow_nonzero. lra.
  - rewrite (lgl_last N x Hx), leg_at_1. lra.
  - intro E. destruct N as [|n]; [lia|]. destruct (leg_BC n (x i)) as [_ C].
    rewrite (lgl_root (S n) x Hx i) in C by lia. rewrite E in C. assert (Hp := INR_S_pos n).
    apply (leg_no_common n (x i)); auto. apply Rmult_eq_reg_l with (INR (S n)); lra.
Qed.
Lemma lgl_w_zero : forall i, (i <= N)%nat -> peval (legw N) (x i) = 0.
Proof.
  intros i Hi. rewrite legw_eval. destruct (lgl_end i Hi) as [->|[->|H]].
  - rewrite (lgl_first N x Hx). ring.
  - rewrite (lgl_last N x Hx). ring.
  - rewrite (lgl_root N x Hx i) by lia. ring.
Qed.
Lemma lgl_w_der : forall i, (i <= N)%nat -> peval (pder (legw N)) (x i) <> 0.
Proof.
  intros i Hi. rewrite leg_ode. assert (H1 := NN1). assert (H2 := lgl_P_nonzero i Hi).
  apply Rmult_integral_contrapositive_currified; auto. lra.
Qed.
Lemma lgl_node_poly : node_poly (S N) x (legw N).
Proof.
  constructor.
  - apply length_legw; auto.
  - intros; apply lgl_w_zero; lia.
  - intros; apply lgl_w_der; lia.
Qed.

Definition lg_b (j : nat) : R := / peval (leg N) (x j).
Lemma lgl_annihilates : forall q, (length q <= N)%nat -> rsum (S N) (fun j => lg_b j * peval q (x j)) = 0.
Proof.
  intros q Hq. assert (H := divided_difference_zero N x (legw N) q lgl_node_poly lgl_distinct Hq).
  rewrite (rsum_ext (S N) _ (fun j => - / (INR N * (INR N + 1)) * (lg_b j * peval q (x j)))) in H.
  - rewrite rsum_scal in H. assert (H1 := NN1).
    apply Rmult_integral in H. destruct H as [H|H]; auto.
    assert (/ (INR N * (INR N + 1)) <> 0) by (apply Rinv_neq_0_compat; lra). lra.
  - intros j Hj. rewrite leg_ode. unfold lg_b. field. assert (H1 := NR). split; [apply lgl_P_nonzero; lia|split; lra].
Qed.

Definition lg_off (i j : nat) : R := peval (leg N) (x i) / peval (leg N) (x j) * (1 / (x i - x j)).
Definition lg_diag (i : nat) : R := peval (pder (leg N)) (x i) / (2 * peval (leg N) (x i)).

Lemma lgl_diff_raw : forall p i, (i <= N)%nat -> (length p <= S N)%nat ->
  peval (pder p) (x i) = rsum (S N) (fun j => if (j =? i)%nat then 0 else lg_off i j * (peval p (x j) - peval p (x i))).
Proof.
  intros p i Hi Hp.
  rewrite (diff_from_weights N x lg_b p i lgl_annihilates lgl_distinct ltac:(lia)); auto.
  - apply rsum_ext. intros j Hj. destruct (Nat.eqb_spec j i); auto. unfold lg_off, lg_b.
    assert (H1 := lgl_P_nonzero i Hi). assert (H2 := lgl_P_nonzero j ltac:(lia)).
    assert (H3 := lgl_distinct i j ltac:(lia) Hj ltac:(lia)). field. repeat split; auto; lra.
  - unfold lg_b. apply Rinv_neq_0_compat. apply lgl_P_nonzero; auto.
Qed.
Lemma quo_der_at : forall w r, peval w r = 0 -> peval (pder (pquo w r)) r = peval (pder (pder w)) r / 2.
Proof.
  intros w r Hr.
  assert (E : forall y, peval w y = peval (pmul [- r; 1] (pquo w r)) y).
  { intro y. rewrite peval_mul, (peval_quo w r y), Hr. simpl. ring. }
  assert (E1 := peval_der_ext _ _ E).
  assert (E2 : forall y, peval (pder w) y = peval (padd (pquo w r) (pmul [- r; 1] (pder (pquo w r)))) y).
  { intro y. rewrite E1, peval_der_mul, peval_add, peval_mul. unfold pder at 1. simpl. ring. }
  assert (E3 := peval_der_ext _ _ E2 r). rewrite E3, peval_der_add, peval_der_mul.
  unfold pder at 3. simpl peval at 4. simpl peval at 3. simpl. field.
Qed.
Lemma lgl_off_sum : forall i, (i <= N)%nat -> rsum (S N) (fun j => if (j =? i)%nat then 0 else lg_off i j) = - lg_diag i.
Proof.
  intros i Hi. assert (H := lgl_diff_raw (pquo (legw N) (x i)) i Hi).
  rewrite quo_der_at in H by (apply lgl_w_zero; auto).
  assert (Hw := lgl_w_der i Hi).
  rewrite (rsum_ext (S N) _ (fun j => (if (j =? i)%nat then 0 else lg_off i j) * - peval (pder (legw N)) (x i))) in H.
  2:{ intros j Hj. destruct (Nat.eqb_spec j i); [ring|]. rewrite quo_at.
      rewrite (quo_other (legw N) (x i) (x j)).
      - ring.
      - apply lgl_w_zero; auto.
      - apply lgl_w_zero; lia.
      - apply lgl_distinct; lia. }
  rewrite rsum_scal_r in H.
  assert (H1 := H ltac:(rewrite length_quo; assert (HL := length_legw N HN); lia)). clear H.
  rewrite (peval_der_ext (pder (legw N)) (pscal (- (INR N * (INR N + 1))) (leg N))) in H1.
  2:{ intro y. rewrite leg_ode, peval_scal. auto. }
  rewrite peval_der_scal, leg_ode in H1. assert (HNN := NN1). assert (HP := lgl_P_nonzero i Hi).
  apply Rmult_eq_reg_r with (- (- (INR N * (INR N + 1)) * peval (leg N) (x i))).
  - rewrite <- H1. unfold lg_diag. field. auto.
  - intro E. apply Hw. rewrite leg_ode. lra.
Qed.
Lemma lgl_diff : forall p i, (i <= N)%nat -> (length p <= S N)%nat ->
  rsum (S N) (fun j => (if (j =? i)%nat then lg_diag i else lg_off i j) * peval p (x j)) = peval (pder p) (x i).
Proof.
  intros p i Hi Hp. rewrite (lgl_diff_raw p i Hi Hp).
  rewrite (rsum_ext (S N) (fun j => if (j =? i)%nat then 0 else lg_off i j * (peval p (x j) - peval p (x i)))
    (fun j => (if (j =? i)%nat then 0 else lg_off i j * peval p (x j)) - (if (j =? i)%nat then 0 else lg_off i j) * peval p (x i))).
  2:{ intros j _. destruct (j =? i)%nat; ring. }
  rewrite rsum_minus, rsum_scal_r, lgl_off_sum by auto.
  rewrite (rsum_isolate (S N) i) by lia. rewrite Nat.eqb_refl.
  rewrite (rsum_ext (S N) _ (fun j => if (j =? i)%nat then 0 else lg_off i j * peval p (x j))).
  - ring.
  - intros j _. destruct (j =? i)%nat; ring.
Qed.
Lemma lg_diag_val : forall i, (i <= N)%nat -> lg_diag i =
  if (i =? 0)%nat then - (INR N * (INR N + 1) / 4) else if (i =? N)%nat then INR N * (INR N + 1) / 4 else 0.
Proof.
  intros i Hi. unfold lg_diag. destruct (Nat.eqb_spec i 0) as [->|H0].
  - rewrite (lgl_first N x Hx), leg_at_m1, leg_der_m1. field. apply pow_nonzero; lra.
  - destruct (Nat.eqb_spec i N) as [->|H1].
    + rewrite (lgl_last N x Hx), leg_at_1, leg_der_1. field.
    + rewrite (lgl_root N x Hx i) by lia. field. apply lgl_P_nonzero; auto.
Qed.

(** ** quadrature *)
Definition ell (i : nat) : list R := pscal (/ peval (pder (legw N)) (x i)) (pquo (legw N) (x i)).
Lemma length_ell : forall i, (length (ell i) <= S N)%nat.
Proof. intros. unfold ell. rewrite length_scal, length_quo. assert (H := length_legw N HN). lia. Qed.
Lemma ell_at : forall i j, (i <= N)%nat -> (j <= N)%nat -> peval (ell i) (x j) = if (j =? i)%nat then 1 else 0.
Proof.
  intros. unfold ell. rewrite peval_scal. destruct (Nat.eqb_spec j i) as [->|Hne].
  - rewrite quo_at. field. apply lgl_w_der; auto.
  - rewrite (quo_other (legw N)); [ring|apply lgl_w_zero; auto|apply lgl_w_zero; auto|apply lgl_distinct; lia].
Qed.
Lemma ell_interp : forall p, (length p <= S N)%nat -> forall y, peval p y = rsum (S N) (fun i => peval p (x i) * peval (ell i) y).
Proof.
  intros p Hp y.
  transitivity (peval (psum (S N) (fun i => pscal (peval p (x i)) (ell i))) y).
  - apply (interp_unique (S N)) with x; auto.
    + apply length_psum. intros. rewrite length_scal. apply length_ell.
    + apply lgl_distinct.
    + intros j Hj. rewrite peval_psum. rewrite (rsum_isolate (S N) j) by auto.
      rewrite peval_scal, ell_at, Nat.eqb_refl by lia. rewrite rsum_zero; [ring|].
      intros i Hi. destruct (Nat.eqb_spec i j); auto. rewrite peval_scal, ell_at by lia.
      destruct (Nat.eqb_spec j i); [lia|ring].
  - rewrite peval_psum. apply rsum_ext. intros; apply peval_scal.
Qed.
Definition mu (i : nat) : R := pint (ell i) (-1) 1.
Lemma mu_low : forall p, (length p <= S N)%nat -> rsum (S N) (fun i => mu i * peval p (x i)) = pint p (-1) 1.
Proof.
  intros p Hp. rewrite (pint_ext p (psum (S N) (fun i => pscal (peval p (x i)) (ell i)))).
  - rewrite pint_psum. apply rsum_ext. intros. rewrite pint_scal. unfold mu. ring.
  - intro y. rewrite (ell_interp p Hp y), peval_psum. apply rsum_ext. intros; symmetry; apply peval_scal.
Qed.
End Nodes.
Unset Default Proof Using.

(** the leading coefficient of a node polynomial *)
Lemma node_poly_lead : forall n x w, node_poly (S n) x w -> distinct (S n) x -> pcoef w (S n) <> 0.
Proof.
  intros n x w [Hl Hz Hs] Hd E.
  apply (Hs O); [lia|]. rewrite (peval_der_ext w []); [reflexivity|].
  intro y. rewrite <- (cut_top (S n) w Hl E y).
  apply (roots_zero (S n) _ x); auto.
  - rewrite length_plist; lia.
  - intros i Hi. rewrite cut_top; auto.
Qed.

(** division with remainder *)
Lemma pdivmod : forall d w, (length w <= S d)%nat -> pcoef w d <> 0 -> forall q,
  exists s r, (length r <= d)%nat /\ length s = (length q - d)%nat /\ forall x, peval q x = peval w x * peval s x + peval r x.
Proof.
  intros d w Hw Hk. induction q as [|a q IH].
  - exists [], []. repeat split; simpl; try lia. intro; ring.
  - destruct (Nat.le_gt_cases (length (a :: q)) d) as [Hle|Hgt].
    + exists [], (a :: q). repeat split; auto.
      * simpl length at 1. lia.
      * intro; simpl (peval [] x). ring.
    + destruct IH as [s [r [Hr [Hs He]]]].
      set (c := pcoef (a :: r) d / pcoef w d). set (r' := padd (a :: r) (pscal (- c) w)).
      assert (Hr' : (length r' <= S d)%nat) by (unfold r'; rewrite length_add, length_scal; simpl length; lia).
      assert (Hz : pcoef r' d = 0) by (unfold r'; rewrite pcoef_add, pcoef_scal; unfold c; field; auto).
      exists (c :: s), (plist d (pcoef r')). repeat split.
      * rewrite length_plist; lia.
      * simpl length in *. lia.
      * intro x. rewrite cut_top by auto. unfold r'. rewrite peval_add, peval_scal. simpl peval. rewrite He. ring.
Qed.

Section Quad.
Variables (N : nat) (x : nat -> R).
Hypothesis HN : (1 <= N)%nat.
Hypothesis Hx : lgl_nodes N x.

Lemma ip_w_low : forall s, (length s <= N - 1)%nat -> ip (legw N) s = 0.
Proof.
  intros s Hs. destruct s as [|a s]; [apply ip_nil_r|].
  transitivity (ip (pder (leg N)) (pmul one_minus_x2 (a :: s))).
  - apply pint_ext. intro. unfold legw. rewrite !peval_mul. ring.
  - rewrite ip_parts, !peval_mul, !omx2_eval, leg_orth_low.
    + ring.
    + rewrite length_der.
      assert (length (pmul one_minus_x2 (a :: s)) <= S (2 + (N - 2)))%nat.
      { apply length_mul_le; [simpl; lia|]. simpl length in *. lia. }
      simpl length in Hs. lia.
Qed.

Lemma mu_high : forall p, (length p <= 2 * N)%nat -> rsum (S N) (fun i => mu N x i * peval p (x i)) = pint p (-1) 1.
Proof.
  intros p Hp.
  destruct (pdivmod (S N) (legw N) (length_legw N HN)
     (node_poly_lead N x (legw N) (lgl_node_poly N x HN Hx) (lgl_distinct N x HN Hx)) p) as [s [r [Hr [Hs He]]]].
  rewrite (pint_ext p (padd (pmul (legw N) s) r)) by (intro; rewrite peval_add, peval_mul; auto).
  rewrite pint_add. change (pint (pmul (legw N) s) (-1) 1) with (ip (legw N) s).
  rewrite ip_w_low by lia. rewrite <- (mu_low N x HN Hx r Hr), Rplus_0_l.
  apply rsum_ext. intros i Hi. rewrite He, (lgl_w_zero N x HN Hx i) by lia. ring.
Qed.

Lemma ell_der_off : forall i j, (i <= N)%nat -> (j <= N)%nat -> i <> j ->
  peval (pder (ell N x i)) (x j) = peval (leg N) (x j) / peval (leg N) (x i) * (1 / (x j - x i)).
Proof.
  intros i j Hi Hj Hne.
  rewrite <- (lgl_diff N x HN Hx (ell N x i) j Hj (length_ell N x HN Hx i)).
  rewrite (rsum_isolate (S N) i) by lia. rewrite rsum_zero.
  - destruct (Nat.eqb_spec i j); [lia|]. rewrite (ell_at N x HN Hx), Nat.eqb_refl by auto. unfold lg_off. ring.
  - intros k Hk. destruct (Nat.eqb_spec k i); auto. rewrite (ell_at N x HN Hx i k) by lia.
    destruct (Nat.eqb_spec k i); [contradiction|ring].
Qed.

Lemma mu_scaled : forall i j, (i <= N)%nat -> (j <= N)%nat ->
  mu N x i * peval (leg N) (x i) ^ 2 = mu N x j * peval (leg N) (x j) ^ 2.
Proof.
  intros i j Hi Hj. destruct (Nat.eq_dec i j) as [->|Hne]; auto.
  assert (H := ip_parts (ell N x i) (ell N x j)).
  assert (E1 : ip (pder (ell N x i)) (ell N x j) = mu N x j * peval (pder (ell N x i)) (x j)).
  { unfold ip. rewrite <- mu_high.
    - rewrite (rsum_isolate (S N) j) by lia. rewrite rsum_zero.
      + rewrite peval_mul, (ell_at N x HN Hx j j), Nat.eqb_refl by auto. ring.
      + intros k Hk. destruct (Nat.eqb_spec k j); auto. rewrite peval_mul, (ell_at N x HN Hx j k) by lia.
        destruct (Nat.eqb_spec k j); [contradiction|ring].
    - replace (2 * N)%nat with (S (N - 1 + N)) by lia. apply length_mul_le.
      + rewrite length_der. assert (HL := length_ell N x HN Hx i). lia.
      + apply length_ell; auto. }
  assert (E2 : ip (ell N x i) (pder (ell N x j)) = mu N x i * peval (pder (ell N x j)) (x i)).
  { unfold ip. rewrite <- mu_high.
    - rewrite (rsum_isolate (S N) i) by lia. rewrite rsum_zero.
      + rewrite peval_mul, (ell_at N x HN Hx i i), Nat.eqb_refl by auto. ring.
      + intros k Hk. destruct (Nat.eqb_spec k i); auto. rewrite peval_mul, (ell_at N x HN Hx i k) by lia.
        destruct (Nat.eqb_spec k i); [contradiction|ring].
    - replace (2 * N)%nat with (S (N + (N - 1))) by lia. apply length_mul_le.
      + apply length_ell; auto.
      + rewrite length_der. assert (HL := length_ell N x HN Hx j). lia. }
  assert (B1 : peval (ell N x i) 1 * peval (ell N x j) 1 = 0).
  { rewrite <- (lgl_last N x Hx), !(ell_at N x HN Hx) by lia.
    destruct (Nat.eqb_spec N i), (Nat.eqb_spec N j); try lia; ring. }
  assert (B2 : peval (ell N x i) (-1) * peval (ell N x j) (-1) = 0).
  { rewrite <- (lgl_first N x Hx), !(ell_at N x HN Hx) by lia.
    destruct (Nat.eqb_spec 0 i), (Nat.eqb_spec 0 j); try lia; ring. }
  rewrite B1, B2, E1, E2, !ell_der_off in H by auto.
  assert (P1 := lgl_P_nonzero N x HN Hx i Hi). assert (P2 := lgl_P_nonzero N x HN Hx j Hj).
  assert (P3 := lgl_distinct N x HN Hx i j ltac:(lia) ltac:(lia) Hne).
  set (a := peval (leg N) (x i)) in *. set (b := peval (leg N) (x j)) in *.
  set (m := mu N x i) in *. set (l := mu N x j) in *.
  assert (E : l * (b / a) * (1 / (x j - x i)) * (a * b * (x j - x i)) = m * (a / b) * (1 / (x j - x i)) * (a * b * (x j - x i))).
  { f_equal. replace (1 / (x i - x j)) with (- (1 / (x j - x i))) in H by (field; split; lra). lra. }
  replace (l * (b / a) * (1 / (x j - x i)) * (a * b * (x j - x i))) with (l * b ^ 2) in E by (field; split; auto; lra).
  replace (m * (a / b) * (1 / (x j - x i)) * (a * b * (x j - x i))) with (m * a ^ 2) in E by (field; split; auto; lra).
  auto.
Qed.

Lemma mu_value : forall i, (i <= N)%nat -> mu N x i = 2 / (INR N * (INR N + 1)) / peval (leg N) (x i) ^ 2.
Proof.
  intros i Hi. assert (HR := NR N x HN Hx). assert (HNN := NN1 N x HN Hx).
  assert (E : mu N x N * (INR N * (INR N + 1) / 2) = 1).
  { assert (D1 : peval (pder (leg N)) (x N) = INR N * (INR N + 1) / 2) by (rewrite (lgl_last N x Hx); apply leg_der_1).
    rewrite <- D1.
    transitivity (ip (ell N x N) (pder (leg N))).
    - unfold ip. rewrite <- mu_high.
      + rewrite (rsum_isolate (S N) N) by lia. rewrite rsum_zero.
        * rewrite peval_mul, (ell_at N x HN Hx N N), Nat.eqb_refl by auto. ring.
        * intros k Hk. destruct (Nat.eqb_spec k N); auto. rewrite peval_mul, (ell_at N x HN Hx N k) by lia.
          destruct (Nat.eqb_spec k N); [contradiction|ring].
      + replace (2 * N)%nat with (S (N + (N - 1))) by lia. apply length_mul_le.
        * apply length_ell; auto.
        * rewrite length_der, length_leg. lia.
    - rewrite ip_comm, ip_parts, leg_orth_low.
      + assert (B1 : peval (ell N x N) 1 = 1).
        { rewrite <- (lgl_last N x Hx) at 1. rewrite (ell_at N x HN Hx), Nat.eqb_refl by lia. auto. }
        assert (B2 : peval (ell N x N) (-1) = 0).
        { rewrite <- (lgl_first N x Hx). rewrite (ell_at N x HN Hx) by lia. destruct (Nat.eqb_spec 0 N); [lia|auto]. }
        rewrite B1, B2, leg_at_1. ring.
      + rewrite length_der. assert (HL := length_ell N x HN Hx N). lia. }
  assert (S1 := mu_scaled i N Hi (le_n N)). rewrite (lgl_last N x Hx), leg_at_1 in S1.
  assert (P := lgl_P_nonzero N x HN Hx i Hi).
  assert (Em : mu N x N = 2 / (INR N * (INR N + 1))).
  { apply Rmult_eq_reg_r with (INR N * (INR N + 1) / 2); [|lra]. rewrite E. field. lra. }
  rewrite Em in S1. apply Rmult_eq_reg_r with (peval (leg N) (x i) ^ 2); [|apply pow_nonzero; auto].
  rewrite S1. field. repeat split; auto; lra.
Qed.

Lemma lgl_quadrature : forall p, (length p <= 2 * N)%nat ->
  rsum (S N) (fun i => 2 / (INR N * (INR N + 1)) / peval (leg N) (x i) ^ 2 * peval p (x i)) = pint p (-1) 1.
Proof.
  intros p Hp. rewrite <- (mu_high p Hp). apply rsum_ext. intros i Hi. rewrite mu_value by lia. auto.
Qed.
End Quad.
