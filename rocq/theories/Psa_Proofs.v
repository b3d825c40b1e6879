(** Proofs about the pseudo-arclength continuation. *)
Require Import Arith List Bool Lia Reals Lra.
From Verif Require Import Scal RSum Pso_Model Pso_Spec Psa_Model Psa_Spec.
Import ListNotations.
Local Open Scope R_scope.

Lemma low_iff : forall i, low_bound i = Some 1 <-> exists k, (k < 501)%nat /\ i = (13 * k)%nat.
Proof.
  intro i. unfold low_bound, rows. split.
  - intro H. destruct ((i <? 501 * 13)%nat && (i mod 13 =? 0)%nat) eqn:E; [|discriminate]. apply andb_true_iff in E. destruct E as [A B].
    apply Nat.ltb_lt in A. apply Nat.eqb_eq in B. apply Nat.mod_divides in B; [|lia]. destruct B as [k ->]. exists k. split; [|reflexivity]. 
    revert A. generalize 501%nat. intros. lia.
  - intros (k & Hk & ->). assert ((13 * k <? 501 * 13)%nat = true) as ->.
    { apply Nat.ltb_lt. revert Hk. generalize 501%nat. intros. lia. }
    rewrite Nat.mul_comm, Nat.mod_mul by lia. reflexivity.
Qed.
Lemma low_none : forall i, low_bound i <> Some 1 -> low_bound i = None.
Proof. intros i H. unfold low_bound in *. destruct (_ && _); congruence. Qed.

Lemma affine_deriv : forall a b, derivable_pt_lim (fun h => a + h * b) 0 b.
Proof.
  intros a b eps He. exists (mkposreal 1 Rlt_0_1). intros h Hh _. replace ((a + (0 + h) * b - (a + 0 * b)) / h - b) with 0 by (field; auto). rewrite Rabs_R0. auto.
Qed.

Section Psa.
Variable s : eqs.
Let n := e_n s.

Lemma feasible_iff : forall lb ub x0 w x pv, feasible (corrector s) (arg s lb ub x0 w) pv x <->
  on_curve s x /\ in_bounds s x /\ above lb (x n) /\ below ub (x n).
Proof.
  intros lb ub x0 w x pv. unfold feasible. cbn [corrector l_nx l_ng l_g arg a_lbx a_ubx]. fold n. split.
  - intros [B G]. split; [|split].
    + intros i Hi. exact (G i Hi).
    + intros k Hk Hi. destruct (B (13 * k)%nat ltac:(fold n in Hi; lia)) as [B1 _]. destruct (Nat.eqb_spec (13 * k) n) as [E|_]; [fold n in Hi; lia|].
      assert (L : low_bound (13 * k) = Some 1) by (apply low_iff; exists k; auto). rewrite L in B1. exact B1.
    + destruct (B n ltac:(lia)) as [B1 B2]. rewrite Nat.eqb_refl in B1, B2. auto.
  - intros (C & I & L & U). split; [|exact C]. intros i Hi. destruct (Nat.eqb_spec i n) as [->|Hne]; [auto|]. split; [|exact Logic.I].
    destruct (low_bound i) as [v|] eqn:E; [|exact Logic.I]. assert (v = 1) as -> by (unfold low_bound in E; destruct (_ && _); congruence).
    apply low_iff in E. destruct E as (k & Hk & ->). apply I; auto. fold n. lia.
Qed.

Lemma tau_sq : forall r, rsum (n + 1) (fun i => tau s r i * tau s r i) = 1.
Proof.
  intro r. unfold tau. fold n. rewrite Nat.add_1_r, rsum_S, Nat.eqb_refl.
  assert (P : 0 <= dotn n r r) by (unfold dotn; apply rsum_nonneg; intros; apply Rle_0_sqr).
  set (q := 1 + dotn n r r). assert (Q : 0 < q) by (unfold q; lra). assert (S : 0 < sqrt q) by (apply sqrt_lt_R0; auto).
  rewrite (rsum_ext n _ (fun i => (1 / sqrt q) * (1 / sqrt q) * (r i * r i))).
  - rewrite rsum_scal. change (rsum n (fun i => r i * r i)) with (dotn n r r). replace (dotn n r r) with (q - 1) by (unfold q; ring).
    assert (E : sqrt q * sqrt q = q) by (apply sqrt_sqrt; lra). set (w := sqrt q) in *. rewrite <- E at 1. field. lra.
  - intros i Hi. destruct (Nat.eqb_spec i n); [lia|]. ring.
Qed.

Lemma direction_unit : forall t r, rsum (n + 1) (fun i => direction s t r i * direction s t r i) = 1.
Proof.
  intros t r. unfold direction. destruct t as [t|]; [destruct (Rle_dec _ _)|]; try apply tau_sq;
    (rewrite <- (tau_sq r); apply rsum_ext; intros; ring).
Qed.
Lemma tau_last : forall r, tau s r n > 0.
Proof.
  intro r. unfold tau. fold n. rewrite Nat.eqb_refl. apply Rdiv_lt_0_compat; [lra|]. apply sqrt_lt_R0.
  assert (0 <= dotn n r r) by (unfold dotn; apply rsum_nonneg; intros; apply Rle_0_sqr). lra.
Qed.
Lemma direction_some : forall t r, 0 <= rsum (n + 1) (fun i => t i * direction s (Some t) r i).
Proof.
  intros t r. unfold direction. fold n. destruct (Rle_dec 0 (dotn (n + 1) t (tau s r))) as [H|H]; [exact H|].
  rewrite (rsum_ext _ _ (fun i => (-1) * (t i * tau s r i))) by (intros; ring). rewrite rsum_scal. unfold dotn in H. apply Rnot_le_lt in H.
  change (rsum (n + 1) (fun i => t i * tau s r i) < 0) in H. lra.
Qed.
(** the direction is a multiple of (r, 1) *)
Lemma direction_mult : forall t r, exists c, c * c <= 1 /\ (forall i, (i < n)%nat -> direction s t r i = c * r i) /\ direction s t r n = c.
Proof.
  intros t r. assert (L := tau_last r). assert (U : tau s r n * tau s r n <= 1).
  { assert (T := tau_sq r). rewrite Nat.add_1_r, rsum_S in T. assert (0 <= rsum n (fun i => tau s r i * tau s r i)) by (apply rsum_nonneg; intros; apply Rle_0_sqr). lra. }
  assert (M : forall i, (i < n)%nat -> tau s r i = tau s r n * r i).
  { intros i Hi. unfold tau. fold n. rewrite Nat.eqb_refl. destruct (Nat.eqb_spec i n); [lia|]. reflexivity. }
  unfold direction. destruct t as [t|]; [destruct (Rle_dec _ _)|].
  - exists (tau s r n). auto.
  - exists (- tau s r n). split; [lra|]. split; [|reflexivity]. intros i Hi. rewrite M by auto. ring.
  - exists (- tau s r n). split; [lra|]. split; [|reflexivity]. intros i Hi. rewrite M by auto. ring.
Qed.

Lemma rescale_small : forall r, (forall i, (i < n)%nat -> Rabs (r i) <= 20) -> rescale s r = r.
Proof.
  intros r H. unfold rescale. fold n. destruct (Rlt_dec 20 (norminf n r)) as [L|_]; auto. exfalso.
  assert (norminf n r <= 20) by (apply rnorminf_le; [lra|auto]). lra.
Qed.

(** derivative of the homotopy along a direction: jac_x t + jac_lam t_n *)
Lemma curve_deriv : jacobian s -> forall z t i, (i < n)%nat ->
  curve_derivative s z t i (rsum n (fun j => jac_x s z i j * t j) + jac_lam s z i * t n).
Proof.
  intros HJ z t i Hi. unfold curve_derivative. fold n.
  set (dF := rsum n (fun j => e_J s (map z (seq 0 n)) i j * t j)).
  assert (D := HJ z t i Hi). fold n in D. fold dF in D.
  assert (F0 : F_at s (fun j => z j + 0 * t j) i = e_F s (unknowns s z) i).
  { unfold F_at, unknowns. f_equal. apply map_ext. intros. ring. }
  assert (A := affine_deriv (z n) (t n)).
  assert (B : derivable_pt_lim (fun h => z i + h * t i - e_x0 s i) 0 (t i)).
  { assert (K := derivable_pt_lim_minus _ (fun _ => e_x0 s i) 0 _ _ (affine_deriv (z i) (t i)) (derivable_pt_lim_const (e_x0 s i) 0)).
    rewrite Rminus_0_r in K. exact K. }
  assert (C : derivable_pt_lim (fun h => 1 - (z n + h * t n)) 0 (0 - t n)) by (apply (derivable_pt_lim_minus (fun _ => 1)); [apply derivable_pt_lim_const|exact A]).
  assert (P := derivable_pt_lim_plus _ _ 0 _ _ (derivable_pt_lim_mult _ _ 0 _ _ A B) (derivable_pt_lim_mult _ _ 0 _ _ C D)).
  cbv beta in P. rewrite F0 in P. unfold mult_fct, plus_fct in P.
  match type of P with derivable_pt_lim _ _ ?d => match goal with |- derivable_pt_lim _ _ ?e => replace e with d end end; [exact P|].
  unfold jac_x, jac_lam. fold n.
  rewrite (rsum_ext n _ (fun j => z n * ((if (i =? j)%nat then 1 else 0) * t j) + (1 - z n) * (e_J s (unknowns s z) i j * t j))) by (intros; ring).
  rewrite rsum_plus, !rsum_scal. change (rsum n (fun j => e_J s (unknowns s z) i j * t j)) with dF.
  assert (E : rsum n (fun j => (if (i =? j)%nat then 1 else 0) * t j) = t i).
  { rewrite (rsum_ext n _ (fun j => if (j =? i)%nat then t j else 0)).
    - apply rsum_delta. auto.
    - intros j Hj. rewrite Nat.eqb_sym. destruct (Nat.eqb_spec j i) as [->|]; ring. }
  rewrite E. ring.
Qed.
End Psa.
