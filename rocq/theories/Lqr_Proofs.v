(** Proofs about the Lyapunov solver. *)
Require Import Arith Bool List Reals Lra Lia FunctionalExtensionality.
From Verif Require Import Scal RSum Lqr_Model Lqr_Spec.
Import ListNotations.
Local Open Scope R_scope.

(** * Matrix algebra. The operations are total, so the laws without the identity hold as equalities of functions. *)
Lemma mx_ext (A B : mx) : (forall i j, A i j = B i j) -> A = B.
Proof. intro H. apply functional_extensionality. intro i. apply functional_extensionality. intro j. apply H. Qed.
Lemma mmul_rsum k A B i j : mmul k A B i j = rsum k (fun l => A i l * B l j).
Proof. reflexivity. Qed.
Lemma mmul_assoc a b A B C : mmul b (mmul a A B) C = mmul a A (mmul b B C).
Proof.
  apply mx_ext. intros i j. rewrite !mmul_rsum.
  rewrite (rsum_ext b _ (fun l => rsum a (fun k => A i k * B k l * C l j))).
  2:{ intros. rewrite mmul_rsum, <- rsum_scal_r. reflexivity. }
  rewrite (rsum_ext a (fun l => A i l * mmul b B C l j) (fun k => rsum b (fun l => A i k * B k l * C l j))).
  2:{ intros. rewrite mmul_rsum, <- rsum_scal. apply rsum_ext. intros. ring. }
  apply rsum_swap.
Qed.
Lemma mmul_add_l k A B C : mmul k (madd A B) C = madd (mmul k A C) (mmul k B C).
Proof. apply mx_ext. intros. unfold madd. rewrite !mmul_rsum, <- rsum_plus. apply rsum_ext. intros. ring. Qed.
Lemma mmul_add_r k A B C : mmul k A (madd B C) = madd (mmul k A B) (mmul k A C).
Proof. apply mx_ext. intros. unfold madd. rewrite !mmul_rsum, <- rsum_plus. apply rsum_ext. intros. ring. Qed.
Lemma mmul_sub_l k A B C : mmul k (msub A B) C = msub (mmul k A C) (mmul k B C).
Proof. apply mx_ext. intros. unfold msub. rewrite !mmul_rsum, <- rsum_minus. apply rsum_ext. intros. ring. Qed.
Lemma mmul_sub_r k A B C : mmul k A (msub B C) = msub (mmul k A B) (mmul k A C).
Proof. apply mx_ext. intros. unfold msub. rewrite !mmul_rsum, <- rsum_minus. apply rsum_ext. intros. ring. Qed.
Lemma mmul_scal_l k c A B : mmul k (mscal c A) B = mscal c (mmul k A B).
Proof. apply mx_ext. intros. unfold mscal. rewrite !mmul_rsum, <- rsum_scal. apply rsum_ext. intros. ring. Qed.
Lemma mmul_scal_r k c A B : mmul k A (mscal c B) = mscal c (mmul k A B).
Proof. apply mx_ext. intros. unfold mscal. rewrite !mmul_rsum, <- rsum_scal. apply rsum_ext. intros. ring. Qed.
Lemma mmul_opp_l k A B : mmul k (mopp A) B = mopp (mmul k A B).
Proof. apply mx_ext. intros. unfold mopp. rewrite !mmul_rsum, <- rsum_opp. apply rsum_ext. intros. ring. Qed.
Lemma mmul_opp_r k A B : mmul k A (mopp B) = mopp (mmul k A B).
Proof. apply mx_ext. intros. unfold mopp. rewrite !mmul_rsum, <- rsum_opp. apply rsum_ext. intros. ring. Qed.
Lemma mtr_mul k A B : mtr (mmul k A B) = mmul k (mtr B) (mtr A).
Proof. apply mx_ext. intros. unfold mtr. rewrite !mmul_rsum. apply rsum_ext. intros. ring. Qed.
Lemma mtr_tr A : mtr (mtr A) = A. Proof. reflexivity. Qed.
Lemma mmul_zero_l k A : mmul k mzero A = mzero.
Proof. apply mx_ext. intros. rewrite mmul_rsum. apply rsum_zero. intros. unfold mzero. ring. Qed.
Lemma mmul_zero_r k A : mmul k A mzero = mzero.
Proof. apply mx_ext. intros. rewrite mmul_rsum. apply rsum_zero. intros. unfold mzero. ring. Qed.
Lemma mmul_ext n k m A A' B B' : meq n k A A' -> meq k m B B' -> meq n m (mmul k A B) (mmul k A' B').
Proof. intros HA HB i j Hi Hj. rewrite !mmul_rsum. apply rsum_ext. intros l Hl. rewrite HA, HB by auto. reflexivity. Qed.
Lemma meq_refl n m A : meq n m A A. Proof. intros i j _ _. reflexivity. Qed.
Lemma meq_sym n m A B : meq n m A B -> meq n m B A. Proof. intros H i j Hi Hj. symmetry. auto. Qed.
Lemma meq_trans n m A B C : meq n m A B -> meq n m B C -> meq n m A C.
Proof. intros H G i j Hi Hj. rewrite H, G by auto. reflexivity. Qed.
Lemma meye_l n m A : meq n m (mmul n meye A) A.
Proof.
  intros i j Hi Hj. rewrite mmul_rsum. rewrite (rsum_isolate n i) by auto. unfold meye at 1. rewrite Nat.eqb_refl.
  rewrite rsum_zero; [ring|]. intros k _. destruct (Nat.eqb_spec k i); [reflexivity|]. unfold meye.
  destruct (Nat.eqb_spec i k); [congruence|ring].
Qed.
Lemma mtr_eye : mtr meye = meye.
Proof. apply mx_ext. intros. unfold mtr, meye. rewrite Nat.eqb_sym. reflexivity. Qed.
Lemma meye_r n m A : meq n m (mmul m A meye) A.
Proof.
  intros i j Hi Hj. change (mtr (mmul m A meye) j i = A i j). rewrite mtr_mul, mtr_eye. rewrite (meye_l m n (mtr A)) by auto. reflexivity.
Qed.
Lemma mtr_ext n m A B : meq n m A B -> meq m n (mtr A) (mtr B).
Proof. intros H i j Hi Hj. unfold mtr. auto. Qed.
Lemma meq_add n m A A' B B' : meq n m A A' -> meq n m B B' -> meq n m (madd A B) (madd A' B').
Proof. intros H G i j Hi Hj. unfold madd. rewrite H, G by auto. reflexivity. Qed.

(** conjugation by an orthogonal matrix *)
Lemma sandwich n U X Y : orthogonal n U -> meq n n (mmul n (mmul n (mmul n U X) (mtr U)) (mmul n (mmul n U Y) (mtr U))) (mmul n (mmul n U (mmul n X Y)) (mtr U)).
Proof.
  intros [_ HU]. rewrite !mmul_assoc. apply mmul_ext; [apply meq_refl|]. apply mmul_ext; [apply meq_refl|].
  rewrite <- (mmul_assoc n n (mtr U) U). eapply meq_trans; [apply mmul_ext; [exact HU|apply meq_refl]|]. apply meye_l.
Qed.
Lemma sandwich_back n U Q : orthogonal n U -> meq n n (mmul n (mmul n U (mmul n (mmul n (mtr U) Q) U)) (mtr U)) Q.
Proof.
  intros [HU _]. rewrite !mmul_assoc. rewrite <- (mmul_assoc n n U (mtr U)).
  eapply meq_trans; [apply mmul_ext; [exact HU|]|apply meye_l].
  eapply meq_trans; [apply mmul_ext; [apply meq_refl|exact HU]|apply meye_r].
Qed.

(** * The columns of the back substitution *)
Section Back.
Variable ext : extern.
Variables (T Q1 : mx) (m : nat).
Let X k := lyap_cols ext T Q1 m k.
Lemma cols_keep k k' r c : (k <= k')%nat -> (k' <= m)%nat -> (m - k <= c)%nat -> X k' r c = X k r c.
Proof.
  intros Hk Hm Hc. induction Hk as [|k' Hk IH]; [reflexivity|].
  rewrite <- IH by lia. unfold X at 1. cbn [lyap_cols]. destruct (Nat.eqb_spec c (m - 1 - k')); [lia|reflexivity].
Qed.
Hypothesis Hlu : lu_ok ext m.
(** the equation each column satisfies *)
Lemma col_equation c r : (c < m)%nat -> (r < m)%nat -> injective m (madd T (mscal (T c c) meye)) ->
  rsum m (fun l => T r l * X m l c) + T c c * X m r c = Q1 r c - rsum (m - (c + 1)) (fun l => X m r (c + 1 + l)%nat * T c (c + 1 + l)%nat).
Proof.
  intros Hc Hr Hi. set (k := (m - 1 - c)%nat).
  set (v := fun r => Q1 r c - ssum (m - (c + 1)) (fun l => X k r (c + 1 + l)%nat * T c (c + 1 + l)%nat)).
  assert (forall r, X m r c = lu_solve ext m (madd T (mscal (T c c) meye)) v r) as E.
  { intro r'. rewrite (cols_keep (S k) m) by (unfold k; lia). unfold X. cbn [lyap_cols].
    replace (m - 1 - k)%nat with c by (unfold k; lia). rewrite Nat.eqb_refl. reflexivity. }
  transitivity (v r).
  - rewrite <- (Hlu _ v Hi r Hr). unfold rmv, rdot.
    rewrite (rsum_ext m (fun i => madd T (mscal (T c c) meye) r i * _) (fun l => T r l * X m l c + (if (l =? r)%nat then (fun l => T c c * X m l c) l else 0))).
    + rewrite rsum_plus, rsum_delta by auto. reflexivity.
    + intros l Hl. rewrite <- E. unfold madd, mscal, meye. rewrite (Nat.eqb_sym r l). destruct (l =? r)%nat; ring.
  - unfold v. f_equal. apply rsum_ext. intros l Hl. rewrite (cols_keep k m) by (unfold k; lia). reflexivity.
Qed.
End Back.

(** the residual of the back substitution: only the entries of T left of the diagonal are missing *)
Lemma back_residual ext T Q1 m : lu_ok ext m -> quasi_triangular m T ->
  (forall c, (c < m)%nat -> injective m (madd T (mscal (T c c) meye))) ->
  let X := lyap_cols ext T Q1 m m in
  forall r c, (r < m)%nat -> (c < m)%nat ->
  madd (mmul m T X) (mmul m X (mtr T)) r c = Q1 r c + match c with O => 0 | S c' => T c c' * X r c' end.
Proof.
  intros Hlu Hq Hi X r c Hr Hc. unfold madd. rewrite !mmul_rsum.
  pose proof (col_equation ext T Q1 m Hlu c r Hc Hr (Hi c Hc)) as H. cbv zeta beta in H. fold X in H.
  assert (rsum m (fun l => X r l * mtr T l c) = match c with O => 0 | S c' => T c c' * X r c' end + T c c * X r c + rsum (m - (c + 1)) (fun l => X r (c + 1 + l)%nat * T c (c + 1 + l)%nat)) as E.
  { unfold mtr. replace m with (c + 1 + (m - (c + 1)))%nat at 1 by lia. rewrite rsum_split. f_equal.
    replace (c + 1)%nat with (S c) by lia. rewrite rsum_S. destruct c as [|c']; [rewrite rsum_0; ring|].
    rewrite rsum_S. rewrite rsum_zero; [ring|]. intros l Hl. rewrite Hq by lia. ring. }
  rewrite E. lra.
Qed.

(** * Upper triangular matrices have an eigenvector for each diagonal entry *)
(** the entries of an eigenvector for the eigenvalue [lam], found upwards from position i; [k] of them above i *)
Fixpoint eigvec (T : mx) (lam : R) (i k : nat) : nat -> R :=
  match k with
  | O => fun j => if (j =? i)%nat then 1 else 0
  | S k' =>
      let u := eigvec T lam i k' in
      let p := (i - S k')%nat in
      fun j => if (j =? p)%nat then - rsum (S i) (fun l => if (l <=? p)%nat then 0 else T p l * u l) / (T p p - lam) else u j
  end.
Lemma eigvec_keep T lam i k k' j : (k <= k')%nat -> (k' <= i)%nat -> (i - k <= j)%nat -> eigvec T lam i k' j = eigvec T lam i k j.
Proof.
  intros Hk Hi Hj. induction Hk as [|k' Hk IH]; [reflexivity|].
  rewrite <- IH by lia. cbn [eigvec]. destruct (Nat.eqb_spec j (i - S k')); [lia|reflexivity].
Qed.
Lemma eigvec_top T lam i : eigvec T lam i i i = 1.
Proof. rewrite (eigvec_keep T lam i 0 i i) by lia. cbn. rewrite Nat.eqb_refl. reflexivity. Qed.
Lemma eigvec_above T lam i j : (i < j)%nat -> eigvec T lam i i j = 0.
Proof.
  intro H. rewrite (eigvec_keep T lam i 0 i j) by lia. cbn. destruct (Nat.eqb_spec j i); [lia|reflexivity].
Qed.
Lemma triangular_eigenvector n T i : upper_triangular n T -> (i < n)%nat ->
  exists u, (exists j, (j < n)%nat /\ u j <> 0) /\ forall r, (r < n)%nat -> rmv n T u r = T i i * u r.
Proof.
  intros HT Hi. set (lam := T i i).
  (* the first position with this diagonal entry *)
  assert (exists i0, (i0 <= i)%nat /\ T i0 i0 = lam /\ forall j, (j < i0)%nat -> T j j <> lam) as (i0 & H0 & H1 & H2).
  { assert (T i i = lam) as Hl by reflexivity. clearbody lam. clear Hi. induction i as [i IH] using lt_wf_ind.
    assert ((exists j, (j < i)%nat /\ T j j = lam) \/ forall j, (j < i)%nat -> T j j <> lam) as [[j [Hj E]]|N].
    { clear. induction i as [|i IH]; [right; intros; lia|].
      destruct IH as [[j [Hj E]]|N]; [left; exists j; split; [lia|auto]|].
      destruct (Req_dec (T i i) lam); [left; exists i; split; [lia|auto]|].
      right. intros j Hj. destruct (Nat.eq_dec j i) as [->|]; [auto|apply N; lia]. }
    - destruct (IH j Hj E) as (i0 & A & B & C). exists i0. split; [lia|auto].
    - exists i. auto. }
  set (u := eigvec T lam i0 i0). exists u. split.
  - exists i0. split; [lia|]. unfold u. rewrite eigvec_top. lra.
  - intros r Hr. change (rmv n T u r) with (rsum n (fun l => T r l * u l)).
    assert (rsum n (fun l => T r l * u l) = rsum (S i0) (fun l => T r l * u l)) as ->.
    { replace n with (S i0 + (n - S i0))%nat by lia. rewrite rsum_split.
      rewrite (rsum_zero (n - S i0)); [ring|]. intros l _. unfold u. rewrite eigvec_above by lia. ring. }
    destruct (lt_eq_lt_dec r i0) as [[Hlt| ->]|Hgt].
    + (* above the starting position *)
      rewrite (rsum_isolate (S i0) r) by lia.
      assert (u r = - rsum (S i0) (fun l => if (l <=? r)%nat then 0 else T r l * u l) / (T r r - lam)) as E.
      { unfold u at 1. rewrite (eigvec_keep T lam i0 (i0 - r) i0 r) by lia.
        destruct (i0 - r)%nat as [|k] eqn:Ek; [lia|]. cbn [eigvec]. replace (i0 - S k)%nat with r by lia. rewrite Nat.eqb_refl.
        f_equal. f_equal. apply rsum_ext. intros l Hl. destruct (Nat.leb_spec l r); [reflexivity|].
        unfold u. rewrite (eigvec_keep T lam i0 k i0 l) by lia. reflexivity. }
      rewrite (rsum_ext (S i0) (fun l => if (l =? r)%nat then 0 else T r l * u l) (fun l => if (l <=? r)%nat then 0 else T r l * u l)).
      2:{ intros l Hl. destruct (Nat.eqb_spec l r), (Nat.leb_spec l r); try lia; try reflexivity. rewrite HT by lia. ring. }
      assert (T r r - lam <> 0) as Hne. { specialize (H2 r Hlt). lra. }
      set (s := rsum (S i0) _) in *. rewrite E. field. auto.
    + rewrite rsum_S. rewrite rsum_zero; [rewrite H1; ring|]. intros l Hl. rewrite HT by lia. ring.
    + rewrite rsum_zero; [unfold u; rewrite eigvec_above by lia; ring|]. intros l Hl. rewrite HT by lia. ring.
Qed.

(** * Regularity *)
(** the Lyapunov operator of a conjugated matrix *)
Lemma regular_conj n A T U : schur_form n A T U -> lyapunov_regular n A -> lyapunov_regular n T.
Proof.
  intros [HU HA] Hreg Y HY. destruct HU as [HU1 HU2].
  set (S := mmul n (mmul n U Y) (mtr U)).
  assert (meq n n S mzero) as HS.
  { apply Hreg. intros i j Hi Hj.
    assert (meq n n (mmul n A S) (mmul n (mmul n U (mmul n T Y)) (mtr U))) as E1.
    { eapply meq_trans; [apply mmul_ext; [exact HA|apply meq_refl]|]. apply sandwich. split; auto. }
    assert (meq n n (mmul n S (mtr A)) (mmul n (mmul n U (mmul n Y (mtr T))) (mtr U))) as E2.
    { eapply meq_trans; [apply mmul_ext; [apply meq_refl|apply mtr_ext; exact HA]|].
      rewrite !mtr_mul, mtr_tr. rewrite <- (mmul_assoc n n U (mtr T) (mtr U)). apply sandwich. split; auto. }
    unfold madd. rewrite E1, E2 by auto.
    assert (meq n n (mmul n (mmul n U (madd (mmul n T Y) (mmul n Y (mtr T)))) (mtr U)) (mmul n (mmul n U mzero) (mtr U))) as E3.
    { apply mmul_ext; [apply mmul_ext; [apply meq_refl|exact HY]|apply meq_refl]. }
    rewrite mmul_add_r, mmul_add_l, mmul_zero_r, mmul_zero_l in E3. exact (E3 i j Hi Hj). }
  (* Y = U' S U *)
  intros i j Hi Hj.
  assert (meq n n (mmul n (mmul n (mtr U) S) U) Y) as E.
  { unfold S. pose proof (sandwich_back n (mtr U) Y) as B. rewrite mtr_tr in B. apply B. split; auto. }
  rewrite <- E by auto.
  assert (meq n n (mmul n (mmul n (mtr U) S) U) (mmul n (mmul n (mtr U) mzero) U)) as E2.
  { apply mmul_ext; [apply mmul_ext; [apply meq_refl|exact HS]|apply meq_refl]. }
  rewrite E2 by auto. rewrite mmul_zero_r, mmul_zero_l. reflexivity.
Qed.
Lemma regular_injective n T i : upper_triangular n T -> lyapunov_regular n T -> (i < n)%nat -> injective n (madd T (mscal (T i i) meye)).
Proof.
  intros HT Hreg Hi x Hx j Hj.
  destruct (triangular_eigenvector n T i HT Hi) as (u & (p & Hp & Hu) & Eu).
  assert (forall r, (r < n)%nat -> rmv n T x r = - T i i * x r) as Ex.
  { intros r Hr. specialize (Hx r Hr). change (rmv n T x r) with (rsum n (fun l => T r l * x l)).
    change (rsum n (fun l => madd T (mscal (T i i) meye) r l * x l) = 0) in Hx.
    rewrite (rsum_ext n _ (fun l => T r l * x l + (if (l =? r)%nat then (fun l => T i i * x l) l else 0))) in Hx.
    - rewrite rsum_plus, rsum_delta in Hx by auto. lra.
    - intros l Hl. unfold madd, mscal, meye. rewrite (Nat.eqb_sym r l). destruct (l =? r)%nat; ring. }
  assert (meq n n (fun r c => x r * u c) mzero) as Z.
  { apply Hreg. intros r c Hr Hc. unfold madd. rewrite !mmul_rsum. unfold mtr.
    rewrite (rsum_ext n (fun l => T r l * (x l * u c)) (fun l => T r l * x l * u c)) by (intros; ring).
    rewrite (rsum_ext n (fun l => x r * u l * T c l) (fun l => T c l * u l * x r)) by (intros; ring).
    rewrite !rsum_scal_r. specialize (Ex r Hr). specialize (Eu c Hc). change (rsum n (fun l => T r l * x l) = - T i i * x r) in Ex. change (rsum n (fun l => T c l * u l) = T i i * u c) in Eu. rewrite Ex, Eu. unfold mzero. ring. }
  specialize (Z j p Hj Hp). unfold mzero in Z. apply Rmult_integral in Z. tauto.
Qed.

(** * The solver *)
Lemma lyapunov_sandwich ext m A Q : noalias_ok ext m ->
  let T := fst (schur ext m A) in let U := snd (schur ext m A) in
  meq m m (lyapunov ext m A Q) (mmul m (mmul m U (lyap_cols ext T (mmul m (mmul m (mtr U) Q) U) m m)) (mtr U)).
Proof. intros Hn T U. unfold lyapunov. unfold T, U. destruct (schur ext m A) as [T0 U0]. apply Hn. Qed.
Lemma lyapunov_residual ext m A Q : noalias_ok ext m ->
  let T := fst (schur ext m A) in let U := snd (schur ext m A) in
  schur_form m A T U ->
  let Y := lyap_cols ext T (mmul m (mmul m (mtr U) Q) U) m m in
  meq m m (madd (mmul m A (lyapunov ext m A Q)) (mmul m (lyapunov ext m A Q) (mtr A)))
          (mmul m (mmul m U (madd (mmul m T Y) (mmul m Y (mtr T)))) (mtr U)).
Proof.
  intros Hn T U [HU HA] Y. pose proof (lyapunov_sandwich ext m A Q Hn) as E. cbv zeta in E. fold T U Y in E.
  rewrite mmul_add_r, mmul_add_l. apply meq_add.
  - eapply meq_trans; [apply mmul_ext; [exact HA|exact E]|]. apply sandwich; auto.
  - eapply meq_trans; [apply mmul_ext; [exact E|apply mtr_ext; exact HA]|].
    rewrite (mtr_mul m (mmul m U T)), (mtr_mul m U T), mtr_tr. rewrite <- (mmul_assoc m m U (mtr T) (mtr U)). apply sandwich; auto.
Qed.
Lemma lyapunov_solves ext m A Q : noalias_ok ext m -> lu_ok ext m -> schur_ok ext m A -> real_spectrum m A -> lyapunov_regular m A ->
  lyapunov_solution m A Q (lyapunov ext m A Q).
Proof.
  intros Hn Hlu (HS & Hq & Htr) Hre Hreg. specialize (Htr Hre). unfold lyapunov_solution.
  eapply meq_trans; [apply lyapunov_residual; auto|].
  set (T := fst (schur ext m A)) in *. set (U := snd (schur ext m A)) in *.
  eapply meq_trans; [|apply (sandwich_back m U Q); apply HS].
  apply mmul_ext; [|apply meq_refl]. apply mmul_ext; [apply meq_refl|]. intros r c Hr Hc.
  rewrite back_residual; auto.
  - destruct c as [|c']; [ring|]. rewrite Htr by lia. ring.
  - intros i Hi. apply regular_injective; auto. eapply regular_conj; eauto.
Qed.
