(** Proofs for the controllability test. *)
Require Import Arith Reals Lia Lra Classical.
From Verif Require Import Scal RSum Blk Qp_Model Qp_Spec Gauss Lqr_Model Lqr_Spec Lqr_Proofs Ctr_Model Ctr_Spec.
Local Open Scope R_scope.

(** ** p + 1 vectors of R^p: one is a combination of those before it *)
Definition inspan (p d : nat) (v : nat -> nat -> R) (w : nat -> R) : Prop :=
  exists c, forall k, (k < p)%nat -> w k = rsum d (fun i => c i * v i k).
Lemma inspan_ext p d v w w' : (forall k, (k < p)%nat -> w k = w' k) -> inspan p d v w -> inspan p d v w'.
Proof. intros E [c H]. exists c. intros k Hk. rewrite <- E by auto. auto. Qed.
Lemma inspan_add p d v w w' : inspan p d v w -> inspan p d v w' -> inspan p d v (fun k => w k + w' k).
Proof. intros [c H] [c' H']. exists (fun i => c i + c' i). intros k Hk. rewrite (H k Hk), (H' k Hk), <- rsum_plus. apply rsum_ext. intros; ring. Qed.
Lemma inspan_scal p d v a w : inspan p d v w -> inspan p d v (fun k => a * w k).
Proof. intros [c H]. exists (fun i => a * c i). intros k Hk. rewrite (H k Hk), <- rsum_scal. apply rsum_ext. intros; ring. Qed.
Lemma inspan_zero p d v : inspan p d v (fun _ => 0).
Proof. exists (fun _ => 0). intros. symmetry. apply rsum_zero. intros; ring. Qed.
Lemma inspan_base p d v i : (i < d)%nat -> inspan p d v (v i).
Proof.
  intros Hi. exists (fun l => if (l =? i)%nat then 1 else 0). intros k Hk.
  rewrite <- (rsum_delta d i (fun l => v l k) Hi). apply rsum_ext. intros l Hl. destruct (l =? i)%nat eqn:E; ring.
Qed.
Lemma inspan_sum p d v e c w : (forall i, (i < e)%nat -> inspan p d v (w i)) -> inspan p d v (fun k => rsum e (fun i => c i * w i k)).
Proof.
  induction e; intros H.
  - apply inspan_ext with (fun _ => 0). reflexivity. apply inspan_zero.
  - apply inspan_ext with (fun k => rsum e (fun i => c i * w i k) + c e * w e k). intros; rewrite rsum_S; reflexivity.
    apply inspan_add; [apply IHe; auto|apply inspan_scal; auto].
Qed.

Lemma lin_dep p : forall v : nat -> nat -> R, exists d, (d <= p)%nat /\ inspan p d v (v d).
Proof.
  induction p; intros v.
  - exists O. split. auto. exists (fun _ => 0). intros; lia.
  - destruct (classic (exists j, (j <= p)%nat /\ v j p <> 0)) as [E|E].
    + assert (M : exists j, (j <= p)%nat /\ v j p <> 0 /\ forall i, (i < j)%nat -> v i p = 0).
      { destruct E as [j [Hj E]]. revert Hj E. induction j as [j IH] using lt_wf_ind. intros Hj E.
        destruct (classic (exists i, (i < j)%nat /\ v i p <> 0)) as [[i [Hi Ei]]|N].
        - apply (IH i Hi); auto; lia.
        - exists j. repeat split; auto. intros i Hi. apply NNPP. intros X. apply N. exists i. auto. }
      destruct M as [j [Hj [Nz Z]]].
      set (w := fun i k => if (i <? j)%nat then v i k else v (S i) k - v (S i) p / v j p * v j k).
      destruct (IHp w) as [d [Hd [c Hc]]].
      assert (Wp : forall i, w i p = 0).
      { intros i. unfold w. destruct (i <? j)%nat eqn:L. apply Nat.ltb_lt in L. auto. field. auto. }
      assert (Full : forall k, (k < S p)%nat -> w d k = rsum d (fun i => c i * w i k)).
      { intros k Hk. destruct (Nat.eq_dec k p) as [->|]. rewrite Wp. symmetry. apply rsum_zero. intros; rewrite Wp; ring.
        apply Hc. lia. }
      destruct (d <? j)%nat eqn:L.
      * apply Nat.ltb_lt in L. exists d. split. lia. exists c. intros k Hk. specialize (Full k Hk).
        unfold w at 1 in Full. rewrite (proj2 (Nat.ltb_lt d j) L) in Full. rewrite Full. apply rsum_ext. intros i Hi. unfold w.
        rewrite (proj2 (Nat.ltb_lt i j)) by lia. reflexivity.
      * pose proof L as L'. apply Nat.ltb_ge in L. exists (S d). split. lia.
        apply inspan_ext with (fun k => rsum d (fun i => c i * w i k) + v (S d) p / v j p * v j k).
        { intros k Hk. rewrite <- Full by auto. unfold w. rewrite L'. ring. }
        apply inspan_add. 2: apply inspan_scal, inspan_base; lia.
        apply inspan_sum. intros i Hi. unfold w. destruct (i <? j)%nat eqn:Li.
        -- apply Nat.ltb_lt in Li. apply inspan_ext with (v i). reflexivity. apply inspan_base. lia.
        -- apply Nat.ltb_ge in Li. apply inspan_ext with (fun k => v (S i) k + - (v (S i) p / v j p) * v j k). intros; ring.
           apply inspan_add. apply inspan_base; lia. apply inspan_scal, inspan_base. lia.
    + destruct (IHp v) as [d [Hd [c Hc]]]. exists d. split. lia. exists c. intros k Hk.
      assert (Z : forall i, (i <= p)%nat -> v i p = 0) by (intros i Hi; apply NNPP; intros X; apply E; exists i; auto).
      destruct (Nat.eq_dec k p) as [->|]. 2: apply Hc; lia. rewrite Z by lia. symmetry. apply rsum_zero. intros i Hi. rewrite Z by lia. ring.
Qed.

(** ** powers *)
Lemma mpow_comm n F k : meq n n (mmul n (mpow n F k) F) (mpow n F (S k)).
Proof.
  induction k; cbn [mpow].
  - apply meq_trans with F. apply meye_l. apply meq_sym, meye_r.
  - rewrite mmul_assoc. apply mmul_ext. apply meq_refl. exact IHk.
Qed.
(** F satisfies a monic polynomial, and one of degree at least n *)
Lemma annihilated n F : exists d c, (n <= d)%nat /\
  forall i j, (i < n)%nat -> (j < n)%nat -> mpow n F d i j = rsum d (fun k => c k * mpow n F k i j).
Proof.
  destruct (lin_dep (n * n) (fun k q => mpow n F k (q / n)%nat (q mod n)%nat)) as [d [_ [c H]]].
  assert (H0 : forall i j, (i < n)%nat -> (j < n)%nat -> mpow n F d i j = rsum d (fun k => c k * mpow n F k i j)).
  { intros i j Hi Hj. assert (B : (i * n + j < n * n)%nat) by nia. specialize (H _ B). cbn beta in H.
    rewrite Nat.div_add_l, Nat.div_small, Nat.add_0_r in H by lia.
    replace ((i * n + j) mod n)%nat with j in H by (rewrite Nat.add_comm, Nat.mod_add, Nat.mod_small; lia). exact H. }
  assert (Hs : forall q i j, (i < n)%nat -> (j < n)%nat -> mpow n F (q + d) i j = rsum d (fun k => c k * mpow n F (q + k) i j)).
  { induction q; intros i j Hi Hj. apply H0; auto. cbn [Nat.add mpow]. rewrite mmul_rsum.
    rewrite (rsum_ext n _ (fun l => rsum d (fun k => c k * (F i l * mpow n F (q + k) l j)))).
    2:{ intros l Hl. rewrite IHq by auto. rewrite <- rsum_scal. apply rsum_ext. intros; ring. }
    rewrite rsum_swap. apply rsum_ext. intros k Hk. rewrite mmul_rsum, <- rsum_scal. reflexivity. }
  exists (n + d)%nat, (fun k => if (k <? n)%nat then 0 else c (k - n)%nat). split. lia.
  intros i j Hi Hj. rewrite Hs by auto. rewrite rsum_split.
  rewrite rsum_zero with (n := n). 2:{ intros k Hk. rewrite (proj2 (Nat.ltb_lt k n)) by auto. ring. }
  rewrite Rplus_0_l. apply rsum_ext. intros k Hk. rewrite (proj2 (Nat.ltb_ge (n + k) n)) by lia.
  replace (n + k - n)%nat with k by lia. reflexivity.
Qed.

(** ** the matrix *)
Lemma ctrb_entry s k r i : (k < sys_n s)%nat -> (r < sys_m s)%nat -> (i < sys_n s)%nat ->
  ctrb s i (k * sys_m s + r)%nat = mmul (sys_n s) (mpow (sys_n s) (sys_F s) k) (sys_G s) i r.
Proof.
  intros Hk Hr Hi. unfold ctrb.
  set (f := fun k0 M => mset M 0 (k0 * sys_m s) (sys_n s) (sys_m s) (mmul (sys_n s) (mpow (sys_n s) (sys_F s) k0) (sys_G s))).
  assert (P : forall N, (k < N)%nat -> loop N f mzero i (k * sys_m s + r)%nat = mmul (sys_n s) (mpow (sys_n s) (sys_F s) k) (sys_G s) i r).
  { induction N; intros H. lia. rewrite loop_S. unfold f at 1, mset.
    rewrite in_seg_true by lia. rewrite node_in_seg by auto. cbn [andb].
    destruct (N =? k)%nat eqn:E.
    - apply Nat.eqb_eq in E. subst N. rewrite Nat.sub_0_r. replace (k * sys_m s + r - k * sys_m s)%nat with r by lia. reflexivity.
    - apply Nat.eqb_neq in E. apply IHN. lia. }
  apply P. auto.
Qed.

(** a matrix with independent rows is onto *)
Lemma onto n q C : independent_rows n q C -> forall b, exists w, forall i, (i < n)%nat -> rsum q (fun j => C i j * w j) = b i.
Proof.
  intros I b. set (K := fun i k => rsum q (fun j => C i j * C k j)).
  assert (N : nonsingular n K).
  { intros v Hv. apply I. intros j Hj.
    assert (Z : rsum q (fun j => rsum n (fun i => v i * C i j) * rsum n (fun i => v i * C i j)) = 0).
    { rewrite (rsum_ext q _ (fun j => rsum n (fun i => v i * (C i j * rsum n (fun k => v k * C k j))))).
      2:{ intros l Hl. rewrite <- rsum_scal_r. apply rsum_ext. intros; ring. }
      rewrite rsum_swap. apply rsum_zero. intros i Hi. rewrite rsum_scal.
      enough (E : rsum q (fun j => C i j * rsum n (fun k => v k * C k j)) = 0) by (rewrite E; ring).
      rewrite <- (Hv i Hi). rewrite rmv_def. unfold K.
      rewrite (rsum_ext q _ (fun j => rsum n (fun k => C i j * C k j * v k))).
      2:{ intros l Hl. rewrite <- rsum_scal. apply rsum_ext. intros; ring. }
      rewrite rsum_swap. apply rsum_ext. intros k Hk. rewrite rsum_scal_r. reflexivity. }
    pose proof (rsum_nonneg_zero q _ (fun j _ => Rle_0_sqr _) Z j Hj) as S. apply Rsqr_0_uniq. exact S. }
  exists (fun j => rsum n (fun k => C k j * gauss n K b k)). intros i Hi.
  rewrite <- (gauss_exact n K b N i Hi). rewrite rmv_def. set (g := gauss n K b). unfold K.
  rewrite (rsum_ext q (fun j => C i j * rsum n (fun k => C k j * g k)) (fun j => rsum n (fun k => C i j * C k j * g k))).
  2:{ intros l Hl. rewrite <- rsum_scal. apply rsum_ext. intros; ring. }
  rewrite rsum_swap. apply rsum_ext. intros k Hk. rewrite rsum_scal_r. reflexivity.
Qed.

(** ** functions given with all their derivatives *)
Definition chain (z : nat -> R -> R) : Prop := forall k t, derivable_pt_lim (z k) t (z (S k) t).
Definition order (z : nat -> R -> R) (s : R) (d : nat) (A : R) : Prop := (forall k, (k < d)%nat -> z k s = 0) /\ z d s = A.
Definition times (s : R) (z : nat -> R -> R) (k : nat) (t : R) : R := (t - s) * z k t + INR k * z (k - 1)%nat t.
Lemma chain_add z w : chain z -> chain w -> chain (fun k t => z k t + w k t).
Proof. intros H H' k t. apply (derivable_pt_lim_plus (z k) (w k)); auto. Qed.
Lemma chain_scal a z : chain z -> chain (fun k t => a * z k t).
Proof. intros H k t. apply (derivable_pt_lim_scal (z k)); auto. Qed.
Lemma chain_const a : chain (fun k _ => if (k =? 0)%nat then a else 0).
Proof. intros k t. cbn [Nat.eqb]. destruct (k =? 0)%nat; apply derivable_pt_lim_const. Qed.
Lemma chain_times s z : chain z -> chain (times s z).
Proof.
  intros H k t. unfold times.
  assert (D : derivable_pt_lim (fun t => (t - s) * z k t + INR k * z (k - 1)%nat t) t
     (((1 - 0) * z k t + (t - s) * z (S k) t) + INR k * z (S (k - 1)) t)).
  { apply (derivable_pt_lim_plus (fun t => (t - s) * z k t) (fun t => INR k * z (k - 1)%nat t)).
    - apply (derivable_pt_lim_mult (fun t => t - s) (z k)). 2: auto.
      apply (derivable_pt_lim_minus (fun t => t) (fun _ => s)). apply derivable_pt_lim_id. apply derivable_pt_lim_const.
    - apply (derivable_pt_lim_scal (z (k - 1)%nat)). auto. }
  replace (S k - 1)%nat with k by lia. rewrite S_INR.
  replace ((t - s) * z (S k) t + (INR k + 1) * z k t) with (((1 - 0) * z k t + (t - s) * z (S k) t) + INR k * z (S (k - 1)) t). exact D.
  destruct k. cbn [INR]. ring. replace (S (S k - 1)) with (S k) by lia. ring.
Qed.
Lemma order_times_here s z d A : order z s d A -> order (times s z) s (S d) (INR (S d) * A).
Proof.
  intros [H E]. split; [intros k Hk|]; unfold times; rewrite Rminus_diag_eq by reflexivity.
  - destruct k. cbn [INR]. ring. rewrite (H (S k - 1)%nat) by lia. ring.
  - replace (S d - 1)%nat with d by lia. rewrite E. ring.
Qed.
Lemma order_times_other s s' z d A : order z s' d A -> order (times s z) s' d ((s' - s) * A).
Proof.
  intros [H E]. split; [intros k Hk|]; unfold times.
  - rewrite H by lia. destruct k. cbn [INR]. ring. rewrite (H (S k - 1)%nat) by lia. ring.
  - rewrite E. destruct d. cbn [INR]. ring. rewrite (H (S d - 1)%nat) by lia. ring.
Qed.
Lemma bump T d : T <> 0 -> exists z A B, chain z /\ order z 0 d A /\ order z T d B /\ A <> 0 /\ B <> 0.
Proof.
  intros HT. induction d.
  - exists (fun k _ => if (k =? 0)%nat then 1 else 0), 1, 1. split. apply chain_const.
    repeat split; try (intros; lia); try lra.
  - destruct IHd as [z [A [B [Hc [H0 [H1 [NA NB]]]]]]].
    exists (times T (times 0 z)), ((0 - T) * (INR (S d) * A)), (INR (S d) * ((T - 0) * B)).
    split. apply chain_times, chain_times, Hc.
    split. apply order_times_other, order_times_here, H0.
    split. apply order_times_here, order_times_other, H1.
    assert (INR (S d) <> 0) by (apply not_0_INR; lia).
    split; repeat apply Rmult_integral_contrapositive_currified; auto; lra.
Qed.
(** Hermite interpolation of any order at 0 and T *)
Lemma hermite T d (a b : nat -> R) : T <> 0 -> exists z, chain z /\ forall k, (k < d)%nat -> z k 0 = a k /\ z k T = b k.
Proof.
  intros HT. induction d.
  - exists (fun k _ => if (k =? 0)%nat then 0 else 0). split. apply chain_const. intros; lia.
  - destruct IHd as [z [Hc Hz]]. destruct (bump T d HT) as [w [A [B [Hw [[W0 WA] [[WT WB] [NA NB]]]]]]].
    set (al := (a d - z d 0) / A). set (be := (b d - z d T - al * B) / (T * B)).
    destruct (order_times_here 0 w d A (conj W0 WA)) as [V0 _].
    destruct (order_times_other 0 T w d B (conj WT WB)) as [VT VB].
    exists (fun k t => z k t + (al * w k t + be * times 0 w k t)). split.
    + apply (chain_add z (fun k t => al * w k t + be * times 0 w k t)). auto.
      apply (chain_add (fun k t => al * w k t) (fun k t => be * times 0 w k t)); apply chain_scal; auto. apply chain_times, Hw.
    + intros k Hk. rewrite (V0 k) by lia. destruct (Nat.eq_dec k d) as [->|].
      * rewrite WA, WB, VB. unfold be, al. split; field; auto.
      * rewrite W0, WT, VT by lia. destruct (Hz k) as [-> ->]. lia. split; ring.
Qed.
(** the values of the derivatives that make a given triangular combination right *)
Lemma triangular (e w : nat -> R) d : exists a : nat -> R, forall k, (k < d)%nat -> a k - rsum k (fun l => e l * a (k - 1 - l)%nat) = w k.
Proof.
  induction d. exists (fun _ => 0). intros; lia.
  destruct IHd as [a H].
  exists (fun i => if (i =? d)%nat then w d + rsum d (fun l => e l * a (d - 1 - l)%nat) else a i). intros k Hk.
  assert (E : rsum k (fun l => e l * (if (k - 1 - l =? d)%nat then w d + rsum d (fun l => e l * a (d - 1 - l)%nat) else a (k - 1 - l)%nat))
     = rsum k (fun l => e l * a (k - 1 - l)%nat)).
  { apply rsum_ext. intros l Hl. rewrite (proj2 (Nat.eqb_neq (k - 1 - l) d)) by lia. reflexivity. }
  rewrite E. destruct (Nat.eq_dec k d) as [->|]. rewrite Nat.eqb_refl. ring.
  rewrite (proj2 (Nat.eqb_neq k d)) by auto. apply H. lia.
Qed.

Lemma rsum_deriv n (f f' : nat -> R -> R) t : (forall i, (i < n)%nat -> derivable_pt_lim (f i) t (f' i t)) ->
  derivable_pt_lim (fun t => rsum n (fun i => f i t)) t (rsum n (fun i => f' i t)).
Proof.
  induction n; intros H. apply derivable_pt_lim_const.
  rewrite rsum_S. apply (derivable_pt_lim_ext (fun t => rsum n (fun i => f i t) + f n t)). intros; rewrite rsum_S; reflexivity.
  apply (derivable_pt_lim_plus (fun t => rsum n (fun i => f i t)) (f n)); auto.
Qed.

Lemma rsum_shift d f g : (0 < d)%nat -> (forall k, (k < d - 1)%nat -> f k = g (S k)) -> rsum d f + g 0%nat = rsum d g + f (d - 1)%nat.
Proof.
  destruct d as [|d]. lia. intros _ H. rewrite (rsum_first d g), (rsum_S d f). replace (S d - 1)%nat with d in * by lia.
  rewrite (rsum_ext d f (fun k => g (S k)) H). ring.
Qed.

Lemma rsum_nodes n m f : rsum (n * m) f = rsum n (fun k => rsum m (fun r => f (k * m + r)%nat)).
Proof. induction n. reflexivity. rewrite rsum_S, <- IHn. replace (S n * m)%nat with (n * m + m)%nat by lia. apply rsum_split. Qed.

(** ** steering *)
Section Steer.
Variables (n m d : nat) (F G : mx) (c : nat -> R).
Hypothesis annih : forall i j, (i < n)%nat -> (j < n)%nat -> mpow n F d i j = rsum d (fun k => c k * mpow n F k i j).
Let Mx k := mmul n (mpow n F k) G.
Let e l := c (d - 1 - l)%nat.
Variable z : nat -> nat -> R -> R.
Hypothesis zc : forall r, chain (z r).
Definition theta (k r : nat) (t : R) : R := z r k t - rsum k (fun l => e l * z r (k - 1 - l)%nat t).
Lemma theta_deriv k r t : derivable_pt_lim (theta k r) t (theta (S k) r t + e k * theta 0 r t).
Proof.
  unfold theta.
  replace (z r (S k) t - rsum (S k) (fun l => e l * z r (S k - 1 - l)%nat t) + e k * (z r 0%nat t - rsum 0 (fun l => e l * z r (0 - 1 - l)%nat t)))
    with (z r (S k) t - rsum k (fun l => e l * z r (S (k - 1 - l)) t)).
  - apply (derivable_pt_lim_minus (z r k) (fun t => rsum k (fun l => e l * z r (k - 1 - l)%nat t))). apply zc.
    apply (rsum_deriv k (fun l t => e l * z r (k - 1 - l)%nat t) (fun l t => e l * z r (S (k - 1 - l)) t)).
    intros l Hl. apply (derivable_pt_lim_scal (z r (k - 1 - l)%nat)). apply zc.
  - rewrite rsum_S, rsum_0. replace (S k - 1 - k)%nat with 0%nat by lia.
    rewrite (rsum_ext k (fun l => e l * z r (S k - 1 - l)%nat t) (fun l => e l * z r (S (k - 1 - l)) t)).
    ring. intros l Hl. replace (S k - 1 - l)%nat with (S (k - 1 - l)) by lia. reflexivity.
Qed.
Definition steer_x (t : R) (i : nat) : R := rsum d (fun k => rsum m (fun r => Mx (d - 1 - k) i r * theta k r t)).
Definition steer_u (t : R) (r : nat) : R := theta d r t.
Lemma Mx_S k i r : (i < n)%nat -> (r < m)%nat -> rsum n (fun j => F i j * Mx k j r) = Mx (S k) i r.
Proof. intros Hi Hr. unfold Mx. cbn [mpow]. rewrite mmul_assoc. rewrite mmul_rsum. reflexivity. Qed.
Lemma Mx_d i r : (i < n)%nat -> Mx d i r = rsum d (fun k => c k * Mx k i r).
Proof.
  intros Hi. unfold Mx. rewrite mmul_rsum.
  rewrite (rsum_ext n _ (fun l => rsum d (fun k => c k * (mpow n F k i l * G l r)))).
  2:{ intros l Hl. rewrite annih by auto. rewrite <- rsum_scal_r. apply rsum_ext. intros; ring. }
  rewrite rsum_swap. apply rsum_ext. intros k Hk. rewrite mmul_rsum, <- rsum_scal. reflexivity.
Qed.
Lemma Mx_0 i r : (i < n)%nat -> Mx 0 i r = G i r.
Proof. intros Hi. unfold Mx. apply (meye_l n (S r)); auto. Qed.
Lemma steer_ode (Hd : (0 < d)%nat) t i : (i < n)%nat ->
  derivable_pt_lim (fun t => steer_x t i) t (rsum n (fun j => F i j * steer_x t j) + rsum m (fun r => G i r * steer_u t r)).
Proof.
  intros Hi.
  assert (D : derivable_pt_lim (fun t => steer_x t i) t
     (rsum d (fun k => rsum m (fun r => Mx (d - 1 - k) i r * (theta (S k) r t + e k * theta 0 r t))))).
  { unfold steer_x.
    apply (rsum_deriv d (fun k t => rsum m (fun r => Mx (d - 1 - k) i r * theta k r t))
      (fun k t => rsum m (fun r => Mx (d - 1 - k) i r * (theta (S k) r t + e k * theta 0 r t)))). intros k Hk.
    apply (rsum_deriv m (fun r t => Mx (d - 1 - k) i r * theta k r t) (fun r t => Mx (d - 1 - k) i r * (theta (S k) r t + e k * theta 0 r t))).
    intros r Hr. apply (derivable_pt_lim_scal (theta k r)). apply theta_deriv. }
  match type of D with derivable_pt_lim _ _ ?a => match goal with |- derivable_pt_lim _ _ ?b => replace b with a; [exact D|] end end.
  (* F x *)
  rewrite (rsum_ext n (fun j => F i j * steer_x t j) (fun j => rsum d (fun k => rsum m (fun r => F i j * Mx (d - 1 - k) j r * theta k r t)))).
  2:{ intros j Hj. unfold steer_x. rewrite <- rsum_scal. apply rsum_ext. intros k Hk. rewrite <- rsum_scal. apply rsum_ext. intros; ring. }
  rewrite (rsum_swap n d (fun j k => rsum m (fun r => F i j * Mx (d - 1 - k) j r * theta k r t))).
  rewrite (rsum_ext d (fun k => rsum n (fun j => rsum m (fun r => F i j * Mx (d - 1 - k) j r * theta k r t)))
                      (fun k => rsum m (fun r => Mx (d - k) i r * theta k r t))).
  2:{ intros k Hk. rewrite rsum_swap. apply rsum_ext. intros r Hr. rewrite rsum_scal_r, Mx_S by auto.
      replace (S (d - 1 - k)) with (d - k)%nat by lia. reflexivity. }
  rewrite (rsum_ext d _ (fun k => rsum m (fun r => Mx (d - 1 - k) i r * theta (S k) r t) + rsum m (fun r => e k * Mx (d - 1 - k) i r * theta 0 r t))).
  2:{ intros k Hk. rewrite <- rsum_plus. apply rsum_ext. intros; ring. }
  rewrite rsum_plus.
  assert (A : rsum d (fun k => rsum m (fun r => e k * Mx (d - 1 - k) i r * theta 0 r t)) = rsum m (fun r => Mx d i r * theta 0 r t)).
  { rewrite rsum_swap. apply rsum_ext. intros r Hr. rewrite rsum_scal_r. f_equal. rewrite (Mx_d i r Hi).
    rewrite (rsum_rev d (fun k => c k * Mx k i r)). apply rsum_ext. intros; unfold e. reflexivity. }
  rewrite A.
  pose proof (rsum_shift d (fun k => rsum m (fun r => Mx (d - 1 - k) i r * theta (S k) r t)) (fun k => rsum m (fun r => Mx (d - k) i r * theta k r t)) Hd) as E.
  cbn beta in E. rewrite Nat.sub_0_r in E. rewrite E.
  - replace (d - 1 - (d - 1))%nat with 0%nat by lia. replace (S (d - 1)) with d by lia. f_equal.
    apply rsum_ext. intros r Hr. rewrite Mx_0 by auto. reflexivity.
  - intros k Hk. replace (d - 1 - k)%nat with (d - S k)%nat by lia. reflexivity.
Qed.
End Steer.

Lemma can_steer s : independent_rows (sys_n s) (sys_n s * sys_m s) (ctrb s) -> controllable s.
Proof.
  intros I x0 x1 T HT. destruct s as [n m p F G H]. cbn [sys_n sys_m] in *.
  destruct (annihilated n F) as [d0 [c0 [Hn0 Hc0]]].
  assert (X : exists d c, (n <= d)%nat /\ (0 < d)%nat /\
    forall i j, (i < n)%nat -> (j < n)%nat -> mpow n F d i j = rsum d (fun k => c k * mpow n F k i j)).
  { destruct d0. exists 1%nat, c0. split. lia. split. lia. intros; lia. exists (S d0), c0. repeat split; auto; lia. }
  clear d0 c0 Hn0 Hc0. destruct X as [d [c [Hn [Hd Hc]]]].
  set (e := fun l => c (d - 1 - l)%nat).
  (* coordinates of a state along the blocks, in the order of theta *)
  assert (W : forall b : nat -> R, exists w : nat -> nat -> R, forall i, (i < n)%nat ->
    rsum d (fun k => rsum m (fun r => mmul n (mpow n F (d - 1 - k)) G i r * w k r)) = b i).
  { intros b. destruct (onto _ _ _ I b) as [w Hw].
    exists (fun k r => if (d - 1 - k <? n)%nat then w ((d - 1 - k) * m + r)%nat else 0). intros i Hi.
    rewrite <- (Hw i Hi). rewrite <- (rsum_rev d (fun k => rsum m (fun r => mmul n (mpow n F k) G i r * (if (k <? n)%nat then w (k * m + r)%nat else 0)))).
    replace d with (n + (d - n))%nat by lia. rewrite rsum_split.
    rewrite (rsum_zero (d - n)).
    2:{ intros k Hk. apply rsum_zero. intros r Hr. rewrite (proj2 (Nat.ltb_ge (n + k) n)) by lia. ring. }
    rewrite Rplus_0_r. rewrite rsum_nodes. apply rsum_ext. intros k Hk. apply rsum_ext. intros r Hr.
    rewrite (proj2 (Nat.ltb_lt k n)) by auto. f_equal. symmetry.
    apply (ctrb_entry {| sys_n := n; sys_m := m; sys_p := p; sys_F := F; sys_G := G; sys_H := H |}); auto. }
  destruct (W x0) as [w0 Hw0]. destruct (W x1) as [w1 Hw1].
  assert (Z : exists z : nat -> nat -> R -> R, (forall r, chain (z r)) /\
    forall r k, (r < m)%nat -> (k < d)%nat -> theta d c z k r 0 = w0 k r /\ theta d c z k r T = w1 k r).
  { assert (Z1 : forall r, exists z, chain z /\ forall k, (k < d)%nat ->
      z k 0 - rsum k (fun l => e l * z (k - 1 - l)%nat 0) = w0 k r /\ z k T - rsum k (fun l => e l * z (k - 1 - l)%nat T) = w1 k r).
    { intros r. destruct (triangular e (fun k => w0 k r) d) as [a Ha]. destruct (triangular e (fun k => w1 k r) d) as [b Hb].
      destruct (hermite T d a b) as [z [Hz E]]. lra. exists z. split. auto. intros k Hk.
      destruct (E k Hk) as [E0 E1]. rewrite E0, E1. rewrite <- Ha, <- Hb by auto.
      split; f_equal; apply rsum_ext; intros l Hl; destruct (E (k - 1 - l)%nat) as [E2 E3]; try lia; rewrite ?E2, ?E3; reflexivity. }
    clear - Z1. induction m as [|m IH].
    - exists (fun _ k _ => if (k =? 0)%nat then 0 else 0). split. intros r. apply chain_const. intros; lia.
    - destruct IH as [z [Hz E]]. destruct (Z1 m) as [y [Hy Ey]].
      exists (fun r => if (r =? m)%nat then y else z r). split. intros r. destruct (r =? m)%nat; auto.
      intros r k Hr Hk. unfold theta. destruct (r =? m)%nat eqn:Em.
      + apply Nat.eqb_eq in Em. subst r. apply Ey. auto.
      + apply Nat.eqb_neq in Em. apply E; auto. lia. }
  destruct Z as [z [Hz E]].
  exists (steer_x n m d F G c z), (steer_u d c z). split; [|split].
  - intros t _ i Hi. cbn [sys_n sys_m sys_F sys_G] in *. apply steer_ode; auto.
  - intros t r. apply derivable_continuous_pt. eexists. apply theta_deriv. auto.
  - intros i Hi. cbn [sys_n] in Hi. rewrite <- (Hw0 i Hi), <- (Hw1 i Hi). unfold steer_x.
    split; apply rsum_ext; intros k Hk; apply rsum_ext; intros r Hr; destruct (E r k Hr Hk) as [E2 E3]; rewrite ?E2, ?E3; reflexivity.
Qed.

(** ** a linear system that starts at zero stays there *)
Lemma stays_zero n (A : mx) (y : nat -> R -> R) T : 0 < T ->
  (forall t k, 0 <= t <= T -> (k < n)%nat -> derivable_pt_lim (y k) t (rsum n (fun j => A k j * y j t))) ->
  (forall k, (k < n)%nat -> y k 0 = 0) -> forall k, (k < n)%nat -> y k T = 0.
Proof.
  intros HT D Z.
  set (E := fun t => rsum n (fun k => y k t * y k t)).
  set (E' := fun t => rsum n (fun k => rsum n (fun j => A k j * y j t) * y k t + y k t * rsum n (fun j => A k j * y j t))).
  set (C := 2 * rsum n (fun k => rsum n (fun j => Rabs (A k j)))).
  assert (DE : forall t, 0 <= t <= T -> derivable_pt_lim E t (E' t)).
  { intros t Ht. apply (rsum_deriv n (fun k t => y k t * y k t) (fun k t => rsum n (fun j => A k j * y j t) * y k t + y k t * rsum n (fun j => A k j * y j t))).
    intros k Hk. apply (derivable_pt_lim_mult (y k) (y k)); auto. }
  assert (Ey : forall t k, (k < n)%nat -> y k t * y k t <= E t).
  { intros t k Hk. unfold E. apply (rsum_nonneg_term n (fun k => y k t * y k t)); auto. intros. apply Rle_0_sqr. }
  assert (BE : forall t, E' t <= C * E t).
  { intros t. unfold E', C. rewrite (Rmult_comm 2), Rmult_assoc, <- rsum_scal_r. apply rsum_le. intros k Hk.
    replace (rsum n (fun j => A k j * y j t) * y k t + y k t * rsum n (fun j => A k j * y j t))
      with (rsum n (fun j => 2 * (A k j * y j t * y k t))) by (rewrite rsum_scal, rsum_scal_r; ring).
    rewrite <- rsum_scal_r. apply rsum_le. intros j Hj.
    pose proof (Ey t k Hk) as E1. pose proof (Ey t j Hj) as E2.
    assert (Q : A k j * y j t * y k t <= Rabs (A k j) * E t).
    { apply Rle_trans with (Rabs (A k j * y j t * y k t)). apply Rle_abs. rewrite Rmult_assoc, Rabs_mult.
      apply Rmult_le_compat_l. apply Rabs_pos. apply Rabs_le. split; nra. }
    lra. }
  assert (DH : forall t, 0 <= t <= T -> derivable_pt_lim (fun t => E t * exp (- C * t)) t (E' t * exp (- C * t) + E t * (exp (- C * t) * (- C * 1)))).
  { intros t Ht. apply (derivable_pt_lim_mult E (fun t => exp (- C * t))). auto.
    apply (derivable_pt_lim_comp (fun t => - C * t) exp). apply (derivable_pt_lim_scal (fun t => t)). apply derivable_pt_lim_id.
    apply derivable_pt_lim_exp. }
  destruct (MVT_cor2 _ _ 0 T HT DH) as [t [Et Ht]].
  assert (E0 : E 0 = 0) by (apply rsum_zero; intros k Hk; rewrite Z by auto; ring).
  rewrite E0 in Et. pose proof (exp_pos (- C * T)) as P1. pose proof (exp_pos (- C * t)) as P2. pose proof (BE t) as B.
  assert (N : E T <= 0).
  { assert (K : E' t * exp (- C * t) + E t * (exp (- C * t) * (- C * 1)) <= 0) by nra. nra. }
  intros k Hk. pose proof (Ey T k Hk). nra.
Qed.

Lemma cannot_steer s v : (forall j, (j < sys_n s * sys_m s)%nat -> rsum (sys_n s) (fun i => v i * ctrb s i j) = 0) ->
  (exists i, (i < sys_n s)%nat /\ v i <> 0) ->
  forall T x u, 0 < T -> trajectory s T x u -> (forall i, (i < sys_n s)%nat -> x 0 i = 0) ->
  rsum (sys_n s) (fun i => v i * x T i) = 0.
Proof.
  intros Hv Nz T x u HT Tr X0. destruct s as [n m p F G H]. cbn [sys_n sys_m] in *.
  set (row := fun k j => rsum n (fun i => v i * mpow n F k i j)).
  assert (R0 : forall j, (j < n)%nat -> row 0%nat j = v j).
  { intros j Hj. unfold row. cbn [mpow]. unfold meye. rewrite <- (rsum_delta n j v Hj). apply rsum_ext. intros i Hi.
    destruct (i =? j)%nat eqn:E; ring. }
  assert (RS : forall k j, (j < n)%nat -> rsum n (fun i => row k i * F i j) = row (S k) j).
  { intros k j Hj. unfold row.
    rewrite (rsum_ext n _ (fun i => rsum n (fun l => v l * (mpow n F k l i * F i j)))).
    2:{ intros i Hi. rewrite <- rsum_scal_r. apply rsum_ext. intros; ring. }
    rewrite rsum_swap. apply rsum_ext. intros l Hl. rewrite rsum_scal, <- mmul_rsum. f_equal. apply mpow_comm; auto. }
  assert (RG : forall k r, (k < n)%nat -> (r < m)%nat -> rsum n (fun i => row k i * G i r) = 0).
  { intros k r Hk Hr. assert (B : (k * m + r < n * m)%nat) by nia. rewrite <- (Hv _ B). unfold row.
    rewrite (rsum_ext n _ (fun i => rsum n (fun l => v l * (mpow n F k l i * G i r)))).
    2:{ intros i Hi. rewrite <- rsum_scal_r. apply rsum_ext. intros; ring. }
    rewrite rsum_swap. apply rsum_ext. intros l Hl. rewrite rsum_scal, <- mmul_rsum. f_equal. symmetry.
    apply (ctrb_entry {| sys_n := n; sys_m := m; sys_p := p; sys_F := F; sys_G := G; sys_H := H |}); auto. }
  destruct (lin_dep n row) as [d [Hd [c Hc]]].
  destruct d as [|d].
  { destruct Nz as [i [Hi Ni]]. exfalso. apply Ni. rewrite <- R0 by auto. rewrite Hc by auto. reflexivity. }
  set (y := fun k t => rsum n (fun i => row k i * x t i)).
  assert (Y : y 0%nat T = 0).
  { apply (stays_zero (S d) (fun k j => if (k =? d)%nat then c j else if (j =? S k)%nat then 1 else 0) y T HT); try lia.
    - intros t k Ht Hk.
      assert (Dy : derivable_pt_lim (y k) t (rsum n (fun i => row k i * (rsum n (fun j => F i j * x t j) + rsum m (fun r => G i r * u t r))))).
      { apply (rsum_deriv n (fun i t => row k i * x t i) (fun i t => row k i * (rsum n (fun j => F i j * x t j) + rsum m (fun r => G i r * u t r)))).
        intros i Hi. apply (derivable_pt_lim_scal (fun t => x t i)). apply (Tr t Ht i Hi). }
      match type of Dy with derivable_pt_lim _ _ ?a => match goal with |- derivable_pt_lim _ _ ?b => replace b with a; [exact Dy|] end end.
      assert (E : rsum n (fun i => row k i * (rsum n (fun j => F i j * x t j) + rsum m (fun r => G i r * u t r))) = y (S k) t).
      { rewrite (rsum_ext n _ (fun i => rsum n (fun j => row k i * F i j * x t j) + rsum m (fun r => row k i * G i r * u t r))).
        2:{ intros i Hi. rewrite Rmult_plus_distr_l, <- !rsum_scal. f_equal; apply rsum_ext; intros; ring. }
        rewrite rsum_plus. rewrite (rsum_swap n m). rewrite (rsum_zero m).
        2:{ intros r Hr. rewrite rsum_scal_r, RG by (auto; lia). ring. }
        rewrite Rplus_0_r, rsum_swap. unfold y. apply rsum_ext. intros j Hj. rewrite rsum_scal_r, RS by auto. reflexivity. }
      rewrite E. destruct (k =? d)%nat eqn:Ek.
      + apply Nat.eqb_eq in Ek. subst k. unfold y.
        rewrite (rsum_ext n _ (fun i => rsum (S d) (fun j => c j * (row j i * x t i)))).
        2:{ intros i Hi. rewrite Hc by auto. rewrite <- rsum_scal_r. apply rsum_ext. intros; ring. }
        rewrite rsum_swap. apply rsum_ext. intros j Hj. rewrite rsum_scal. reflexivity.
      + apply Nat.eqb_neq in Ek. rewrite <- (rsum_delta (S d) (S k) (fun j => y j t)) by lia.
        apply rsum_ext. intros j Hj. destruct (j =? S k)%nat; ring.
    - intros k Hk. unfold y. apply rsum_zero. intros i Hi. rewrite X0 by auto. ring. }
  rewrite <- Y. unfold y. apply rsum_ext. intros i Hi. rewrite R0 by auto. reflexivity.
Qed.
