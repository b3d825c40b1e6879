(** Proofs: QPs without a solution. *)
Require Import ZArith List Bool Lia Reals Lra Psatz.
From Verif Require Import Scal RSum Qp_Model Qp_Spec Qp_Proofs Admm_Model Admm_Spec Admm_SpecR Admm_Proofs Admm_ProofsR Admm_Conv
  AdmmRelax_Spec AdmmRelax_Proofs BoxAdmm_Model BoxAdmm_ProofsR QpInf_Spec Farkas.
Import ListNotations.
Local Open Scope R_scope.

Section Qp.
Variable p : qp_data R.
Hypothesis Hc : qp_consistent p.
Notation n := (qn p).
Notation mn := (qm p + qn p)%nat.
Notation S := (stacked (qm p) (qA p)).

(** certificates *)
Definition in_all (z : vec R) : Prop := forall i, (i < mn)%nat -> in_bounds (lbS p i) (ubS p i) (z i).
Definition farkas (v : vec R) (dl : R) : Prop :=
  (forall x, rsum mn (fun i => v i * stackv p x i) = 0) /\ (forall z, in_all z -> rsum mn (fun i => v i * z i) <= - dl) /\ 0 < dl.
Definition recession (d : vec R) : Prop := forall i, (i < mn)%nat ->
  (0 < stackv p d i -> ubS p i = PInf) /\ (stackv p d i < 0 -> lbS p i = MInf).
Definition downhill (d : vec R) : Prop :=
  recession d /\ (forall x, rdot n (rmv n (qH p) x) d = 0) /\ rdot n (qh p) d < 0.

Lemma lb_kind i : (i < mn)%nat -> lbS p i = MInf \/ exists l, lbS p i = Fin l.
Proof. intros Hi. destruct (consS p Hc i Hi) as (t & H1 & H2). destruct (lbS p i); simpl in *; try tauto; eauto. Qed.
Lemma ub_kind i : (i < mn)%nat -> ubS p i = PInf \/ exists u, ubS p i = Fin u.
Proof. intros Hi. destruct (consS p Hc i Hi) as (t & H1 & H2). destruct (ubS p i); simpl in *; try tauto; eauto. Qed.

Lemma in_all_feasible x : in_all (stackv p x) -> qp_feasible p x.
Proof.
  intros H. split; intros i Hi.
  - specialize (H i ltac:(lia)). unfold lbS, ubS, stackv in H. rewrite (proj2 (Nat.ltb_lt i (qm p))) in H by auto. auto.
  - specialize (H (qm p + i)%nat ltac:(lia)). unfold lbS, ubS, stackv in H.
    destruct (Nat.ltb_spec (qm p + i) (qm p)); [lia|]. replace (qm p + i - qm p)%nat with i in H by lia. auto.
Qed.

Lemma stack_dot v x : rsum mn (fun i => v i * stackv p x i) = rsum n (fun j => rsum mn (fun i => v i * S i j) * x j).
Proof.
  transitivity (rsum mn (fun i => rsum n (fun j => v i * S i j * x j))).
  - apply rsum_ext. intros i Hi. rewrite <- stacked_mv by auto. rewrite rmv_def, <- rsum_scal. apply rsum_ext. intros; ring.
  - rewrite rsum_swap. apply rsum_ext. intros j Hj. rewrite <- rsum_scal_r. reflexivity.
Qed.

(** ** infeasible problems *)
Definition urow (i : nat) : list row := match ubS p i with Fin u => [(S i, u)] | _ => [] end.
Definition lrow (i : nat) : list row := match lbS p i with Fin l => [(fun j => - S i j, - l)] | _ => [] end.
Definition prows : list row := flat_map (fun i => urow i ++ lrow i) (seq 0 mn).

Lemma sum_delta i z : (i < mn)%nat -> rsum mn (fun k => (if Nat.eqb k i then 1 else 0) * z k) = z i.
Proof.
  intros Hi. rewrite (rsum_ext mn _ (fun k => if Nat.eqb k i then z k else 0)) by (intros k _; destruct (Nat.eqb k i); ring).
  rewrite rsum_delta by auto. reflexivity.
Qed.

Lemma prows_cert a b : derives prows a b -> exists v, (forall j, (j < n)%nat -> a j = rsum mn (fun i => v i * S i j)) /\
  (forall z, in_all z -> rsum mn (fun i => v i * z i) <= b).
Proof.
  intros D. induction D as [a b Hin|a b a' b' D IH D' IH'|c a b Hcp D IH].
  - unfold prows in Hin. apply in_flat_map in Hin. destruct Hin as (i & Hi & Hin). apply in_seq in Hi.
    apply in_app_or in Hin. destruct Hin as [Hin|Hin].
    + unfold urow in Hin. destruct (ubS p i) as [u| |] eqn:E; try contradiction. destruct Hin as [Hin|[]]. injection Hin as <- <-.
      exists (fun k => if Nat.eqb k i then 1 else 0). split.
      * intros j Hj. rewrite (sum_delta i (fun k => S k j)) by lia. reflexivity.
      * intros z Hz. rewrite sum_delta by lia. destruct (Hz i ltac:(lia)) as [_ Hu]. rewrite E in Hu. exact Hu.
    + unfold lrow in Hin. destruct (lbS p i) as [l| |] eqn:E; try contradiction. destruct Hin as [Hin|[]]. injection Hin as <- <-.
      exists (fun k => (if Nat.eqb k i then 1 else 0) * -1). split.
      * intros j Hj. transitivity (rsum mn (fun k => (if Nat.eqb k i then 1 else 0) * (- S k j))).
        rewrite (sum_delta i (fun k => - S k j)) by lia. reflexivity. apply rsum_ext; intros; ring.
      * intros z Hz. rewrite (rsum_ext mn _ (fun k => (if Nat.eqb k i then 1 else 0) * (- z k))) by (intros; ring).
        rewrite (sum_delta i (fun k => - z k)) by lia. destruct (Hz i ltac:(lia)) as [Hl _]. rewrite E in Hl. simpl in Hl. lra.
  - destruct IH as (v & V1 & V2). destruct IH' as (v' & V1' & V2'). exists (fun i => v i + v' i). split.
    + intros j Hj. rewrite V1, V1' by auto. rewrite <- rsum_plus. apply rsum_ext; intros; ring.
    + intros z Hz. rewrite (rsum_ext mn _ (fun i => v i * z i + v' i * z i)) by (intros; ring). rewrite rsum_plus.
      specialize (V2 z Hz). specialize (V2' z Hz). lra.
  - destruct IH as (v & V1 & V2). exists (fun i => c * v i). split.
    + intros j Hj. rewrite V1 by auto. rewrite <- rsum_scal. apply rsum_ext; intros; ring.
    + intros z Hz. rewrite (rsum_ext mn _ (fun i => c * (v i * z i))) by (intros; ring). rewrite rsum_scal.
      specialize (V2 z Hz). nra.
Qed.

Lemma infeasible_cert : infeasible p -> exists v dl, farkas v dl.
Proof.
  intros HI. destruct (farkas_lemma n prows) as [(x & Hx)|(a & b & D & Z & N)].
  - exfalso. apply HI. exists x. apply in_all_feasible. intros i Hi.
    assert (Hrow : forall r, In r (urow i ++ lrow i) -> sat n x r).
    { intros r Hr. apply Hx. unfold prows. apply in_flat_map. exists i. split; [apply in_seq; lia|auto]. }
    rewrite <- stacked_mv by auto. rewrite rmv_def. split.
    + destruct (lb_kind i Hi) as [E|(l & E)]; rewrite E; simpl; auto.
      specialize (Hrow (fun j => - S i j, - l)). unfold sat in Hrow. cbn [fst snd] in Hrow.
      rewrite rdot_def in Hrow. rewrite (rsum_ext n _ (fun j => - (S i j * x j))) in Hrow by (intros; ring). rewrite rsum_opp in Hrow.
      assert (HH : - rsum n (fun j => S i j * x j) <= - l). { apply Hrow. apply in_or_app. right. unfold lrow. rewrite E. simpl; auto. }
      lra.
    + destruct (ub_kind i Hi) as [E|(u & E)]; rewrite E; simpl; auto.
      specialize (Hrow (S i, u)). unfold sat in Hrow. cbn [fst snd] in Hrow. rewrite rdot_def in Hrow. apply Hrow.
      apply in_or_app. left. unfold urow. rewrite E. simpl; auto.
  - destruct (prows_cert a b D) as (v & V1 & V2). exists v, (- b). split; [|split].
    + intros x. rewrite stack_dot. apply rsum_zero. intros j Hj. rewrite <- V1, Z by auto. ring.
    + intros z Hz. rewrite Ropp_involutive. auto.
    + lra.
Qed.

(** points inside the bounds stay away from the points A x, x *)
Lemma farkas_gap v dl x z e : farkas v dl -> in_all z -> 0 <= e -> (forall i, (i < mn)%nat -> Rabs (stackv p x i - z i) <= e) ->
  dl <= rnorm1 mn v * e.
Proof.
  intros (F1 & F2 & F3) Hz He H. specialize (F1 x). specialize (F2 z Hz).
  assert (E : rsum mn (fun i => v i * (stackv p x i - z i)) = rsum mn (fun i => v i * stackv p x i) - rsum mn (fun i => v i * z i)).
  { rewrite <- rsum_minus. apply rsum_ext; intros; ring. }
  assert (B : rsum mn (fun i => v i * (stackv p x i - z i)) <= rnorm1 mn v * e).
  { rewrite rnorm1_def, <- rsum_scal_r. apply rsum_le. intros i Hi. eapply Rle_trans; [apply Rle_abs|]. rewrite Rabs_mult.
    apply Rmult_le_compat_l; [apply Rabs_pos|auto]. }
  lra.
Qed.

Lemma cert_gap x y za zx ea ex ed v dl e : certificate p x y za zx ea ex ed -> farkas v dl -> ea <= e -> ex <= e -> 0 <= e ->
  dl <= rnorm1 mn v * e.
Proof.
  intros (C1 & C2 & _) F Ha Hx He.
  apply (farkas_gap v dl x (fun i => if Nat.ltb i (qm p) then za i else zx (i - qm p)%nat)); auto.
  - intros i Hi. unfold lbS, ubS. destruct (Nat.ltb_spec i (qm p)); [apply C1; auto|apply C2; lia].
  - intros i Hi. unfold stackv. destruct (Nat.ltb_spec i (qm p)).
    + eapply Rle_trans; [apply C1; auto|auto].
    + eapply Rle_trans; [apply C2; lia|auto].
Qed.

(** ** unbounded problems *)
Definition lagrow (j : nat) : vec R := fun k => if Nat.ltb k n then qH p j k else S (k - n)%nat j.
Definition unit_ (k : nat) (c : R) : vec R := fun l => if Nat.eqb l k then c else 0.
Definition srow (i : nat) : list row :=
  match ubS p i with PInf => [(unit_ (n + i) 1, 0)] | _ => [] end ++ match lbS p i with MInf => [(unit_ (n + i) (-1), 0)] | _ => [] end.
Definition drows : list row :=
  flat_map (fun j => [(lagrow j, - qh p j); ((fun k => - lagrow j k), qh p j)]) (seq 0 n) ++ flat_map srow (seq 0 mn).

Lemma unit_dot N k c w : (k < N)%nat -> rdot N (unit_ k c) w = c * w k.
Proof.
  intros Hk. rewrite rdot_def. unfold unit_. rewrite (rsum_ext N _ (fun l => if Nat.eqb l k then c * w l else 0)) by (intros l _; destruct (Nat.eqb l k); ring).
  rewrite rsum_delta by auto. reflexivity.
Qed.
Lemma stackv_lin d d' c c' i : stackv p (fun j => c * d j + c' * d' j) i = c * stackv p d i + c' * stackv p d' i.
Proof. unfold stackv. destruct (Nat.ltb i (qm p)); [|reflexivity]. rewrite rmv_plus, !rmv_scal. reflexivity. Qed.

Lemma drows_cert a b : derives drows a b -> exists d c, (forall k, (k < n)%nat -> a k = rsum n (fun j => d j * qH p j k)) /\
  (forall i, (i < mn)%nat -> a (n + i)%nat = stackv p d i + c i /\ (0 < c i -> ubS p i = PInf) /\ (c i < 0 -> lbS p i = MInf)) /\
  b = - rdot n (qh p) d.
Proof.
  intros D. induction D as [a b Hin|a b a' b' D IH D' IH'|t a b Ht D IH].
  - unfold drows in Hin. apply in_app_or in Hin. destruct Hin as [Hin|Hin]; apply in_flat_map in Hin; destruct Hin as (j & Hj & Hin); apply in_seq in Hj.
    + assert (G : forall c, (c = 1 \/ c = -1) -> (forall k, a k = c * lagrow j k) -> b = - (c * qh p j) -> exists d c, (forall k, (k < n)%nat -> a k = rsum n (fun j => d j * qH p j k)) /\
        (forall i, (i < mn)%nat -> a (n + i)%nat = stackv p d i + c i /\ (0 < c i -> ubS p i = PInf) /\ (c i < 0 -> lbS p i = MInf)) /\ b = - rdot n (qh p) d).
      { intros c _ Ea Eb. exists (unit_ j c), (fun _ => 0). split; [|split].
        - intros k Hk. rewrite Ea. unfold lagrow. rewrite (proj2 (Nat.ltb_lt k n)) by auto.
          transitivity (rdot n (unit_ j c) (fun l => qH p l k)); [rewrite unit_dot by lia; reflexivity|rewrite rdot_def; reflexivity].
        - intros i Hi. split; [|split; intros; lra]. rewrite Ea. unfold lagrow. destruct (Nat.ltb_spec (n + i) n); [lia|].
          replace (n + i - n)%nat with i by lia. rewrite <- stacked_mv by auto.
          transitivity (rdot n (unit_ j c) (S i) + 0); [rewrite unit_dot by lia; ring|]. rewrite rdot_comm. rewrite rdot_def, rmv_def. reflexivity.
        - rewrite Eb. f_equal. rewrite rdot_comm, unit_dot by lia. reflexivity. }
      destruct Hin as [Hin|[Hin|[]]]; injection Hin as <- <-; [apply (G 1)|apply (G (-1))]; auto; intros; ring.
    + assert (G : forall c, (0 < c -> ubS p j = PInf) -> (c < 0 -> lbS p j = MInf) -> a = unit_ (n + j) c -> b = 0 -> exists d c, (forall k, (k < n)%nat -> a k = rsum n (fun j => d j * qH p j k)) /\
        (forall i, (i < mn)%nat -> a (n + i)%nat = stackv p d i + c i /\ (0 < c i -> ubS p i = PInf) /\ (c i < 0 -> lbS p i = MInf)) /\ b = - rdot n (qh p) d).
      { intros c C1 C2 -> ->. exists (fun _ => 0), (unit_ j c). split; [|split].
        - intros k Hk. unfold unit_. replace (Nat.eqb k (n + j)) with false by (symmetry; apply Nat.eqb_neq; lia).
          symmetry. apply rsum_zero. intros; ring.
        - intros i Hi. assert (E0 : stackv p (fun _ => 0) i = 0).
          { rewrite <- stacked_mv by auto. rewrite rmv_def. apply rsum_zero. intros; ring. }
          rewrite E0. unfold unit_. destruct (Nat.eqb_spec i j) as [->|Hij].
          + rewrite Nat.eqb_refl. split; [ring|auto].
          + replace (Nat.eqb (n + i) (n + j)) with false by (symmetry; apply Nat.eqb_neq; lia). split; [ring|split; intros; lra].
        - rewrite rdot_def. rewrite rsum_zero by (intros; ring). ring. }
      unfold srow in Hin. apply in_app_or in Hin. destruct Hin as [Hin|Hin].
      * destruct (ubS p j) eqn:E; try contradiction. destruct Hin as [Hin|[]]. injection Hin as <- <-. apply (G 1); auto; intros; lra.
      * destruct (lbS p j) eqn:E; try contradiction. destruct Hin as [Hin|[]]. injection Hin as <- <-. apply (G (-1)); auto; intros; lra.
  - destruct IH as (d & c & V1 & V2 & V3). destruct IH' as (d' & c' & V1' & V2' & V3').
    exists (fun j => 1 * d j + 1 * d' j), (fun i => c i + c' i). split; [|split].
    + intros k Hk. rewrite V1, V1' by auto. rewrite <- rsum_plus. apply rsum_ext; intros; ring.
    + intros i Hi. destruct (V2 i Hi) as (E & P1 & P2). destruct (V2' i Hi) as (E' & P1' & P2'). rewrite stackv_lin. split; [lra|].
      split; intros; [destruct (Rlt_dec 0 (c i)); [auto|apply P1'; lra]|destruct (Rlt_dec (c i) 0); [auto|apply P2'; lra]].
    + rewrite V3, V3'. rewrite !rdot_def. rewrite <- !rsum_opp, <- rsum_plus. apply rsum_ext; intros; ring.
  - destruct IH as (d & c & V1 & V2 & V3). exists (fun j => t * d j + 0 * d j), (fun i => t * c i). split; [|split].
    + intros k Hk. rewrite V1 by auto. rewrite <- rsum_scal. apply rsum_ext; intros; ring.
    + intros i Hi. destruct (V2 i Hi) as (E & P1 & P2). rewrite stackv_lin. split; [rewrite E; ring|]. split; intros; [apply P1|apply P2]; nra.
    + rewrite V3. rewrite !rdot_def. rewrite <- !rsum_opp, <- rsum_scal. apply rsum_ext; intros; ring.
Qed.

(** a point with multipliers of the right sign that make the Lagrangian stationary bounds the cost from below *)
Lemma dual_bounds x y : symmetric n (qH p) -> psd n (qH p) -> (forall j, (j < n)%nat -> lag_grad p x y j = 0) ->
  (forall i, (i < mn)%nat -> (0 < y i -> ubS p i <> PInf) /\ (y i < 0 -> lbS p i <> MInf)) ->
  exists B, forall x', qp_feasible p x' -> B <= qp_obj p x'.
Proof.
  intros Hs Hp HL HY.
  pose (z := fun i => if Rlt_dec 0 (y i) then match ubS p i with Fin u => u | _ => 0 end else match lbS p i with Fin l => l | _ => 0 end).
  assert (Z : forall i, (i < mn)%nat -> sign_ok (lbS p i) (ubS p i) (z i) (y i)).
  { intros i Hi. destruct (HY i Hi) as [H1 H2]. unfold z. split; intros Hy.
    - destruct (Rlt_dec 0 (y i)); [|contradiction]. destruct (ub_kind i Hi) as [E|(u & E)]; [exfalso; apply H1; auto|rewrite E; reflexivity].
    - destruct (Rlt_dec 0 (y i)); [lra|]. destruct (lb_kind i Hi) as [E|(u & E)]; [exfalso; apply H2; auto|rewrite E; reflexivity]. }
  set (ep := rnorminf mn (fun i => stackv p x i - z i)).
  exists (qp_obj p x - ep * rnorm1 mn y). intros x' Hf.
  assert (K : qp_obj p x <= qp_obj p x' + 0 * rnorm1 n (fun j => x' j - x j) + ep * rnorm1 mn y).
  { apply approx_kkt_optimal with (za := z) (zx := fun j => z (qm p + j)%nat); auto.
    - intros i Hi. assert (U := rnorminf_ub mn (fun i => stackv p x i - z i) i ltac:(lia)). cbn beta in U. fold ep in U.
      unfold stackv in U. rewrite (proj2 (Nat.ltb_lt i (qm p))) in U by auto. exact U.
    - intros j Hj. assert (U := rnorminf_ub mn (fun i => stackv p x i - z i) (qm p + j)%nat ltac:(lia)). cbn beta in U. fold ep in U.
      unfold stackv in U. destruct (Nat.ltb_spec (qm p + j) (qm p)); [lia|]. replace (qm p + j - qm p)%nat with j in U by lia. exact U.
    - intros j Hj. rewrite HL by auto. rewrite Rabs_R0. lra.
    - intros i Hi. specialize (Z i ltac:(lia)). unfold lbS, ubS in Z. rewrite (proj2 (Nat.ltb_lt i (qm p))) in Z by auto. exact Z.
    - intros j Hj. specialize (Z (qm p + j)%nat ltac:(lia)). unfold lbS, ubS in Z.
      destruct (Nat.ltb_spec (qm p + j) (qm p)); [lia|]. replace (qm p + j - qm p)%nat with j in Z by lia. exact Z. }
  lra.
Qed.

Lemma unbounded_cert : symmetric n (qH p) -> psd n (qH p) -> unbounded_below p -> exists d, downhill d.
Proof.
  intros Hs Hp HU. destruct (farkas_lemma (n + mn) drows) as [(w & Hw)|(a & b & D & Z & N)].
  - exfalso.
    destruct (dual_bounds w (fun i => w (n + i)%nat) Hs Hp) as (B & HB).
    + intros j Hj.
      assert (E : rdot (n + mn) (lagrow j) w = rmv n (qH p) w j + (rsum (qm p) (fun i => qA p i j * w (n + i)%nat) + w (n + (qm p + j))%nat)).
      { rewrite rdot_def, rsum_split, rmv_def. rewrite <- (stacked_adj p (fun i => w (n + i)%nat)) by auto. unfold lagrow. f_equal; apply rsum_ext; intros i Hi.
        - rewrite (proj2 (Nat.ltb_lt i n)) by auto. reflexivity.
        - destruct (Nat.ltb_spec (n + i) n); [lia|]. replace (n + i - n)%nat with i by lia. reflexivity. }
      assert (R1 : sat (n + mn) w (lagrow j, - qh p j)).
      { apply Hw. unfold drows. apply in_or_app. left. apply in_flat_map. exists j. split; [apply in_seq; lia|simpl; auto]. }
      assert (R2 : sat (n + mn) w ((fun k => - lagrow j k), qh p j)).
      { apply Hw. unfold drows. apply in_or_app. left. apply in_flat_map. exists j. split; [apply in_seq; lia|simpl; auto]. }
      unfold sat in R1, R2. cbn [fst snd] in R1, R2.
      assert (E2 : rdot (n + mn) (fun k => - lagrow j k) w = - rdot (n + mn) (lagrow j) w).
      { rewrite !rdot_def. rewrite <- rsum_opp. apply rsum_ext; intros; ring. }
      unfold lag_grad. lra.
    + intros i Hi. assert (HS : forall r, In r (srow i) -> sat (n + mn) w r).
      { intros r Hr. apply Hw. unfold drows. apply in_or_app. right. apply in_flat_map. exists i. split; [apply in_seq; lia|auto]. }
      split; intros Hy E.
      * specialize (HS (unit_ (n + i) 1, 0)). unfold sat in HS. cbn [fst snd] in HS. rewrite unit_dot in HS by lia.
        assert (1 * w (n + i)%nat <= 0). { apply HS. unfold srow. rewrite E. simpl; auto. } lra.
      * specialize (HS (unit_ (n + i) (-1), 0)). unfold sat in HS. cbn [fst snd] in HS. rewrite unit_dot in HS by lia.
        assert (-1 * w (n + i)%nat <= 0). { apply HS. unfold srow. rewrite E. apply in_or_app. right. simpl; auto. } lra.
    + destruct (HU B) as (x & Hf & Hx). specialize (HB x Hf). lra.
  - destruct (drows_cert a b D) as (d & c & V1 & V2 & V3). exists (fun j => -1 * d j + 0 * d j). split; [|split].
    + intros i Hi. destruct (V2 i Hi) as (E & P1 & P2). rewrite Z in E by lia. rewrite stackv_lin.
      split; intros; [apply P1|apply P2]; lra.
    + intros x. rewrite rdot_def.
      transitivity (- rsum n (fun k => rsum n (fun j => d j * qH p j k) * x k)).
      * rewrite (rsum_ext n _ (fun j => - rsum n (fun k => d j * qH p j k * x k))).
        2: { intros j Hj. rewrite rmv_def. rewrite <- rsum_opp. rewrite <- rsum_scal_r. apply rsum_ext; intros; ring. }
        rewrite rsum_opp. f_equal. rewrite rsum_swap. apply rsum_ext. intros k Hk. rewrite <- rsum_scal_r. reflexivity.
      * rewrite rsum_zero; [ring|]. intros k Hk. rewrite <- V1, Z by lia. ring.
    + rewrite rdot_def in V3 |- *. rewrite (rsum_ext n _ (fun j => - (qh p j * d j))) by (intros; ring). rewrite rsum_opp. lra.
Qed.

Lemma recession_sign d y i z : recession d -> (i < mn)%nat -> sign_ok (lbS p i) (ubS p i) z (y i) -> y i * stackv p d i <= 0.
Proof.
  intros HR Hi [S1 S2]. destruct (HR i Hi) as [R1 R2].
  destruct (Rtotal_order (y i) 0) as [C|[C|C]]; [|rewrite C; lra|].
  - specialize (S2 C). destruct (Rlt_dec (stackv p d i) 0) as [F|F]; [rewrite (R2 F) in S2; discriminate|nra].
  - specialize (S1 C). destruct (Rlt_dec 0 (stackv p d i)) as [F|F]; [rewrite (R1 F) in S1; discriminate|nra].
Qed.

Lemma lag_dot x y d : rdot n (lag_grad p x y) d = rdot n (rmv n (qH p) x) d + rdot n (qh p) d + rsum mn (fun i => y i * stackv p d i).
Proof.
  rewrite stack_dot, !rdot_def, <- !rsum_plus. apply rsum_ext. intros j Hj. unfold lag_grad.
  rewrite (rsum_ext mn _ (fun i => S i j * y i)) by (intros; ring). rewrite stacked_adj by auto. ring.
Qed.

Lemma cert_dual_gap x y za zx ea ex ed d : certificate p x y za zx ea ex ed -> downhill d -> - rdot n (qh p) d <= rnorm1 n d * ed.
Proof.
  intros (C1 & C2 & C3) (D1 & D2 & D3). assert (E := lag_dot x y d). rewrite D2 in E.
  assert (N : rsum mn (fun i => y i * stackv p d i) <= 0).
  { replace 0 with (rsum mn (fun _ => 0)) by (apply rsum_zero; auto). apply rsum_le. intros i Hi.
    apply (recession_sign d y i (if Nat.ltb i (qm p) then za i else zx (i - qm p)%nat)); auto. unfold lbS, ubS.
    destruct (Nat.ltb_spec i (qm p)); [apply C1; auto|]. destruct (C2 (i - qm p)%nat ltac:(lia)) as (_ & _ & HH). replace (qm p + (i - qm p))%nat with i in HH by lia. exact HH. }
  assert (B : - rdot n (lag_grad p x y) d <= rnorm1 n d * ed).
  { rewrite rnorm1_def, rdot_def, <- rsum_opp, <- rsum_scal_r. apply rsum_le. intros j Hj. eapply Rle_trans; [apply Rle_abs|]. rewrite Rabs_Ropp, Rabs_mult, Rmult_comm.
    apply Rmult_le_compat_l; [apply Rabs_pos|auto]. }
  lra.
Qed.
End Qp.

(** ** neither solver reports SOLVED *)
Lemma admm_never lsolve full s p xg yg o o' : qp_consistent p -> 0 < rho0 s ->
  (forall x y za zx ea ex ed, certificate p x y za zx ea ex ed ->
     ea <= eps_abs s + eps_rel s * admm_prim_scale p x (fun i => if Nat.ltb i (qm p) then za i else zx (i - qm p)%nat) ->
     ex <= eps_abs s + eps_rel s * admm_prim_scale p x (fun i => if Nat.ltb i (qm p) then za i else zx (i - qm p)%nat) ->
     ed <= eps_abs s + eps_rel s * qp_dual_scale p x y -> False) ->
  admm_solve lsolve full s p xg yg o = Some o' -> a_status o' <> SOLVED.
Proof.
  intros Hc Hr H E Es. assert (C := solved_certificate lsolve full s p xg yg o o' Hc Hr E Es). cbv zeta in C.
  assert (Ez : admm_prim_scale p (a_x o') (fun i => if Nat.ltb i (qm p) then a_z o' i else a_z o' (qm p + (i - qm p))%nat) = admm_prim_scale p (a_x o') (a_z o')).
  { unfold admm_prim_scale. f_equal. apply Scal.norminf_ext. intros i Hi. destruct (Nat.ltb_spec i (qm p)); [reflexivity|f_equal; lia]. }
  eapply H; [exact C| | |]; cbv beta; try rewrite Ez; apply Rle_refl.
Qed.

Lemma box_never lsolve full s p xg yg o o' : qp_consistent p -> 0 < rho0 s ->
  (forall x y za zx ea ex ed, certificate p x y za zx ea ex ed ->
     0 <= ea -> 0 <= ex -> ea + ex <= eps_abs s + eps_rel s * box_prim_scale p x za ->
     ed <= eps_abs s + eps_rel s * qp_dual_scale p x y -> False) ->
  box_solve lsolve full s p xg yg o = Some o' -> b_status o' <> SOLVED.
Proof.
  intros Hc Hr H E Es. destruct (bsolved_certificate lsolve full s p xg yg o o' Hc Hr E Es) as (ea & ex & E1 & E2 & E3 & C).
  eapply H; [exact C|auto|auto|exact E3|apply Rle_refl].
Qed.

Definition never (p : qp_data R) (s : qp_settings R) : Prop := forall lsolve full xg yg,
  (forall o o', admm_solve lsolve full s p xg yg o = Some o' -> a_status o' <> SOLVED) /\
  (forall o o', box_solve lsolve full s p xg yg o = Some o' -> b_status o' <> SOLVED).

Lemma mult_small w d e : 0 <= w -> 0 < d -> 0 <= e -> e < d / (w + 1) -> w * e < d.
Proof.
  intros Hw Hd He H. apply (Rmult_lt_compat_r (w + 1)) in H; [|lra]. replace (d / (w + 1) * (w + 1)) with d in H by (field; lra). nra.
Qed.

Lemma infeasible_never p : qp_consistent p -> infeasible p ->
  exists e0, 0 < e0 /\ forall s, 0 < rho0 s -> eps_rel s = 0 -> eps_abs s < e0 -> never p s.
Proof.
  intros Hc HI. destruct (infeasible_cert p Hc HI) as (v & dl & F). pose proof F as (_ & _ & Hd).
  assert (Hw := rnorm1_nonneg (qm p + qn p) v). exists (dl / (rnorm1 (qm p + qn p) v + 1)).
  assert (P : 0 < dl / (rnorm1 (qm p + qn p) v + 1)) by (apply Rdiv_lt_0_compat; lra).
  split; [auto|]. intros s Hr Er Ea lsolve full xg yg.
  assert (G : forall x y za zx ea ex ed, certificate p x y za zx ea ex ed -> ea <= Rmax 0 (eps_abs s) -> ex <= Rmax 0 (eps_abs s) -> False).
  { intros x y za zx ea ex ed C H1 H2.
    assert (K := cert_gap p x y za zx ea ex ed v dl (Rmax 0 (eps_abs s)) C F H1 H2 (Rmax_l _ _)).
    assert (M := mult_small _ dl (Rmax 0 (eps_abs s)) Hw Hd (Rmax_l _ _) (Rmax_lub_lt _ _ _ P Ea)). lra. }
  split; intros o o'.
  - apply (admm_never lsolve full s p xg yg o o' Hc Hr). intros x y za zx ea ex ed C H1 H2 _. rewrite Er in H1, H2.
    assert (M := Rmax_r 0 (eps_abs s)). apply (G _ _ _ _ _ _ _ C); lra.
  - apply (box_never lsolve full s p xg yg o o' Hc Hr). intros x y za zx ea ex ed C H1 H2 H3 _. rewrite Er in H3.
    assert (M := Rmax_r 0 (eps_abs s)). apply (G _ _ _ _ _ _ _ C); lra.
Qed.

Lemma in_all_bound p : bounds_finite p -> exists Z, 0 <= Z /\ forall z, in_all p z -> rnorminf (qm p + qn p) z <= Z.
Proof.
  intros [F1 F2].
  pose (q := fun b : ext R => match b with Fin r => Rabs r | _ => 0 end).
  exists (rsum (qm p + qn p) (fun i => q (lbS p i) + q (ubS p i))).
  assert (Q : forall b, 0 <= q b) by (intros [r| |]; unfold q; try lra; apply Rabs_pos).
  assert (N : 0 <= rsum (qm p + qn p) (fun i => q (lbS p i) + q (ubS p i))).
  { apply rsum_nonneg. intros i _. assert (A := Q (lbS p i)). assert (B := Q (ubS p i)). lra. }
  split; [auto|]. intros z Hz. apply RSum.rnorminf_le; [auto|]. intros i Hi.
  assert (Hf : finite (lbS p i) /\ finite (ubS p i)) by (unfold lbS, ubS; destruct (Nat.ltb_spec i (qm p)); [auto|apply F2; lia]).
  apply Rle_trans with (q (lbS p i) + q (ubS p i)).
  - destruct Hf as [(l & El) (u & Eu)]. destruct (Hz i Hi) as [H1 H2]. rewrite El in H1. rewrite Eu in H2. rewrite El, Eu. simpl in *.
    unfold Rabs. repeat destruct (Rcase_abs _); lra.
  - assert (T : forall m, (i < m)%nat -> q (lbS p i) + q (ubS p i) <= rsum m (fun i => q (lbS p i) + q (ubS p i))).
    { induction m as [|m IH]; intros Hm; [lia|]. rewrite rsum_S. assert (A := Q (lbS p m)). assert (B := Q (ubS p m)).
      destruct (Nat.eq_dec i m) as [->|]; [|specialize (IH ltac:(lia)); lra].
      assert (0 <= rsum m (fun i => q (lbS p i) + q (ubS p i))) by (apply rsum_nonneg; intros k _; assert (A' := Q (lbS p k)); assert (B' := Q (ubS p k)); lra). lra. }
    auto.
Qed.

Lemma infeasible_never_rel p : qp_consistent p -> infeasible p -> bounds_finite p ->
  exists e0, 0 < e0 /\ forall s, 0 < rho0 s -> 0 <= eps_rel s < e0 -> eps_abs s < e0 -> never p s.
Proof.
  intros Hc HI Hb. destruct (infeasible_cert p Hc HI) as (v & dl & F). pose proof F as (_ & _ & Hd).
  destruct (in_all_bound p Hb) as (Z & HZ & BZ). set (w := rnorm1 (qm p + qn p) v).
  assert (Hw : 0 <= w) by apply rnorm1_nonneg. set (t := dl / (w + 1)).
  assert (Pt : 0 < t) by (apply Rdiv_lt_0_compat; lra). set (t' := t / (2 * (1 + Z))).
  assert (Pt' : 0 < t') by (apply Rdiv_lt_0_compat; lra).
  exists (Rmin (1/2) t'). split; [apply Rmin_glb_lt; lra|]. intros s Hr [Er0 Er] Ea lsolve full xg yg.
  assert (L1 := Rmin_l (1/2) t'). assert (L2 := Rmin_r (1/2) t').
  (* the tolerance at a reported solution *)
  assert (G : forall x y za zx ea ex ed e, certificate p x y za zx ea ex ed -> ea <= e -> ex <= e -> 0 <= e -> e <= Rmax 0 (eps_abs s + eps_rel s * (Z + e)) -> False).
  { intros x y za zx ea ex ed e C H1 H2 H3 H4.
    assert (K := cert_gap p x y za zx ea ex ed v dl e C F H1 H2 H3). fold w in K.
    assert (M : w * e < dl); [|lra]. apply mult_small; auto. fold t. unfold Rmax in H4. destruct (Rle_dec 0 _) in H4; [|lra].
    assert (A1 : eps_abs s < t') by lra. assert (A2 : eps_rel s < t') by lra. assert (A3 : eps_rel s < 1/2) by lra.
    assert (A4 : e <= 2 * (eps_abs s + eps_rel s * Z)) by nra.
    assert (A5 : eps_rel s * Z <= t' * Z) by (apply Rmult_le_compat_r; lra).
    assert (A6 : t = 2 * (t' + t' * Z)) by (unfold t'; field; lra). lra. }
  assert (Hz : forall x y za zx ea ex ed, certificate p x y za zx ea ex ed -> rnorminf (qm p + qn p) (fun i => if Nat.ltb i (qm p) then za i else zx (i - qm p)%nat) <= Z).
  { intros x y za zx ea ex ed (C1 & C2 & _). apply BZ. intros i Hi. unfold lbS, ubS. destruct (Nat.ltb_spec i (qm p)); [apply C1; auto|apply C2; lia]. }
  assert (Hax : forall x y za zx ea ex ed e, certificate p x y za zx ea ex ed -> ea <= e -> ex <= e -> 0 <= e ->
    rnorminf (qm p) (rmv (qn p) (qA p) x) <= Z + e /\ rnorminf (qn p) x <= Z + e /\ rnorminf (qm p) za <= Z).
  { intros x y za zx ea ex ed e C H1 H2 He. assert (Zz := Hz _ _ _ _ _ _ _ C). destruct C as (C1 & C2 & _).
    assert (U : forall i, (i < qm p + qn p)%nat -> Rabs (if Nat.ltb i (qm p) then za i else zx (i - qm p)%nat) <= Z).
    { intros i Hi. eapply Rle_trans; [|apply Zz]. apply (rnorminf_ub _ (fun i => if Nat.ltb i (qm p) then za i else zx (i - qm p)%nat)); auto. }
    split; [|split]; apply RSum.rnorminf_le; try lra; intros i Hi.
    - destruct (C1 i Hi) as (_ & A & _). specialize (U i ltac:(lia)). rewrite (proj2 (Nat.ltb_lt i (qm p))) in U by auto.
      assert (T := Rabs_triang (rmv (qn p) (qA p) x i - za i) (za i)). replace (rmv (qn p) (qA p) x i - za i + za i) with (rmv (qn p) (qA p) x i) in T by ring. lra.
    - destruct (C2 i Hi) as (_ & A & _). specialize (U (qm p + i)%nat ltac:(lia)). destruct (Nat.ltb_spec (qm p + i) (qm p)); [lia|]. replace (qm p + i - qm p)%nat with i in U by lia.
      assert (T := Rabs_triang (x i - zx i) (zx i)). replace (x i - zx i + zx i) with (x i) in T by ring. lra.
    - specialize (U i ltac:(lia)). rewrite (proj2 (Nat.ltb_lt i (qm p))) in U by auto. exact U. }
  split; intros o o'.
  - apply (admm_never lsolve full s p xg yg o o' Hc Hr). intros x y za zx ea ex ed C H1 H2 _.
    set (sc := admm_prim_scale p x (fun i => if Nat.ltb i (qm p) then za i else zx (i - qm p)%nat)) in *.
    set (e := Rmax 0 (eps_abs s + eps_rel s * sc)).
    assert (E0 : 0 <= e) by apply Rmax_l. assert (E1 : eps_abs s + eps_rel s * sc <= e) by apply Rmax_r.
    destruct (Hax _ _ _ _ _ _ _ e C) as (B1 & B2 & B3); try lra. assert (B4 := Hz _ _ _ _ _ _ _ C).
    assert (B : sc <= Z + e) by (unfold sc, admm_prim_scale; repeat apply Rmax_lub; lra).
    apply (G _ _ _ _ _ _ _ e C); try lra. unfold e at 1. apply Rmax_lub; [apply Rmax_l|]. eapply Rle_trans; [|apply Rmax_r]. nra.
  - apply (box_never lsolve full s p xg yg o o' Hc Hr). intros x y za zx ea ex ed C H1 H2 H3 _.
    set (sc := box_prim_scale p x za) in *.
    set (e := Rmax 0 (eps_abs s + eps_rel s * sc)).
    assert (E0 : 0 <= e) by apply Rmax_l. assert (E1 : eps_abs s + eps_rel s * sc <= e) by apply Rmax_r.
    destruct (Hax _ _ _ _ _ _ _ e C) as (B1 & B2 & B3); try lra.
    assert (B : sc <= Z + e) by (unfold sc, box_prim_scale; repeat apply Rmax_lub; lra).
    apply (G _ _ _ _ _ _ _ e C); try lra. unfold e at 1. apply Rmax_lub; [apply Rmax_l|]. eapply Rle_trans; [|apply Rmax_r]. nra.
Qed.

Lemma feasible_consistent p x : qp_feasible p x -> qp_consistent p.
Proof. intros [F1 F2]. split; intros; eexists; eauto. Qed.
Lemma unbounded_consistent p : unbounded_below p -> qp_consistent p.
Proof. intros H. destruct (H 0) as (x & Hf & _). eapply feasible_consistent; eauto. Qed.

Lemma unbounded_never p : symmetric (qn p) (qH p) -> psd (qn p) (qH p) -> unbounded_below p ->
  exists e0, 0 < e0 /\ forall s, 0 < rho0 s -> eps_rel s = 0 -> eps_abs s < e0 -> never p s.
Proof.
  intros Hs Hp HU. assert (Hc := unbounded_consistent p HU). destruct (unbounded_cert p Hc Hs Hp HU) as (d & D). pose proof D as (_ & _ & Hd).
  set (g := - rdot (qn p) (qh p) d). assert (Hg : 0 < g) by (unfold g; lra).
  assert (Hw := rnorm1_nonneg (qn p) d). exists (g / (rnorm1 (qn p) d + 1)).
  assert (P : 0 < g / (rnorm1 (qn p) d + 1)) by (apply Rdiv_lt_0_compat; lra).
  split; [auto|]. intros s Hr Er Ea lsolve full xg yg.
  assert (G : forall x y za zx ea ex ed, certificate p x y za zx ea ex ed -> ed <= eps_abs s -> False).
  { intros x y za zx ea ex ed C H1.
    assert (K := cert_dual_gap p x y za zx ea ex ed d C D). fold g in K.
    assert (M := mult_small _ g (Rmax 0 (eps_abs s)) Hw Hg (Rmax_l _ _) (Rmax_lub_lt _ _ _ P Ea)).
    assert (M' := Rmax_r 0 (eps_abs s)). assert (ed <= Rmax 0 (eps_abs s)) by lra. nra. }
  split; intros o o'.
  - apply (admm_never lsolve full s p xg yg o o' Hc Hr). intros x y za zx ea ex ed C _ _ H. rewrite Er in H. apply (G _ _ _ _ _ _ _ C); lra.
  - apply (box_never lsolve full s p xg yg o o' Hc Hr). intros x y za zx ea ex ed C _ _ _ H. rewrite Er in H. apply (G _ _ _ _ _ _ _ C); lra.
Qed.

(** ** what the iterates do instead *)
Section Run.
Variable lsolve : nat -> mat R -> vec R -> vec R.
Variable full : bool.
Hypothesis Hexact : exact_solver full lsolve.
Variables (s : qp_settings R) (p : qp_data R) (xg yg : vec R) (ob : admm_obj R).
Hypothesis Hc : qp_consistent p.
Hypothesis Hsym : symmetric (qn p) (qH p).
Hypothesis Hpsd : psd (qn p) (qH p).
Hypothesis Hsig : 0 < sigma s.
Hypothesis Hr0 : 0 < rho0 s.
Hypothesis Hal : 1 <= alpha s < 2.
Hypothesis Had : adaptive_rho s = false.
Notation body := (admm_body lsolve).
Notation init := (admm_setup full s p xg yg ob).
Notation mn := (qm p + qn p)%nat.
Notation n := (qn p).
Notation al := (alpha s).
Notation rho := (rho_fix s p).

Lemma rho_at k o : visits (body s p) (max_iter s) init k o -> forall i, (i < mn)%nat -> a_rho_vec o i = rho i.
Proof. intros Hv. apply (visits_rho_fix lsolve full s p xg yg ob Had k o Hv). Qed.
Lemma rpos_at k o : visits (body s p) (max_iter s) init k o -> forall i, (i < mn)%nat -> 0 < a_rho_vec o i /\ a_rho_inv o i = / a_rho_vec o i.
Proof. intros Hv. apply (visits_rho_pos lsolve full s p xg yg ob k o Hr0 Hv). Qed.

Lemma inside_at k o : visits (body s p) (max_iter s) init k o -> (2 <= k)%Z ->
  forall i, (i < mn)%nat -> in_bounds (lbS p i) (ubS p i) (a_z o i) /\ sign_ok (lbS p i) (ubS p i) (a_z o i) (a_y o i).
Proof.
  intros Hv Hk. inversion Hv as [|k0 o0 o1 Hv0 Hk0 Hb]; subst; [lia|].
  destruct (body_cont_xyz _ _ _ _ _ _ Hb) as (_ & Ey & Ez). rewrite Ey, Ez. intros i Hi.
  destruct (rpos_at _ _ Hv0 i Hi). apply update_normal; auto.
Qed.

Lemma visits_k k o : visits (body s p) (max_iter s) init k o -> (1 <= k)%Z.
Proof. induction 1; lia. Qed.
Lemma init_at : (forall j, (j < n)%nat -> a_x init j = xg j) /\ (forall i, (i < mn)%nat -> a_y init i = yg i) /\ (forall i, (i < mn)%nat -> a_z init i = stackv p xg i).
Proof. destruct (setup_at_pair full s p xg yg ob) as (Hx & Hy & Hz). auto. Qed.

Lemma mult_step v dl k o o' : farkas p v dl -> visits (body s p) (max_iter s) init k o -> body s p k o = Cont o' ->
  dl <= rsum mn (fun i => v i / rho i * (a_y o' i - a_y o i)).
Proof.
  intros (F1 & F2 & F3) Hv Hb. destruct (body_cont_xyz _ _ _ _ _ _ Hb) as (_ & Ey & _). rewrite Ey.
  set (u := admm_update lsolve s p o). assert (HR := rpos_at k o Hv).
  assert (E : rsum mn (fun i => v i / rho i * (a_y u i - a_y o i)) =
    al * rsum mn (fun i => v i * stackv p (tilde lsolve s p o) i) + (1 - al) * rsum mn (fun i => v i * a_z o i) - rsum mn (fun i => v i * a_z u i)).
  { rewrite <- !rsum_scal, <- rsum_plus, <- rsum_minus. apply rsum_ext. intros i Hi. unfold u at 1. rewrite update_y by auto.
    rewrite (relaxed_eq lsolve full Hexact s p o (visits_admm_inv _ _ _ _ _ _ _ _ _ Hv) Hsym Hpsd Hsig HR i Hi).
    destruct (HR i Hi) as [Hp _]. rewrite (rho_at k o Hv i Hi) in Hp |- *. fold u. field. lra. }
  rewrite E, F1.
  assert (B : rsum mn (fun i => v i * a_z u i) <= - dl).
  { apply F2. intros i Hi. destruct (HR i Hi). apply update_normal; auto. }
  assert (A : rsum mn (fun i => v i * a_z o i) <= 0).
  { assert (Hk := visits_k k o Hv). destruct (Z.eq_dec k 1) as [->|Hn].
    - inversion Hv as [|k0 o0 o1 Hv0 Hk0 Hb0 EE]; subst.
      + destruct init_at as (_ & _ & Iz). rewrite (rsum_ext mn _ (fun i => v i * stackv p xg i)) by (intros; rewrite Iz by auto; reflexivity). rewrite F1. lra.
      + apply visits_k in Hv0. lia.
    - assert (rsum mn (fun i => v i * a_z o i) <= - dl) by (apply F2; intros i Hi; apply (inside_at k o Hv); auto; lia). lra. }
  nra.
Qed.

Lemma mult_growth v dl k o : farkas p v dl -> visits (body s p) (max_iter s) init k o ->
  IZR (k - 1) * dl <= rsum mn (fun i => v i / rho i * (a_y o i - yg i)).
Proof.
  intros F Hv. induction Hv as [|k o o' Hv IH Hk Hb].
  - destruct init_at as (_ & Iy & _). rewrite rsum_zero by (intros; rewrite Iy by auto; ring). change (1 - 1)%Z with 0%Z. lra.
  - assert (St := mult_step v dl k o o' F Hv Hb). replace (k + 1 - 1)%Z with (k - 1 + 1)%Z by lia. rewrite plus_IZR.
    rewrite (rsum_ext mn _ (fun i => v i / rho i * (a_y o' i - a_y o i) + v i / rho i * (a_y o i - yg i))) by (intros; ring).
    rewrite rsum_plus. lra.
Qed.

Lemma sum_norm w f N : rsum N (fun i => w i * f i) <= rnorm1 N w * rnorminf N f.
Proof. assert (H := rdot_holder N f w). rewrite rdot_comm, rdot_def in H. assert (A := Rle_abs (rsum N (fun i => w i * f i))). rewrite Rmult_comm. lra. Qed.

Lemma mult_diverge v dl k o : farkas p v dl -> visits (body s p) (max_iter s) init k o ->
  dl / (rnorm1 mn (fun i => v i / rho i) + 1) * IZR (k - 1) - rnorminf mn yg <= rnorminf mn (a_y o).
Proof.
  intros F Hv. assert (G := mult_growth v dl k o F Hv). set (w := fun i => v i / rho i) in *.
  assert (W := rnorm1_nonneg mn w). assert (S1 := sum_norm w (a_y o) mn). assert (S2 := sum_norm w (fun i => - yg i) mn).
  assert (N1 := rnorminf_nonneg mn (a_y o)). assert (N2 := rnorminf_nonneg mn yg).
  assert (N3 : rnorminf mn (fun i => - yg i) <= rnorminf mn yg).
  { apply RSum.rnorminf_le; auto. intros i Hi. rewrite Rabs_Ropp. apply rnorminf_ub; auto. }
  assert (E : rsum mn (fun i => w i * (a_y o i - yg i)) = rsum mn (fun i => w i * a_y o i) + rsum mn (fun i => w i * - yg i)).
  { rewrite <- rsum_plus. apply rsum_ext; intros; ring. }
  change (rsum mn (fun i => v i / rho i * (a_y o i - yg i))) with (rsum mn (fun i => w i * (a_y o i - yg i))) in G. rewrite E in G.
  set (W1 := rnorm1 mn w) in *. set (Y := rnorminf mn (a_y o)) in *. set (Y0 := rnorminf mn yg) in *.
  assert (B : IZR (k - 1) * dl <= (W1 + 1) * (Y + Y0)) by nra.
  apply (Rmult_le_reg_l (W1 + 1)); [lra|].
  replace ((W1 + 1) * (dl / (W1 + 1) * IZR (k - 1) - Y0)) with (IZR (k - 1) * dl - (W1 + 1) * Y0) by (field; lra). lra.
Qed.

(** a quantity that grows along a direction of unboundedness *)
Definition along (d : vec R) (o : admm_obj R) : R := sigma s * rdot n d (a_x o) + rsum mn (fun i => rho i * stackv p d i * a_z o i).

Lemma along_step d k o o' : downhill p d -> visits (body s p) (max_iter s) init k o -> body s p k o = Cont o' ->
  along d o + al * - rdot n (qh p) d - (al - 1) * rsum mn (fun i => a_y o i * stackv p d i) <= along d o'.
Proof.
  intros (D1 & D2 & D3) Hv Hb. destruct (body_cont_xyz _ _ _ _ _ _ Hb) as (Ex & Ey & Ez). unfold along. rewrite Ex, Ez.
  set (u := admm_update lsolve s p o) in *. assert (HR := rpos_at k o Hv). assert (HI := visits_admm_inv _ _ _ _ _ _ _ _ _ Hv).
  set (xt := tilde lsolve s p o). set (nu := fun i => tilde lsolve s p o (n + i)%nat).
  assert (HL : forall j, (j < n)%nat -> lag_grad p xt nu j = - (sigma s * (xt j - a_x o j))).
  { intros j Hj. apply (r_lag lsolve full Hexact s p o HI Hsym Hpsd Hsig HR j Hj). }
  assert (L := lag_dot p xt nu d). rewrite D2 in L.
  assert (LL : rdot n (lag_grad p xt nu) d = - (sigma s * rsum n (fun j => (xt j - a_x o j) * d j))).
  { rewrite rdot_def, <- rsum_scal, <- rsum_opp. apply rsum_ext. intros j Hj. rewrite HL by auto. ring. }
  assert (X : rdot n d (a_x u) - rdot n d (a_x o) = al * rsum n (fun j => (xt j - a_x o j) * d j)).
  { rewrite !rdot_def, <- rsum_minus, <- rsum_scal. apply rsum_ext. intros j Hj. unfold u. rewrite (r_x lsolve s p o j) by auto. unfold xt. ring. }
  assert (NU : al * rsum mn (fun i => nu i * stackv p d i) = rsum mn (fun i => a_y u i * stackv p d i) + (al - 1) * rsum mn (fun i => a_y o i * stackv p d i)
     + (rsum mn (fun i => rho i * stackv p d i * a_z u i) - rsum mn (fun i => rho i * stackv p d i * a_z o i))).
  { rewrite <- !rsum_scal, <- rsum_minus, <- !rsum_plus. apply rsum_ext. intros i Hi.
    assert (E1 := r_nu lsolve full Hexact s p o HI Hsym Hpsd Hsig HR i Hi).
    assert (E2 := r_y lsolve full Hexact s p o HI Hsym Hpsd Hsig HR i Hi). fold u in E2.
    unfold nu. rewrite E1, E2. rewrite (rho_at k o Hv i Hi). fold xt. ring. }
  assert (Y : rsum mn (fun i => a_y u i * stackv p d i) <= 0).
  { replace 0 with (rsum mn (fun _ => 0)) by (apply rsum_zero; auto). apply rsum_le. intros i Hi.
    destruct (HR i Hi). apply (recession_sign p d (a_y u) i (a_z u i)); auto. apply update_normal; auto. }
  assert (L2 : al * rsum mn (fun i => nu i * stackv p d i) = - (sigma s * (rdot n d (a_x u) - rdot n d (a_x o))) - al * rdot n (qh p) d).
  { rewrite X. rewrite LL in L. nra. }
  lra.
Qed.

Lemma along_growth d k o : downhill p d -> visits (body s p) (max_iter s) init k o ->
  along d init + IZR (k - 1) * (al * - rdot n (qh p) d) - (al - 1) * Rabs (rsum mn (fun i => yg i * stackv p d i)) <= along d o.
Proof.
  intros D Hv. induction Hv as [|k o o' Hv IH Hk Hb].
  - change (1 - 1)%Z with 0%Z. assert (A := Rabs_pos (rsum mn (fun i => yg i * stackv p d i))). nra.
  - assert (St := along_step d k o o' D Hv Hb). replace (k + 1 - 1)%Z with (k - 1 + 1)%Z by lia. rewrite plus_IZR.
    assert (Hk1 := visits_k k o Hv). destruct (Z.eq_dec k 1) as [->|Hn].
    + inversion Hv as [|k0 o0 o1 Hv0 Hk0 Hb0 EE]; subst; [|apply visits_k in Hv0; lia].
      destruct init_at as (_ & Iy & _). rewrite (rsum_ext mn _ (fun i => yg i * stackv p d i)) in St by (intros; rewrite Iy by auto; reflexivity).
      assert (A := Rle_abs (rsum mn (fun i => yg i * stackv p d i))). change (1 - 1)%Z with 0%Z. nra.
    + assert (Y : rsum mn (fun i => a_y o i * stackv p d i) <= 0).
      { replace 0 with (rsum mn (fun _ => 0)) by (apply rsum_zero; auto). apply rsum_le. intros i Hi.
        destruct D as [D1 _]. apply (recession_sign p d (a_y o) i (a_z o i)); auto. apply (inside_at k o Hv); auto; lia. }
      nra.
Qed.

Lemma iter_diverge d : downhill p d -> exists c0, forall k o, visits (body s p) (max_iter s) init k o ->
  al * - rdot n (qh p) d / (sigma s * rnorm1 n d + rnorm1 mn (fun i => rho i * stackv p d i) + 1) * IZR (k - 1) - c0 <= Rmax (rnorminf n (a_x o)) (rnorminf mn (a_z o)).
Proof.
  intros D. set (W := sigma s * rnorm1 n d + rnorm1 mn (fun i => rho i * stackv p d i)).
  assert (N1 := rnorm1_nonneg n d). assert (N2 := rnorm1_nonneg mn (fun i => rho i * stackv p d i)).
  assert (HW : 0 <= W) by (unfold W; nra).
  set (k0 := (al - 1) * Rabs (rsum mn (fun i => yg i * stackv p d i)) - along d init).
  exists (k0 / (W + 1)). intros k o Hv. assert (G := along_growth d k o D Hv).
  set (X := rnorminf n (a_x o)). set (Z := rnorminf mn (a_z o)).
  assert (S1 := sum_norm d (a_x o) n). assert (S2 := sum_norm (fun i => rho i * stackv p d i) (a_z o) mn). fold X in S1. fold Z in S2.
  assert (X0 : 0 <= X) by apply rnorminf_nonneg. assert (M1 := Rmax_l X Z). assert (M2 := Rmax_r X Z). set (M := Rmax X Z) in *.
  assert (B : along d o <= (W + 1) * M).
  { unfold along. rewrite rdot_def. unfold W.
    assert (rsum n (fun i => d i * a_x o i) <= rnorm1 n d * M) by nra.
    assert (rsum mn (fun i => rho i * stackv p d i * a_z o i) <= rnorm1 mn (fun i => rho i * stackv p d i) * M) by nra. nra. }
  apply (Rmult_le_reg_l (W + 1)); [lra|].
  replace ((W + 1) * (al * - rdot n (qh p) d / (W + 1) * IZR (k - 1) - k0 / (W + 1))) with (IZR (k - 1) * (al * - rdot n (qh p) d) - k0) by (field; lra).
  unfold k0. lra.
Qed.
End Run.
