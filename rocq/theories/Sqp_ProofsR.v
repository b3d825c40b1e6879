(** SQP over the reals: violation measures, feasibility of iterates, descent, fixed points. *)
Require Import ZArith Reals Lra Lia List Bool.
Require Import Verif.Scal Verif.RSum Verif.Qp_Model Verif.Qp_Spec Verif.Sqp_Model Verif.Sqp_Spec Verif.Sqp_Proofs.
Import ListNotations.
Local Open Scope R_scope.

(** ** maximum violation *)
Definition ext_le (v : ext R) (e : R) : Prop :=
  match v with Fin u => u <= e | MInf => True | PInf => False end.

Lemma ext_leb_s_R : forall v e, ext_leb_s v e = true <-> ext_le v e.
Proof.
  intros [u| |] e; simpl; [apply Rleb_true| |]; split; intros; auto; try discriminate; contradiction.
Qed.

Lemma ext_isnan_R : forall v : ext R, ext_isnan v = false.
Proof. intros [u| |]; simpl; auto. apply isnan_R. Qed.

Lemma ext_fmax_le : forall c v e, ext_le (ext_fmax c v) e <-> ext_le c e /\ ext_le v e.
Proof.
  intros c v e. unfold ext_fmax. rewrite !ext_isnan_R.
  destruct c as [c| |], v as [v| |]; simpl; try tauto.
  destruct (Rltb c v) eqn:E; simpl.
  - apply Rltb_true in E. split; [|tauto]. intros; split; lra.
  - apply Rltb_false in E. split; [|tauto]. intros; split; lra.
Qed.

Lemma ext_fmax_Fin : forall a v, v <> PInf -> exists b, ext_fmax (Fin a) v = Fin b /\ a <= b.
Proof.
  intros a v Hv. unfold ext_fmax. rewrite !ext_isnan_R. destruct v as [v| |]; simpl; [|congruence|].
  - destruct (Rltb a v) eqn:E.
    + apply Rltb_true in E. exists v; split; auto; lra.
    + exists a; split; auto; lra.
  - exists a; split; auto; lra.
Qed.

Lemma ext_maxcoeff_le : forall n (f : nat -> ext R) e,
  ext_le (ext_maxcoeff n f) e <-> forall i, (i < n)%nat -> ext_le (f i) e.
Proof.
  induction n as [|n IH]; intros f e.
  - simpl. split; auto. intros; lia.
  - assert (Hs : (forall i, (i < S n)%nat -> ext_le (f i) e) <-> (forall i, (i < n)%nat -> ext_le (f i) e) /\ ext_le (f n) e).
    { split; [intros H; split; auto|]. intros [H1 H2] i Hi. destruct (Nat.eq_dec i n) as [->|]; auto. apply H1; lia. }
    rewrite Hs, <- IH. cbn [ext_maxcoeff].
    destruct n as [|n].
    + destruct (ext_ltb _ _); simpl; tauto.
    + destruct (ext_maxcoeff (S n) f) as [u| |] eqn:Eu, (f (S n)) as [v| |] eqn:Ev; simpl; try tauto.
      destruct (Rltb u v) eqn:E; simpl.
      * apply Rltb_true in E. split; [intros; split; lra|tauto].
      * apply Rltb_false in E. split; [intros; split; lra|tauto].
Qed.

Lemma ext_maxcoeff_noinf : forall n (f : nat -> ext R), (forall i, (i < n)%nat -> f i <> PInf) -> ext_maxcoeff n f <> PInf.
Proof.
  induction n as [|n IH]; intros f H; simpl; [discriminate|].
  destruct (ext_ltb _ _); [apply H; lia|]. destruct n; [apply H; lia|apply IH; intros; apply H; lia].
Qed.

Lemma ext_sub_le : forall lb t e, ext_le (ext_sub lb t) e <-> above_by e lb t.
Proof. intros [l| |] t e; simpl; tauto. Qed.
Lemma ext_rsub_le : forall ub t e, ext_le (ext_rsub t ub) e <-> below_by e ub t.
Proof. intros [l| |] t e; simpl; tauto. Qed.

Lemma max_violation_le : forall P x e, 0 <= e -> (ext_le (max_violation P x) e <-> within e P x).
Proof.
  intros P x e He. unfold max_violation.
  rewrite !ext_fmax_le, !ext_maxcoeff_le.
  assert (C0 : forall c : nat, ext_le (if Nat.ltb 0 (ne P) then Fin (norminf (ne P) (p_eq P x)) else Fin s0) e <->
     forall i, (i < ne P)%nat -> Rabs (p_eq P x i) <= e).
  { intros _. destruct (Nat.ltb_spec 0 (ne P)).
    - simpl. apply (rnorminf_le_iff (ne P) (p_eq P x) e He).
    - simpl. split; [intros; lia|intros; lra]. }
  specialize (C0 O).
  assert (CI : ext_le (if Nat.ltb 0 (ni P) then
       ext_fmax (ext_fmax (if Nat.ltb 0 (ne P) then Fin (norminf (ne P) (p_eq P x)) else Fin s0)
            (ext_maxcoeff (ni P) (fun i => ext_sub (lbg P i) (p_ineq P x i))))
            (ext_maxcoeff (ni P) (fun i => ext_rsub (p_ineq P x i) (ubg P i)))
       else if Nat.ltb 0 (ne P) then Fin (norminf (ne P) (p_eq P x)) else Fin s0) e <->
     (forall i, (i < ne P)%nat -> Rabs (p_eq P x i) <= e) /\
     (forall i, (i < ni P)%nat -> above_by e (lbg P i) (p_ineq P x i) /\ below_by e (ubg P i) (p_ineq P x i))).
  { destruct (Nat.ltb_spec 0 (ni P)).
    - rewrite !ext_fmax_le, !ext_maxcoeff_le, C0. split.
      + intros [[A B] C]. split; auto. intros i Hi. rewrite <- ext_sub_le, <- ext_rsub_le. auto.
      + intros [A B]. split; [split; auto|]; intros i Hi; rewrite ?ext_sub_le, ?ext_rsub_le; apply B; auto.
    - rewrite C0. split; [intros; split; auto; intros; lia|tauto]. }
  cbv zeta. rewrite CI. unfold within. split.
  - intros [[[A B] C] D]. split; auto. split; auto. intros j Hj. rewrite <- ext_sub_le, <- ext_rsub_le. auto.
  - intros (A & B & C). split; [split; [split; auto|]|]; intros j Hj; rewrite ?ext_sub_le, ?ext_rsub_le; apply C; auto.
Qed.

Lemma max_violation_Fin : forall P x, proper_bounds P -> exists v, max_violation P x = Fin v /\ 0 <= v.
Proof.
  intros P x [Hg Hx]. unfold max_violation.
  assert (Ls : forall lb t, lower_proper lb -> ext_sub lb t <> (PInf : ext R)).
  { intros [l| |] t H; simpl; congruence. }
  assert (Us : forall ub t, upper_proper ub -> ext_rsub t ub <> (PInf : ext R)).
  { intros [l| |] t H; simpl; congruence. }
  assert (C0 : exists v, (if Nat.ltb 0 (ne P) then Fin (norminf (ne P) (p_eq P x)) else Fin s0) = Fin v /\ 0 <= v).
  { destruct (Nat.ltb 0 (ne P)); eexists; split; try reflexivity; [apply rnorminf_nonneg|simpl; lra]. }
  destruct C0 as (v0 & -> & H0).
  assert (C1 : exists v, (if Nat.ltb 0 (ni P) then
       ext_fmax (ext_fmax (Fin v0) (ext_maxcoeff (ni P) (fun i => ext_sub (lbg P i) (p_ineq P x i))))
            (ext_maxcoeff (ni P) (fun i => ext_rsub (p_ineq P x i) (ubg P i))) else Fin v0) = Fin v /\ 0 <= v).
  { destruct (Nat.ltb 0 (ni P)); [|eauto].
    destruct (ext_fmax_Fin v0 (ext_maxcoeff (ni P) (fun i => ext_sub (lbg P i) (p_ineq P x i)))) as (v1 & -> & H1).
    { apply ext_maxcoeff_noinf. intros; apply Ls, Hg; auto. }
    destruct (ext_fmax_Fin v1 (ext_maxcoeff (ni P) (fun i => ext_rsub (p_ineq P x i) (ubg P i)))) as (v2 & -> & H2).
    { apply ext_maxcoeff_noinf. intros; apply Us, Hg; auto. }
    exists v2; split; auto; lra. }
  destruct C1 as (v1 & -> & H1). cbv zeta.
  destruct (ext_fmax_Fin v1 (ext_maxcoeff (nx P) (fun j => ext_sub (lbx P j) (x j)))) as (v2 & -> & H2).
  { apply ext_maxcoeff_noinf. intros; apply Ls, Hx; auto. }
  destruct (ext_fmax_Fin v2 (ext_maxcoeff (nx P) (fun j => ext_rsub (x j) (ubx P j)))) as (v3 & -> & H3).
  { apply ext_maxcoeff_noinf. intros; apply Us, Hx; auto. }
  exists v3; split; auto; lra.
Qed.

Lemma within_zero : forall P x, within 0 P x <-> nlp_feasible P x.
Proof.
  intros P x. unfold within, nlp_feasible.
  assert (A : forall c, Rabs c <= 0 <-> c = 0).
  { intros c; split; intros H; [|subst; rewrite Rabs_R0; lra].
    assert (Hp := Rabs_pos c). destruct (Req_dec c 0); auto. apply Rabs_pos_lt in H0. lra. }
  assert (B : forall lb ub t, above_by 0 lb t /\ below_by 0 ub t <-> in_bounds lb ub t).
  { intros [l| |] [u| |] t; unfold in_bounds; simpl; split; intros [H1 H2]; split; auto; lra. }
  split; intros (H1 & H2 & H3); (split; [|split]); intros; try (apply A; auto); try (apply B; auto).
Qed.

Lemma within_mono : forall e e' P x, e <= e' -> within e P x -> within e' P x.
Proof.
  intros e e' P x He (A & B & C).
  assert (L : forall lb t, above_by e lb t -> above_by e' lb t) by (intros [l| |] t; simpl; intros; auto; lra).
  assert (U : forall lb t, below_by e lb t -> below_by e' lb t) by (intros [l| |] t; simpl; intros; auto; lra).
  split; [|split].
  - intros i Hi. specialize (A i Hi). lra.
  - intros i Hi. destruct (B i Hi); split; auto.
  - intros i Hi. destruct (C i Hi); split; auto.
Qed.

(** ** l1 violation *)
Lemma viol_lo_R : forall lb t, 0 <= viol_lo lb t /\ (lower_proper lb -> forall e, 0 <= e -> (viol_lo lb t <= e <-> above_by e lb t)).
Proof.
  intros [l| |] t; simpl.
  - rewrite smax_R. split; [apply Rmax_r|]. intros _ e He. split; intros H.
    + eapply Rle_trans; [apply Rmax_l|exact H].
    + apply Rmax_lub; auto.
  - split; [lra|]. intros H; exfalso; apply H; auto.
  - split; [lra|]. intros; tauto.
Qed.
Lemma viol_up_R : forall ub t, 0 <= viol_up ub t /\ (upper_proper ub -> forall e, 0 <= e -> (viol_up ub t <= e <-> below_by e ub t)).
Proof.
  intros [l| |] t; simpl.
  - rewrite smax_R. split; [apply Rmax_r|]. intros _ e He. split; intros H.
    + eapply Rle_trans; [apply Rmax_l|exact H].
    + apply Rmax_lub; auto.
  - split; [lra|]. intros; tauto.
  - split; [lra|]. intros H; exfalso; apply H; auto.
Qed.

(** the part of the l1 violation above its base value *)
Definition l1_sum (P : problem R) (x : vec R) : R :=
  rsum (ne P) (fun i => Rabs (p_eq P x i)) +
  rsum (ni P) (fun i => viol_lo (lbg P i) (p_ineq P x i)) + rsum (ni P) (fun i => viol_up (ubg P i) (p_ineq P x i)) +
  rsum (nx P) (fun j => viol_lo (lbx P j) (x j)) + rsum (nx P) (fun j => viol_up (ubx P j) (x j)).

Lemma l1_violation_R : forall P x, l1_violation P x = sqp_eps + l1_sum P x.
Proof. intros. unfold l1_violation, l1_sum. simpl. unfold norm1. simpl. ring. Qed.

Lemma l1_parts : forall P x,
  (forall i, (i < ne P)%nat -> 0 <= Rabs (p_eq P x i)) /\
  0 <= rsum (ne P) (fun i => Rabs (p_eq P x i)) /\
  0 <= rsum (ni P) (fun i => viol_lo (lbg P i) (p_ineq P x i)) /\
  0 <= rsum (ni P) (fun i => viol_up (ubg P i) (p_ineq P x i)) /\
  0 <= rsum (nx P) (fun j => viol_lo (lbx P j) (x j)) /\
  0 <= rsum (nx P) (fun j => viol_up (ubx P j) (x j)).
Proof.
  intros. split; [intros; apply Rabs_pos|].
  repeat split; apply rsum_nonneg; intros; try apply Rabs_pos; try apply viol_lo_R; apply viol_up_R.
Qed.

Lemma l1_sum_nonneg : forall P x, 0 <= l1_sum P x.
Proof. intros. destruct (l1_parts P x) as (_ & A & B & C & D & E). unfold l1_sum. lra. Qed.

Lemma l1_within : forall P x, proper_bounds P -> within (l1_sum P x) P x.
Proof.
  intros P x [Hg Hx]. destruct (l1_parts P x) as (_ & A & B & C & D & E).
  assert (N := l1_sum_nonneg P x). unfold l1_sum in *.
  split; [|split].
  - intros i Hi. assert (T := rsum_nonneg_term (ne P) (fun i => Rabs (p_eq P x i)) i (fun j _ => Rabs_pos _) Hi).
    simpl in T. lra.
  - intros i Hi. split.
    + apply (viol_lo_R (lbg P i) (p_ineq P x i)); [apply Hg; auto|lra|].
      assert (T := rsum_nonneg_term (ni P) (fun i => viol_lo (lbg P i) (p_ineq P x i)) i (fun j _ => proj1 (viol_lo_R _ _)) Hi).
      cbv beta in T. lra.
    + apply (viol_up_R (ubg P i) (p_ineq P x i)); [apply Hg; auto|lra|].
      assert (T := rsum_nonneg_term (ni P) (fun i => viol_up (ubg P i) (p_ineq P x i)) i (fun j _ => proj1 (viol_up_R _ _)) Hi).
      cbv beta in T. lra.
  - intros i Hi. split.
    + apply (viol_lo_R (lbx P i) (x i)); [apply Hx; auto|lra|].
      assert (T := rsum_nonneg_term (nx P) (fun i => viol_lo (lbx P i) (x i)) i (fun j _ => proj1 (viol_lo_R _ _)) Hi).
      cbv beta in T. lra.
    + apply (viol_up_R (ubx P i) (x i)); [apply Hx; auto|lra|].
      assert (T := rsum_nonneg_term (nx P) (fun i => viol_up (ubx P i) (x i)) i (fun j _ => proj1 (viol_up_R _ _)) Hi).
      cbv beta in T. lra.
Qed.

Lemma l1_zero : forall P x, proper_bounds P -> (l1_sum P x = 0 <-> nlp_feasible P x).
Proof.
  intros P x HP. split.
  - intros E. apply within_zero. assert (W := l1_within P x HP). rewrite E in W. exact W.
  - intros F. destruct HP as [Hg Hx]. apply within_zero in F. destruct F as (A & B & C).
    unfold l1_sum.
    assert (Z0 : forall t, 0 <= t -> t <= 0 -> t = 0) by (intros; lra).
    rewrite !rsum_zero; [lra| | | | |]; intros i Hi; apply Z0; try apply viol_lo_R; try apply viol_up_R; try apply Rabs_pos;
      try (apply Hg; auto); try (apply Hx; auto); try lra; try (apply B; auto); try (apply C; auto); apply A; auto.
Qed.

(** ** step sizes *)
Lemma spow_range : forall t k, 0 <= t <= 1 -> 0 <= spow t k <= 1.
Proof.
  intros t k H. induction k as [|k IH]; simpl; [lra|]. split; [apply Rmult_le_pos; lra|].
  replace 1 with (1 * 1) by ring. apply Rmult_le_compat; lra.
Qed.
Lemma spow_pow : forall t k, spow t k = t ^ k.
Proof. induction k; simpl; auto. rewrite IHk; auto. Qed.
Lemma spow_nonneg : forall t k, 0 <= t -> 0 <= spow t k.
Proof. intros t k H. rewrite spow_pow. apply pow_le; auto. Qed.

Lemma rnorminf_scal : forall n c f, 0 <= c -> rnorminf n (fun i => c * f i) = c * rnorminf n f.
Proof.
  induction n as [|n IH]; intros c f Hc; [simpl; ring|].
  rewrite !rnorminf_S, IH by auto. rewrite Rabs_mult, (Rabs_right c) by lra.
  rewrite <- RmaxRmult by auto. reflexivity.
Qed.
Lemma rnorminf_ext : forall n f g, (forall i, (i < n)%nat -> f i = g i) -> rnorminf n f = rnorminf n g.
Proof. intros; apply norminf_ext; auto. Qed.

(** convexity of bounds *)
Lemma in_bounds_convex : forall lb ub (x p a : R), 0 <= a <= 1 ->
  in_bounds lb ub x -> in_bounds (ext_sub lb x) (ext_sub ub x) p -> in_bounds lb ub (x + a * p).
Proof.
  intros lb ub x p a Ha [H1 H2] [H3 H4].
  split.
  - destruct lb as [l| |]; simpl in *; auto.
    destruct (Rle_dec 0 p); [assert (0 <= a * p) by (apply Rmult_le_pos; lra); lra|].
    assert (a * (- p) <= 1 * (- p)) by (apply Rmult_le_compat_r; lra). lra.
  - destruct ub as [u| |]; simpl in *; auto.
    destruct (Rle_dec p 0); [assert (0 <= a * - p) by (apply Rmult_le_pos; lra); lra|].
    assert (a * p <= 1 * p) by (apply Rmult_le_compat_r; lra). lra.
Qed.

(** ** runs *)
Section Runs.
Variable P : problem R.
Notation row_value := (Sqp_Spec.row_value P). Notation row_lb := (Sqp_Spec.row_lb P).
Notation row_ub := (Sqp_Spec.row_ub P). Notation affine_row := (Sqp_Spec.affine_row P).
Variable st : sqp_settings R.
Variables Q W : Type.
Variable hupd : mat R -> vec R -> vec R -> mat R.
Variable hreg : mat R -> mat R.
Variable pc_compute : W -> qp_data R -> W * qp_data R.
Variable pc_unscale_sol : W -> vec R * vec R -> vec R * vec R.
Variable pc_unscale : W -> qp_data R -> qp_data R.
Variable qp_solve : Q -> qp_data R -> Q * (vec R * vec R * Z).
Variable qp_mark : Q -> Q.
Notation state := (@sqp_state R Q W).
Notation solve := (sqp_solve P st Q W hupd hreg pc_compute pc_unscale_sol pc_unscale qp_solve qp_mark).
Notation stepped := (stepped P st Q W).
Notation round_trip := (round_trip W pc_compute pc_unscale).
Notation nd := (ne P + ni P + nx P)%nat.

(** last step length, in terms of the iterates *)
Definition last_step (s : state) : Prop :=
  exists x lam x0 lam0 r, seen s = (x, lam) :: (x0, lam0) :: r /\ x = m_x s /\ lam = m_lam s /\
    m_primal_norm s = rnorminf (nx P) (fun j => x j - x0 j) /\
    m_dual_norm s = rnorminf nd (fun i => lam i - lam0 i).

Definition last_or_start (s : state) : Prop :=
  (exists r, seen s = (m_x s, m_lam s) :: r) /\ (steps s <> [] -> last_step s).

Lemma last_step_run : forall s, 0 <= tau st -> last_step (solve s).
Proof.
  intros s Ht.
  assert (G : forall (s s' : state) D d, (exists r, seen s = (m_x s, m_lam s) :: r) -> stepped D s s' d -> last_step s').
  { intros s0 s' D d (r & Hs) (p & lk & d2 & i & _ & _ & _ & _ & Hx & Hl & _ & Hpn & Hdn & _ & _ & _ & _ & Hseen & _).
    exists (m_x s'), (m_lam s'), (m_x s0), (m_lam s0), r.
    split; [rewrite Hseen, Hs; reflexivity|]. split; [reflexivity|]. split; [reflexivity|].
    assert (Ha := spow_nonneg (tau st) i Ht).
    split.
    - rewrite Hpn. etransitivity; [symmetry; apply (rnorminf_scal (nx P) (spow (tau st) i) p Ha)|].
      apply rnorminf_ext. intros j Hj. rewrite Hx, tab_spec by auto. simpl. ring.
    - rewrite Hdn. etransitivity; [symmetry; apply (rnorminf_scal nd (spow (tau st) i) _ Ha)|].
      apply rnorminf_ext. intros j Hj. rewrite Hl, !tab_spec by auto. simpl. ring. }
  apply (solve_inv3 P st Q W hupd hreg pc_compute pc_unscale_sol pc_unscale qp_solve qp_mark last_step).
  - intros s1 s2 (A1 & A2 & A3 & A4 & A5 & A6 & A7 & A8 & A9 & A10) (x & lam & x0 & lam0 & r & H).
    exists x, lam, x0, lam0, r. rewrite <- A9, <- A1, <- A2, <- A6, <- A7. exact H.
  - intros s1 s2 lagg h A b y _ Hst (x & lam & x0 & lam0 & r & Hs & -> & -> & _).
    eapply G; [|exact Hst]. rewrite Hs. eauto.
  - intros s' lagg H0 h b A _ Hst. eapply G; [|exact Hst]. exists []. reflexivity.
Qed.


Lemma box_run : forall s, 0 <= tau st <= 1 -> in_box P (m_x s) ->
  Forall step_in_box (steps (solve s)) ->
  Forall (fun e => in_box P (fst e)) (seen (solve s)) /\ in_box P (m_x (solve s)).
Proof.
  intros s Ht Hx.
  apply (solve_inv2 P st Q W hupd hreg pc_compute pc_unscale_sol pc_unscale qp_solve qp_mark
    (fun s => Forall step_in_box (steps s) -> Forall (fun e => in_box P (fst e)) (seen s) /\ in_box P (m_x s))).
  - intros s1 s2 (A1 & A2 & A3 & A4 & A5 & A6 & A7 & A8 & A9 & A10) H. rewrite <- A1, <- A9, <- A10. exact H.
  - intros s0 s' H h A b _ (p & lk & d2 & i & _ & _ & _ & _ & Hx' & _ & _ & _ & _ & _ & _ & _ & _ & Hseen & _ & Hsteps) IH.
    rewrite Hsteps, Hseen. intros HF. inversion HF as [|? ? Hb Hr]; subst.
    destruct (IH Hr) as [I1 I2].
    assert (B : in_box P (m_x s')).
    { intros j Hj. rewrite Hx', tab_spec by auto. apply in_bounds_convex; [apply spow_range; auto|apply I2; auto|].
      apply (Hb j Hj). }
    split; [constructor; auto|exact B].
  - intros _. split; [constructor; [exact Hx|constructor]|exact Hx].
Qed.




Lemma affine_run : forall s grad jac r, 0 <= tau st <= 1 -> (r < ne P + ni P)%nat ->
  linearised_by P grad jac -> affine_row r jac ->
  in_bounds (row_lb r) (row_ub r) (row_value r (m_x s)) ->
  Forall (step_meets_row r) (steps (solve s)) ->
  Forall (fun e => in_bounds (row_lb r) (row_ub r) (row_value r (fst e))) (seen (solve s)).
Proof.
  intros s grad jac r Ht Hr [L1 L2] (a & c & Haff) Hx HF.
  enough (E : Forall (fun e => in_bounds (row_lb r) (row_ub r) (row_value r (fst e))) (seen (solve s)) /\
              in_bounds (row_lb r) (row_ub r) (row_value r (m_x (solve s)))) by (apply E).
  revert HF.
  apply (solve_inv2 P st Q W hupd hreg pc_compute pc_unscale_sol pc_unscale qp_solve qp_mark
    (fun s => Forall (step_meets_row r) (steps s) ->
       Forall (fun e => in_bounds (row_lb r) (row_ub r) (row_value r (fst e))) (seen s) /\
       in_bounds (row_lb r) (row_ub r) (row_value r (m_x s)))).
  - intros s1 s2 (A1 & A2 & A3 & A4 & A5 & A6 & A7 & A8 & A9 & A10) H. rewrite <- A1, <- A9, <- A10. exact H.
  - intros s0 s' H h A b Hlin (p & lk & d2 & i & _ & _ & _ & _ & Hx' & _ & _ & _ & _ & _ & _ & _ & _ & Hseen & _ & Hsteps) IH.
    rewrite Hsteps, Hseen. intros HF. inversion HF as [|? ? Hb Hrest]; subst.
    destruct (IH Hrest) as [I1 I2].
    assert (HbA : b = constr_values P (m_x s0) /\ A = jac (m_x s0)).
    { destruct Hlin as [(lagg & H0 & E & _)|(lagg & y & E & _)].
      - destruct (L1 (m_x s0) (m_lam s0)) as (lagg' & H' & E'). rewrite E in E'. inversion E'; auto.
      - destruct (L2 (m_x s0) (m_lam s0)) as (lagg' & E'). rewrite E in E'. inversion E'; auto. }
    destruct HbA as [-> ->].
    assert (Hp : rmv (nx P) (jac (m_x s0)) p r = rdot (nx P) a p).
    { rewrite rmv_def, rdot_def. apply rsum_ext. intros j Hj. rewrite (proj2 (Haff _)) by auto. reflexivity. }
    assert (B : in_bounds (row_lb r) (row_ub r) (row_value r (m_x s'))).
    { rewrite (proj1 (Haff (m_x s'))).
      rewrite (rdot_ext (nx P) a (m_x s') a (fun j => m_x s0 j + spow (tau st) i * p j))
        by (intros; auto; rewrite Hx', tab_spec by auto; reflexivity).
      rewrite rdot_plus_r, rdot_scal_r.
      replace (rdot (nx P) a (m_x s0) + spow (tau st) i * rdot (nx P) a p + c)
        with (row_value r (m_x s0) + spow (tau st) i * rdot (nx P) a p)
        by (rewrite (proj1 (Haff (m_x s0))); ring).
      apply in_bounds_convex; [apply spow_range; auto|exact I2|].
      unfold step_meets_row in Hb. cbn [fst snd sub_qp qAlb qAub qA qn] in Hb. rewrite Hp in Hb.
      unfold Sqp_Spec.row_lb, Sqp_Spec.row_ub, Sqp_Spec.row_value, constr_values in *.
      destruct (Nat.ltb_spec r (ne P)).
      - simpl in Hb. simpl. destruct Hb as [Hb1 Hb2]; simpl in *. split; simpl; lra.
      - destruct Hb as [Hb1 Hb2].
        split; [destruct (lbg P (r - ne P)) as [l| |]|destruct (ubg P (r - ne P)) as [l| |]]; simpl in *; auto; lra. }
    split; [constructor; auto|exact B].
  - intros _. split; [constructor; [exact Hx|constructor]|exact Hx].
Qed.

End Runs.

(** ** the QP subproblem *)
Section Sub.
Variable P : problem R.

(** the subproblem is the linearisation of the NLP *)
Lemma sub_qp_feasible : forall H h A x p,
  qp_feasible (sub_qp P H h A (constr_values P x) x) p <->
  (forall i, (i < ne P)%nat -> p_eq P x i + rmv (nx P) A p i = 0) /\
  (forall i, (i < ni P)%nat -> in_bounds (lbg P i) (ubg P i) (p_ineq P x i + rmv (nx P) A p (ne P + i)%nat)) /\
  (forall j, (j < nx P)%nat -> in_bounds (lbx P j) (ubx P j) (x j + p j)).
Proof.
  intros. unfold qp_feasible. cbn [sub_qp qm qn qAlb qAub qA qxlb qxub].
  assert (B : forall lb ub (t q : R), in_bounds (ext_sub lb t) (ext_sub ub t) q <-> in_bounds lb ub (t + q)).
  { intros [l| |] [u| |] t q; unfold in_bounds; simpl; split; intros [H1 H2]; split; auto; lra. }
  assert (B2 : forall lb ub (t q : R), in_bounds (ext_add (sopp t) lb) (ext_add (sopp t) ub) q <-> in_bounds lb ub (t + q)).
  { intros [l| |] [u| |] t q; unfold in_bounds; simpl; split; intros [H1 H2]; split; auto; lra. }
  unfold constr_values. split.
  - intros [H1 H2]. split; [|split].
    + intros i Hi. specialize (H1 i ltac:(lia)). destruct (Nat.ltb_spec i (ne P)); [|lia].
      destruct H1 as [X Y]. simpl in X, Y. lra.
    + intros i Hi. specialize (H1 (ne P + i)%nat ltac:(lia)).
      destruct (Nat.ltb_spec (ne P + i) (ne P)); [lia|].
      replace (ne P + i - ne P)%nat with i in H1 by lia. apply B2 in H1. exact H1.
    + intros j Hj. apply B, H2; auto.
  - intros (H1 & H2 & H3). split.
    + intros i Hi. destruct (Nat.ltb_spec i (ne P)).
      * specialize (H1 i H0). split; simpl; lra.
      * apply B2. replace (rmv (nx P) A p i) with (rmv (nx P) A p (ne P + (i - ne P))%nat) by (f_equal; lia).
        apply H2; lia.
    + intros j Hj. apply B, H3; auto.
Qed.

Lemma rmv_zero : forall n A i, rmv n A (fun _ => 0) i = 0.
Proof. intros. rewrite rmv_def. apply rsum_zero. intros; ring. Qed.

Lemma sign_ok_shift : forall lb ub (t y : R), sign_ok (ext_sub lb t) (ext_sub ub t) 0 y <-> sign_ok lb ub t y.
Proof.
  intros [l| |] [u| |] t y; unfold sign_ok; simpl; split; intros [H1 H2]; split; intros Hy;
    try (specialize (H1 Hy)); try (specialize (H2 Hy)); try discriminate; f_equal;
    try (injection H1; lra); try (injection H2; lra).
Qed.
Lemma sign_ok_shift_add : forall lb ub (t y : R), sign_ok (ext_add (sopp t) lb) (ext_add (sopp t) ub) 0 y <-> sign_ok lb ub t y.
Proof.
  intros [l| |] [u| |] t y; unfold sign_ok; simpl; split; intros [H1 H2]; split; intros Hy;
    try (specialize (H1 Hy)); try (specialize (H2 Hy)); try discriminate; f_equal;
    try (injection H1; lra); try (injection H2; lra).
Qed.

(** a zero step solves the subproblem exactly when the point is optimal for the NLP *)
Lemma sub_qp_kkt : forall H h A x lam,
  kkt_pair (sub_qp P H h A (constr_values P x) x) (fun _ => 0) lam <-> nlp_kkt P h A x lam.
Proof.
  intros H h A x lam. unfold kkt_pair, nlp_kkt. rewrite sub_qp_feasible.
  cbn [sub_qp qm qn qAlb qAub qA qxlb qxub].
  assert (F : ((forall i, (i < ne P)%nat -> p_eq P x i + rmv (nx P) A (fun _ => 0) i = 0) /\
     (forall i, (i < ni P)%nat -> in_bounds (lbg P i) (ubg P i) (p_ineq P x i + rmv (nx P) A (fun _ => 0) (ne P + i)%nat)) /\
     (forall j, (j < nx P)%nat -> in_bounds (lbx P j) (ubx P j) (x j + 0))) <-> nlp_feasible P x).
  { unfold nlp_feasible. split; intros (H1 & H2 & H3); (split; [|split]); intros k Hk.
    - specialize (H1 k Hk). rewrite rmv_zero in H1. lra.
    - specialize (H2 k Hk). rewrite rmv_zero, Rplus_0_r in H2. exact H2.
    - specialize (H3 k Hk). rewrite Rplus_0_r in H3. exact H3.
    - rewrite rmv_zero, H1 by auto. ring.
    - rewrite rmv_zero, Rplus_0_r. auto.
    - rewrite Rplus_0_r. auto. }
  rewrite F. clear F.
  assert (Lg : forall j, lag_grad (sub_qp P H h A (constr_values P x) x) (fun _ => 0) lam j =
      h j + rsum (ne P + ni P) (fun i => A i j * lam i) + lam (ne P + ni P + j)%nat).
  { intros j. unfold lag_grad. cbn [sub_qp qm qn qH qh qA]. rewrite rmv_zero. ring. }
  split.
  - intros (K1 & K2 & K3 & K4). split; [exact K2|]. split; [|split].
    + intros j Hj. rewrite <- Lg. apply K1; auto.
    + intros i Hi. specialize (K3 (ne P + i)%nat ltac:(lia)).
      unfold constr_values in K3. destruct (Nat.ltb_spec (ne P + i) (ne P)); [lia|].
      replace (ne P + i - ne P)%nat with i in K3 by lia. rewrite rmv_zero in K3.
      exact (proj1 (sign_ok_shift_add _ _ _ _) K3).
    + intros j Hj. exact (proj1 (sign_ok_shift _ _ _ _) (K4 j Hj)).
  - intros (K2 & K1 & K3 & K4). split; [|split; [exact K2|split]].
    + intros j Hj. rewrite Lg. apply K1; auto.
    + intros i Hi. rewrite rmv_zero. unfold constr_values. destruct (Nat.ltb_spec i (ne P)) as [Hlt|Hge].
      * destruct K2 as (E & _). rewrite E by auto. unfold sign_ok. simpl. split; intros; f_equal; ring.
      * apply (proj2 (sign_ok_shift_add _ _ _ _)).
        assert (K := K3 (i - ne P)%nat ltac:(lia)). replace (ne P + (i - ne P))%nat with i in K by lia. exact K.
    + intros j Hj. exact (proj2 (sign_ok_shift _ _ _ _) (K4 j Hj)).
Qed.

(** ** descent *)
Lemma sub_qp_descent : forall H h A x p lam, proper_bounds P ->
  kkt_pair (sub_qp P H h A (constr_values P x) x) p lam ->
  rdot (nx P) h p <= - qf (nx P) H p + rnorminf (ne P + ni P + nx P) lam * l1_sum P x.
Proof.
  intros H h A x p lam [Pg Px] (K1 & K2 & K3 & K4).
  set (mu := rnorminf (ne P + ni P + nx P) lam). set (m := (ne P + ni P)%nat).
  assert (Hmu : 0 <= mu) by apply rnorminf_nonneg.
  assert (Hub : forall i, (i < ne P + ni P + nx P)%nat -> Rabs (lam i) <= mu) by (intros; apply rnorminf_ub; auto).
  apply sub_qp_feasible in K2. destruct K2 as (F1 & F2 & F3).
  cbn [sub_qp qm qn qAlb qAub qA qxlb qxub] in *.
  (* h.p from stationarity *)
  assert (E : rdot (nx P) h p = - qf (nx P) H p - rsum m (fun i => lam i * rmv (nx P) A p i)
                - rsum (nx P) (fun j => lam (m + j)%nat * p j)).
  { assert (Z : rsum (nx P) (fun j => lag_grad (sub_qp P H h A (constr_values P x) x) p lam j * p j) = 0).
    { apply rsum_zero. intros j Hj. rewrite K1 by auto. ring. }
    unfold lag_grad in Z. cbn [sub_qp qm qn qH qh qA] in Z. fold m in Z.
    rewrite (rsum_ext (nx P) _ (fun j => p j * rmv (nx P) H p j + h j * p j + p j * rsum m (fun i => A i j * lam i) + lam (m + j)%nat * p j)) in Z
      by (intros; ring).
    rewrite !rsum_plus in Z.
    assert (Sw : rsum (nx P) (fun j => p j * rsum m (fun i => A i j * lam i)) = rsum m (fun i => lam i * rmv (nx P) A p i)).
    { rewrite (rsum_ext (nx P) _ (fun j => rsum m (fun i => p j * (A i j * lam i)))) by (intros; rewrite rsum_scal; auto).
      rewrite rsum_swap. apply rsum_ext. intros i Hi. rewrite rmv_def, <- rsum_scal. apply rsum_ext. intros; ring. }
    rewrite Sw in Z. unfold qf. rewrite !rdot_def. lra. }
  rewrite E.
  (* bound the multiplier terms *)
  assert (B1 : - rsum m (fun i => lam i * rmv (nx P) A p i) <=
      mu * (rsum (ne P) (fun i => Rabs (p_eq P x i)) +
            rsum (ni P) (fun i => viol_lo (lbg P i) (p_ineq P x i)) + rsum (ni P) (fun i => viol_up (ubg P i) (p_ineq P x i)))).
  { unfold m.
    assert (C1 : rsum (ne P) (fun i => - (lam i * rmv (nx P) A p i)) <= mu * rsum (ne P) (fun i => Rabs (p_eq P x i))).
    { rewrite <- rsum_scal. apply rsum_le. intros i Hi. specialize (F1 i Hi).
      replace (- (lam i * rmv (nx P) A p i)) with (lam i * p_eq P x i) by (replace (rmv (nx P) A p i) with (- p_eq P x i) by lra; ring).
      eapply Rle_trans; [apply Rle_abs|]. rewrite Rabs_mult. apply Rmult_le_compat_r; [apply Rabs_pos|apply Hub; lia]. }
    assert (C2 : rsum (ni P) (fun i => - (lam (ne P + i)%nat * rmv (nx P) A p (ne P + i)%nat)) <=
        mu * rsum (ni P) (fun i => viol_lo (lbg P i) (p_ineq P x i) + viol_up (ubg P i) (p_ineq P x i))).
    { rewrite <- rsum_scal. apply rsum_le. intros i Hi.
      specialize (K3 (ne P + i)%nat ltac:(lia)). destruct K3 as [S1 S2].
      destruct (Nat.ltb_spec (ne P + i) (ne P)); [lia|].
      unfold constr_values in S1, S2.
      destruct (Nat.ltb_spec (ne P + i) (ne P)); [lia|].
      replace (ne P + i - ne P)%nat with i in * by lia.
      assert (Hl := Hub (ne P + i)%nat ltac:(lia)).
      set (l := lam (ne P + i)%nat) in *. set (v := rmv (nx P) A p (ne P + i)%nat) in *.
      set (g := p_ineq P x i) in *.
      assert (V1 := proj1 (viol_lo_R (lbg P i) g)). assert (V2 := proj1 (viol_up_R (ubg P i) g)).
      destruct (Rtotal_order l 0) as [Hn|[Hz|Hp]].
      - specialize (S2 Hn). destruct (lbg P i) as [lb| |]; simpl in S2; try discriminate.
        injection S2 as S2.
        assert (Hv : lb - g <= viol_lo (Fin lb) g) by (simpl; rewrite smax_R; apply Rmax_l).
        replace (- (l * v)) with ((- l) * (lb - g)) by (rewrite <- S2; ring).
        rewrite Rabs_left in Hl by auto.
        apply Rle_trans with (- l * viol_lo (Fin lb) g); [apply Rmult_le_compat_l; lra|].
        apply Rle_trans with (mu * viol_lo (Fin lb) g); [apply Rmult_le_compat_r; lra|].
        apply Rmult_le_compat_l; lra.
      - rewrite Hz. replace (- (0 * v)) with 0 by ring. apply Rmult_le_pos; lra.
      - specialize (S1 Hp). destruct (ubg P i) as [ub| |]; simpl in S1; try discriminate.
        injection S1 as S1.
        assert (Hv : g - ub <= viol_up (Fin ub) g) by (simpl; rewrite smax_R; apply Rmax_l).
        replace (- (l * v)) with (l * (g - ub)) by (rewrite <- S1; ring).
        rewrite Rabs_right in Hl by lra.
        apply Rle_trans with (l * viol_up (Fin ub) g); [apply Rmult_le_compat_l; lra|].
        apply Rle_trans with (mu * viol_up (Fin ub) g); [apply Rmult_le_compat_r; lra|].
        apply Rmult_le_compat_l; lra. }
    rewrite rsum_plus in C2. rewrite rsum_opp in C1, C2. rewrite rsum_split. lra. }
  assert (B2 : - rsum (nx P) (fun j => lam (m + j)%nat * p j) <=
      mu * (rsum (nx P) (fun j => viol_lo (lbx P j) (x j)) + rsum (nx P) (fun j => viol_up (ubx P j) (x j)))).
  { rewrite <- rsum_opp, <- rsum_plus, <- rsum_scal. apply rsum_le. intros i Hi.
    destruct (K4 i Hi) as [S1 S2]. fold m in S1, S2.
    assert (Hl := Hub (m + i)%nat ltac:(unfold m; lia)).
    set (l := lam (m + i)%nat) in *.
    assert (V1 := proj1 (viol_lo_R (lbx P i) (x i))). assert (V2 := proj1 (viol_up_R (ubx P i) (x i))).
    destruct (Rtotal_order l 0) as [Hn|[Hz|Hp]].
    - specialize (S2 Hn). destruct (lbx P i) as [lb| |]; simpl in S2; try discriminate.
      injection S2 as S2.
      assert (Hv : lb - x i <= viol_lo (Fin lb) (x i)) by (simpl; rewrite smax_R; apply Rmax_l).
      replace (- (l * p i)) with ((- l) * (lb - x i)) by (rewrite <- S2; ring).
      rewrite Rabs_left in Hl by auto.
      apply Rle_trans with (- l * viol_lo (Fin lb) (x i)); [apply Rmult_le_compat_l; lra|].
      apply Rle_trans with (mu * viol_lo (Fin lb) (x i)); [apply Rmult_le_compat_r; lra|].
      apply Rmult_le_compat_l; lra.
    - rewrite Hz. replace (- (0 * p i)) with 0 by ring. apply Rmult_le_pos; lra.
    - specialize (S1 Hp). destruct (ubx P i) as [ub| |]; simpl in S1; try discriminate.
      injection S1 as S1.
      assert (Hv : x i - ub <= viol_up (Fin ub) (x i)) by (simpl; rewrite smax_R; apply Rmax_l).
      replace (- (l * p i)) with (l * (x i - ub)) by (rewrite <- S1; ring).
      rewrite Rabs_right in Hl by lra.
      apply Rle_trans with (l * viol_up (Fin ub) (x i)); [apply Rmult_le_compat_l; lra|].
      apply Rle_trans with (mu * viol_up (Fin ub) (x i)); [apply Rmult_le_compat_r; lra|].
      apply Rmult_le_compat_l; lra. }
  unfold l1_sum. lra.
Qed.

End Sub.

(** ** uniqueness of the QP solution *)
Require Import Verif.Qp_Proofs.
Require Import FunctionalExtensionality.

Lemma kkt_unique : forall d x y x' y', posdef (qn d) (qH d) -> kkt_pair d x y -> kkt_pair d x' y' ->
  forall j, (j < qn d)%nat -> x j = x' j.
Proof.
  intros d x y x' y' Hpd (K1 & [F1 F1'] & S1 & B1) (K2 & [F2 F2'] & S2 & B2).
  set (v := fun j => x j - x' j).
  assert (Z1 : rdot (qn d) (lag_grad d x y) v = 0).
  { rewrite rdot_def. apply rsum_zero. intros; rewrite K1 by auto; ring. }
  assert (Z2 : rdot (qn d) (lag_grad d x' y') v = 0).
  { rewrite rdot_def. apply rsum_zero. intros; rewrite K2 by auto; ring. }
  rewrite lag_grad_dot in Z1, Z2.
  assert (Q : rdot (qn d) (rmv (qn d) (qH d) x) v - rdot (qn d) (rmv (qn d) (qH d) x') v = qf (qn d) (qH d) v).
  { rewrite <- rdot_minus_l. unfold qf. rewrite rdot_comm. apply rdot_ext; auto.
    intros j Hj. unfold v. rewrite rmv_minus. reflexivity. }
  assert (M1 : 0 <= rdot (qm d) y (rmv (qn d) (qA d) v) - rdot (qm d) y' (rmv (qn d) (qA d) v)).
  { rewrite <- rdot_minus_l, rdot_def. apply rsum_nonneg. intros i Hi. unfold v. rewrite rmv_minus.
    eapply sign_monotone; eauto. }
  assert (M2 : 0 <= rdot (qn d) (fun j => y (qm d + j)%nat) v - rdot (qn d) (fun j => y' (qm d + j)%nat) v).
  { rewrite <- rdot_minus_l, rdot_def. apply rsum_nonneg. intros j Hj. unfold v.
    eapply sign_monotone; eauto. }
  destruct (nonzero_dec (qn d) v) as [Hn|Hz].
  - specialize (Hpd v Hn). lra.
  - intros j Hj. specialize (Hz j Hj). unfold v in Hz. lra.
Qed.

(** ** starting at an optimal point *)
Section Fixed.
Variable P : problem R.
Variable st : sqp_settings R.
Variables Q W : Type.
Variable hupd : mat R -> vec R -> vec R -> mat R.
Variable hreg : mat R -> mat R.
Variable pc_compute : W -> qp_data R -> W * qp_data R.
Variable pc_unscale_sol : W -> vec R * vec R -> vec R * vec R.
Variable pc_unscale : W -> qp_data R -> qp_data R.
Variable qp_solve : Q -> qp_data R -> Q * (vec R * vec R * Z).
Variable qp_mark : Q -> Q.
Notation state := (@sqp_state R Q W).
Notation solve := (sqp_solve P st Q W hupd hreg pc_compute pc_unscale_sol pc_unscale qp_solve qp_mark).
Notation first := (sqp_first P st Q W hreg pc_compute pc_unscale_sol pc_unscale qp_solve qp_mark).
Notation nd := (ne P + ni P + nx P)%nat.


Lemma zero_step : forall grad jac H x lam p lk,
  nlp_kkt P (grad x) (jac x) x lam ->
  exact_step (sub_qp P H (grad x) (jac x) (constr_values P x) x, (p, lk)) ->
  forall j, (j < nx P)%nat -> p j = 0.
Proof.
  intros grad jac H x lam p lk HK [Hpd HE] j Hj. cbn [fst snd] in *.
  apply (sub_qp_kkt P H (grad x) (jac x) x lam) in HK.
  apply (kkt_unique _ _ _ _ _ Hpd HE HK j Hj).
Qed.

Lemma stay_run : forall s grad jac lam,
  linearised_by P grad jac -> (forall j, (nx P <= j)%nat -> m_x s j = 0) ->
  nlp_kkt P (grad (m_x s)) (jac (m_x s)) (m_x s) lam ->
  Forall exact_step (steps (solve s)) ->
  Forall (fun e => fst e = m_x s) (seen (solve s)) /\ m_x (solve s) = m_x s.
Proof.
  intros s grad jac lam [L1 L2] Hpad HK.
  apply (solve_inv2 P st Q W hupd hreg pc_compute pc_unscale_sol pc_unscale qp_solve qp_mark
    (fun s' => Forall exact_step (steps s') -> Forall (fun e => fst e = m_x s) (seen s') /\ m_x s' = m_x s)).
  - intros s1 s2 (A1 & A2 & A3 & A4 & A5 & A6 & A7 & A8 & A9 & A10) H. rewrite <- A1, <- A9, <- A10. exact H.
  - intros s0 s' H h A b Hlin (p & lk & d2 & i & _ & _ & _ & _ & Hx' & _ & _ & _ & _ & _ & _ & _ & _ & Hseen & _ & Hsteps) IH.
    rewrite Hsteps, Hseen. intros HF. inversion HF as [|? ? Hb Hrest]; subst.
    destruct (IH Hrest) as [I1 I2].
    assert (HbA : h = grad (m_x s0) /\ b = constr_values P (m_x s0) /\ A = jac (m_x s0)).
    { destruct Hlin as [(lagg & H0 & E & _)|(lagg & y & E & _)].
      - destruct (L1 (m_x s0) (m_lam s0)) as (lagg' & H' & E'). rewrite E in E'. inversion E'; auto.
      - destruct (L2 (m_x s0) (m_lam s0)) as (lagg' & E'). rewrite E in E'. inversion E'; auto. }
    destruct HbA as (-> & -> & ->). rewrite I2 in *.
    assert (Hp := zero_step grad jac H (m_x s) lam p lk HK Hb).
    assert (B : m_x s' = m_x s).
    { rewrite Hx'. apply functional_extensionality. intros j.
      destruct (Nat.lt_ge_cases j (nx P)) as [Hj|Hj].
      - rewrite tab_spec by auto. rewrite Hp by auto. simpl. ring.
      - rewrite Hpad by auto. unfold tab. rewrite nth_overflow; auto. rewrite map_length, seq_length. auto. }
    rewrite B. split; [constructor; auto|auto].
  - intros _. split; [constructor; [reflexivity|constructor]|reflexivity].
Qed.

Lemma rnorminf_zero : forall n f, (forall i, (i < n)%nat -> f i = 0) -> rnorminf n f = 0.
Proof.
  intros n f H. apply Rle_antisym; [|apply rnorminf_nonneg]. apply rnorminf_le; [lra|].
  intros i Hi. rewrite H by auto. rewrite Rabs_R0. lra.
Qed.

(** with unique multipliers the solver stops at once *)
Lemma stop_run : forall s grad jac,
  linearised_by P grad jac -> (forall j, (nx P <= j)%nat -> m_x s j = 0) ->
  nlp_kkt P (grad (m_x s)) (jac (m_x s)) (m_x s) (m_lam s) ->
  (forall lam, nlp_kkt P (grad (m_x s)) (jac (m_x s)) (m_x s) lam -> forall i, (i < nd)%nat -> lam i = m_lam s i) ->
  0 <= eps_prim st -> 0 <= eps_dual st ->
  Forall exact_step (steps (solve s)) ->
  m_status (solve s) = SqpSolved /\ m_iter (solve s) = 1%Z /\ m_x (solve s) = m_x s /\
  (forall i, (i < nd)%nat -> m_lam (solve s) i = m_lam s i).
Proof.
  intros s grad jac L Hpad HK Huniq He1 He2 HF.
  destruct L as [L1 L2].
  destruct (L1 (m_x s) (m_lam s)) as (lagg & H0 & E).
  (* the first step *)
  pose proof (step_spec P st Q W pc_compute pc_unscale_sol pc_unscale qp_solve qp_mark
                (start Q W s) lagg (hreg H0) (grad (m_x s)) (jac (m_x s)) (constr_values P (m_x s))) as Hstep.
  assert (Ef : first s = sqp_step P st Q W pc_compute pc_unscale_sol pc_unscale qp_solve qp_mark
                (start Q W s) lagg (hreg H0) (grad (m_x s)) (jac (m_x s)) (constr_values P (m_x s))).
  { unfold sqp_first. fold (start Q W s). change (m_x (start Q W s)) with (m_x s).
    change (m_lam (start Q W s)) with (m_lam s). rewrite E. reflexivity. }
  rewrite <- Ef in Hstep.
  change (m_x (start Q W s)) with (m_x s) in Hstep.
  destruct Hstep as (p & lk & d2 & i & _ & _ & _ & _ & Hx & Hl & _ & Hpn & Hdn & Hv & _ & _ & Hit & Hseen & _ & Hsteps).
  change (m_x (start Q W s)) with (m_x s) in *. change (m_lam (start Q W s)) with (m_lam s) in *.
  change (steps (start Q W s)) with (@nil (qp_data R * (vec R * vec R))) in *.
  (* the first step is the last entry of the trace *)
  assert (HE : exact_step (sub_qp P (hreg H0) (grad (m_x s)) (jac (m_x s)) (constr_values P (m_x s)) (m_x s), (p, lk))).
  { assert (Hlast : exists l, steps (solve s) = l ++ steps (first s)).
    { apply (solve_inv P st Q W hupd hreg pc_compute pc_unscale_sol pc_unscale qp_solve qp_mark
               (fun s' => exists l, steps s' = l ++ steps (first s))).
      - intros s1 s2 (A1 & A2 & A3 & A4 & A5 & A6 & A7 & A8 & A9 & A10) H. rewrite <- A10. exact H.
      - intros s0 lg h b A (l & Hl0) _.
        match goal with |- exists l, steps (sqp_step _ _ _ _ _ _ _ _ ?mk ?s1 ?lg ?H ?h ?A ?b) = _ =>
          destruct (step_spec P st Q W pc_compute pc_unscale_sol pc_unscale qp_solve mk s1 lg H h A b)
            as (p1 & lk1 & d3 & i1 & _ & _ & _ & _ & _ & _ & _ & _ & _ & _ & _ & _ & _ & _ & _ & Hst1) end.
        rewrite Hst1, Hl0. eexists (_ :: l). reflexivity.
      - exists []. reflexivity. }
    destruct Hlast as (l & Hl0). rewrite Hl0, Hsteps in HF. apply Forall_app in HF. destruct HF as [_ HF].
    inversion HF; auto. }
  assert (Hp := zero_step grad jac (hreg H0) (m_x s) (m_lam s) p lk HK HE).
  assert (Hlk : forall i, (i < nd)%nat -> lk i = m_lam s i).
  { apply Huniq. apply (sub_qp_kkt P (hreg H0) (grad (m_x s)) (jac (m_x s)) (m_x s) lk).
    destruct HE as [_ HE]. cbn [fst snd] in HE.
    (* replace p by the zero vector *)
    destruct HE as (K1 & [K2 K2'] & K3 & K4).
    assert (Rp : forall A i, rmv (nx P) A p i = rmv (nx P) A (fun _ => 0) i) by (intros; apply rmv_ext; auto).
    cbn [sub_qp qm qn qAlb qAub qA qxlb qxub qH qh] in *.
    split; [|split; [split|split]].
    - intros j Hj. specialize (K1 j Hj). unfold lag_grad in *. cbn [sub_qp qm qn qH qh qA] in *.
      rewrite <- Rp. exact K1.
    - intros k Hk. cbn [sub_qp qm qn qAlb qAub qA qxlb qxub qH qh] in *. rewrite <- Rp. apply K2; auto.
    - intros j Hj. cbn [sub_qp qm qn qAlb qAub qA qxlb qxub qH qh] in *. rewrite <- (Hp j) by auto. apply K2'; auto.
    - intros k Hk. cbn [sub_qp qm qn qAlb qAub qA qxlb qxub qH qh] in *. rewrite <- Rp. apply K3; auto.
    - intros j Hj. cbn [sub_qp qm qn qAlb qAub qA qxlb qxub qH qh] in *. rewrite <- (Hp j) at 1 by auto. apply K4; auto. }
  assert (Bx : m_x (first s) = m_x s).
  { rewrite Hx. apply functional_extensionality. intros j.
    destruct (Nat.lt_ge_cases j (nx P)) as [Hj|Hj].
    - rewrite tab_spec by auto. rewrite Hp by auto. simpl. ring.
    - rewrite Hpad by auto. unfold tab. rewrite nth_overflow; auto. rewrite map_length, seq_length. auto. }
  assert (Ht : terminated st Q W (first s) = true).
  { unfold terminated, termination. rewrite Hpn, Hdn, Hv, Bx.
    assert (N1 : norminf (nx P) p = 0) by (apply rnorminf_zero; auto).
    assert (N2 : norminf nd (tab nd (fun i => ssub (lk i) (m_lam s i))) = 0).
    { apply rnorminf_zero. intros k Hk. rewrite tab_spec by auto. rewrite Hlk by auto. simpl. ring. }
    rewrite N1, N2. rewrite !andb_true_iff. simpl. rewrite !Rleb_true.
    split; [split; rewrite Rmult_0_r; auto|]. apply ext_leb_s_R. apply max_violation_le; auto.
    apply within_mono with 0; auto. apply within_zero. apply HK. }
  assert (Es : solve s = set_status Q W SqpSolved (first s)) by (unfold sqp_solve; rewrite Ht; reflexivity).
  rewrite Es. split; [reflexivity|]. split; [exact Hit|]. split; [exact Bx|].
  intros k Hk. change (m_lam (first s) k = m_lam s k). rewrite Hl, !tab_spec by auto. rewrite Hlk by auto. simpl. ring.
Qed.

End Fixed.

(** ** the last step in detail *)
Section Last.
Variable P : problem R.
Variable st : sqp_settings R.
Variables Q W : Type.
Variable hupd : mat R -> vec R -> vec R -> mat R.
Variable hreg : mat R -> mat R.
Variable pc_compute : W -> qp_data R -> W * qp_data R.
Variable pc_unscale_sol : W -> vec R * vec R -> vec R * vec R.
Variable pc_unscale : W -> qp_data R -> qp_data R.
Variable qp_solve : Q -> qp_data R -> Q * (vec R * vec R * Z).
Variable qp_mark : Q -> Q.
Notation state := (@sqp_state R Q W).
Notation solve := (sqp_solve P st Q W hupd hreg pc_compute pc_unscale_sol pc_unscale qp_solve qp_mark).
Notation nd := (ne P + ni P + nx P)%nat.

Definition last_detail grad jac (s : state) : Prop :=
  exists x0 lam0 r H p lk rs k, seen s = (m_x s, m_lam s) :: (x0, lam0) :: r /\
    steps s = (sub_qp P H (grad x0) (jac x0) (constr_values P x0) x0, (p, lk)) :: rs /\
    m_primal_norm s = spow (tau st) k * rnorminf (nx P) p /\
    (forall j, (j < nx P)%nat -> m_x s j = x0 j + spow (tau st) k * p j) /\
    (forall i, (i < nd)%nat -> m_lam s i = lam0 i + spow (tau st) k * (lk i - lam0 i)) /\
    (k <= ls_budget st)%nat /\
    ((k < ls_budget st)%nat -> m_cost s = p_cost P (m_x s)).

Lemma last_detail_run : forall s grad jac, linearised_by P grad jac -> last_detail grad jac (solve s).
Proof.
  intros s grad jac [L1 L2].
  assert (G : forall (s s' : state) H, (exists r, seen s = (m_x s, m_lam s) :: r) ->
     let d := sub_qp P H (grad (m_x s)) (jac (m_x s)) (constr_values P (m_x s)) (m_x s) in
     stepped P st Q W (round_trip W pc_compute pc_unscale d) s s' d -> last_detail grad jac s').
  { intros s0 s' H (r & Hs) d (p & lk & d2 & i & _ & Hi & _ & Hacc & Hx & Hl & _ & Hpn & Hdn & _ & _ & _ & _ & Hseen & _ & Hst).
    exists (m_x s0), (m_lam s0), r, H, p, lk, (steps s0), i.
    split; [rewrite Hseen, Hs; reflexivity|]. split; [exact Hst|]. split; [exact Hpn|]. split; [|split; [|split; [exact Hi|]]].
    - intros j Hj. rewrite Hx, tab_spec by auto. reflexivity.
    - intros j Hj. rewrite Hl, !tab_spec by auto. reflexivity.
    - intros Hlt. destruct (Hacc Hlt) as [_ ->]. f_equal. rewrite Hx. unfold trial_point, tab.
      replace (map (fun j => sadd (m_x s0 j) (smul (spow (tau st) i) (p j))) (seq 0 (nx P)))
        with (map (fun j => sadd (smul (spow (tau st) i) (p j)) (m_x s0 j)) (seq 0 (nx P))); auto.
      apply map_ext. intros j. simpl. ring. }
  apply (solve_inv3 P st Q W hupd hreg pc_compute pc_unscale_sol pc_unscale qp_solve qp_mark (last_detail grad jac)).
  - intros s1 s2 (A1 & A2 & A3 & A4 & A5 & A6 & A7 & A8 & A9 & A10) H.
    unfold last_detail in *. rewrite <- A1, <- A2, <- A6, <- A8, <- A9, <- A10. exact H.
  - intros s1 s2 lagg h A b y E Hst (x0 & lam0 & r & H & p & lk & rs & k & Hs & _).
    destruct (L2 (m_x s1) (m_lam s1)) as (lagg' & E'). rewrite E in E'. inversion E'; subst.
    eapply G; [|exact Hst]. rewrite Hs. eauto.
  - intros s' lagg H0 h b A E Hst.
    destruct (L1 (m_x s) (m_lam s)) as (lagg' & H' & E'). rewrite E in E'. inversion E'; subst.
    apply (G (start Q W s) s' (hreg H')); [exists []; reflexivity|exact Hst].
Qed.

(** stationarity after a full step from an exactly solved QP *)
Lemma full_step_stationary : forall (s : state) grad jac x0 H p lk e,
  kkt_pair (sub_qp P H (grad x0) (jac x0) (constr_values P x0) x0) p lk ->
  rnorminf (nx P) p <= e ->
  forall j, (j < nx P)%nat ->
  Rabs (grad x0 j + rsum (ne P + ni P) (fun i => jac x0 i j * lk i) + lk (ne P + ni P + j)%nat)
    <= rsum (nx P) (fun k => Rabs (H j k)) * e.
Proof.
  intros s grad jac x0 H p lk e (K & _) He j Hj. specialize (K j Hj).
  unfold lag_grad in K. cbn [sub_qp qm qn qH qh qA] in K.
  replace (grad x0 j + rsum (ne P + ni P) (fun i => jac x0 i j * lk i) + lk (ne P + ni P + j)%nat)
    with (- rmv (nx P) H p j) by lra.
  rewrite Rabs_Ropp, rmv_def. eapply Rle_trans; [apply rsum_abs|].
  rewrite <- rsum_scal_r. apply rsum_le. intros k Hk. rewrite Rabs_mult.
  apply Rmult_le_compat_l; [apply Rabs_pos|]. eapply Rle_trans; [apply rnorminf_ub; exact Hk|exact He].
Qed.

End Last.

Lemma l1_sum_total : forall P x, l1_sum P x = total_violation P x.
Proof.
  intros P x. unfold l1_sum, total_violation. rewrite !rsum_plus.
  assert (L : forall lb t, viol_lo lb t = excess_lo lb t).
  { intros [l| |] t; auto. unfold viol_lo, excess_lo. rewrite smax_R. apply Rmax_comm. }
  assert (U : forall ub t, viol_up ub t = excess_up ub t).
  { intros [l| |] t; auto. unfold viol_up, excess_up. rewrite smax_R. apply Rmax_comm. }
  rewrite (rsum_ext (ni P) (fun i => viol_lo _ _) (fun i => excess_lo (lbg P i) (p_ineq P x i))) by auto.
  rewrite (rsum_ext (ni P) (fun i => viol_up _ _) (fun i => excess_up (ubg P i) (p_ineq P x i))) by auto.
  rewrite (rsum_ext (nx P) (fun i => viol_lo _ _) (fun i => excess_lo (lbx P i) (x i))) by auto.
  rewrite (rsum_ext (nx P) (fun i => viol_up _ _) (fun i => excess_up (ubx P i) (x i))) by auto.
  lra.
Qed.

Lemma trial_along : forall P x p a, trial_point P x p a = along P x p a.
Proof.
  intros. unfold trial_point, along, tab.
  replace (map (fun j => sadd (smul a (p j)) (x j)) (seq 0 (nx P)))
    with (map (fun j => x j + a * p j) (seq 0 (nx P))); auto.
  apply map_ext. intros j. simpl. ring.
Qed.

Lemma accept_R : forall P st x p h mu a,
  accept P st x p mu (p_cost P x + mu * l1_violation P x) (rdot (nx P) h p - mu * l1_violation P x) a = true <->
  merit P mu (along P x p a) <= merit P mu x + a * eta st * (rdot (nx P) h p - mu * (sqp_eps + total_violation P x)).
Proof.
  intros. unfold accept. rewrite trial_along, !l1_violation_R, !l1_sum_total. unfold merit.
  change (@sleb R R_scalar) with Rleb. cbn [sadd smul R_scalar]. rewrite Rleb_true. lra.
Qed.

Lemma line_search_R : forall (P : problem R) st x p h lamk cost,
  let '(a, c, e) := step_size_selection P st x p h lamk cost in
  let mu := rnorminf (ne P + ni P + nx P) lamk in
  let armijo t := merit P mu (along P x p t) <=
     merit P mu x + t * eta st * (rdot (nx P) h p - mu * (sqp_eps + total_violation P x)) in
  exists k, (k <= Z.to_nat (ls_max_iter st - 1))%nat /\ a = tau st ^ k /\
    (e <= Z.to_nat (ls_max_iter st - 1))%nat /\
    (forall j, (j < k)%nat -> ~ armijo (tau st ^ j)) /\
    ((k < Z.to_nat (ls_max_iter st - 1))%nat -> armijo (tau st ^ k)).
Proof.
  intros P st x p h lamk cost. unfold step_size_selection.
  change (@norminf R R_scalar) with rnorminf. change (@dot R R_scalar) with rdot.
  cbn [sadd ssub smul R_scalar].
  set (mu := rnorminf (ne P + ni P + nx P) lamk).
  set (phi := p_cost P x + mu * l1_violation P x).
  set (dphi := rdot (nx P) h p - mu * l1_violation P x).
  pose proof (ls_loop_spec P st x p mu phi dphi (ls_budget st) 0 cost 0) as L.
  change (spow (tau st) 0) with (@s1 R R_scalar) in L.
  destruct (ls_loop P st x p mu phi dphi (ls_budget st) s1 cost 0) as [[a c] e].
  destruct L as (k & Hk & -> & Hr & Ha & He). fold (ls_budget st). cbv zeta.
  exists k. split; [lia|]. split; [apply spow_pow|]. split; [|split].
  - destruct (Nat.eq_dec k (0 + ls_budget st)) as [E|E].
    + destruct (He E) as [-> _]. lia.
    + destruct Ha as (_ & _ & ->); lia.
  - intros j Hj Hb. specialize (Hr j ltac:(lia)). rewrite <- spow_pow in Hb.
    apply accept_R in Hb. unfold phi, dphi in Hr. rewrite Hr in Hb. discriminate.
  - intros Hlt. destruct Ha as (Ha & _); [lia|]. rewrite <- spow_pow. apply accept_R. exact Ha.
Qed.

(** ** cost and merit after the last step *)
Section Cost.
Variable P : problem R.
Variable st : sqp_settings R.
Variables Q W : Type.
Variable hupd : mat R -> vec R -> vec R -> mat R.
Variable hreg : mat R -> mat R.
Variable pc_compute : W -> qp_data R -> W * qp_data R.
Variable pc_unscale_sol : W -> vec R * vec R -> vec R * vec R.
Variable pc_unscale : W -> qp_data R -> qp_data R.
Variable qp_solve : Q -> qp_data R -> Q * (vec R * vec R * Z).
Variable qp_mark : Q -> Q.
Notation state := (@sqp_state R Q W).
Notation solve := (sqp_solve P st Q W hupd hreg pc_compute pc_unscale_sol pc_unscale qp_solve qp_mark).
Notation nd := (ne P + ni P + nx P)%nat.

(** the preconditioner restores the cost gradient of the QP *)
Definition restores : Prop := forall w d w' d1, qn d = nx P -> qm d = (ne P + ni P)%nat ->
  pc_compute w d = (w', d1) -> forall j, (j < nx P)%nat -> qh (pc_unscale w' d1) j = qh d j.

Definition merit_step grad jac (s : state) : Prop :=
  exists x0 lam0 r H p lk rs k, seen s = (m_x s, m_lam s) :: (x0, lam0) :: r /\
    steps s = (sub_qp P H (grad x0) (jac x0) (constr_values P x0) x0, (p, lk)) :: rs /\
    m_x s = along P x0 p (tau st ^ k) /\ (k <= ls_budget st)%nat /\
    ((k < ls_budget st)%nat ->
       let mu := rnorminf nd lk in
       merit P mu (m_x s) <= merit P mu x0 +
         tau st ^ k * eta st * (rdot (nx P) (grad x0) p - mu * (sqp_eps + total_violation P x0))).

Lemma merit_step_run : forall s grad jac, restores -> linearised_by P grad jac -> merit_step grad jac (solve s).
Proof.
  intros s grad jac HR [L1 L2].
  assert (G : forall (s s' : state) H, (exists r, seen s = (m_x s, m_lam s) :: r) ->
     let d := sub_qp P H (grad (m_x s)) (jac (m_x s)) (constr_values P (m_x s)) (m_x s) in
     stepped P st Q W (round_trip W pc_compute pc_unscale d) s s' d -> merit_step grad jac s').
  { intros s0 s' H (r & Hs) d (p & lk & d2 & i & (w & w' & d1 & Ec & Eu) & Hi & _ & Hacc & Hx & Hl & _ & Hpn & Hdn & _ & _ & _ & _ & Hseen & _ & Hst).
    assert (Eh : rdot (nx P) (qh d2) p = rdot (nx P) (grad (m_x s0)) p).
    { rewrite !rdot_def. apply rsum_ext. intros j Hj. rewrite Eu, (HR w d w' d1 eq_refl eq_refl Ec j Hj). reflexivity. }
    assert (EX : m_x s' = along P (m_x s0) p (tau st ^ i)).
    { rewrite Hx, spow_pow. reflexivity. }
    exists (m_x s0), (m_lam s0), r, H, p, lk, (steps s0), i.
    split; [rewrite Hseen, Hs; reflexivity|]. split; [exact Hst|]. split; [exact EX|]. split; [exact Hi|].
    intros Hlt mu. destruct (Hacc Hlt) as [Ha _].
    rewrite spow_pow in Ha. rewrite EX. apply accept_R. cbv beta in Ha. rewrite Eh in Ha. exact Ha. }
  apply (solve_inv3 P st Q W hupd hreg pc_compute pc_unscale_sol pc_unscale qp_solve qp_mark (merit_step grad jac)).
  - intros s1 s2 (A1 & A2 & A3 & A4 & A5 & A6 & A7 & A8 & A9 & A10) H.
    unfold merit_step in *. rewrite <- A1, <- A2, <- A9, <- A10. exact H.
  - intros s1 s2 lagg h A b y E Hst (x0 & lam0 & r & H & p & lk & rs & k & Hs & _).
    destruct (L2 (m_x s1) (m_lam s1)) as (lagg' & E'). rewrite E in E'. inversion E'; subst.
    eapply G; [|exact Hst]. rewrite Hs. eauto.
  - intros s' lagg H0 h b A E Hst.
    destruct (L1 (m_x s) (m_lam s)) as (lagg' & H' & E'). rewrite E in E'. inversion E'; subst.
    apply (G (start Q W s) s' (hreg H')); [exists []; reflexivity|exact Hst].
Qed.

Lemma merit_decrease_run : forall s grad jac, restores -> linearised_by P grad jac -> proper_bounds P ->
  0 <= tau st -> 0 <= eta st -> Forall exact_step (steps (solve s)) ->
  exists x0 lam0 r H p lk rs k, seen (solve s) = (m_x (solve s), m_lam (solve s)) :: (x0, lam0) :: r /\
    steps (solve s) = (sub_qp P H (grad x0) (jac x0) (constr_values P x0) x0, (p, lk)) :: rs /\
    m_x (solve s) = along P x0 p (tau st ^ k) /\ (k <= ls_budget st)%nat /\
    ((k < ls_budget st)%nat ->
       merit P (rnorminf nd lk) (m_x (solve s)) <= merit P (rnorminf nd lk) x0 - tau st ^ k * eta st * qf (nx P) H p).
Proof.
  intros s grad jac HR HL HB Ht He HF.
  destruct (merit_step_run s grad jac HR HL) as (x0 & lam0 & r & H & p & lk & rs & k & A1 & A2 & A3 & A4 & A5).
  exists x0, lam0, r, H, p, lk, rs, k. do 4 (split; [assumption|]).
  intros Hlt. specialize (A5 Hlt). cbv zeta in A5. rewrite A2 in HF. inversion HF as [|? ? [_ HK] _]; subst.
  cbn [fst snd] in HK.
  pose proof (sub_qp_descent P H (grad x0) (jac x0) x0 p lk HB HK) as D.
  rewrite l1_sum_total in D. eapply Rle_trans; [exact A5|].
  assert (E : 0 <= (sqp_eps : R)).
  { unfold sqp_eps, scst. simpl. apply Rlt_le, Rdiv_lt_0_compat; lra. }
  assert (M : 0 <= rnorminf nd lk) by apply rnorminf_nonneg.
  assert (T : 0 <= tau st ^ k * eta st) by (apply Rmult_le_pos; [apply pow_le|]; assumption).
  pose proof (Rmult_le_pos _ _ M E) as ME.
  assert (B : rdot (nx P) (grad x0) p - rnorminf nd lk * (sqp_eps + total_violation P x0) <= - qf (nx P) H p) by lra.
  pose proof (Rmult_le_compat_l _ _ _ T B). lra.
Qed.
End Cost.
