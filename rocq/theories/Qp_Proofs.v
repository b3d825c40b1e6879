(** Lemmas shared by the two native QP solvers. *)
Require Import ZArith List Bool Lia Reals Lra Psatz.
From Verif Require Import Scal RSum Qp_Model Qp_Spec.

(** ** The loop *)
Section Loop.
Context {O : Type}.
Variable body : Z -> O -> pass O.

Lemma qp_loop_spec : forall mx o0 fuel k o, visits body mx o0 k o -> (Z.to_nat (mx - k + 1) < fuel)%nat ->
  match qp_loop body mx fuel k o with
  | Some (o', k') =>
      (visits body mx o0 k' o' /\ (mx < k')%Z) \/
      (exists o1, visits body mx o0 k' o1 /\ (k' <= mx)%Z /\ body k' o1 = Stop o')
  | None => exists k1 o1, visits body mx o0 k1 o1 /\ (k1 <= mx)%Z /\ body k1 o1 = Undef
  end.
Proof.
  intros mx o0; induction fuel as [|fuel IH]; intros k o Hv Hf; [lia|].
  simpl. destruct (Z.leb_spec k mx) as [Hle|Hgt].
  - destruct (body k o) as [o'|o'|] eqn:E.
    + right. exists o. auto.
    + apply IH; [econstructor; eauto|]. lia.
    + exists k, o. auto.
  - left. split; auto.
Qed.

Lemma qp_loop_run : forall mx o0,
  match qp_loop body mx (S (Z.to_nat mx)) 1 o0 with
  | Some (o', k') =>
      (visits body mx o0 k' o' /\ (mx < k')%Z) \/
      (exists o1, visits body mx o0 k' o1 /\ (k' <= mx)%Z /\ body k' o1 = Stop o')
  | None => exists k1 o1, visits body mx o0 k1 o1 /\ (k1 <= mx)%Z /\ body k1 o1 = Undef
  end.
Proof. intros. apply qp_loop_spec; [constructor|]. replace (mx - 1 + 1)%Z with mx by lia. lia. Qed.

Lemma visits_range : forall mx o0 k o, visits body mx o0 k o -> (1 <= k)%Z /\ (k <= Z.max 1 (mx + 1))%Z.
Proof. induction 1; lia. Qed.

Lemma visits_inv : forall mx o0 (P : O -> Prop), P o0 ->
  (forall k o o', (1 <= k)%Z -> (k <= mx)%Z -> P o -> body k o = Cont o' -> P o') ->
  forall k o, visits body mx o0 k o -> P o.
Proof.
  intros mx o0 P H0 HS k o Hv. induction Hv; auto.
  apply (HS k o); auto. apply visits_range in Hv; lia.
Qed.

(** only the first [k] passes matter *)
Lemma visits_mono : forall mx mx' o0 k o, (mx <= mx')%Z -> visits body mx o0 k o -> visits body mx' o0 k o.
Proof. induction 2; econstructor; eauto; lia. Qed.

Lemma visits_det : forall mx mx' o0 k o, visits body mx o0 k o -> forall o', visits body mx' o0 k o' -> o = o'.
Proof.
  intros mx mx' o0 k o Hv. induction Hv as [|k o o1 Hv IH Hk Hb]; intros o2 H2.
  - inversion H2 as [|k0 oo oo' Hv0 Hk0 Hb0 Ek]; subst; auto. apply visits_range in Hv0. lia.
  - inversion H2 as [Ek|k0 oo oo' Hv0 Hk0 Hb0 Ek]; subst.
    + apply visits_range in Hv. lia.
    + assert (k0 = k) by lia. subst. apply IH in Hv0. subst. congruence.
Qed.
End Loop.

(** ** Bounds and projection *)
Local Open Scope R_scope.

Lemma proj_in_bounds : forall lb ub v, consistent lb ub -> in_bounds lb ub (proj_row v lb ub).
Proof.
  intros lb ub v [t [Hl Hu]]. unfold in_bounds, proj_row.
  destruct lb as [l| |], ub as [u| |]; simpl in *; try tauto; try rewrite smax_R; try rewrite smin_R.
  - split; [apply Rmin_glb; [apply Rmax_r|lra]|apply Rmin_r].
  - split; auto. apply Rmax_r.
  - split; auto. apply Rmin_r.
Qed.

Lemma proj_sign : forall lb ub v r, consistent lb ub -> 0 < r ->
  sign_ok lb ub (proj_row v lb ub) (r * (v - proj_row v lb ub)).
Proof.
  intros lb ub v r [t [Hl Hu]] Hr. unfold sign_ok, proj_row.
  destruct lb as [l| |], ub as [u| |]; simpl in *; try tauto; try rewrite !smax_R; try rewrite !smin_R.
  - unfold Rmax, Rmin. destruct (Rle_dec v l), (Rle_dec _ u); split; intros; try (f_equal; lra); exfalso; nra.
  - unfold Rmax. destruct (Rle_dec v l); split; intros; try (f_equal; lra); exfalso; nra.
  - unfold Rmin. destruct (Rle_dec v u); split; intros; try (f_equal; lra); exfalso; nra.
  - split; intros; exfalso; nra.
Qed.

(** projection leaves points of the interval alone, also shifted by a multiplier *)
Lemma proj_fixed : forall lb ub z y r, in_bounds lb ub z -> sign_ok lb ub z y -> 0 < r ->
  proj_row (z + r * y) lb ub = z.
Proof.
  intros lb ub z y r [Hl Hu] [Hp Hn] Hr. unfold proj_row.
  destruct (Rtotal_order y 0) as [Hy|[Hy|Hy]].
  - specialize (Hn Hy). subst lb. simpl in *. rewrite smax_R. rewrite Rmax_right by nra.
    destruct ub as [u| |]; simpl in *; try tauto. rewrite smin_R. apply Rmin_left; auto.
  - subst y. replace (z + r * 0) with z by ring.
    destruct lb as [l| |], ub as [u| |]; simpl in *; try tauto; rewrite ?smax_R, ?smin_R.
    + rewrite Rmax_left by lra. apply Rmin_left; auto.
    + apply Rmax_left; auto.
    + apply Rmin_left; auto.
  - specialize (Hp Hy). subst ub. simpl in *. rewrite smin_R.
    apply Rmin_right. destruct lb as [l| |]; simpl in *; try tauto.
    + rewrite smax_R. eapply Rle_trans; [|apply Rmax_l]. nra.
    + nra.
Qed.

(** conversely *)
Lemma proj_fixed_inv : forall lb ub z y r, consistent lb ub -> 0 < r ->
  proj_row (z + r * y) lb ub = z -> in_bounds lb ub z /\ sign_ok lb ub z y.
Proof.
  intros lb ub z y r Hc Hr He. split.
  - rewrite <- He. apply proj_in_bounds; auto.
  - assert (Hs := proj_sign lb ub (z + r * y) (/ r) Hc (Rinv_0_lt_compat _ Hr)).
    rewrite He in Hs. replace (/ r * (z + r * y - z)) with y in Hs by (field; lra). exact Hs.
Qed.

(** variational inequality of the normal cone *)
Lemma sign_normal : forall lb ub z y w, sign_ok lb ub z y -> in_bounds lb ub w -> y * (w - z) <= 0.
Proof.
  intros lb ub z y w [Hp Hn] [Hl Hu].
  destruct (Rtotal_order y 0) as [Hy|[Hy|Hy]].
  - specialize (Hn Hy). subst lb. simpl in Hl. nra.
  - subst. lra.
  - specialize (Hp Hy). subst ub. simpl in Hu. nra.
Qed.

(** monotonicity of the normal cone *)
Lemma sign_monotone : forall lb ub z y z' y', in_bounds lb ub z -> in_bounds lb ub z' ->
  sign_ok lb ub z y -> sign_ok lb ub z' y' -> 0 <= (y - y') * (z - z').
Proof.
  intros lb ub z y z' y' Hz Hz' Hs Hs'.
  assert (y * (z' - z) <= 0) by (eapply sign_normal; eauto).
  assert (y' * (z - z') <= 0) by (eapply sign_normal; eauto). nra.
Qed.

(** ** Weak duality: an approximate KKT triple is nearly optimal *)
Lemma lag_grad_dot : forall p x y v,
  rdot (qn p) (lag_grad p x y) v =
  rdot (qn p) (rmv (qn p) (qH p) x) v + rdot (qn p) (qh p) v
  + rdot (qm p) y (rmv (qn p) (qA p) v) + rdot (qn p) (fun j => y (qm p + j)%nat) v.
Proof.
  intros. unfold lag_grad.
  rewrite (rdot_plus_l (qn p) (fun j => rmv (qn p) (qH p) x j + qh p j + rsum (qm p) (fun i => qA p i j * y i))
             (fun j => y (qm p + j)%nat) v).
  rewrite (rdot_plus_l (qn p) (fun j => rmv (qn p) (qH p) x j + qh p j) (fun j => rsum (qm p) (fun i => qA p i j * y i))).
  rewrite rdot_plus_l. f_equal. f_equal. rewrite rdot_mv_adj. apply rdot_ext; auto.
Qed.

Lemma qp_obj_convex : forall p x x', symmetric (qn p) (qH p) -> psd (qn p) (qH p) ->
  qp_obj p x + rdot (qn p) (rmv (qn p) (qH p) x) (fun j => x' j - x j) + rdot (qn p) (qh p) (fun j => x' j - x j)
  <= qp_obj p x'.
Proof.
  intros p x x' Hs Hp. unfold qp_obj.
  set (d := fun j => x' j - x j).
  assert (E : qf (qn p) (qH p) x' = qf (qn p) (qH p) x + 2 * 1 * bf (qn p) (qH p) x d + 1 * 1 * qf (qn p) (qH p) d).
  { rewrite <- qf_plus_scal by auto. unfold qf. apply rdot_ext; intros.
    - unfold d; ring.
    - apply rmv_ext; auto. intros; unfold d; ring. }
  assert (Hd : 0 <= qf (qn p) (qH p) d) by apply Hp.
  assert (E2 : rdot (qn p) (rmv (qn p) (qH p) x) d = bf (qn p) (qH p) x d).
  { rewrite rdot_comm. change (rdot (qn p) d (rmv (qn p) (qH p) x)) with (bf (qn p) (qH p) d x).
    apply bf_sym; auto. }
  assert (E3 : rdot (qn p) (qh p) x' = rdot (qn p) (qh p) x + rdot (qn p) (qh p) d).
  { rewrite <- rdot_plus_r. apply rdot_ext; auto. intros; unfold d; ring. }
  rewrite E, E2, E3. lra.
Qed.

Lemma approx_kkt_optimal : forall (p : qp_data R) (x y za zx : vec R) ep ed,
  symmetric (qn p) (qH p) -> psd (qn p) (qH p) ->
  (forall i, (i < qm p)%nat -> Rabs (rmv (qn p) (qA p) x i - za i) <= ep) ->
  (forall j, (j < qn p)%nat -> Rabs (x j - zx j) <= ep) ->
  (forall j, (j < qn p)%nat -> Rabs (lag_grad p x y j) <= ed) ->
  (forall i, (i < qm p)%nat -> sign_ok (qAlb p i) (qAub p i) (za i) (y i)) ->
  (forall j, (j < qn p)%nat -> sign_ok (qxlb p j) (qxub p j) (zx j) (y (qm p + j)%nat)) ->
  forall x', qp_feasible p x' ->
  qp_obj p x <= qp_obj p x' + ed * rnorm1 (qn p) (fun j => x' j - x j) + ep * rnorm1 (qm p + qn p) y.
Proof.
  intros p x y za zx ep ed Hs Hp Ha Hx Hd Hsa Hsx x' [Hfa Hfx].
  set (d := fun j => x' j - x j).
  assert (Hc := qp_obj_convex p x x' Hs Hp). fold d in Hc.
  assert (Hg := lag_grad_dot p x y d).
  (* the residual term *)
  assert (H1 : - (ed * rnorm1 (qn p) d) <= rdot (qn p) (lag_grad p x y) d).
  { rewrite rnorm1_def, <- rsum_scal, <- rsum_opp, rdot_def. apply rsum_le. intros j Hj.
    specialize (Hd j Hj). assert (Rabs (lag_grad p x y j * d j) <= ed * Rabs (d j)).
    { rewrite Rabs_mult. apply Rmult_le_compat_r; auto. apply Rabs_pos. }
    generalize (Rle_abs (- (lag_grad p x y j * d j))). rewrite Rabs_Ropp. lra. }
  (* general constraints *)
  assert (H2 : rdot (qm p) y (rmv (qn p) (qA p) d) <= ep * rsum (qm p) (fun i => Rabs (y i))).
  { rewrite rdot_def, <- rsum_scal. apply rsum_le. intros i Hi.
    assert (Ed : rmv (qn p) (qA p) d i = rmv (qn p) (qA p) x' i - rmv (qn p) (qA p) x i) by apply rmv_minus.
    rewrite Ed. set (a' := rmv (qn p) (qA p) x' i). set (a := rmv (qn p) (qA p) x i).
    assert (y i * (a' - za i) <= 0) by (eapply sign_normal; [apply Hsa|apply Hfa]; auto).
    assert (Rabs (y i * (za i - a)) <= ep * Rabs (y i)).
    { rewrite Rabs_mult, Rmult_comm. apply Rmult_le_compat_r; [apply Rabs_pos|].
      rewrite <- Rabs_Ropp. replace (- (za i - a)) with (a - za i) by ring. apply Ha; auto. }
    generalize (Rle_abs (y i * (za i - a))). intros. nra. }
  assert (H3 : rdot (qn p) (fun j => y (qm p + j)%nat) d <= ep * rsum (qn p) (fun j => Rabs (y (qm p + j)%nat))).
  { rewrite rdot_def, <- rsum_scal. apply rsum_le. intros j Hj. unfold d.
    assert (y (qm p + j)%nat * (x' j - zx j) <= 0) by (eapply sign_normal; [apply Hsx|apply Hfx]; auto).
    assert (Rabs (y (qm p + j)%nat * (zx j - x j)) <= ep * Rabs (y (qm p + j)%nat)).
    { rewrite Rabs_mult, Rmult_comm. apply Rmult_le_compat_r; [apply Rabs_pos|].
      rewrite <- Rabs_Ropp. replace (- (zx j - x j)) with (x j - zx j) by ring. apply Hx; auto. }
    generalize (Rle_abs (y (qm p + j)%nat * (zx j - x j))). intros. nra. }
  rewrite (rnorm1_def (qm p + qn p)), rsum_split. lra.
Qed.

(** constants at R *)
Lemma RHO_MIN_pos : 0 < (RHO_MIN : R).
Proof. unfold RHO_MIN, scst. rsimp. lra. Qed.
Lemma RHO_MIN_le_MAX : (RHO_MIN : R) <= RHO_MAX.
Proof. unfold RHO_MIN, RHO_MAX, scst. rsimp. lra. Qed.
Lemma rho_of_type_pos : forall c r, 0 < r -> 0 < (rho_of_type c r : R).
Proof. intros. destruct c; simpl; auto using RHO_MIN_pos. unfold RHO_EQ_FACTOR. rsimp. lra. Qed.
Lemma clamp_rho_range : forall r : R, RHO_MIN <= clamp_rho r <= RHO_MAX.
Proof.
  intros. unfold clamp_rho. rewrite sfmax_R, sfmin_R. split; [apply Rmax_l|].
  apply Rmax_lub; [apply RHO_MIN_le_MAX|apply Rmin_r].
Qed.
