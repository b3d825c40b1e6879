(** C12, C13: quasi-Newton updates. *)
Require Import Reals Lra Lia List ZArith Floats.SpecFloat.
Require Import Verif.Scal Verif.RSum Verif.Hess_Model Verif.Hess_Proofs.
Import ListNotations.
Local Open Scope R_scope.

(** C12: symmetric positive definiteness survives every sequence of damped BFGS updates *)
Theorem C12_bfgs_stays_spd : forall n (B : mat R) (pairs : list (vec R * vec R)),
  symmetric n B -> posdef n B ->
  symmetric n (bfgs_run n B pairs) /\ posdef n (bfgs_run n B pairs).
Proof. intros; apply bfgs_run_spd; auto. Qed.
Print Assumptions C12_bfgs_stays_spd.

(** C12: what one update does.  [c] is the curvature after damping.  Below 2^-52 the matrix
    is left unchanged; otherwise the new matrix maps the step to the gradient difference, or, if
    the measured curvature is below a fifth of the model curvature, to the damped difference. *)
Theorem C12_bfgs_secant : forall n (B : mat R) s y,
  symmetric n B -> posdef n B ->
  let sBs := rdot n s (rmv n B s) in
  let sy := rdot n s y in
  let theta := 8 / 10 * sBs / (sBs - sy) in
  let c := Rmax sy (2 / 10 * sBs) in
  (c < dbl_eps -> bfgs_update n B s y = B) /\
  (dbl_eps <= c -> 2 / 10 * sBs <= sy ->
     forall i, (i < n)%nat -> rmv n (bfgs_update n B s y) s i = y i) /\
  (dbl_eps <= c -> sy < 2 / 10 * sBs ->
     forall i, (i < n)%nat ->
       rmv n (bfgs_update n B s y) s i = theta * y i + (1 - theta) * rmv n B s i).
Proof. exact bfgs_secant_full. Qed.
Print Assumptions C12_bfgs_secant.

(** the hypotheses are met by the identity in dimension 2 and a step of negative curvature *)
Definition eye : mat R := fun i j => if Nat.eqb i j then 1 else 0.
Example C12_example : symmetric 2 eye /\ posdef 2 eye /\
  rdot 2 (fun _ => 1) (fun _ => -1) < 2 / 10 * rdot 2 (fun _ => 1) (rmv 2 eye (fun _ => 1)) /\
  dbl_eps <= Rmax (rdot 2 (fun _ => 1) (fun _ => -1)) (2 / 10 * rdot 2 (fun _ => 1) (rmv 2 eye (fun _ => 1))).
Proof.
  split; [|split; [|split]].
  - intros i j _ _. unfold eye. rewrite Nat.eqb_sym. reflexivity.
  - intros x (i & Hi & Hx). unfold qf. rexpand. unfold eye; simpl.
    assert (x 0%nat <> 0 \/ x 1%nat <> 0) as [H|H]
      by (destruct i as [|[|i]]; [left|right|lia]; auto).
    + assert (P := Rsqr_pos_lt _ H). assert (Q := Rle_0_sqr (x 1%nat)). unfold Rsqr in *.
      match goal with |- 0 < ?g => replace g with (x 0%nat * x 0%nat + x 1%nat * x 1%nat) by ring end. lra.
    + assert (P := Rsqr_pos_lt _ H). assert (Q := Rle_0_sqr (x 0%nat)). unfold Rsqr in *.
      match goal with |- 0 < ?g => replace g with (x 0%nat * x 0%nat + x 1%nat * x 1%nat) by ring end. lra.
  - rexpand. unfold eye; simpl. lra.
  - eapply Rle_trans; [|apply Rmax_r]. unfold dbl_eps, scst. rexpand. unfold eye; simpl. lra.
Qed.

(** C13, the part that holds: symmetry always survives; if the step is not zero and not already
    explained by the matrix then the matrix is unchanged, or the divisor is not zero and the new
    matrix maps the step to the gradient difference.
    Missing for the full statement: the degenerate pairs, see [C13_sr1_refuted]. *)
Theorem C13_sr1_partial : forall n (B : mat R),
  symmetric n B ->
  (forall pairs, symmetric n (sr1_run n B pairs)) /\
  (forall s y, nonzero_vec n s -> nonzero_vec n (fun i => y i - rmv n B s i) ->
     sr1_update n B s y = B \/
     (rdot n (fun i => y i - rmv n B s i) s <> 0 /\
      forall i, (i < n)%nat -> rmv n (sr1_update n B s y) s i = y i)).
Proof. intros n B H; split; intros; [apply sr1_run_symmetric; auto|apply sr1_dichotomy; auto]. Qed.
Print Assumptions C13_sr1_partial.

Example C13_example : nonzero_vec 1 (fun _ => 1) /\
  nonzero_vec 1 (fun i => (fun _ => 3) i - rmv 1 eye (fun _ => 1) i) /\
  sr1_update 1 eye (fun _ => 1) (fun _ => 3) 0%nat 0%nat = 3.
Proof.
  assert (A : nonzero_vec 1 (fun _ => 1)) by (exists O; split; [lia|lra]).
  assert (D : nonzero_vec 1 (fun i => (fun _ => 3) i - rmv 1 eye (fun _ => 1) i)).
  { exists O; split; [lia|]. rexpand. unfold eye; simpl. lra. }
  split; [exact A|split; [exact D|]].
  destruct (sr1_cases 1 eye (fun _ => 1) (fun _ => 3)) as [[H _]|[_ H]].
  - exfalso. revert H. rexpand. unfold eye; simpl.
    replace (0 + 1 * 1) with (1 * 1) by ring.
    replace (0 + (3 - (1 * 1)) * (3 - (1 * 1))) with (2 * 2) by ring.
    rewrite !sqrt_square by lra.
    rewrite Rabs_right by lra. lra.
  - rewrite H by lia. rexpand. unfold eye; simpl. field.
Qed.

(** C13 is false for degenerate pairs: with IEEE doubles a pair that the matrix already explains
    (B s = y, here B = 1, s = 1, y = 1) turns the matrix into NaN, and a zero step turns it into
    infinity. *)
Definition is_finite (x : spec_float) : bool :=
  match x with S754_zero _ | S754_finite _ _ _ => true | _ => false end.
Theorem C13_sr1_refuted :
  (exists (B : mat spec_float) (s y : vec spec_float),
     (forall i j, is_finite (B i j) = true) /\ (forall i, is_finite (s i) = true) /\
     (forall i, is_finite (y i) = true) /\
     @sr1_update _ SF_scalar 1 B s y 0%nat 0%nat = S754_nan) /\
  (exists (B : mat spec_float) (s y : vec spec_float),
     (forall i j, is_finite (B i j) = true) /\ (forall i, is_finite (s i) = true) /\
     (forall i, is_finite (y i) = true) /\
     @sr1_update _ SF_scalar 1 B s y 0%nat 0%nat = S754_infinity false).
Proof.
  split.
  - exists (fun _ _ => SF_ofZ 1), (fun _ => SF_ofZ 1), (fun _ => SF_ofZ 1).
    repeat split; try reflexivity; intros; vm_compute; reflexivity.
  - exists (fun _ _ => SF_ofZ 1), (fun _ => SF_ofZ 0), (fun _ => SF_ofZ 1).
    repeat split; try reflexivity; intros; vm_compute; reflexivity.
Qed.
Print Assumptions C13_sr1_refuted.
