(** Property C100: the trust region prototype (src/solvers/trust_region_tests/trust_region_test.cpp). *)
Require Import ZArith List Bool Lia Reals Lra Psatz.
Require Import Floats.SpecFloat.
From Verif Require Import Scal RSum GradProj_Spec GradProj_Proofs TrustReg_Model TrustReg_Spec TrustReg_Proofs.
Import ListNotations.
Local Open Scope R_scope.

(** C100, any problem and any factorisation: one pass keeps the point or adds the step; if the model predicts a reduction
    the cost does not increase; the radius stays positive and below 1000 (or its old value) *)
Theorem C100_step_rules : forall n cost grad hess llt (x : vec R) r, 0 < r ->
  let p := tr_step n llt (hess x) (grad x) r in
  let '(x', r', _) := tr_iteration n cost grad hess llt x r in
  (x' = x \/ x' = tr_add n x p) /\ (0 < tr_pred n (hess x) (grad x) p -> cost x' <= cost x) /\ 0 < r' <= Rmax r 1000 /\
  (let rho := (cost x - cost (tr_add n x p)) / tr_pred n (hess x) (grad x) p in
   (0 < rho -> x' = tr_add n x p) /\ (rho <= 0 -> x' = x) /\ (rho < 1 / 10 -> r' = r / 2) /\ (1 / 10 <= rho <= 3 / 4 -> r' = r) /\
   (3 / 4 < rho -> r' = if Rlt_dec (tr_norm n p) (8 / 10 * r) then r else Rmin (2 * r) 1000)).
Proof.
  intros n cost grad hess llt x r Hr p. unfold tr_iteration. fold p. cbv zeta.
  change (sdiv (ssub (cost x) (cost (tr_add n x p))) (tr_pred n (hess x) (grad x) p)) with ((cost x - cost (tr_add n x p)) / tr_pred n (hess x) (grad x) p).
  set (rho := (cost x - cost (tr_add n x p)) / tr_pred n (hess x) (grad x) p).
  destruct (radius_rule n rho r p Hr) as (Q1 & _ & Q2 & Q3 & Q4).
  split; [|split; [|split; [exact Q1|]]].
  - destruct (sltb s0 rho); auto.
  - intros Hp. destruct (sltb s0 rho) eqn:E; [|lra]. change (@sltb R R_scalar) with Rltb in E. apply Rltb_true in E. unfold rho in E. cbn [s0 sdiv ssub R_scalar] in E.
    set (a := cost x - cost (tr_add n x p)) in *. set (q := tr_pred n (hess x) (grad x) p) in *.
    assert (A : 0 < a / q * q) by (apply Rmult_lt_0_compat; auto). replace (a / q * q) with a in A by (field; lra). unfold a in A. lra.
  - split; [|split; [|repeat split; auto]]; intros Hq; change (@sltb R R_scalar) with Rltb; unfold Rltb; change (@s0 R R_scalar) with 0; fold rho in Hq; destruct (Rlt_dec 0 rho); auto; exfalso; lra.
Qed.
Print Assumptions C100_step_rules.

(** C100: the loop runs passes as long as the gradient is at least 1e-4; the returned point is the one after the last pass *)
Theorem C100_run : forall n cost grad hess llt fuel (x : vec R) r x' r' k,
  tr_loop n cost grad hess llt fuel 0 x r = (x', r', k) ->
  exists (xs : nat -> vec R) (rs : nat -> R), xs O = x /\ rs O = r /\
    (forall j, (j < k)%nat -> tr_iteration n cost grad hess llt (xs j) (rs j) = (xs (S j), rs (S j), false) /\ 1 / 10000 <= rnorminf n (grad (xs j))) /\
    ((k = fuel /\ x' = xs k /\ r' = rs k) \/
     ((k < fuel)%nat /\ tr_iteration n cost grad hess llt (xs k) (rs k) = (x', r', true) /\ rnorminf n (grad (xs k)) < 1 / 10000)).
Proof.
  intros n cost grad hess llt fuel x r x' r' k E. destruct (loop_run n cost grad hess llt fuel 0 x r x' r' k E) as (xs & rs & L & X0 & R0 & St & Fin).
  exists xs, rs. repeat (split; [assumption|]). split.
  - intros j Hj. assert (S1 := St j ltac:(lia)). split; [exact S1|]. apply (go_large _ _ _ _ _ _ _ _ _ S1).
  - destruct Fin as [(A & B & C)|(A & B)]; [left; auto|right]. split; [lia|]. split; [exact B|]. apply (stop_small _ _ _ _ _ _ _ _ _ B).
Qed.
Print Assumptions C100_run.

(** C100, quadratic problems: actual and predicted reduction agree, so every step is accepted, whether the cost falls or
    rises, and the radius never shrinks (unless the predicted reduction is zero and the ratio undefined) *)
Theorem C100_always_accepted : forall n H h llt (x : vec R) r, symmetric n H -> 0 < r ->
  let p := tr_step n llt H (sq_grad n H h x) r in
  tr_pred n H (sq_grad n H h x) p <> 0 ->
  let '(x', r', _) := tr_iteration n (sq_cost n H h) (sq_grad n H h) (sq_hess H) llt x r in
  (forall i, (i < n)%nat -> x' i = x i + p i) /\ gp_cost n H h x - gp_cost n H h x' = tr_pred n H (sq_grad n H h x) p /\
  r' = if Rlt_dec (tr_norm n p) (8 / 10 * r) then r else Rmin (2 * r) 1000.
Proof.
  intros n H h llt x r HS Hr p Hp. destruct (quad_iteration n H h llt HS x r Hr Hp) as [stop ->]. fold p. split; [|split; auto].
  - intros i Hi. unfold tr_add. rewrite tab_spec; auto.
  - rewrite <- !sq_cost_R. apply ared_pred; auto.
Qed.
Print Assumptions C100_always_accepted.

(** C100: for positive definite H, exact factorisations and a final shift that is not negative, the step is accepted and
    decreases the cost *)
Theorem C100_descent : forall n H h llt (x : vec R) r, symmetric n H -> posdef n H -> llt_exact n llt -> 0 < r ->
  0 <= tr_lambda n llt H (sq_grad n H h x) r -> ~ stationary n H h x ->
  let '(x', r', _) := tr_iteration n (sq_cost n H h) (sq_grad n H h) (sq_hess H) llt x r in
  gp_cost n H h x' < gp_cost n H h x /\ (r <= r' \/ r' = 1000).
Proof.
  intros n H h llt x r HS HP HL Hr Hl Hns. assert (D := quad_descent n H h llt HS HL x r HP Hl Hns). cbv zeta in D.
  assert (A := C100_always_accepted n H h llt x r HS Hr ltac:(apply Rgt_not_eq; exact D)).
  destruct (tr_iteration n (sq_cost n H h) (sq_grad n H h) (sq_hess H) llt x r) as [[x' r'] stop]. destruct A as (_ & A2 & A3). split; [lra|].
  rewrite A3. destruct (Rlt_dec _ _); [left; lra|]. unfold Rmin. destruct (Rle_dec (2 * r) 1000); [left; lra|right; auto].
Qed.
Print Assumptions C100_descent.

(** C100, one variable: the step always has the length of the radius, even if the minimiser is closer *)
Theorem C100_full_radius : forall b c llt (x : vec R) r, 0 < b -> llt_exact 1 llt -> 0 < r -> b * x O + c <> 0 ->
  let p := tr_step 1 llt (fun _ _ => b) (sq_grad 1 (fun _ _ => b) (fun _ => c) x) r in
  Rabs (p O) = r /\ p O * (b * x O + c) < 0.
Proof.
  intros b c llt x r Hb HL Hr Hg p. unfold p. rewrite (step1 b Hb llt HL) by (auto; unfold sq_grad; rewrite tab_spec by lia; cbn [mv dot ssum sadd smul s0 R_scalar]; lra).
  assert (E : sq_grad 1 (fun _ _ => b) (fun _ => c) x O = b * x O + c) by (unfold sq_grad; rewrite tab_spec by lia; unfold mv, dot; simpl; ring).
  rewrite E. set (g := b * x O + c) in *. assert (G0 : 0 < Rabs g) by (apply Rabs_pos_lt; auto). split.
  - rewrite Rabs_Ropp, Rabs_mult. unfold Rdiv. rewrite Rabs_mult, Rabs_inv, Rabs_Rabsolu, Rinv_r, Rmult_1_r by lra. apply Rabs_right. lra.
  - replace (- (r * (g / Rabs g)) * g) with (- (r * (g * g / Rabs g))) by (field; lra). assert (0 < r * (g * g / Rabs g)); [|lra].
    apply Rmult_lt_0_compat; auto. apply Rdiv_lt_0_compat; auto. exact (Rsqr_pos_lt _ Hg).
Qed.
Print Assumptions C100_full_radius.

(** ** C100, refuted: convergence on strictly convex quadratics *)
(** minimise x^2 / 2 from 1/3 with the radius 0.1 of the code: whatever the number of passes allowed, the loop never stops
    early, consecutive points are at least 0.1 apart and no point comes closer than 1/30 to the minimiser *)
Definition tre_H : mat R := fun _ _ => 1.
Definition tre_h : vec R := fun _ => 0.
Definition tre_loop llt := tr_loop 1 (sq_cost 1 tre_H tre_h) (sq_grad 1 tre_H tre_h) (sq_hess tre_H) llt.
Definition tre_inv (x : vec R) (r : R) : Prop := exists m z : Z, (0 < z)%Z /\ x O = 1 / 3 + IZR m / 10 /\ r = IZR z / 10.
Lemma tre_grad x : sq_grad 1 tre_H tre_h x O = x O.
Proof. unfold sq_grad. rewrite tab_spec by lia. unfold mv, dot, tre_H, tre_h. simpl. ring. Qed.
Lemma tre_far x r : tre_inv x r -> 1 / 30 <= Rabs (x O) /\ 1 / 10 <= r.
Proof.
  intros (m & z & Hz & Ex & Er). split.
  - rewrite Ex. replace (1 / 3 + IZR m / 10) with (IZR (10 + 3 * m) / 30) by (rewrite plus_IZR, mult_IZR; field).
    unfold Rdiv. rewrite Rabs_mult, (Rabs_right (/ 30)) by lra. rewrite <- abs_IZR. apply Rmult_le_compat_r; [lra|]. apply IZR_le. lia.
  - rewrite Er. apply IZR_le with (n := 1%Z) in Hz || (assert (1 <= z)%Z as Hz1 by lia; apply IZR_le in Hz1; lra).
Qed.
Lemma tre_step llt x r : llt_exact 1 llt -> tre_inv x r ->
  exists x' r', tr_iteration 1 (sq_cost 1 tre_H tre_h) (sq_grad 1 tre_H tre_h) (sq_hess tre_H) llt x r = (x', r', false) /\ tre_inv x' r' /\ Rabs (x' O - x O) = r.
Proof.
  intros HL HI. destruct (tre_far x r HI) as [Fx Fr].
  assert (X0 : x O <> 0) by (intros Z; rewrite Z, Rabs_R0 in Fx; lra). assert (Hr : 0 < r) by lra.
  set (p := tr_step 1 llt tre_H (sq_grad 1 tre_H tre_h x) r).
  assert (Ep : p O = r \/ p O = - r).
  { unfold p, tre_H. rewrite (step1 1 Rlt_0_1 llt HL) by (auto; fold tre_H; rewrite tre_grad; auto). fold tre_H. rewrite tre_grad.
    unfold Rabs. destruct (Rcase_abs (x O)); [left|right]; field; lra. }
  assert (Hs : p O * x O < 0).
  { unfold p, tre_H. rewrite (step1 1 Rlt_0_1 llt HL) by (auto; fold tre_H; rewrite tre_grad; auto). fold tre_H. rewrite tre_grad.
    unfold Rabs. destruct (Rcase_abs (x O)) as [N|N]; [replace (- (r * (x O / - x O))) with r by (field; lra)|replace (- (r * (x O / x O))) with (- r) by (field; lra)]; nra. }
  assert (Hp : tr_pred 1 tre_H (sq_grad 1 tre_H tre_h x) p <> 0).
  { rewrite pred_R. unfold qf, gp_slope. rewrite !rdot_def, !one_rsum, !rmv_def, !one_rsum. unfold tre_H, tre_h. intros Z.
    assert (Y : 2 * x O + p O = 0) by (assert (W : p O * (2 * x O + p O) = 0) by lra; apply Rmult_integral in W; destruct W as [W|W]; [destruct Ep; lra|auto]).
    destruct HI as (m & z & Hz & Ex & Er). rewrite Ex in Y. 
    assert (W : IZR (20 + 6 * m) = IZR (3 * z) \/ IZR (20 + 6 * m) = IZR (- (3 * z))) by (rewrite opp_IZR, plus_IZR, !mult_IZR; destruct Ep as [Ep|Ep]; rewrite Ep, Er in Y; [right|left]; lra).
    destruct W as [W|W]; apply eq_IZR in W; lia. }
  destruct (quad_iteration 1 tre_H tre_h llt (sym1 _) x r Hr Hp) as [stop E]. fold p in E.
  assert (St : stop = false).
  { assert (S : snd (tr_iteration 1 (sq_cost 1 tre_H tre_h) (sq_grad 1 tre_H tre_h) (sq_hess tre_H) llt x r) = stop) by (rewrite E; reflexivity).
    unfold tr_iteration in S. cbv zeta in S. cbn [snd] in S. rewrite <- S. change (@sltb R R_scalar) with Rltb. apply Rltb_false. rewrite cst_R.
    apply Rle_trans with (1 / 30); [lra|]. rewrite <- (tre_grad x) in Fx. apply Rle_trans with (1 := Fx). apply rnorminf_ub. lia. }
  rewrite St in E.
  assert (N : tr_norm 1 p = r). { unfold tr_norm. cbn [ssqrt R_scalar]. rewrite rdot_def, one_rsum. change (p O * p O) with (Rsqr (p O)). rewrite sqrt_Rsqr_abs. destruct Ep as [-> | ->]; rewrite ?Rabs_Ropp; apply Rabs_right; lra. }
  rewrite N in E. destruct (Rlt_dec r (8 / 10 * r)) as [B|B]; [lra|].
  assert (A : tr_add 1 x p O = x O + p O) by (unfold tr_add; rewrite tab_spec by lia; reflexivity).
  exists (tr_add 1 x p), (Rmin (2 * r) 1000). split; [exact E|]. split.
  - destruct HI as (m & z & Hz & Ex & Er). rewrite Er in Ep. destruct Ep as [Ep|Ep]; [exists (m + z)%Z|exists (m - z)%Z];
      (exists (Z.min (2 * z) 10000); split; [lia|]; split; [rewrite A, Ex, Ep, ?plus_IZR, ?minus_IZR; field|]; rewrite Er; unfold Rmin; destruct (Rle_dec (2 * (IZR z / 10)) 1000) as [C|C];
       [rewrite Z.min_l; [rewrite mult_IZR; field|apply le_IZR; rewrite mult_IZR; lra]|rewrite Z.min_r; [lra|apply le_IZR; rewrite mult_IZR; lra]]).
  - rewrite A. replace (x O + p O - x O) with (p O) by ring. destruct Ep as [-> | ->]; rewrite ?Rabs_Ropp; apply Rabs_right; lra.
Qed.
Lemma tre_run llt : llt_exact 1 llt -> forall k it x r, tre_inv x r -> exists x1 r1 x2 r2,
  tre_loop llt k it x r = (x1, r1, (it + k)%nat) /\ tre_loop llt (S k) it x r = (x2, r2, (it + S k)%nat) /\ tre_inv x1 r1 /\ Rabs (x2 O - x1 O) = r1.
Proof.
  intros HL. unfold tre_loop. induction k as [|k IH]; intros it x r HI.
  - destruct (tre_step llt x r HL HI) as (x' & r' & E & _ & D). exists x, r, x', r'. cbn [tr_loop]. rewrite E. rewrite Nat.add_0_r, Nat.add_1_r. auto.
  - destruct (tre_step llt x r HL HI) as (x' & r' & E & HI' & _). destruct (IH (S it) x' r' HI') as (x1 & r1 & x2 & r2 & E1 & E2 & I1 & D).
    exists x1, r1, x2, r2. remember (S k) as k1. cbn [tr_loop]. rewrite E. rewrite E2. split; [|split; auto].
    + rewrite Heqk1. cbn [tr_loop]. rewrite E, E1. f_equal. lia.
    + f_equal. lia.
Qed.
Theorem C100_convergence_refuted : exists n H h (x0 : vec R), symmetric n H /\ posdef n H /\ stationary n H h (fun _ => 0) /\
  forall llt, llt_exact n llt -> forall k,
  let loop k := tr_loop n (sq_cost n H h) (sq_grad n H h) (sq_hess H) llt k 0 x0 (1 / 10) in
  snd (loop k) = k /\ 1 / 30 <= Rabs (fst (fst (loop k)) O) /\ 1 / 10 <= Rabs (fst (fst (loop (S k))) O - fst (fst (loop k)) O).
Proof.
  exists 1%nat, tre_H, tre_h, (fun _ => 1 / 3). split; [apply sym1|]. split; [apply posdef1; unfold tre_H; lra|]. split.
  { intros i Hi. unfold gp_slope. rewrite rmv_def, one_rsum. unfold tre_H, tre_h. ring. }
  intros llt HL k loop.
  destruct (tre_run llt HL k 0 (fun _ => 1 / 3) (1 / 10)) as (x1 & r1 & x2 & r2 & E1 & E2 & I1 & D).
  { exists 0%Z, 1%Z. split; [lia|]. split; lra. }
  unfold loop. fold (tre_loop llt). rewrite E1, E2. cbn [fst snd]. destruct (tre_far _ _ I1) as [F1 F2]. split; [reflexivity|]. split; [auto|]. rewrite D. auto.
Qed.
Print Assumptions C100_convergence_refuted.

(** ** the test itself, in binary64 *)
#[local] Existing Instance SF_scalar.
(** Eigen::LLT of a 2x2 matrix (lower triangle): fails if a pivot is not positive *)
Definition llt2 (M : mat spec_float) : bool * (vec spec_float -> vec spec_float) * (vec spec_float -> vec spec_float) :=
  (let l00 := ssqrt (M 0%nat 0%nat) in
   let l10 := M 1%nat 0%nat / l00 in
   let d := M 1%nat 1%nat - l10 * l10 in
   let l11 := ssqrt d in
   let fw v := let y0 := v 0%nat / l00 in let y1 := (v 1%nat - l10 * y0) / l11 in fun i => match i with O => y0 | _ => y1 end in
   let bw y := let x1 := y 1%nat / l11 in let x0 := (y 0%nat - l10 * x1) / l00 in fun i => match i with O => x0 | _ => x1 end in
   (negb (M 0%nat 0%nat <=? 0) && negb (d <=? 0), fun v => bw (fw v), fw))%S.
Definition trt_H : mat spec_float := fun i j => match i, j with 0%nat, 0%nat => sofZ 10 | 1%nat, 1%nat => scst 1 10 | _, _ => s0 end.
Definition trt_h : vec spec_float := fun i => match i with 0%nat => sofZ (-1) | _ => sofZ (-2) end.
Definition trt_run := tr_solve 2 (sq_cost 2 trt_H trt_h) (sq_grad 2 trt_H trt_h) (sq_hess trt_H) llt2 (fun _ => s0) (scst 1 10).

(** C100, refuted: the test ends at a stationary point.  It uses up its 100 iterations; the final point has a second entry
    above 500 (the minimiser has 20), a gradient above 50 and a higher cost than the starting point *)
Theorem C100_test_refuted : exists x r, trt_run = (x, r, Z.to_nat 100) /\ sltb (sofZ 500) (x 1%nat) = true /\
  sltb (sofZ 50) (norminf 2 (sq_grad 2 trt_H trt_h x)) = true /\ sltb (sq_cost 2 trt_H trt_h (fun _ => s0)) (sq_cost 2 trt_H trt_h x) = true.
Proof.
  destruct trt_run as [[x r] it] eqn:E. exists x, r.
  assert (X : let '(x, r, it) := trt_run in Nat.eqb it (Z.to_nat 100) && sltb (sofZ 500) (x 1%nat) && sltb (sofZ 50) (norminf 2 (sq_grad 2 trt_H trt_h x)) &&
    sltb (sq_cost 2 trt_H trt_h (fun _ => s0)) (sq_cost 2 trt_H trt_h x) = true) by (vm_compute; reflexivity).
  rewrite E in X. apply andb_prop in X. destruct X as [X X4]. apply andb_prop in X. destruct X as [X X3]. apply andb_prop in X. destruct X as [X1 X2].
  apply Nat.eqb_eq in X1. rewrite X1. auto.
Qed.
Print Assumptions C100_test_refuted.

(** examples: an exact factorisation for one variable; minimise x^2/2 from 1 with radius 0.1 (the final shift is 9) *)
Definition llt1 (M : mat R) : bool * (vec R -> vec R) * (vec R -> vec R) :=
  (Rltb 0 (M O O), fun v _ => v O / M O O, fun v _ => v O / sqrt (M O O)).
Lemma llt1_exact : llt_exact 1 llt1.
Proof.
  intros M _. unfold llt1. split; [rewrite posdef1; apply Rltb_true|]. intros E. apply Rltb_true in E. split.
  - intros b i Hi. assert (i = O) by lia. subst i. rewrite rmv_def, one_rsum. field. lra.
  - intros w v Ew. assert (A := Ew O ltac:(lia)). rewrite rmv_def, one_rsum in A. rewrite !rdot_def, !one_rsum. rewrite <- A.
    assert (S0 : 0 < sqrt (M O O)) by (apply sqrt_lt_R0; auto). assert (SS : sqrt (M O O) * sqrt (M O O) = M O O) by (apply sqrt_sqrt; lra).
    set (s := sqrt (M O O)) in *. rewrite <- SS. field. lra.
Qed.
Example C100_example_descent : symmetric 1 tre_H /\ posdef 1 tre_H /\ llt_exact 1 llt1 /\ 0 < 1 / 10 /\
  0 <= tr_lambda 1 llt1 tre_H (sq_grad 1 tre_H tre_h (fun _ => 1)) (1 / 10) /\ ~ stationary 1 tre_H tre_h (fun _ => 1) /\
  tr_pred 1 tre_H (sq_grad 1 tre_H tre_h (fun _ => 1)) (tr_step 1 llt1 tre_H (sq_grad 1 tre_H tre_h (fun _ => 1)) (1 / 10)) <> 0.
Proof.
  assert (P : posdef 1 tre_H) by (apply posdef1; unfold tre_H; lra).
  assert (G : sq_grad 1 tre_H tre_h (fun _ => 1) O = 1) by (rewrite tre_grad; auto).
  assert (L : 0 <= tr_lambda 1 llt1 tre_H (sq_grad 1 tre_H tre_h (fun _ => 1)) (1 / 10)).
  { unfold tre_H at 1. rewrite (lambda1 1 Rlt_0_1 llt1 llt1_exact) by (try lra; rewrite G; lra). rewrite G, Rabs_R1. lra. }
  assert (N : ~ stationary 1 tre_H tre_h (fun _ => 1)).
  { intros X. assert (A := X O ltac:(lia)). unfold gp_slope in A. rewrite rmv_def, one_rsum in A. unfold tre_H, tre_h in A. lra. }
  split; [apply sym1|]. split; [exact P|]. split; [exact llt1_exact|]. split; [lra|]. split; [exact L|]. split; [exact N|].
  apply Rgt_not_eq. exact (quad_descent 1 tre_H tre_h llt1 (sym1 _) llt1_exact (fun _ => 1) (1 / 10) P L N).
Qed.
