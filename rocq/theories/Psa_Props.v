(** Property theorems for the pseudo-arclength continuation (C88). *)
Require Import Arith List Bool Lia Reals Lra.
From Verif Require Import Scal RSum Pso_Model Pso_Spec Psa_Model Psa_Spec Psa_Proofs.
Import ListNotations.
Local Open Scope R_scope.

(** * The result *)

(** the corrected points are on the homotopy curve, satisfy the hard-coded bounds and have lambda >= 0; when the loop ends its point
    is a root of the user's equations *)
Theorem C88_root : forall ipopt lin s fuel, sound_corrector ipopt s ->
  match psarc ipopt lin s fuel with
  | Failed => True
  | Going p => on_curve s (s_z p) /\ in_bounds s (s_z p) /\ 0 < s_z p (e_n s)
  | Left p => on_curve s (s_z p) /\ in_bounds s (s_z p) /\ 0 <= s_z p (e_n s)
  | Ended p => s_z p (e_n s) = 0 /\ in_bounds s (s_z p) /\ forall i, (i < e_n s)%nat -> F_at s (s_z p) i = 0
  end.
Proof.
  intros ipopt lin s fuel Hc. set (n := e_n s).
  set (Inv := fun p => on_curve s (s_z p) /\ in_bounds s (s_z p) /\ 0 <= s_z p n /\ s_lam p = s_z p n).
  assert (It : forall p p' b, iteration ipopt lin s p = Some (p', b) -> Inv p').
  { intros p p' b H. unfold iteration in H. fold n in H. destruct (slope lin s (s_z p)) as [r|]; [|discriminate].
    destruct (ipopt _ _ (s_lx p) (s_lg p)) as [[[x lx] lg]|] eqn:E; [|discriminate]. apply Hc, feasible_iff in E. destruct (Rlt_dec (x n) 0) as [L|L].
    - destruct (ipopt _ _ (s_lx p) (s_lg p)) as [[[y ly] ly']|] eqn:E2; [|discriminate]. inversion H; subst p'. apply Hc, feasible_iff in E2. fold n in E2. cbn in E2.
      unfold Inv. cbn [s_z s_lam]. destruct E2 as (A & B & C & D). repeat split; auto.
    - inversion H; subst p'. unfold Inv. cbn [s_z s_lam]. destruct E as (A & B & _). repeat split; auto. lra. }
  assert (Lp : forall f p, Inv p -> match loop ipopt lin s f p with
    | Failed => True | Going p => Inv p /\ 0 < s_lam p | Left p => Inv p | Ended p => Inv p /\ s_lam p <= 0 end).
  { induction f; intros p Hp; cbn [loop].
    - destruct (Rlt_dec 0 (s_lam p)); [|split; auto; lra]. split; auto.
    - destruct (Rlt_dec 0 (s_lam p)); [|split; auto; lra]. destruct (iteration ipopt lin s p) as [[p' [|]]|] eqn:E; auto.
      + exact (It _ _ _ E).
      + apply IHf. exact (It _ _ _ E). }
  unfold psarc. destruct (start ipopt s) as [p|] eqn:E; [|exact I].
  assert (Hp : Inv p).
  { unfold start in E. fold n in E. destruct (_ <? _)%nat; [discriminate|]. destruct (ipopt _ _ _ _) as [[[x lx] lg]|] eqn:E1; [|discriminate]. inversion E; subst p.
    apply Hc, feasible_iff in E1. destruct E1 as (A & B & C & D). fold n in C, D. cbn in C, D. unfold Inv. cbn [s_z s_lam]. repeat split; auto; lra. }
  specialize (Lp fuel p Hp). destruct (loop ipopt lin s fuel p) as [|q|q|q]; auto.
  - destruct Lp as [(A & B & C & D) L]. assert (Z : s_z q n = 0) by lra. split; [exact Z|]. split; [exact B|]. intros i Hi. specialize (A i Hi). fold n in A. rewrite Z in A. lra.
  - destruct Lp as (A & B & C & D). auto.
  - destruct Lp as [(A & B & C & D) L]. rewrite D in L. auto.
Qed.
Print Assumptions C88_root.

(** the start: with at least 6512 unknowns the first problem has the initial guess as its only feasible point if that satisfies
    the hard-coded bounds, otherwise none; fewer unknowns always give an exception *)
Theorem C88_start : forall s,
  (let z1 := fun i => if (i =? e_n s)%nat then 1 else e_x0 s i in
   forall w x, feasible (corrector s) (arg s (Some 1) (Some 1) z1 z1) w x <->
     in_bounds s (e_x0 s) /\ x (e_n s) = 1 /\ forall i, (i < e_n s)%nat -> x i = e_x0 s i) /\
  ((e_n s + 1 < 501 * 13)%nat -> forall ipopt lin fuel, psarc ipopt lin s fuel = Failed) /\
  ((501 * 13 <= e_n s + 1)%nat -> in_bounds s (e_x0 s) -> forall ipopt lin, exact_corrector ipopt s ->
     exists p, psarc ipopt lin s 0 = Going p /\ s_z p (e_n s) = 1 /\ forall i, (i < e_n s)%nat -> s_z p i = e_x0 s i).
Proof.
  intro s.
  assert (Hf : forall x0 w pv x, feasible (corrector s) (arg s (Some 1) (Some 1) x0 w) pv x <->
     in_bounds s (e_x0 s) /\ x (e_n s) = 1 /\ forall i, (i < e_n s)%nat -> x i = e_x0 s i).
  { intros x0 w pv x. rewrite feasible_iff. cbn [above below]. split.
    - intros (A & B & C & D). assert (E : x (e_n s) = 1) by lra. assert (X : forall i, (i < e_n s)%nat -> x i = e_x0 s i).
      { intros i Hi. specialize (A i Hi). rewrite E in A. lra. }
      split; [|auto]. intros k Hk Hi. rewrite <- X by auto. apply B; auto.
    - intros (A & E & X). rewrite E. split; [|split; [|lra]].
      + intros i Hi. rewrite E, X by auto. ring.
      + intros k Hk Hi. rewrite X by auto. apply A; auto. }
  split; [|split].
  - intros z1 w x. apply Hf.
  - intros Hn ipopt lin fuel. unfold psarc, start. rewrite (proj2 (Nat.ltb_lt _ _)) by exact Hn. reflexivity.
  - intros Hn Hb ipopt lin [Hs He]. unfold psarc, start. rewrite (proj2 (Nat.ltb_ge _ _)) by exact Hn.
    destruct (He (Some 1) (Some 1) (fun i => if (i =? e_n s)%nat then 1 else e_x0 s i) (fun i => if (i =? e_n s)%nat then 1 else e_x0 s i) (fun _ => 0) (fun _ => 0)
      (fun i => if (i =? e_n s)%nat then 1 else e_x0 s i)) as (x & lx & lg & E & _).
    + apply Hf. split; auto. rewrite Nat.eqb_refl. split; auto. intros i Hi. destruct (Nat.eqb_spec i (e_n s)); [lia|reflexivity].
    + rewrite E. cbn [loop s_lam]. destruct (Rlt_dec 0 1); [|lra]. eexists. split; [reflexivity|]. apply Hs, Hf in E. destruct E as (_ & A & B). auto.
Qed.
Print Assumptions C88_start.

(** * One iteration *)

(** the new direction has length one; the first one decreases lambda, later ones do not reverse; it is tangent to the
    curve if no entry of dx/dlambda is greater than 20 *)
Theorem C88_direction : forall ipopt lin s p p' b, sound_lin lin s -> iteration ipopt lin s p = Some (p', b) ->
  exists t, s_t p' = Some t /\ rsum (e_n s + 1) (fun i => t i ^ 2) = 1 /\
    match s_t p with None => t (e_n s) < 0 | Some u => 0 <= rsum (e_n s + 1) (fun i => u i * t i) end /\
    (jacobian s -> (forall r, tangent_solution s (s_z p) r -> forall i, (i < e_n s)%nat -> Rabs (r i) <= 20) ->
     forall i, (i < e_n s)%nat -> curve_derivative s (s_z p) t i 0).
Proof.
  intros ipopt lin s p p' b Hl H. unfold iteration, slope in H. destruct (lin _ _ _) as [r|] eqn:El; [|discriminate]. apply Hl in El.
  set (t := direction s (s_t p) (rescale s r)) in *.
  assert (Et : s_t p' = Some t).
  { destruct (ipopt _ _ (s_lx p) (s_lg p)) as [[[x lx] lg]|]; [|discriminate]. destruct (Rlt_dec _ _).
    - destruct (ipopt _ _ (s_lx p) (s_lg p)) as [[[y ly] ly']|]; [|discriminate]. inversion H. reflexivity.
    - inversion H. reflexivity. }
  exists t. split; [exact Et|]. split; [|split].
  - rewrite <- (direction_unit s (s_t p) (rescale s r)). apply rsum_ext. intros. unfold t. ring.
  - unfold t. destruct (s_t p) as [u|]; [apply direction_some|]. cbn [direction]. pose proof (tau_last s (rescale s r)). lra.
  - intros HJ Hsmall i Hi. pose proof (Hsmall r El) as Hr. assert (Er : rescale s r = r) by (apply rescale_small; auto).
    destruct (direction_mult s (s_t p) (rescale s r)) as (c & _ & C1 & C2). fold t in C1, C2. rewrite Er in C1.
    pose proof (curve_deriv s HJ (s_z p) t i Hi) as D. rewrite C2 in D.
    rewrite (rsum_ext _ _ (fun j => c * (jac_x s (s_z p) i j * r j))) in D by (intros j Hj; rewrite C1 by auto; ring).
    rewrite rsum_scal, (El i Hi) in D. replace (c * - jac_lam s (s_z p) i + jac_lam s (s_z p) i * c) with 0 in D by ring. exact D.
Qed.
Print Assumptions C88_direction.

(** a corrector that projects on the curve moves the predicted point by at most one, which is the length of the predictor step;
    a point with lambda = 0 may be farther away *)
Theorem C88_step : forall ipopt lin s p p' b, exact_corrector ipopt s -> on_curve s (s_z p) -> in_bounds s (s_z p) -> s_lb p = None -> s_ub p = None ->
  iteration ipopt lin s p = Some (p', b) -> 0 < s_z p' (e_n s) ->
  s_lb p' = None /\ s_ub p' = None /\
  exists t, s_t p' = Some t /\ rsum (e_n s + 1) (fun i => t i ^ 2) = 1 /\
    rsum (e_n s + 1) (fun i => (s_z p' i - (s_z p i + t i)) ^ 2) <= 1.
Proof.
  intros ipopt lin s p p' b [Hs He] Hc Hb Hlo Hup H Hpos. unfold iteration in H. rewrite Hlo, Hup in H. destruct (slope lin s (s_z p)) as [r|]; [|discriminate].
  set (t := direction s (s_t p) r) in *.
  assert (U : rsum (e_n s + 1) (fun i => t i ^ 2) = 1).
  { rewrite <- (direction_unit s (s_t p) r). apply rsum_ext. intros. unfold t. ring. }
  destruct (He None None (s_z p) (fun i => s_z p i + 1 * t i) (s_lx p) (s_lg p) (s_z p)) as (x & lx & lg & E & D).
  { apply feasible_iff. cbn. auto. }
  rewrite E in H. destruct (Rlt_dec (x (e_n s)) 0) as [L|L].
  - destruct (ipopt _ (arg s (Some 0) _ _ _) _ _) as [[[y ly] ly']|] eqn:E2; [|discriminate]. inversion H; subst p'. apply Hs, feasible_iff in E2. cbn in E2, Hpos. lra.
  - inversion H; subst p'. cbn [s_lb s_ub s_t s_z]. split; [reflexivity|]. split; [reflexivity|]. exists t. split; [reflexivity|]. split; [exact U|].
    rewrite (rsum_ext _ _ (fun i => (x i - (s_z p i + 1 * t i)) ^ 2)) by (intros; ring). eapply Rle_trans; [exact D|]. eapply Rle_trans; [|apply Req_le; exact U]. apply Req_le, rsum_ext. intros. ring.
Qed.
Print Assumptions C88_step.

(** * Convergence for F(x) = x - a *)
Section Translation.
Variables (ipopt : nlp_solver) (lin : lin_solver) (s : eqs) (a : vec R).
Let n := e_n s.
Hypothesis HF : forall l i, (i < n)%nat -> e_F s l i = nth i l 0 - a i.
Hypothesis HJ : forall l i j, (i < n)%nat -> (j < n)%nat -> e_J s l i j = if (i =? j)%nat then 1 else 0.
Let r0 (i : nat) : R := e_x0 s i - a i.

Lemma tr_F : forall z i, (i < n)%nat -> F_at s z i = z i - a i.
Proof. intros z i Hi. unfold F_at. fold n. rewrite HF by auto. f_equal. rewrite (nth_indep _ 0 (z 0%nat)) by (rewrite map_length, seq_length; auto). rewrite map_nth, seq_nth by auto. reflexivity. Qed.
Lemma tr_curve : forall z, on_curve s z <-> forall i, (i < n)%nat -> z i = a i + z n * r0 i.
Proof.
  intro z. unfold on_curve, r0. fold n. split; intros H i Hi; specialize (H i Hi).
  - rewrite tr_F in H by auto. lra.
  - rewrite tr_F by auto. rewrite H. ring.
Qed.
Lemma tr_tangent : forall z r, tangent_solution s z r <-> forall i, (i < n)%nat -> r i = r0 i.
Proof.
  intros z r. assert (K : forall i, (i < n)%nat -> rsum n (fun j => jac_x s z i j * r j) = r i /\ - jac_lam s z i = r0 i).
  { intros i Hi. split.
    - rewrite (rsum_ext n _ (fun j => if (j =? i)%nat then r j else 0)); [apply rsum_delta; auto|].
      intros j Hj. unfold jac_x. fold n. rewrite HJ by auto. rewrite (Nat.eqb_sym i j). destruct (j =? i)%nat; ring.
    - unfold jac_lam. change (e_F s (unknowns s z) i) with (F_at s z i). rewrite tr_F by auto. unfold r0. ring. }
  unfold tangent_solution. fold n. split; intros H i Hi; destruct (K i Hi) as [K1 K2]; specialize (H i Hi).
  - rewrite K1, K2 in H. auto.
  - rewrite K1, K2. auto.
Qed.

Hypothesis Hc : exact_corrector ipopt s.
Hypothesis Hl : exact_lin lin s.
Hypothesis Hx0 : in_bounds s (e_x0 s).
Hypothesis Ha : in_bounds s a.
Hypothesis H20 : forall i, (i < n)%nat -> Rabs (r0 i) <= 20.
Hypothesis Hbig : rsum n (fun i => r0 i ^ 2) <= 1000000.
Let q := sqrt (1 + rsum n (fun i => r0 i ^ 2)).

Lemma q_pos : 1 <= q.
Proof.
  unfold q. rewrite <- sqrt_1 at 1. apply sqrt_le_1_alt. assert (0 <= rsum n (fun i => r0 i ^ 2)) by (apply rsum_nonneg; intros; apply pow2_ge_0). lra.
Qed.
Lemma q_sq : q * q = 1 + rsum n (fun i => r0 i ^ 2).
Proof. unfold q. apply sqrt_sqrt. assert (0 <= rsum n (fun i => r0 i ^ 2)) by (apply rsum_nonneg; intros; apply pow2_ge_0). lra. Qed.

(** the direction is minus the unit tangent, in every iteration *)
Let dir (t : vec R) : Prop := t n = - / q /\ forall i, (i < n)%nat -> t i = - / q * r0 i.
Lemma tr_slope : forall z, exists r, slope lin s z = Some r /\ (forall i, (i < n)%nat -> r i = r0 i).
Proof.
  intro z. destruct Hl as [S E]. unfold slope. fold n. assert (T : tangent_solution s z r0) by (apply tr_tangent; auto).
  specialize (E z r0 T). fold n in E. destruct (lin n _ _) as [r|] eqn:El; [|congruence]. apply S in El. assert (R1 := proj1 (tr_tangent z r) El).
  exists r. split; [|exact R1]. f_equal. apply rescale_small. intros i Hi. rewrite R1 by auto. auto.
Qed.
Lemma tr_tau : forall r, (forall i, (i < n)%nat -> r i = r0 i) -> dotn n r r = rsum n (fun i => r0 i ^ 2) /\ tau s r n = / q /\ forall i, (i < n)%nat -> tau s r i = / q * r0 i.
Proof.
  intros r H. assert (D : dotn n r r = rsum n (fun i => r0 i ^ 2)) by (apply rsum_ext; intros i Hi; rewrite H by auto; ring).
  split; [exact D|]. unfold tau. fold n. rewrite D. fold q. unfold Rdiv. rewrite Rmult_1_l. split; [rewrite Nat.eqb_refl; reflexivity|].
  intros i Hi. destruct (Nat.eqb_spec i n); [lia|]. rewrite H by auto. reflexivity.
Qed.
Lemma tr_dir : forall t r, (forall i, (i < n)%nat -> r i = r0 i) -> (forall u, t = Some u -> dir u) -> dir (direction s t r).
Proof.
  intros t r H Ht. destruct (tr_tau r H) as (_ & T1 & T2). assert (Q := q_pos).
  assert (N : dir (fun i => - tau s r i)). { split; [rewrite T1; ring|]. intros i Hi. rewrite T2 by auto. ring. }
  unfold direction. destruct t as [u|]; [|exact N]. destruct (Rle_dec 0 (dotn (e_n s + 1) u (tau s r))) as [G|_]; [|exact N]. exfalso.
  destruct (Ht u eq_refl) as [U1 U2]. fold n in G. unfold dotn in G.
  assert (E : rsum (n + 1) (fun i => u i * tau s r i) = -1).
  { rewrite Nat.add_1_r, rsum_S, U1, T1. rewrite (rsum_ext n _ (fun i => - / q * / q * (r0 i ^ 2))) by (intros i Hi; rewrite U2, T2 by auto; ring).
    rewrite rsum_scal. replace (rsum n (fun i => r0 i ^ 2)) with (q * q - 1) by (rewrite q_sq; ring). field. lra. }
  change (0 <= rsum (n + 1) (fun i => u i * tau s r i)) in G. lra.
Qed.

(** distance of two points of the curve *)
Lemma tr_dist : forall x l w m, (forall i, (i < n)%nat -> x i = a i + l * r0 i) -> x n = l -> (forall i, (i < n)%nat -> w i = a i + m * r0 i) -> w n = m ->
  rsum (n + 1) (fun i => (x i - w i) ^ 2) = (l - m) ^ 2 * (q * q).
Proof.
  intros x l w m X1 X2 W1 W2. rewrite Nat.add_1_r, rsum_S, X2, W2. rewrite (rsum_ext n _ (fun i => (l - m) ^ 2 * (r0 i ^ 2))) by (intros i Hi; rewrite X1, W1 by auto; ring).
  rewrite rsum_scal, q_sq. ring.
Qed.
Lemma tr_bounds : forall l, 0 <= l <= 1 -> in_bounds s (fun i => if (i =? n)%nat then l else a i + l * r0 i).
Proof.
  intros l Hl0 k Hk Hi. fold n in Hi. destruct (Nat.eqb_spec (13 * k) n); [lia|]. specialize (Hx0 k Hk Hi). specialize (Ha k Hk Hi). unfold r0. nra.
Qed.

Let at_lam (p : pst) (l : R) : Prop :=
  (forall i, (i < n)%nat -> s_z p i = a i + l * r0 i) /\ s_z p n = l /\ s_lam p = l /\ s_lb p = None /\ s_ub p = None /\ forall u, s_t p = Some u -> dir u.

Lemma tr_iter : forall p l, at_lam p l -> 0 < l <= 1 -> exists p', iteration ipopt lin s p = Some (p', false) /\
  if Rle_dec (l - / q) 0 then s_lam p' = 0 /\ s_z p' n = 0 /\ forall i, (i < n)%nat -> s_z p' i = a i else at_lam p' (l - / q).
Proof.
  intros p l (Z1 & Z2 & Z3 & L & U & T) Hlam. destruct Hc as [Hs He]. destruct (tr_slope (s_z p)) as (r & Er & Hr). unfold iteration. rewrite Er, L, U.
  set (t := direction s (s_t p) r). assert (Dt : dir t) by (apply tr_dir; auto). destruct (tr_tau r Hr) as (Dr & _). fold n. rewrite Dr.
  destruct (Rlt_dec 1000000 _) as [B|_]; [exfalso; lra|]. set (w := fun i => s_z p i + 1 * t i). set (m := l - / q).
  assert (W1 : forall i, (i < n)%nat -> w i = a i + m * r0 i). { intros i Hi. unfold w, m. rewrite Z1 by auto. destruct Dt as [_ ->]; auto. ring. }
  assert (W2 : w n = m). { unfold w, m. rewrite Z2. destruct Dt as [-> _]. ring. }
  assert (Q := q_pos). assert (Q1 : 0 < / q <= 1). { split; [apply Rinv_0_lt_compat; lra|]. rewrite <- Rinv_1. apply Rinv_le_contravar; lra. }
  (* projection: the point of the curve for lambda = k is feasible *)
  assert (Feas : forall k, 0 <= k <= 1 -> forall lb ub x0 v pv, above lb k -> below ub k -> feasible (corrector s) (arg s lb ub x0 v) pv (fun i => if (i =? n)%nat then k else a i + k * r0 i)).
  { intros k Hk lb ub x0 v pv A B. apply feasible_iff. fold n. rewrite Nat.eqb_refl. split; [|split; [apply tr_bounds; auto|auto]]. apply tr_curve.
    intros i Hi. rewrite Nat.eqb_refl. destruct (Nat.eqb_spec i n); [lia|reflexivity]. }
  assert (Fd : forall k, rsum (n + 1) (fun i => ((if (i =? n)%nat then k else a i + k * r0 i) - w i) ^ 2) = (k - m) ^ 2 * (q * q)).
  { intro k. apply tr_dist; auto; [intros i Hi; destruct (Nat.eqb_spec i n); [lia|reflexivity]|rewrite Nat.eqb_refl; reflexivity]. }
  set (k := if Rle_dec m 0 then 0 else m). assert (Hm : m <= 1) by (unfold m; lra). assert (Hk : 0 <= k <= 1) by (unfold k; destruct (Rle_dec m 0); lra).
  destruct (He None None (s_z p) w (s_lx p) (s_lg p) _ (Feas k Hk None None (s_z p) w w I I)) as (x & lx & lg & Ex & D). fold n in D. rewrite Fd in D.
  rewrite Ex. apply Hs, feasible_iff in Ex. fold n in Ex. destruct Ex as (Xc & _). rewrite tr_curve in Xc. rewrite (tr_dist x (x n) w m Xc eq_refl W1 W2) in D.
  assert (Qq : 0 < q * q) by nra. assert (D' : (x n - m) ^ 2 <= (k - m) ^ 2) by (apply Rmult_le_reg_r with (q * q); auto). clear D.
  unfold k in *. fold m. destruct (Rle_dec m 0) as [Lm|Lm].
  - assert (X0 : x n <= 0) by nra. destruct (Rlt_dec (x n) 0) as [Neg|Neg].
    + destruct (He (Some 0) (Some 0) (s_z p) w (s_lx p) (s_lg p) _ (Feas 0 ltac:(lra) (Some 0) (Some 0) (s_z p) w w (Rle_refl 0) (Rle_refl 0))) as (y & ly & ly' & Ey & _).
      rewrite Ey. apply Hs, feasible_iff in Ey. fold n in Ey. destruct Ey as (Yc & _ & Y1 & Y2). cbn in Y1, Y2. rewrite tr_curve in Yc.
      assert (Y0 : y n = 0) by lra. eexists. split; [reflexivity|]. cbn [s_lam s_z]. split; [exact Y0|]. split; [exact Y0|]. intros i Hi. rewrite Yc, Y0 by auto. ring.
    + assert (Y0 : x n = 0) by lra. eexists. split; [reflexivity|]. cbn [s_lam s_z]. split; [exact Y0|]. split; [exact Y0|]. intros i Hi. rewrite Xc, Y0 by auto. ring.
  - assert (X0 : x n = m) by (apply Rminus_diag_uniq, Rsqr_0_uniq; pose proof (Rle_0_sqr (x n - m)); unfold Rsqr in *; replace ((m - m) ^ 2) with 0 in D' by ring; lra). destruct (Rlt_dec (x n) 0) as [Neg|Neg]; [lra|]. eexists. split; [reflexivity|]. unfold at_lam. cbn [s_lam s_z s_lb s_ub s_t].
    split; [intros i Hi; rewrite Xc, X0 by auto; reflexivity|]. split; [exact X0|]. split; [exact X0|]. split; [reflexivity|]. split; [reflexivity|]. intros u Eu. inversion Eu. exact Dt.
Qed.

Lemma tr_loop : forall f p l, at_lam p l -> 0 < l <= 1 ->
  (l * q <= INR f -> exists p', loop ipopt lin s f p = Ended p' /\ s_z p' n = 0 /\ forall i, (i < n)%nat -> s_z p' i = a i) /\
  (INR f < l * q -> exists p', loop ipopt lin s f p = Going p' /\ s_z p' n = l - INR f * / q).
Proof.
  assert (Q := q_pos). induction f; intros p l Hp Hlam; pose proof Hp as (_ & Z2 & Z3 & _).
  - cbn [loop INR]. rewrite Z3. destruct (Rlt_dec 0 l); [|lra]. split; [intro; nra|]. intros _. exists p. split; [reflexivity|]. rewrite Z2. ring.
  - cbn [loop]. rewrite Z3. destruct (Rlt_dec 0 l); [|lra]. destruct (tr_iter p l Hp Hlam) as (p' & E & H). rewrite E.
    assert (Q1 : 0 < / q) by (apply Rinv_0_lt_compat; lra). assert (Eq : (l - / q) * q = l * q - 1) by (field; lra). rewrite S_INR.
    destruct (Rle_dec (l - / q) 0) as [L|L].
    + destruct H as (A & B & C). assert (M : l * q - 1 <= 0) by (rewrite <- Eq; nra). pose proof (pos_INR f). split; [|intro; lra].
      intros _. assert (El : loop ipopt lin s f p' = Ended p') by (destruct f; cbn [loop]; rewrite A; destruct (Rlt_dec 0 0); auto; lra). exists p'. auto.
    + destruct (IHf p' (l - / q) H ltac:(lra)) as [I1 I2]. rewrite Eq in I1, I2. split; [intro; apply I1; lra|]. intro Hlt.
      destruct (I2 ltac:(lra)) as (p2 & E2 & Z). exists p2. split; [exact E2|]. rewrite Z. ring.
Qed.
End Translation.

(** F(x) = x - a: the loop ends with the root a as soon as the number of iterations reaches the length of the curve, the distance of
    (x0, 1) from (a, 0), and not before.  Exact corrector and tangent; x0 and a satisfy the hard-coded bounds, their
    distance is small enough to avoid rescaling and break. *)
Theorem C88_converges : forall ipopt lin s a fuel, exact_corrector ipopt s -> exact_lin lin s -> (501 * 13 <= e_n s + 1)%nat ->
  (forall z i, (i < e_n s)%nat -> e_F s z i = nth i z 0 - a i) ->
  (forall z i j, (i < e_n s)%nat -> (j < e_n s)%nat -> e_J s z i j = if (i =? j)%nat then 1 else 0) ->
  in_bounds s (e_x0 s) -> in_bounds s a -> (forall i, (i < e_n s)%nat -> Rabs (e_x0 s i - a i) <= 20) ->
  let d2 := rsum (e_n s) (fun i => (e_x0 s i - a i) ^ 2) in d2 <= 1000000 ->
  (sqrt (1 + d2) <= INR fuel -> exists p, psarc ipopt lin s fuel = Ended p /\ s_z p (e_n s) = 0 /\ forall i, (i < e_n s)%nat -> s_z p i = a i) /\
  (INR fuel < sqrt (1 + d2) -> exists p, psarc ipopt lin s fuel = Going p /\ s_z p (e_n s) = 1 - INR fuel / sqrt (1 + d2)).
Proof.
  intros ipopt lin s a fuel Hc Hl Hn HF HJ Hx0 Ha H20 d2 Hbig.
  destruct (C88_start s) as (_ & _ & K). destruct (K Hn Hx0 ipopt lin Hc) as (p & E & Z1 & Z2).
  unfold psarc in *. destruct (start ipopt s) as [p0|] eqn:Es; [|discriminate]. 
  assert (Ep : p0 = p). { cbn [loop] in E. destruct (Rlt_dec _ _); inversion E. reflexivity. } subst p0.
  assert (Hst : s_lam p = 1 /\ s_lb p = None /\ s_ub p = None /\ s_t p = None).
  { unfold start in Es. destruct (_ <? _)%nat; [discriminate|]. destruct (ipopt _ _ _ _) as [[[x lx] lg]|]; [|discriminate]. inversion Es. cbn. auto. }
  destruct Hst as (S1 & S2 & S3 & S4).
  pose proof (tr_loop ipopt lin s a HF HJ Hc Hl Hx0 Ha H20 Hbig fuel p 1) as L. fold d2 in L. rewrite !Rmult_1_l in L. apply L.
  - split; [|split; [|split; [|split; [|split]]]]; auto.
    + intros i Hi. rewrite Z2 by auto. ring.
    + intros u Eu. rewrite S4 in Eu. discriminate.
  - lra.
Qed.
Print Assumptions C88_converges.

(** * Sample systems *)
Lemma rows_eq : rows = (501 * 13)%nat.
Proof. reflexivity. Qed.
Lemma rows_big : (100 < rows)%nat.
Proof. unfold rows. apply Nat.ltb_lt. vm_compute. reflexivity. Qed.
Local Opaque rows.
(** [Some lb] and [Some ub] with lb > ub admit no value; otherwise the value closest to [v] *)
Definition clamp (lb ub : option R) (v : R) : option R :=
  match lb, ub with
  | Some l, Some u => if Rle_dec l u then Some (Rmax l (Rmin u v)) else None
  | Some l, None => Some (Rmax l v)
  | None, Some u => Some (Rmin u v)
  | None, None => Some v
  end.
Lemma clamp_none : forall lb ub v y, above lb y -> below ub y -> clamp lb ub v <> None.
Proof. intros [l|] [u|] v y A B; cbn in *; try discriminate. destruct (Rle_dec l u); [discriminate|]. lra. Qed.
Lemma clamp_spec : forall lb ub v k, clamp lb ub v = Some k -> above lb k /\ below ub k /\ forall y, above lb y -> below ub y -> (k - v) ^ 2 <= (y - v) ^ 2.
Proof.
  assert (Sq : forall a b, a = 0 \/ (0 <= a /\ a <= b) \/ (a <= 0 /\ b <= a) -> a ^ 2 <= b ^ 2).
  { intros a b [->|[[A B]|[A B]]]; [replace (0 ^ 2) with 0 by ring; apply pow2_ge_0|nra|nra]. }
  intros [l|] [u|] v k H; cbn in H.
  - destruct (Rle_dec l u) as [L|]; [|discriminate]. inversion H. cbn. unfold Rmax, Rmin. destruct (Rle_dec u v); destruct (Rle_dec l _); (split; [lra|split; [lra|]]); intros y A B; apply Sq; lra.
  - inversion H. cbn. unfold Rmax. destruct (Rle_dec l v); (split; [lra|split; [auto|]]); intros y A B; apply Sq; lra.
  - inversion H. cbn. unfold Rmin. destruct (Rle_dec u v); (split; [auto|split; [lra|]]); intros y A B; apply Sq; lra.
  - inversion H. cbn. split; auto. split; auto. intros y _ _. apply Sq. lra.
Qed.

(** F(x) = x - a with 6513 unknowns, x0 = 1 *)
Definition shift_sys (a : vec R) : eqs := mkEqs rows (fun l i => nth i l 0 - a i) (fun _ i j => if (i =? j)%nat then 1 else 0) (fun _ => 1).
(** exact solution of the tangent system *)
Definition id_lin : lin_solver := fun _ _ b => Some b.
Lemma shift_F : forall a l i, (i < e_n (shift_sys a))%nat -> e_F (shift_sys a) l i = nth i l 0 - a i.
Proof. reflexivity. Qed.
Lemma shift_J : forall a l i j, (i < e_n (shift_sys a))%nat -> (j < e_n (shift_sys a))%nat -> e_J (shift_sys a) l i j = if (i =? j)%nat then 1 else 0.
Proof. reflexivity. Qed.
Lemma shift_lin : forall a, exact_lin id_lin (shift_sys a).
Proof.
  intro a. split; [|discriminate]. intros z r E. apply (tr_tangent (shift_sys a) a (shift_F a) (shift_J a)). intros i Hi. inversion E.
  change (jac_lam (shift_sys a) z i) with (z i - 1 - F_at (shift_sys a) z i). rewrite (tr_F (shift_sys a) a (shift_F a)) by auto. cbn. ring.
Qed.
Lemma shift_jac : forall a, jacobian (shift_sys a).
Proof.
  intros a z v i Hi. assert (E : rsum (e_n (shift_sys a)) (fun j => e_J (shift_sys a) (map z (seq 0 (e_n (shift_sys a)))) i j * v j) = v i).
  { rewrite (rsum_ext _ _ (fun j => if (j =? i)%nat then v j else 0)); [apply rsum_delta; auto|]. intros j Hj. rewrite shift_J by auto. rewrite (Nat.eqb_sym i j). destruct (j =? i)%nat; ring. }
  rewrite E. intros eps He. destruct (affine_deriv (z i - a i) (v i) eps He) as [d Hd]. exists d. intros h H1 H2. rewrite !(tr_F (shift_sys a) a (shift_F a)) by auto.
  replace (z i + (0 + h) * v i - a i - (z i + 0 * v i - a i)) with (z i - a i + (0 + h) * v i - (z i - a i + 0 * v i)) by ring. auto.
Qed.

(** the root differs from the initial guess in one entry without bound *)
Definition goal (i : nat) : R := if (i =? 1)%nat then 3 else 1.
Definition sys := shift_sys goal.
Definition proj (lb ub : option R) (w : vec R) : option (vec R) :=
  match clamp lb ub ((w rows + -2 * (w 1%nat - 3)) / 5) with
  | Some k => Some (fun i => if (i =? rows)%nat then k else goal i + k * (1 - goal i))
  | None => None
  end.
Definition projector : nlp_solver := fun _ a _ _ =>
  match proj (a_lbx a rows) (a_ubx a rows) (fun i => nth i (a_p a) 0) with Some x => Some (x, fun _ => 0, fun _ => 0) | None => None end.
Lemma sys_curve : forall z, on_curve sys z <-> forall i, (i < rows)%nat -> z i = goal i + z rows * (1 - goal i).
Proof. intro z. exact (tr_curve sys goal (shift_F goal) z). Qed.
Lemma goal_bounds : forall k z, (forall i, (i < rows)%nat -> z i = goal i + k * (1 - goal i)) -> in_bounds sys z.
Proof. intros k z Hz j Hj Hi. rewrite Hz by auto. unfold goal. destruct (Nat.eqb_spec (13 * j) 1); [lia|]. lra. Qed.
Lemma proj_eq : forall lb ub x0 w lx lg, projector (corrector sys) (arg sys lb ub x0 w) lx lg =
  match proj lb ub w with Some x => Some (x, fun _ => 0, fun _ => 0) | None => None end.
Proof.
  intros lb ub x0 w lx lg. unfold projector. cbn [arg a_lbx a_ubx a_p]. change (e_n sys) with rows. rewrite Nat.eqb_refl.
  unfold proj. assert (N : forall i, (i < rows + 1)%nat -> nth i (map w (seq 0 (rows + 1))) 0 = w i).
  { intros i Hi. rewrite (nth_indep _ 0 (w 0%nat)) by (rewrite map_length, seq_length; auto). rewrite map_nth, seq_nth by auto. reflexivity. }
  pose proof rows_big. rewrite !N by lia. reflexivity.
Qed.
Lemma sys_exact : exact_corrector projector sys.
Proof.
  assert (S : forall lb ub w x, proj lb ub w = Some x -> exists k, clamp lb ub ((w rows + -2 * (w 1%nat - 3)) / 5) = Some k /\ x rows = k /\ forall i, (i < rows)%nat -> x i = goal i + k * (1 - goal i)).
  { intros lb ub w x H. unfold proj in H. destruct (clamp lb ub _) as [k|] eqn:E; [|discriminate]. exists k. inversion H. rewrite Nat.eqb_refl. split; auto. split; auto.
    intros i Hi. destruct (Nat.eqb_spec i rows); [lia|reflexivity]. }
  split.
  - intros lb ub x0 w lx lg x lx' lg' H. rewrite proj_eq in H. destruct (proj lb ub w) as [x'|] eqn:E; [|discriminate]. inversion H; subst x'.
    destruct (S _ _ _ _ E) as (k & Ek & X1 & X2). destruct (clamp_spec _ _ _ _ Ek) as (A & B & _). apply feasible_iff. change (e_n sys) with rows. rewrite X1.
    split; [apply sys_curve; intros i Hi; rewrite X1; auto|]. split; [apply (goal_bounds k); auto|auto].
  - intros lb ub x0 w lx lg y Hy. apply feasible_iff in Hy. change (e_n sys) with rows in Hy. destruct Hy as (Yc & _ & A & B). rewrite sys_curve in Yc. rewrite proj_eq.
    destruct (proj lb ub w) as [x|] eqn:E.
    + exists x, (fun _ => 0), (fun _ => 0). split; [reflexivity|]. destruct (S _ _ _ _ E) as (k & Ek & X1 & X2). destruct (clamp_spec _ _ _ _ Ek) as (_ & _ & M). specialize (M _ A B).
      set (v := (w rows + -2 * (w 1%nat - 3)) / 5) in *. change (e_n sys) with rows.
      assert (D : forall z m, z rows = m -> (forall i, (i < rows)%nat -> z i = goal i + m * (1 - goal i)) ->
        rsum (rows + 1) (fun i => (z i - w i) ^ 2) = rsum rows (fun i => if (i =? 1)%nat then 0 else (1 - w i) ^ 2) + ((3 - 2 * m - w 1%nat) ^ 2 + (m - w rows) ^ 2)).
      { intros z m Z1 Z2. rewrite Nat.add_1_r, rsum_S, Z1, <- Rplus_assoc. f_equal.
        rewrite (rsum_ext rows _ (fun i => (if (i =? 1)%nat then 0 else (1 - w i) ^ 2) + (if (i =? 1)%nat then (3 - 2 * m - w i) ^ 2 else 0))).
        - rewrite rsum_plus. f_equal. apply (rsum_delta rows 1 (fun i => (3 - 2 * m - w i) ^ 2)). pose proof rows_big. lia.
        - intros i Hi. rewrite Z2 by auto. unfold goal. destruct (i =? 1)%nat; ring. }
      rewrite (D x k X1 X2), (D y (y rows) eq_refl Yc). apply Rplus_le_compat_l.
      assert (Q : forall m, (3 - 2 * m - w 1%nat) ^ 2 + (m - w rows) ^ 2 = 5 * (m - v) ^ 2 + ((3 - w 1%nat) ^ 2 + w rows ^ 2 - 5 * v ^ 2)) by (intro m; unfold v; field).
      rewrite !Q. lra.
    + exfalso. unfold proj in E. pose proof (clamp_none lb ub ((w rows + -2 * (w 1%nat - 3)) / 5) (y rows) A B). destruct (clamp _ _ _); [discriminate|congruence].
Qed.
(** three iterations *)
Example C88_converges_ex : exists p, psarc projector id_lin sys 3 = Ended p /\ s_z p 1%nat = 3.
Proof.
  assert (Sum : rsum (e_n sys) (fun i => (e_x0 sys i - goal i) ^ 2) = 4).
  { change (e_n sys) with rows. rewrite (rsum_ext rows _ (fun i => if (i =? 1)%nat then 4 else 0)).
    - rewrite (rsum_delta rows 1 (fun _ => 4)); auto. pose proof rows_big. lia.
    - intros i _. cbn. unfold goal. destruct (i =? 1)%nat; ring. }
  destruct (C88_converges projector id_lin sys goal 3) as [K _].
  - apply sys_exact.
  - apply shift_lin.
  - change (e_n sys) with rows. rewrite rows_eq. lia.
  - apply shift_F.
  - apply shift_J.
  - intros k _ _. cbn. lra.
  - apply (goal_bounds 0). intros. ring.
  - intros i _. cbn. unfold goal. destruct (i =? 1)%nat; [rewrite Rabs_left|rewrite Rabs_pos_eq]; lra.
  - rewrite Sum. lra.
  - rewrite Sum in K. destruct K as (p & E & _ & Z).
    + replace (INR 3) with 3 by (cbn; ring). replace 3 with (sqrt (3 * 3)) by (apply sqrt_square; lra). apply sqrt_le_1_alt. lra.
    + exists p. split; [exact E|]. rewrite Z by (pose proof rows_big; change (e_n sys) with rows; lia). reflexivity.
Qed.
Example C88_root_ex : exists p, psarc projector id_lin sys 3 = Ended p /\ F_at sys (s_z p) 1 = 0.
Proof.
  destruct C88_converges_ex as (p & E & _). exists p. split; [exact E|]. pose proof (C88_root projector id_lin sys 3 (proj1 sys_exact)) as H. rewrite E in H.
  destruct H as (_ & _ & H). apply H. change (e_n sys) with rows. pose proof rows_big. lia.
Qed.
Example C88_start_ex : exists p, psarc projector id_lin sys 0 = Going p /\ s_z p 1%nat = 1.
Proof.
  destruct (C88_start sys) as (_ & _ & H). destruct (H ltac:(change (e_n sys) with rows; rewrite rows_eq; lia) ltac:(intros k _ _; cbn; lra) projector id_lin sys_exact) as (p & E & _ & Z).
  exists p. split; [exact E|]. rewrite Z by (change (e_n sys) with rows; pose proof rows_big; lia). reflexivity.
Qed.
(** the first iteration from (x0, 1) *)
Definition first (s : eqs) : pst := mkPst (fun _ => 1) (fun _ => 0) (fun _ => 0) None None None 1.
Lemma sys_first : exists p', iteration projector id_lin sys (first sys) = Some (p', false) /\ 0 < s_z p' rows.
Proof.
  assert (Sum : rsum (e_n sys) (fun i => (e_x0 sys i - goal i) ^ 2) = 4).
  { change (e_n sys) with rows. rewrite (rsum_ext rows _ (fun i => if (i =? 1)%nat then 4 else 0)).
    - rewrite (rsum_delta rows 1 (fun _ => 4)); auto. pose proof rows_big. lia.
    - intros i _. cbn. unfold goal. destruct (i =? 1)%nat; ring. }
  destruct (tr_iter projector id_lin sys goal (shift_F goal) (shift_J goal) sys_exact (shift_lin goal)) with (p := first sys) (l := 1) as (p' & E & H).
  - intros k _ _. cbn. lra.
  - apply (goal_bounds 0). intros. ring.
  - intros i _. cbn. unfold goal. destruct (i =? 1)%nat; [rewrite Rabs_left|rewrite Rabs_pos_eq]; lra.
  - rewrite Sum. lra.
  - unfold first. cbn [s_z s_lam s_lb s_ub s_t]. repeat split; auto; try discriminate. intros i Hi. cbn. ring.
  - lra.
  - exists p'. split; [exact E|]. rewrite Sum in H.
    assert (S2 : 2 < sqrt (1 + 4)) by (replace 2 with (sqrt (2 * 2)) by (apply sqrt_square; lra); apply sqrt_lt_1_alt; lra).
    assert (I2 : / sqrt (1 + 4) < / 2) by (apply Rinv_lt_contravar; lra).
    destruct (Rle_dec (1 - / sqrt (1 + 4)) 0) as [L|L]; [lra|]. destruct H as (_ & H & _). change (e_n sys) with rows in H. rewrite H. lra.
Qed.
Example C88_direction_ex : exists p' t, iteration projector id_lin sys (first sys) = Some (p', false) /\ s_t p' = Some t /\ curve_derivative sys (fun _ => 1) t 1 0.
Proof.
  destruct sys_first as (p' & E & _). destruct (C88_direction projector id_lin sys (first sys) p' false (proj1 (shift_lin goal)) E) as (t & Et & _ & _ & D).
  exists p', t. split; [exact E|]. split; [exact Et|]. apply D.
  - apply shift_jac.
  - intros r Hr i Hi. rewrite (proj1 (tr_tangent sys goal (shift_F goal) (shift_J goal) _ r) Hr i Hi). cbn. unfold goal. destruct (i =? 1)%nat; [rewrite Rabs_left|rewrite Rabs_pos_eq]; lra.
  - change (e_n sys) with rows. pose proof rows_big. lia.
Qed.
Example C88_step_ex : exists p' t, iteration projector id_lin sys (first sys) = Some (p', false) /\ s_t p' = Some t /\
  rsum (rows + 1) (fun i => (s_z p' i - (1 + t i)) ^ 2) <= 1.
Proof.
  destruct sys_first as (p' & E & P). destruct (C88_step projector id_lin sys (first sys) p' false sys_exact) as (_ & _ & t & Et & _ & D); auto.
  - apply sys_curve. intros i _. cbn. ring.
  - intros k _ _. cbn. lra.
  - exists p', t. auto.
Qed.

(** * Limits *)

(** "every system of equations can be solved": false, the example of the repository (two unknowns) always gives an exception *)
Definition example2 : eqs := mkEqs 2
  (fun l i => let x := nth 0 l 0 in let y := nth 1 l 0 in if (i =? 0)%nat then x * x + 4 * (y * y) - 9 else 18 * y - 14 * (x * x) + 45)
  (fun l i j => let x := nth 0 l 0 in let y := nth 1 l 0 in
     match i, j with 0%nat, 0%nat => 2 * x | 0%nat, _ => 8 * y | _, 0%nat => - (28 * x) | _, _ => 18 end) (fun _ => 0).
Theorem C88_small_refuted : exists s, (exists x, forall i, (i < e_n s)%nat -> F_at s x i = 0) /\ forall ipopt lin fuel, psarc ipopt lin s fuel = Failed.
Proof.
  exists example2. split.
  - set (y := (-18 + sqrt 18468) / 112). assert (S : sqrt 18468 * sqrt 18468 = 18468) by (apply sqrt_sqrt; lra). assert (S0 := sqrt_pos 18468).
    assert (Y : 56 * (y * y) + 18 * y - 81 = 0) by (unfold y; nra). set (x := sqrt ((18 * y + 45) / 14)).
    assert (X : x * x = (18 * y + 45) / 14) by (apply sqrt_sqrt; unfold y; lra).
    exists (fun i => if (i =? 0)%nat then x else y). intros i Hi. cbn in Hi. unfold F_at. cbn. destruct i as [|[|]]; [| |lia]; cbn; rewrite X; lra.
  - intros ipopt lin fuel. apply (C88_start example2). cbn [example2 e_n]. lia.
Qed.
Print Assumptions C88_small_refuted.

(** "with an exact corrector the constructor returns whenever the equations have a root and the Jacobian is the identity": false.  The
    hard-coded bounds leave only the initial guess on the curve, the loop goes on for ever. *)
Definition trap (i : nat) : R := if (i =? 0)%nat then 0 else if (i =? 13)%nat then 2 else 1.
Definition stay : nlp_solver := fun _ a _ _ =>
  match clamp (a_lbx a rows) (a_ubx a rows) 1 with
  | Some k => if Req_EM_T k 1 then Some (fun _ => 1, fun _ => 0, fun _ => 0) else None
  | None => None
  end.
Theorem C88_endless_refuted : exists ipopt lin s, exact_corrector ipopt s /\ exact_lin lin s /\ jacobian s /\ (501 * 13 <= e_n s + 1)%nat /\ in_bounds s (e_x0 s) /\
  (forall l i j, (i < e_n s)%nat -> (j < e_n s)%nat -> e_J s l i j = if (i =? j)%nat then 1 else 0) /\
  (exists x, forall i, (i < e_n s)%nat -> F_at s x i = 0) /\
  forall fuel, exists p, psarc ipopt lin s fuel = Going p.
Proof.
  set (s := shift_sys trap). pose proof rows_big as Big.
  assert (Cv : forall z, on_curve s z <-> forall i, (i < rows)%nat -> z i = trap i + z rows * (1 - trap i)) by (intro z; exact (tr_curve s trap (shift_F trap) z)).
  assert (One : forall z, on_curve s z -> in_bounds s z -> z rows = 1 /\ forall i, (i < rows)%nat -> z i = 1).
  { intros z C B. rewrite Cv in C. assert (B0 := B 0%nat ltac:(lia) ltac:(change (e_n s) with rows; lia)). assert (B1 := B 1%nat ltac:(lia) ltac:(change (e_n s) with rows; lia)).
    change (13 * 0)%nat with 0%nat in B0. change (13 * 1)%nat with 13%nat in B1. rewrite C in B0, B1 by lia. change (trap 0) with 0 in B0. change (trap 13) with 2 in B1.
    assert (Z : z rows = 1) by lra. split; [exact Z|].
    intros i Hi. rewrite C, Z by auto. ring. }
  assert (On : on_curve s (fun _ => 1)) by (apply Cv; intros; ring). assert (Ib : in_bounds s (fun _ => 1)) by (intros k _ _; lra).
  assert (Ar : forall lb ub x0 w lx lg, stay (corrector s) (arg s lb ub x0 w) lx lg =
    match clamp lb ub 1 with Some k => if Req_EM_T k 1 then Some (fun _ => 1, fun _ => 0, fun _ => 0) else None | None => None end).
  { intros. unfold stay. cbn [arg a_lbx a_ubx]. change (e_n s) with rows. rewrite Nat.eqb_refl. reflexivity. }
  assert (Cl : forall lb ub, above lb 1 -> below ub 1 -> clamp lb ub 1 = Some 1).
  { intros lb ub A B. destruct (clamp lb ub 1) as [k|] eqn:E; [|destruct (clamp_none lb ub 1 1 A B E)]. destruct (clamp_spec _ _ _ _ E) as (_ & _ & M).
    specialize (M 1 A B). f_equal. apply Rminus_diag_uniq, Rsqr_0_uniq. pose proof (Rle_0_sqr (k - 1)). unfold Rsqr in *. replace ((1 - 1) ^ 2) with 0 in M by ring. lra. }
  assert (Ex : exact_corrector stay s).
  { split.
    - intros lb ub x0 w lx lg x lx' lg' H. rewrite Ar in H. destruct (clamp lb ub 1) as [k|] eqn:E; [|discriminate]. destruct (Req_EM_T k 1) as [->|]; [|discriminate]. inversion H.
      destruct (clamp_spec _ _ _ _ E) as (A & B & _). apply feasible_iff. auto.
    - intros lb ub x0 w lx lg y Hy. apply feasible_iff in Hy. change (e_n s) with rows in Hy. destruct Hy as (Yc & Yb & A & B). destruct (One y Yc Yb) as [Y1 Y2]. rewrite Y1 in A, B.
      rewrite Ar, (Cl lb ub A B). destruct (Req_EM_T 1 1); [|congruence]. eexists. eexists. eexists. split; [reflexivity|].
      apply Req_le, rsum_ext. intros i Hi. change (e_n s) with rows in Hi. destruct (Nat.eq_dec i rows) as [->|Hne]; [rewrite Y1; ring|]. rewrite Y2 by lia. ring. }
  exists stay, id_lin, s. split; [exact Ex|]. split; [apply shift_lin|]. split; [apply shift_jac|]. split; [change (e_n s) with rows; rewrite rows_eq; lia|]. split; [exact Ib|].
  split; [apply shift_J|]. split; [exists trap; intros i Hi; rewrite (tr_F s trap (shift_F trap)) by auto; ring|].
  assert (It : forall p, s_lb p = None -> s_ub p = None -> (forall i, (i <= rows)%nat -> s_z p i = 1) -> exists p', iteration stay id_lin s p = Some (p', false) /\
    s_lb p' = None /\ s_ub p' = None /\ (forall i, (i <= rows)%nat -> s_z p' i = 1) /\ s_lam p' = 1).
  { intros p L U Z. destruct (tr_slope id_lin s trap (shift_F trap) (shift_J trap) (shift_lin trap)) with (z := s_z p) as (r & Er & Hr).
    - intros i _. cbn. unfold trap. destruct (i =? 0)%nat; [rewrite Rabs_pos_eq; lra|]. destruct (i =? 13)%nat; [rewrite Rabs_left; lra|rewrite Rabs_pos_eq; lra].
    - unfold iteration. rewrite Er, L, U, Ar. rewrite (Cl None None I I). destruct (Req_EM_T 1 1); [|congruence]. destruct (Rlt_dec 1 0); [lra|].
      assert (D : dotn (e_n s) r r <= 1000000).
      { unfold dotn. rewrite (rsum_ext (e_n s) _ (fun i => (if (i =? 0)%nat then 1 else 0) + (if (i =? 13)%nat then 1 else 0))).
        - rewrite rsum_plus. rewrite (rsum_delta (e_n s) 0 (fun _ => 1)), (rsum_delta (e_n s) 13 (fun _ => 1)); try (change (e_n s) with rows; lia). lra.
        - intros i Hi. rewrite Hr by auto. cbn. unfold trap. destruct (Nat.eqb_spec i 0); destruct (Nat.eqb_spec i 13); try lia; ring. }
      destruct (Rlt_dec 1000000 _); [lra|]. eexists. split; [reflexivity|]. cbn. repeat split; auto. }
  assert (Lp : forall f p, s_lb p = None -> s_ub p = None -> (forall i, (i <= rows)%nat -> s_z p i = 1) -> s_lam p = 1 -> exists p', loop stay id_lin s f p = Going p').
  { induction f; intros p L U Z E; cbn [loop]; rewrite E; destruct (Rlt_dec 0 1); try lra; [eauto|].
    destruct (It p L U Z) as (p' & Ep & A & B & C & D). rewrite Ep. apply IHf; auto. }
  intro fuel. unfold psarc, start. change (e_n s) with rows. replace (rows + 1 <? rows)%nat with false by (symmetry; apply Nat.ltb_ge; lia).
  rewrite Ar. rewrite (Cl (Some 1) (Some 1) (Rle_refl 1) (Rle_refl 1)). destruct (Req_EM_T 1 1); [|congruence]. apply Lp; auto.
Qed.
Print Assumptions C88_endless_refuted.

(** "the predictor moves along the tangent of the curve": false when dx/dlambda has an entry above 20, which is scaled down to 20 while
    lambda is not *)
Theorem C88_tangent_refuted : exists ipopt lin s p p' t i d, sound_corrector ipopt s /\ exact_lin lin s /\ jacobian s /\ on_curve s (s_z p) /\ in_bounds s (s_z p) /\
  iteration ipopt lin s p = Some (p', false) /\ s_t p' = Some t /\ (i < e_n s)%nat /\ curve_derivative s (s_z p) t i d /\ d <> 0.
Proof.
  set (far := fun i : nat => if (i =? 1)%nat then -39 else 1). set (s := shift_sys far). pose proof rows_big as Big.
  set (stop := (fun _ a _ _ => match a_lbx a rows with None => match a_ubx a rows with None => Some (fun _ => 1, fun _ => 0, fun _ => 0) | _ => None end | _ => None end) : nlp_solver).
  assert (On : on_curve s (fun _ => 1)) by (apply (tr_curve s far (shift_F far)); intros; change (e_x0 s i) with 1; ring). assert (Ib : in_bounds s (fun _ => 1)) by (intros k _ _; lra).
  set (r := fun i => - jac_lam s (fun _ => 1) i).
  assert (Hr : forall i, (i < rows)%nat -> r i = if (i =? 1)%nat then 40 else 0).
  { intros i Hi. unfold r. change (jac_lam s (fun _ => 1) i) with (1 - 1 - F_at s (fun _ => 1) i). rewrite (tr_F s far (shift_F far)) by auto. unfold far. destruct (i =? 1)%nat; ring. }
  assert (Nr : norminf rows r = 40).
  { apply Rle_antisym.
    - apply rnorminf_le; [lra|]. intros i Hi. rewrite Hr by auto. destruct (i =? 1)%nat; rewrite Rabs_pos_eq; lra.
    - assert (K := rnorminf_ub rows r 1 ltac:(lia)). rewrite Hr in K by lia. cbn in K. rewrite Rabs_pos_eq in K; lra. }
  assert (Es : slope id_lin s (fun _ => 1) = Some (fun i => 20 / 40 * r i)).
  { unfold slope, id_lin. fold r. unfold rescale. change (e_n s) with rows. rewrite Nr. destruct (Rlt_dec 20 40); [reflexivity|lra]. }
  set (t := direction s None (fun i => 20 / 40 * r i)).
  destruct (direction_mult s None (fun i => 20 / 40 * r i)) as (c & _ & C1 & C2). fold t in C1, C2. change (e_n s) with rows in C1, C2.
  exists stop, id_lin, s, (first s). eexists. exists t, 1%nat. eexists.
  split. { intros lb ub x0 w lx lg x lx' lg' H. unfold stop in H. cbn [arg a_lbx a_ubx] in H. change (e_n s) with rows in H. rewrite Nat.eqb_refl in H.
           destruct lb; [discriminate|]. destruct ub; [discriminate|]. inversion H. apply feasible_iff. cbn. auto. }
  split; [apply shift_lin|]. split; [apply shift_jac|]. split; [exact On|]. split; [exact Ib|].
  split. { unfold iteration. cbn [first s_z s_t s_lb s_ub]. rewrite Es. fold t. unfold stop at 1. cbn [arg a_lbx a_ubx]. change (e_n s) with rows. rewrite Nat.eqb_refl.
           destruct (Rlt_dec 1 0); [lra|]. destruct (Rlt_dec 1000000 _) as [L|L]; [exfalso|reflexivity].
           assert (D : dotn rows (fun i => 20 / 40 * r i) (fun i => 20 / 40 * r i) = 400).
           { unfold dotn. rewrite (rsum_ext rows _ (fun i => if (i =? 1)%nat then 400 else 0)).
             - rewrite (rsum_delta rows 1 (fun _ => 400)); auto. lia.
             - intros i Hi. rewrite Hr by auto. destruct (i =? 1)%nat; field. }
           lra. }
  split; [reflexivity|]. split; [change (e_n s) with rows; lia|]. split; [apply curve_deriv; [apply shift_jac|change (e_n s) with rows; lia]|].
  change (e_n s) with rows. cbn [first s_z].
  assert (J1 : rsum rows (fun j => jac_x s (fun _ => 1) 1%nat j * t j) = t 1%nat).
  { rewrite (rsum_ext rows _ (fun j => if (j =? 1)%nat then t j else 0)); [apply (rsum_delta rows 1 t); lia|]. intros j Hj. unfold jac_x.
    change (e_J s (unknowns s (fun _ => 1)) 1%nat j) with (if (1 =? j)%nat then 1 else 0). rewrite (Nat.eqb_sym 1 j). destruct (j =? 1)%nat; ring. }
  rewrite J1, C1, C2 by lia. assert (R1 : r 1%nat = 40) by (rewrite Hr by lia; reflexivity). assert (L1 : jac_lam s (fun _ => 1) 1%nat = -40) by (unfold r in R1; lra).
  rewrite R1, L1. assert (Cn : c <> 0).
  { assert (U := direction_unit s None (fun i => 20 / 40 * r i)). fold t in U. change (e_n s) with rows in U. intro Z. rewrite (rsum_zero (rows + 1)) in U; [lra|].
    intros i Hi. destruct (Nat.eq_dec i rows) as [->|Hne]; [rewrite C2, Z; ring|]. rewrite C1 by lia. rewrite Z. ring. }
  lra.
Qed.
Print Assumptions C88_tangent_refuted.
