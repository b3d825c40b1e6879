(** Global convergence of the SQP solver on smooth problems with linear constraints (property C96). *)
Require Import Reals Lra Lia List ZArith Bool Sorted.
Require Import Verif.Scal Verif.RSum Verif.Qp_Model Verif.Qp_Spec Verif.Sqp_Model Verif.Sqp_Spec Verif.Sqp_Proofs
  Verif.Sqp_ProofsR Verif.Sqp_Example Verif.SqpGlob_Spec Verif.SqpGlob_Proofs.
Import ListNotations.
Local Open Scope R_scope.

(** C96, a sufficient condition for [smooth_cost]: the gradient is Lipschitz with constant L *)
Theorem C96_lipschitz_is_smooth : forall (P : problem R) grad jac L,
  linear_constraints P jac -> cost_derivative P grad -> reads_entries P -> lipschitz_gradient P grad L -> smooth_cost P grad L.
Proof. exact descent_lemma. Qed.
Print Assumptions C96_lipschitz_is_smooth.

Section Solver.
Variable P : problem R.
Variable st : sqp_settings R.
Variables Q W : Type.
Variable hupd : mat R -> vec R -> vec R -> mat R.
Variable hreg : mat R -> mat R.
Variable pcc : W -> qp_data R -> W * qp_data R.
Variable pcs : W -> vec R * vec R -> vec R * vec R.
Variable pcu : W -> qp_data R -> qp_data R.
Variable qps : Q -> qp_data R -> Q * (vec R * vec R * Z).
Variable qpm : Q -> Q.
Notation n := (nx P).
Notation nd := (ne P + ni P + nx P)%nat.
Notation solve := (sqp_solve P st Q W hupd hreg pcc pcs pcu qps qpm).
Notation amin mm L := (least_step (tau st) (eta st) mm L).

Notation setting := (setting P st Q W hupd hreg pcc pcs pcu qps qpm).

(** C96: all iterates are feasible and the cost never grows from one to the next ([seen] has the latest first) *)
Theorem C96_feasible_descent : forall grad jac L mm s, setting grad jac L mm s ->
  Forall (fun e => nlp_feasible P (fst e)) (seen (solve s)) /\
  StronglySorted (fun e e' => p_cost P (fst e) <= p_cost P (fst e')) (seen (solve s)) /\
  nlp_feasible P (m_x (solve s)) /\ p_cost P (m_x (solve s)) <= p_cost P (m_x s).
Proof.
  intros grad jac L mm s H. destruct (setting_ok P st Q W hupd hreg pcc pcs pcu qps qpm _ _ _ _ _ H) as (_ & _ & [_ I1 (r & I2) I3 I4 _ _]).
  split; [exact I1|]. split; [exact I3|]. split; [rewrite I2 in I1; exact (Forall_inv I1)|].
  destruct H as (_ & _ & _ & _ & H5 & H6 & H7 & H8 & H9 & _).
  assert (E : exists l, seen (solve s) = l ++ [(m_x s, m_lam s)]).
  { apply (solve_inv2 P st Q W hupd hreg pcc pcs pcu qps qpm (fun s' => exists l, seen s' = l ++ [(m_x s, m_lam s)])).
    - intros s1 s2 (_ & _ & _ & _ & _ & _ & _ & _ & <- & _). auto.
    - intros s1 s2 H0 h A b _ (p & lk & d2 & i & _ & _ & _ & _ & _ & _ & _ & _ & _ & _ & _ & _ & _ & E & _) (l & El). rewrite E, El. eexists (_ :: l). reflexivity.
    - exists []. reflexivity. }
  destruct E as (l & El). destruct l as [|t l].
  - rewrite I2 in El. injection El as -> _ _. lra.
  - rewrite I2 in El. injection El as <- ->. rewrite I2 in I3. apply StronglySorted_inv in I3. destruct I3 as [_ I3].
    rewrite Forall_forall in I3. apply (I3 (m_x s, m_lam s)). apply in_or_app. right. left. reflexivity.
Qed.

(** C96: the steps of length at least e are paid for by the cost, so there are at most
    (cost(start) - cost(result)) / (eta mm amin e^2) of them, however many iterations are made *)
Theorem C96_long_steps : forall grad jac L mm s mu e, setting grad jac L mm s ->
  Forall (multipliers_below mu) (steps (solve s)) -> 2 * (eta st * (mu * sqp_eps)) <= (1 - eta st) * mm * (e * e) ->
  INR (length (long_steps n e (steps (solve s)))) * (eta st * mm * amin mm L * (e * e)) <= p_cost P (m_x s) - p_cost P (m_x (solve s)).
Proof.
  intros grad jac L mm s mu e H HM Hq. destruct (setting_ok P st Q W hupd hreg pcc pcs pcu qps qpm _ _ _ _ _ H) as (_ & _ & I). apply (i_long _ _ _ _ _ _ _ _ _ _ I).
  destruct H as (_ & _ & _ & _ & H5 & H6 & H7 & H8 & _). apply (tiny_of P st Q W hupd hreg pcc pcs pcu qps qpm mm mu); auto; [lra|apply dims].
Qed.

(** C96: with a cost bounded below and enough iterations, one of the iterates is an approximate KKT point *)
Theorem C96_near_kkt_reached : forall grad jac L mm s mu e M fmin N, setting grad jac L mm s ->
  Forall (multipliers_below mu) (steps (solve s)) -> 2 * (eta st * (mu * sqp_eps)) <= (1 - eta st) * mm * (e * e) ->
  Forall (hessian_below M) (steps (solve s)) -> 0 < e -> bounded_below P fmin ->
  p_cost P (m_x s) - fmin < INR N * (eta st * mm * amin mm L * (e * e)) -> (Z.of_nat N <= smax_iter st)%Z ->
  exists x lam z lk, In (x, lam) (seen (solve s)) /\ near_kkt P grad jac M (Rmax e (eps_prim st / amin mm L)) x z lk.
Proof.
  intros grad jac L mm s mu e M fmin N H Hmu Hq HM He Hb HN Hmax. destruct (setting_ok P st Q W hupd hreg pcc pcs pcu qps qpm _ _ _ _ _ H) as (_ & HO & _).
  destruct H as (H1 & H2 & H3 & H4 & H5 & H6 & H7 & H8 & H9 & H10 & H11 & _).
  apply (run_near P grad jac L mm) with fmin N; auto. apply (tiny_of P st Q W hupd hreg pcc pcs pcu qps qpm mm mu); auto; [lra|apply dims].
Qed.

(** C96: SOLVED means that the last step began at an approximate KKT point within eps_prim of the result *)
Theorem C96_solved_near_kkt : forall grad jac L mm s mu e M, setting grad jac L mm s ->
  Forall (multipliers_below mu) (steps (solve s)) -> 2 * (eta st * (mu * sqp_eps)) <= (1 - eta st) * mm * (e * e) ->
  Forall (hessian_below M) (steps (solve s)) -> 0 <= e -> m_status (solve s) = SqpSolved ->
  exists x lam r z lk, seen (solve s) = (m_x (solve s), m_lam (solve s)) :: (x, lam) :: r /\
    (forall j, (j < n)%nat -> Rabs (m_x (solve s) j - x j) <= eps_prim st) /\
    near_kkt P grad jac M (Rmax e (eps_prim st / amin mm L)) x z lk.
Proof.
  intros grad jac L mm s mu e M H Hmu Hq HM He Hst. destruct (setting_ok P st Q W hupd hreg pcc pcs pcu qps qpm _ _ _ _ _ H) as (_ & HO & _).
  destruct H as (H1 & H2 & H3 & H4 & H5 & H6 & H7 & H8 & H9 & H10 & H11 & _).
  apply (solved_near P grad jac L mm); auto. apply (tiny_of P st Q W hupd hreg pcc pcs pcu qps qpm mm mu); auto; [lra|apply dims].
Qed.

(** C96: without constraints SOLVED is guaranteed: K iterations bring the multipliers below eps_dual, N more use up the
    cost *)
Theorem C96_unconstrained_solved : forall grad jac L mm s K N fmin, setting grad jac L mm s -> unconstrained P ->
  0 < eps_prim st -> (1 - amin mm L) ^ K * rnorminf nd (m_lam s) <= eps_dual st -> bounded_below P fmin ->
  p_cost P (m_x s) - fmin < INR N * (eta st * mm * (eps_prim st * eps_prim st)) ->
  (1 <= K + N)%nat -> (Z.of_nat (K + N) <= smax_iter st)%Z ->
  m_status (solve s) = SqpSolved /\ (m_iter (solve s) <= Z.of_nat (K + N))%Z.
Proof.
  intros grad jac L mm s K N fmin H HU He Hd Hb HN H1' Hm. destruct (setting_ok P st Q W hupd hreg pcc pcs pcu qps qpm _ _ _ _ _ H) as (_ & HO & _).
  destruct H as (H1 & H2 & H3 & H4 & H5 & H6 & H7 & H8 & H9 & H10 & H11 & _).
  eapply (free_solved P grad jac L mm) with (fmin := fmin); eauto. apply rnorminf_nonneg.
Qed.
End Solver.
Print Assumptions C96_feasible_descent.
Print Assumptions C96_long_steps.
Print Assumptions C96_near_kkt_reached.
Print Assumptions C96_solved_near_kkt.
Print Assumptions C96_unconstrained_solved.

(** minimise sqrt(1 + x^2), without constraints or with a lower bound; the Hessian approximation is kept at 1 *)
Definition gl_cost (x : vec R) : R := sqrt (1 + x O * x O).
Definition gl_grad (x : vec R) : vec R := fun _ => x O / sqrt (1 + x O * x O).
Definition gl_P (lo : ext R) : problem R :=
  {| nx := 1; ne := 0; ni := 0; p_cost := gl_cost; p_eq := fun _ _ => 0; p_ineq := fun _ _ => 0;
     p_lag_full := fun x l => (gl_grad x, fun _ _ => 1, gl_grad x, fun i => if Nat.ltb i 0 then 0 else 0, fun _ _ => 0);
     p_lag := fun x l => (gl_grad x, gl_grad x, fun i => if Nat.ltb i 0 then 0 else 0, fun _ _ => 0);
     lbx := fun _ => lo; ubx := fun _ => PInf; lbg := fun _ => MInf; ubg := fun _ => PInf |}.
Definition gl_qp (q : unit) (d : qp_data R) : unit * (vec R * vec R * Z) :=
  let p := match qxlb d O with Fin l => Rmax (- qh d O) l | _ => - qh d O end in
  (q, (fun j => match j with O => p | _ => 0 end, fun i => match i with O => - qh d O - p | _ => 0 end, 1%Z)).
Definition gl_set : sqp_settings R := mkSqpSettings (/ 2) (/ 4) (/ 2) (/ 10) (/ 10) 4000 100 false.
Definition gl_start (v l : R) : @sqp_state R unit unit :=
  mkSqp (fun _ => v) (fun _ => l) (fun _ => 0) (fun _ _ => 1) (fun _ => 0) 0 0 (Fin 0) 0 SqpMaxIter 0 0 tt tt [] [] [].
Definition gl_solve lo s := sqp_solve (gl_P lo) gl_set unit unit (fun B _ _ => B) (fun H => H) ex_pc (fun _ r => r) (fun _ d => d) gl_qp (fun q => q) s.

Lemma root_pos t : 0 < sqrt (1 + t * t).
Proof. apply sqrt_lt_R0. nra. Qed.
Lemma root_sq t : sqrt (1 + t * t) * sqrt (1 + t * t) = 1 + t * t.
Proof. apply sqrt_sqrt. nra. Qed.
Lemma gl_smooth lo : smooth_cost (gl_P lo) gl_grad 1.
Proof.
  intros x y _ _. rexpand. cbn. unfold gl_cost. set (u := x O). set (v := y O). fold u v.
  assert (A := root_pos u). assert (B := root_pos v). assert (A2 := root_sq u). assert (B2 := root_sq v).
  set (a := sqrt (1 + u * u)) in *. set (b := sqrt (1 + v * v)) in *. unfold gl_grad. fold u. fold a.
  apply Rmult_le_reg_l with a; [exact A|].
  replace (a * (a + (0 + u / a * (v - u)) + 1 / 2 * (0 + (v - u) * (v - u)))) with (a * a + u * (v - u) + a * ((v - u) * (v - u)) / 2) by (field; lra).
  rewrite A2. assert (A1 : 1 <= a) by nra. assert (a * b <= (a * a + b * b) / 2) by (assert (X := Rle_0_sqr (a - b)); unfold Rsqr in X; lra).
  assert (0 <= (a - 1) * ((v - u) * (v - u))) by (apply Rmult_le_pos; [lra|apply Rle_0_sqr]). lra.
Qed.
Lemma gl_steps lo v l : (exists x, lo = Fin x) \/ lo = MInf -> Forall (fun e => exact_step e /\ hessian_above 1 e /\ hessian_below 1 e) (steps (gl_solve lo (gl_start v l))).
Proof.
  intros Hlo.
  assert (Ok : forall x q, let d := sub_qp (gl_P lo) (fun _ _ => 1) (gl_grad x) (fun _ _ => 0) (fun i => if Nat.ltb i 0 then 0 else 0) x in
     let r := snd (gl_qp q d) in exact_step (d, fst r) /\ hessian_above 1 (d, fst r) /\ hessian_below 1 (d, fst r)).
  { intros x q. cbv zeta. split; [split|split].
    - intros w (i & Hi & Hw). cbn in Hi. assert (i = O) by lia. subst i. cbn [fst sub_qp qn qH gl_P nx]. unfold qf. rexpand. cbn. nra.
    - cbn [fst snd gl_qp]. set (g := gl_grad x). unfold kkt_pair, qp_feasible. cbn [sub_qp qn qm qA qAlb qAub qxlb qxub qh qH gl_P nx ne ni Nat.add lbx ubx].
      split; [|split; [split|split]].
      + intros j Hj. assert (j = O) by lia. subst j. unfold lag_grad. cbn [sub_qp qn qm qA qH qh gl_P nx ne ni Nat.add]. rexpand. cbn [ext_sub].
        destruct lo; simpl; ring.
      + intros i Hi. lia.
      + intros j Hj. assert (j = O) by lia. subst j. split; [|exact I]. destruct lo as [z| |]; simpl; auto; [apply Rmax_r|].
        destruct Hlo as [(? & H)|H]; discriminate.
      + intros i Hi. lia.
      + intros j Hj. assert (j = O) by lia. subst j. unfold sign_ok. destruct lo as [z| |]; simpl.
        * split; intros H; [assert (X := Rmax_l (- g O) (z - x O)); lra|]. f_equal. unfold Rmax in *. destruct (Rle_dec _ _); lra.
        * destruct Hlo as [(? & H)|H]; discriminate.
        * split; intros H; lra.
    - intros w. cbn [fst sub_qp qn qH gl_P nx]. unfold qf. rexpand. cbn. lra.
    - intros j Hj. cbn [fst sub_qp qn qH gl_P nx]. rexpand. rewrite Rabs_R1. cbn. lra. }
  pose (I := fun s : @sqp_state R unit unit => m_H s = (fun _ _ => 1) /\ Forall (fun e => exact_step e /\ hessian_above 1 e /\ hessian_below 1 e) (steps s)).
  enough (X : I (gl_solve lo (gl_start v l))) by apply X.
  unfold gl_solve.
  apply (solve_inv (gl_P lo) gl_set unit unit (fun B _ _ => B) (fun H => H) ex_pc (fun _ r => r) (fun _ d => d) gl_qp (fun q => q) I); unfold I.
  - intros s s' (_ & _ & _ & E1 & _ & _ & _ & _ & _ & E2). rewrite E1, E2. auto.
  - intros s lagg h b A [HP HF] E. cbn [gl_P p_lag] in E. injection E as <- <- <- <-.
    unfold sqp_step, ex_pc. rewrite HP. specialize (Ok (m_x s) (m_q s)). cbv zeta in Ok.
    destruct (gl_qp (m_q s) _) as [q [[p0 l0] it]] eqn:EQ.
    destruct (step_size_selection _ _ _ _ _ _ _) as [[al c] ev]. cbn [m_H steps].
    split; [reflexivity|]. constructor; [|exact HF]. exact Ok.
  - unfold sqp_first. cbn [gl_P p_lag_full m_x m_lam gl_start].
    unfold sqp_step, ex_pc. cbn [m_q m_w m_x m_lam gl_start]. specialize (Ok (fun _ => v) tt). cbv zeta in Ok.
    destruct (gl_qp tt _) as [q [[p0 l0] it]] eqn:EQ.
    match goal with |- context [step_size_selection ?a1 ?a2 ?a3 ?a4 ?a5 ?a6 ?a7] => destruct (step_size_selection a1 a2 a3 a4 a5 a6 a7) as [[al c] ev] end. cbn [m_H steps].
    split; [reflexivity|]. constructor; [exact Ok|constructor].
Qed.
Lemma gl_setting lo v l : (exists x, lo = Fin x /\ x <= v) \/ lo = MInf ->
  setting (gl_P lo) gl_set unit unit (fun B _ _ => B) (fun H => H) ex_pc (fun _ r => r) (fun _ d => d) gl_qp (fun q => q) gl_grad (fun _ _ _ => 0) 1 1 (gl_start v l).
Proof.
  intros Hlo. assert (F := gl_steps lo v l ltac:(destruct Hlo as [(x & H & _)|H]; eauto)).
  split; [|split; [|split; [|split; [apply gl_smooth|split; [lra|split; [lra|split; [cbn; lra|split; [cbn; lra|split; [|split; [|split; [|split]]]]]]]]]]].
  - split; intros k Hk; cbn in Hk; [lia|]. cbn [gl_P lbx ubx]. unfold lower_proper, upper_proper. destruct Hlo as [(x & -> & _)| ->]; split; try exact I; try discriminate.
  - split; intros x lam; [exists (gl_grad x), (fun _ _ => 1)|exists (gl_grad x)]; reflexivity.
  - intros r Hr. cbn in Hr. lia.
  - cbn [tau eta gl_set ls_max_iter]. replace (Z.to_nat (100 - 1)) with (S (Z.to_nat 98)) by lia. simpl pow.
    assert (X : (/ 2) ^ Z.to_nat 98 <= 1 ^ Z.to_nat 98) by (apply pow_incr; split; lra). rewrite pow1 in X. lra.
  - intros w d w' d1 _ _ E j _. injection E as <- <-. reflexivity.
  - split; [intros i Hi; cbn in Hi; lia|split; [intros i Hi; cbn in Hi; lia|]]. intros j Hj. cbn. destruct Hlo as [(x & -> & Hx)| ->]; split; simpl; auto.
  - eapply Forall_impl; [|exact F]. tauto.
  - eapply Forall_impl; [|exact F]. tauto.
Qed.
Lemma gl_least : least_step (tau gl_set) (eta gl_set) 1 1 = 3 / 8.
Proof. unfold least_step. cbn [tau eta gl_set]. rewrite Rmin_right; lra. Qed.
Lemma gl_below lo : bounded_below (gl_P lo) 1.
Proof. intros x _. cbn. unfold gl_cost. rewrite <- sqrt_1 at 1. apply sqrt_le_1_alt. nra. Qed.
Lemma gl_cost3 lo : p_cost (gl_P lo) (m_x (gl_start 3 1)) - 1 < 9 / 4.
Proof.
  cbn. unfold gl_cost. assert (X : sqrt (1 + 3 * 3) < 13 / 4); [|lra].
  rewrite <- (sqrt_square (13 / 4)) by lra. apply sqrt_lt_1; lra.
Qed.

(** from 3 with multiplier 1 the unconstrained problem is solved within 905 iterations *)
Example C96_example_free : m_status (gl_solve MInf (gl_start 3 1)) = SqpSolved /\ (m_iter (gl_solve MInf (gl_start 3 1)) <= 905)%Z.
Proof.
  destruct (C96_unconstrained_solved (gl_P MInf) gl_set unit unit (fun B _ _ => B) (fun H => H) ex_pc (fun _ r => r) (fun _ d => d) gl_qp (fun q => q)
    gl_grad (fun _ _ _ => 0) 1 1 (gl_start 3 1) 5 (Z.to_nat 900) 1) as [X Y].
  - apply gl_setting. right. reflexivity.
  - split; [reflexivity|split; [reflexivity|]]. intros j Hj. split; reflexivity.
  - cbn. lra.
  - rewrite gl_least. cbn [eps_dual gl_set gl_P ne ni nx Nat.add]. rewrite rnorminf_S. cbn [gl_start m_lam]. unfold rnorminf. simpl.
    rewrite Rabs_R1. rewrite Rmax_right by lra. lra.
  - apply gl_below.
  - eapply Rlt_le_trans; [apply gl_cost3|]. rewrite INR_IZR_INZ, Z2Nat.id by lia. cbn [eta eps_prim gl_set]. lra.
  - lia.
  - cbn [smax_iter gl_set]. lia.
  - split; [exact X|]. unfold gl_solve. lia.
Qed.

(** with the bound x >= 1 an approximate KKT point is among the iterates *)
Example C96_example_bound : exists x lam z lk, In (x, lam) (seen (gl_solve (Fin 1) (gl_start 3 1))) /\
  near_kkt (gl_P (Fin 1)) gl_grad (fun _ _ _ => 0) 1 (4 / 15) x z lk.
Proof.
  assert (S := gl_setting (Fin 1) 3 1 ltac:(left; exists 1; split; [reflexivity|lra])).
  assert (F := gl_steps (Fin 1) 3 1 ltac:(eauto)).
  replace (4 / 15) with (Rmax (/ 10) (eps_prim gl_set / least_step (tau gl_set) (eta gl_set) 1 1)).
  2: { rewrite gl_least. cbn. rewrite Rmax_right; lra. }
  apply (C96_near_kkt_reached (gl_P (Fin 1)) gl_set unit unit (fun B _ _ => B) (fun H => H) ex_pc (fun _ r => r) (fun _ d => d) gl_qp (fun q => q)
    gl_grad (fun _ _ _ => 0) 1 1 (gl_start 3 1) 2 (/ 10) 1 1 (Z.to_nat 3000)); auto.
  - destruct (setting_ok _ _ _ _ _ _ _ _ _ _ _ _ _ _ _ _ S) as (_ & HO & [I0 _ _ _ _ _ _]).
    fold (gl_solve (Fin 1) (gl_start 3 1)) in *. rewrite Forall_forall in *. intros [d [p lk]] Ht. destruct (I0 _ Ht) as (H & x & HF & E). cbn [fst] in E. subst d.
    destruct (HO _ Ht) as [[_ HK] HH]. destruct (F _ Ht) as (_ & _ & HM). cbn [fst snd] in *.
    assert (Sl : rdot (nx (gl_P (Fin 1))) (gl_grad x) p <= - (1 * rdot (nx (gl_P (Fin 1))) p p)).
    { apply (slope (gl_P (Fin 1)) gl_grad (fun _ _ _ => 0) 1) with (H := H) (lk := lk); auto; try (exact (HH p)); try apply S; try lra. }
    cbn [gl_P nx] in Sl. rewrite !rdot_def in Sl. cbn in Sl.
    assert (G : Rabs (gl_grad x O) <= 1).
    { unfold gl_grad. set (u := x O). assert (A := root_pos u). assert (A2 := root_sq u). set (a := sqrt (1 + u * u)) in *.
      unfold Rdiv. rewrite Rabs_mult, Rabs_inv, (Rabs_right a) by lra. apply Rmult_le_reg_r with a; auto. rewrite Rmult_assoc, Rinv_l, Rmult_1_r, Rmult_1_l by lra.
      apply Rabs_le. split; nra. }
    assert (Hp : Rabs (p O) <= 1).
    { assert (G1 := Rle_abs (gl_grad x O)); assert (G2 := Rle_abs (- gl_grad x O)); rewrite Rabs_Ropp in G2. apply Rabs_le. split; nra. }
    destruct HK as (K1 & _). specialize (K1 O ltac:(cbn; lia)). unfold lag_grad in K1. cbn [sub_qp qm qn qH qh qA gl_P nx ne ni Nat.add] in K1.
    rewrite rmv_def in K1. cbn in K1. specialize (HM O ltac:(cbn; lia)). cbn in HM.
    unfold multipliers_below. cbn [fst snd sub_qp qm qn gl_P nx ne ni Nat.add]. rewrite rnorminf_S.
    replace (lk O) with (- (H O O * p O) + - gl_grad x O) by lra. apply Rmax_lub; [cbn; lra|].
    eapply Rle_trans; [apply Rabs_triang|]. rewrite !Rabs_Ropp, Rabs_mult.
    assert (N0 := Rabs_pos (H O O)). assert (N1 := Rabs_pos (p O)). nra.
  - cbn. unfold sqp_eps, scst. simpl. lra.
  - eapply Forall_impl; [|exact F]. intros t (_ & _ & X). exact X.
  - lra.
  - apply gl_below.
  - rewrite gl_least. eapply Rlt_le_trans; [apply gl_cost3|]. rewrite INR_IZR_INZ, Z2Nat.id by lia. cbn [eta gl_set]. lra.
  - cbn [smax_iter gl_set]. lia.
Qed.

(** the cost meets the conditions of the first theorem with L = 1 *)
Example C96_example_lipschitz : forall lo,
  linear_constraints (gl_P lo) (fun _ _ _ => 0) /\ cost_derivative (gl_P lo) gl_grad /\ reads_entries (gl_P lo) /\ lipschitz_gradient (gl_P lo) gl_grad 1.
Proof.
  intros lo. split; [intros r Hr; cbn in Hr; lia|]. split; [|split].
  - intros x d t. cbn [gl_P p_cost nx]. unfold gl_cost. rewrite rdot_def. cbn. unfold gl_grad.
    set (v := x O + t * d O). assert (A := root_pos v).
    replace (0 + v / sqrt (1 + v * v) * d O) with (/ (2 * sqrt (1 + v * v)) * (0 + (d O * v + v * d O))) by (field; lra).
    apply (derivable_pt_lim_comp (fun u => 1 + (x O + u * d O) * (x O + u * d O)) sqrt).
    + apply (derivable_pt_lim_plus (fun _ => 1) (fun u => (x O + u * d O) * (x O + u * d O))); [apply derivable_pt_lim_const|].
      assert (D : derivable_pt_lim (fun u => x O + u * d O) t (d O)).
      { assert (D : derivable_pt_lim (fun u => x O + u * d O) t (0 + (1 * d O + t * 0))).
        { apply (derivable_pt_lim_plus (fun _ => x O) (fun u => u * d O)); [apply derivable_pt_lim_const|].
          apply (derivable_pt_lim_mult id (fun _ => d O)); [apply derivable_pt_lim_id|apply derivable_pt_lim_const]. }
        replace (0 + (1 * d O + t * 0)) with (d O) in D by ring. exact D. }
      apply (derivable_pt_lim_mult (fun u => x O + u * d O) (fun u => x O + u * d O)); exact D.
    + apply derivable_pt_lim_sqrt. fold v. nra.
  - intros x y E. cbn. unfold gl_cost. rewrite (E O) by (cbn; lia). reflexivity.
  - intros x y _ _. rewrite !rdot_def. cbn. unfold gl_grad. set (u := x O). set (v := y O).
    assert (A := root_pos u). assert (B := root_pos v). assert (A2 := root_sq u). assert (B2 := root_sq v).
    set (a := sqrt (1 + u * u)) in *. set (b := sqrt (1 + v * v)) in *.
    assert (A1 : 1 <= a) by nra. assert (B1 : 1 <= b) by nra.
    assert (AB : 1 - u * v <= a * b).
    { apply Rnot_lt_le. intros H. assert (a * b * (a * b) < (1 - u * v) * (1 - u * v)) by (apply Rmult_le_0_lt_compat; auto; nra).
      replace (a * b * (a * b)) with ((a * a) * (b * b)) in H0 by ring. rewrite A2, B2 in H0. assert (X := Rle_0_sqr (u + v)). unfold Rsqr in X. nra. }
    assert (E : (v / b - u / a) * (v - u) = (v - u) * (v - u) * ((a * b + 1 - u * v) / (a * b * (a + b)))).
    { apply Rmult_eq_reg_r with (a * b * (a + b)); [|assert (0 < a * b) by (apply Rmult_lt_0_compat; lra); apply Rgt_not_eq; apply Rmult_lt_0_compat; lra].
      replace ((v - u) * (v - u) * ((a * b + 1 - u * v) / (a * b * (a + b))) * (a * b * (a + b))) with ((v - u) * (v - u) * (a * b + 1 - u * v)) by (field; split; lra).
      replace ((v / b - u / a) * (v - u) * (a * b * (a + b))) with ((v - u) * (v * (a * a) + (v - u) * (a * b) - u * (b * b))) by (field; split; lra).
      rewrite A2, B2. ring. }
    rewrite !Rplus_0_l, E. rewrite Rmult_1_l. rewrite <- (Rmult_1_r ((v - u) * (v - u))) at 2.
    apply Rmult_le_compat_l; [apply Rle_0_sqr|]. assert (P0 : 0 < a * b) by (apply Rmult_lt_0_compat; lra).
    assert (P1 : 0 < a * b * (a + b)) by (apply Rmult_lt_0_compat; lra).
    apply Rmult_le_reg_r with (a * b * (a + b)); auto. unfold Rdiv. rewrite Rmult_assoc, Rinv_l by lra. nra.
Qed.
