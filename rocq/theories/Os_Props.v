(** C43 (what the OSQP and QPMAD interfaces report), C69 (problem handed to OSQP), C70 (sequences of solves). *)
Require Import Arith Bool List Reals Lra Lia.
From Verif Require Import Scal Blk RSum Sparse Sparse_Proofs Qp_Model Qp_Spec Os_Model Os_Spec Os_Proofs Os_Sess_Proofs.
Import ListNotations.
Local Open Scope R_scope.

(** ** C43 *)
(** every call that returns: the status is that of this call, and so are the iterate and the counters *)
Theorem C43_osqp_status_partial : forall N M minimise s st p g st' r,
  solve N M minimise s st p g = Some (st', r) ->
  exists w, ws (solver st') = Some w /\ says (ostat (minimise w g)) r /\ status (minfo st') = r /\ mx st' = ox (minimise w g) /\ my st' = oy (minimise w g) /\
    iter (minfo st') = oiter (minimise w g) /\ rho_updates (minfo st') = orho (minimise w g) /\
    rho_estimate (minfo st') = oest (minimise w g).
Proof.
  intros N M minimise s st p g st' r E. unfold solve in E.
  destruct (construct_A N M (reuse_pattern s) (A p) (mA st)) as [D|]; [|discriminate].
  match type of E with match ?t with _ => _ end = _ => destruct t as [w|] eqn:Ew; [|discriminate] end.
  injection E as <- <-. exists w. split; [exact Ew|]. split; [|repeat split].
  unfold says. destruct (ostat (minimise w g)); cbn; intuition (try discriminate; try reflexivity).
Qed.
(** the residuals: the primal one is OSQP's dual residual, the dual one keeps its initial value *)
Theorem C43_osqp_residual_partial : forall N M minimise s st p g st' r,
  solve N M minimise s st p g = Some (st', r) ->
  exists w, ws (solver st') = Some w /\ says (ostat (minimise w g)) r /\ res_prim (minfo st') = odua (minimise w g) /\ res_dual (minfo st') = res_dual (minfo st).
Proof.
  intros N M minimise s st p g st' r E. unfold solve in E.
  destruct (construct_A N M (reuse_pattern s) (A p) (mA st)) as [D|]; [|discriminate].
  match type of E with match ?t with _ => _ end = _ => destruct t as [w|] eqn:Ew; [|discriminate] end.
  injection E as <- <-. exists w. split; [exact Ew|]. split; [|repeat split].
  unfold says. destruct (ostat (minimise w g)); cbn; intuition (try discriminate; try reflexivity).
Qed.
(** one variable, no general constraint, free: minimise x^2/2 + c x *)
Definition free1 (c : R) : problem_t :=
  Prob (fun _ _ => 1) (fun _ => c) (Arg (sp_empty 0 1) false) (fun _ => MInf) (fun _ => PInf) (fun _ => MInf) (fun _ => PInf).
(** a solver for problems of this kind; it claims success only for them *)
Definition is_free (w : oqp) : bool :=
  match ol w 0%nat, ou w 0%nat with MInf, PInf => if Req_EM_T (oP w 0%nat 0%nat) 1 then true else false | _, _ => false end.
Definition min1 (w : oqp) (_ : option ((nat -> R) * (nat -> R))) : ores :=
  Ores (fun _ => - oq w 0%nat) (fun _ => 0) 25 (1/1000) (1/2000) 0 1 (if is_free w then OSQP_SOLVED else OSQP_UNSOLVED).
Lemma min1_correct : forall w g, ostat (min1 w g) = OSQP_SOLVED -> osqp_kkt 1 1 w (ox (min1 w g)) (oy (min1 w g)).
Proof.
  intros w g. cbn. unfold is_free. destruct (ol w 0%nat) eqn:E1; try discriminate. destruct (ou w 0%nat) eqn:E2; try discriminate.
  destruct (Req_EM_T (oP w 0%nat 0%nat) 1) as [E3|]; [intros _|discriminate].
  split; intros i Hi; replace i with 0%nat by lia.
  - unfold rmv. cbn. rewrite E3. lra.
  - rewrite E1, E2. unfold in_bounds, sign_ok. cbn. intuition lra.
Qed.
Definition cold : settings_t := Settings false false.
Definition warm : settings_t := Settings true true.
Lemma free1_wf c : well_formed 1 0 (A (free1 c)).
Proof. repeat split. Qed.
Lemma free1_run c g : exists st, solve 1 0 min1 cold fresh (free1 c) g = Some (st, SOLVED) /\
  mx st = (fun _ => - c) /\ res_prim (minfo st) = 1/2000 /\ res_dual (minfo st) = 1 /\
  exists w, ws (solver st) = Some w /\ oq w 0%nat = c /\ is_free w = true /\ dP (solver st) <> None.
Proof.
  destruct (construct_ok 1 0 (free1 c) false (free1 c) (mA fresh) (free1_wf c)) as (D & E & _ & _); [discriminate|].
  unfold solve. cbn [reuse_pattern warm_start cold]. rewrite E. cbn [solver fresh dP dA ws keep ol ou].
  unfold min1. cbn [ostat].
  assert (is_free (Oqp (H (free1 c)) (h (free1 c)) (coeff D) (stack 0 (Alb (free1 c)) (xlb (free1 c))) (stack 0 (Aub (free1 c)) (xub (free1 c)))) = true) as F.
  { unfold is_free. cbn. destruct (Req_EM_T 1 1); [reflexivity|lra]. }
  rewrite F. cbn [status_of]. eexists. split; [reflexivity|]. cbn. repeat split.
  eexists. split; [reflexivity|]. split; [reflexivity|]. split; [exact F|discriminate].
Qed.
Theorem C43_osqp_residual_refuted : exists N M minimise st p g st' r,
  well_formed N M (A p) /\ solve N M minimise cold st p g = Some (st', r) /\ r = SOLVED /\
  forall w, hands_over N M p w -> oprim (minimise w g) <> res_prim (minfo st') /\ odua (minimise w g) <> res_dual (minfo st').
Proof.
  destruct (free1_run 3 None) as (st & E & _ & R1 & R2 & _).
  exists 1%nat, 0%nat, min1, fresh, (free1 3), None, st, SOLVED.
  split; [apply free1_wf|]. split; [exact E|]. split; [reflexivity|]. intros w _. rewrite R1, R2. cbn. lra.
Qed.

(** QPMAD: the returned status belongs to this call; the stored one only if the solver ended in one of two ways *)
Theorem C43_qpmad_status_partial : forall {problem} (qpmad_solve : problem -> (nat -> R) -> (nat -> R) * qret) st p g,
  let o := qpmad_solve p (match g with Some x => x | None => qx st end) in
  let '(st', r) := qsolve qpmad_solve st p g in
  qx st' = fst o /\
  (r = SOLVED <-> snd o = Q_OK) /\ (r = MAX_ITER_EXCEEDED <-> snd o = Q_MAX_ITER) /\ (r = UNSOLVED <-> snd o = Q_OTHER) /\
  (status (qinfo st') = r \/ snd o = Q_OTHER /\ status (qinfo st') = status (qinfo st)) /\
  (* the rest of the record and the multipliers never change *)
  qy st' = qy st /\ iter (qinfo st') = iter (qinfo st) /\ res_prim (qinfo st') = res_prim (qinfo st) /\ res_dual (qinfo st') = res_dual (qinfo st).
Proof.
  intros. unfold o, qsolve. destruct (qpmad_solve p _) as [x [| |]]; cbn; intuition (try discriminate; auto).
Qed.
(** a solver that fails on its second problem leaves the status of the first *)
Theorem C43_qpmad_status_refuted : exists (qpmad_solve : bool -> (nat -> R) -> (nat -> R) * qret) p1 p2 st1 r1 st2 r2,
  qsolve qpmad_solve qfresh p1 None = (st1, r1) /\ qsolve qpmad_solve st1 p2 None = (st2, r2) /\
  r2 = UNSOLVED /\ status (qinfo st2) = SOLVED.
Proof.
  exists (fun (p : bool) x => (x, if p then Q_OK else Q_OTHER)), true, false.
  eexists _, _, _, _. split; [reflexivity|]. split; [reflexivity|]. split; reflexivity.
Qed.

(** ** C69: the stacked problem is the caller's problem *)
(** building the matrix *)
Theorem C69_first_matrix : forall N M a D, well_formed N M a ->
  exists D', construct_A N M false a D = Some D' /\ sp_r D' = (N + M)%nat /\ sp_c D' = N /\
    forall i j, (i < M + N)%nat -> (j < N)%nat -> coeff D' i j = stacked M (coeff (am a)) i j.
Proof.
  intros N M a D W.
  destruct (construct_ok N M (Prob (fun _ _ => 0) (fun _ => 0) a (fun _ => MInf) (fun _ => MInf) (fun _ => MInf) (fun _ => MInf)) false
    (Prob (fun _ _ => 0) (fun _ => 0) a (fun _ => MInf) (fun _ => MInf) (fun _ => MInf) (fun _ => MInf)) D W) as (D' & E & S & V); [discriminate|].
  exists D'. destruct S as (S1 & S2 & _). auto.
Qed.
(** refilling a matrix built earlier, any number of times, with new values in the old pattern *)
Theorem C69_reused_matrix : forall N M a0 l a, well_formed N M a0 ->
  (forall b, In b (l ++ [a]) -> well_formed N M b /\ same_pattern N M a0 b) ->
  exists D D', construct_A N M false a0 (sp_empty 0 0) = Some D /\
    fold_left (fun o b => match o with Some D => construct_A N M true b D | None => None end) (l ++ [a]) (Some D) = Some D' /\
    sp_r D' = (N + M)%nat /\ sp_c D' = N /\
    forall i j, (i < M + N)%nat -> (j < N)%nat -> coeff D' i j = stacked M (coeff (am a)) i j.
Proof.
  intros N M a0 l a W HL.
  set (P := fun b => Prob (fun _ _ => 0) (fun _ => 0) b (fun _ => MInf) (fun _ => MInf) (fun _ => MInf) (fun _ => MInf)).
  destruct (construct_ok N M (P a0) false (P a0) (sp_empty 0 0) W) as (D & E & S & V); [discriminate|].
  exists D. cbn [A P] in *. 
  assert (forall l D, shape N M (am a0) D -> (forall b, In b l -> well_formed N M b /\ same_pattern N M a0 b) ->
    exists D', fold_left (fun o b => match o with Some D => construct_A N M true b D | None => None end) l (Some D) = Some D' /\ shape N M (am a0) D') as G.
  { clear E S V HL D. clear l. induction l as [|b l IH]; intros D S HL; cbn [fold_left]; [eauto|].
    destruct (HL b (or_introl eq_refl)) as [Wb Sb].
    destruct (construct_ok N M (P a0) true (P b) D Wb) as (D1 & E1 & S1 & _); [intros _; split; assumption|].
    cbn [A P] in E1. rewrite E1. apply IH; [|intros b' Hb'; apply HL; right; exact Hb'].
    destruct S1 as (X1 & X2 & X3 & X4). split; [exact X1|]. split; [exact X2|]. split; [|exact X4].
    intros i j Hi Hj. rewrite X3 by assumption. destruct (Nat.ltb_spec i M); [symmetry; apply Sb; assumption|reflexivity]. }
  destruct (G l D S) as (D1 & E1 & S1). { intros b Hb. apply HL. apply in_or_app. left. exact Hb. }
  destruct (HL a) as [Wa Sa]. { apply in_or_app. right. left. reflexivity. }
  destruct (construct_ok N M (P a0) true (P a) D1 Wa) as (D2 & E2 & S2 & V2); [intros _; split; assumption|].
  exists D2. split; [exact E|]. split; [rewrite fold_left_app, E1; exact E2|]. destruct S2 as (Y1 & Y2 & _). auto.
Qed.
(** the optimality conditions coincide; the multipliers are ordered [general; box] as in the library's own solvers *)
Theorem C69_kkt : forall N M p w x y, hands_over N M p w -> (osqp_kkt N (M + N) w x y <-> kkt_pair (asked N M p) x y).
Proof. exact hands_over_kkt. Qed.

(** ** C70 *)
(** any sequence: a first cold call, then warm calls; each call solves its own problem *)
Theorem C70_sequence_partial : forall N M minimise p0 g0 calls s p g,
  well_formed N M (A p0) -> warm_calls N M p0 (calls ++ [(s, p, g)]) ->
  exists st w, session N M minimise fresh ((cold, p0, g0) :: calls ++ [(s, p, g)]) = Some st /\
    hands_over N M p w /\ mx st = ox (minimise w g) /\ my st = oy (minimise w g) /\ says (ostat (minimise w g)) (status (minfo st)).
Proof.
  intros N M minimise p0 g0 calls s p g W HC.
  destruct (first_call N M minimise p0 g0 W) as (w0 & st0 & r0 & E0 & _ & _ & R0).
  destruct (session_ok N M minimise (calls ++ [(s, p, g)]) p0 st0 R0 HC) as (st & E & HL).
  destruct (HL p s g) as (w & old & HO & (O1 & O2 & O3 & O4) & _).
  - apply last_last.
  - intro X. destruct calls; discriminate.
  - exists st, w. split; [cbn [session]; unfold cold; rewrite E0; exact E|]. split; [exact HO|]. split; [exact O1|]. split; [exact O2|].
    rewrite O3. unfold says. destruct (ostat (minimise w g)); cbn; intuition (try discriminate; try reflexivity).
Qed.
(** hence with an OSQP that keeps its promise, success means that the caller's problem is solved *)
Theorem C70_solved_partial : forall N M minimise p0 g0 calls s p g st,
  (forall w g, ostat (minimise w g) = OSQP_SOLVED \/ ostat (minimise w g) = OSQP_SOLVED_INACCURATE ->
     osqp_kkt N (M + N) w (ox (minimise w g)) (oy (minimise w g))) ->
  well_formed N M (A p0) -> warm_calls N M p0 (calls ++ [(s, p, g)]) ->
  session N M minimise fresh ((cold, p0, g0) :: calls ++ [(s, p, g)]) = Some st ->
  status (minfo st) = SOLVED -> kkt_pair (asked N M p) (mx st) (my st).
Proof.
  intros N M minimise p0 g0 calls s p g st HM W HC E HS.
  destruct (C70_sequence_partial N M minimise p0 g0 calls s p g W HC) as (st' & w & E' & HO & X & Y & Z).
  rewrite E in E'. injection E' as <-. rewrite X, Y. apply (C69_kkt N M p w); [exact HO|]. apply HM. apply Z, HS.
Qed.
(** without warm start the second call returns the solution of the first problem *)
Theorem C70_cold_refuted : exists N M minimise p0 p1 st,
  (forall w g, ostat (minimise w g) = OSQP_SOLVED -> osqp_kkt N (M + N) w (ox (minimise w g)) (oy (minimise w g))) /\
  (forall w g, ostat (minimise w g) <> OSQP_SOLVED_INACCURATE) /\
  well_formed N M (A p0) /\ well_formed N M (A p1) /\
  session N M minimise fresh [(cold, p0, None); (cold, p1, None)] = Some st /\ status (minfo st) = SOLVED /\
  (exists x y, kkt_pair (asked N M p1) x y) /\ ~ kkt_pair (asked N M p1) (mx st) (my st).
Proof.
  destruct (free1_run 0 None) as (st0 & E0 & _ & _ & _ & w & Ew & Eq & EF & _).
  destruct (construct_ok 1 0 (free1 1) false (free1 1) (mA st0) (free1_wf 1)) as (D & E & _ & _); [discriminate|].
  exists 1%nat, 0%nat, min1, (free1 0), (free1 1). eexists.
  split; [exact min1_correct|]. split; [intros v g; cbn; destruct (is_free v); discriminate|].
  split; [apply free1_wf|]. split; [apply free1_wf|]. split.
  { cbn [session]. rewrite E0. unfold solve at 1. cbn [reuse_pattern warm_start cold]. rewrite E. cbn [ws]. rewrite Ew. reflexivity. }
  cbn [minfo mx my status min1 ostat ox oy]. rewrite EF, Eq. split; [reflexivity|]. split.
  - exists (fun _ => -1), (fun _ => 0). repeat split; intros; cbn in *; try lia; unfold lag_grad, rmv, sign_ok, in_bounds in *; cbn in *; intuition lra.
  - intros [K _]. specialize (K 0%nat ltac:(cbn; lia)). unfold lag_grad, rmv in K. cbn in K. lra.
Qed.
(** a warm first call, as after changing the settings by hand, reads a workspace that does not exist *)
Theorem C70_warm_first_refuted : exists N M p, well_formed N M (A p) /\
  forall minimise g, solve N M minimise (Settings true false) fresh p g = None.
Proof.
  exists 1%nat, 0%nat, (free1 1). split; [apply free1_wf|]. intros minimise g.
  destruct (construct_ok 1 0 (free1 1) false (free1 1) (mA fresh) (free1_wf 1)) as (D & E & _ & _); [discriminate|].
  unfold solve. cbn [reuse_pattern warm_start]. rewrite E. reflexivity.
Qed.
(** a matrix in Eigen's compressed mode, the result of every product or of makeCompressed(), is not accepted *)
Theorem C70_compressed_refuted : exists N M p, sp_r (am (A p)) = M /\ sp_c (am (A p)) = N /\
  forall minimise s st g, solve N M minimise s st p g = None.
Proof.
  exists 1%nat, 0%nat, (Prob (fun _ _ => 1) (fun _ => 1) (Arg (sp_empty 0 1) true) (fun _ => MInf) (fun _ => PInf) (fun _ => MInf) (fun _ => PInf)).
  split; [reflexivity|]. split; [reflexivity|]. reflexivity.
Qed.

(** ** the hypotheses can be met *)
(** two variables, one constraint 1 <= x0 + 2 x1 <= 2 with a changing coefficient, bounded first variable *)
Definition row2 (a : R) : sparse_arg := Arg (SpMat 1 2 (fun i j => (i =? 0)%nat) (fun _ j => if (j =? 0)%nat then 1 else a) (fun _ => 0%nat)) false.
Definition two (a c : R) : problem_t :=
  Prob (fun i j => if (i =? j)%nat then 1 else 0) (fun _ => c) (row2 a) (fun _ => Fin 1) (fun _ => Fin 2)
    (fun j => if (j =? 0)%nat then Fin 0 else MInf) (fun j => if (j =? 0)%nat then Fin 10 else PInf).
Example C70_hypotheses : well_formed 2 1 (A (two 2 0)) /\
  warm_calls 2 1 (two 2 0) ([(warm, two 3 1, None); (Settings true false, two 4 1, Some ((fun _ => 0), (fun _ => 0)))] ++ [(warm, two 5 2, None)]).
Proof. cbn. unfold well_formed, same_pattern. cbn. intuition. Qed.
Example C69_matrix : exists D, construct_A 2 1 false (row2 2) (sp_empty 0 0) = Some D /\
  (coeff D 0 0 = 1 /\ coeff D 0 1 = 2) /\ (coeff D 1 0 = 1 /\ coeff D 1 1 = 0) /\ (coeff D 2 0 = 0 /\ coeff D 2 1 = 1).
Proof.
  destruct (C69_first_matrix 2 1 (row2 2) (sp_empty 0 0)) as (D & E & _ & _ & V); [repeat split|].
  exists D. split; [exact E|]. rewrite !V by lia. cbn. auto 10.
Qed.
(** minimise (x0^2 + x1^2)/2 with x0 + 2 x1 >= 1: x = (1/5, 2/5), multiplier -1/5 of the general constraint *)
Example C69_solution : let w := Oqp (H (two 2 0)) (h (two 2 0)) (stacked 1 (coeff (am (A (two 2 0)))))
    (stack 1 (Alb (two 2 0)) (xlb (two 2 0))) (stack 1 (Aub (two 2 0)) (xub (two 2 0))) in
  hands_over 2 1 (two 2 0) w /\
  osqp_kkt 2 3 w (fun j => if (j =? 0)%nat then 1/5 else 2/5) (fun i => if (i =? 0)%nat then -1/5 else 0).
Proof.
  cbv zeta. assert (hands_over 2 1 (two 2 0) (Oqp (H (two 2 0)) (h (two 2 0)) (stacked 1 (coeff (am (A (two 2 0)))))
    (stack 1 (Alb (two 2 0)) (xlb (two 2 0))) (stack 1 (Aub (two 2 0)) (xub (two 2 0))))) as HO.
  { split; [|split; [|split; [|split]]]; [reflexivity|reflexivity|reflexivity| |intros [|[|j]] Hj; [split; reflexivity|split; reflexivity|lia]].
    intros [|i] Hi; [split; reflexivity|lia]. }
  split; [exact HO|]. split.
  - intros [|[|j]] Hj; [| |lia]; unfold rmv; cbn; lra.
  - intros [|[|[|i]]] Hi; [| | |lia]; unfold rmv, in_bounds, sign_ok; cbn; intuition (try lra; f_equal; lra).
Qed.
(** and the calls of C43 happen *)
Example C43_call : exists st r, solve 1 0 min1 cold fresh (free1 3) None = Some (st, r).
Proof. destruct (free1_run 3 None) as (st & E & _). eauto. Qed.

Print Assumptions C43_osqp_status_partial.
Print Assumptions C43_osqp_residual_partial.
Print Assumptions C43_osqp_residual_refuted.
Print Assumptions C43_qpmad_status_partial.
Print Assumptions C43_qpmad_status_refuted.
Print Assumptions C69_first_matrix.
Print Assumptions C69_reused_matrix.
Print Assumptions C69_kkt.
Print Assumptions C70_sequence_partial.
Print Assumptions C70_solved_partial.
Print Assumptions C70_cold_refuted.
Print Assumptions C70_warm_first_refuted.
Print Assumptions C70_compressed_refuted.
