(** Proofs about sessions. *)
Require Import Arith ZArith List Bool Lia Reals Lra FunctionalExtensionality.
From Verif Require Import Scal Blk RSum RNorm Qp_Model Qp_Spec Admm_Model Admm_Spec Admm_SpecR BoxAdmm_Model Sqp_Model Sqp_Spec
  SqpQp_Spec SqpQp_Proofs Ocp_Model Mpc_Model Msv_Model LqMpc_Spec LqMpc_Proofs QpDist_Spec QpDist_Proofs SqpNear_Spec SqpNear_Proofs
  SqpNative_Model SqpNative_Proofs SqpTerm_Spec SqpExact_Model SqpTerm_Model SqpTerm_Proofs MpcSession_Model.
Import ListNotations.
Local Open Scope R_scope.

Notation state := (@sqp_state R (option (box_obj R)) unit).

(** ** Finite families *)
Lemma list_bound {X} (F : list X) (f : X -> R) : exists B, 0 <= B /\ forall q, In q F -> f q <= B.
Proof.
  induction F as [|q F (B & HB & H)]; [exists 0; split; [lra|intros ? []]|].
  exists (Rmax B (f q)). split; [eapply Rle_trans; [exact HB|apply Rmax_l]|].
  intros q' [<-|Hq]; [apply Rmax_r|]. eapply Rle_trans; [apply H; exact Hq|apply Rmax_l].
Qed.

Lemma list_bound2 {X} (F : list X) (f : X -> X -> R) :
  exists B, 0 <= B /\ forall q q', In q F -> In q' F -> f q q' <= B.
Proof.
  destruct (list_bound (list_prod F F) (fun p => f (fst p) (snd p))) as (B & HB & H).
  exists B. split; [exact HB|]. intros q q' Hq Hq'.
  apply (H (q, q')). apply in_prod; assumption.
Qed.

Lemma list_choose {X} (F : list X) (A : X -> Z -> R -> Prop) :
  (forall q M M' t t', A q M t -> (M <= M')%Z -> 0 < t' -> t' <= t -> A q M' t') ->
  (forall q, In q F -> exists M t, 0 < t /\ A q M t) ->
  exists M t, 0 < t /\ forall q, In q F -> A q M t.
Proof.
  intros Mo. induction F as [|q F IH]; intro H.
  - exists 0%Z, 1. split; [lra|intros ? []].
  - destruct IH as (M & t & Ht & HF); [intros q' Hq; apply H; now right|].
    destruct (H q (or_introl eq_refl)) as (M1 & t1 & Ht1 & H1).
    exists (Z.max M M1), (Rmin t t1). assert (Hm : 0 < Rmin t t1) by (apply Rmin_glb_lt; assumption).
    split; [exact Hm|]. intros q' [<-|Hq].
    + apply (Mo q M1 _ t1); auto; [lia|apply Rmin_r].
    + apply (Mo q' M _ t); auto; [lia|apply Rmin_l].
Qed.

Lemma list_choose_nat {X} (F : list X) (A : X -> nat -> Prop) :
  (forall q K K', A q K -> (K <= K')%nat -> A q K') ->
  (forall q, In q F -> exists K, A q K) -> exists K, forall q, In q F -> A q K.
Proof.
  intros Mo. induction F as [|q F IH]; intro H.
  - exists O. intros ? [].
  - destruct IH as (K & HF); [intros q' Hq; apply H; now right|].
    destruct (H q (or_introl eq_refl)) as (K1 & H1).
    exists (Nat.max K K1). intros q' [<-|Hq]; [apply (Mo q K1)|apply (Mo q' K)]; auto; lia.
Qed.

Lemma list_choose2 {X} (F : list X) (A : X -> R -> R -> Prop) :
  (forall q L L' C C', A q L C -> 0 <= L -> L <= L' -> 0 <= C -> C <= C' -> A q L' C') ->
  (forall q, In q F -> exists L C, 0 <= L /\ 0 <= C /\ A q L C) ->
  exists L C, 0 <= L /\ 0 <= C /\ forall q, In q F -> A q L C.
Proof.
  intros Mo. induction F as [|q F IH]; intro H.
  - exists 0, 0. repeat split; try lra. intros ? [].
  - destruct IH as (L & C & HL & HC & HF); [intros q' Hq; apply H; now right|].
    destruct (H q (or_introl eq_refl)) as (L1 & C1 & HL1 & HC1 & H1).
    exists (Rmax L L1), (Rmax C C1).
    split; [eapply Rle_trans; [exact HL|apply Rmax_l]|]. split; [eapply Rle_trans; [exact HC|apply Rmax_l]|].
    intros q' [<-|Hq].
    + apply (Mo q L1 _ C1); auto; apply Rmax_r.
    + apply (Mo q' L _ C); auto; apply Rmax_l.
Qed.

(** ** One call *)
Section One.
Variables (grad : vec R -> vec R) (jac : vec R -> mat R) (G : mat R) (mu : R).
Variables (lsolve : nat -> mat R -> vec R -> vec R) (full : bool) (sg r0 : R) (hreg : mat R -> mat R).
Variables (ta : R) (lsm : Z) (edu : R).

Definition settings_are (et epr : R) (M : Z) (tol ea : R) (K : nat) (st : sqp_settings R) (qs : qp_settings R) : Prop :=
  tau st = ta /\ eta st = et /\ ls_max_iter st = lsm /\ eps_prim st = epr /\ eps_dual st = edu /\ (M <= smax_iter st)%Z /\
  sigma qs = sg /\ rho0 qs = r0 /\ alpha qs = 1 /\ adaptive_rho qs = false /\ eps_abs qs = ea /\ 0 <= eps_rel qs <= tol /\
  check_termination qs <> 0%Z /\ (Z.abs (check_termination qs) * Z.of_nat K <= max_iter qs)%Z.

(** the solver answers problem [P] from every start within [D] *)
Definition answers (et epr D d : R) (P : problem R) (xs ls : vec R) (M : Z) (tol ea : R) (K : nat) : Prop :=
  forall st qs ob s, settings_are et epr M tol ea K st qs ->
  m_q s = Some ob -> box_reachable lsolve full (nx P) (ne P + ni P) ob -> gdist (nx P) G (Sqp_Model.m_x s) xs <= D ->
  (forall i, (i < ne P + ni P + nx P)%nat -> Rabs (Sqp_Model.m_lam s i - ls i) <= D) ->
  let r := native_exact lsolve full qs P st hreg s in
  m_status r = SqpSolved /\ (m_iter r <= M)%Z /\
  (exists o, m_q r = Some o /\ box_reachable lsolve full (nx P) (ne P + ni P) o) /\
  gdist (nx P) G (Sqp_Model.m_x r) xs <= d /\
  (forall i, (i < ne P + ni P + nx P)%nat -> Rabs (Sqp_Model.m_lam r i - ls i) <= (1 - ta ^ Z.to_nat (lsm - 1)) * Rabs D + edu / 2).

Lemma answers_mono et epr D d d' P xs ls M M' t t' ea K K' : answers et epr D d P xs ls M t ea K -> d <= d' -> (M <= M')%Z -> t' <= t -> (K <= K')%nat ->
  answers et epr D d' P xs ls M' t' ea K'.
Proof.
  intros H Hd HM Ht HK st qs ob s (A1 & A2 & A3 & A4 & A5 & A6 & A7 & A8 & A9 & A10 & A11 & A12 & A13 & A14) Hq Hr Hx Hl r.
  destruct (H st qs ob s) as (X1 & X2 & X3 & X4 & X5); auto.
  - unfold settings_are. repeat (split; [first [assumption|lia|lra]|]).
    assert (Z.abs (check_termination qs) * Z.of_nat K <= Z.abs (check_termination qs) * Z.of_nat K')%Z by (apply Z.mul_le_mono_nonneg_l; lia). lia.
  - split; [exact X1|]. split; [eapply Z.le_trans; [exact X2|exact HM]|]. split; [exact X3|]. split; [eapply Rle_trans; [exact X4|exact Hd]|exact X5].
Qed.

(** the part of the distance that a positive eta leaves *)
Definition rest (L et : R) : R := sqrt (L * (et * sqp_eps) / (/ 2 - et)).
Lemma rest_mono L L' et : 0 <= L -> L <= L' -> 0 <= et < / 2 -> rest L et <= rest L' et.
Proof.
  intros HL HL' He. unfold rest. apply sqrt_le_1_alt. unfold Rdiv. apply Rmult_le_compat_r; [left; apply Rinv_0_lt_compat; lra|].
  apply Rmult_le_compat_r; [|exact HL']. apply Rmult_le_pos; [lra|]. left. exact eps_pos.
Qed.

Definition one_problem (D : R) (P : problem R) (xs ls : vec R) (L C : R) : Prop :=
  forall et epr, 0 <= et < / 2 -> C * rest L et < epr -> forall d, 0 < d ->
  exists M tol, 0 < tol /\ forall ea, 0 < ea <= tol -> exists K, answers et epr D (d + rest L et) P xs ls M tol ea K.

Lemma one_problem_mono D P xs ls L L' C C' : one_problem D P xs ls L C -> 0 <= L -> L <= L' -> 0 <= C -> C <= C' -> one_problem D P xs ls L' C'.
Proof.
  intros H HL HL' HC HC' et epr He Hepr d Hd. pose proof (rest_mono L L' et HL HL' He) as Rm. assert (R0 : 0 <= rest L et) by apply sqrt_pos.
  destruct (H et epr He) with (d := d) as (M & tol & Ht & F); [|exact Hd|].
  - eapply Rle_lt_trans; [|exact Hepr]. apply Rmult_le_compat; lra.
  - exists M, tol. split; [exact Ht|]. intros ea Hea. destruct (F ea Hea) as (K & HK). exists K.
    eapply answers_mono; [exact HK|lra|lia|lra|lia].
Qed.

Lemma one_call D P xs ls c c0 A b : quadratic_nlp P grad jac G c c0 A b -> 0 < mu -> curvature (nx P) G mu -> linearised_by P grad jac ->
  (forall x lam lagg H h bb AA, p_lag_full P x lam = (lagg, H, h, bb, AA) -> forall i j, (i < nx P)%nat -> (j < nx P)%nat -> hreg H i j = G i j) ->
  nlp_kkt P (grad xs) (jac xs) xs ls -> licq P (jac xs) xs -> exact_solver full lsolve -> 0 < sg -> 0 < r0 ->
  0 < ta <= 1 -> 0 < edu ->
  exists L C, 0 <= L /\ 0 <= C /\ one_problem D P xs ls L C.
Proof.
  intros HQ Hmu HM HL HH HK HLI Hex Hsg Hr0 Hta Hedu.
  destruct (terminates_dual P grad jac G c c0 A b mu xs ls lsolve full sg r0 D HQ Hmu HM HL HK HLI Hex Hsg Hr0) as (L & C & HL0 & HC & F).
  exists L, C. split; [exact HL0|]. split; [exact HC|]. intros et epr He Hepr d Hd.
  destruct (F ta et lsm epr edu Hta He Hedu Hepr d Hd) as (M & tol & Ht & F1).
  exists M, tol. split; [exact Ht|]. intros ea Hea. destruct (F1 ea Hea) as (K & F2). exists K.
  intros st qs ob s (A1 & A2 & A3 & A4 & A5 & A6 & A7 & A8 & A9 & A10 & A11 & A12 & A13 & A14) Hq Hr Hx Hl r.
  pose proof (exact_hessians P G st hreg lsolve full qs s HH) as HG. unfold r in *. rewrite exact_gsolve in *.
  destruct (F2 st qs (fun B _ _ => B) hreg _ ob s A1 A2 A3 A4 A5 A6 A7 A8 A9 A10 A11 A12 A13 A14 (exact_iteration_step P st (fun B _ _ => B) hreg lsolve full qs) Hq Hr Hx Hl HG)
    as (X1 & X2 & (o & O1 & O2 & _) & X4 & X5).
  split; [exact X1|]. split; [exact X2|]. split; [exists o; auto|]. split; [exact X4|exact X5].
Qed.
End One.

(** ** The objects between calls *)
Section Sess.
Variable U : user.
Variable big : R.
Variable lag_full : vec R -> vec R -> vec R * mat R * vec R * vec R * mat R.
Variable lag : vec R -> vec R -> vec R * vec R * vec R * mat R.
Variable s : mpc R.
Definition at_state (x0 : vec R) : mpc R := exec s (initial_conditions x0).
Definition prob_at (x0 : vec R) : problem R := nlp_of U big lag_full lag (at_state x0).

(** same problem as the one of [s], up to the bounds of the initial state *)
Definition same_problem (s' : mpc R) : Prop :=
  prob s' = prob s /\ m_par s' = m_par s /\ m_lbg s' = m_lbg s /\ m_ubg s' = m_ubg s /\
  forall x0, m_lbx (exec s' (initial_conditions x0)) = m_lbx (at_state x0) /\ m_ubx (exec s' (initial_conditions x0)) = m_ubx (at_state x0).

Lemma same_refl : same_problem s.
Proof. repeat split. Qed.

Lemma vset_vset {T} (v : vec T) o k f g : vset (vset v o k f) o k g = vset v o k g.
Proof. apply functional_extensionality. intro i. unfold vset. destruct (in_seg o k i); reflexivity. Qed.

Lemma same_nlp s' x0 : same_problem s' -> nlp_of U big lag_full lag (exec s' (initial_conditions x0)) = prob_at x0.
Proof.
  intros (E1 & E2 & E3 & E4 & E5). destruct (E5 x0) as [F1 F2]. unfold prob_at, nlp_of. rewrite F1, F2.
  change (prob (exec s' (initial_conditions x0))) with (prob s'). change (m_par (exec s' (initial_conditions x0))) with (m_par s').
  change (m_lbg (exec s' (initial_conditions x0))) with (m_lbg s'). change (m_ubg (exec s' (initial_conditions x0))) with (m_ubg s').
  rewrite E1, E2, E3, E4. reflexivity.
Qed.

Lemma same_next s' y x lam : same_problem s' -> same_problem (set_sol (exec s' (initial_conditions y)) x lam (m_par (exec s' (initial_conditions y)))).
Proof.
  intros (E1 & E2 & E3 & E4 & E5). split; [exact E1|]. split; [exact E2|]. split; [exact E3|]. split; [exact E4|]. intro x0.
  rewrite <- (proj1 (E5 x0)), <- (proj2 (E5 x0)). cbn. rewrite !vset_vset. split; reflexivity.
Qed.

Variables (grad : vec R -> vec R) (jac : vec R -> mat R) (G : mat R) (mu : R).
Variables (lsolve : nat -> mat R -> vec R -> vec R) (full : bool) (sg r0 : R) (hreg : mat R -> mat R).
Variables (ta : R) (lsm : Z) (edu et epr : R).
Hypothesis Hta : 0 < ta <= 1.
Hypothesis Hedu : 0 < edu.
Hypothesis Hmu : 0 < mu.
Notation n := (VAR (prob s)).
Notation m := (NUM_EQ (prob s) + NUM_INEQ (prob s))%nat.
Hypothesis HM : curvature n G mu.
Hypothesis Htri : forall u v w : vec R, gdist n G u w <= gdist n G u v + gdist n G v w.
Variable F : list (vec R * (vec R * vec R)).
Variable D : R.
Let a := ta ^ Z.to_nat (lsm - 1).
Hypothesis HDx : forall q q', In q F -> In q' F -> 2 + gdist n G (fst (snd q)) (fst (snd q')) <= D.
Hypothesis HDl : forall q q', In q F -> In q' F -> forall i, (i < m + n)%nat -> Rabs (snd (snd q) i - snd (snd q') i) + edu / 2 <= a * D.
Variables (d : R) (M : Z) (tol ea : R) (K : nat).
Hypothesis Hd : d <= 2.
Hypothesis HA : forall q, In q F -> answers G lsolve full sg r0 hreg ta lsm edu et epr D d (prob_at (fst q)) (fst (snd q)) (snd (snd q)) M tol ea K.
Variables (st : sqp_settings R) (qs : qp_settings R).
Hypothesis Hset : settings_are sg r0 ta lsm edu et epr M tol ea K st qs.

Definition ready (sw : mpc R * state) : Prop :=
  same_problem (fst sw) /\ (exists ob, m_q (snd sw) = Some ob /\ box_reachable lsolve full n m ob) /\
  (forall q, In q F -> gdist n G (Mpc_Model.m_x (fst sw)) (fst (snd q)) <= D /\
    forall i, (i < m + n)%nat -> Rabs (Mpc_Model.m_lam (fst sw) i - snd (snd q) i) <= D).

Definition good_call (q : vec R * (vec R * vec R)) (r : mpc R * state) : Prop :=
  m_status (snd r) = SqpSolved /\ (m_iter (snd r) <= M)%Z /\
  Mpc_Model.m_x (fst r) = Sqp_Model.m_x (snd r) /\
  gdist n G (Mpc_Model.m_x (fst r)) (fst (snd q)) <= d.

Lemma call_ok sw q : ready sw -> In q F ->
  let sw' := mpc_call U big lag_full lag st hreg lsolve full qs (fst q) sw in good_call q sw' /\ ready sw'.
Proof.
  destruct sw as [s' w]. intros (Hs & (ob & Hq & Hr) & Hd0) Hin. cbn [fst snd] in *. cbn [mpc_call]. unfold mpc_exact.
  rewrite (same_nlp s' (fst q) Hs). set (P := prob_at (fst q)).
  set (w0 := start_from _ _ _ _ w). set (r := native_exact _ _ _ _ _ _ w0).
  destruct (Hd0 q Hin) as [Dx Dl].
  assert (Ha : 0 < a <= 1).
  { unfold a. split; [apply pow_lt; lra|]. rewrite <- (pow1 (Z.to_nat (lsm - 1))). apply pow_incr. lra. }
  assert (HD0 : 0 <= D). { pose proof (HDx q q Hin Hin). assert (0 <= gdist n G (fst (snd q)) (fst (snd q))) by apply sqrt_pos. lra. }
  destruct (HA q Hin st qs ob w0 Hset Hq Hr Dx Dl) as (X1 & X2 & (o & O1 & O2) & X4 & X5). fold P in X1, X2, O1, X4, X5. fold r in X1, X2, O1, X4, X5.
  change (nx P) with n in X4, X5. change (ne P + ni P)%nat with m in X5.
  split.
  - split; [exact X1|]. split; [exact X2|]. split; [reflexivity|]. exact X4.
  - split; [apply same_next; exact Hs|]. split; [exists o; split; [exact O1|exact O2]|].
    intros q' Hin'. cbn [fst snd set_sol Mpc_Model.m_x Mpc_Model.m_lam]. split.
    + eapply Rle_trans; [apply (Htri _ (fst (snd q)))|]. pose proof (HDx q q' Hin Hin'). lra.
    + intros i Hi. specialize (X5 i Hi). pose proof (HDl q q' Hin Hin' i Hi) as B. rewrite (Rabs_right D) in X5 by lra. fold a in X5.
      replace (Sqp_Model.m_lam r i - snd (snd q') i) with ((Sqp_Model.m_lam r i - snd (snd q) i) + (snd (snd q) i - snd (snd q') i)) by ring.
      eapply Rle_trans; [apply Rabs_triang|]. lra.
Qed.

Lemma session_ok l : forall sw, ready sw -> incl l F ->
  Forall2 good_call l (mpc_session U big lag_full lag st hreg lsolve full qs (map fst l) sw).
Proof.
  induction l as [|q l IH]; intros sw Hr Hi; cbn [map mpc_session]; [constructor|].
  destruct (call_ok sw q Hr (Hi q (or_introl eq_refl))) as [H1 H2].
  constructor; [exact H1|]. apply IH; [exact H2|]. intros q' Hq'. apply Hi. now right.
Qed.
End Sess.
