(** Control flow of the SQP solver, any scalar type. *)
Require Import ZArith List Bool Lia.
Require Import Verif.Scal Verif.Qp_Model Verif.Sqp_Model Verif.Sqp_Spec.
Import ListNotations.

Section Any.
Context {T : Type} {ST : Scalar T}.
Variable P : problem T.
Variable st : sqp_settings T.

(** ** line search *)
Section LS.
Variables (x p : vec T) (mu phi dphi : T).
Notation acc k := (accept P st x p mu phi dphi (spow (tau st) k)).

(** [k] trials have been rejected before *)
Lemma ls_loop_spec : forall fuel k cost ev,
  let '(a, c, e) := ls_loop P st x p mu phi dphi fuel (spow (tau st) k) cost ev in
  exists i, (k <= i <= k + fuel)%nat /\ a = spow (tau st) i /\
    (forall j, (k <= j < i)%nat -> acc j = false) /\
    ((i < k + fuel)%nat -> acc i = true /\ c = p_cost P (trial_point P x p a) /\ e = (ev + (i - k) + 1)%nat) /\
    (i = (k + fuel)%nat -> e = (ev + fuel)%nat /\
       c = match fuel with O => cost | S f => p_cost P (trial_point P x p (spow (tau st) (k + f))) end).
Proof.
  induction fuel as [|f IH]; intros k cost ev; cbn [ls_loop].
  - exists k. split; [lia|]. split; [reflexivity|]. split; [intros; lia|]. split; [lia|].
    intros _. split; [lia|reflexivity].
  - destruct (accept P st x p mu phi dphi (spow (tau st) k)) eqn:E.
    + exists k. split; [lia|]. split; [reflexivity|]. split; [intros; lia|]. split; [|lia].
      intros _. split; [exact E|]. split; [reflexivity|lia].
    + change (smul (tau st) (spow (tau st) k)) with (spow (tau st) (S k)).
      specialize (IH (S k) (p_cost P (trial_point P x p (spow (tau st) k))) (S ev)).
      destruct (ls_loop P st x p mu phi dphi f (spow (tau st) (S k))
                 (p_cost P (trial_point P x p (spow (tau st) k))) (S ev)) as [[a c] e].
      destruct IH as (i & Hi & Ha & Hrej & Hacc & Hend).
      exists i. split; [lia|]. split; [exact Ha|]. split.
      { intros j Hj. destruct (Nat.eq_dec j k) as [->|]; [exact E|apply Hrej; lia]. }
      split.
      * intros H. destruct Hacc as (A1 & A2 & A3); [lia|]. split; [exact A1|]. split; [exact A2|lia].
      * intros H. destruct Hend as (B1 & B2); [lia|]. split; [lia|]. rewrite B2.
        destruct f as [|f]; [rewrite Nat.add_0_r; reflexivity|].
        replace (S k + f)%nat with (k + S f)%nat by lia. reflexivity.
Qed.
End LS.

(** ** one solve *)
Variables Q W : Type.
Variable hupd : mat T -> vec T -> vec T -> mat T.
Variable hreg : mat T -> mat T.
Variable pc_compute : W -> qp_data T -> W * qp_data T.
Variable pc_unscale_sol : W -> vec T * vec T -> vec T * vec T.
Variable pc_unscale : W -> qp_data T -> qp_data T.
Variable qp_solve : Q -> qp_data T -> Q * (vec T * vec T * Z).
Variable qp_mark : Q -> Q.

Notation state := (@sqp_state T Q W).
Notation step := (sqp_step P st Q W pc_compute pc_unscale_sol pc_unscale qp_solve).
Notation iteration := (sqp_iteration P st Q W hupd pc_compute pc_unscale_sol pc_unscale qp_solve).
Notation loop := (sqp_loop P st Q W hupd pc_compute pc_unscale_sol pc_unscale qp_solve).
Notation first := (sqp_first P st Q W hreg pc_compute pc_unscale_sol pc_unscale qp_solve qp_mark).
Notation solve := (sqp_solve P st Q W hupd hreg pc_compute pc_unscale_sol pc_unscale qp_solve qp_mark).
Notation nd := (ne P + ni P + nx P)%nat.

(** what a step does to the state *)
Definition stepped (D : qp_data T -> Prop) (s s' : state) (d : qp_data T) : Prop :=
  exists p lk d2 i,
    D d2 /\
    let a := spow (tau st) i in
    let mu := norminf nd lk in
    let phi := sadd (p_cost P (m_x s)) (smul mu (l1_violation P (m_x s))) in
    let dphi := ssub (dot (nx P) (qh d2) p) (smul mu (l1_violation P (m_x s))) in
    let acc j := accept P st (m_x s) p mu phi dphi (spow (tau st) j) in
    (i <= ls_budget st)%nat /\
    (forall j, (j < i)%nat -> acc j = false) /\
    ((i < ls_budget st)%nat -> acc i = true /\ m_cost s' = p_cost P (trial_point P (m_x s) p a)) /\
    m_x s' = tab (nx P) (fun j => sadd (m_x s j) (smul a (p j))) /\
    m_lam s' = tab nd (fun j => sadd (m_lam s j) (smul a (tab nd (fun i => ssub (lk i) (m_lam s i)) j))) /\
    m_step_prev s' = tab (nx P) (fun j => smul a (p j)) /\
    m_primal_norm s' = smul a (norminf (nx P) p) /\
    m_dual_norm s' = smul a (norminf nd (tab nd (fun i => ssub (lk i) (m_lam s i)))) /\
    m_max_violation s' = max_violation P (m_x s') /\
    m_H s' = qH d2 /\
    m_status s' = m_status s /\ m_iter s' = m_iter s /\
    seen s' = (m_x s', m_lam s') :: seen s /\ calls s' = calls s /\
    steps s' = (d, (p, lk)) :: steps s.

(** [d2] is what scaling and unscaling the QP [d] gives *)
Definition round_trip (d d2 : qp_data T) : Prop :=
  exists w w' d1, pc_compute w d = (w', d1) /\ d2 = pc_unscale w' d1.

Lemma step_spec : forall mark s lagg H h A b,
  stepped (round_trip (sub_qp P H h A b (m_x s))) s (step mark s lagg H h A b) (sub_qp P H h A b (m_x s)).
Proof.
  intros. unfold sqp_step.
  destruct (pc_compute (m_w s) (sub_qp P H h A b (m_x s))) as [w d1] eqn:E1.
  destruct (qp_solve (m_q s) d1) as [q [[p0 l0] it]].
  destruct (pc_unscale_sol w (p0, l0)) as [p lk].
  unfold step_size_selection.
  match goal with |- context [ls_loop P st ?x ?p ?mu ?phi ?dphi ?f ?a ?c ?e] =>
    assert (L := ls_loop_spec x p mu phi dphi f O c e) end.
  change (spow (tau st) 0) with (s1 : T) in L.
  match type of L with context [ls_loop ?P ?st ?x ?p ?mu ?phi ?dphi ?f ?a ?c ?e] =>
    destruct (ls_loop P st x p mu phi dphi f a c e) as [[a' c'] e'] end.
  destruct L as (i & Hi & Ha & Hrej & Hacc & _).
  exists p, lk, (pc_unscale w d1), i.
  split; [exists (m_w s), w, d1; auto|]. cbv zeta. subst a'.
  split; [lia|]. split; [intros; apply Hrej; lia|].
  split; [intros Hlt; destruct Hacc as (A1 & A2 & _); [lia|]; split; [exact A1|exact A2]|].
  repeat split.
Qed.

(** the invariant kept by the loop *)
Definition good (s : state) : Prop :=
  (1 <= m_iter s)%Z /\ m_status s = SqpMaxIter /\
  Z.of_nat (length (seen s)) = (m_iter s + 1)%Z /\
  Z.of_nat (length (steps s)) = m_iter s /\
  (exists lam r, seen s = (m_x s, lam) :: r) /\
  calls s = (if has_callback st then firstn (Z.to_nat (m_iter s - 1)) (map fst (seen s)) else []) /\
  m_max_violation s = max_violation P (m_x s).

Lemma first_good : forall s, good (first s) /\ m_iter (first s) = 1%Z.
Proof.
  intros s. unfold sqp_first.
  set (s0 := mkSqp _ _ _ _ _ _ _ _ _ _ _ _ _ _ _ _ _).
  destruct (p_lag_full P (m_x s0) (m_lam s0)) as [[[[lagg H] h] b] A].
  destruct (step_spec qp_mark s0 lagg (hreg H) h A b)
    as (p & lk & d2 & i & _ & _ & _ & _ & Hx & _ & _ & _ & _ & Hv & _ & Hst & Hit & Hs & Hc & Hsteps).
  set (s' := step qp_mark s0 lagg (hreg H) h A b) in *.
  assert (Hi1 : m_iter s' = 1%Z) by (rewrite Hit; reflexivity).
  split; [|exact Hi1]. unfold good. rewrite Hi1, Hst, Hs, Hc, Hsteps.
  split; [lia|]. split; [reflexivity|]. split; [reflexivity|]. split; [reflexivity|].
  split; [eauto|]. split; [|exact Hv]. destruct (has_callback st); reflexivity.
Qed.

Lemma iteration_good : forall s, good s ->
  good (iteration s) /\ m_iter (iteration s) = (m_iter s + 1)%Z.
Proof.
  intros s (G1 & G2 & G3 & G4 & G5 & G6 & G7). unfold sqp_iteration.
  set (s0 := set_iter Q W (m_iter s + 1) s).
  destruct (p_lag P (m_x s0) (m_lam s0)) as [[[lagg h] b] A].
  set (H := hupd _ _ _).
  destruct (step_spec (fun q => q) s0 lagg H h A b)
    as (p & lk & d2 & i & _ & _ & _ & _ & Hx & _ & _ & _ & _ & Hv & _ & Hst & Hit & Hs & Hc & Hsteps).
  set (s' := step (fun q => q) s0 lagg H h A b) in *.
  assert (E1 : m_iter s' = (m_iter s + 1)%Z) by exact Hit.
  assert (E2 : m_status s' = SqpMaxIter) by (rewrite Hst; exact G2).
  assert (E3 : seen s' = (m_x s', m_lam s') :: seen s) by exact Hs.
  assert (E4 : calls s' = calls s) by exact Hc.
  assert (E5 : length (steps s') = S (length (steps s))) by (rewrite Hsteps; reflexivity).
  assert (C : callback st Q W s' = s' /\ has_callback st = false \/
              has_callback st = true /\ calls (callback st Q W s') = m_x s' :: calls s' /\
              m_iter (callback st Q W s') = m_iter s' /\ m_status (callback st Q W s') = m_status s' /\
              seen (callback st Q W s') = seen s' /\ steps (callback st Q W s') = steps s' /\
              m_x (callback st Q W s') = m_x s' /\
              m_max_violation (callback st Q W s') = m_max_violation s').
  { unfold callback. destruct (has_callback st); [right|left]; repeat split. }
  unfold good.
  destruct C as [[-> Hcb]|(Hcb & C1 & C2 & C3 & C4 & C5 & C6 & C7)].
  - rewrite E1, E2, E3, E4, E5, G6, Hcb. cbn [length].
    split; [|reflexivity]. split; [lia|]. split; [reflexivity|]. split; [lia|]. split; [lia|].
    split; [eauto|]. split; [reflexivity|exact Hv].
  - rewrite C1, C2, C3, C4, C5, C6, C7, E1, E2, E3, E4, E5, G6, Hcb. cbn [length].
    split; [|reflexivity]. split; [lia|]. split; [reflexivity|]. split; [lia|]. split; [lia|].
    split; [eauto|]. split; [|exact Hv].
    replace (Z.to_nat (m_iter s + 1 - 1)) with (S (Z.to_nat (m_iter s - 1))) by lia. reflexivity.
Qed.

Lemma loop_result : forall fuel s, good s -> terminated st Q W s = false ->
  Z.to_nat (smax_iter st - m_iter s) = fuel ->
  exists s', good s' /\
    ((m_iter s < m_iter s' <= smax_iter st)%Z /\ terminated st Q W s' = true /\ loop fuel s = set_status Q W SqpSolved s' \/
     m_iter s' = Z.max (m_iter s) (smax_iter st) /\ terminated st Q W s' = false /\ loop fuel s = s').
Proof.
  induction fuel as [|f IH]; intros s G Ht Hf; cbn [sqp_loop].
  - exists s. split; [exact G|]. right. split; [lia|]. split; [exact Ht|reflexivity].
  - destruct (Z.ltb_spec (m_iter s) (smax_iter st)) as [Hlt|Hge]; [|lia].
    destruct (iteration_good s G) as [G' Hi].
    destruct (terminated st Q W (iteration s)) eqn:Et.
    + exists (iteration s). split; [exact G'|]. left. split; [lia|]. split; [exact Et|reflexivity].
    + destruct (IH (iteration s) G' Et) as (s' & Gs & D); [lia|].
      exists s'. split; [exact Gs|]. destruct D as [(D1 & D2 & D3)|(D1 & D2 & D3)].
      * left. split; [lia|]. split; [exact D2|exact D3].
      * right. split; [lia|]. split; [exact D2|exact D3].
Qed.

Lemma solve_result : forall s,
  exists s', good s' /\ (1 <= m_iter s' <= Z.max 1 (smax_iter st))%Z /\
    (terminated st Q W s' = true /\ solve s = set_status Q W SqpSolved s' \/
     m_iter s' = Z.max 1 (smax_iter st) /\ terminated st Q W s' = false /\ solve s = s').
Proof.
  intros s. unfold sqp_solve. destruct (first_good s) as [G Hi].
  destruct (terminated st Q W (first s)) eqn:Et.
  - exists (first s). split; [exact G|]. split; [lia|]. left. split; [exact Et|reflexivity].
  - destruct (loop_result (Z.to_nat (smax_iter st - 1)) (first s) G Et) as (s' & G' & D); [rewrite Hi; reflexivity|].
    exists s'. split; [exact G'|]. destruct D as [(D1 & D2 & D3)|(D1 & D2 & D3)].
    + split; [lia|]. left. split; [exact D2|exact D3].
    + split; [lia|]. right. split; [lia|]. split; [exact D2|exact D3].
Qed.

(** invariants of steps carry over to the whole run.  [I] must not look at status, iteration count and
    callback log. *)
Definition same_core (s s' : state) : Prop :=
  m_x s = m_x s' /\ m_lam s = m_lam s' /\ m_lag_gradient s = m_lag_gradient s' /\ m_H s = m_H s' /\
  m_step_prev s = m_step_prev s' /\ m_primal_norm s = m_primal_norm s' /\ m_dual_norm s = m_dual_norm s' /\
  m_cost s = m_cost s' /\ seen s = seen s' /\ steps s = steps s'.

Lemma callback_core : forall s, same_core (callback st Q W s) s.
Proof. intros; unfold callback; destruct (has_callback st); repeat split. Qed.

Section Invariant.
Variable I : state -> Prop.
Hypothesis I_core : forall s s', same_core s s' -> I s -> I s'.
Hypothesis I_iter : forall s lagg h b A, I s -> p_lag P (m_x s) (m_lam s) = (lagg, h, b, A) ->
  I (step (fun q => q) s lagg (hupd (m_H s) (m_step_prev s) (tab (nx P) (fun j => ssub (lagg j) (m_lag_gradient s j)))) h A b).

Lemma core_sym : forall s s', same_core s s' -> same_core s' s.
Proof. intros s s' (?&?&?&?&?&?&?&?&?&?); repeat split; auto. Qed.

Lemma iteration_inv : forall s, I s -> I (iteration s).
Proof.
  intros s H. unfold sqp_iteration.
  set (s0 := set_iter Q W (m_iter s + 1) s).
  assert (H0 : I s0) by (apply (I_core s); [repeat split|exact H]).
  destruct (p_lag P (m_x s0) (m_lam s0)) as [[[lagg h] b] A] eqn:E.
  eapply I_core; [apply core_sym, callback_core|]. apply I_iter; auto.
Qed.

Lemma loop_inv : forall fuel s, I s -> I (loop fuel s).
Proof.
  induction fuel as [|f IH]; intros s H; cbn [sqp_loop]; auto.
  destruct (m_iter s <? smax_iter st)%Z; auto.
  destruct (terminated st Q W (iteration s)).
  - apply (I_core (iteration s)); [repeat split|]. apply iteration_inv; auto.
  - apply IH, iteration_inv; auto.
Qed.

Lemma solve_inv : forall s, I (first s) -> I (solve s).
Proof.
  intros s I_first. unfold sqp_solve. destruct (terminated st Q W (first s)).
  - apply (I_core (first s)); [repeat split|exact I_first].
  - apply loop_inv, I_first.
Qed.
End Invariant.

(** the state at the beginning of solve() *)
Definition start (s : state) : state :=
  mkSqp (m_x s) (m_lam s) (m_lag_gradient s) (m_H s) (m_step_prev s) (m_primal_norm s) (m_dual_norm s)
        (m_max_violation s) (m_cost s) SqpMaxIter 1 0 (m_q s) (m_w s) [(m_x s, m_lam s)] [] [].

(** the linearisation used in a step taken from [s]: of the first iteration, or of a later one *)
Definition linearised (s : state) (H : mat T) (h : vec T) (A : mat T) (b : vec T) : Prop :=
  (exists lagg H0, p_lag_full P (m_x s) (m_lam s) = (lagg, H0, h, b, A) /\ H = hreg H0) \/
  (exists lagg y, p_lag P (m_x s) (m_lam s) = (lagg, h, b, A) /\ H = hupd (m_H s) (m_step_prev s) y).

Section Invariant2.
Variable I : state -> Prop.
Hypothesis I_core : forall s s', same_core s s' -> I s -> I s'.
Hypothesis I_step : forall s s' H h A b, linearised s H h A b ->
  stepped (round_trip (sub_qp P H h A b (m_x s))) s s' (sub_qp P H h A b (m_x s)) -> I s -> I s'.

Lemma solve_inv2 : forall s, I (start s) -> I (solve s).
Proof.
  intros s H0. apply solve_inv; auto.
  - intros s0 lagg h b A HI E. eapply I_step; [|apply step_spec|exact HI].
    right. exists lagg. eexists. split; [exact E|reflexivity].
  - unfold sqp_first. fold (start s).
    destruct (p_lag_full P (m_x (start s)) (m_lam (start s))) as [[[[lagg H] h] b] A] eqn:E.
    eapply I_step; [|apply step_spec|exact H0]. left. exists lagg, H. split; [exact E|reflexivity].
Qed.
End Invariant2.

(** [I] before the first step and [J] after it (and after every later one) *)
Section Invariant3.
Variable J : state -> Prop.
Hypothesis J_core : forall s s', same_core s s' -> J s -> J s'.
Hypothesis J_step : forall s s' lagg h A b y,
  p_lag P (m_x s) (m_lam s) = (lagg, h, b, A) ->
  stepped (round_trip (sub_qp P (hupd (m_H s) (m_step_prev s) y) h A b (m_x s))) s s'
     (sub_qp P (hupd (m_H s) (m_step_prev s) y) h A b (m_x s)) -> J s -> J s'.

Lemma solve_inv3 : forall s, 
  (forall s' lagg H0 h b A, p_lag_full P (m_x s) (m_lam s) = (lagg, H0, h, b, A) ->
     stepped (round_trip (sub_qp P (hreg H0) h A b (m_x s))) (start s) s' (sub_qp P (hreg H0) h A b (m_x s)) -> J s') ->
  J (solve s).
Proof.
  intros s H0. apply solve_inv; auto.
  - intros s0 lagg h b A HI E. eapply J_step; [exact E|apply step_spec|exact HI].
  - unfold sqp_first. fold (start s).
    destruct (p_lag_full P (m_x (start s)) (m_lam (start s))) as [[[[lagg H] h] b] A] eqn:E.
    eapply H0; [exact E|]. exact (step_spec qp_mark (start s) lagg (hreg H) h A b).
Qed.
End Invariant3.


End Any.
