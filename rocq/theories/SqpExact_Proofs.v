(** Local quadratic convergence of the SQP solver with exact linearisation on problems with linear constraints. *)
Require Import Reals Lra Lia List ZArith Bool Psatz.
Require Import Verif.Scal Verif.RSum Verif.RNorm Verif.Qp_Model Verif.Qp_Spec Verif.Qp_Proofs Verif.Sqp_Model Verif.Sqp_Spec Verif.Sqp_Proofs Verif.Sqp_ProofsR
  Verif.SqpQp_Proofs Verif.SqpGlob_Spec Verif.SqpGlob_Proofs Verif.SqpExact_Model Verif.SqpExact_Spec.
Import ListNotations.
Local Open Scope R_scope.

(** ** runs with exact linearisation *)
Section Runs.
Context {T : Type} {ST : Scalar T}.
Variable P : problem T.
Variable st : sqp_settings T.
Variables Q W : Type.
Variable hreg : mat T -> mat T.
Variable pcc : W -> qp_data T -> W * qp_data T.
Variable pcs : W -> vec T * vec T -> vec T * vec T.
Variable pcu : W -> qp_data T -> qp_data T.
Variable qps : Q -> qp_data T -> Q * (vec T * vec T * Z).
Variable qpm : Q -> Q.
Notation state := (@sqp_state T Q W).
Notation step := (sqp_step P st Q W pcc pcs pcu qps).
Notation iteration := (exact_iteration P st Q W hreg pcc pcs pcu qps).
Notation loop := (exact_loop P st Q W hreg pcc pcs pcu qps).
Notation first := (sqp_first P st Q W hreg pcc pcs pcu qps qpm).
Notation solve := (exact_solve P st Q W hreg pcc pcs pcu qps qpm).
Notation rtrip := (round_trip W pcc pcu).

Section Invariant0.
Variable I : state -> Prop.
Hypothesis I_core : forall s s', same_core Q W s s' -> I s -> I s'.
Hypothesis I_step : forall s mark lagg H h A b, p_lag_full P (m_x s) (m_lam s) = (lagg, H, h, b, A) -> I s -> I (step mark s lagg (hreg H) h A b).

Lemma exact_iteration_inv s : I s -> I (iteration s).
Proof.
  intros HI. unfold exact_iteration. set (s0 := set_iter Q W (m_iter s + 1) s).
  assert (H0 : I s0) by (apply (I_core s); [repeat split|exact HI]).
  destruct (p_lag_full P (m_x s0) (m_lam s0)) as [[[[lagg H] h] b] A] eqn:E.
  eapply I_core; [apply core_sym, callback_core|]. apply I_step; auto.
Qed.
Lemma exact_loop_inv fuel : forall s, I s -> I (loop fuel s).
Proof.
  induction fuel as [|f IH]; intros s H; cbn [exact_loop]; auto.
  destruct (m_iter s <? smax_iter st)%Z; auto. destruct (terminated st Q W (iteration s)).
  - apply (I_core (iteration s)); [repeat split|]. apply exact_iteration_inv; auto.
  - apply IH, exact_iteration_inv; auto.
Qed.
Lemma exact_solve_inv0 s : I (start Q W s) -> I (solve s).
Proof.
  intros H0. assert (H1 : I (first s)).
  { unfold sqp_first. fold (start Q W s).
    destruct (p_lag_full P (m_x (start Q W s)) (m_lam (start Q W s))) as [[[[lagg H] h] b] A] eqn:E.
    apply I_step; auto. }
  unfold exact_solve. destruct (terminated st Q W (first s)).
  - apply (I_core (first s)); [repeat split|exact H1].
  - apply exact_loop_inv, H1.
Qed.
End Invariant0.
Section Invariant.
Variable I : state -> Prop.
Hypothesis I_core : forall s s', same_core Q W s s' -> I s -> I s'.
Hypothesis I_step : forall s s' lagg H h A b, p_lag_full P (m_x s) (m_lam s) = (lagg, H, h, b, A) ->
  stepped P st Q W (rtrip (sub_qp P (hreg H) h A b (m_x s))) s s' (sub_qp P (hreg H) h A b (m_x s)) -> I s -> I s'.
Lemma exact_solve_inv s : I (start Q W s) -> I (solve s).
Proof. apply exact_solve_inv0; auto. intros s0 mark lagg H h A b E HI. eapply I_step; [exact E|apply step_spec|exact HI]. Qed.
End Invariant.

Lemma exact_iteration_good s : good P st Q W s -> good P st Q W (iteration s) /\ m_iter (iteration s) = (m_iter s + 1)%Z.
Proof.
  intros (G1 & G2 & G3 & G4 & G5 & G6 & G7). unfold exact_iteration.
  set (s0 := set_iter Q W (m_iter s + 1) s).
  destruct (p_lag_full P (m_x s0) (m_lam s0)) as [[[[lagg H] h] b] A].
  destruct (step_spec P st Q W pcc pcs pcu qps (fun q => q) s0 lagg (hreg H) h A b)
    as (p & lk & d2 & i & _ & _ & _ & _ & Hx & _ & _ & _ & _ & Hv & _ & Hst & Hit & Hs & Hc & Hsteps).
  set (s' := step (fun q => q) s0 lagg (hreg H) h A b) in *.
  assert (E1 : m_iter s' = (m_iter s + 1)%Z) by exact Hit.
  assert (E2 : m_status s' = SqpMaxIter) by (rewrite Hst; exact G2).
  assert (E3 : seen s' = (m_x s', m_lam s') :: seen s) by exact Hs.
  assert (E4 : calls s' = calls s) by exact Hc.
  assert (E5 : length (steps s') = S (length (steps s))) by (rewrite Hsteps; reflexivity).
  assert (C : callback st Q W s' = s' /\ has_callback st = false \/
              has_callback st = true /\ calls (callback st Q W s') = m_x s' :: calls s' /\
              m_iter (callback st Q W s') = m_iter s' /\ m_status (callback st Q W s') = m_status s' /\
              seen (callback st Q W s') = seen s' /\ steps (callback st Q W s') = steps s' /\
              m_x (callback st Q W s') = m_x s' /\
              m_max_violation (callback st Q W s') = m_max_violation s').
  { unfold callback. destruct (has_callback st); [right|left]; repeat split. }
  unfold good.
  destruct C as [[-> Hcb]|(Hcb & C1 & C2 & C3 & C4 & C5 & C6 & C7)].
  - rewrite E1, E2, E3, E4, E5, G6, Hcb. cbn [length].
    split; [|reflexivity]. split; [lia|]. split; [reflexivity|]. split; [lia|]. split; [lia|].
    split; [eauto|]. split; [reflexivity|exact Hv].
  - rewrite C1, C2, C3, C4, C5, C6, C7, E1, E2, E3, E4, E5, G6, Hcb. cbn [length].
    split; [|reflexivity]. split; [lia|]. split; [reflexivity|]. split; [lia|]. split; [lia|].
    split; [eauto|]. split; [|exact Hv].
    replace (Z.to_nat (m_iter s + 1 - 1)) with (S (Z.to_nat (m_iter s - 1))) by lia. reflexivity.
Qed.
Lemma exact_loop_result : forall fuel s, good P st Q W s -> terminated st Q W s = false ->
  Z.to_nat (smax_iter st - m_iter s) = fuel ->
  exists s', good P st Q W s' /\
    ((m_iter s < m_iter s' <= smax_iter st)%Z /\ terminated st Q W s' = true /\ loop fuel s = set_status Q W SqpSolved s' \/
     m_iter s' = Z.max (m_iter s) (smax_iter st) /\ terminated st Q W s' = false /\ loop fuel s = s').
Proof.
  induction fuel as [|f IH]; intros s G Ht Hf; cbn [exact_loop].
  - exists s. split; [exact G|]. right. split; [lia|]. split; [exact Ht|reflexivity].
  - destruct (Z.ltb_spec (m_iter s) (smax_iter st)) as [Hlt|Hge]; [|lia].
    destruct (exact_iteration_good s G) as [G' Hi].
    destruct (terminated st Q W (iteration s)) eqn:Et.
    + exists (iteration s). split; [exact G'|]. left. split; [lia|]. split; [exact Et|reflexivity].
    + destruct (IH (iteration s) G' Et) as (s' & Gs & D); [lia|].
      exists s'. split; [exact Gs|]. destruct D as [(D1 & D2 & D3)|(D1 & D2 & D3)].
      * left. split; [lia|]. split; [exact D2|exact D3].
      * right. split; [lia|]. split; [exact D2|exact D3].
Qed.
Lemma exact_solve_result : forall s,
  exists s', good P st Q W s' /\ (1 <= m_iter s' <= Z.max 1 (smax_iter st))%Z /\
    (terminated st Q W s' = true /\ solve s = set_status Q W SqpSolved s' \/
     m_iter s' = Z.max 1 (smax_iter st) /\ terminated st Q W s' = false /\ solve s = s').
Proof.
  intros s. unfold exact_solve. destruct (first_good P st Q W hreg pcc pcs pcu qps qpm s) as [G Hi].
  destruct (terminated st Q W (first s)) eqn:Et.
  - exists (first s). split; [exact G|]. split; [lia|]. left. split; [exact Et|reflexivity].
  - destruct (exact_loop_result (Z.to_nat (smax_iter st - 1)) (first s) G Et) as (s' & G' & D); [rewrite Hi; reflexivity|].
    exists s'. split; [exact G'|]. destruct D as [(D1 & D2 & D3)|(D1 & D2 & D3)].
    + split; [lia|]. left. split; [exact D2|exact D3].
    + split; [lia|]. right. split; [lia|]. split; [exact D2|exact D3].
Qed.
End Runs.

(** ** two quadratic programs that differ in the gradient *)
Lemma kkt_perturbed d h' p l q k : kkt_pair d p l ->
  kkt_pair {| qn := qn d; qm := qm d; qH := qH d; qh := h'; qA := qA d; qAlb := qAlb d; qAub := qAub d; qxlb := qxlb d; qxub := qxub d |} q k ->
  let v := fun j => p j - q j in qf (qn d) (qH d) v <= rdot (qn d) (fun j => h' j - qh d j) v.
Proof.
  intros (K1 & [F1 F1'] & S1 & B1) (K2 & [F2 F2'] & S2 & B2) v. cbn [qn qm qH qh qA qAlb qAub qxlb qxub] in *.
  assert (Z1 : rdot (qn d) (lag_grad d p l) v = 0).
  { rewrite rdot_def. apply rsum_zero. intros; rewrite K1 by auto; ring. }
  match type of K2 with forall j, _ -> lag_grad ?d' _ _ _ = _ => assert (Z2 : rdot (qn d') (lag_grad d' q k) v = 0) end.
  { rewrite rdot_def. apply rsum_zero. intros; rewrite K2 by auto; ring. }
  rewrite lag_grad_dot in Z1, Z2. cbn [qn qm qH qh qA qAlb qAub qxlb qxub] in *.
  assert (E : rdot (qn d) (rmv (qn d) (qH d) p) v - rdot (qn d) (rmv (qn d) (qH d) q) v = qf (qn d) (qH d) v).
  { rewrite <- rdot_minus_l. unfold qf. rewrite rdot_comm. apply rdot_ext; auto.
    intros j Hj. unfold v. rewrite rmv_minus. reflexivity. }
  assert (M1 : 0 <= rdot (qm d) l (rmv (qn d) (qA d) v) - rdot (qm d) k (rmv (qn d) (qA d) v)).
  { rewrite <- rdot_minus_l, rdot_def. apply rsum_nonneg. intros i Hi. unfold v. rewrite rmv_minus.
    eapply sign_monotone; eauto. }
  assert (M2 : 0 <= rdot (qn d) (fun j => l (qm d + j)%nat) v - rdot (qn d) (fun j => k (qm d + j)%nat) v).
  { rewrite <- rdot_minus_l, rdot_def. apply rsum_nonneg. intros j Hj. unfold v.
    eapply sign_monotone; eauto. }
  rewrite rdot_minus_l. lra.
Qed.

Section Local.
Variable P : problem R.
Variable grad : vec R -> vec R.
Variable jac : vec R -> mat R.
Variable hess : vec R -> mat R.
Variables mm L rad : R.
Variables xs ls : vec R.
Notation n := (nx P).
Notation m := (ne P + ni P)%nat.
Notation nd := (ne P + ni P + nx P)%nat.
Hypothesis HB : proper_bounds P.
Hypothesis HA : linear_constraints P jac.
Hypothesis HK : nlp_kkt P (grad xs) (jac xs) xs ls.
Hypothesis HN : newton_region P grad hess mm L xs rad.
Hypothesis Hmm : 0 < mm.
Hypothesis HL0 : 0 < L.
Notation dist x := (edist n x xs).
Notation subd H x := (sub_qp P H (grad x) (jac x) (constr_values P x) x).

(** the step to the solution solves the subproblem with another gradient *)
Lemma solution_step H x : nlp_feasible P x -> 
  kkt_pair (sub_qp P H (fun j => grad xs j - rmv n H (fun j => xs j - x j) j) (jac x) (constr_values P x) x) (fun j => xs j - x j) ls.
Proof.
  intros HF. destruct HK as ((G1 & G2 & G3) & K1 & K2 & K3).
  assert (V : forall r, (r < m)%nat -> row_value P r xs = row_value P r x + rmv n (jac x) (fun j => xs j - x j) r).
  { intros r Hr. rewrite (row_at P jac HA x (fun j => xs j - x j) xs 1 r Hr) by (intros; ring). ring. }
  assert (J : forall r j, (r < m)%nat -> (j < n)%nat -> jac x r j = jac xs r j).
  { intros r j Hr Hj. destruct (HA r Hr) as (a & c & E). rewrite (proj2 (E x)), (proj2 (E xs)) by auto. reflexivity. }
  split; [|split; [|split]].
  - cbn [sub_qp qn]. intros j Hj. unfold lag_grad. cbn [sub_qp qn qm qH qh qA]. rewrite <- (K1 j Hj).
    rewrite (rsum_ext m (fun i => jac x i j * ls i) (fun i => jac xs i j * ls i)) by (intros; rewrite J; auto). ring.
  - apply sub_qp_feasible. split; [|split].
    + intros i Hi. specialize (V i ltac:(lia)). unfold row_value, constr_values in V. destruct (Nat.ltb_spec i (ne P)); [|lia].
      rewrite <- V. auto.
    + intros i Hi. specialize (V (ne P + i)%nat ltac:(lia)). unfold row_value, constr_values in V. destruct (Nat.ltb_spec (ne P + i) (ne P)); [lia|].
      replace (ne P + i - ne P)%nat with i in V by lia. rewrite <- V. auto.
    + intros j Hj. replace (x j + (xs j - x j)) with (xs j) by ring. auto.
  - cbn [sub_qp qm qn qAlb qAub qA]. intros i Hi. specialize (V i Hi). unfold row_value in V. unfold constr_values in V |- *.
    destruct (Nat.ltb_spec i (ne P)) as [Hl|Hg].
    + assert (E : rmv n (jac x) (fun j => xs j - x j) i = - p_eq P x i) by (rewrite G1 in V by auto; lra).
      rewrite E. split; reflexivity.
    + apply sign_ok_move_add. rewrite <- V. specialize (K2 (i - ne P)%nat ltac:(lia)). replace (ne P + (i - ne P))%nat with i in K2 by lia. exact K2.
  - cbn [sub_qp qm qn qxlb qxub]. intros j Hj. apply sign_ok_move. replace (x j + (xs j - x j)) with (xs j) by ring. auto.
Qed.

Notation C := (newton_factor mm L).
Lemma C_pos : 0 < C.
Proof. unfold newton_factor. apply Rdiv_lt_0_compat; lra. Qed.

Section Step.
Variables (H : mat R) (x p lk : vec R).
Hypothesis HX : near P xs rad x.
Hypothesis HE : forall i j, (i < n)%nat -> (j < n)%nat -> H i j = hess x i j.
Hypothesis HP : kkt_pair (subd H x) p lk.
Notation r := (dist x).
Notation g := (rdot n (grad x) p).

Lemma qf_hess v : qf n H v = qf n (hess x) v.
Proof. unfold qf. apply rdot_ext; auto. intros i Hi. rewrite !rmv_def. apply rsum_ext. intros j Hj. rewrite HE by auto. reflexivity. Qed.
Lemma r_nonneg : 0 <= r.
Proof. apply enorm_nonneg. Qed.
Lemma xs_near : near P xs rad xs.
Proof.
  split; [apply HK|]. apply Rle_trans with 0; [|apply Rle_trans with r; [apply r_nonneg|apply HX]].
  unfold edist. apply enorm_le; [lra|]. rewrite rdot_def, rsum_zero; [lra|]. intros; ring.
Qed.

(** the full step *)
Lemma full_step : enorm n (fun j => x j + p j - xs j) <= C * (r * r).
Proof.
  set (v := fun j => p j - (xs j - x j)).
  assert (A := kkt_perturbed (subd H x) (fun j => grad xs j - rmv n H (fun j => xs j - x j) j) p lk (fun j => xs j - x j) ls HP (solution_step H x (proj1 HX))).
  cbv zeta in A. cbn [sub_qp qn qH qh] in A. fold v in A.
  destruct (HN x HX) as [N1 N2]. destruct (N2 xs xs_near) as [N3 _]. cbv zeta in N3. rewrite (edist_sym n xs x) in N3.
  rewrite qf_hess in A. specialize (N1 v).
  assert (B : rdot n (fun j => grad xs j - rmv n H (fun j => xs j - x j) j - grad x j) v <= L / 2 * (r * r) * enorm n v).
  { eapply Rle_trans; [apply rdot_norms|]. apply Rmult_le_compat_r; [apply enorm_nonneg|].
    erewrite enorm_ext; [exact N3|]. intros j Hj. rewrite !rmv_def. 
    rewrite (rsum_ext n (fun k => H j k * (xs k - x k)) (fun k => hess x j k * (xs k - x k))); [ring|]. intros k Hk. rewrite HE by auto. reflexivity. }
  assert (V0 := enorm_nonneg n v). rewrite <- enorm_sq in N1.
  rewrite (enorm_ext n _ v) by (intros; unfold v; ring).
  assert (Q0 : mm * enorm n v * enorm n v <= L / 2 * (r * r) * enorm n v) by lra.
  destruct (Req_dec (enorm n v) 0) as [E|Nz].
  - rewrite E. assert (X := C_pos). apply Rmult_le_pos; [lra|]. apply Rle_0_sqr.
  - apply Rmult_le_reg_r in Q0; [|lra]. apply Rmult_le_reg_l with mm; auto. unfold newton_factor.
    replace (mm * (L / (2 * mm) * (r * r))) with (L / 2 * (r * r)) by (field; lra). exact Q0.
Qed.

Lemma partial_step y a : 0 <= a <= 1 -> (forall j, (j < n)%nat -> y j = x j + a * p j) -> dist y <= (1 - a) * r + a * (C * (r * r)).
Proof.
  intros Ha Ey. unfold edist at 1.
  rewrite (enorm_ext n _ (fun j => (1 - a) * (x j - xs j) + a * (x j + p j - xs j))) by (intros j Hj; rewrite Ey by auto; ring).
  eapply Rle_trans; [apply enorm_plus|]. rewrite !enorm_scal by lra.
  apply Rplus_le_compat; [right; reflexivity|]. apply Rmult_le_compat_l; [lra|apply full_step].
Qed.

Variable et : R.
Hypothesis Het : 0 <= et < / 2.
Hypothesis Hrad : L * rad <= (1 - 2 * et) * mm.

Lemma C_r : C * r <= / 2 - et.
Proof.
  unfold newton_factor. apply Rmult_le_reg_l with (2 * mm); [lra|]. replace (2 * mm * (L / (2 * mm) * r)) with (L * r) by (field; lra).
  assert (L * r <= L * rad) by (apply Rmult_le_compat_l; [lra|apply HX]). lra.
Qed.
Lemma C_r2 : C * (r * r) <= r / 2.
Proof.
  assert (A := C_r). assert (B := r_nonneg). rewrite <- Rmult_assoc. apply Rle_trans with ((/ 2 - et) * r); [apply Rmult_le_compat_r; auto|nra].
Qed.
Lemma p_above : r / 2 <= enorm n p.
Proof.
  assert (A := full_step). assert (B := C_r2).
  assert (E : r <= enorm n (fun j => x j + p j - xs j) + enorm n (fun j => - p j)).
  { unfold edist. rewrite (enorm_ext n (fun j => x j - xs j) (fun j => (x j + p j - xs j) + - p j)) by (intros; ring). apply enorm_plus. }
  rewrite enorm_opp in E. lra.
Qed.
Lemma p_below : enorm n p <= 3 / 2 * r.
Proof.
  assert (A := full_step). assert (B := C_r2).
  assert (E : enorm n p <= enorm n (fun j => x j + p j - xs j) + enorm n (fun j => - (x j - xs j))).
  { rewrite (enorm_ext n p (fun j => (x j + p j - xs j) + - (x j - xs j))) by (intros; ring). apply enorm_plus. }
  rewrite enorm_opp in E. fold (edist n x xs) in E. lra.
Qed.
Lemma newton_slope : g <= - qf n (hess x) p.
Proof.
  assert (D := sub_qp_descent P H (grad x) (jac x) x p lk HB HP). rewrite (proj2 (l1_zero P x HB) (proj1 HX)), qf_hess in D. lra.
Qed.
Lemma feas_step y a : 0 <= a <= 1 -> (forall j, (j < n)%nat -> y j = x j + a * p j) -> nlp_feasible P y.
Proof. intros Ha Ey. apply (feas_along P grad jac HA H x p y a); auto; [apply HX|apply HP]. Qed.
Lemma near_along y a : 0 <= a <= 1 -> (forall j, (j < n)%nat -> y j = x j + a * p j) -> near P xs rad y /\ dist y <= r.
Proof.
  intros Ha Ey. assert (D := partial_step y a Ha Ey). assert (A := C_r2). assert (B := r_nonneg).
  assert (dist y <= r).
  { assert (a * (C * (r * r)) <= a * (r / 2)) by (apply Rmult_le_compat_l; lra). nra. }
  split; auto. split; [apply (feas_step y a); auto|]. apply Rle_trans with r; [auto|apply HX].
Qed.
(** the full step is accepted unless the step is tiny *)
Lemma full_accepted y mu : (forall j, (j < n)%nat -> y j = x j + p j) -> 0 <= mu ->
  p_cost P y <= p_cost P x + 1 * et * (g - mu * sqp_eps) \/ (/ 2 - et) * mm * (enorm n p * enorm n p) < 2 * (et * (mu * sqp_eps)).
Proof.
  intros Ey Hmu. destruct (Rlt_dec ((/ 2 - et) * mm * (enorm n p * enorm n p)) (2 * (et * (mu * sqp_eps)))) as [|Hb]; [right; auto|left].
  apply Rnot_lt_le in Hb.
  assert (Ny : near P xs rad y) by (apply (near_along y 1); [lra|]; intros; rewrite Ey by auto; ring).
  destruct (HN x HX) as [N1 N2]. destruct (N2 y Ny) as [_ N3]. cbv zeta in N3.
  assert (Ed : forall j, (j < n)%nat -> y j - x j = p j) by (intros j Hj; rewrite Ey by auto; ring).
  assert (E1 : edist n y x = enorm n p) by (apply enorm_ext; auto).
  assert (E2 : rdot n (grad x) (fun j => y j - x j) = g) by (apply rdot_ext; auto).
  assert (E3 : qf n (hess x) (fun j => y j - x j) = qf n (hess x) p).
  { unfold qf. apply rdot_ext; auto. intros i Hi. rewrite !rmv_def. apply rsum_ext. intros j Hj. rewrite Ed by auto. reflexivity. }
  rewrite E1, E2, E3 in N3. specialize (N1 p). rewrite <- enorm_sq in N1.
  assert (S := newton_slope). assert (PB := p_below). assert (P0 := enorm_nonneg n p). assert (R0 := r_nonneg).
  set (e := enorm n p) in *. set (qq := qf n (hess x) p) in *.
  assert (T3 : L / 6 * (e * (e * e)) <= (/ 2 - et) * mm / 2 * (e * e)).
  { assert (e <= 3 / 2 * rad) by (apply Rle_trans with (3 / 2 * r); [auto|]; assert (X := proj2 HX); lra).
    assert (L * e <= 3 / 2 * ((1 - 2 * et) * mm)).
    { apply Rle_trans with (L * (3 / 2 * rad)); [apply Rmult_le_compat_l; lra|]. lra. }
    replace (L / 6 * (e * (e * e))) with ((L * e) * (e * e / 6)) by field.
    assert (X := Rle_0_sqr e). unfold Rsqr in X.
    apply Rle_trans with (3 / 2 * ((1 - 2 * et) * mm) * (e * e / 6)); [apply Rmult_le_compat_r; lra|right; field]. }
  assert (S2 : (/ 2 - et) * (mm * (e * e)) <= (/ 2 - et) * - g) by (apply Rmult_le_compat_l; lra).
  lra.
Qed.
End Step.

(** ** runs *)
Variable st : sqp_settings R.
Variables Q W : Type.
Variable hreg : mat R -> mat R.
Variable pcc : W -> qp_data R -> W * qp_data R.
Variable pcs : W -> vec R * vec R -> vec R * vec R.
Variable pcu : W -> qp_data R -> qp_data R.
Variable qps : Q -> qp_data R -> Q * (vec R * vec R * Z).
Variable qpm : Q -> Q.
Notation state := (@sqp_state R Q W).
Notation solve := (exact_solve P st Q W hreg pcc pcs pcu qps qpm).
Notation rtrip := (round_trip W pcc pcu).
Hypothesis HR : restores P W pcc pcu.
Hypothesis HLin : linearised_by P grad jac.
Hypothesis HH : newton_hessian P hreg hess xs rad.
Hypothesis Htau : 0 < tau st < 1.
Hypothesis Heta : 0 <= eta st < / 2.
Hypothesis Hrad : L * rad <= (1 - 2 * eta st) * mm.
Variable mu : R.
Notation blur := (newton_blur (eta st) mm mu).

Notation contracts := (newton_contracts n C blur xs).

Lemma local_step (s s' : state) H lagg H0 h b A : p_lag_full P (m_x s) (m_lam s) = (lagg, H0, h, b, A) -> H = hreg H0 ->
  let d := sub_qp P H h A b (m_x s) in stepped P st Q W (rtrip d) s s' d -> near P xs rad (m_x s) ->
  Forall exact_step (steps s') -> Forall (multipliers_below mu) (steps s') -> near P xs rad (m_x s') /\ contracts (m_x s') (m_x s).
Proof.
  intros EL EH d Hst HX HO HM.
  assert (Elin : h = grad (m_x s) /\ A = jac (m_x s) /\ b = constr_values P (m_x s)).
  { destruct (proj1 HLin (m_x s) (m_lam s)) as (? & ? & E'). rewrite EL in E'. injection E'. auto. }
  destruct Elin as (-> & -> & ->).
  assert (HE : forall i j, (i < n)%nat -> (j < n)%nat -> H i j = hess (m_x s) i j) by (subst H; apply (HH _ _ _ _ _ _ _ HX EL)).
  destruct Hst as (p & lk & d2 & i & (w & w' & d1 & Ec & Eu) & Hi & Hrej & Hacc & Hx & _ & _ & _ & _ & _ & _ & _ & _ & _ & _ & Hst).
  rewrite Hst in HO, HM. assert (HP := proj2 (Forall_inv HO)). cbn [fst snd] in HP. assert (Hmu := Forall_inv HM). unfold multipliers_below in Hmu. cbn [fst snd] in Hmu.
  change (qm d + qn d)%nat with nd in Hmu.
  assert (Eh : rdot n (qh d2) p = rdot n (grad (m_x s)) p).
  { rewrite !rdot_def. apply rsum_ext. intros j Hj. rewrite Eu, (HR w d w' d1 eq_refl eq_refl Ec j Hj). reflexivity. }
  assert (Ha : 0 <= tau st ^ i <= 1) by (rewrite <- spow_pow; apply spow_range; lra).
  assert (Ex : forall j, (j < n)%nat -> m_x s' j = m_x s j + tau st ^ i * p j).
  { intros j Hj. rewrite Hx, tab_spec, spow_pow by auto. reflexivity. }
  destruct (near_along H (m_x s) p lk HX HE HP (eta st) Heta Hrad (m_x s') _ Ha Ex) as [Ny Dy].
  split; auto. split; auto.
  destruct i as [|i].
  - left. assert (D := partial_step H (m_x s) p lk HX HE HP (m_x s') 1 ltac:(lra)). simpl in Ex. specialize (D Ex). lra.
  - right. assert (R0 := Hrej 0%nat ltac:(lia)). cbv beta in R0. rewrite Eh in R0.
    set (y := along P (m_x s) p 1).
    assert (Ey : forall j, (j < n)%nat -> y j = m_x s j + p j) by (intros j Hj; unfold y, along; rewrite tab_spec by auto; simpl; ring).
    assert (Fy : nlp_feasible P y) by (apply (feas_step H (m_x s) p lk HX HP y 1); [lra|]; intros; rewrite Ey by auto; ring).
    assert (Z : forall z, nlp_feasible P z -> total_violation P z = 0) by (intros z Fz; rewrite <- l1_sum_total; apply l1_zero; auto).
    destruct (full_accepted H (m_x s) p lk HX HE HP (eta st) Heta Hrad y (rnorminf nd lk) Ey (rnorminf_nonneg _ _)) as [Acc|Tiny].
    + exfalso. assert (B : accept P st (m_x s) p (rnorminf nd lk) (p_cost P (m_x s) + rnorminf nd lk * l1_violation P (m_x s))
        (rdot n (grad (m_x s)) p - rnorminf nd lk * l1_violation P (m_x s)) 1 = true).
      { apply accept_R. unfold merit. fold y. rewrite (Z y Fy), (Z (m_x s) (proj1 HX)). lra. }
      change (spow (tau st) 0) with 1 in R0. assert (X : forall b, b = false -> b = true -> False) by (intros; congruence). exact (X _ R0 B).
    + assert (PA := p_above H (m_x s) p lk HX HE HP (eta st) Heta Hrad). assert (R1 := r_nonneg (m_x s)).
      set (e := enorm n p) in *. set (r := dist (m_x s)) in *. unfold newton_blur.
      assert (D0 : 0 < (/ 2 - eta st) * mm) by (apply Rmult_lt_0_compat; lra).
      apply Rmult_le_reg_l with ((/ 2 - eta st) * mm); auto.
      replace ((/ 2 - eta st) * mm * (8 * (eta st * (mu * sqp_eps)) / ((/ 2 - eta st) * mm))) with (8 * (eta st * (mu * sqp_eps))) by (field; lra).
      assert (RR : r * r <= 4 * (e * e)) by nra.
      assert (E0 : 0 < sqp_eps) by (unfold sqp_eps, scst; simpl; apply Rdiv_lt_0_compat; lra).
      assert (ME : eta st * (rnorminf nd lk * sqp_eps) <= eta st * (mu * sqp_eps)) by (apply Rmult_le_compat_l; [lra|]; apply Rmult_le_compat_r; lra).
      assert ((/ 2 - eta st) * mm * (r * r) <= (/ 2 - eta st) * mm * (4 * (e * e))) by (apply Rmult_le_compat_l; lra). lra.
Qed.

Record local_inv (x0 : vec R) (s : state) : Prop := {
  n_near : Forall (fun e => near P xs rad (fst e)) (seen s);
  n_hd : exists r, seen s = (m_x s, m_lam s) :: r;
  n_len : length (seen s) = S (length (steps s));
  n_chain : chain (fun e' e => contracts (fst e') (fst e)) (seen s);
  n_rate : C * dist (m_x s) <= (C * dist x0) ^ (2 ^ length (steps s)) \/ dist (m_x s) * dist (m_x s) <= blur
}.
Lemma local_run (s : state) : near P xs rad (m_x s) -> Forall exact_step (steps (solve s)) -> Forall (multipliers_below mu) (steps (solve s)) ->
  local_inv (m_x s) (solve s).
Proof.
  intros HX. apply (exact_solve_inv P st Q W hreg pcc pcs pcu qps qpm
    (fun s' => Forall exact_step (steps s') -> Forall (multipliers_below mu) (steps s') -> local_inv (m_x s) s')).
  - intros s1 s2 (A1 & A2 & A3 & A4 & A5 & A6 & A7 & A8 & A9 & A10) HI. rewrite <- A10. intros H1 H2. destruct (HI H1 H2) as [I1 I2 I3 I4 I5].
    constructor; rewrite <- ?A1, <- ?A2, <- ?A9, <- ?A10; auto.
  - intros s1 s2 lagg H h A b EL Hst HI HO HM.
    assert (Hs : exists t, steps s2 = t :: steps s1).
    { destruct Hst as (p & lk & d2 & i & _ & _ & _ & _ & _ & _ & _ & _ & _ & _ & _ & _ & _ & _ & _ & E). eauto. }
    assert (Hseen : seen s2 = (m_x s2, m_lam s2) :: seen s1).
    { destruct Hst as (p & lk & d2 & i & _ & _ & _ & _ & _ & _ & _ & _ & _ & _ & _ & _ & _ & E & _). exact E. }
    destruct Hs as [t Hs]. assert (HO' := HO). assert (HM' := HM). rewrite Hs in HO', HM'.
    destruct (HI (Forall_inv_tail HO') (Forall_inv_tail HM')) as [I1 (r0 & I2) I3 I4 I5].
    assert (HX1 : near P xs rad (m_x s1)) by (rewrite I2 in I1; exact (Forall_inv I1)).
    destruct (local_step s1 s2 _ _ _ _ _ _ EL eq_refl Hst HX1 HO HM) as [N2 [D1 D2]].
    constructor.
    + rewrite Hseen. constructor; auto.
    + exists (seen s1). exact Hseen.
    + rewrite Hseen, Hs. cbn [length]. lia.
    + rewrite Hseen. rewrite I2 in I4 |- *. split; [split; auto|exact I4].
    + rewrite Hs. cbn [length]. assert (R1 := enorm_nonneg n (fun j => m_x s1 j - xs j)). fold (edist n (m_x s1) xs) in R1.
      assert (R2 := enorm_nonneg n (fun j => m_x s2 j - xs j)). fold (edist n (m_x s2) xs) in R2. assert (CP := C_pos).
      destruct I5 as [I5|I5]; [destruct D2 as [D2|D2]|].
      * left. replace (2 ^ S (length (steps s1)))%nat with (2 ^ length (steps s1) + 2 ^ length (steps s1))%nat by (simpl; lia).
        rewrite pow_add. apply Rle_trans with ((C * dist (m_x s1)) * (C * dist (m_x s1))).
        -- replace (C * dist (m_x s1) * (C * dist (m_x s1))) with (C * (C * (dist (m_x s1) * dist (m_x s1)))) by ring. apply Rmult_le_compat_l; lra.
        -- apply Rmult_le_compat; auto; apply Rmult_le_pos; lra.
      * right. eapply Rle_trans; [|exact D2]. apply Rmult_le_compat; auto.
      * right. eapply Rle_trans; [|exact I5]. apply Rmult_le_compat; auto.
  - intros _ _. constructor; cbn [start seen steps m_x m_lam length chain]; auto.
    + exists []. reflexivity.
    + left. simpl. lra.
Qed.
End Local.
