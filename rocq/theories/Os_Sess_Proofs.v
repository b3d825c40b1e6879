(** Sessions through the OSQP interface. *)
Require Import Arith Bool List Reals Lra Lia.
From Verif Require Import Scal Blk RSum Sparse Sparse_Proofs Qp_Model Qp_Spec Os_Model Os_Spec Os_Proofs.
Import ListNotations.
Local Open Scope R_scope.

Definition ready (N M : nat) (p : problem_t) (st : iface) : Prop := ws (solver st) <> None /\ shape N M (am (A p)) (mA st).

(** what a call that got through leaves behind *)
Definition outcome (minimise : oqp -> option ((nat -> R) * (nat -> R)) -> ores) (w : oqp) g (old st : iface) (r : status_t) : Prop :=
  let o := minimise w g in
  mx st = ox o /\ my st = oy o /\ r = status_of (ostat o) /\
  minfo st = Info (status_of (ostat o)) (oiter o) (orho o) (oest o) (odua o) (res_dual (minfo old)).

Lemma stack_spec M (a b : nat -> ext R) : (forall i, (i < M)%nat -> stack M a b i = a i) /\ (forall j, stack M a b (M + j)%nat = b j).
Proof.
  unfold stack. split; intros.
  - destruct (Nat.ltb_spec i M); [reflexivity|lia].
  - destruct (Nat.ltb_spec (M + j) M); [lia|]. f_equal. lia.
Qed.
Lemma hands_over_kkt N M p w x y : hands_over N M p w -> osqp_kkt N (M + N) w x y <-> kkt_pair (asked N M p) x y.
Proof.
  intros (HP & Hq & HA & B1 & B2). apply kkt_iff; auto. intros i Hi.
  destruct (stack_spec M (Alb p) (xlb p)) as [L1 L2]. destruct (stack_spec M (Aub p) (xub p)) as [U1 U2].
  destruct (Nat.lt_ge_cases i M) as [L|L].
  - rewrite L1, U1 by exact L. apply B1, L.
  - replace i with (M + (i - M))%nat by lia. rewrite L2, U2. apply B2. lia.
Qed.
Lemma new_hands_over N M p D : (forall i j, (i < M + N)%nat -> (j < N)%nat -> coeff D i j = stacked M (coeff (am (A p))) i j) ->
  hands_over N M p (Oqp (H p) (h p) (coeff D) (stack M (Alb p) (xlb p)) (stack M (Aub p) (xub p))).
Proof.
  intro HD. destruct (stack_spec M (Alb p) (xlb p)) as [L1 L2]. destruct (stack_spec M (Aub p) (xub p)) as [U1 U2].
  repeat split; cbn; auto.
Qed.

Lemma construct_ok N M p0 (ru : bool) p D : well_formed N M (A p) ->
  (ru = true -> shape N M (am (A p0)) D /\ same_pattern N M (A p0) (A p)) ->
  exists D', construct_A N M ru (A p) D = Some D' /\ shape N M (am (A p)) D' /\
    (forall i j, (i < M + N)%nat -> (j < N)%nat -> coeff D' i j = stacked M (coeff (am (A p))) i j).
Proof.
  intros (W1 & W2 & W3) HD. unfold construct_A. rewrite W3. destruct ru.
  - destruct (HD eq_refl) as [SD SP].
    destruct (refresh_ok N M (am (A p)) (am (A p0)) D) as (D' & E & S & V); auto.
    { intros. symmetry. apply SP; assumption. }
    exists D'. split; [exact E|]. split; [exact S|]. apply shape_stacked; auto.
  - destruct (build_ok N M (am (A p)) W1 W2) as (D' & E & S & V).
    exists D'. split; [exact E|]. split; [exact S|]. apply shape_stacked; auto.
Qed.

Lemma first_call N M minimise p g : well_formed N M (A p) ->
  exists w st r, solve N M minimise (Settings false false) fresh p g = Some (st, r) /\ hands_over N M p w /\
    outcome minimise w g fresh st r /\ ready N M p st.
Proof.
  intro W. destruct (construct_ok N M p false p (mA fresh) W) as (D & E & S & V); [discriminate|].
  unfold solve. cbn [reuse_pattern warm_start]. rewrite E. cbn [solver fresh dP dA ws keep ol ou].
  eexists _, _, _. split; [reflexivity|]. split; [apply (new_hands_over N M p D V)|]. split.
  - repeat split.
  - split; [discriminate|exact S].
Qed.
Lemma warm_call N M minimise s st p0 p g : ready N M p0 st -> warm_start s = true -> well_formed N M (A p) ->
  (reuse_pattern s = true -> same_pattern N M (A p0) (A p)) ->
  exists w st' r, solve N M minimise s st p g = Some (st', r) /\ hands_over N M p w /\
    outcome minimise w g st st' r /\ ready N M p st'.
Proof.
  intros [Rw Rs] Ws W SP. destruct (construct_ok N M p0 (reuse_pattern s) p (mA st) W) as (D & E & S & V); [auto|].
  unfold solve. rewrite E, Ws. destruct (ws (solver st)) as [w0|] eqn:E0; [|congruence]. cbn [ws].
  eexists _, _, _. split; [reflexivity|]. split; [apply (new_hands_over N M p D V)|]. split.
  - repeat split.
  - split; [discriminate|exact S].
Qed.
Lemma session_ok N M minimise calls : forall p0 st0, ready N M p0 st0 -> warm_calls N M p0 calls ->
  exists st, session N M minimise st0 calls = Some st /\
    forall p s g, last calls (s, p, g) = (s, p, g) -> calls <> [] ->
      exists w old, hands_over N M p w /\ outcome minimise w g old st (status (minfo st)) /\ ready N M p st.
Proof.
  induction calls as [|[[s p] g] calls IH]; intros p0 st0 Hr Hc; cbn [session].
  - exists st0. split; [reflexivity|]. intros; congruence.
  - cbn [warm_calls] in Hc. destruct Hc as (C1 & C2 & C3 & C4).
    destruct (warm_call N M minimise s st0 p0 p g Hr C1 C2 C3) as (w & st1 & r & E & HO & OC & Hr1). rewrite E.
    destruct (IH p st1 Hr1 C4) as (st & Es & HL). exists st. split; [exact Es|].
    intros p' s' g' L _. destruct calls as [|c calls].
    + cbn in L. injection L as <- <- <-. cbn in Es. injection Es as <-. exists w, st0. split; [exact HO|]. split; [|exact Hr1].
      destruct OC as (O1 & O2 & O3 & O4). repeat split; auto. rewrite O4. reflexivity.
    + apply (HL p' s' g'); [|discriminate]. cbn [last] in L |- *. exact L.
Qed.
