Require Import Arith Bool List FinFun Reals Lra Lia.
From Verif Require Import Scal Blk RSum Sparse Sparse_Proofs Qp_Model Qp_Spec Os_Model Os_Spec.
Import ListNotations.
Local Open Scope R_scope.

(** * rows of a column *)
Lemma rows_In B k i : In i (rows_of B k) <-> (i < sp_r B)%nat /\ pat B i k = true.
Proof. unfold rows_of. rewrite filter_In, in_seq. intuition lia. Qed.
Lemma rows_NoDup B k : NoDup (rows_of B k).
Proof. apply NoDup_filter, seq_NoDup. Qed.
Lemma filter_seq_len (f : nat -> bool) n : length (filter f (seq 0 n)) = cnt f n.
Proof.
  induction n; [reflexivity|]. rewrite seq_S, filter_app, app_length, IHn. cbn.
  destruct (f n); reflexivity.
Qed.
Lemma rows_length B k : length (rows_of B k) = ncol B k.
Proof. apply filter_seq_len. Qed.
Lemma filter_seq_nth (f : nat -> bool) n q : (q < cnt f n)%nat -> cnt f (nth q (filter f (seq 0 n)) O) = q.
Proof.
  induction n; intro Hq; cbn [cnt] in Hq; [lia|].
  rewrite seq_S, filter_app. cbn [plus filter].
  destruct (Nat.lt_ge_cases q (cnt f n)) as [L|L].
  - rewrite app_nth1 by (rewrite filter_seq_len; exact L). apply IHn, L.
  - destruct (f n) eqn:E; [|lia]. rewrite app_nth2 by (rewrite filter_seq_len; lia).
    rewrite filter_seq_len. replace (q - cnt f n)%nat with 0%nat by lia. cbn. lia.
Qed.
Lemma rows_nth_cnt B k q : (q < ncol B k)%nat -> cnt (fun i => pat B i k) (nth q (rows_of B k) O) = q.
Proof. apply filter_seq_nth. Qed.

(** * insertion of a list of entries *)
Lemma insert_list_ok es v : forall D F est, lay D F est -> NoDup es ->
  (forall i j, In (i, j) es -> (i < sp_r D)%nat /\ (j < sp_c D)%nat /\ pat D i j = false /\ F i j = true) ->
  exists D', insert_list es v D = Some D' /\ lay D' F est /\ sp_r D' = sp_r D /\ sp_c D' = sp_c D /\
    (forall i j, pat D' i j = true <-> In (i, j) es \/ pat D i j = true) /\
    (forall i j, In (i, j) es -> val D' i j = v i j) /\ (forall i j, ~ In (i, j) es -> val D' i j = val D i j).
Proof.
  induction es as [|[a b] es IH]; intros D F est L N H; cbn [insert_list].
  - exists D. split; [reflexivity|]. split; [exact L|]. repeat split; auto; try tauto; cbn; intuition.
  - inversion N as [|? ? N1 N2]; subst. destruct (H a b (or_introl eq_refl)) as [Ha [Hb [Hp HF]]].
    destruct (insert_ok D F est a b (v a b) L Ha Hb Hp HF) as (D1 & E1 & L1 & R1 & C1 & P1 & V1).
    rewrite E1. destruct (IH D1 F est L1 N2) as (D2 & E2 & L2 & R2 & C2 & P2 & V2 & W2).
    { intros i j Hij. destruct (H i j (or_intror Hij)) as [X1 [X2 [X3 X4]]]. rewrite R1, C1, P1, X3.
      repeat split; auto. rewrite orb_false_r. destruct (Nat.eqb_spec i a); destruct (Nat.eqb_spec j b); cbn; auto.
      subst. contradiction. }
    exists D2. split; [exact E2|]. split; [exact L2|]. split; [congruence|]. split; [congruence|]. split; [|split].
    + intros i j. rewrite P2, P1, orb_true_iff, andb_true_iff, !Nat.eqb_eq. cbn [In].
      split; [intros [X|[[X Y]|X]]|intros [[X|X]|X]]; subst; auto. injection X as -> ->. auto.
    + intros i j [X|X]; [|apply V2, X]. injection X as -> ->. rewrite W2 by exact N1. rewrite V1, !Nat.eqb_refl. reflexivity.
    + intros i j X. rewrite W2 by (intro Y; apply X; right; exact Y). rewrite V1.
      destruct (Nat.eqb_spec i a); destruct (Nat.eqb_spec j b); cbn; auto. subst. exfalso. apply X. left. reflexivity.
Qed.

(** * [A; I] *)
Definition shape (N M : nat) (B D : spmat R) : Prop :=
  sp_r D = (N + M)%nat /\ sp_c D = N /\
  (forall i j, (i < N + M)%nat -> (j < N)%nat ->
     pat D i j = if (i <? M)%nat then pat B i j else (i =? M + j)%nat) /\
  (forall j, (j < N)%nat -> val D (M + j)%nat j = 1).

Definition entries (B : spmat R) : list (nat * nat) := flat_map (fun k => map (fun i => (i, k)) (rows_of B k)) (seq 0 (sp_c B)).
Lemma entries_In B i j : In (i, j) (entries B) <-> (i < sp_r B)%nat /\ (j < sp_c B)%nat /\ pat B i j = true.
Proof.
  unfold entries. rewrite in_flat_map. split.
  - intros [k [Hk Hin]]. apply in_map_iff in Hin. destruct Hin as [i' [E Hin]]. injection E as -> ->.
    apply rows_In in Hin. apply in_seq in Hk. intuition lia.
  - intros [Hi [Hj Hp]]. exists j. split; [apply in_seq; lia|]. apply in_map_iff. exists i. split; [reflexivity|].
    apply rows_In. auto.
Qed.
Lemma nodup_app {X} (a b : list X) : NoDup a -> NoDup b -> (forall x, In x a -> ~ In x b) -> NoDup (a ++ b).
Proof.
  induction a as [|h0 a IH]; intros Ha Hb D; cbn; [exact Hb|]. inversion Ha; subst.
  constructor; [|apply IH; auto; intros y Hy; apply D; right; exact Hy].
  rewrite in_app_iff. intros [Q|Q]; [contradiction|]. apply (D h0); [left; reflexivity|exact Q].
Qed.
Lemma entries_NoDup B : NoDup (entries B).
Proof.
  unfold entries. generalize (seq_NoDup (sp_c B) 0). generalize (seq 0 (sp_c B)). intro l.
  induction l as [|j l IH]; intro Hl; cbn; [constructor|]. inversion Hl; subst. apply nodup_app.
  - apply Injective_map_NoDup; [intros a b E; injection E; auto|apply rows_NoDup].
  - apply IH; assumption.
  - intros [i j'] K1 K2. apply in_map_iff in K1. destruct K1 as [a [E _]]. injection E as <- <-.
    apply in_flat_map in K2. destruct K2 as [j2 [L1 L2]]. apply in_map_iff in L2. destruct L2 as [b [E2 _]].
    injection E2 as _ <-. contradiction.
Qed.

Lemma build_ok N M B : sp_r B = M -> sp_c B = N ->
  exists D, build_A N M B = Some D /\ shape N M B D /\
    (forall i j, (i < M)%nat -> (j < N)%nat -> pat B i j = true -> val D i j = val B i j).
Proof.
  intros HM HN. unfold build_A.
  set (F := fun i j => if (i <? M)%nat then pat B i j else (i =? M + j)%nat).
  set (est := fun k => (1 + ncol B k)%nat).
  assert (lay (reserve (sp_empty (N + M) N) est) F est) as L0.
  { apply lay_reserve. intros j Hj. unfold est, F. rewrite (Nat.add_comm N M), cnt_add.
    rewrite (cnt_ext _ (fun i => pat B i j)) by (intros i Hi; destruct (Nat.ltb_spec i M); [reflexivity|lia]).
    rewrite (cnt_ext (fun i => if (M + i <? M)%nat then pat B (M + i) j else (M + i =? M + j)%nat) (fun i => in_seg j 1 i)).
    2:{ intros i Hi. destruct (Nat.ltb_spec (M + i) M); [lia|]. unfold in_seg.
        destruct (Nat.eqb_spec (M + i) (M + j)); destruct (Nat.leb_spec j i); destruct (Nat.ltb_spec i (j + 1)); cbn; lia. }
    rewrite (cnt_interval _ j (j + 1) N) by (try lia; intros; f_equal; lia).
    unfold ncol. rewrite HM. lia. }
  assert (forall i j, pat (reserve (sp_empty (N + M) N) est) i j = false) as Pf by reflexivity.
  change (fun k => (1 + ncol B k)%nat) with est.
  set (D0 := reserve (sp_empty (N + M) N) est) in *. assert (sp_r D0 = N + M)%nat as RD by reflexivity.
  assert (sp_c D0 = N) as CD by reflexivity. clearbody D0.
  destruct (insert_list_ok (entries B) (val B) D0 F est L0 (entries_NoDup B)) as (D1 & E1 & L1 & R1 & C1 & P1 & V1 & W1).
  { intros i j Hij. apply entries_In in Hij. destruct Hij as [Hi [Hj Hp]]. rewrite RD, CD. repeat split; try lia; auto.
    unfold F. destruct (Nat.ltb_spec i M); [exact Hp|lia]. }
  fold (entries B). rewrite E1.
  destruct (oloop_inv _ (fun n D => lay D F est /\ sp_r D = (N + M)%nat /\ sp_c D = N /\
      (forall i j, pat D i j = true <-> In (i, j) (entries B) \/ ((j < n)%nat /\ i = (M + j)%nat)) /\
      (forall i j, In (i, j) (entries B) -> val D i j = val B i j) /\
      (forall j, (j < n)%nat -> val D (M + j)%nat j = 1))
    N (fun i D => set_coeff D (i + M) i 1) D1) as (D & E & LD & RD' & CD' & PD & VD & OD).
  - split; [exact L1|]. split; [congruence|]. split; [congruence|]. split; [|split; [exact V1|intros; lia]].
    intros i j. rewrite P1, Pf. intuition (try discriminate; lia).
  - intros k D Hk (LD & RD' & CD' & PD & VD & OD). unfold set_coeff. rewrite (Nat.add_comm k M).
    assert (pat D (M + k)%nat k = false) as Hp.
    { destruct (pat D (M + k)%nat k) eqn:X; [|reflexivity]. apply PD in X. destruct X as [X|[X _]]; [|lia].
      apply entries_In in X. lia. }
    rewrite Hp.
    destruct (insert_ok D F est (M + k) k 1 LD) as (D2 & E2 & L2 & R2 & C2 & P2 & V2); try lia; auto.
    { unfold F. destruct (Nat.ltb_spec (M + k) M); [lia|apply Nat.eqb_refl]. }
    exists D2. split; [exact E2|]. split; [exact L2|]. split; [congruence|]. split; [congruence|]. split; [|split].
    + intros i j. rewrite P2, orb_true_iff, andb_true_iff, !Nat.eqb_eq, PD.
      split; [intros [[X Y]|[X|[X Y]]]|intros [X|[X Y]]].
      * right. lia.
      * left. exact X.
      * right. lia.
      * right. left. exact X.
      * destruct (Nat.eq_dec j k); [left; lia|right; right; lia].
    + intros i j X. rewrite V2. destruct (Nat.eqb_spec i (M + k)); cbn; [|apply VD, X].
      apply entries_In in X. lia.
    + intros j Hj. rewrite V2. destruct (Nat.eqb_spec (M + j) (M + k)); destruct (Nat.eqb_spec j k); cbn; auto; try lia. apply OD. lia.
  - exists D. split; [exact E|]. split.
    + split; [exact RD'|]. split; [exact CD'|]. split; [|exact OD].
      intros i j Hi Hj. destruct (Nat.ltb_spec i M) as [Lt|Ge].
      * destruct (pat B i j) eqn:X.
        -- apply PD. left. apply entries_In. repeat split; auto; lia.
        -- destruct (pat D i j) eqn:Y; [|reflexivity]. apply PD in Y. destruct Y as [Y|Y]; [|lia].
           apply entries_In in Y. destruct Y as [_ [_ Y]]. congruence.
      * destruct (Nat.eqb_spec i (M + j)) as [->|Hne].
        -- apply PD. right. split; [exact Hj|reflexivity].
        -- destruct (pat D i j) eqn:Y; [|reflexivity]. apply PD in Y. destruct Y as [Y|Y]; [|lia].
           apply entries_In in Y. lia.
    + intros i j Hi Hj Hp. apply VD. apply entries_In. repeat split; auto; lia.
Qed.

Lemma refresh_ok N M B B0 D : sp_r B = M -> sp_c B = N ->
  (forall i j, (i < M)%nat -> (j < N)%nat -> pat B i j = pat B0 i j) -> shape N M B0 D ->
  exists D', refresh_A N B D = Some D' /\ shape N M B D' /\
    (forall i j, (i < M)%nat -> (j < N)%nat -> pat B i j = true -> val D' i j = val B i j).
Proof.
  intros HM HN HP [SR [SC [SP SO]]]. unfold refresh_A.
  assert (forall i j, (i < N + M)%nat -> (j < N)%nat -> pat D i j = if (i <? M)%nat then pat B i j else (i =? M + j)%nat) as SP'.
  { intros i j Hi Hj. rewrite SP by assumption. destruct (Nat.ltb_spec i M); [symmetry; apply HP; assumption|reflexivity]. }
  destruct (oloop_inv _ (fun n D' => same D D' /\
      (forall i j, (i < M)%nat -> (j < n)%nat -> pat B i j = true -> val D' i j = val B i j) /\
      (forall j, (j < N)%nat -> val D' (M + j)%nat j = 1))
    N (fun k D => copy_n D (ncol B k) (value_of B k) (outer D k)) D) as (D' & E & S & V & O).
  - split; [apply same_refl|]. split; [intros; lia|exact SO].
  - intros k D1 Hk (S & V & O). pose proof S as (Sr & Sc & Sp & Ss). unfold copy_n.
    destruct (run_upd (ncol B k) (fun q _ => value_of B k q) (fun q => nth q (rows_of B k) 0%nat) D1 k (outer D1 k)) as (D2 & E2 & S2 & V2 & W2).
    + lia.
    + intros q Hq. assert (In (nth q (rows_of B k) 0%nat) (rows_of B k)) as I by (apply nth_In; rewrite rows_length; exact Hq).
      apply rows_In in I. destruct I as [I1 I2]. split; [lia|]. split.
      * rewrite Sp, SP' by lia. destruct (Nat.ltb_spec (nth q (rows_of B k) 0%nat) M); [exact I2|lia].
      * unfold pos. f_equal. rewrite Sp.
        rewrite (cnt_ext _ (fun i => pat B i k)).
        2:{ intros i Hi. rewrite SP' by lia. destruct (Nat.ltb_spec i M); [reflexivity|lia]. }
        apply rows_nth_cnt, Hq.
    + exists D2. split; [exact E2|]. split; [eapply same_trans; eauto|]. split.
      * intros i j Hi Hj Hp. destruct (Nat.eq_dec j k) as [->|Hne].
        -- assert (In i (rows_of B k)) as I by (apply rows_In; split; [lia|exact Hp]).
           apply (In_nth _ _ 0%nat) in I. destruct I as [q [Hq <-]]. rewrite rows_length in Hq.
           rewrite V2 by exact Hq. reflexivity.
        -- rewrite W2; [apply V; auto; lia|lia|left; exact Hne].
      * intros j Hj. rewrite W2; [apply O, Hj|lia|].
        right. intros q Hq X. assert (In (nth q (rows_of B k) 0%nat) (rows_of B k)) as I by (apply nth_In; rewrite rows_length; exact Hq).
        rewrite <- X in I. apply rows_In in I. lia.
  - exists D'. split; [exact E|]. pose proof S as (Sr & Sc & Sp & Ss). split; [|exact V].
    split; [congruence|]. split; [congruence|]. split; [|exact O]. intros i j Hi Hj. rewrite Sp. apply SP'; assumption.
Qed.

Lemma shape_stacked N M B D : sp_r B = M -> sp_c B = N -> shape N M B D ->
  (forall i j, (i < M)%nat -> (j < N)%nat -> pat B i j = true -> val D i j = val B i j) ->
  forall i j, (i < M + N)%nat -> (j < N)%nat -> coeff D i j = stacked M (coeff B) i j.
Proof.
  intros HM HN [SR [SC [SP SO]]] V i j Hi Hj. unfold coeff at 1, stacked. rewrite SP by lia.
  destruct (Nat.ltb_spec i M).
  - unfold coeff. destruct (pat B i j) eqn:E; [apply V; assumption|reflexivity].
  - destruct (Nat.eqb_spec i (M + j)) as [->|]; [apply SO, Hj|reflexivity].
Qed.

(** * KKT *)
Lemma stacked_box M N C x j : (j < N)%nat -> rmv N (stacked M C) x (M + j)%nat = x j.
Proof.
  intro Hj. change (rmv N (stacked M C) x (M + j)%nat) with (rsum N (fun k => stacked M C (M + j)%nat k * x k)).
  rewrite (rsum_ext _ _ (fun k => if Nat.eqb k j then x k else 0)).
  - apply rsum_delta, Hj.
  - intros k Hk. unfold stacked. destruct (Nat.ltb_spec (M + j) M); [lia|].
    destruct (Nat.eqb_spec (M + j) (M + k)); destruct (Nat.eqb_spec k j); try lia; ring.
Qed.
Lemma stacked_gen M N C x i : (i < M)%nat -> rmv N (stacked M C) x i = rmv N C x i.
Proof.
  intro Hi. change (rsum N (fun k => stacked M C i k * x k) = rsum N (fun k => C i k * x k)).
  apply rsum_ext. intros k Hk. unfold stacked. destruct (Nat.ltb_spec i M); [reflexivity|lia].
Qed.
Lemma stacked_dual M N C y j : (j < N)%nat ->
  rsum (M + N) (fun i => stacked M C i j * y i) = rsum M (fun i => C i j * y i) + y (M + j)%nat.
Proof.
  intro Hj. rewrite rsum_split. f_equal.
  - apply rsum_ext. intros i Hi. unfold stacked. destruct (Nat.ltb_spec i M); [reflexivity|lia].
  - rewrite (rsum_ext _ _ (fun k => if Nat.eqb k j then y (M + k)%nat else 0)).
    + apply (rsum_delta N j (fun k => y (M + k)%nat)), Hj.
    + intros k Hk. unfold stacked. destruct (Nat.ltb_spec (M + k) M); [lia|].
      destruct (Nat.eqb_spec (M + k) (M + j)); destruct (Nat.eqb_spec k j); try lia; ring.
Qed.
Lemma kkt_iff N M (p : problem_t) (w : oqp) x y :
  (forall i j, (i < N)%nat -> (j < N)%nat -> oP w i j = H p i j) -> (forall j, (j < N)%nat -> oq w j = h p j) ->
  (forall i j, (i < M + N)%nat -> (j < N)%nat -> oA w i j = stacked M (coeff (am (A p))) i j) ->
  (forall i, (i < M + N)%nat -> ol w i = stack M (Alb p) (xlb p) i /\ ou w i = stack M (Aub p) (xub p) i) ->
  osqp_kkt N (M + N) w x y <-> kkt_pair (asked N M p) x y.
Proof.
  intros HP Hq HA Hb. unfold osqp_kkt, kkt_pair, qp_feasible, lag_grad. cbn [asked qn qm qH qh qA qAlb qAub qxlb qxub].
  set (C := coeff (am (A p))) in *.
  assert (forall j, (j < N)%nat -> rmv N (oP w) x j = rmv N (H p) x j) as E1.
  { intros j Hj. apply rsum_ext. intros k Hk. rewrite HP by assumption. reflexivity. }
  assert (forall j, (j < N)%nat -> rsum (M + N) (fun i => oA w i j * y i) = rsum M (fun i => C i j * y i) + y (M + j)%nat) as E2.
  { intros j Hj. rewrite <- (stacked_dual M N C y j Hj). apply rsum_ext. intros i Hi. rewrite HA by assumption. reflexivity. }
  assert (forall i, (i < M + N)%nat -> rmv N (oA w) x i = rmv N (stacked M C) x i) as E3.
  { intros i Hi. apply rsum_ext. intros k Hk. rewrite HA by assumption. reflexivity. }
  assert (forall i, (i < M)%nat -> stack M (Alb p) (xlb p) i = Alb p i /\ stack M (Aub p) (xub p) i = Aub p i) as B1.
  { intros i Hi. unfold stack. destruct (Nat.ltb_spec i M); [auto|lia]. }
  assert (forall j, stack M (Alb p) (xlb p) (M + j)%nat = xlb p j /\ stack M (Aub p) (xub p) (M + j)%nat = xub p j) as B2.
  { intro j. unfold stack. destruct (Nat.ltb_spec (M + j) M); [lia|]. replace (M + j - M)%nat with j by lia. auto. }
  split.
  - intros [K1 K2]. split; [|split; [split|split]].
    + intros j Hj. specialize (K1 j Hj). rewrite E1, E2, Hq in K1 by exact Hj. lra.
    + intros i Hi. destruct (K2 i ltac:(lia)) as [Q _]. destruct (Hb i ltac:(lia)) as [X Y]. destruct (B1 i Hi) as [X' Y'].
      rewrite X, Y, X', Y', E3, stacked_gen in Q by lia. exact Q.
    + intros j Hj. destruct (K2 (M + j)%nat ltac:(lia)) as [Q _]. destruct (Hb (M + j)%nat ltac:(lia)) as [X Y]. destruct (B2 j) as [X' Y'].
      rewrite X, Y, X', Y', E3, stacked_box in Q by lia. exact Q.
    + intros i Hi. destruct (K2 i ltac:(lia)) as [_ Q]. destruct (Hb i ltac:(lia)) as [X Y]. destruct (B1 i Hi) as [X' Y'].
      rewrite X, Y, X', Y', E3, stacked_gen in Q by lia. exact Q.
    + intros j Hj. destruct (K2 (M + j)%nat ltac:(lia)) as [_ Q]. destruct (Hb (M + j)%nat ltac:(lia)) as [X Y]. destruct (B2 j) as [X' Y'].
      rewrite X, Y, X', Y', E3, stacked_box in Q by lia. exact Q.
  - intros [K1 [[K2 K3] [K4 K5]]]. split.
    + intros j Hj. rewrite E1, E2, Hq by exact Hj. specialize (K1 j Hj). lra.
    + intros i Hi. destruct (Hb i Hi) as [X Y]. rewrite X, Y, E3 by exact Hi.
      destruct (Nat.lt_ge_cases i M) as [L|L].
      * destruct (B1 i L) as [X' Y']. rewrite X', Y', stacked_gen by exact L. split; [apply K2, L|apply K4, L].
      * replace i with (M + (i - M))%nat by lia. destruct (B2 (i - M)%nat) as [X' Y'].
        rewrite X', Y', stacked_box by lia. split; [apply K3; lia|apply K5; lia].
Qed.
