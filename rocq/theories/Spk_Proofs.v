(** Sparse KKT assembly. *)
Require Import ZArith Arith Bool List FinFun Reals Lra Lia.
From Verif Require Import Scal Blk RSum Sparse Sparse_Proofs Qp_Model Admm_Model BoxAdmm_Model Spk_Model.
Import ListNotations.
Local Open Scope nat_scope.

Section G.
Context {T : Type} {ST : Scalar T}.
Implicit Types B D K : spmat T.

Lemma filter_seq_len (f : nat -> bool) n : length (filter f (seq 0 n)) = cnt f n.
Proof.
  induction n; [reflexivity|]. rewrite seq_S, filter_app, app_length, IHn. cbn.
  destruct (f n); reflexivity.
Qed.
Lemma filter_seq_nth (f : nat -> bool) n q : q < cnt f n -> cnt f (nth q (filter f (seq 0 n)) O) = q.
Proof.
  induction n; intro Hq; cbn [cnt] in Hq; [lia|].
  rewrite seq_S, filter_app. cbn [plus filter].
  destruct (Nat.lt_ge_cases q (cnt f n)) as [L|L].
  - rewrite app_nth1 by (rewrite filter_seq_len; exact L). apply IHn, L.
  - destruct (f n) eqn:E; [|lia]. rewrite app_nth2 by (rewrite filter_seq_len; lia).
    rewrite filter_seq_len. replace (q - cnt f n) with 0 by lia. cbn. lia.
Qed.
Lemma rows_In B k i : In i (rows_of B k) <-> i < sp_r B /\ pat B i k = true.
Proof. unfold rows_of. rewrite filter_In, in_seq. intuition lia. Qed.
Lemma rows_length B k : length (rows_of B k) = ncol B k.
Proof. apply filter_seq_len. Qed.
Lemma rows_nth_cnt B k q : q < ncol B k -> cnt (fun i => pat B i k) (nth q (rows_of B k) O) = q.
Proof. apply filter_seq_nth. Qed.

Lemma nodup_app {X} (a b : list X) : NoDup a -> NoDup b -> (forall x, In x a -> ~ In x b) -> NoDup (a ++ b).
Proof.
  induction a as [|h0 a IH]; intros Ha Hb D; cbn; [exact Hb|]. inversion Ha; subst.
  constructor; [|apply IH; auto; intros y Hy; apply D; right; exact Hy].
  rewrite in_app_iff. intros [Q|Q]; [contradiction|]. apply (D h0); [left; reflexivity|exact Q].
Qed.
Lemma flat_In (f : nat -> nat -> bool) c r i j :
  In (i, j) (flat_map (fun k => map (fun i => (i, k)) (filter (f k) (seq 0 r))) (seq 0 c)) <->
  (i <? r) && (j <? c) && f j i = true.
Proof.
  rewrite !andb_true_iff, !Nat.ltb_lt, in_flat_map. split.
  - intros [k [Hk Hin]]. apply in_map_iff in Hin. destruct Hin as [i' [E Hin]]. injection E as -> ->.
    apply filter_In in Hin. rewrite in_seq in *. intuition lia.
  - intros [[Hi Hj] Hp]. exists j. split; [apply in_seq; lia|]. apply in_map_iff. exists i. split; [reflexivity|].
    apply filter_In. rewrite in_seq. split; [lia|exact Hp].
Qed.
Lemma flat_NoDup (f : nat -> nat -> bool) c r :
  NoDup (flat_map (fun k => map (fun i => (i, k)) (filter (f k) (seq 0 r))) (seq 0 c)).
Proof.
  generalize (seq_NoDup c 0). generalize (seq 0 c). intro l.
  induction l as [|j l IH]; intro Hl; cbn; [constructor|]. inversion Hl; subst. apply nodup_app.
  - apply Injective_map_NoDup; [intros a b E; injection E; auto|apply NoDup_filter, seq_NoDup].
  - apply IH; assumption.
  - intros [i j'] K1 K2. apply in_map_iff in K1. destruct K1 as [a [E _]]. injection E as <- <-.
    apply in_flat_map in K2. destruct K2 as [j2 [L1 L2]]. apply in_map_iff in L2. destruct L2 as [b [E2 _]].
    injection E2 as _ <-. contradiction.
Qed.
Definition inb B i j := (i <? sp_r B) && (j <? sp_c B) && pat B i j.
Definition intb B i j := (i <? sp_c B) && (j <? sp_r B) && pat B j i.
Lemma entries_In B i j : In (i, j) (entries B) <-> inb B i j = true.
Proof. exact (flat_In (fun k i => pat B i k) (sp_c B) (sp_r B) i j). Qed.
Lemma tentries_In B i j : In (i, j) (tentries B) <-> intb B i j = true.
Proof. exact (flat_In (fun k i => pat B k i) (sp_r B) (sp_c B) i j). Qed.
Lemma entries_NoDup B : NoDup (entries B).
Proof. exact (flat_NoDup (fun k i => pat B i k) (sp_c B) (sp_r B)). Qed.
Lemma tentries_NoDup B : NoDup (tentries B).
Proof. exact (flat_NoDup (fun k i => pat B k i) (sp_r B) (sp_c B)). Qed.

(** insertion of a block *)
Definition shifted (P : nat -> nat -> bool) (ro co i j : nat) : bool := (ro <=? i) && (co <=? j) && P (i - ro) (j - co).
Lemma block_insert_ok ro co v : forall es D F est (P : nat -> nat -> bool), lay D F est -> NoDup es ->
  (forall i j, In (i, j) es <-> P i j = true) ->
  (forall i j, P i j = true -> ro + i < sp_r D /\ co + j < sp_c D /\ pat D (ro + i) (co + j) = false /\ F (ro + i) (co + j) = true) ->
  exists D', block_insert D ro co es v = Some D' /\ lay D' F est /\ sp_r D' = sp_r D /\ sp_c D' = sp_c D /\
    (forall i j, pat D' i j = shifted P ro co i j || pat D i j) /\
    (forall i j, val D' i j = if shifted P ro co i j then v (i - ro) (j - co) else val D i j).
Proof.
  induction es as [|[a b] es IH]; intros D F est P L ND HP H; cbn [block_insert].
  - exists D. assert (forall i j, P i j = false) as Pf.
    { intros i j. destruct (P i j) eqn:X; [apply HP in X; contradiction|reflexivity]. }
    split; [reflexivity|]. split; [exact L|]. split; [reflexivity|]. split; [reflexivity|].
    unfold shifted. split; intros i j; rewrite Pf, andb_false_r; reflexivity.
  - inversion ND as [|? ? N1 N2]; subst.
    assert (P a b = true) as Pab by (apply HP; left; reflexivity).
    destruct (H a b Pab) as [Ha [Hb [Hp HF]]].
    destruct (insert_ok D F est (ro + a) (co + b) (v a b) L Ha Hb Hp HF) as (D1 & E1 & L1 & R1 & C1 & P1 & V1).
    rewrite E1.
    destruct (IH D1 F est (fun i j => P i j && negb ((i =? a) && (j =? b))) L1 N2) as (D2 & E2 & L2 & R2 & C2 & P2 & V2).
    { intros i j. rewrite andb_true_iff, negb_true_iff, andb_false_iff, !Nat.eqb_neq, <- HP. cbn [In]. split.
      - intro Hin. split; [right; exact Hin|]. destruct (Nat.eq_dec i a); [|left; assumption].
        right. intro. subst. contradiction.
      - intros [[X|X] Y]; [|exact X]. injection X as -> ->. lia. }
    { intros i j X. apply andb_true_iff in X. destruct X as [X Y]. destruct (H i j X) as [X1 [X2 [X3 X4]]].
      rewrite R1, C1, P1, X3, orb_false_r. repeat split; auto.
      apply negb_true_iff, andb_false_iff in Y. rewrite !Nat.eqb_neq in Y.
      apply andb_false_iff. rewrite !Nat.eqb_neq. lia. }
    exists D2. split; [exact E2|]. split; [exact L2|]. split; [congruence|]. split; [congruence|].
    assert (forall i j, shifted P ro co i j =
      shifted (fun i j => P i j && negb ((i =? a) && (j =? b))) ro co i j || ((i =? ro + a) && (j =? co + b))) as Sh.
    { intros i j. unfold shifted. destruct (Nat.leb_spec ro i); destruct (Nat.leb_spec co j); cbn [andb].
      - destruct (Nat.eqb_spec i (ro + a)) as [->|]; destruct (Nat.eqb_spec j (co + b)) as [->|]; cbn [andb].
        + replace (ro + a - ro) with a by lia. replace (co + b - co) with b by lia. rewrite Pab, !Nat.eqb_refl. reflexivity.
        + rewrite orb_false_r. destruct (Nat.eqb_spec (j - co) b); [lia|]. rewrite andb_false_r. cbn. rewrite andb_true_r. reflexivity.
        + rewrite orb_false_r. destruct (Nat.eqb_spec (i - ro) a); [lia|]. cbn. rewrite andb_true_r. reflexivity.
        + rewrite orb_false_r. destruct (Nat.eqb_spec (i - ro) a); [lia|]. cbn. rewrite andb_true_r. reflexivity.
      - destruct (Nat.eqb_spec j (co + b)); [lia|]. rewrite andb_false_r. reflexivity.
      - destruct (Nat.eqb_spec i (ro + a)); [lia|]. reflexivity.
      - destruct (Nat.eqb_spec i (ro + a)); [lia|]. reflexivity. }
    split; intros i j; rewrite Sh.
    + rewrite P2, P1, orb_assoc. reflexivity.
    + rewrite V2, V1. destruct (shifted _ ro co i j); [reflexivity|]. cbn [orb].
      destruct (Nat.eqb_spec i (ro + a)) as [->|]; destruct (Nat.eqb_spec j (co + b)) as [->|]; cbn [andb]; auto.
      replace (ro + a - ro) with a by lia. replace (co + b - co) with b by lia. reflexivity.
Qed.

(** a loop of coeffRef(o + i, o' + i) *)
Lemma coeff_loop o1 o2 (g : nat -> T -> T) D F est : forall n, lay D F est -> o1 + n <= sp_r D -> o2 + n <= sp_c D ->
  (forall i, i < n -> F (o1 + i) (o2 + i) = true) ->
  exists D', oloop n (fun i D => coeff_ref D (o1 + i) (o2 + i) (g i)) D = Some D' /\ lay D' F est /\
    sp_r D' = sp_r D /\ sp_c D' = sp_c D /\
    (forall i j, pat D' i j = pat D i j || ((o1 <=? i) && (i <? o1 + n) && (j =? o2 + (i - o1)))) /\
    (forall i j, i < sp_r D -> val D' i j = if (o1 <=? i) && (i <? o1 + n) && (j =? o2 + (i - o1))
       then g (i - o1) (coeff D i j) else val D i j).
Proof.
  intros n L Hr Hc HF.
  destruct (oloop_inv _ (fun n D' => lay D' F est /\ sp_r D' = sp_r D /\ sp_c D' = sp_c D /\
    (forall i j, pat D' i j = pat D i j || ((o1 <=? i) && (i <? o1 + n) && (j =? o2 + (i - o1)))) /\
    (forall i j, i < sp_r D -> val D' i j = if (o1 <=? i) && (i <? o1 + n) && (j =? o2 + (i - o1))
       then g (i - o1) (coeff D i j) else val D i j))
    n (fun i D => coeff_ref D (o1 + i) (o2 + i) (g i)) D) as (D' & E & HD).
  - split; [exact L|]. split; [reflexivity|]. split; [reflexivity|].
    assert (forall i, (o1 <=? i) && (i <? o1 + 0) = false) as Z.
    { intro i. destruct (Nat.leb_spec o1 i); destruct (Nat.ltb_spec i (o1 + 0)); cbn; lia || reflexivity. }
    split; intros; rewrite Z; cbn; rewrite ?orb_false_r; reflexivity.
  - intros k D1 Hk (L1 & R1 & C1 & P1 & V1).
    assert (forall i j, (o1 <=? i) && (i <? o1 + S k) && (j =? o2 + (i - o1)) =
       ((o1 <=? i) && (i <? o1 + k) && (j =? o2 + (i - o1))) || ((i =? o1 + k) && (j =? o2 + k))) as St.
    { intros i j. destruct (Nat.leb_spec o1 i); destruct (Nat.ltb_spec i (o1 + S k)); destruct (Nat.ltb_spec i (o1 + k));
        destruct (Nat.eqb_spec j (o2 + (i - o1))); destruct (Nat.eqb_spec i (o1 + k)); destruct (Nat.eqb_spec j (o2 + k));
        cbn; lia || reflexivity. }
    assert ((o1 <=? o1 + k) && (o1 + k <? o1 + k) = false) as Zk by (rewrite Nat.ltb_irrefl; apply andb_false_r).
    assert (pat D1 (o1 + k) (o2 + k) = pat D (o1 + k) (o2 + k)) as Pk by (rewrite P1, Zk; cbn; apply orb_false_r).
    assert (val D1 (o1 + k) (o2 + k) = val D (o1 + k) (o2 + k)) as Vk by (rewrite V1 by lia; rewrite Zk; reflexivity).
    unfold coeff_ref. rewrite Pk. destruct (pat D (o1 + k) (o2 + k)) eqn:Ep.
    + destruct (upd_at D1 (o1 + k) (o2 + k) (g k)) as (D2 & E2 & S2 & W1 & W2); try lia; [exact Pk|].
      exists D2. split; [exact E2|]. pose proof S2 as (Sr & Sc & Sp & Ss). split; [eapply lay_same; eauto|].
      split; [congruence|]. split; [congruence|]. split.
      * intros i j. rewrite Sp, P1, St, orb_assoc.
        destruct (Nat.eqb_spec i (o1 + k)) as [->|]; destruct (Nat.eqb_spec j (o2 + k)) as [->|]; cbn [andb]; rewrite ?orb_false_r; auto.
        rewrite Ep. reflexivity.
      * intros i j Hi. rewrite St. destruct (Nat.eqb_spec i (o1 + k)) as [->|Hne].
        -- destruct (Nat.eqb_spec j (o2 + k)) as [->|Hne].
           ++ cbn [andb]. rewrite orb_true_r, W1, Vk. replace (o1 + k - o1) with k by lia. unfold coeff. rewrite Ep. reflexivity.
           ++ cbn [andb]. rewrite orb_false_r, W2; [apply V1; lia|lia|]. intro X. injection X. lia.
        -- cbn [andb]. rewrite orb_false_r, W2; [apply V1; lia|lia|]. intro X. injection X. lia.
    + destruct (insert_ok D1 F est (o1 + k) (o2 + k) (g k 0%S) L1) as (D2 & E2 & L2 & R2 & C2 & P2 & V2); try lia; auto.
      exists D2. split; [exact E2|]. split; [exact L2|]. split; [congruence|]. split; [congruence|]. split.
      * intros i j. rewrite P2, P1, St. destruct ((i =? o1 + k) && (j =? o2 + k)); cbn [orb]; rewrite ?orb_true_r, ?orb_false_r; reflexivity.
      * intros i j Hi. rewrite V2, St. destruct (Nat.eqb_spec i (o1 + k)) as [->|]; destruct (Nat.eqb_spec j (o2 + k)) as [->|]; cbn [andb];
          rewrite ?orb_false_r, ?orb_true_r; try (apply V1; lia).
        replace (o1 + k - o1) with k by lia. unfold coeff. rewrite Ep. reflexivity.
  - exists D'. tauto.
Qed.

(** a loop of diagonal()(o + i) *)
Lemma diag_loop o (g : nat -> T -> T) D : forall n, o + n <= sp_r D -> o + n <= sp_c D ->
  (forall i, i < n -> pat D (o + i) (o + i) = true) ->
  exists D', oloop n (fun i D => diag_ref D (o + i) (g i)) D = Some D' /\ same D D' /\
    (forall i j, i < sp_r D -> val D' i j = if (i =? j) && (o <=? i) && (i <? o + n)
       then g (i - o) (val D i j) else val D i j).
Proof.
  intros n Hr Hc HP.
  destruct (oloop_inv _ (fun n D' => same D D' /\
    (forall i j, i < sp_r D -> val D' i j = if (i =? j) && (o <=? i) && (i <? o + n)
       then g (i - o) (val D i j) else val D i j))
    n (fun i D => diag_ref D (o + i) (g i)) D) as (D' & E & HD).
  - split; [apply same_refl|]. intros i j Hi. destruct (Nat.leb_spec o i); destruct (Nat.ltb_spec i (o + 0)); try lia;
      rewrite ?andb_false_r; reflexivity.
  - intros k D1 Hk (S1 & V1). pose proof S1 as (Sr & Sc & Sp & Ss). unfold diag_ref.
    assert (pat D1 (o + k) (o + k) = true) as Hp by (rewrite Sp; auto). rewrite Hp.
    destruct (upd_at D1 (o + k) (o + k) (g k)) as (D2 & E2 & S2 & W1 & W2); try lia; auto.
    exists D2. split; [exact E2|]. split; [eapply same_trans; eauto|]. intros i j Hi.
    destruct (Nat.eq_dec i (o + k)) as [->|Hne].
    + destruct (Nat.eqb_spec (o + k) j) as [<-|Hj].
      * rewrite W1, V1 by lia. rewrite Nat.eqb_refl. destruct (Nat.leb_spec o (o + k)); [|lia].
        rewrite Nat.ltb_irrefl. destruct (Nat.ltb_spec (o + k) (o + S k)); [|lia]. cbn. f_equal. lia.
      * cbn. rewrite W2; [|lia|intro X; injection X; lia]. rewrite V1 by lia.
        destruct (Nat.eqb_spec (o + k) j); [lia|]. reflexivity.
    + rewrite W2; [|lia|intro X; injection X; lia]. rewrite V1 by lia.
      destruct (Nat.leb_spec o i); destruct (Nat.ltb_spec i (o + k)); destruct (Nat.ltb_spec i (o + S k)); try lia; reflexivity.
  - exists D'. tauto.
Qed.

(** ** pattern of the KKT matrix *)
Definition kpat (full : bool) (N : nat) (H A : nat -> nat -> bool) (i j : nat) : bool :=
  if i <? N then
    if j <? N then H i j || (i =? j)
    else full && A (j - N) i
  else if j <? N then A (i - N) j else (i =? j).

Lemma cnt_or_point f n k : cnt (fun i => f i || (i =? k)) n <= cnt f n + 1.
Proof.
  assert (forall n, n <= k -> cnt (fun i => f i || (i =? k)) n = cnt f n) as B.
  { intros n0 Hn. apply cnt_ext. intros i Hi. destruct (Nat.eqb_spec i k); [lia|]. apply orb_false_r. }
  induction n; cbn [cnt]; [lia|]. destruct (Nat.lt_trichotomy n k) as [X|[->|X]].
  - rewrite B by lia. destruct (Nat.eqb_spec n k); [lia|]. rewrite orb_false_r. lia.
  - rewrite B by lia. rewrite Nat.eqb_refl, orb_true_r. lia.
  - destruct (Nat.eqb_spec n k); [lia|]. rewrite orb_false_r. lia.
Qed.
Lemma cnt_point n k : cnt (fun i => i =? k) n <= 1.
Proof. pose proof (cnt_or_point (fun _ => false) n k) as X. cbn in X. rewrite (cnt_none (fun _ => false)) in X by auto. exact X. Qed.

Lemma kkt_nnz_ok full N R H A j : sp_r H = N -> sp_c H = N -> sp_r A = R -> sp_c A = N -> j < N + R ->
  cnt (fun i => kpat full N (pat H) (pat A) i j) (N + R) <= kkt_nnz (T := T) N full H A j.
Proof.
  intros HR HC AR AC Hj. unfold kkt_nnz. rewrite cnt_add. destruct (Nat.ltb_spec j N) as [L|L].
  - rewrite (cnt_ext _ (fun i => pat H i j || (i =? j)) N).
    2:{ intros i Hi. unfold kpat. destruct (Nat.ltb_spec i N); [|lia]. destruct (Nat.ltb_spec j N); [reflexivity|lia]. }
    rewrite (cnt_ext (fun i => kpat full N (pat H) (pat A) (N + i) j) (fun i => pat A i j) R).
    2:{ intros i Hi. unfold kpat. destruct (Nat.ltb_spec (N + i) N); [lia|]. destruct (Nat.ltb_spec j N); [|lia].
        f_equal. lia. }
    pose proof (cnt_or_point (fun i => pat H i j) N j). unfold ncol. rewrite HR, AR. lia.
  - rewrite (cnt_ext _ (fun i => full && pat A (j - N) i) N).
    2:{ intros i Hi. unfold kpat. destruct (Nat.ltb_spec i N); [|lia]. destruct (Nat.ltb_spec j N); [lia|reflexivity]. }
    rewrite (cnt_ext (fun i => kpat full N (pat H) (pat A) (N + i) j) (fun i => i =? j - N) R).
    2:{ intros i Hi. unfold kpat. destruct (Nat.ltb_spec (N + i) N); [lia|]. destruct (Nat.ltb_spec j N); [lia|].
        destruct (Nat.eqb_spec (N + i) j); destruct (Nat.eqb_spec i (j - N)); lia || reflexivity. }
    pose proof (cnt_point R (j - N)). destruct full; cbn [andb].
    + rewrite AC. lia.
    + rewrite cnt_none by auto. lia.
Qed.

(** assembly from scratch *)
Definition kshape (full : bool) (N R : nat) (H A : nat -> nat -> bool) (K : spmat T) : Prop :=
  sp_r K = N + R /\ sp_c K = N + R /\
  (forall i j, i < N + R -> j < N + R -> pat K i j = kpat full N H A i j).
(** entries of the matrix in terms of arbitrary scalar operations *)
Definition kcoef (full : bool) (N : nat) (H A : nat -> nat -> T) (hd : nat -> T -> T) (rinv : nat -> T) (i j : nat) : T :=
  if i <? N then
    if j <? N then (if i =? j then hd i (H i j) else H i j)
    else if full then A (j - N) i else 0%S
  else if j <? N then A (i - N) j
  else if i =? j then (- rinv (i - N)%nat)%S else 0%S.

Lemma kkt_build_ok full N R H A d rinv :
  sp_r H = N -> sp_c H = N -> sp_r A = R -> sp_c A = N ->
  exists K, kkt_build N R full H A d rinv = Some K /\ kshape full N R (pat H) (pat A) K /\
    (forall i j, i < N + R -> j < N + R ->
       coeff K i j = kcoef full N (coeff H) (coeff A) (fun i v => (v + d i)%S) rinv i j).
Proof.
  intros HR HC AR AC. unfold kkt_build.
  set (F := kpat full N (pat H) (pat A)). set (est := kkt_nnz N full H A).
  assert (lay (reserve (sp_empty (N + R) (N + R)) est) F est) as L0.
  { apply lay_reserve. intros j Hj. apply kkt_nnz_ok; auto. }
  set (D0 := reserve (sp_empty (N + R) (N + R)) est) in *.
  assert (sp_r D0 = N + R) as R0 by reflexivity. assert (sp_c D0 = N + R) as C0 by reflexivity.
  assert (forall i j, pat D0 i j = false) as P0 by reflexivity. clearbody D0.
  destruct (block_insert_ok 0 0 (val H) (entries H) D0 F est (inb H) L0 (entries_NoDup H)) as (D1 & E1 & L1 & R1 & C1 & P1 & V1).
  { intros; apply entries_In. }
  { intros i j X. unfold inb in X. rewrite !andb_true_iff, !Nat.ltb_lt in X. cbn [plus]. rewrite P0.
    repeat split; try lia. unfold F, kpat. destruct (Nat.ltb_spec i N); [|lia]. destruct (Nat.ltb_spec j N); [|lia].
    destruct X as [_ ->]. reflexivity. }
  rewrite E1. cbn [obind].
  destruct (block_insert_ok N 0 (val A) (entries A) D1 F est (inb A) L1 (entries_NoDup A)) as (D2 & E2 & L2 & R2 & C2 & P2 & V2).
  { intros; apply entries_In. }
  { intros i j X. unfold inb in X. rewrite !andb_true_iff, !Nat.ltb_lt in X. cbn [plus].
    split; [lia|]. split; [lia|]. split.
    - rewrite P1, P0, orb_false_r. unfold shifted, inb. destruct (Nat.ltb_spec (N + i - 0) (sp_r H)); [lia|].
      cbn. rewrite ?andb_false_r. reflexivity.
    - unfold F, kpat. destruct (Nat.ltb_spec (N + i) N); [lia|]. destruct (Nat.ltb_spec j N); [|lia].
      replace (N + i - N) with i by lia. apply X. }
  rewrite E2. cbn [obind].
  assert (exists D3, (if full then block_insert D2 0 N (tentries A) (fun i j => val A j i) else Some D2) = Some D3 /\
    lay D3 F est /\ sp_r D3 = N + R /\ sp_c D3 = N + R /\
    (forall i j, pat D3 i j = (full && shifted (intb A) 0 N i j) || pat D2 i j) /\
    (forall i j, val D3 i j = if full && shifted (intb A) 0 N i j then val A (j - N) (i - 0) else val D2 i j)) as
    (D3 & E3 & L3 & R3 & C3 & P3 & V3).
  { destruct full.
    - destruct (block_insert_ok 0 N (fun i j => val A j i) (tentries A) D2 F est (intb A) L2 (tentries_NoDup A)) as (D3 & E3 & L3 & R3 & C3 & P3 & V3).
      { intros; apply tentries_In. }
      { intros i j X. unfold intb in X. rewrite !andb_true_iff, !Nat.ltb_lt in X. cbn [plus].
        split; [lia|]. split; [lia|]. split.
        - rewrite P2, P1, P0, orb_false_r. unfold shifted, inb.
          destruct (Nat.ltb_spec (N + j - 0) (sp_c A)); [lia|]. destruct (Nat.ltb_spec (N + j - 0) (sp_c H)); [lia|].
          cbn. rewrite ?andb_false_r. reflexivity.
        - unfold F, kpat. destruct (Nat.ltb_spec i N); [|lia]. destruct (Nat.ltb_spec (N + j) N); [lia|].
          replace (N + j - N) with j by lia. apply X. }
      exists D3. split; [exact E3|]. split; [exact L3|]. split; [congruence|]. split; [congruence|]. split; assumption.
    - exists D2. split; [reflexivity|]. split; [exact L2|]. split; [congruence|]. split; [congruence|]. split; reflexivity. }
  rewrite E3. cbn [obind].
  destruct (coeff_loop 0 0 (fun i v => (v + d i)%S) D3 F est N L3) as (D4 & E4 & L4 & R4 & C4 & P4 & V4); try lia.
  { intros i Hi. unfold F, kpat. cbn [plus]. destruct (Nat.ltb_spec i N); [|lia]. rewrite Nat.eqb_refl. apply orb_true_r. }
  cbn [plus] in E4. rewrite E4. cbn [obind].
  destruct (coeff_loop N N (fun i _ => (- rinv i)%S) D4 F est R L4) as (D5 & E5 & L5 & R5 & C5 & P5 & V5); try lia.
  { intros i Hi. unfold F, kpat. destruct (Nat.ltb_spec (N + i) N); [lia|]. apply Nat.eqb_refl. }
  exists D5. split; [exact E5|].
  assert (forall i j, i < N + R -> j < N + R -> pat D3 i j =
    if i <? N then (if j <? N then pat H i j else full && pat A (j - N) i)
    else if j <? N then pat A (i - N) j else false) as Q3.
  { intros i j Hi Hj. rewrite P3, P2, P1, P0. unfold shifted, inb, intb. rewrite !Nat.sub_0_r, HR, HC, AR, AC.
    destruct (Nat.ltb_spec i N); destruct (Nat.ltb_spec j N); destruct (Nat.leb_spec N i); destruct (Nat.leb_spec N j); try lia;
      destruct (Nat.ltb_spec (i - N) R); destruct (Nat.ltb_spec (j - N) R); try lia; cbn [andb orb Nat.leb];
      rewrite ?andb_false_r, ?andb_true_r, ?orb_false_r; reflexivity. }
  assert (forall i j, i < N + R -> j < N + R -> pat D5 i j = kpat full N (pat H) (pat A) i j) as Q5.
  { intros i j Hi Hj. rewrite P5, P4, Q3 by assumption. unfold kpat. cbn [plus Nat.leb].
    destruct (Nat.ltb_spec i N); destruct (Nat.ltb_spec j N); destruct (Nat.leb_spec N i); try lia;
      destruct (Nat.ltb_spec i (N + R)); try lia; cbn [andb]; rewrite ?orb_false_r.
    - rewrite Nat.sub_0_r, (Nat.eqb_sym i j). reflexivity.
    - destruct (Nat.eqb_spec j (i - 0)); [lia|]. rewrite orb_false_r. reflexivity.
    - destruct (Nat.eqb_spec j (N + (i - N))); [lia|]. rewrite orb_false_r. reflexivity.
    - destruct (Nat.eqb_spec j (N + (i - N))); destruct (Nat.eqb_spec i j); lia || reflexivity. }
  split; [split; [lia|split; [lia|exact Q5]]|].
  assert (forall i j, i < N + R -> j < N + R -> coeff D3 i j =
    if i <? N then (if j <? N then coeff H i j else if full then coeff A (j - N) i else 0%S)
    else if j <? N then coeff A (i - N) j else 0%S) as W3.
  { intros i j Hi Hj. unfold coeff at 1. rewrite Q3 by assumption. rewrite V3, V2, V1. unfold shifted, inb, intb.
    rewrite !Nat.sub_0_r, HR, HC, AR, AC. unfold coeff.
    destruct (Nat.ltb_spec i N); destruct (Nat.ltb_spec j N); destruct (Nat.leb_spec N i); destruct (Nat.leb_spec N j); try lia;
      destruct (Nat.ltb_spec (i - N) R); destruct (Nat.ltb_spec (j - N) R); try lia; cbn [andb orb Nat.leb];
      rewrite ?andb_false_r, ?andb_true_r.
    - destruct (pat H i j); reflexivity.
    - destruct (pat H i j); reflexivity.
    - destruct full; cbn [andb]; [|reflexivity]. destruct (pat A (j - N) i); reflexivity.
    - destruct (pat A (i - N) j); reflexivity.
    - reflexivity. }
  assert (forall i j, i < N + R -> j < N + R -> i <> j -> coeff D5 i j = coeff D3 i j) as Off.
  { intros i j Hi Hj Hne. unfold coeff. rewrite P5, V5 by lia. rewrite P4, V4 by lia. cbn [plus Nat.leb andb].
    destruct (Nat.leb_spec N i); destruct (Nat.ltb_spec i (N + R)); try lia; cbn [andb].
    - destruct (Nat.eqb_spec j (N + (i - N))); [lia|]. destruct (Nat.ltb_spec i N); [lia|]. cbn. rewrite !orb_false_r. reflexivity.
    - destruct (Nat.eqb_spec j (i - 0)); [lia|]. rewrite andb_false_r, !orb_false_r. reflexivity. }
  intros i j Hi Hj. destruct (Nat.eq_dec i j) as [->|Hne].
  - unfold coeff at 1. rewrite Q5 by assumption. rewrite V5, V4 by lia. unfold kpat, kcoef. rewrite Nat.eqb_refl, W3 by assumption.
    cbn [plus Nat.leb andb]. rewrite Nat.sub_0_r, Nat.eqb_refl.
    destruct (Nat.ltb_spec j N); destruct (Nat.leb_spec N j); destruct (Nat.ltb_spec j (N + R)); try lia; cbn [andb].
    + rewrite orb_true_r. reflexivity.
    + destruct (Nat.eqb_spec j (N + (j - N))); [|lia]. reflexivity.
  - rewrite Off, W3 by assumption. unfold kcoef. destruct (Nat.eqb_spec i j); [contradiction|]. reflexivity.
Qed.

(** the diagonal updates *)
Lemma kkt_head_ok N K d : N <= sp_r K -> N <= sp_c K -> (forall i, i < N -> pat K i i = true) ->
  exists K', kkt_head N d K = Some K' /\ same K K' /\
   (forall i j, i < sp_r K -> coeff K' i j = if (i =? j) && (i <? N) then (coeff K i j + d i)%S else coeff K i j).
Proof.
  intros Hr Hc Hp. destruct (diag_loop 0 (fun i v => (v + d i)%S) K N Hr Hc Hp) as (K' & E & SS & V).
  exists K'. split; [exact E|]. split; [exact SS|]. destruct SS as (Sr & Sc & Sp & Ss).
  intros i j Hi. unfold coeff. rewrite Sp, V by exact Hi. cbn [plus Nat.leb]. rewrite andb_true_r, Nat.sub_0_r.
  destruct (Nat.eqb_spec i j) as [<-|]; destruct (Nat.ltb_spec i N); cbn [andb]; auto. rewrite Hp by assumption. reflexivity.
Qed.
Lemma kkt_tail_ok N R K rinv : N + R <= sp_r K -> N + R <= sp_c K -> (forall i, i < R -> pat K (N + i) (N + i) = true) ->
  exists K', kkt_tail N R rinv K = Some K' /\ same K K' /\
   (forall i j, i < sp_r K -> coeff K' i j = if (i =? j) && (N <=? i) && (i <? N + R) then (- rinv (i - N)%nat)%S else coeff K i j).
Proof.
  intros Hr Hc Hp. destruct (diag_loop N (fun i _ => (- rinv i)%S) K R Hr Hc Hp) as (K' & E & SS & V).
  exists K'. split; [exact E|]. split; [exact SS|]. destruct SS as (Sr & Sc & Sp & Ss).
  intros i j Hi. unfold coeff. rewrite Sp, V by exact Hi.
  destruct (Nat.eqb_spec i j) as [<-|]; destruct (Nat.leb_spec N i); destruct (Nat.ltb_spec i (N + R)); cbn [andb]; auto.
  replace i with (N + (i - N)) at 1 2 by lia. rewrite Hp by lia. reflexivity.
Qed.

(** the values are copied into the existing matrix *)
Lemma copy_ok N R H A K : sp_r H = N -> sp_c H = N -> sp_r A = R -> sp_c A = N ->
  kshape false N R (pat H) (pat A) K -> (forall i, i < N -> pat H i i = true) ->
  exists K', oloop N (fun k K =>
      obind (copy_n K (ncol H k) (value_of H k) (outer K k)) (fun K =>
      copy_n K (ncol A k) (value_of A k) (outer K k + ncol H k))) K = Some K' /\ same K K' /\
    (forall i j, i < N -> j < N -> pat H i j = true -> val K' i j = val H i j) /\
    (forall i j, i < R -> j < N -> pat A i j = true -> val K' (N + i) j = val A i j).
Proof.
  intros HR HC AR AC (KR & KC & KP) Dg.
  assert (forall i j, i < N -> j < N -> pat K i j = pat H i j) as KH.
  { intros i j Hi Hj. rewrite KP by lia. unfold kpat. destruct (Nat.ltb_spec i N); [|lia]. destruct (Nat.ltb_spec j N); [|lia].
    destruct (Nat.eqb_spec i j) as [<-|]; [rewrite Dg by assumption; reflexivity|apply orb_false_r]. }
  assert (forall i j, i < R -> j < N -> pat K (N + i) j = pat A i j) as KA.
  { intros i j Hi Hj. rewrite KP by lia. unfold kpat. destruct (Nat.ltb_spec (N + i) N); [lia|]. destruct (Nat.ltb_spec j N); [|lia].
    f_equal. lia. }
  destruct (oloop_inv _ (fun n K' => same K K' /\
      (forall i j, i < N -> j < n -> pat H i j = true -> val K' i j = val H i j) /\
      (forall i j, i < R -> j < n -> pat A i j = true -> val K' (N + i) j = val A i j))
    N (fun k K =>
      obind (copy_n K (ncol H k) (value_of H k) (outer K k)) (fun K =>
      copy_n K (ncol A k) (value_of A k) (outer K k + ncol H k))) K) as (K' & E & HK).
  - split; [apply same_refl|]. split; intros; lia.
  - intros k K1 Hk (S & VH & VA). pose proof S as (Sr & Sc & Sp & Ss). unfold copy_n.
    destruct (run_upd (ncol H k) (fun q _ => value_of H k q) (fun q => nth q (rows_of H k) 0) K1 k (outer K1 k)) as (K2 & E2 & S2 & V2 & W2).
    + lia.
    + intros q Hq. assert (In (nth q (rows_of H k) 0) (rows_of H k)) as I by (apply nth_In; rewrite rows_length; exact Hq).
      apply rows_In in I. destruct I as [I1 I2]. split; [lia|]. split.
      * rewrite Sp, KH by lia. exact I2.
      * unfold pos. f_equal. rewrite Sp. rewrite (cnt_ext _ (fun i => pat H i k)) by (intros i Hi; apply KH; lia).
        apply rows_nth_cnt, Hq.
    + rewrite E2. cbn [obind]. pose proof S2 as (Sr2 & Sc2 & Sp2 & Ss2).
      destruct (run_upd (ncol A k) (fun q _ => value_of A k q) (fun q => N + nth q (rows_of A k) 0) K2 k (outer K2 k + ncol H k)) as (K3 & E3 & S3 & V3 & W3).
      * lia.
      * intros q Hq. assert (In (nth q (rows_of A k) 0) (rows_of A k)) as I by (apply nth_In; rewrite rows_length; exact Hq).
        apply rows_In in I. destruct I as [I1 I2]. split; [lia|]. split.
        -- rewrite Sp2, Sp, KA by lia. exact I2.
        -- unfold pos. rewrite <- Nat.add_assoc. f_equal. rewrite Sp2, Sp, cnt_add.
           rewrite (cnt_ext _ (fun i => pat H i k) N) by (intros i Hi; apply KH; lia).
           rewrite (cnt_ext (fun i => pat K (N + i) k) (fun i => pat A i k)) by (intros i Hi; apply KA; lia).
           f_equal; [unfold ncol; rewrite HR; reflexivity|]. apply rows_nth_cnt, Hq.
      * exists K3. split; [exact E3|]. split; [eapply same_trans; [exact S|]; eapply same_trans; eauto|]. split.
        -- intros i j Hi Hj Hp. rewrite W3; [|lia|right; intros; lia]. destruct (Nat.eq_dec j k) as [->|Hne].
           ++ assert (In i (rows_of H k)) as I by (apply rows_In; split; [lia|exact Hp]).
              apply (In_nth _ _ 0) in I. destruct I as [q [Hq <-]]. rewrite rows_length in Hq.
              rewrite V2 by exact Hq. reflexivity.
           ++ rewrite W2; [apply VH; auto; lia|lia|left; exact Hne].
        -- intros i j Hi Hj Hp. destruct (Nat.eq_dec j k) as [->|Hne].
           ++ assert (In i (rows_of A k)) as I by (apply rows_In; split; [lia|exact Hp]).
              apply (In_nth _ _ 0) in I. destruct I as [q [Hq <-]]. rewrite rows_length in Hq.
              rewrite V3 by exact Hq. reflexivity.
           ++ rewrite W3; [|lia|left; exact Hne]. rewrite W2; [apply VA; auto; lia|lia|left; exact Hne].
  - exists K'. tauto.
Qed.

Lemma kshape_diag full N R pH pA K : kshape full N R pH pA K -> forall i, i < N + R -> pat K i i = true.
Proof.
  intros (KR & KC & KP) i Hi. rewrite KP by lia. unfold kpat. rewrite Nat.eqb_refl. destruct (Nat.ltb_spec i N); [apply orb_true_r|reflexivity].
Qed.
Lemma kshape_same full N R pH pA K K' : kshape full N R pH pA K -> same K K' -> kshape full N R pH pA K'.
Proof. intros (a & b & c) (Sr & Sc & Sp & Ss). split; [congruence|]. split; [congruence|]. intros. rewrite Sp. auto. Qed.

Lemma heads_ok full N R pH pA ds : forall K, kshape full N R pH pA K ->
  exists K', fold_left (fun o d => obind o (kkt_head N d)) ds (Some K) = Some K' /\ same K K' /\
   (forall i j, i < N + R -> coeff K' i j = if (i =? j) && (i <? N) then fold_left (fun v d => (v + d i)%S) ds (coeff K i j) else coeff K i j).
Proof.
  induction ds as [|d ds IH]; intros K HK; cbn [fold_left].
  - exists K. split; [reflexivity|]. split; [apply same_refl|]. intros. destruct (_ && _); reflexivity.
  - pose proof HK as (KR & KC & KP). destruct (kkt_head_ok N K d) as (K1 & E1 & S1 & V1); try lia.
    { intros. eapply kshape_diag; eauto. lia. }
    cbn [obind]. rewrite E1. destruct (IH K1) as (K2 & E2 & S2 & V2); [eapply kshape_same; eauto|].
    exists K2. split; [exact E2|]. split; [eapply same_trans; eauto|]. intros i j Hi. rewrite V2, V1 by lia.
    destruct (_ && _); reflexivity.
Qed.

Lemma kkt_refresh_ok N R H A ds rinv K : sp_r H = N -> sp_c H = N -> sp_r A = R -> sp_c A = N ->
  kshape false N R (pat H) (pat A) K -> (forall i, i < N -> pat H i i = true) ->
  exists K', kkt_refresh N R false H A ds rinv K = Some K' /\ same K K' /\
    (forall i j, i < N + R -> j < N + R ->
       coeff K' i j = kcoef false N (coeff H) (coeff A) (fun i v => fold_left (fun v d => (v + d i)%S) ds v) rinv i j).
Proof.
  intros HR HC AR AC HK Dg. unfold kkt_refresh.
  destruct (copy_ok N R H A K HR HC AR AC HK Dg) as (K1 & E1 & S1 & VH & VA). rewrite E1. cbn [obind].
  pose proof (kshape_same _ _ _ _ _ _ _ HK S1) as HK1.
  destruct (heads_ok false N R (pat H) (pat A) ds K1 HK1) as (K2 & E2 & S2 & V2). rewrite E2. cbn [obind].
  pose proof (kshape_same _ _ _ _ _ _ _ HK1 S2) as HK2.
  pose proof HK2 as (KR2 & KC2 & KP2).
  destruct (kkt_tail_ok N R K2 rinv) as (K3 & E3 & S3 & V3); try lia.
  { intros. eapply kshape_diag; eauto. lia. }
  exists K3. split; [exact E3|]. split; [eapply same_trans; [exact S1|]; eapply same_trans; eauto|].
  intros i j Hi Hj. rewrite V3, V2 by lia. unfold kcoef.
  assert (coeff K1 i j = if i <? N then (if j <? N then coeff H i j else 0%S)
    else if j <? N then coeff A (i - N) j else if i =? j then val K1 i j else 0%S) as C1.
  { destruct HK1 as (KR & KC & KP). unfold coeff at 1. rewrite KP by lia. unfold kpat, coeff.
    destruct (Nat.ltb_spec i N); destruct (Nat.ltb_spec j N); cbn [andb]; auto.
    - destruct (Nat.eqb_spec i j) as [<-|].
      + rewrite orb_true_r, Dg by assumption. apply VH; auto.
      + rewrite orb_false_r. destruct (pat H i j) eqn:X; [apply VH; auto|reflexivity].
    - destruct (pat A (i - N) j) eqn:X; [|reflexivity]. replace i with (N + (i - N)) at 1 by lia. apply VA; auto; lia. }
  destruct (Nat.eqb_spec i j) as [<-|]; cbn [andb].
  - rewrite C1. destruct (Nat.ltb_spec i N); destruct (Nat.leb_spec N i); destruct (Nat.ltb_spec i (N + R)); try lia; reflexivity.
  - rewrite C1. destruct (Nat.ltb_spec i N); destruct (Nat.ltb_spec j N); reflexivity.
Qed.

Lemma same_pattern_ok full N R pH pA K0 K : kshape full N R pH pA K0 -> kshape full N R pH pA K -> same_pattern K0 K = true.
Proof.
  intros (a & b & c) (a' & b' & c'). unfold same_pattern. rewrite a, b, a', b', !Nat.eqb_refl. cbn [andb].
  apply forallb_forall. intros i Hi. apply forallb_forall. intros j Hj. rewrite in_seq in *.
  rewrite c, c' by lia. apply eqb_reflx.
Qed.

(** [A; I] *)
Definition ashape (N M : nat) (A : nat -> nat -> bool) (D : spmat T) : Prop :=
  sp_r D = N + M /\ sp_c D = N /\
  (forall i j, i < N + M -> j < N -> pat D i j = if i <? M then A i j else i =? M + j) /\
  (forall j, j < N -> val D (M + j) j = 1%S).
Lemma build_A_ok N M B : sp_r B = M -> sp_c B = N ->
  exists D, build_A N M B = Some D /\ ashape N M (pat B) D /\
    (forall i j, i < N + M -> j < N -> coeff D i j = if i <? M then coeff B i j else if i - M =? j then 1%S else 0%S).
Proof.
  intros HM HN. unfold build_A.
  set (F := fun i j => if i <? M then pat B i j else i =? M + j). set (est := fun k => 1 + ncol B k).
  assert (lay (reserve (sp_empty (N + M) N) est) F est) as L0.
  { apply lay_reserve. intros j Hj. unfold est, F. rewrite (Nat.add_comm N M), cnt_add.
    rewrite (cnt_ext _ (fun i => pat B i j)) by (intros i Hi; destruct (Nat.ltb_spec i M); [reflexivity|lia]).
    rewrite (cnt_ext (fun i => if M + i <? M then pat B (M + i) j else M + i =? M + j) (fun i => i =? j)).
    2:{ intros i Hi. destruct (Nat.ltb_spec (M + i) M); [lia|].
        destruct (Nat.eqb_spec (M + i) (M + j)); destruct (Nat.eqb_spec i j); lia || reflexivity. }
    pose proof (cnt_point N j). unfold ncol. rewrite HM. lia. }
  set (D0 := reserve (sp_empty (N + M) N) est) in *.
  assert (sp_r D0 = N + M) as R0 by reflexivity. assert (sp_c D0 = N) as C0 by reflexivity.
  assert (forall i j, pat D0 i j = false) as P0 by reflexivity. clearbody D0.
  destruct (block_insert_ok 0 0 (val B) (entries B) D0 F est (inb B) L0 (entries_NoDup B)) as (D1 & E1 & L1 & R1 & C1 & P1 & V1).
  { intros; apply entries_In. }
  { intros i j X. unfold inb in X. rewrite !andb_true_iff, !Nat.ltb_lt in X. cbn [plus]. rewrite P0.
    repeat split; try lia. unfold F. destruct (Nat.ltb_spec i M); [apply X|lia]. }
  rewrite E1. cbn [obind].
  destruct (coeff_loop M 0 (fun _ _ => 1%S) D1 F est N L1) as (D2 & E2 & L2 & R2 & C2 & P2 & V2); try lia.
  { intros i Hi. unfold F. destruct (Nat.ltb_spec (M + i) M); [lia|]. cbn. apply Nat.eqb_refl. }
  assert (forall n K, oloop n (fun i D => coeff_ref D (i + M) i (fun _ => 1%S)) K = oloop n (fun i D => coeff_ref D (M + i) (0 + i) (fun _ => 1%S)) K) as X.
  { induction n; intro K; cbn [oloop]; [reflexivity|]. rewrite IHn. destruct (oloop n _ K); [|reflexivity]. rewrite (Nat.add_comm n M). reflexivity. }
  rewrite X, E2. exists D2. split; [reflexivity|].
  assert (forall i j, i < N + M -> j < N -> pat D2 i j = if i <? M then pat B i j else i =? M + j) as Q2.
  { intros i j Hi Hj. rewrite P2, P1, P0, orb_false_r. unfold shifted, inb. rewrite !Nat.sub_0_r, HM, HN. cbn [Nat.leb andb plus].
    destruct (Nat.ltb_spec i M); destruct (Nat.leb_spec M i); destruct (Nat.ltb_spec j N); destruct (Nat.ltb_spec i (M + N)); try lia; cbn [andb orb].
    - apply orb_false_r.
    - destruct (Nat.eqb_spec j (i - M)); destruct (Nat.eqb_spec i (M + j)); lia || reflexivity. }
  assert (forall j, j < N -> val D2 (M + j) j = 1%S) as Q1.
  { intros j Hj. rewrite V2 by lia. destruct (Nat.leb_spec M (M + j)); [|lia]. destruct (Nat.ltb_spec (M + j) (M + N)); [|lia].
    destruct (Nat.eqb_spec j (0 + (M + j - M))); [reflexivity|lia]. }
  split.
  - split; [lia|]. split; [lia|]. split; assumption.
  - intros i j Hi Hj. unfold coeff. rewrite Q2 by assumption. destruct (Nat.ltb_spec i M).
    + rewrite V2, V1 by lia. unfold shifted, inb. rewrite !Nat.sub_0_r, HM, HN. cbn [Nat.leb andb].
      destruct (Nat.leb_spec M i); [lia|]. destruct (Nat.ltb_spec i M); [|lia]. destruct (Nat.ltb_spec j N); [|lia]. cbn [andb].
      destruct (pat B i j); reflexivity.
    + destruct (Nat.eq_dec i (M + j)) as [->|Hne].
      * rewrite Nat.eqb_refl, Q1 by assumption. destruct (Nat.eqb_spec (M + j - M) j); [reflexivity|lia].
      * destruct (Nat.eqb_spec i (M + j)); [lia|]. destruct (Nat.eqb_spec (i - M) j); [lia|reflexivity].
Qed.
Lemma refresh_A_ok N M B D : sp_r B = M -> sp_c B = N -> ashape N M (pat B) D ->
  exists D', refresh_A N B D = Some D' /\ ashape N M (pat B) D' /\
    (forall i j, i < N + M -> j < N -> coeff D' i j = if i <? M then coeff B i j else if i - M =? j then 1%S else 0%S).
Proof.
  intros HM HN [SR [SC [SP SO]]]. unfold refresh_A.
  destruct (oloop_inv _ (fun n D' => same D D' /\
      (forall i j, i < M -> j < n -> pat B i j = true -> val D' i j = val B i j) /\
      (forall j, j < N -> val D' (M + j) j = 1%S))
    N (fun k D => copy_n D (ncol B k) (value_of B k) (outer D k)) D) as (D' & E & S & V & O).
  - split; [apply same_refl|]. split; [intros; lia|exact SO].
  - intros k D1 Hk (S & V & O1). pose proof S as (Sr & Sc & Sp & Ss). unfold copy_n.
    destruct (run_upd (ncol B k) (fun q _ => value_of B k q) (fun q => nth q (rows_of B k) 0) D1 k (outer D1 k)) as (D2 & E2 & S2 & V2 & W2).
    + lia.
    + intros q Hq. assert (In (nth q (rows_of B k) 0) (rows_of B k)) as I by (apply nth_In; rewrite rows_length; exact Hq).
      apply rows_In in I. destruct I as [I1 I2]. split; [lia|]. split.
      * rewrite Sp, SP by lia. destruct (Nat.ltb_spec (nth q (rows_of B k) 0) M); [exact I2|lia].
      * unfold pos. f_equal. rewrite Sp.
        rewrite (cnt_ext _ (fun i => pat B i k)).
        2:{ intros i Hi. rewrite SP by lia. destruct (Nat.ltb_spec i M); [reflexivity|lia]. }
        apply rows_nth_cnt, Hq.
    + exists D2. split; [exact E2|]. split; [eapply same_trans; eauto|]. split.
      * intros i j Hi Hj Hp. destruct (Nat.eq_dec j k) as [->|Hne].
        -- assert (In i (rows_of B k)) as I by (apply rows_In; split; [lia|exact Hp]).
           apply (In_nth _ _ 0) in I. destruct I as [q [Hq <-]]. rewrite rows_length in Hq.
           rewrite V2 by exact Hq. reflexivity.
        -- rewrite W2; [apply V; auto; lia|lia|left; exact Hne].
      * intros j Hj. rewrite W2; [apply O1, Hj|lia|].
        right. intros q Hq X. assert (In (nth q (rows_of B k) 0) (rows_of B k)) as I by (apply nth_In; rewrite rows_length; exact Hq).
        rewrite <- X in I. apply rows_In in I. lia.
  - exists D'. split; [exact E|]. pose proof S as (Sr & Sc & Sp & Ss).
    assert (ashape N M (pat B) D') as HA.
    { split; [congruence|]. split; [congruence|]. split; [|exact O]. intros i j Hi Hj. rewrite Sp. apply SP; assumption. }
    split; [exact HA|]. destruct HA as (_ & _ & HP & _). intros i j Hi Hj. unfold coeff. rewrite HP by assumption.
    destruct (Nat.ltb_spec i M).
    + destruct (pat B i j) eqn:X; [apply V; auto|reflexivity].
    + destruct (Nat.eq_dec i (M + j)) as [->|Hne].
      * rewrite Nat.eqb_refl, O by assumption. destruct (Nat.eqb_spec (M + j - M) j); [reflexivity|lia].
      * destruct (Nat.eqb_spec i (M + j)); [lia|]. destruct (Nat.eqb_spec (i - M) j); [lia|reflexivity].
Qed.
End G.
