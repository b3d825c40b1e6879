(** Lemmas about the model of Eigen's sparse matrix. *)
Require Import Arith List Bool Lia.
From Verif Require Import Scal Blk Sparse.

Lemma cnt_ext : forall f g n, (forall i, i < n -> f i = g i) -> cnt f n = cnt g n.
Proof. induction n; simpl; intros; auto. rewrite IHn, H; auto. Qed.
Lemma cnt_add : forall f a b, cnt f (a + b) = cnt f a + cnt (fun i => f (a + i)) b.
Proof. induction b; simpl; [rewrite !Nat.add_0_r; auto|]. rewrite Nat.add_succ_r. simpl. rewrite IHb. lia. Qed.
Lemma cnt_all : forall f n, (forall i, i < n -> f i = true) -> cnt f n = n.
Proof. induction n; simpl; intros; auto. rewrite IHn, H; auto. lia. Qed.
Lemma cnt_none : forall f n, (forall i, i < n -> f i = false) -> cnt f n = 0.
Proof. induction n; simpl; intros; auto. rewrite IHn, H; auto. Qed.
Lemma cnt_mono : forall f a b, a <= b -> cnt f a <= cnt f b.
Proof. intros f a b H. replace b with (a + (b - a)) by lia. rewrite cnt_add. lia. Qed.
Lemma cnt_lt : forall f a b, a < b -> f a = true -> cnt f a < cnt f b.
Proof. intros f a b H Ha. pose proof (cnt_mono f (S a) b H). simpl in H0. rewrite Ha in H0. lia. Qed.
Lemma cnt_sub : forall f g n, (forall i, i < n -> f i = true -> g i = true) -> cnt f n <= cnt g n.
Proof.
  induction n; simpl; intros; auto. assert (cnt f n <= cnt g n) by (apply IHn; auto).
  destruct (f n) eqn:E; [rewrite (H n) by auto; lia|destruct (g n); lia].
Qed.
Lemma cnt_one : forall f n k, k < n -> f k = false ->
  cnt (fun i => (i =? k) || f i) n = S (cnt f n).
Proof.
  intros f n k Hk Hf. replace n with (k + (1 + (n - k - 1))) by lia. rewrite !cnt_add.
  rewrite (cnt_ext (fun i => (i =? k) || f i) f k).
  2:{ intros i Hi. destruct (Nat.eqb_spec i k); [lia|auto]. }
  rewrite (cnt_ext (fun i => (k + (1 + i) =? k) || f (k + (1 + i))) (fun i => f (k + (1 + i)))).
  2:{ intros i Hi. destruct (Nat.eqb_spec (k + (1 + i)) k); [lia|auto]. }
  simpl. rewrite Nat.add_0_r, Nat.eqb_refl, Hf. simpl. lia.
Qed.
Lemma cnt_interval : forall f lo hi n, lo <= hi -> hi <= n ->
  (forall i, i < n -> f i = in_seg lo (hi - lo) i) -> cnt f n = hi - lo.
Proof.
  intros f lo hi n H1 H2 H. replace n with (lo + ((hi - lo) + (n - hi))) by lia. rewrite !cnt_add.
  rewrite cnt_none by (intros; rewrite H by lia; apply in_seg_false; lia).
  rewrite cnt_all by (intros; rewrite H by lia; apply in_seg_true; lia).
  rewrite cnt_none by (intros; rewrite H by lia; apply in_seg_false; lia). lia.
Qed.
(** counting a block-structured column *)
Lemma cnt_blocks : forall f m n, cnt f (n * m) = nsum n (fun k => cnt (fun c => f (k * m + c)) m).
Proof.
  induction n; auto. simpl nsum. rewrite <- IHn. replace (S n * m) with (n * m + m) by lia. rewrite cnt_add. auto.
Qed.
Lemma nsum_ext : forall n f g, (forall i, i < n -> f i = g i) -> nsum n f = nsum n g.
Proof. induction n; simpl; intros; auto. rewrite (IHn f g) by auto. rewrite H; auto. Qed.
Lemma nsum_mono : forall f a b, a <= b -> nsum a f <= nsum b f.
Proof. intros f a b H. induction H; simpl; auto. lia. Qed.
Lemma nsum_plus : forall n f g, nsum n (fun i => f i + g i) = nsum n f + nsum n g.
Proof. induction n; simpl; intros; auto. rewrite IHn. lia. Qed.
Lemma nsum_cnt : forall n (f : nat -> bool), nsum n (fun k => if f k then 1 else 0) = cnt f n.
Proof. induction n; intros f; simpl; auto. Qed.

Section P.
Context {T : Type} {ST : Scalar T}.
Implicit Types M : spmat T.

Lemma outer_next : forall M a b, a < b -> outer M a + ncol M a <= outer M b.
Proof.
  intros M a b H. unfold outer at 2. pose proof (nsum_mono (fun j' => ncol M j' + slack M j') (S a) b H).
  simpl in H0. unfold outer. lia.
Qed.

Lemma pos_lt : forall M i j, i < sp_r M -> pat M i j = true -> pos M i j < outer M j + ncol M j.
Proof. intros. unfold pos, ncol. pose proof (cnt_lt (fun i' => pat M i' j) i (sp_r M) H H0). lia. Qed.

Lemma pos_total : forall M i j, i < sp_r M -> j < sp_c M -> pat M i j = true -> pos M i j < outer M (sp_c M).
Proof. intros. pose proof (pos_lt M i j H H1). pose proof (outer_next M j (sp_c M) H0). lia. Qed.

Lemma pos_inj : forall M i j i' j', i < sp_r M -> i' < sp_r M -> pat M i j = true -> pat M i' j' = true ->
  pos M i j = pos M i' j' -> i = i' /\ j = j'.
Proof.
  intros M i j i' j' Hi Hi' Hp Hp' E.
  assert (Ej : j = j').
  { destruct (Nat.lt_trichotomy j j') as [L|[L|L]]; auto; exfalso.
    - pose proof (pos_lt M i j Hi Hp). pose proof (outer_next M j j' L). unfold pos in *. lia.
    - pose proof (pos_lt M i' j' Hi' Hp'). pose proof (outer_next M j' j L). unfold pos in *. lia. }
  subst j'. split; auto. unfold pos in E.
  destruct (Nat.lt_trichotomy i i') as [L|[L|L]]; auto; exfalso.
  - pose proof (cnt_lt (fun q => pat M q j) i i' L Hp). lia.
  - pose proof (cnt_lt (fun q => pat M q j) i' i L Hp'). lia.
Qed.

(** matrices with the same dimensions, pattern and free slots *)
Definition same M M' : Prop := sp_r M' = sp_r M /\ sp_c M' = sp_c M /\ pat M' = pat M /\ slack M' = slack M.
Lemma same_refl : forall M, same M M. Proof. unfold same; auto. Qed.
Lemma same_trans : forall A B C, same A B -> same B C -> same A C.
Proof. unfold same. intros A B C (a&b&c&d) (a'&b'&c'&d'). repeat split; congruence. Qed.
Lemma same_ncol : forall M M' j, same M M' -> ncol M' j = ncol M j.
Proof. intros M M' j (a&b&c&d). unfold ncol. rewrite a, c. auto. Qed.
Lemma same_outer : forall M M' j, same M M' -> outer M' j = outer M j.
Proof. intros M M' j H. unfold outer. apply nsum_ext. intros. rewrite (same_ncol M M') by auto. destruct H as (a&b&c&d). rewrite d. auto. Qed.
Lemma same_pos : forall M M' i j, same M M' -> pos M' i j = pos M i j.
Proof. intros M M' i j H. unfold pos. rewrite (same_outer M M') by auto. destruct H as (a&b&c&d). rewrite c. auto. Qed.
Lemma same_nonzeros : forall M M', same M M' -> nonzeros M' = nonzeros M.
Proof. intros M M' H. unfold nonzeros. pose proof H as (a&b&c&d). rewrite b. apply nsum_ext. intros. apply same_ncol; auto. Qed.

Lemma upd_at : forall M i j f, i < sp_r M -> j < sp_c M -> pat M i j = true ->
  exists M', upd M (pos M i j) f = Some M' /\ same M M' /\ val M' i j = f (val M i j) /\
   (forall i' j', i' < sp_r M -> (i', j') <> (i, j) -> val M' i' j' = val M i' j').
Proof.
  intros M i j f Hi Hj Hp. unfold upd. pose proof (pos_total M i j Hi Hj Hp) as HL.
  apply Nat.ltb_lt in HL. rewrite HL. eexists. split; [reflexivity|]. split; [unfold same; auto|]. split.
  - cbn [val]. rewrite Hp, Nat.eqb_refl. reflexivity.
  - intros i' j' Hi' Hne. cbn [val]. destruct (pat M i' j') eqn:E; auto.
    destruct (Nat.eqb_spec (pos M i' j') (pos M i j)) as [E'|]; auto.
    exfalso. apply Hne. destruct (pos_inj M i' j' i j) as [-> ->]; auto.
Qed.

(** a run of consecutive addresses inside one column; [rho q] is the row of the q-th one *)
Lemma run_upd : forall n (g : nat -> T -> T) (rho : nat -> nat) M j a, j < sp_c M ->
  (forall q, q < n -> rho q < sp_r M /\ pat M (rho q) j = true /\ pos M (rho q) j = a + q) ->
  exists M', oloop n (fun q M => upd M (a + q) (g q)) M = Some M' /\ same M M' /\
   (forall q, q < n -> val M' (rho q) j = g q (val M (rho q) j)) /\
   (forall i' j', i' < sp_r M -> (j' <> j \/ forall q, q < n -> i' <> rho q) -> val M' i' j' = val M i' j').
Proof.
  intros n g rho M j a Hj H.
  destruct (oloop_inv _ (fun k M' => same M M' /\
    (forall q, q < n -> q < k -> val M' (rho q) j = g q (val M (rho q) j)) /\
    (forall i' j', i' < sp_r M -> (j' <> j \/ forall q, q < k -> i' <> rho q) -> val M' i' j' = val M i' j'))
    n (fun q M => upd M (a + q) (g q)) M) as (M' & E & S1 & V1 & V2).
  - split; [apply same_refl|]. split; [intros; lia|auto].
  - intros k M1 Hk (S1 & V1 & V2). destruct (H k Hk) as (Hr & Hp & Ha). pose proof S1 as (Sr & Sc & Sp & Ss).
    destruct (upd_at M1 (rho k) j (g k)) as (M2 & E2 & S2 & W1 & W2); try (rewrite ?Sr, ?Sc, ?Sp; auto; fail).
    rewrite (same_pos M M1) in E2 by auto. rewrite Ha in E2. exists M2. split; auto.
    assert (Hinj : forall q, q < n -> q <> k -> rho q <> rho k).
    { intros q Hq Hne Heq. destruct (H q Hq) as (_ & _ & Hq'). rewrite Heq in Hq'. lia. }
    split; [eapply same_trans; eauto|]. split.
    + intros q Hq Hqk. destruct (Nat.eq_dec q k) as [->|Hne].
      * rewrite W1. f_equal. apply V2; [apply H; auto|]. right. intros q Hqk' Heq. symmetry in Heq. revert Heq. apply Hinj; lia.
      * rewrite W2; [apply V1; auto; lia| |].
        -- rewrite Sr. apply H; auto.
        -- intro Heq. inversion Heq. apply (Hinj q); auto.
    + intros i' j' Hi' Hor. rewrite W2; [apply V2; auto|rewrite Sr; auto|].
      * destruct Hor as [Hor|Hor]; [left; exact Hor|]. right. intros q Hq. apply Hor; lia.
      * intro Heq. inversion Heq; subst. destruct Hor as [|Hor]; [congruence|]. apply (Hor k); auto.
  - exists M'. repeat split; auto; try (destruct S1 as (?&?&?&?); auto; fail).
Qed.

(** consecutive rows *)
Lemma pos_consec : forall M j r n, (forall i, i < n -> pat M (r + i) j = true) ->
  forall q, q <= n -> pos M (r + q) j = pos M r j + q.
Proof.
  intros M j r n H q Hq. unfold pos. rewrite cnt_add. rewrite (cnt_all (fun i => pat M (r + i) j)); [lia|].
  intros; apply H; lia.
Qed.

(** a rectangular block, one run per column *)
Lemma block_upd : forall nr nc (g : nat -> nat -> T -> T) M r c (ad : nat -> spmat T -> nat),
  r + nr <= sp_r M -> c + nc <= sp_c M ->
  (forall i j, i < nr -> j < nc -> pat M (r + i) (c + j) = true) ->
  (forall j M', j < nc -> 0 < nr -> same M M' -> ad j M' = pos M r (c + j)) ->
  exists M', oloop nc (fun j M => let a := ad j M in oloop nr (fun q M => upd M (a + q) (g q j)) M) M = Some M' /\ same M M' /\
   (forall i' j', i' < sp_r M -> val M' i' j' =
      if in_seg r nr i' && in_seg c nc j' then g (i' - r) (j' - c) (val M i' j') else val M i' j').
Proof.
  intros nr nc g M r c ad Hr Hc Hp Ha.
  destruct (oloop_inv _ (fun k M' => same M M' /\
    (forall i' j', i' < sp_r M -> val M' i' j' =
      if in_seg r nr i' && in_seg c k j' then g (i' - r) (j' - c) (val M i' j') else val M i' j'))
    nc (fun j M => let a := ad j M in oloop nr (fun q M => upd M (a + q) (g q j)) M) M) as (M' & E & S1 & V1).
  - split; [apply same_refl|]. intros. rewrite (in_seg_false c 0), andb_false_r by lia. auto.
  - intros k M1 Hk (S1 & V1). pose proof S1 as (Sr & Sc & Sp & Ss).
    destruct (run_upd nr (fun q => g q k) (fun q => r + q) M1 (c + k) (ad k M1)) as (M2 & E2 & S2 & W1 & W2).
    + rewrite Sc. lia.
    + intros q Hq. rewrite Sr, Sp. split; [lia|]. split; [apply Hp; auto|].
      rewrite (same_pos M M1) by auto. rewrite Ha by (auto; lia). apply (pos_consec M (c + k) r nr); auto; lia.
    + exists M2. split; auto. split; [eapply same_trans; eauto|].
      intros i' j' Hi'. destruct (in_seg r nr i') eqn:Er; cbn [andb].
      * apply in_seg_spec in Er. destruct (Nat.eq_dec j' (c + k)) as [->|Hne].
        -- rewrite in_seg_true by lia. replace i' with (r + (i' - r)) at 1 by lia. rewrite W1 by lia.
           replace (r + (i' - r)) with i' by lia. rewrite V1 by auto.
           rewrite (in_seg_false c k), andb_false_r by lia. f_equal. lia.
        -- rewrite W2; [|rewrite Sr; auto|auto]. rewrite V1 by auto. rewrite (in_seg_true r nr) by lia. cbn [andb].
           destruct (in_seg c k j') eqn:Ej.
           ++ apply in_seg_spec in Ej. rewrite in_seg_true by lia. reflexivity.
           ++ destruct (in_seg c (S k) j') eqn:Ej'; auto. apply in_seg_spec in Ej'.
              rewrite in_seg_true in Ej by lia. discriminate.
      * rewrite W2; [|rewrite Sr; auto|].
        -- rewrite V1 by auto. rewrite Er. reflexivity.
        -- right. intros q Hq ->. rewrite in_seg_true in Er by lia. discriminate.
  - exists M'. auto.
Qed.

Lemma add_diag_ok : forall n M d, n <= sp_r M -> n <= sp_c M -> (forall i, i < n -> pat M i i = true) ->
  exists M', add_diag M n d = Some M' /\ same M M' /\
   (forall i' j', i' < sp_r M -> val M' i' j' = if (i' =? j') && (i' <? n) then (val M i' j' + d i')%S else val M i' j').
Proof.
  intros n M d Hr Hc Hp. unfold add_diag.
  destruct (oloop_inv _ (fun k M' => same M M' /\
   (forall i' j', i' < sp_r M -> val M' i' j' = if (i' =? j') && (i' <? k) then (val M i' j' + d i')%S else val M i' j'))
   n (fun i M => if pat M i i then upd M (pos M i i) (fun v => (v + d i)%S) else None) M) as (M' & E & S1 & V1).
  - split; [apply same_refl|]. intros. rewrite (proj2 (Nat.ltb_ge i' 0)) by lia. rewrite andb_false_r. auto.
  - intros k M1 Hk (S1 & V1). pose proof S1 as (Sr & Sc & Sp & Ss).
    destruct (upd_at M1 k k (fun v => (v + d k)%S)) as (M2 & E2 & S2 & W1 & W2); try (rewrite ?Sr, ?Sc, ?Sp; auto; lia).
    exists M2. assert (Hpk : pat M1 k k = true) by (rewrite Sp; auto). rewrite Hpk. split; auto.
    split; [eapply same_trans; eauto|]. intros i' j' Hi'.
    destruct (Nat.eqb_spec i' j') as [<-|Hne]; cbn [andb].
    + destruct (Nat.eq_dec i' k) as [->|Hik].
      * rewrite W1, V1 by auto. rewrite Nat.eqb_refl, Nat.ltb_irrefl. cbn [andb].
        rewrite (proj2 (Nat.ltb_lt k (S k))) by lia. reflexivity.
      * rewrite W2; [|rewrite Sr; auto|intro H; inversion H; auto]. rewrite V1 by auto. rewrite Nat.eqb_refl. cbn [andb].
        destruct (Nat.ltb_spec i' k), (Nat.ltb_spec i' (S k)); auto; lia.
    + rewrite W2; [|rewrite Sr; auto|intro H; inversion H; subst; auto]. rewrite V1 by auto.
      rewrite (proj2 (Nat.eqb_neq i' j')) by auto. reflexivity.
  - exists M'. auto.
Qed.

(** * insertion.  [est j] slots were reserved for column [j] *)
Definition lay M (F : nat -> nat -> bool) (est : nat -> nat) : Prop :=
  (forall j, j < sp_c M -> slack M j + ncol M j = est j) /\
  (forall i j, i < sp_r M -> j < sp_c M -> pat M i j = true -> F i j = true) /\
  (forall j, j < sp_c M -> cnt (fun i => F i j) (sp_r M) <= est j).

Lemma lay_reserve : forall r c F est, (forall j, j < c -> cnt (fun i => F i j) r <= est j) ->
  lay (reserve (sp_empty r c) est) F est.
Proof.
  intros r c F est H. split; [|split]; cbn.
  - intros j Hj. rewrite Nat.max_0_r. unfold ncol. cbn. rewrite cnt_none; auto.
  - discriminate.
  - auto.
Qed.

Lemma lay_outer : forall M F est j, lay M F est -> j <= sp_c M -> outer M j = nsum j est.
Proof. intros M F est j (H & _) Hj. unfold outer. apply nsum_ext. intros i Hi. rewrite <- H; lia. Qed.

Lemma lay_same : forall M M' F est, lay M F est -> same M M' -> lay M' F est.
Proof.
  intros M M' F est (H1 & H2 & H3) HS. pose proof HS as (a&b&c&d).
  split; [|split]; rewrite ?a, ?b, ?c, ?d; auto. intros. rewrite (same_ncol M M') by auto. auto.
Qed.

Lemma insert_ok : forall M F est i j v, lay M F est -> i < sp_r M -> j < sp_c M -> pat M i j = false -> F i j = true ->
  exists M', insert M i j v = Some M' /\ lay M' F est /\ sp_r M' = sp_r M /\ sp_c M' = sp_c M /\
   (forall i' j', pat M' i' j' = ((i' =? i) && (j' =? j)) || pat M i' j') /\
   (forall i' j', val M' i' j' = if (i' =? i) && (j' =? j) then v else val M i' j').
Proof.
  intros M F est i j v (H1 & H2 & H3) Hi Hj Hp HF. unfold insert.
  rewrite (proj2 (Nat.ltb_lt _ _) Hi), (proj2 (Nat.ltb_lt _ _) Hj), Hp. cbn [andb negb].
  eexists. split; [reflexivity|]. cbn. split; [|auto].
  assert (Hcol : cnt (fun i' => ((i' =? i) && true) || pat M i' j) (sp_r M) = S (ncol M j)).
  { unfold ncol. rewrite <- (cnt_one (fun i' => pat M i' j) (sp_r M) i) by auto. apply cnt_ext. intros.
    rewrite andb_true_r. auto. }
  assert (Hle : S (ncol M j) <= est j).
  { rewrite <- Hcol. etransitivity; [|apply (H3 j Hj)]. apply cnt_sub. intros i' Hi' E. apply orb_true_iff in E.
    destruct E as [E|E]; [|apply H2; auto]. apply andb_true_iff in E. destruct E as [E _]. apply Nat.eqb_eq in E. subst; auto. }
  split; [|split]; cbn.
  - intros j' Hj'. cbn [slack]. unfold ncol at 2 || unfold ncol. cbn. destruct (Nat.eqb_spec j' j) as [->|Hne].
    + rewrite Hcol. specialize (H1 j Hj). destruct (Nat.eqb_spec (slack M j) 0); lia.
    + rewrite <- (H1 j') by auto. f_equal. unfold ncol. apply cnt_ext. intros. rewrite andb_false_r. auto.
  - intros i' j' Hi' Hj' E. apply orb_true_iff in E. destruct E as [E|E]; [|apply H2; auto].
    apply andb_true_iff in E. destruct E as [E1 E2]. apply Nat.eqb_eq in E1, E2. subst; auto.
  - auto.
Qed.

(** insertion of a block, column by column *)
Lemma insert_block : forall nr nc (B : nat -> nat -> T) M F est r c, lay M F est ->
  r + nr <= sp_r M -> c + nc <= sp_c M ->
  (forall i j, i < nr -> j < nc -> pat M (r + i) (c + j) = false /\ F (r + i) (c + j) = true) ->
  exists M', oloop nc (fun j M => oloop nr (fun i M => insert M (r + i) (c + j) (B i j)) M) M = Some M' /\
   lay M' F est /\ sp_r M' = sp_r M /\ sp_c M' = sp_c M /\
   (forall i' j', pat M' i' j' = (in_seg r nr i' && in_seg c nc j') || pat M i' j') /\
   (forall i' j', val M' i' j' = if in_seg r nr i' && in_seg c nc j' then B (i' - r) (j' - c) else val M i' j').
Proof.
  intros nr nc B M F est r c HL Hr Hc Hf.
  set (S := fun k i j => in_seg r nr i && in_seg c k j).
  destruct (oloop_inv _ (fun k M' => lay M' F est /\ sp_r M' = sp_r M /\ sp_c M' = sp_c M /\
   (forall i' j', pat M' i' j' = S k i' j' || pat M i' j') /\
   (forall i' j', val M' i' j' = if S k i' j' then B (i' - r) (j' - c) else val M i' j'))
   nc (fun j M => oloop nr (fun i M => insert M (r + i) (c + j) (B i j)) M) M) as (M' & E & H).
  - repeat split; try apply HL; auto; intros; unfold S; rewrite (in_seg_false c 0), andb_false_r by lia; auto.
  - intros k M1 Hk (L1 & R1 & C1 & P1 & V1).
    destruct (oloop_inv _ (fun q M' => lay M' F est /\ sp_r M' = sp_r M /\ sp_c M' = sp_c M /\
      (forall i' j', pat M' i' j' = (in_seg r q i' && (j' =? c + k)) || pat M1 i' j') /\
      (forall i' j', val M' i' j' = if in_seg r q i' && (j' =? c + k) then B (i' - r) (j' - c) else val M1 i' j'))
      nr (fun i M => insert M (r + i) (c + k) (B i k)) M1) as (M2 & E2 & L2 & R2 & C2 & P2 & V2).
    + repeat split; try apply L1; auto; intros; rewrite (in_seg_false r 0) by lia; auto.
    + intros q M2 Hq (L2 & R2 & C2 & P2 & V2).
      destruct (insert_ok M2 F est (r + q) (c + k) (B q k)) as (M3 & E3 & L3 & R3 & C3 & P3 & V3); auto; try lia.
      * rewrite P2, P1. rewrite (in_seg_false r q) by lia. unfold S. rewrite (in_seg_false c k), andb_false_r by lia.
        cbn. apply Hf; auto.
      * apply Hf; auto.
      * exists M3. split; auto. split; auto. split; [congruence|]. split; [congruence|].
        assert (HS : forall i', in_seg r (Datatypes.S q) i' = (i' =? r + q) || in_seg r q i').
        { intro i'. destruct (Nat.eqb_spec i' (r + q)) as [->|Hne]; [apply in_seg_true; lia|].
          cbn. destruct (in_seg r q i') eqn:E; [apply in_seg_spec in E; apply in_seg_true; lia|].
          apply in_seg_false. destruct (Nat.lt_ge_cases i' r); auto. right.
          destruct (Nat.lt_ge_cases i' (r + q)); [rewrite in_seg_true in E by lia; discriminate|lia]. }
        split; intros i' j'.
        -- rewrite P3, P2, HS. destruct (i' =? r + q), (j' =? c + k), (in_seg r q i'), (pat M1 i' j'); auto.
        -- rewrite V3, V2, HS. destruct (Nat.eqb_spec i' (r + q)) as [->|], (Nat.eqb_spec j' (c + k)) as [->|]; cbn;
           rewrite ?andb_false_r, ?andb_true_r; auto. f_equal; lia.
    + exists M2. split; auto. split; auto. split; auto. split; auto.
      assert (HS : forall i' j', S (Datatypes.S k) i' j' = (in_seg r nr i' && (j' =? c + k)) || S k i' j').
      { intros i' j'. unfold S. destruct (in_seg r nr i'); auto. cbn [andb].
        destruct (Nat.eqb_spec j' (c + k)) as [->|Hne]; [apply in_seg_true; lia|].
        cbn. destruct (in_seg c k j') eqn:E'; [apply in_seg_spec in E'; apply in_seg_true; lia|].
        apply in_seg_false. destruct (Nat.lt_ge_cases j' c); auto. right.
        destruct (Nat.lt_ge_cases j' (c + k)); [rewrite in_seg_true in E' by lia; discriminate|lia]. }
      split; intros i' j'.
      * rewrite P2, P1, HS. rewrite <- orb_assoc. reflexivity.
      * rewrite V2, V1, HS. destruct (in_seg r nr i' && (j' =? c + k)); auto.
  - exists M'. split; auto.
Qed.

(** the same, row by row *)
Lemma insert_row : forall nc (b : nat -> T) M F est r c, lay M F est ->
  r < sp_r M -> c + nc <= sp_c M ->
  (forall j, j < nc -> pat M r (c + j) = false /\ F r (c + j) = true) ->
  exists M', oloop nc (fun j M => insert M r (c + j) (b j)) M = Some M' /\
   lay M' F est /\ sp_r M' = sp_r M /\ sp_c M' = sp_c M /\
   (forall i' j', pat M' i' j' = ((i' =? r) && in_seg c nc j') || pat M i' j') /\
   (forall i' j', val M' i' j' = if (i' =? r) && in_seg c nc j' then b (j' - c) else val M i' j').
Proof.
  intros nc b M F est r c HL Hr Hc Hf.
  destruct (insert_block 1 nc (fun _ j => b j) M F est r c) as (M' & E & L' & R' & C' & P' & V'); auto; try lia.
  - intros i j Hi Hj. replace (r + i) with r by lia. apply Hf; auto.
  - exists M'. split.
    + rewrite <- E. clear. generalize M. induction nc; intro M0; cbn [oloop]; auto. rewrite IHnc.
      destruct (oloop nc _ M0); auto. rewrite Nat.add_0_r. auto.
    + assert (HS : forall i', in_seg r 1 i' = (i' =? r)).
      { intro i'. destruct (Nat.eqb_spec i' r); [apply in_seg_true|apply in_seg_false]; lia. }
      repeat split; try apply L'; auto; intros; rewrite <- HS; auto.
Qed.

End P.
