Require Import Arith Bool List Reals Lra Lia Sorting.Permutation.
From Verif Require Import RSum Scal Sparse Ip_Model Ip_Spec.
Import ListNotations.
Local Open Scope R_scope.

(** * writing *)
Lemma store_mid {X} (pre : list X) a post v : store (pre ++ a :: post) (length pre) v = Some (pre ++ v :: post).
Proof. induction pre; cbn; [reflexivity|]. rewrite IHpre. reflexivity. Qed.
Lemma store_end {X} (buf : list X) ind v : (length buf <= ind)%nat -> store buf ind v = None.
Proof.
  revert ind. induction buf; intros ind H; cbn; [reflexivity|]. cbn in H. destruct ind; [lia|].
  rewrite IHbuf by lia. reflexivity.
Qed.
Lemma fill_mid {X E} (f : E -> X) es : forall pre mid post, length mid = length es ->
  fill f es (length pre) (pre ++ mid ++ post) = Some (pre ++ map f es ++ post).
Proof.
  induction es; intros pre mid post H; destruct mid; try discriminate; cbn; [reflexivity|].
  rewrite store_mid. injection H as H.
  replace (pre ++ f a :: mid ++ post) with ((pre ++ [f a]) ++ mid ++ post) by (rewrite <- app_assoc; reflexivity).
  replace (S (length pre)) with (length (pre ++ [f a])) by (rewrite app_length; cbn; lia).
  rewrite IHes by exact H. rewrite <- app_assoc. reflexivity.
Qed.
Lemma store_length {X} (buf : list X) ind v b : store buf ind v = Some b -> length b = length buf.
Proof.
  revert ind b. induction buf; intros ind b H; cbn in H; [discriminate|]. destruct ind.
  - injection H as <-. reflexivity.
  - destruct (store buf ind v) eqn:E; [|discriminate]. injection H as <-. cbn. f_equal. eapply IHbuf; eauto.
Qed.
Lemma fill_short {X E} (f : E -> X) es : forall ind buf, es <> [] -> (length buf < ind + length es)%nat -> fill f es ind buf = None.
Proof.
  induction es; intros ind buf Hn H; [congruence|]. cbn in *.
  destruct (store buf ind (f a)) eqn:Es; [|reflexivity].
  assert (ind < length buf)%nat by (destruct (Nat.le_gt_cases (length buf) ind) as [L|L]; [rewrite store_end in Es by exact L; discriminate|exact L]).
  destruct es; [cbn in H; lia|]. apply IHes; [discriminate|]. rewrite (store_length _ _ _ _ Es). cbn in *. lia.
Qed.
Lemma fill_all {X E} (f : E -> X) es buf : length buf = length es -> fill f es 0 buf = Some (map f es).
Proof.
  intro H. pose proof (fill_mid f es [] buf [] H) as Q. cbn in Q. rewrite !app_nil_r in Q. exact Q.
Qed.
Lemma skipn_add {X} (l : list X) : forall m n, skipn n (skipn m l) = skipn (m + n) l.
Proof. induction l; intros m n; [destruct m, n; reflexivity|]. destruct m; cbn; [reflexivity|apply IHl]. Qed.
Lemma map_write_ok off n v buf : (off + n <= length buf)%nat ->
  map_write off n v buf = Some (firstn off buf ++ map v (seq 0 n) ++ skipn (off + n) buf).
Proof.
  intro H. unfold map_write.
  rewrite <- (firstn_skipn off buf) at 1. rewrite <- (firstn_skipn n (skipn off buf)) at 1.
  rewrite skipn_add.
  rewrite <- (firstn_length_le buf (n := off)) at 1 by lia.
  apply fill_mid. rewrite firstn_length, skipn_length, seq_length. lia.
Qed.
Lemma map_write_all n v buf : length buf = n -> map_write 0 n v buf = Some (map v (seq 0 n)).
Proof. intro H. apply fill_all. rewrite seq_length. exact H. Qed.
Lemma nth_map_seq n (v : nat -> R) i : (i < n)%nat -> nth i (map v (seq 0 n)) 0 = v i.
Proof.
  intro H. rewrite (nth_indep _ 0 (v O)) by (rewrite map_length, seq_length; exact H).
  rewrite map_nth, seq_nth by exact H. reflexivity.
Qed.

(** * orders *)
Lemma in_col_major r c i j : In (i, j) (col_major r c) <-> (i < r)%nat /\ (j < c)%nat.
Proof.
  unfold col_major. rewrite in_flat_map. split.
  - intros [j' [H1 H2]]. apply in_map_iff in H2. destruct H2 as [i' [E H2]]. injection E as <- <-.
    apply in_seq in H1. apply in_seq in H2. lia.
  - intros [Hi Hj]. exists j. split; [apply in_seq; lia|]. apply in_map_iff. exists i. split; [reflexivity|apply in_seq; lia].
Qed.
Lemma nodup_app {X} (a b : list X) : NoDup a -> NoDup b -> (forall x, In x a -> ~ In x b) -> NoDup (a ++ b).
Proof.
  induction a as [|h a IH]; intros Ha Hb D; cbn; [exact Hb|]. inversion Ha; subst.
  constructor; [|apply IH; auto; intros y Hy; apply D; right; exact Hy].
  rewrite in_app_iff. intros [Q|Q]; [contradiction|]. apply (D h); [left; reflexivity|exact Q].
Qed.
Lemma nodup_col_major r c : NoDup (col_major r c).
Proof.
  unfold col_major. assert (forall l, NoDup l -> NoDup (flat_map (fun j : nat => map (fun i => (i, j)) (seq 0 r)) l)) as Q.
  { induction l as [|j l IH]; intro H; cbn; [constructor|]. inversion H; subst. apply nodup_app.
    - apply FinFun.Injective_map_NoDup; [intros a b E; injection E; auto|apply seq_NoDup].
    - apply IH; assumption.
    - intros [i j'] K1 K2. apply in_map_iff in K1. destruct K1 as [a [E _]]. injection E as <- <-.
      apply in_flat_map in K2. destruct K2 as [j2 [L1 L2]]. apply in_map_iff in L2. destruct L2 as [b [E2 _]].
      injection E2 as _ <-. contradiction. }
  apply Q, seq_NoDup.
Qed.
Lemma length_col_major r c : length (col_major r c) = (r * c)%nat.
Proof.
  unfold col_major. assert (forall l, length (flat_map (fun j : nat => map (fun i => (i, j)) (seq 0 r)) l) = (r * length l)%nat) as Q.
  { induction l; cbn; [lia|]. rewrite app_length, map_length, seq_length, IHl. lia. }
  rewrite Q, seq_length. reflexivity.
Qed.
Lemma filter_len {X} (f : X -> bool) l g : (forall x, In x l -> f x = g x) -> filter f l = filter g l.
Proof. induction l; intro H; cbn; [reflexivity|]. rewrite H by (left; reflexivity). rewrite IHl; auto. intros; apply H; right; assumption. Qed.
Lemma length_lower_cols n c : (c <= n)%nat ->
  (2 * length (lower (col_major n c)) = 2 * n * c - c * (c - 1))%nat.
Proof.
  intro H. unfold lower, col_major.
  assert (forall c, (c <= n)%nat -> (2 * length (filter (fun e : nat * nat => (snd e <=? fst e)%nat)
     (flat_map (fun j => map (fun i => (i, j)) (seq 0 n)) (seq 0 c))) + c * (c - 1) = 2 * n * c)%nat) as Q.
  { clear. induction c; intro H; [cbn; lia|]. rewrite seq_S, flat_map_app, filter_app, app_length. cbn [plus flat_map].
    rewrite app_nil_r.
    assert (length (filter (fun e : nat * nat => (snd e <=? fst e)%nat) (map (fun i => (i, c)) (seq 0 n))) = n - c)%nat as L.
    { clear IHc. assert (forall m a, length (filter (fun e : nat * nat => (snd e <=? fst e)%nat) (map (fun i => (i, c)) (seq a m))) = (a + m) - Nat.max a c)%nat as Z.
      { induction m; intro a; cbn; [lia|]. destruct (Nat.leb_spec c a); cbn; rewrite IHm; lia. }
      rewrite Z. lia. }
    rewrite L. specialize (IHc ltac:(lia)). destruct c; [cbn in *; lia|]. nia. }
  specialize (Q c H). lia.
Qed.
Lemma length_lower n : length (lower (col_major n n)) = (n * (n + 1) / 2)%nat.
Proof.
  pose proof (length_lower_cols n n (le_n n)) as Q. apply Nat.div_unique_exact; [lia|].
  destruct n; [cbn in *; lia|]. replace (S n - 1)%nat with n in Q by lia. nia.
Qed.

(** * triplets *)
Lemma tsum_es (f : nat * nat -> R) es i j :
  tsum (map fst es) (map snd es) (map f es) i j =
  fold_right (fun e s => (if (fst e =? i)%nat && (snd e =? j)%nat then f e else 0) + s) 0 es.
Proof. induction es as [|[a b] es IH]; cbn; [reflexivity|]. rewrite IH. reflexivity. Qed.
Lemma tsum_none (f : nat * nat -> R) es i j : ~ In (i, j) es -> tsum (map fst es) (map snd es) (map f es) i j = 0.
Proof.
  rewrite tsum_es. induction es as [|[a b] es IH]; intro H; cbn; [reflexivity|].
  rewrite IH by (intro Q; apply H; right; exact Q).
  destruct (Nat.eqb_spec a i); destruct (Nat.eqb_spec b j); cbn; try lra.
  subst. exfalso. apply H. left. reflexivity.
Qed.
Lemma tsum_one (f : nat * nat -> R) es i j : NoDup es -> In (i, j) es ->
  tsum (map fst es) (map snd es) (map f es) i j = f (i, j).
Proof.
  intros N H. induction es as [|[a b] es IH]; [contradiction|]. inversion N; subst. cbn.
  destruct H as [E|H].
  - injection E as -> ->. rewrite !Nat.eqb_refl. cbn. rewrite tsum_none by assumption. ring.
  - rewrite IH by assumption. destruct (Nat.eqb_spec a i); destruct (Nat.eqb_spec b j); cbn; try ring.
    subst. contradiction.
Qed.
Lemma tsym_tsum irow jcol vals i j : (i <> j -> Forall2 (fun a b => (b <= a)%nat) irow jcol) ->
  tsym irow jcol vals i j = tsum irow jcol vals (Nat.max i j) (Nat.min i j).
Proof.
  revert jcol vals. induction irow; intros [|b jcol] [|v vals] H; cbn; try reflexivity.
  rewrite IHirow. 2:{ intro E. specialize (H E). inversion H; assumption. }
  f_equal. destruct (Nat.eq_dec i j) as [->|E].
  - rewrite Nat.max_id, Nat.min_id. destruct ((a =? j)%nat && (b =? j)%nat); reflexivity.
  - specialize (H E). inversion H; subst.
    destruct (Nat.le_gt_cases i j);
      [rewrite Nat.max_r, Nat.min_l by lia|rewrite Nat.max_l, Nat.min_r by lia];
      destruct (Nat.eqb_spec a i), (Nat.eqb_spec b j), (Nat.eqb_spec a j), (Nat.eqb_spec b i); cbn; try reflexivity; lia.
Qed.
Lemma lower_Forall2 es : Forall2 (fun a b => (b <= a)%nat) (map fst (lower es)) (map snd (lower es)).
Proof.
  induction es as [|[a b] es IH]; cbn; [constructor|]. destruct (Nat.leb_spec b a); cbn; [constructor; assumption|exact IH].
Qed.
Lemma in_lower es i j : In (i, j) (lower es) <-> In (i, j) es /\ (j <= i)%nat.
Proof. unfold lower. rewrite filter_In. cbn. rewrite Nat.leb_le. reflexivity. Qed.
Lemma in_stored M i j : In (i, j) (stored M) <-> (i < sp_r M)%nat /\ (j < sp_c M)%nat /\ pat M i j = true.
Proof. unfold stored. rewrite filter_In, in_col_major. cbn. tauto. Qed.

Lemma indices_ok es irow jcol : length irow = length es -> length jcol = length es ->
  write_indices es irow jcol = Some (map fst es, map snd es).
Proof. intros A B. unfold write_indices. rewrite !fill_all by assumption. reflexivity. Qed.
Lemma range_ok es r c : (forall i j, In (i, j) es -> (i < r)%nat /\ (j < c)%nat) -> in_range (map fst es) (map snd es) r c.
Proof.
  intro H. split; apply Forall_forall; intros a Ha; apply in_map_iff in Ha; destruct Ha as [[i j] [E Ha]]; cbn in E; subst;
    apply H in Ha; lia.
Qed.

(** * two consecutive pieces *)
Lemma put_two ne ni (v w : nat -> R) (b : list R) : length b = (ne + ni)%nat ->
  exists b0 b', (if (0 <? ne)%nat then map_write 0 ne v b else Some b) = Some b0 /\
    (if (0 <? ni)%nat then map_write ne ni w b0 else Some b0) = Some b' /\ length b' = (ne + ni)%nat /\
    (forall i, (i < ne)%nat -> nth i b' 0 = v i) /\ (forall i, (i < ni)%nat -> nth (ne + i) b' 0 = w i).
Proof.
  intros Hb. set (b0 := map v (seq 0 ne) ++ skipn ne b). set (b1 := map v (seq 0 ne) ++ map w (seq 0 ni)).
  assert (length (map v (seq 0 ne)) = ne) as Lv by (rewrite map_length, seq_length; reflexivity).
  assert (length (map w (seq 0 ni)) = ni) as Lw by (rewrite map_length, seq_length; reflexivity).
  exists b0, b1. split.
  { destruct (Nat.ltb_spec 0 ne) as [L|L].
    - rewrite map_write_ok by lia. reflexivity.
    - assert (ne = 0)%nat as E by lia. subst ne. reflexivity. }
  assert (length b0 = ne + ni)%nat as L0 by (unfold b0; rewrite app_length, Lv, skipn_length; lia).
  assert (firstn ne b0 = map v (seq 0 ne)) as F.
  { unfold b0. rewrite firstn_app, Lv, Nat.sub_diag. cbn. rewrite app_nil_r. apply firstn_all2. lia. }
  split.
  { destruct (Nat.ltb_spec 0 ni) as [L|L].
    - rewrite map_write_ok by lia. rewrite F, skipn_all2 by lia. rewrite app_nil_r. reflexivity.
    - assert (ni = 0)%nat as E by lia. subst ni. unfold b1. cbn [seq map]. rewrite app_nil_r, <- F.
      rewrite firstn_all2 by lia. reflexivity. }
  split; [unfold b1; rewrite app_length, Lv, Lw; reflexivity|].
  split; intros i Hi; unfold b1.
  - rewrite app_nth1 by lia. apply nth_map_seq, Hi.
  - rewrite app_nth2 by lia. rewrite Lv. replace (ne + i - ne)%nat with i by lia. apply nth_map_seq, Hi.
Qed.
