(** Lemmas for property C110. *)
From Coq Require Import Arith Bool List Lia.
From Verif Require Import Reshape_Model Reshape_Spec.
Import ListNotations.

Lemma flat_seq {T} (g : nat -> T) I O :
  flat_map (fun b => map (fun a => g (b * I + a)) (seq 0 I)) (seq 0 O) = map g (seq 0 (I * O)).
Proof.
  induction O as [|O IH]; [rewrite Nat.mul_0_r; reflexivity|].
  rewrite seq_S, flat_map_app, IH. cbn [flat_map Nat.add]. rewrite app_nil_r.
  replace (I * S O) with (I * O + I) by lia. rewrite seq_app, map_app. f_equal. cbn [Nat.add].
  rewrite (Nat.mul_comm O I). generalize (I * O) as p. intro p.
  replace (seq p I) with (map (fun a => p + a) (seq 0 I)); [rewrite map_map; reflexivity|].
  clear. induction I as [|I IH] in p |- *; [reflexivity|]. rewrite !seq_S, map_app, IH. cbn. reflexivity.
Qed.

(** row and column of the k-th coefficient *)
Definition row_of o rows cols k := match o with ColMajor => k mod rows | RowMajor => k / cols end.
Definition col_of o rows cols k := match o with ColMajor => k / rows | RowMajor => k mod cols end.

Lemma divmod I b a : a < I -> (b * I + a) mod I = a /\ (b * I + a) / I = b.
Proof.
  intro H. split.
  - rewrite Nat.add_comm, Nat.mod_add by lia. apply Nat.mod_small. exact H.
  - rewrite Nat.add_comm, Nat.div_add by lia. rewrite Nat.div_small by exact H. reflexivity.
Qed.

Lemma flat_ext {T} (f g : nat -> nat -> T) I O : (forall b a, b < O -> a < I -> f b a = g b a) ->
  flat_map (fun b => map (f b) (seq 0 I)) (seq 0 O) = flat_map (fun b => map (g b) (seq 0 I)) (seq 0 O).
Proof.
  intro H. rewrite !flat_map_concat_map. f_equal. apply map_ext_in. intros b Hb. apply in_seq in Hb.
  apply map_ext_in. intros a Ha. apply in_seq in Ha. apply H; lia.
Qed.

Lemma entries_flat {T} o rows cols (f : nat -> nat -> T) :
  entries o rows cols f = map (fun k => f (row_of o rows cols k) (col_of o rows cols k)) (seq 0 (rows * cols)).
Proof.
  destruct o; cbn [entries row_of col_of].
  - rewrite <- (flat_seq (fun k => f (k mod rows) (k / rows)) rows cols).
    apply (flat_ext (fun j i => f i j) (fun j i => f ((j * rows + i) mod rows) ((j * rows + i) / rows))).
    intros b a _ Ha. destruct (divmod rows b a Ha) as [-> ->]. reflexivity.
  - rewrite Nat.mul_comm, <- (flat_seq (fun k => f (k / cols) (k mod cols)) cols rows).
    apply (flat_ext f (fun i j => f ((i * cols + j) / cols) ((i * cols + j) mod cols))).
    intros b a _ Ha. destruct (divmod cols b a Ha) as [-> ->]. reflexivity.
Qed.

Lemma map_seq_eq {T} (f g : nat -> T) n : map f (seq 0 n) = map g (seq 0 n) <-> forall k, k < n -> f k = g k.
Proof.
  split.
  - intros E k Hk. pose proof (f_equal (fun l => nth_error l k) E) as N. cbn in N.
    rewrite !nth_error_map in N. rewrite (nth_error_nth' (seq 0 n) 0) in N by (rewrite seq_length; lia).
    rewrite seq_nth in N by lia. cbn in N. congruence.
  - intro H. apply map_ext_in. intros k Hk. apply in_seq in Hk. apply H. lia.
Qed.

Lemma in_range o rows cols k : k < rows * cols -> row_of o rows cols k < rows /\ col_of o rows cols k < cols.
Proof.
  intro H. destruct o; cbn.
  - split; [apply Nat.mod_upper_bound; nia|]. apply Nat.div_lt_upper_bound; nia.
  - split; [|apply Nat.mod_upper_bound; nia]. apply Nat.div_lt_upper_bound; nia.
Qed.

Lemma at_position o rows cols i j : i < rows -> j < cols ->
  position o rows cols i j < rows * cols /\ row_of o rows cols (position o rows cols i j) = i /\ col_of o rows cols (position o rows cols i j) = j.
Proof.
  intros Hi Hj. destruct o; cbn [position row_of col_of].
  - destruct (divmod rows j i Hi) as [-> ->]. repeat split. nia.
  - destruct (divmod cols i j Hj) as [-> ->]. repeat split. nia.
Qed.

Lemma position_of o rows cols k : k < rows * cols -> position o rows cols (row_of o rows cols k) (col_of o rows cols k) = k.
Proof.
  intro H. destruct o; cbn.
  - rewrite Nat.mul_comm. symmetry. apply Nat.div_mod. nia.
  - rewrite Nat.mul_comm. symmetry. apply Nat.div_mod. nia.
Qed.

(** ** The reshaped expression *)

Lemma reshape_some x cr cc o rows cols r : reshape x cr cc o rows cols = Some r ->
  r = mkReshaped x cr cc o rows cols /\ agrees cr rows = true /\ agrees cc cols = true /\ rows * cols = x_rows x * x_cols x.
Proof.
  unfold reshape. destruct (agrees cr rows && agrees cc cols && (rows * cols =? x_rows x * x_cols x)) eqn:E; [|discriminate].
  intros [= <-]. rewrite !andb_true_iff, Nat.eqb_eq in E. intuition.
Qed.

Definition kth_r (r : reshaped) (k : nat) : nat :=
  r_loc r (row_of (r_ord r) (r_rows r) (r_cols r) k) (col_of (r_ord r) (r_rows r) (r_cols r) k).
Definition kth_x (x : expr) (o : order) (k : nat) : nat :=
  x_loc x (row_of o (x_rows x) (x_cols x) k) (col_of o (x_rows x) (x_cols x) k).

Lemma keeps_iff x cr cc o rows cols r : reshape x cr cc o rows cols = Some r ->
  (keeps_entries r <-> forall k, k < rows * cols -> kth_r r k = kth_x x o k).
Proof.
  intro E. apply reshape_some in E. destruct E as (-> & _ & _ & S). unfold keeps_entries, r_entries, x_entries. cbn [r_ord r_rows r_cols r_xpr]. split.
  - intro H. specialize (H nat (fun l => l)). rewrite !entries_flat, <- S in H. rewrite map_seq_eq in H. exact H.
  - intros H T m. rewrite !entries_flat, <- S. apply map_seq_eq. intros k Hk. f_equal. exact (H k Hk).
Qed.

(** Without direct access the k-th coefficient is that of the nested expression. *)
Lemma remap_kth x cr cc o rows cols r k : reshape x cr cc o rows cols = Some r -> direct_access r = None -> k < rows * cols ->
  kth_r r k = kth_x x o k.
Proof.
  intros E D Hk. apply reshape_some in E. destruct E as (-> & _ & _ & S). unfold kth_r, r_loc. rewrite D. unfold index_remap. cbn [r_ord r_rows r_cols r_xpr].
  pose proof (position_of o rows cols k Hk) as P. destruct o; cbn [row_of col_of position] in *; unfold kth_x; cbn [row_of col_of].
  - rewrite P. reflexivity.
  - rewrite Nat.add_comm, P. reflexivity.
Qed.

(** The k-th coefficient in storage order of a nested expression with linear direct access. *)
Lemma linear_kth x d inner outer k : x_access x = Direct d inner outer -> linear_ok x -> x_linear x = true -> k < x_rows x * x_cols x ->
  kth_x x (x_order x) k = d + k * inner.
Proof.
  intros A L F Hk. unfold linear_ok in L. rewrite A in L. specialize (L F). unfold kth_x, x_loc. rewrite A.
  pose proof (in_range (x_order x) (x_rows x) (x_cols x) k Hk) as [R1 R2].
  pose proof (position_of (x_order x) (x_rows x) (x_cols x) k Hk) as P.
  destruct (x_order x); cbn [row_of col_of strided position outer_size inner_size] in *.
  - set (i := k mod x_rows x) in *. set (j := k / x_rows x) in *. destruct L as [L| ->]; [|rewrite <- P; ring].
    assert (j = 0) as -> by lia. rewrite <- P. ring.
  - set (i := k / x_cols x) in *. set (j := k mod x_cols x) in *. destruct L as [L| ->]; [|rewrite <- P; ring].
    assert (i = 0) as -> by lia. rewrite <- P. ring.
Qed.

Lemma is_one_size c k : is_one c = true -> agrees c k = true -> k = 1.
Proof. destruct c as [[|[|n]]|]; try discriminate. intros _ E. apply Nat.eqb_eq in E. exact E. Qed.

(** The same of the reshaped expression. *)
Lemma direct_kth x cr cc o rows cols r d inner k : reshape x cr cc o rows cols = Some r -> direct_access r = Some (d, inner) -> k < rows * cols ->
  kth_r r k = d + k * inner \/
  reshaped_order r = o /\ kth_r r k = d + (k mod inner_size o rows cols) * inner + (k / inner_size o rows cols) * inner_size o rows cols.
Proof.
  intros E D Hk. apply reshape_some in E. destruct E as (-> & A1 & A2 & S). unfold kth_r, r_loc. rewrite D. cbn [r_ord r_rows r_cols r_xpr].
  assert (O : o = x_order x).
  { unfold direct_access in D. cbn in D. destruct (x_access x); [|discriminate]. destruct o, (x_order x); cbn in D; (reflexivity || discriminate). }
  unfold outer_stride. unfold reshaped_order at 1 2 3. cbn [r_crows r_ccols r_xpr r_rows r_cols].
  destruct (is_one cr) eqn:E1, (is_one cc) eqn:E2; cbn [andb negb].
  - right. unfold reshaped_order. cbn. rewrite E1, E2. cbn. split; [symmetry; exact O|]. rewrite <- O. destruct o; reflexivity.
  - left. pose proof (is_one_size _ _ E1 A1) as ->. destruct o; cbn [row_of col_of strided].
    + rewrite Nat.div_1_r. rewrite Nat.mod_1_r. ring.
    + rewrite Nat.mul_1_l in Hk. rewrite Nat.mod_small, Nat.div_small by exact Hk. ring.
  - left. pose proof (is_one_size _ _ E2 A2) as ->. destruct o; cbn [row_of col_of strided].
    + rewrite Nat.mul_1_r in Hk. rewrite Nat.mod_small, Nat.div_small by exact Hk. ring.
    + rewrite Nat.div_1_r. rewrite Nat.mod_1_r. ring.
  - right. unfold reshaped_order. cbn. rewrite E1, E2. cbn. split; [symmetry; exact O|]. rewrite <- O. destruct o; reflexivity.
Qed.

Lemma direct_from x cr cc o rows cols r d inner : reshape x cr cc o rows cols = Some r -> direct_access r = Some (d, inner) ->
  o = x_order x /\ x_linear x = true /\ exists outer, x_access x = Direct d inner outer.
Proof.
  intros E D. apply reshape_some in E. destruct E as (-> & _). unfold direct_access in D. cbn in D.
  destruct (x_access x) as [d' i' o'|]; [|discriminate].
  destruct o, (x_order x), (x_linear x); cbn in D; try discriminate; injection D as -> ->; repeat split; exists o'; reflexivity.
Qed.

Lemma sizes o rows cols : rows * cols = inner_size o rows cols * outer_size o rows cols.
Proof. destruct o; cbn; lia. Qed.

Lemma direct_iff x cr cc o rows cols r d inner : reshape x cr cc o rows cols = Some r -> linear_ok x -> direct_access r = Some (d, inner) ->
  (keeps_entries r <-> inner = 1 \/ outer_size (reshaped_order r) rows cols <= 1 \/ rows * cols = 0).
Proof.
  intros E L D. destruct (direct_from _ _ _ _ _ _ _ _ _ E D) as (O & F & outer & A). pose proof (reshape_some _ _ _ _ _ _ _ E) as (Er & A1 & A2 & S).
  rewrite (keeps_iff _ _ _ _ _ _ _ E).
  assert (X : forall k, k < rows * cols -> kth_x x o k = d + k * inner).
  { intros k Hk. rewrite O. apply (linear_kth x d inner outer k A L F). lia. }
  split.
  - intro H. destruct (Nat.eq_dec inner 1) as [|Ni]; [now left|]. right.
    destruct (le_lt_dec (outer_size (reshaped_order r) rows cols) 1) as [|Lo]; [now left|]. right.
    destruct (Nat.eq_dec (rows * cols) 0) as [|N0]; [assumption|]. exfalso.
    assert (RO : reshaped_order r = o).
    { destruct (direct_kth x cr cc o rows cols r d inner 0 E D ltac:(lia)) as [_|[RO _]]; [|exact RO].
      rewrite Er in Lo |- *. unfold reshaped_order in *. cbn [r_crows r_ccols r_xpr] in *.
      destruct (is_one cr) eqn:E1, (is_one cc) eqn:E2; cbn [andb negb] in *; try (symmetry; exact O).
      - pose proof (is_one_size _ _ E1 A1). cbn in Lo. lia.
      - pose proof (is_one_size _ _ E2 A2). cbn in Lo. lia. }
    rewrite RO in Lo. pose proof (sizes o rows cols) as Sz. set (I := inner_size o rows cols) in *. set (Q := outer_size o rows cols) in *.
    assert (HI : 1 <= I) by nia. assert (Hk : I < rows * cols) by nia.
    pose proof (H I Hk) as E3. rewrite (X I Hk) in E3.
    destruct (direct_kth x cr cc o rows cols r d inner I E D Hk) as [K|[_ K]].
    + (* both storage orders agree, so this form does not arise; derive it from r_loc *)
      clear E3. assert (K2 : kth_r r I = d + (I mod I) * inner + (I / I) * I).
      { unfold kth_r, r_loc. rewrite D, RO. unfold outer_stride. rewrite RO. rewrite Er. cbn [r_ord r_rows r_cols]. unfold I. destruct o; reflexivity. }
      rewrite K, Nat.mod_same, Nat.div_same in K2 by lia. apply Ni. nia.
    + fold I in K. rewrite K, Nat.mod_same, Nat.div_same in E3 by lia. apply Ni. nia.
  - intros C k Hk. rewrite (X k Hk). destruct (direct_kth x cr cc o rows cols r d inner k E D Hk) as [K|[RO K]]; [exact K|].
    rewrite K. rewrite RO in C. pose proof (sizes o rows cols) as Sz. set (I := inner_size o rows cols) in *. set (Q := outer_size o rows cols) in *.
    assert (HI : I <> 0) by nia. pose proof (Nat.div_mod k I HI) as DM. destruct C as [-> | [C|C]]; [rewrite DM at 3; ring| |lia].
    assert (k < I) by nia. rewrite Nat.mod_small, Nat.div_small by assumption. ring.
Qed.

(** ** Linear access *)
Lemma linear_access x cr cc o rows cols r k : reshape x cr cc o rows cols = Some r -> linear_ok x -> k < rows * cols ->
  is_one cr = true \/ is_one cc = true \/ direct_access r <> None ->
  r_loc_linear r k = kth_x x o k.
Proof.
  intros E L Hk V. pose proof (reshape_some _ _ _ _ _ _ _ E) as (Er & A1 & A2 & S). unfold r_loc_linear.
  destruct (direct_access r) as [[d inner]|] eqn:D.
  - destruct (direct_from _ _ _ _ _ _ _ _ _ E D) as (O & F & outer & A). rewrite O. symmetry. apply (linear_kth x d inner outer k A L F). lia.
  - rewrite Er. cbn [r_crows r_xpr]. unfold index_remap. cbn [r_ord r_rows r_cols r_xpr]. destruct (is_one cr) eqn:E1.
    + pose proof (is_one_size _ _ E1 A1) as ->. unfold kth_x. destruct o; cbn [row_of col_of].
      * rewrite Nat.mul_1_r, Nat.add_0_r. reflexivity.
      * rewrite Nat.mul_0_l, Nat.add_0_r. reflexivity.
    + destruct V as [V|[V|V]]; [discriminate| |congruence]. pose proof (is_one_size _ _ V A2) as ->. unfold kth_x. destruct o; cbn [row_of col_of].
      * rewrite Nat.mul_0_l, Nat.add_0_l. reflexivity.
      * rewrite Nat.mul_1_r, Nat.add_0_l. reflexivity.
Qed.

(** ** Writing *)
Lemma replace_map {T} (f : nat -> T) n p v : p < n ->
  replace (map f (seq 0 n)) p v = map (fun k => if k =? p then v else f k) (seq 0 n).
Proof.
  intro H. unfold replace. replace n with (p + S (n - S p)) by lia. rewrite seq_app, !map_app. cbn [seq map Nat.add].
  rewrite firstn_app, skipn_app. rewrite firstn_all2 by (rewrite map_length, seq_length; lia).
  rewrite (skipn_all2 (map f (seq 0 p))) by (rewrite map_length, seq_length; lia).
  rewrite map_length, seq_length. replace (p - p) with 0 by lia. replace (S p - p) with 1 by lia. cbn [firstn skipn]. rewrite app_nil_r.
  cbn [app]. rewrite Nat.eqb_refl. f_equal; [|f_equal]; apply map_ext_in; intros k Hk; apply in_seq in Hk; destruct (Nat.eqb_spec k p); (reflexivity || lia).
Qed.

Lemma write_ok x cr cc o rows cols r (T : Type) (m : nat -> T) i j v : reshape x cr cc o rows cols = Some r -> no_alias x -> keeps_entries r ->
  i < rows -> j < cols ->
  x_entries (store m (r_loc r i j) v) o x = replace (x_entries m o x) (position o rows cols i j) v.
Proof.
  intros E N K Hi Hj. pose proof (proj1 (keeps_iff _ _ _ _ _ _ _ E) K) as KK. pose proof (reshape_some _ _ _ _ _ _ _ E) as (Er & A1 & A2 & S).
  destruct (at_position o rows cols i j Hi Hj) as (P1 & P2 & P3). set (p := position o rows cols i j) in *.
  assert (RL : r_loc r i j = kth_x x o p).
  { rewrite <- (KK p P1). unfold kth_r. rewrite Er. cbn [r_ord r_rows r_cols]. rewrite P2, P3. reflexivity. }
  rewrite RL. unfold x_entries. rewrite !entries_flat, replace_map by lia. apply map_seq_eq. intros k Hk. unfold store.
  destruct (Nat.eqb_spec k p) as [->|Nk]; [unfold kth_x; rewrite Nat.eqb_refl; reflexivity|].
  destruct (Nat.eqb_spec (x_loc x (row_of o (x_rows x) (x_cols x) k) (col_of o (x_rows x) (x_cols x) k)) (kth_x x o p)) as [E2|]; [|reflexivity].
  exfalso. apply Nk. unfold kth_x in E2.
  destruct (in_range o (x_rows x) (x_cols x) k Hk) as [R1 R2]. destruct (in_range o (x_rows x) (x_cols x) p ltac:(lia)) as [R3 R4].
  destruct (N _ _ _ _ R1 R3 R2 R4 E2) as [E3 E4].
  rewrite <- (position_of o (x_rows x) (x_cols x) k Hk), <- (position_of o (x_rows x) (x_cols x) p ltac:(lia)), E3, E4. reflexivity.
Qed.
