(** C110: reshaped expressions have the coefficients of the nested expression in the same order. *)
From Coq Require Import Arith Bool List Lia.
From Verif Require Import Reshape_Model Reshape_Spec Reshape_Proofs.
Import ListNotations.

(** For all expressions, orders and sizes, constant or not: reshaping is accepted exactly
    if the numbers of coefficients agree (and the sizes are those of the type). *)
Theorem C110_accepted : forall x cr cc o rows cols,
  reshape x cr cc o rows cols <> None <->
  (rows * cols = x_rows x * x_cols x /\ (forall k, cr = Some k -> rows = k) /\ (forall k, cc = Some k -> cols = k)).
Proof.
  intros x cr cc o rows cols. unfold reshape.
  assert (A : forall c k, agrees c k = true <-> forall r, c = Some r -> k = r).
  { intros [r|] k; cbn; [rewrite Nat.eqb_eq|]; split; try congruence. intros H. exact (H r eq_refl). }
  destruct (agrees cr rows && agrees cc cols && (rows * cols =? x_rows x * x_cols x)) eqn:E.
  - rewrite !andb_true_iff, !A, Nat.eqb_eq in E. split; [intros _; tauto|discriminate].
  - split; [congruence|]. intros (S & H1 & H2). rewrite <- A in H1, H2. rewrite H1, H2 in E. apply Nat.eqb_eq in S. rewrite S in E. discriminate.
Qed.

(** Any accepted reshape that does not use direct access has, in its order, the
    coefficients of the nested expression in that order. *)
Theorem C110_remapped : forall x cr cc o rows cols r,
  reshape x cr cc o rows cols = Some r -> direct_access r = None -> keeps_entries r.
Proof. intros x cr cc o rows cols r E D. apply (keeps_iff _ _ _ _ _ _ _ E). intros k Hk. exact (remap_kth _ _ _ _ _ _ _ k E D Hk). Qed.

(** With direct access it does if and only if the nested expression has inner stride one,
    or the reshaped expression is a single row or column in its storage order (or empty). *)
Theorem C110_direct : forall x cr cc o rows cols r d inner,
  reshape x cr cc o rows cols = Some r -> linear_ok x -> direct_access r = Some (d, inner) ->
  (keeps_entries r <-> inner = 1 \/ outer_size (reshaped_order r) rows cols <= 1 \/ rows * cols = 0).
Proof. exact direct_iff. Qed.

(** A vector with stride two (say a Map with InnerStride) seen as a matrix with two rows:
    its second column starts with the second entry of the vector instead of the third. *)
Definition every_second : expr := mkExpr 6 1 ColMajor true (Direct 0 2 0).
Theorem C110_strided_refuted : exists x r,
  reshape x None None ColMajor 2 3 = Some r /\ linear_ok x /\ no_alias x /\
  x_entries (fun l => l) ColMajor x = [0; 2; 4; 6; 8; 10] /\ r_entries (fun l => l) r = [0; 2; 2; 4; 4; 6].
Proof.
  exists every_second. eexists. split; [reflexivity|]. split; [intros _; left; cbn; lia|].
  split; [|split; reflexivity]. unfold no_alias, every_second, x_loc. cbn [x_rows x_cols x_access x_order strided]. intros i j i' j' Hi Hi' Hj Hj'. lia.
Qed.

(** A row of a column-major matrix (3 rows and 4 columns, row 1), reshaped by rows. *)
Theorem C110_row_refuted : exists x r,
  reshape x None None RowMajor 2 2 = Some r /\ linear_ok x /\ no_alias x /\
  x_entries (fun l => l) RowMajor x = [1; 4; 7; 10] /\ r_entries (fun l => l) r = [1; 4; 3; 6].
Proof.
  exists (mkExpr 1 4 RowMajor true (Direct 1 3 1)). eexists. split; [reflexivity|]. split; [intros _; left; cbn; lia|].
  split; [|split; reflexivity]. unfold no_alias, x_loc. cbn [x_rows x_cols x_access x_order strided]. intros i j i' j' Hi Hi' Hj Hj'. lia.
Qed.

(** Access with one index: for expressions that are vectors by type and for all with
    direct access, with any stride, it is the coefficient at this place. *)
Theorem C110_linear : forall x cr cc o rows cols r (T : Type) (m : nat -> T) k,
  reshape x cr cc o rows cols = Some r -> linear_ok x -> k < rows * cols ->
  cr = Some 1 \/ cc = Some 1 \/ direct_access r <> None ->
  nth_error (x_entries m o x) k = Some (m (r_loc_linear r k)).
Proof.
  intros x cr cc o rows cols r T m k E L Hk V. rewrite (linear_access x cr cc o rows cols r k E L Hk).
  - destruct (reshape_some _ _ _ _ _ _ _ E) as (_ & _ & _ & S). unfold x_entries. rewrite entries_flat, nth_error_map, (nth_error_nth' _ 0) by (rewrite seq_length; lia).
    rewrite seq_nth by lia. reflexivity.
  - destruct V as [-> | [-> |V]]; [left; reflexivity|right; left; reflexivity|right; right; exact V].
Qed.

(** Assigning a coefficient of a reshaped matrix changes exactly the coefficient at its
    place in the nested matrix. *)
Theorem C110_write : forall x cr cc o rows cols r (T : Type) (m : nat -> T) i j v,
  reshape x cr cc o rows cols = Some r -> no_alias x -> linear_ok x ->
  (forall d inner, direct_access r = Some (d, inner) -> inner = 1) -> i < rows -> j < cols ->
  x_entries (store m (r_loc r i j) v) o x = replace (x_entries m o x) (position o rows cols i j) v.
Proof.
  intros x cr cc o rows cols r T m i j v E N L D Hi Hj. apply (write_ok x cr cc o rows cols r T m i j v E N); [|exact Hi|exact Hj].
  destruct (direct_access r) as [[d inner]|] eqn:DA.
  - apply (direct_iff x cr cc o rows cols r d inner E L DA). left. exact (D d inner eq_refl).
  - exact (C110_remapped x cr cc o rows cols r E DA).
Qed.

(** Reshaping a reshaped expression: if both steps keep the coefficients, so does the whole,
    for any sizes in between and whatever access the steps use ... *)
Theorem C110_chain : forall x cr cc o rows cols r lin cr' cc' rows' cols' r',
  reshape x cr cc o rows cols = Some r -> reshape (as_expr r lin) cr' cc' o rows' cols' = Some r' ->
  keeps_entries r -> keeps_entries r' ->
  forall (T : Type) (m : nat -> T), r_entries m r' = x_entries m o x.
Proof.
  intros x cr cc o rows cols r lin cr' cc' rows' cols' r' E E' K K' T m.
  apply reshape_some in E. destruct E as (-> & _). apply reshape_some in E'. destruct E' as (-> & _).
  rewrite (K' T m). pose proof (K T m) as K1. cbn [r_ord r_xpr] in K1 |- *. rewrite <- K1. unfold x_entries, r_entries. cbn [as_expr x_rows x_cols r_ord r_rows r_cols].
  rewrite !entries_flat. apply map_ext. intro k. f_equal. unfold x_loc, as_expr, r_loc. cbn [x_access x_order].
  destruct (direct_access (mkReshaped x cr cc o rows cols)) as [[d inner]|]; reflexivity.
Qed.

(** ... and reshaping back to the first sizes gives every coefficient at its old place. *)
Theorem C110_round_trip : forall x cr cc o rows cols r lin cr' cc' r',
  reshape x cr cc o rows cols = Some r -> reshape (as_expr r lin) cr' cc' o (x_rows x) (x_cols x) = Some r' ->
  keeps_entries r -> keeps_entries r' ->
  forall i j, i < x_rows x -> j < x_cols x -> r_loc r' i j = x_loc x i j.
Proof.
  intros x cr cc o rows cols r lin cr' cc' r' E E' K K' i j Hi Hj.
  pose proof (C110_chain _ _ _ _ _ _ _ _ _ _ _ _ _ E E' K K' nat (fun l => l)) as C.
  apply reshape_some in E'. destruct E' as (-> & _). unfold r_entries, x_entries in C. cbn [r_ord r_rows r_cols] in C.
  rewrite !entries_flat, map_seq_eq in C. destruct (at_position o (x_rows x) (x_cols x) i j Hi Hj) as (P & R & Q).
  specialize (C _ P). rewrite R, Q in C. exact C.
Qed.

(** A column-major 3 x 4 matrix as 2 x 6 by columns (direct access) and as 6 x 2 by rows
    (remapped). *)
Definition m34 : expr := mkExpr 3 4 ColMajor true (Direct 0 1 3).
Lemma m34_ok : linear_ok m34 /\ no_alias m34.
Proof.
  split; [intros _; right; reflexivity|]. intros i j i' j' Hi Hi' Hj Hj'. unfold x_loc. cbn [m34 x_access x_order strided x_rows x_cols] in *. lia.
Qed.
Example C110_example :
  (exists r, reshape m34 None (Some 6) ColMajor 2 6 = Some r /\ direct_access r = Some (0, 1) /\ keeps_entries r /\ r_loc r 1 2 = 5) /\
  (exists r, reshape m34 None None RowMajor 6 2 = Some r /\ direct_access r = None /\ keeps_entries r /\
             r_entries (fun l => l) r = [0; 3; 6; 9; 1; 4; 7; 10; 2; 5; 8; 11]).
Proof.
  split; eexists; (split; [reflexivity|]); (split; [reflexivity|]); split; try reflexivity.
  - apply (C110_direct m34 None (Some 6) ColMajor 2 6 _ 0 1 eq_refl (proj1 m34_ok) eq_refl). left. reflexivity.
  - apply (C110_remapped m34 None None RowMajor 6 2 _ eq_refl eq_refl).
Qed.
Example C110_linear_example : exists r, reshape every_second (Some 1) None ColMajor 1 6 = Some r /\
  nth_error (x_entries (fun l => l) ColMajor every_second) 4 = Some (r_loc_linear r 4) /\ keeps_entries r.
Proof.
  eexists. split; [reflexivity|]. split.
  - apply (C110_linear every_second (Some 1) None ColMajor 1 6 _ nat (fun l => l) 4 eq_refl); [intros _; left; cbn; lia|lia|left; reflexivity].
  - apply (C110_direct every_second (Some 1) None ColMajor 1 6 _ 0 2 eq_refl); [intros _; left; cbn; lia|reflexivity|right; left; cbn; lia].
Qed.
Example C110_write_example : exists r, reshape m34 None None RowMajor 6 2 = Some r /\
  x_entries (store (fun l => l) (r_loc r 2 0) 100) RowMajor m34 = [0; 3; 6; 9; 100; 4; 7; 10; 2; 5; 8; 11].
Proof.
  eexists. split; [reflexivity|].
  rewrite (C110_write m34 None None RowMajor 6 2 _ nat (fun l => l) 2 0 100 eq_refl (proj2 m34_ok) (proj1 m34_ok)); [reflexivity|discriminate|lia|lia].
Qed.

(** 3 x 4 to 6 x 2 by rows and back. *)
Example C110_round_trip_example : exists r r', reshape m34 None None RowMajor 6 2 = Some r /\
  reshape (as_expr r false) None None RowMajor 3 4 = Some r' /\ r_loc r 1 0 = 6 /\ r_loc r' 2 1 = x_loc m34 2 1.
Proof.
  eexists. eexists. split; [reflexivity|]. split; [reflexivity|]. split; [reflexivity|].
  apply (C110_round_trip m34 None None RowMajor 6 2 _ false None None _ eq_refl eq_refl);
    [apply (C110_remapped m34 None None RowMajor 6 2 _ eq_refl eq_refl)
    |apply (C110_remapped (as_expr (mkReshaped m34 None None RowMajor 6 2) false) None None RowMajor 3 4 _ eq_refl eq_refl)|cbn; lia|cbn; lia].
Qed.

Print Assumptions C110_chain.
Print Assumptions C110_round_trip.
Print Assumptions C110_accepted.
Print Assumptions C110_remapped.
Print Assumptions C110_direct.
Print Assumptions C110_strided_refuted.
Print Assumptions C110_row_refuted.
Print Assumptions C110_linear.
Print Assumptions C110_write.
