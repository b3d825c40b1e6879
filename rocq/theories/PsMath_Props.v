(** C112: the linear algebra of the pseudo-arclength code (namespace psarc_math). *)
From Coq Require Import Arith Bool List Reals Lia Lra.
From Verif Require Import PsMath_Model PsMath_Spec PsMath_Proofs.
Import ListNotations.
Local Open Scope R_scope.

(** C2ESparse keeps the size and every element of any CasADi matrix. *)
Theorem C112_sparse : forall A, valid A ->
  exists M, c2esparse A = Some M /\ e_rows M = d_rows A /\ e_cols M = d_cols A /\ represents A (e_coeff M).
Proof.
  intros A V. destruct (c2esparse_value A V) as [M [E [Hr [Hc H]]]]. exists M. repeat split; try assumption.
  apply (represents_ext A (element A)); [intros; symmetry; apply H; assumption|apply element_represents; exact V].
Qed.

(** So does the conversion through densify and Map. *)
Theorem C112_dense : forall A, valid A ->
  represents A (e_coeff (map_matrix (nonzeros (densify A)) (d_rows A) (d_cols A))).
Proof.
  intros A V. apply (represents_ext A (element A)); [|apply element_represents; exact V].
  intros i j Hi Hj. cbn. symmetry. apply densify_data; assumption.
Qed.

(** The Eigen branches with exact solvers: for a nonsingular matrix the result is a column
    that solves the system for the first column of the right-hand side. *)
Theorem C112_first_column : forall cas dlu slu n t A b FA FB,
  exact_dense n dlu -> exact_sparse n slu -> t <> CASADI ->
  valid A -> valid b -> d_rows A = n -> d_cols A = n -> d_rows b = n -> (0 < d_cols b)%nat ->
  represents A FA -> represents b FB -> nonsingular n FA ->
  exists x X, solve cas dlu slu t A b = Returns x /\ valid x /\ d_rows x = n /\ d_cols x = 1%nat /\ represents x X /\
    solves n FA (fun j => X j O) (fun i => FB i O).
Proof.
  intros cas dlu slu n t A b FA FB HD HS Ht VA Vb Hr Hc Hb Hk RA RB N.
  assert (forall i, (i < n)%nat -> map_vector (nonzeros (densify b)) i = FB i O) as Eb.
  { intros i Hi. rewrite column_zero by lia. symmetry. apply represents_element; auto; lia. }
  assert (forall x, d_rows (column n x) = n /\ d_cols (column n x) = 1%nat) as Sz by (intro; split; reflexivity).
  destruct t; [congruence| |]; cbn [solve].
  - cbn [e_rows e_cols e_coeff map_matrix]. rewrite Hr, Hc, Hb, Nat.eqb_refl. cbn [negb].
    rewrite (proj2 (Nat.eqb_neq (d_cols b) 0)) by lia. cbn [andb].
    set (M := fun i j => nth (j * n + i) (nonzeros (densify A)) 0).
    assert (forall i j, (i < n)%nat -> (j < n)%nat -> M i j = FA i j) as EM.
    { intros i j Hi Hj. unfold M. pose proof (densify_data A i j) as D. rewrite Hr in D. rewrite D by lia.
      symmetry. apply represents_element; auto; lia. }
    assert (nonsingular n M) as NM by (apply (nonsingular_ext n FA M); [intros; symmetry; auto|exact N]).
    pose proof (HD M (map_vector (nonzeros (densify b))) NM) as S.
    eexists. eexists. split; [reflexivity|]. split; [apply column_valid|]. split; [apply Sz|]. split; [apply Sz|].
    split; [apply column_represents|]. cbv beta.
    eapply solves_ext; [exact EM|reflexivity|exact Eb|exact S].
  - destruct (c2esparse_value A VA) as [M [E [Mr [Mc EM]]]]. rewrite E, Mr, Mc, Hr, Hc, Hb, Nat.eqb_refl. cbn [negb].
    rewrite (proj2 (Nat.eqb_neq (d_cols b) 0)) by lia. cbn [andb].
    assert (forall i j, (i < n)%nat -> (j < n)%nat -> e_coeff M i j = FA i j) as EF.
    { intros i j Hi Hj. rewrite EM by lia. symmetry. apply represents_element; auto; lia. }
    assert (nonsingular n (e_coeff M)) as NM by (apply (nonsingular_ext n FA); [intros; symmetry; auto|exact N]).
    destruct (HS _ NM) as [f [Ef S]]. rewrite Ef.
    eexists. eexists. split; [reflexivity|]. split; [apply column_valid|]. split; [apply Sz|]. split; [apply Sz|].
    split; [apply column_represents|]. cbv beta.
    eapply solves_ext; [exact EF|reflexivity|exact Eb|exact (S _)].
Qed.

(** All three branches solve a nonsingular system with one right-hand side ... *)
Theorem C112_solve : forall cas dlu slu n t A b FA FB,
  exact_casadi n cas -> exact_dense n dlu -> exact_sparse n slu ->
  valid A -> valid b -> d_rows A = n -> d_cols A = n -> d_rows b = n -> d_cols b = 1%nat ->
  represents A FA -> represents b FB -> nonsingular n FA ->
  exists x X, solve cas dlu slu t A b = Returns x /\ valid x /\ d_rows x = n /\ d_cols x = 1%nat /\ represents x X /\
    solves n FA (fun j => X j O) (fun i => FB i O).
Proof.
  intros cas dlu slu n t A b FA FB HC HD HS VA Vb Hr Hc Hb Hk RA RB N.
  assert (t = CASADI \/ t <> CASADI) as [->|Ht] by (destruct t; [left; reflexivity|right; congruence|right; congruence]).
  - destruct (HC A b FA FB VA Vb Hr Hc Hb RA RB N) as [Vx [Xr [Xc [X [RX S]]]]].
    exists (cas A b), X. cbn [solve]. rewrite Hk in Xc. split; [reflexivity|]. repeat (split; [assumption|]). apply S. lia.
  - apply (C112_first_column cas dlu slu n t A b FA FB); try assumption. lia.
Qed.

(** ... so the type of the matrix does not matter for the result. *)
Theorem C112_agree : forall cas dlu slu n t t' A b FA FB,
  exact_casadi n cas -> exact_dense n dlu -> exact_sparse n slu ->
  valid A -> valid b -> d_rows A = n -> d_cols A = n -> d_rows b = n -> d_cols b = 1%nat ->
  represents A FA -> represents b FB -> nonsingular n FA ->
  exists x x' X, solve cas dlu slu t A b = Returns x /\ solve cas dlu slu t' A b = Returns x' /\
    d_rows x = d_rows x' /\ d_cols x = d_cols x' /\ represents x X /\ represents x' X.
Proof.
  intros cas dlu slu n t t' A b FA FB HC HD HS VA Vb Hr Hc Hb Hk RA RB N.
  destruct (C112_solve cas dlu slu n t A b FA FB) as [x [X [E [Vx [Xr [Xc [RX S]]]]]]]; try assumption.
  destruct (C112_solve cas dlu slu n t' A b FA FB) as [x' [X' [E' [Vx' [Xr' [Xc' [RX' S']]]]]]]; try assumption.
  exists x, x', X. split; [exact E|]. split; [exact E'|]. split; [congruence|]. split; [congruence|]. split; [exact RX|].
  apply (represents_ext x' X'); [|exact RX']. intros i j Hi Hj. assert (j = O) as -> by lia.
  apply (solution_unique n FA (fun k => X' k O) (fun k => X k O) (fun k => FB k O)); auto. lia.
Qed.

(** The sizes: the Eigen branches accept square matrices and right-hand sides with as many
    rows and at least one column, and never another argument. *)
Theorem C112_accepted : forall cas dlu slu t A b x, valid A -> t <> CASADI ->
  solve cas dlu slu t A b = Returns x ->
  d_rows A = d_cols A /\ d_rows b = d_rows A /\ (d_rows b = O \/ (0 < d_cols b)%nat) /\ d_rows x = d_cols A /\ d_cols x = 1%nat.
Proof.
  intros cas dlu slu t A b x V Ht E. destruct t; [congruence| |]; cbn [solve] in E.
  - cbn [e_rows e_cols e_coeff map_matrix] in E.
    destruct (Nat.eqb_spec (d_rows A) (d_cols A)) as [E1|]; [|discriminate]. cbn [negb] in E.
    destruct (Nat.eqb_spec (d_rows b) (d_rows A)) as [E2|]; [|discriminate]. cbn [negb] in E.
    destruct (Nat.eqb_spec (d_cols b) 0) as [E3|E3], (Nat.eqb_spec (d_rows b) 0) as [E4|E4]; cbn [andb negb] in E; try discriminate;
      injection E as <-; cbn; repeat split; auto; lia.
  - destruct (c2esparse_value A V) as [M [EM [Mr [Mc _]]]]. rewrite EM, Mr, Mc in E.
    destruct (Nat.eqb_spec (d_rows A) (d_cols A)) as [E1|]; [|discriminate]. cbn [negb] in E.
    destruct (Nat.eqb_spec (d_rows b) (d_rows A)) as [E2|]; [|discriminate]. cbn [negb] in E.
    destruct (Nat.eqb_spec (d_cols b) 0) as [E3|E3], (Nat.eqb_spec (d_rows b) 0) as [E4|E4]; cbn [andb negb] in E; try discriminate;
      destruct (slu _ _); try discriminate; injection E as <-; cbn; repeat split; auto; lia.
Qed.

(** The branch that reports a failure by an empty matrix is never taken: when the
    factorisation fails, the call of SparseLU::solve before it is already invalid. *)
Theorem C112_failure : forall cas dlu slu A b M, c2esparse A = Some M ->
  slu (e_rows M) (e_coeff M) = None -> solve cas dlu slu EIGEN_SPARSE A b = Undefined.
Proof.
  intros cas dlu slu A b M E H. cbn [solve]. rewrite E.
  destruct (negb (e_rows M =? e_cols M)%nat); [reflexivity|]. destruct (negb (d_rows b =? e_rows M)%nat); [reflexivity|].
  destruct ((d_cols b =? 0)%nat && negb (d_rows b =? 0)%nat); [reflexivity|]. rewrite H. reflexivity.
Qed.

Theorem C112_never_empty : forall cas dlu slu t A b, solve cas dlu slu t A b <> ReturnsEmpty.
Proof.
  intros cas dlu slu t A b. destruct t; cbn [solve]; [discriminate| |].
  - repeat match goal with |- context [if ?c then _ else _] => destruct c end; discriminate.
  - destruct (c2esparse A) as [M|]; [|discriminate].
    repeat match goal with |- context [if ?c then _ else _] => destruct c end; discriminate.
Qed.

(** 2 x 2 matrices for the examples; [[a, b], [c, d]] with the entry b stored or not. *)
Definition full (a b c d : R) : dm := mkDm 2 [[(0%nat, a); (1%nat, c)]; [(0%nat, b); (1%nat, d)]].
Definition lower (a c d : R) : dm := mkDm 2 [[(0%nat, a); (1%nat, c)]; [(1%nat, d)]].
Lemma lower_valid : forall a c d, valid (lower a c d).
Proof.
  intros a c d l [<-|[<-|[]]]; cbn; split; try (intros k H; lia); repeat constructor; cbn; lia.
Qed.
Lemma full_valid : forall a b c d, valid (full a b c d).
Proof. intros a b c d l [<-|[<-|[]]]; cbn; split; try (intros k H; lia); repeat constructor; cbn; lia. Qed.

(** Several right-hand sides: CasADi solves all of them, the Eigen branches (one of them the
    default) drop all but the first, whatever the solvers are. *)
Theorem C112_columns_refuted : exists A b,
  valid A /\ valid b /\ d_cols b = 2%nat /\ nonsingular 2 (element A) /\
  forall cas dlu slu, exact_casadi 2 cas ->
    (exists x, solve cas dlu slu CASADI A b = Returns x /\ d_cols x = 2%nat) /\
    (exists x, solve cas dlu slu EIGEN_DENSE A b = Returns x /\ d_cols x = 1%nat).
Proof.
  exists (lower 2 1 4), (full 1 2 3 4).
  assert (nonsingular 2 (element (lower 2 1 4))) as N.
  { intros y H. pose proof (H 0%nat) as H0. pose proof (H 1%nat) as H1. cbn in H0, H1.
    assert (y 0%nat = 0) as Y0 by (specialize (H0 ltac:(lia)); lra). assert (y 1%nat = 0) as Y1 by (specialize (H1 ltac:(lia)); lra).
    intros [|[|j]] Hj; [exact Y0|exact Y1|lia]. }
  split; [apply lower_valid|]. split; [apply full_valid|]. split; [reflexivity|]. split; [exact N|].
  intros cas dlu slu HC. split.
  - destruct (HC (lower 2 1 4) (full 1 2 3 4) (element (lower 2 1 4)) (element (full 1 2 3 4))) as [_ [_ [Xc _]]];
      try reflexivity; try apply lower_valid; try apply full_valid; try (apply element_represents; (apply lower_valid || apply full_valid)); try exact N.
    eexists. split; [reflexivity|exact Xc].
  - eexists. split; reflexivity.
Qed.

(** A singular matrix in the default branch: whatever LU factorisation is used, a vector is
    returned although the system has no solution. *)
Theorem C112_singular_refuted : exists A b, valid A /\ valid b /\
  forall cas dlu slu, exists x, solve cas dlu slu EIGEN_DENSE A b = Returns x /\
    forall X, represents x X -> ~ solves 2 (element A) (fun j => X j O) (fun i => element b i O).
Proof.
  exists (full 1 2 2 4), (mkDm 2 [[(0%nat, 1)]]). split; [apply full_valid|]. split.
  { intros l [<-|[]]; cbn; split; [repeat constructor; intros []|intros k H; lia]. }
  intros cas dlu slu. eexists. split; [reflexivity|]. intros X _ H.
  pose proof (H 0%nat ltac:(lia)) as H0. pose proof (H 1%nat ltac:(lia)) as H1. cbn in H0, H1. lra.
Qed.

(** determinant: the CasADi branch returns the determinant; the default branch returns zero for every matrix; the sparse branch returns
    the logarithm of the absolute value, which is below every positive determinant. *)
Theorem C112_det : forall cdet slu ld n A FA, exact_sparse n slu -> exact_log n ld ->
  valid A -> d_rows A = n -> d_cols A = n -> represents A FA -> nonsingular n FA -> det n FA <> 0 ->
  (cdet A = det n FA -> determinant cdet slu ld CASADI A = Some (det n FA)) /\
  determinant cdet slu ld EIGEN_DENSE A = Some 0 /\
  exists r, determinant cdet slu ld EIGEN_SPARSE A = Some r /\ r = ln (Rabs (det n FA)) /\ (0 < det n FA -> r < det n FA).
Proof.
  intros cdet slu ld n A FA HS HL V Hr Hc RA N D. split; [intros <-; reflexivity|]. split; [reflexivity|]. cbn [determinant].
  destruct (c2esparse_value A V) as [M [E [Mr [Mc EM]]]]. rewrite E, Mr, Mc, Hr, Hc, Nat.eqb_refl. cbn [negb].
  assert (forall i j, (i < n)%nat -> (j < n)%nat -> FA i j = e_coeff M i j) as EF.
  { intros i j Hi Hj. rewrite EM by lia. apply represents_element; auto; lia. }
  destruct (HS (e_coeff M)) as [f [Ef _]]; [apply (nonsingular_ext n FA); assumption|]. rewrite Ef.
  rewrite (det_ext n FA (e_coeff M) EF) in *. rewrite (HL _ D). eexists. split; [reflexivity|]. split; [reflexivity|].
  intro P. rewrite Rabs_pos_eq by lra. set (d := det n (e_coeff M)) in *.
  destruct (Rle_lt_dec (ln d) 0) as [L|L]; [lra|]. pose proof (exp_ineq1 (ln d) ltac:(lra)) as X. rewrite exp_ln in X by exact P. lra.
Qed.

Theorem C112_det_refuted : exists A, valid A /\ det 2 (element A) = 8 /\
  forall cdet slu ld, exact_sparse 2 slu -> exact_log 2 ld ->
    determinant cdet slu ld EIGEN_DENSE A <> Some (det 2 (element A)) /\
    determinant cdet slu ld EIGEN_SPARSE A <> Some (det 2 (element A)).
Proof.
  exists (lower 2 1 4). assert (det 2 (element (lower 2 1 4)) = 8) as D by (cbn; lra).
  split; [apply lower_valid|]. split; [exact D|]. intros cdet slu ld HS HL.
  destruct (C112_det cdet slu ld 2 (lower 2 1 4) (element (lower 2 1 4)) HS HL) as [_ [E1 [r [E2 [_ L]]]]];
    try reflexivity; try apply lower_valid; try (apply element_represents; apply lower_valid); try lra.
  { intros y H. pose proof (H 0%nat) as H0. pose proof (H 1%nat) as H1. cbn in H0, H1.
    assert (y 0%nat = 0) as Y0 by (specialize (H0 ltac:(lia)); lra). assert (y 1%nat = 0) as Y1 by (specialize (H1 ltac:(lia)); lra).
    intros [|[|j]] Hj; [exact Y0|exact Y1|lia]. }
  rewrite E1, E2, D in *. specialize (L ltac:(lra)). split; intro X; injection X as X; lra.
Qed.

(** ** Examples: exact solvers exist (Cramer's rule for two unknowns). *)
Definition cramer (n : nat) (A : nat -> nat -> R) (b : nat -> R) (j : nat) : R :=
  let D := det 2 A in
  match j with
  | O => (b O * A 1%nat 1%nat - A O 1%nat * b 1%nat) / D
  | _ => (A O O * b 1%nat - A 1%nat O * b O) / D
  end.
Lemma det2 : forall A, det 2 A = A O O * A 1%nat 1%nat - A O 1%nat * A 1%nat O.
Proof. intro A. unfold det, total, minor. cbn [pow Nat.ltb Nat.leb]. ring. Qed.
Lemma nonsingular2 : forall A, nonsingular 2 A -> det 2 A <> 0.
Proof.
  intros A N D. rewrite det2 in D.
  set (y1 := fun j => match j with O => - A O 1%nat | _ => A O O end).
  set (y2 := fun j => match j with O => A 1%nat 1%nat | _ => - A 1%nat O end).
  assert (solves 2 A y1 (fun _ => 0)) as S1 by (intros [|[|i]] Hi; [unfold y1; cbn; lra|unfold y1; cbn; lra|lia]).
  assert (solves 2 A y2 (fun _ => 0)) as S2 by (intros [|[|i]] Hi; [unfold y2; cbn; lra|unfold y2; cbn; lra|lia]).
  pose proof (N y1 S1 O ltac:(lia)) as Z1. pose proof (N y1 S1 1%nat ltac:(lia)) as Z2.
  pose proof (N y2 S2 O ltac:(lia)) as Z3. pose proof (N y2 S2 1%nat ltac:(lia)) as Z4. unfold y1, y2 in Z1, Z2, Z3, Z4. cbn in Z1, Z2, Z3, Z4.
  enough (1 = 0) by lra. apply (N (fun _ => 1)) with (j := O); [|lia]. intros [|[|i]] Hi; [cbn; lra|cbn; lra|lia].
Qed.
Lemma cramer_exact : exact_dense 2 cramer.
Proof.
  intros A b N i Hi. apply nonsingular2 in N. unfold cramer. rewrite det2 in *.
  destruct i as [|[|i]]; [| |lia]; cbn [total]; field; exact N.
Qed.
Definition cramer_sparse (n : nat) (A : nat -> nat -> R) : option ((nat -> R) -> nat -> R) := Some (cramer n A).
Lemma cramer_sparse_exact : exact_sparse 2 cramer_sparse.
Proof. intros A N. exists (cramer 2 A). split; [reflexivity|]. intro b. apply cramer_exact. exact N. Qed.
Definition cramer_casadi (A b : dm) : dm :=
  mkDm 2 (map (fun k => map (fun i => (i, cramer 2 (element A) (fun r => element b r k) i)) (seq 0 2)) (seq 0 (d_cols b))).
Lemma cramer_casadi_exact : exact_casadi 2 cramer_casadi.
Proof.
  intros A b FA FB VA Vb Hr Hc Hb RA RB N. split.
  { intros l I. apply in_map_iff in I. destruct I as [k [<- _]]. cbn. split; [repeat constructor; cbn; lia|intros m H; lia]. }
  split; [reflexivity|]. split; [unfold cramer_casadi, d_cols; cbn [d_columns]; rewrite map_length, seq_length; reflexivity|].
  exists (fun i k => cramer 2 (element A) (fun r => element b r k) i). split.
  - intros i j Hi Hj. unfold d_cols, cramer_casadi in Hj. cbn [d_columns] in Hj. rewrite map_length, seq_length in Hj. cbn in Hi.
    eexists. split; [unfold cramer_casadi; cbn [d_columns]; apply map_nth_error; rewrite nth_error_nth' with (d := O) by (rewrite seq_length; exact Hj); rewrite seq_nth by exact Hj; reflexivity|].
    left. apply in_map_iff. exists i. split; [reflexivity|]. apply in_seq. lia.
  - intros k Hk. assert (forall i j, (i < 2)%nat -> (j < 2)%nat -> element A i j = FA i j) as EA.
    { intros i j Hi Hj. symmetry. apply represents_element; auto; lia. }
    apply (solves_ext 2 (element A) FA (cramer 2 (element A) (fun r => element b r k)) _ (fun r => element b r k)); [exact EA|reflexivity| |].
    + intros i Hi. symmetry. apply represents_element; auto; lia.
    + apply cramer_exact. apply (nonsingular_ext 2 FA); [intros; symmetry; auto|exact N].
Qed.

(** A matrix with an element that is not stored and a sparse right-hand side: all branches
    return the same values, here (0, 5). *)
Example C112_example : forall t, exists x X,
  solve cramer_casadi cramer cramer_sparse t (lower 2 1 4) (mkDm 2 [[(1%nat, 20)]]) = Returns x /\
  d_rows x = 2%nat /\ d_cols x = 1%nat /\ represents x X /\ X 0%nat 0%nat = 0 /\ X 1%nat 0%nat = 5.
Proof.
  assert (valid (mkDm 2 [[(1%nat, 20)]])) as Vb.
  { intros l [<-|[]]; cbn; split; [repeat constructor; intros []|intros k H; lia]. }
  intro t. destruct (C112_solve cramer_casadi cramer cramer_sparse 2 t (lower 2 1 4) (mkDm 2 [[(1%nat, 20)]])
    (element (lower 2 1 4)) (element (mkDm 2 [[(1%nat, 20)]]))) as [x [X [E [V [Xr [Xc [RX S]]]]]]];
    try reflexivity; try assumption; try apply lower_valid; try (apply element_represents; (assumption || apply lower_valid));
    try apply cramer_casadi_exact; try apply cramer_exact; try apply cramer_sparse_exact.
  { intros y H. pose proof (H 0%nat) as H0. pose proof (H 1%nat) as H1. cbn in H0, H1.
    assert (y 0%nat = 0) as Y0 by (specialize (H0 ltac:(lia)); lra). assert (y 1%nat = 0) as Y1 by (specialize (H1 ltac:(lia)); lra).
    intros [|[|j]] Hj; [exact Y0|exact Y1|lia]. }
  exists x, X. repeat (split; [assumption|]). pose proof (S 0%nat ltac:(lia)) as H0. pose proof (S 1%nat ltac:(lia)) as H1. cbn in H0, H1. lra.
Qed.

Example C112_det_example : exact_log 2 (fun n A => ln (Rabs (det n A))) /\
  determinant (fun _ => 0) cramer_sparse (fun n A => ln (Rabs (det n A))) EIGEN_SPARSE (lower 2 1 4) = Some (ln 8).
Proof.
  split; [intros A _; reflexivity|]. cbn -[det ln]. f_equal. f_equal.
  rewrite (det_ext 2 _ (element (lower 2 1 4))).
  - rewrite det2. cbn. rewrite Rabs_pos_eq; lra.
  - intros [|[|i]] [|[|j]] Hi Hj; try lia; cbn; lra.
Qed.

(** A matrix that is not square is rejected. *)
Example C112_accepted_example :
  solve cramer_casadi cramer cramer_sparse EIGEN_DENSE (mkDm 2 [[(0%nat, 1)]]) (mkDm 2 [[(1%nat, 20)]]) = Undefined.
Proof. reflexivity. Qed.

(** A failing factorisation. *)
Example C112_failure_example :
  solve cramer_casadi cramer (fun _ _ => None) EIGEN_SPARSE (full 1 2 2 4) (mkDm 2 [[(1%nat, 20)]]) = Undefined.
Proof. reflexivity. Qed.

Print Assumptions C112_sparse.
Print Assumptions C112_dense.
Print Assumptions C112_first_column.
Print Assumptions C112_solve.
Print Assumptions C112_agree.
Print Assumptions C112_accepted.
Print Assumptions C112_failure.
Print Assumptions C112_never_empty.
Print Assumptions C112_columns_refuted.
Print Assumptions C112_singular_refuted.
Print Assumptions C112_det.
Print Assumptions C112_det_refuted.
