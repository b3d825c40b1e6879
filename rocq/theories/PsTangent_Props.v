(** C112 and C88 together: the continuation with psarc_math::solve as linear solver. *)
From Coq Require Import Arith Bool List Reals Lia Lra.
From Verif Require Import Scal RSum Pso_Model Pso_Spec Psa_Model Psa_Spec Psa_Props PsMath_Model PsMath_Spec PsMath_Proofs PsMath_Props PsTangent_Model.
Import ListNotations.
Local Open Scope R_scope.

(** CasADi returns the values of the functions, in some pattern. *)
Definition returns_matrix (J : nat -> mat R -> dm) : Prop :=
  forall n A, valid (J n A) /\ d_rows (J n A) = n /\ d_cols (J n A) = n /\ represents (J n A) A.
Definition returns_column (B : nat -> vec R -> dm) : Prop :=
  forall n b, valid (B n b) /\ d_rows (B n b) = n /\ d_cols (B n b) = 1%nat /\ represents (B n b) (fun i _ => b i).
(** SparseLU never succeeds with a wrong solution. *)
Definition sound_sparse (n : nat) (lu : nat -> (nat -> nat -> R) -> option ((nat -> R) -> nat -> R)) : Prop :=
  forall A f b, lu n A = Some f -> solves n A (f b) b.

(** SparseLU succeeds and is exact for a given matrix. *)
Definition exact_for (n : nat) (lu : nat -> (nat -> nat -> R) -> option ((nat -> R) -> nat -> R)) (A : nat -> nat -> R) : Prop :=
  forall M, (forall i j, (i < n)%nat -> (j < n)%nat -> M i j = A i j) -> exists f, lu n M = Some f /\ forall b, solves n M (f b) b.
Definition identity (i j : nat) : R := if (i =? j)%nat then 1 else 0.

Lemma rsum_total : forall n f, rsum n f = total n f.
Proof. induction n as [|n IH]; intro f; [reflexivity|]. cbn [total]. rewrite <- IH. reflexivity. Qed.

Lemma stored_column : forall n x i, (i < n)%nat -> stored (nth 0 (d_columns (column n x)) []) i = x i.
Proof.
  intros n x i Hi. symmetry. change (x i) with ((fun r (_ : nat) => x r) i O).
  apply (represents_element (column n x)); [apply column_valid|apply column_represents|exact Hi|cbn; lia].
Qed.

Lemma tangent_lin_value : forall cas dlu slu J B n A b, returns_matrix J -> returns_column B ->
  exists M, (forall i j, (i < n)%nat -> (j < n)%nat -> M i j = A i j) /\
  exists v, (forall i, (i < n)%nat -> v i = b i) /\
  match slu n M with
  | None => tangent_lin cas dlu slu J B n A b = None
  | Some f => exists r, tangent_lin cas dlu slu J B n A b = Some r /\ forall i, (i < n)%nat -> r i = f v i
  end.
Proof.
  intros cas dlu slu J B n A b HJ HB. destruct (HJ n A) as [VJ [Jr [Jc RJ]]]. destruct (HB n b) as [VB [Br [Bc RB]]].
  destruct (c2esparse_value _ VJ) as [M [E [Mr [Mc EM]]]]. exists (e_coeff M). split.
  { intros i j Hi Hj. rewrite EM by lia. symmetry. apply represents_element; auto; lia. }
  exists (map_vector (nonzeros (densify (B n b)))). split.
  { intros i Hi. rewrite column_zero by lia. symmetry. apply (represents_element _ _ VB RB); lia. }
  unfold tangent_lin. cbn [solve]. rewrite E, Mr, Mc, Jr, Jc, Br, Bc, Nat.eqb_refl. cbn [negb Nat.eqb andb].
  destruct (slu n (e_coeff M)) as [f|]; [|reflexivity].
  eexists. split; [reflexivity|]. intros i Hi. apply stored_column. exact Hi.
Qed.

(** The tangent computed through the sparse conversion solves the tangent system, for every
    pattern of the Jacobian ... *)
Theorem C112_tangent : forall cas dlu slu J B s, returns_matrix J -> returns_column B -> sound_sparse (e_n s) slu ->
  sound_lin (tangent_lin cas dlu slu J B) s.
Proof.
  intros cas dlu slu J B s HJ HB HS z r E.
  destruct (tangent_lin_value cas dlu slu J B (e_n s) (jac_x s z) (fun i => - jac_lam s z i) HJ HB) as [M [EM [v [Ev H]]]].
  destruct (slu (e_n s) M) as [f|] eqn:Ef; [|rewrite E in H; discriminate]. destruct H as [r' [E' Er]]. rewrite E in E'. injection E' as <-.
  pose proof (HS M f v Ef) as S. intros i Hi. rewrite rsum_total.
  apply (solves_ext (e_n s) M (jac_x s z) (f v) r v (fun i => - jac_lam s z i)); auto. intros k Hk. symmetry. auto.
Qed.

(** ... and it is always found if the factorisations of the Jacobians succeed. *)
Theorem C112_tangent_exact : forall cas dlu slu J B s, returns_matrix J -> returns_column B ->
  (forall z, exact_for (e_n s) slu (jac_x s z)) -> exact_lin (tangent_lin cas dlu slu J B) s.
Proof.
  intros cas dlu slu J B s HJ HB HS.
  assert (forall z, exists r, tangent_lin cas dlu slu J B (e_n s) (jac_x s z) (fun i => - jac_lam s z i) = Some r /\ tangent_solution s z r) as X.
  { intro z. destruct (tangent_lin_value cas dlu slu J B (e_n s) (jac_x s z) (fun i => - jac_lam s z i) HJ HB) as [M [EM [v [Ev H]]]].
    destruct (HS z M EM) as [f [Ef S]].
    rewrite Ef in H. destruct H as [r [E Er]]. exists r. split; [exact E|]. intros i Hi. rewrite rsum_total.
    apply (solves_ext (e_n s) M (jac_x s z) (f v) r v (fun i => - jac_lam s z i)); auto. intros k Hk. symmetry. auto. }
  split.
  - intros z r E. destruct (X z) as [r' [E' T]]. rewrite E in E'. injection E' as <-. exact T.
  - intros z r _. destruct (X z) as [r' [E' _]]. rewrite E'. discriminate.
Qed.

(** In particular if they are nonsingular. *)
Theorem C112_tangent_nonsingular : forall cas dlu slu J B s, returns_matrix J -> returns_column B -> exact_sparse (e_n s) slu ->
  (forall z, nonsingular (e_n s) (jac_x s z)) -> exact_lin (tangent_lin cas dlu slu J B) s.
Proof.
  intros cas dlu slu J B s HJ HB HS N. apply C112_tangent_exact; try assumption. intros z M EM. apply HS.
  apply (nonsingular_ext (e_n s) (jac_x s z)); [intros; symmetry; auto|apply N].
Qed.

(** The whole continuation for translations: with an exact corrector and a SparseLU
    that is exact for the identity it ends at the root after the number of steps of C88_converges, whatever the patterns of
    the matrices are. *)
Theorem C112_continuation : forall ipopt cas dlu slu J B s a fuel, exact_corrector ipopt s ->
  returns_matrix J -> returns_column B -> exact_for (e_n s) slu identity -> (501 * 13 <= e_n s + 1)%nat ->
  (forall z i, (i < e_n s)%nat -> e_F s z i = nth i z 0 - a i) ->
  (forall z i j, (i < e_n s)%nat -> (j < e_n s)%nat -> e_J s z i j = if (i =? j)%nat then 1 else 0) ->
  in_bounds s (e_x0 s) -> in_bounds s a -> (forall i, (i < e_n s)%nat -> Rabs (e_x0 s i - a i) <= 20) ->
  let d2 := rsum (e_n s) (fun i => (e_x0 s i - a i) ^ 2) in d2 <= 1000000 -> sqrt (1 + d2) <= INR fuel ->
  exists p, psarc ipopt (tangent_lin cas dlu slu J B) s fuel = Ended p /\ s_z p (e_n s) = 0 /\ forall i, (i < e_n s)%nat -> s_z p i = a i.
Proof.
  intros ipopt cas dlu slu J B s a fuel Hc HJ HB HS Hn HF HJac Hx0 Ha H20 d2 Hd Hf.
  assert (exact_lin (tangent_lin cas dlu slu J B) s) as Hl.
  { apply C112_tangent_exact; try assumption. intros z M EM. apply HS. intros i j Hi Hj. rewrite EM by assumption. unfold jac_x, identity.
    rewrite HJac by assumption. destruct (i =? j)%nat; ring. }
  destruct (C88_converges ipopt (tangent_lin cas dlu slu J B) s a fuel Hc Hl Hn HF HJac Hx0 Ha H20 Hd) as [H _]. exact (H Hf).
Qed.

(** ** Examples *)

(** One pattern: everything is stored. *)
Definition dense_dm (n : nat) (A : mat R) : dm := mkDm n (map (fun j => map (fun i => (i, A i j)) (seq 0 n)) (seq 0 n)).
Lemma dense_returns : returns_matrix dense_dm.
Proof.
  intros n A. split.
  { intros l I. apply in_map_iff in I. destruct I as [j [<- _]]. rewrite map_map. cbn [fst]. rewrite map_id. split; [apply seq_NoDup|].
    intros k H. apply in_seq in H. cbn. lia. }
  split; [reflexivity|]. assert (d_cols (dense_dm n A) = n) as C by (unfold d_cols, dense_dm; cbn [d_columns]; rewrite map_length, seq_length; reflexivity).
  split; [exact C|]. intros i j Hi Hj. rewrite C in Hj. cbn in Hi. eexists. split.
  - unfold dense_dm. cbn [d_columns]. apply map_nth_error. rewrite nth_error_nth' with (d := O) by (rewrite seq_length; exact Hj). rewrite seq_nth by exact Hj. reflexivity.
  - left. apply in_map_iff. exists i. split; [reflexivity|]. apply in_seq. lia.
Qed.
Lemma column_returns : returns_column column.
Proof. intros n b. split; [apply column_valid|]. split; [reflexivity|]. split; [reflexivity|]. apply column_represents. Qed.
(** A solver for identity matrices. *)
Definition id_lu (n : nat) (A : nat -> nat -> R) : option ((nat -> R) -> nat -> R) :=
  if forallb (fun i => forallb (fun j => if Req_EM_T (A i j) (if (i =? j)%nat then 1 else 0) then true else false) (seq 0 n)) (seq 0 n)
  then Some (fun b => b) else None.
Lemma id_lu_sound : forall n, sound_sparse n id_lu.
Proof.
  intros n A f b E. unfold id_lu in E. destruct (forallb _ _) eqn:F; [|discriminate]. injection E as <-. intros i Hi.
  rewrite forallb_forall in F.
  assert (forall j, (j < n)%nat -> A i j = if (i =? j)%nat then 1 else 0) as HA.
  { intros j Hj. specialize (F i (proj2 (in_seq n 0 i) ltac:(lia))). rewrite forallb_forall in F.
    specialize (F j (proj2 (in_seq n 0 j) ltac:(lia))). destruct (Req_EM_T (A i j) (if (i =? j)%nat then 1 else 0)); [assumption|discriminate]. }
  clear F. rewrite (total_ext n _ (fun k => if (i =? k)%nat then b k else 0)) by (intros k Hk; rewrite HA by exact Hk; destruct (i =? k)%nat; ring).
  clear HA. induction n as [|n IH]; [lia|]. cbn [total]. destruct (Nat.eqb_spec i n) as [->|D]; [|rewrite IH by lia; lra].
  enough (forall m f, (forall i, (i < m)%nat -> f i = 0) -> total m f = 0) as Z.
  { rewrite Z; [lra|]. intros k Hk. destruct (Nat.eqb_spec n k); [lia|reflexivity]. }
  clear. induction m as [|m IH]; intros f Hf; [reflexivity|]. cbn [total]. rewrite IH, (Hf m) by (intros; auto with arith). lra.
Qed.
Lemma id_lu_exact : forall n, exact_for n id_lu identity.
Proof.
  intros n M EM. assert (id_lu n M = Some (fun b => b)) as E.
  { unfold id_lu. rewrite (proj2 (forallb_forall _ _)); [reflexivity|]. intros i Hi. apply forallb_forall. intros j Hj.
    apply in_seq in Hi. apply in_seq in Hj. destruct (Req_EM_T (M i j) (if (i =? j)%nat then 1 else 0)) as [_|D]; [reflexivity|].
    exfalso. apply D. apply EM; lia. }
  exists (fun b => b). split; [exact E|]. intro b. exact (id_lu_sound n M _ b E).
Qed.
Example C112_tangent_example : sound_lin (tangent_lin (fun _ b => b) (fun _ _ b => b) id_lu dense_dm column) sys.
Proof. apply C112_tangent; [exact dense_returns|exact column_returns|apply id_lu_sound]. Qed.

(** 6513 unknowns, three steps; the start differs from the root. *)
Example C112_continuation_example : exists p,
  psarc projector (tangent_lin (fun _ b => b) (fun _ _ b => b) id_lu dense_dm column) sys 3 = Ended p /\ s_z p 1%nat = 3.
Proof.
  assert (Sum : rsum (e_n sys) (fun i => (e_x0 sys i - goal i) ^ 2) = 4).
  { change (e_n sys) with rows. rewrite (rsum_ext rows _ (fun i => if (i =? 1)%nat then 4 else 0)).
    - rewrite (rsum_delta rows 1 (fun _ => 4)); auto. pose proof rows_big. lia.
    - intros i _. cbn. unfold goal. destruct (i =? 1)%nat; ring. }
  destruct (C112_continuation projector (fun _ b => b) (fun _ _ b => b) id_lu dense_dm column sys goal 3) as (p & E & _ & Z).
  - apply sys_exact.
  - exact dense_returns.
  - exact column_returns.
  - apply id_lu_exact.
  - change (e_n sys) with rows. rewrite rows_eq. lia.
  - apply shift_F.
  - apply shift_J.
  - intros k _ _. cbn. lra.
  - apply (goal_bounds 0). intros. ring.
  - intros i _. cbn. unfold goal. destruct (i =? 1)%nat; [rewrite Rabs_left|rewrite Rabs_pos_eq]; lra.
  - rewrite Sum. lra.
  - rewrite Sum. replace (INR 3) with 3 by (cbn; ring). replace 3 with (sqrt (3 * 3)) by (apply sqrt_square; lra). apply sqrt_le_1_alt. lra.
  - exists p. split; [exact E|]. rewrite Z by (pose proof rows_big; change (e_n sys) with rows; lia). reflexivity.
Qed.

(** Two unknowns and Cramer's rule. *)
Example C112_tangent_nonsingular_example :
  exact_lin (tangent_lin cramer_casadi cramer cramer_sparse dense_dm column)
    (mkEqs 2 (fun z i => nth i z 0 - INR i) (fun _ => identity) (fun _ => 1)).
Proof.
  apply C112_tangent_nonsingular; [exact dense_returns|exact column_returns|apply cramer_sparse_exact|].
  intros z y H. pose proof (H 0%nat) as H0. pose proof (H 1%nat) as H1. cbn in H0, H1. specialize (H0 ltac:(lia)). specialize (H1 ltac:(lia)).
  unfold jac_x, identity in H0, H1. cbn in H0, H1. intros [|[|j]] Hj; [lra|lra|cbn in Hj; lia].
Qed.

Print Assumptions C112_tangent.
Print Assumptions C112_tangent_exact.
Print Assumptions C112_tangent_nonsingular.
Print Assumptions C112_continuation.
