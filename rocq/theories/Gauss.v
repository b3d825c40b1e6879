(** Gaussian elimination: an exact linear solver, used to show that the premise "the linear solver
    is exact" can be met and to run the models.  It does not model code of the repository. *)
Require Import ZArith List Bool Lia Reals Lra Psatz.
From Verif Require Import Scal RSum Qp_Spec Admm_Proofs.

Section Gauss.
Context {T : Type} {ST : Scalar T}.
Local Open Scope S_scope.

Definition szerob (a : T) : bool := (a <=? 0) && (0 <=? a).

(** first row below [k] (searching downwards from k-1) with a nonzero entry in column 0 *)
Fixpoint pivot (K : mat T) (k : nat) : option nat :=
  match k with
  | O => None
  | S k' => if szerob (K k' 0%nat) then pivot K k' else Some k'
  end.

Definition swap0 {A : Type} (p : nat) (f : nat -> A) : nat -> A :=
  fun i => if Nat.eqb i 0 then f p else if Nat.eqb i p then f 0%nat else f i.

Fixpoint gauss (n : nat) (K : mat T) (r : vec T) {struct n} : vec T :=
  match n with
  | O => fun _ => 0
  | S n' =>
      match pivot K n with
      | None => fun _ => 0
      | Some p =>
          let K' := tab2 n n (swap0 p K) in
          let r' := tab n (swap0 p r) in
          let K1 := tab2 n' n' (fun i j => K' (S i) (S j) - K' (S i) 0%nat / K' 0%nat 0%nat * K' 0%nat (S j)) in
          let r1 := tab n' (fun i => r' (S i) - K' (S i) 0%nat / K' 0%nat 0%nat * r' 0%nat) in
          let x1 := gauss n' K1 r1 in
          tab n (fun j => match j with
                          | O => (r' 0%nat - ssum n' (fun j => K' 0%nat (S j) * x1 j)) / K' 0%nat 0%nat
                          | S j' => x1 j'
                          end)
      end
  end.

(** the solver used for the models: reads the lower triangle or the whole matrix *)
Definition gauss_solver (full : bool) (n : nat) (K : mat T) (r : vec T) : vec T := gauss n (as_read full K) r.

Lemma tab2_ext : forall n m (f g : mat T), (forall i j, (i < n)%nat -> (j < m)%nat -> f i j = g i j) -> tab2 n m f = tab2 n m g.
Proof.
  intros n m f g H. unfold tab2.
  replace (map (fun i => map (f i) (seq 0 m)) (seq 0 n)) with (map (fun i => map (g i) (seq 0 m)) (seq 0 n)); auto.
  apply map_ext_in. intros i Hi. apply in_seq in Hi. apply map_ext_in. intros j Hj. apply in_seq in Hj. symmetry. apply H; lia.
Qed.

Lemma pivot_lt : forall K k p, pivot K k = Some p -> (p < k)%nat.
Proof. induction k; simpl; intros; [discriminate|]. destruct (szerob _); [apply IHk in H; lia|injection H; lia]. Qed.

Lemma pivot_ext : forall (K K' : mat T) k, (forall i, (i < k)%nat -> K i 0%nat = K' i 0%nat) -> pivot K k = pivot K' k.
Proof. induction k; simpl; intros; auto. rewrite H by lia. rewrite IHk by auto. reflexivity. Qed.

Lemma gauss_ext : forall n K K' r, (forall i j, (i < n)%nat -> (j < n)%nat -> K i j = K' i j) -> gauss n K r = gauss n K' r.
Proof.
  destruct n; intros K K' r H; auto. unfold gauss; fold gauss.
  rewrite (pivot_ext K K') by (intros; apply H; lia). destruct (pivot K' (S n)) as [p|] eqn:Ep; auto.
  apply pivot_lt in Ep.
  rewrite (tab2_ext (S n) (S n) (swap0 p K) (swap0 p K')); auto.
  intros. unfold swap0. destruct (Nat.eqb_spec i 0); [apply H; lia|]. destruct (Nat.eqb_spec i p); apply H; lia.
Qed.

Lemma gauss_reads_only : forall full, reads_only (gauss_solver full) full.
Proof. intros full n K K' r H i Hi. unfold gauss_solver. rewrite (gauss_ext n _ (as_read full K')); auto. Qed.
End Gauss.

Local Open Scope R_scope.

Lemma szerob_R : forall a : R, szerob a = true <-> a = 0.
Proof.
  intros. unfold szerob. rewrite andb_true_iff. rsimp. rewrite !Rleb_true. lra.
Qed.

Lemma pivot_some : forall (K : mat R) k p, pivot K k = Some p -> K p 0%nat <> 0.
Proof.
  induction k; simpl; intros p H; [discriminate|]. destruct (szerob (K k 0%nat)) eqn:E; auto.
  injection H; intros; subst. intro HH. apply szerob_R in HH. congruence.
Qed.
Lemma pivot_none : forall (K : mat R) k, pivot K k = None -> forall i, (i < k)%nat -> K i 0%nat = 0.
Proof.
  induction k; simpl; intros H i Hi; [lia|]. destruct (szerob (K k 0%nat)) eqn:E; [|discriminate].
  destruct (Nat.eq_dec i k) as [->|]; [apply szerob_R; auto|apply IHk; auto; lia].
Qed.

Lemma gauss_exact : forall n (K : mat R) r, nonsingular n K -> forall i, (i < n)%nat -> rmv n K (gauss n K r) i = r i.
Proof.
  induction n as [|n IH]; intros K r HN i Hi; [lia|].
  unfold gauss; fold (gauss (T := R)). destruct (pivot K (S n)) as [p|] eqn:Ep.
  2:{ exfalso. set (e := fun j : nat => match j with O => 1 | S _ => 0 end).
      assert (e 0%nat = 0); [|simpl in H; lra]. apply HN; [|lia]. intros k Hk. rewrite rmv_def, rsum_first.
      rewrite (rsum_zero n) by (intros; simpl; ring). simpl. rewrite (pivot_none _ _ Ep k Hk). ring. }
  assert (Hp := pivot_lt _ _ _ Ep). assert (Hp0 := pivot_some _ _ _ Ep). cbv zeta.
  set (K' := swap0 p K). set (r' := swap0 p r).
  (* a solution of the swapped system solves the system *)
  assert (Hsw : forall x (rr : vec R), (forall i, (i < S n)%nat -> rmv (S n) K' x i = swap0 p rr i) ->
                forall i, (i < S n)%nat -> rmv (S n) K x i = rr i).
  { intros x rr H k Hk. destruct (Nat.eq_dec k p) as [->|Hkp].
    - specialize (H 0%nat ltac:(lia)). exact H.
    - destruct (Nat.eq_dec k 0) as [->|Hk0].
      + specialize (H p Hp). unfold mv, K', swap0 in *. destruct (Nat.eqb_spec p 0); [lia|]. rewrite Nat.eqb_refl in H. exact H.
      + specialize (H k Hk). unfold mv, K', swap0 in *.
        destruct (Nat.eqb_spec k 0); [lia|]. destruct (Nat.eqb_spec k p); [lia|]. exact H. }
  assert (H00 : K' 0%nat 0%nat <> 0) by exact Hp0.
  set (Kt := tab2 (S n) (S n) K'). set (rt := tab (S n) r').
  assert (EK : forall i j, (i < S n)%nat -> (j < S n)%nat -> Kt i j = K' i j) by (intros; apply tab2_spec; auto).
  assert (Er : forall i, (i < S n)%nat -> rt i = r' i) by (intros; apply tab_spec; auto).
  set (K1 := tab2 n n (fun i j => Kt (S i) (S j) - Kt (S i) 0%nat / Kt 0%nat 0%nat * Kt 0%nat (S j))).
  set (r1 := tab n (fun i => rt (S i) - Kt (S i) 0%nat / Kt 0%nat 0%nat * rt 0%nat)).
  assert (EK1 : forall i j, (i < n)%nat -> (j < n)%nat -> K1 i j = K' (S i) (S j) - K' (S i) 0%nat / K' 0%nat 0%nat * K' 0%nat (S j)).
  { intros. unfold K1. rewrite tab2_spec by auto. rewrite !EK by lia. reflexivity. }
  assert (Er1 : forall i, (i < n)%nat -> r1 i = r' (S i) - K' (S i) 0%nat / K' 0%nat 0%nat * r' 0%nat).
  { intros. unfold r1. rewrite tab_spec by auto. rewrite !EK, !Er by lia. reflexivity. }
  (* reduced rows *)
  assert (Hred : forall v i, (i < n)%nat -> rmv n K1 v i =
     rsum n (fun j => K' (S i) (S j) * v j) - K' (S i) 0%nat / K' 0%nat 0%nat * rsum n (fun j => K' 0%nat (S j) * v j)).
  { intros v k Hk. rewrite rmv_def, <- rsum_scal, <- rsum_minus. apply rsum_ext. intros j Hj. rewrite EK1 by auto. ring. }
  assert (HN1 : nonsingular n K1).
  { intros v Hv k Hk.
    set (w := fun j : nat => match j with O => - rsum n (fun j => K' 0%nat (S j) * v j) / K' 0%nat 0%nat | S j' => v j' end).
    assert (Hw : forall k, (k < S n)%nat -> w k = 0).
    { apply HN. apply (Hsw w (fun _ => 0)). intros l Hl. rewrite rmv_def, rsum_first.
      unfold swap0. destruct (Nat.eqb l 0), (Nat.eqb l p); cbn [w];
      (destruct l as [|l];
       [field; auto
       |assert (E := Hv l ltac:(lia)); rewrite Hred in E by lia; unfold Rdiv in *;
        transitivity (rsum n (fun j => K' (S l) (S j) * v j) - K' (S l) 0%nat * / K' 0%nat 0%nat * rsum n (fun j => K' 0%nat (S j) * v j)); [ring|exact E]]). }
    exact (Hw (S k) ltac:(lia)). }
  assert (HX := IH K1 r1 HN1).
  set (x1 := gauss n K1 r1) in *.
  match goal with |- rmv _ _ ?t _ = _ => set (X := t) end.
  assert (X0 : X 0%nat = (r' 0%nat - rsum n (fun j => K' 0%nat (S j) * x1 j)) / K' 0%nat 0%nat).
  { unfold X. rewrite tab_spec by lia. rewrite EK, Er by lia. rsimp. f_equal. f_equal. apply rsum_ext.
    intros. rewrite EK by lia. reflexivity. }
  assert (X1 : forall j, (j < n)%nat -> X (S j) = x1 j).
  { intros. unfold X. rewrite tab_spec by lia. reflexivity. }
  clearbody X. revert i Hi. apply Hsw. intros l Hl. fold r'.
  rewrite rmv_def, rsum_first, X0.
  rewrite (rsum_ext n (fun j => K' l (S j) * X (S j)) (fun j => K' l (S j) * x1 j)) by (intros; rewrite X1 by auto; reflexivity).
  destruct l as [|l].
  - rsimp. field. auto.
  - specialize (HX l ltac:(lia)). rewrite Hred, Er1 in HX by lia. rsimp. unfold Rdiv in *.
    transitivity (K' (S l) 0%nat * / K' 0%nat 0%nat * r' 0%nat +
      (rsum n (fun j => K' (S l) (S j) * x1 j) - K' (S l) 0%nat * / K' 0%nat 0%nat * rsum n (fun j => K' 0%nat (S j) * x1 j))); [ring|].
    rewrite HX. ring.
Qed.

Lemma gauss_solver_exact : forall full, exact_solver full (@gauss_solver R R_scalar full).
Proof. intros full n K r HN i Hi. apply gauss_exact; auto. Qed.
