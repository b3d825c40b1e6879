(** Lemmas for property C112. *)
From Coq Require Import Arith Bool List Reals Lia Lra.
From Verif Require Import PsMath_Model PsMath_Spec.
Import ListNotations.
Local Open Scope R_scope.

Lemma total_ext : forall n f g, (forall i, (i < n)%nat -> f i = g i) -> total n f = total n g.
Proof. induction n as [|n IH]; intros f g H; [reflexivity|]. cbn. rewrite (IH f g), (H n) by (auto with arith). reflexivity. Qed.

Lemma total_sub : forall n f g, total n (fun i => f i - g i) = total n f - total n g.
Proof. induction n as [|n IH]; intros f g; cbn; [lra|]. rewrite IH. lra. Qed.

Lemma solves_ext : forall n A A' x x' b b',
  (forall i j, (i < n)%nat -> (j < n)%nat -> A i j = A' i j) -> (forall i, (i < n)%nat -> x i = x' i) ->
  (forall i, (i < n)%nat -> b i = b' i) -> solves n A x b -> solves n A' x' b'.
Proof.
  intros n A A' x x' b b' HA Hx Hb H i Hi. rewrite <- (Hb i Hi), <- (H i Hi). apply total_ext. intros j Hj.
  rewrite HA, Hx by assumption. reflexivity.
Qed.

Lemma nonsingular_ext : forall n A A', (forall i j, (i < n)%nat -> (j < n)%nat -> A i j = A' i j) ->
  nonsingular n A -> nonsingular n A'.
Proof.
  intros n A A' HA H y Hy. apply H. apply (solves_ext n A' A y y (fun _ => 0) (fun _ => 0)); auto.
  intros i j Hi Hj. symmetry. auto.
Qed.

Lemma solution_unique : forall n A x y b, nonsingular n A -> solves n A x b -> solves n A y b ->
  forall j, (j < n)%nat -> x j = y j.
Proof.
  intros n A x y b N Hx Hy j Hj. enough (x j - y j = 0) by lra.
  apply (N (fun k => x k - y k)); [|assumption]. intros i Hi.
  rewrite (total_ext n _ (fun k => A i k * x k - A i k * y k)) by (intros; ring).
  rewrite total_sub, (Hx i Hi), (Hy i Hi). lra.
Qed.

Lemma det_ext : forall n A A', (forall i j, (i < n)%nat -> (j < n)%nat -> A i j = A' i j) -> det n A = det n A'.
Proof.
  induction n as [|n IH]; intros A A' H; [reflexivity|]. cbn [det]. apply total_ext. intros k Hk.
  rewrite (H k O) by lia. rewrite (IH (minor A k) (minor A' k)); [reflexivity|].
  intros i j Hi Hj. unfold minor. apply H; [destruct (i <? k)%nat|]; lia.
Qed.

(** ** Elements *)
Lemma stored_in : forall c i v, NoDup (map fst c) -> In (i, v) c -> stored c i = v.
Proof.
  induction c as [|[k w] c IH]; intros i v N H; [destruct H|]. cbn in N. apply NoDup_cons_iff in N. destruct N as [Nk N].
  cbn. destruct H as [H|H].
  - injection H as -> ->. rewrite Nat.eqb_refl. reflexivity.
  - destruct (Nat.eqb_spec k i) as [->|_]; [|apply IH; assumption].
    exfalso. apply Nk. apply (in_map fst) in H. exact H.
Qed.

Lemma stored_out : forall c i, ~ In i (map fst c) -> stored c i = 0.
Proof.
  induction c as [|[k w] c IH]; intros i H; [reflexivity|]. cbn in H |- *. destruct (Nat.eqb_spec k i) as [->|_]; [tauto|]. apply IH. tauto.
Qed.

Definition element (A : dm) (i j : nat) : R := stored (nth j (d_columns A) []) i.

Lemma valid_nth : forall A j, valid A -> (j < d_cols A)%nat -> NoDup (map fst (nth j (d_columns A) [])).
Proof. intros A j V Hj. apply V. apply nth_In. exact Hj. Qed.

Lemma element_represents : forall A, valid A -> represents A (element A).
Proof.
  intros A V i j Hi Hj. exists (nth j (d_columns A) []). split; [apply nth_error_nth'; exact Hj|].
  destruct (in_dec Nat.eq_dec i (map fst (nth j (d_columns A) []))) as [I|I].
  - left. apply in_map_iff in I. destruct I as [[k v] [E I]]. cbn in E. subst k. unfold element.
    rewrite (stored_in _ i v); [assumption|apply valid_nth; assumption|assumption].
  - right. split; [assumption|]. apply stored_out. assumption.
Qed.

Lemma represents_element : forall A f, valid A -> represents A f ->
  forall i j, (i < d_rows A)%nat -> (j < d_cols A)%nat -> f i j = element A i j.
Proof.
  intros A f V F i j Hi Hj. destruct (F i j Hi Hj) as [c [E H]]. unfold element.
  rewrite (nth_error_nth _ _ [] E). pose proof (valid_nth A j V Hj) as N. rewrite (nth_error_nth _ _ [] E) in N.
  destruct H as [H|[H ->]]; symmetry; [apply stored_in|apply stored_out]; assumption.
Qed.

Lemma represents_ext : forall A f g, (forall i j, (i < d_rows A)%nat -> (j < d_cols A)%nat -> f i j = g i j) ->
  represents A f -> represents A g.
Proof. intros A f g H F i j Hi Hj. rewrite <- H by assumption. apply F; assumption. Qed.

(** ** Dense conversion *)
Lemma nth_concat : forall (ls : list (list R)) m i j, (forall l, In l ls -> length l = m) -> (i < m)%nat -> (j < length ls)%nat ->
  nth (j * m + i) (concat ls) 0 = nth i (nth j ls []) 0.
Proof.
  induction ls as [|l ls IH]; intros m i j L Hi Hj; [cbn in Hj; lia|]. cbn [concat]. destruct j as [|j].
  - cbn. rewrite app_nth1; [reflexivity|]. rewrite (L l) by (left; reflexivity). exact Hi.
  - rewrite app_nth2; rewrite (L l) by (left; reflexivity); [|lia].
    replace (S j * m + i - m)%nat with (j * m + i)%nat by lia. cbn [nth]. apply IH; [intros l' I; apply L; right; exact I|exact Hi|cbn in Hj; lia].
Qed.

Lemma densify_data : forall A i j, (i < d_rows A)%nat -> (j < d_cols A)%nat ->
  nth (j * d_rows A + i) (nonzeros (densify A)) 0 = element A i j.
Proof.
  intros A i j Hi Hj. unfold nonzeros, densify. cbn [d_columns]. rewrite map_map.
  rewrite (map_ext _ (fun c => map (stored c) (seq 0 (d_rows A)))) by (intro c; rewrite map_map; reflexivity).
  rewrite nth_concat; [|intros l I; apply in_map_iff in I; destruct I as [c [<- _]]; rewrite map_length, seq_length; reflexivity|exact Hi|rewrite map_length; exact Hj].
  unfold element, d_cols in *.
  rewrite (nth_indep _ [] (map (stored []) (seq 0 (d_rows A)))) by (rewrite map_length; exact Hj).
  rewrite (map_nth (fun c => map (stored c) (seq 0 (d_rows A)))).
  rewrite (nth_indep _ 0 (stored (nth j (d_columns A) []) O)) by (rewrite map_length, seq_length; exact Hi).
  rewrite map_nth, seq_nth by exact Hi. reflexivity.
Qed.

Lemma column_zero : forall A i, (i < d_rows A)%nat -> (0 < d_cols A)%nat ->
  map_vector (nonzeros (densify A)) i = element A i 0.
Proof. intros A i Hi Hj. rewrite <- densify_data by assumption. reflexivity. Qed.

(** ** Sparse conversion *)
Lemma collect_triplets : forall vs rs cs, length rs = length vs -> length cs = length vs ->
  collect (map (triplet_at rs cs vs) (seq 0 (length vs))) = Some (combine (combine rs cs) vs).
Proof.
  induction vs as [|v vs IH]; intros [|r rs] [|c cs] Hr Hc; try discriminate; [reflexivity|].
  cbn in Hr, Hc. injection Hr as Hr. injection Hc as Hc. cbn [length seq map combine]. rewrite <- seq_shift, map_map.
  cbn [collect triplet_at nth_error]. unfold triplet_at at 1. cbn [nth_error].
  rewrite (map_ext (fun x => triplet_at (r :: rs) (c :: cs) (v :: vs) (S x)) (triplet_at rs cs vs)) by reflexivity.
  rewrite (IH rs cs Hr Hc). reflexivity.
Qed.

Fixpoint trips (j : nat) (cs : list (list (nat * R))) : list (nat * nat * R) :=
  match cs with [] => [] | c :: r => map (fun p => (fst p, j, snd p)) c ++ trips (S j) r end.

Lemma combine_app : forall (U V : Type) (a b : list U) (c d : list V), length a = length c ->
  combine (a ++ b) (c ++ d) = combine a c ++ combine b d.
Proof. induction a as [|x a IH]; intros b [|y c] d H; try discriminate; [reflexivity|]. cbn. rewrite IH; [reflexivity|]. cbn in H. lia. Qed.

Lemma column_indices_length : forall cs j, length (column_indices j cs) = length (concat (map (map snd) cs)).
Proof. induction cs as [|c cs IH]; intro j; [reflexivity|]. cbn. rewrite !app_length, repeat_length, map_length, IH. reflexivity. Qed.

Lemma triplet_rows_length : forall cs : list (list (nat * R)), length (concat (map (map fst) cs)) = length (concat (map (map snd) cs)).
Proof. induction cs as [|c cs IH]; [reflexivity|]. cbn. rewrite !app_length, !map_length, IH. reflexivity. Qed.

Lemma combine_column : forall (c : list (nat * R)) (j : nat),
  combine (combine (map fst c) (repeat j (length c))) (map snd c) = map (fun p => (fst p, j, snd p)) c.
Proof. induction c as [|p c IH]; intro j; [reflexivity|]. cbn. rewrite IH. reflexivity. Qed.

Lemma combine_trips : forall cs j,
  combine (combine (concat (map (map fst) cs)) (column_indices j cs)) (concat (map (map snd) cs)) = trips j cs.
Proof.
  induction cs as [|c cs IH]; intro j; [reflexivity|]. cbn [map concat column_indices trips].
  rewrite combine_app by (rewrite map_length, repeat_length; reflexivity).
  rewrite combine_app by (rewrite combine_length, !map_length, repeat_length; lia).
  rewrite combine_column, IH. reflexivity.
Qed.

Lemma add_up_app : forall a b i j, add_up (a ++ b) i j = add_up a i j + add_up b i j.
Proof. induction a as [|[[r c] v] a IH]; intros b i j; cbn; [lra|]. rewrite IH. lra. Qed.

Lemma add_up_column_other : forall c j' i j, j' <> j -> add_up (map (fun p => (fst p, j', snd p)) c) i j = 0.
Proof.
  induction c as [|p c IH]; intros j' i j H; [reflexivity|]. cbn. rewrite (proj2 (Nat.eqb_neq j' j) H), andb_false_r, IH by exact H. lra.
Qed.

Lemma add_up_column : forall c i j, NoDup (map fst c) -> add_up (map (fun p => (fst p, j, snd p)) c) i j = stored c i.
Proof.
  induction c as [|[k v] c IH]; intros i j N; [reflexivity|]. cbn in N. apply NoDup_cons_iff in N. destruct N as [Nk N].
  cbn. rewrite Nat.eqb_refl, andb_true_r, IH by exact N. destruct (Nat.eqb_spec k i) as [->|_]; [|lra].
  rewrite stored_out by exact Nk. lra.
Qed.

Lemma add_up_trips : forall cs j0 i j, (forall c, In c cs -> NoDup (map fst c)) -> (j < length cs)%nat ->
  add_up (trips j0 cs) i (j0 + j) = stored (nth j cs []) i.
Proof.
  induction cs as [|c cs IH]; intros j0 i j N Hj; [cbn in Hj; lia|]. cbn [trips]. rewrite add_up_app. destruct j as [|j].
  - rewrite Nat.add_0_r, add_up_column by (apply N; left; reflexivity). cbn [nth].
    enough (forall cs j1, (j0 < j1)%nat -> add_up (trips j1 cs) i j0 = 0) as Z by (rewrite Z by lia; lra).
    clear. induction cs as [|c cs IH]; intros j1 H; [reflexivity|]. cbn [trips]. rewrite add_up_app, add_up_column_other, IH by lia. lra.
  - rewrite add_up_column_other by lia. replace (j0 + S j)%nat with (S j0 + j)%nat by lia.
    rewrite IH; [cbn [nth]; lra|intros c' I; apply N; right; exact I|cbn in Hj; lia].
Qed.

Lemma trips_range : forall cs j0 rows, (forall c, In c cs -> forall k, In k (map fst c) -> (k < rows)%nat) ->
  forallb (fun t : nat * nat * R => (fst (fst t) <? rows)%nat && (snd (fst t) <? j0 + length cs)%nat) (trips j0 cs) = true.
Proof.
  intros cs j0 rows H. apply forallb_forall. intros [[r c] v] I. cbn [fst snd].
  enough (r < rows /\ c < j0 + length cs)%nat as [A B] by (rewrite (proj2 (Nat.ltb_lt _ _) A), (proj2 (Nat.ltb_lt _ _) B); reflexivity).
  revert j0 H I. induction cs as [|l cs IH]; intros j0 H I; [destruct I|]. cbn [trips] in I. apply in_app_iff in I. destruct I as [I|I].
  - apply in_map_iff in I. destruct I as [p [E I]]. injection E as <- <- <-. split; [|cbn; lia].
    apply (H l); [left; reflexivity|]. apply in_map. exact I.
  - destruct (IH (S j0)) as [A B]; [intros c' Ic; apply H; right; exact Ic|exact I|]. split; [exact A|cbn [length]; lia].
Qed.

Lemma c2esparse_value : forall A, valid A -> exists M, c2esparse A = Some M /\ e_rows M = d_rows A /\ e_cols M = d_cols A /\
  forall i j, (i < d_rows A)%nat -> (j < d_cols A)%nat -> e_coeff M i j = element A i j.
Proof.
  intros A V. unfold c2esparse, triplet_rows, triplet_cols, nonzeros.
  rewrite collect_triplets by (apply triplet_rows_length || apply column_indices_length).
  rewrite combine_trips. unfold set_from_triplets, d_cols.
  pose proof (trips_range (d_columns A) 0 (d_rows A)) as Z. change (0 + length (d_columns A))%nat with (length (d_columns A)) in Z.
  rewrite Z by (intros c I; apply V; exact I). clear Z.
  eexists. split; [reflexivity|]. split; [reflexivity|]. split; [reflexivity|].
  intros i j Hi Hj. cbn [e_coeff]. apply (add_up_trips (d_columns A) 0 i j); [intros c I; apply V; exact I|exact Hj].
Qed.

Lemma c2esparse_some : forall A M, valid A -> c2esparse A = Some M -> e_rows M = d_rows A /\ e_cols M = d_cols A /\
  forall i j, (i < d_rows A)%nat -> (j < d_cols A)%nat -> e_coeff M i j = element A i j.
Proof. intros A M V E. destruct (c2esparse_value A V) as [M' [E' H]]. rewrite E in E'. injection E' as <-. exact H. Qed.

(** ** The result vector *)
Lemma column_represents : forall n x, represents (column n x) (fun i _ => x i).
Proof.
  intros n x i j Hi Hj. cbn in Hi, Hj. assert (j = O) as -> by lia. eexists. split; [reflexivity|]. left.
  apply in_map_iff. exists i. split; [reflexivity|]. apply in_seq. lia.
Qed.

Lemma column_valid : forall n x, valid (column n x).
Proof.
  intros n x c [<-|[]]. rewrite map_map. cbn [fst]. rewrite map_id. split; [apply seq_NoDup|]. intros k I. apply in_seq in I. cbn. lia.
Qed.
