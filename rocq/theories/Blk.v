(** Counted loops and block assignments on vectors and matrices, as used by the models of
    the optimal-control transcription, with the lemmas to evaluate one entry after a loop. *)
Require Import Arith List Bool Lia.
Require Import Verif.Scal.

(** for(int k = 0; k < n; ++k) a = f(k, a); *)
Fixpoint loop {A : Type} (n : nat) (f : nat -> A -> A) (a : A) : A :=
  match n with
  | O => a
  | S k => f k (loop k f a)
  end.

(** the same when the body can hit undefined behaviour or a failing assertion ([None]) *)
Fixpoint oloop {A : Type} (n : nat) (f : nat -> A -> option A) (a : A) : option A :=
  match n with
  | O => Some a
  | S k => match oloop k f a with Some b => f k b | None => None end
  end.

Definition in_seg (o n i : nat) : bool := (o <=? i)%nat && (i <? o + n)%nat.

Section Blocks.
Context {T : Type} {ST : Scalar T}.
Local Open Scope S_scope.

(** Eigen: v.segment(o, n) = f,   v.segment(o, n) += f *)
Definition vset (v : vec T) (o n : nat) (f : vec T) : vec T :=
  fun i => if in_seg o n i then f (i - o)%nat else v i.
Definition vacc (v : vec T) (o n : nat) (f : vec T) : vec T :=
  fun i => if in_seg o n i then v i + f (i - o)%nat else v i.
Definition vdec (v : vec T) (o n : nat) (f : vec T) : vec T :=
  fun i => if in_seg o n i then v i - f (i - o)%nat else v i.

(** Eigen: M.block(r, c, nr, nc) = B,  += B,  -= B *)
Definition mset (M : mat T) (r c nr nc : nat) (B : mat T) : mat T :=
  fun i j => if in_seg r nr i && in_seg c nc j then B (i - r)%nat (j - c)%nat else M i j.
Definition macc (M : mat T) (r c nr nc : nat) (B : mat T) : mat T :=
  fun i j => if in_seg r nr i && in_seg c nc j then M i j + B (i - r)%nat (j - c)%nat else M i j.
Definition mdec (M : mat T) (r c nr nc : nat) (B : mat T) : mat T :=
  fun i j => if in_seg r nr i && in_seg c nc j then M i j - B (i - r)%nat (j - c)%nat else M i j.

(** v.segment(o, n) read as a vector; M.block(r, c, ..) read as a matrix *)
Definition seg (v : vec T) (o : nat) : vec T := fun i => v (o + i)%nat.
Definition blk (M : mat T) (r c : nat) : mat T := fun i j => M (r + i)%nat (c + j)%nat.

End Blocks.

Lemma in_seg_true : forall o n i, (o <= i)%nat -> (i < o + n)%nat -> in_seg o n i = true.
Proof.
  intros. unfold in_seg. apply andb_true_intro. split; [apply Nat.leb_le|apply Nat.ltb_lt]; auto.
Qed.

Lemma in_seg_false : forall o n i, (i < o \/ o + n <= i)%nat -> in_seg o n i = false.
Proof.
  intros o n i [H|H]; unfold in_seg.
  - apply andb_false_iff. left. apply Nat.leb_gt. lia.
  - apply andb_false_iff. right. apply Nat.ltb_ge. lia.
Qed.

Lemma in_seg_spec : forall o n i, in_seg o n i = true <-> (o <= i < o + n)%nat.
Proof.
  intros. unfold in_seg. rewrite andb_true_iff, Nat.leb_le, Nat.ltb_lt. tauto.
Qed.

Lemma loop_S : forall A n f (a : A), loop (S n) f a = f n (loop n f a).
Proof. reflexivity. Qed.

Lemma loop_inv : forall A (P : nat -> A -> Prop) n f a,
  P O a -> (forall k s, (k < n)%nat -> P k s -> P (S k) (f k s)) -> P n (loop n f a).
Proof.
  intros A P n f a H0 HS. induction n as [|n IH]; simpl; auto.
  apply HS; [lia|]. apply IH. intros; apply HS; auto; lia.
Qed.

Lemma oloop_inv : forall A (P : nat -> A -> Prop) n f a,
  P O a ->
  (forall k s, (k < n)%nat -> P k s -> exists s', f k s = Some s' /\ P (S k) s') ->
  exists s', oloop n f a = Some s' /\ P n s'.
Proof.
  intros A P n f a H0 HS. induction n as [|n IH]; simpl.
  - exists a; auto.
  - destruct IH as (s & E & Hs). { intros; apply HS; auto; lia. }
    rewrite E. apply HS; auto.
Qed.

(** one observable of the state, overwritten by at most one iteration *)
Lemma loop_pick : forall A B (obs : A -> B) n f a (hit : nat -> bool) (v : nat -> B) k0,
  (forall k s, (k < n)%nat -> obs (f k s) = if hit k then v k else obs s) ->
  (k0 < n)%nat -> hit k0 = true -> (forall k, (k < n)%nat -> k <> k0 -> hit k = false) ->
  obs (loop n f a) = v k0.
Proof.
  intros A B obs n f a hit v k0 Hf Hk Hh Ho.
  induction n as [|n IH]; [lia|]. cbn [loop]. rewrite Hf by lia.
  destruct (Nat.eq_dec n k0) as [->|Hn].
  - rewrite Hh. reflexivity.
  - rewrite (Ho n) by lia. apply IH; try lia; intros; [apply Hf|apply Ho]; lia.
Qed.

Lemma loop_skip : forall A B (obs : A -> B) n f a,
  (forall k s, (k < n)%nat -> obs (f k s) = obs s) -> obs (loop n f a) = obs a.
Proof.
  intros A B obs n f a Hf. induction n as [|n IH]; [reflexivity|].
  cbn [loop]. rewrite Hf by lia. apply IH. intros; apply Hf; lia.
Qed.

(** the last iteration that touches the observable wins *)
Lemma loop_last : forall A B (obs : A -> B) n f a (hit : nat -> bool) (v : nat -> B) k0,
  (forall k s, (k < n)%nat -> obs (f k s) = if hit k then v k else obs s) ->
  (k0 < n)%nat -> hit k0 = true -> (forall k, (k0 < k < n)%nat -> hit k = false) ->
  obs (loop n f a) = v k0.
Proof.
  intros A B obs n f a hit v k0 Hf Hk Hh Ho.
  induction n as [|n IH]; [lia|]. cbn [loop]. rewrite Hf by lia.
  destruct (Nat.eq_dec n k0) as [->|Hn].
  - rewrite Hh. reflexivity.
  - rewrite (Ho n) by lia. apply IH; try lia; intros; [apply Hf|apply Ho]; lia.
Qed.

(** an observable only changed by iteration [k0], as a function of its previous value *)
Lemma loop_once : forall A B (obs : A -> B) n f a (hit : nat -> bool) (g : nat -> B -> B) k0,
  (forall k s, (k < n)%nat -> obs (f k s) = if hit k then g k (obs s) else obs s) ->
  (k0 < n)%nat -> hit k0 = true -> (forall k, (k < n)%nat -> k <> k0 -> hit k = false) ->
  obs (loop n f a) = g k0 (obs a).
Proof.
  intros A B obs n f a hit g k0 Hf Hk Hh Ho.
  induction n as [|n IH]; [lia|]. cbn [loop]. rewrite Hf by lia.
  destruct (Nat.eq_dec n k0) as [->|Hn].
  - rewrite Hh. f_equal. apply loop_skip. intros k s Hlt. rewrite Hf by lia.
    rewrite (Ho k) by lia. reflexivity.
  - rewrite (Ho n) by lia. apply IH; try lia; intros; [apply Hf|apply Ho]; lia.
Qed.

Lemma loop_ext_obs : forall A n (f g : nat -> A -> A) a,
  (forall k s, (k < n)%nat -> f k s = g k s) -> loop n f a = loop n g a.
Proof.
  intros A n f g a H. induction n as [|n IH]; [reflexivity|].
  cbn [loop]. rewrite IH by (intros; apply H; lia). apply H; lia.
Qed.

(** node / component arithmetic *)
Lemma node_in_seg : forall m k k' c, (c < m)%nat -> in_seg (k * m) m (k' * m + c) = (k =? k')%nat.
Proof.
  intros m k k' c Hc. destruct (Nat.eqb_spec k k') as [->|Hne].
  - apply in_seg_true; lia.
  - apply in_seg_false. destruct (Nat.lt_ge_cases k' k); [left|right]; nia.
Qed.

Lemma node_divmod : forall m i, (0 < m)%nat -> i = (i / m * m + i mod m)%nat.
Proof. intros m i Hm. rewrite Nat.mul_comm. apply Nat.div_mod. lia. Qed.

Lemma node_bound : forall m n k c, (k < n)%nat -> (c < m)%nat -> (k * m + c < m * n)%nat.
Proof. intros. nia. Qed.
