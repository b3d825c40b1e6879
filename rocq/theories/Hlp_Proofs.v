(** Lemmas for Hlp_Props.v. *)
Require Import ZArith Arith List Bool Reals Lra Lia Floats.SpecFloat.
Require Import FunctionalExtensionality.
From Verif Require Import Scal RSum Blk PolyR Poly_Spec Cas_Model Cas_Spec Cas_Proofs Hlp_Model Hlp_Spec.
Import ListNotations.
Local Open Scope R_scope.

Lemma concat_length : forall A (r : nat) (l : list (list A)), (forall x, In x l -> length x = r) -> length (concat l) = (length l * r)%nat.
Proof. intros A r. induction l as [|x l IH]; intros H; simpl; [reflexivity|]. rewrite app_length, IH, H; simpl; auto. intros; apply H; simpl; auto. Qed.
Lemma concat_nth : forall A (d : A) (r : nat) (l : list (list A)) k i, (forall x, In x l -> length x = r) -> (k < length l)%nat -> (i < r)%nat ->
  nth (k * r + i) (concat l) d = nth i (nth k l nil) d.
Proof.
  intros A d r. induction l as [|x l IH]; intros k i H Hk Hi; [simpl in Hk; lia|]. simpl concat.
  assert (L : length x = r) by (apply H; simpl; auto).
  destruct k; simpl nth.
  - rewrite app_nth1 by lia. reflexivity.
  - rewrite app_nth2 by lia. replace (r + k * r + i - length x)%nat with (k * r + i)%nat by lia. apply IH; [|simpl in Hk; lia|auto].
    intros; apply H; simpl; auto.
Qed.

Lemma mat_func_fold : forall func M v, fold_left (fun output_vec col => match output_vec, func col with Some v, Some res => Some (v ++ concat res) | _, _ => None end) M (Some v) =
  match mat_func M func with Some w => Some (v ++ w) | None => None end.
Proof.
  intros func M. assert (N : forall M, fold_left (fun output_vec col => match output_vec, func col with Some v, Some res => Some (v ++ @concat R res) | _, _ => None end) M None = None)
    by (induction M0; simpl; auto).
  induction M as [|col M IH]; intros v; unfold mat_func; simpl; [rewrite app_nil_r; reflexivity|].
  destruct (func col) as [res|]; [|rewrite N; reflexivity]. rewrite !IH. destruct (mat_func M func); [|reflexivity]. rewrite app_assoc. reflexivity.
Qed.
Lemma mat_func_cons : forall func col M, mat_func (col :: M) func =
  match func col, mat_func M func with Some res, Some w => Some (concat res ++ w) | _, _ => None end.
Proof.
  intros. unfold mat_func at 1. simpl. destruct (func col) as [res|].
  - rewrite mat_func_fold. reflexivity.
  - induction M as [|c M IH]; simpl; auto.
Qed.
Lemma eval_columns_spec : forall func u x,
  match eval_columns x u func with
  | Some e => (length u <= length x)%nat /\ length e = length u /\ forall k, (k < length u)%nat -> func (nth k x nil) (nth k u nil) = Some (nth k e nil)
  | None => (length x < length u)%nat \/ exists k, (k < length u)%nat /\ (k < length x)%nat /\ func (nth k x nil) (nth k u nil) = None
  end.
Proof.
  intros func. induction u as [|ui u IH]; intros x.
  - destruct x; simpl; repeat split; intros; lia.
  - destruct x as [|xi x]; [simpl; left; lia|]. simpl eval_columns. specialize (IH x). destruct (func xi ui) as [e|] eqn:E.
    + destruct (eval_columns x u func) as [r|].
      * destruct IH as (A & B & C). simpl. split; [lia|]. split; [lia|]. intros [|k] Hk; [exact E|apply C; lia].
      * destruct IH as [IH|(k & Hu & Hx & Hk)]; [left; simpl; lia|]. right. exists (S k). simpl. repeat split; [lia|lia|exact Hk].
    + right. exists 0%nat. simpl. repeat split; [lia|lia|exact E].
Qed.
Lemma range_some : forall n first last step fuel, (forall k, (k < n)%nat <-> first + INR k * step <= last) -> (n <= fuel)%nat ->
  range fuel first last step = Some (map (fun k => first + INR k * step) (seq 0 n)).
Proof.
  induction n; intros first last step fuel H Hf.
  - assert (E : sleb first last = false).
    { simpl. unfold Rleb. destruct (Rle_dec first last) as [E|E]; [|reflexivity]. exfalso. assert (0 < 0)%nat by (apply H; simpl; lra). lia. }
    destruct fuel; simpl range; simpl in E; rewrite E; reflexivity.
  - assert (E : sleb first last = true).
    { simpl. unfold Rleb. destruct (Rle_dec first last) as [E|E]; [reflexivity|]. exfalso. apply E. pose proof (proj1 (H 0%nat) ltac:(lia)) as Q. simpl in Q. lra. }
    destruct fuel as [|fuel]; [lia|]. simpl range. simpl in E. rewrite E.
    rewrite (IHn (first + step) last step fuel); [|intros k|lia].
    + f_equal. cbn [seq map]. f_equal; [simpl; ring|]. rewrite <- seq_shift, map_map. apply map_ext. intros k. rewrite S_INR. ring.
    + rewrite (Nat.succ_lt_mono k n). rewrite (H (S k)). rewrite S_INR. split; lra.
Qed.
Lemma table_check : forall c data, (forallb (fun col => (length col =? cX c)%nat) data && (length data =? cS c * cP c + 1)%nat = true) <->
  table (cX c) (cS c * cP c + 1) data.
Proof.
  intros. unfold table. rewrite andb_true_iff, forallb_forall, Nat.eqb_eq. split; intros [A B]; split; auto.
  - intros col Hc. apply Nat.eqb_eq. auto.
  - intros col Hc. apply Nat.eqb_eq. auto.
Qed.
Lemma id_cost_table : forall c f data t0 tf X, dims_ok c -> table (cX c) (cS c * cP c + 1) data ->
  id_cost c (Some f) data t0 tf X =
  quad c (cas_ts c t0 tf) (fun k m => sval f [slice X ((k * cP c + m) * cX c) (cX c); repeat 0 (cX c)]).
Proof.
  intros c f data t0 tf X (HP & HS & HX) HT. unfold id_cost. apply table_check in HT. apply andb_true_iff in HT. destruct HT as [-> ->]. cbn [negb orb].
  cbv zeta. f_equal. apply functional_extensionality. intros k. apply functional_extensionality. intros m.
  unfold cslice. destruct (cas_N c * cX c - (k * cP c + m) * cX c)%nat eqn:E.
  - simpl. reflexivity.
  - replace (S n - cX c - S n)%nat with 0%nat by lia. reflexivity.
Qed.

