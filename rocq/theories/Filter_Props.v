(** C14: the line-search filter. *)
Require Import Reals Lra Lia List ZArith Bool Floats.SpecFloat.
Require Import Verif.Scal Verif.Filter_Model Verif.Filter_Spec Verif.Filter_Proofs.
Import ListNotations.
Local Open Scope R_scope.

(** C14: any scalar type, any sequence of operations: for a positive depth the size stays within the
    depth, and nothing undefined happens unless remove_one is called. *)
Theorem C14_filter_depth : forall (T : Type) (ST : Scalar T) beta depth (m : filter T) os,
  (1 <= depth < 2 ^ 31)%Z -> (Z.of_nat (length m) <= depth)%Z ->
  (~ In RemoveOne os -> exists m', run beta depth m os = Some m') /\
  (forall m', run beta depth m os = Some m' -> (Z.of_nat (length m') <= depth)%Z).
Proof.
  intros; split; intros; [apply run_total; auto|eapply run_depth; eauto].
Qed.
Print Assumptions C14_filter_depth.

(** C14: acceptance is exactly "blocked by no entry", rejection exactly "blocked by some entry". *)
Theorem C14_filter_acceptance : forall beta (m : filter R) c v,
  (is_acceptable beta m c v = true <-> forall e, In e m -> ~ blocks beta e (c, v)) /\
  (is_acceptable beta m c v = false <-> exists e, In e m /\ blocks beta e (c, v)) /\
  (is_dominated m c v = true <-> exists e, In e m /\ dominates e (c, v)).
Proof.
  intros; repeat split; try apply is_acceptable_R; try apply is_acceptable_false_R; apply is_dominated_R.
Qed.
Print Assumptions C14_filter_acceptance.

(** C14: if only acceptable points with nonnegative violation are inserted (starting empty), no entry is
    ever dominated by an older entry, at every depth, eviction included. *)
Theorem C14_filter_newest_undominated : forall beta depth os m,
  0 <= beta -> Forall careful os -> run beta depth [] os = Some m -> newest_undominated m.
Proof.
  intros beta depth os m Hb Hc H.
  apply (run_newest_gen beta depth os [] m Hb Hc (fun e (F : In e []) => match F with end) I H).
Qed.
Print Assumptions C14_filter_newest_undominated.

(** C14: as long as no entry is evicted, an inserted point is not dominated by any point inserted
    earlier, even if that point has been removed from the filter since. *)
Theorem C14_filter_history : forall beta depth points m h,
  0 <= beta -> beta <= 1 -> (forall p, In p points -> 0 <= snd p) ->
  history beta depth [] [] points = Some (m, h) -> newest_undominated h.
Proof.
  intros beta depth ps m h Hb Hb1 Hps H.
  destruct (history_inv beta depth ps [] [] m h Hb Hb1 Hps) as (_ & _ & R); auto.
  - intros e [].
  - intros p [].
  - exact I.
Qed.
Print Assumptions C14_filter_history.

(** C14, removal of dominated entries: holds below the maximum depth only (see the refutation). *)
Theorem C14_filter_removal_partial : forall depth (m m' : filter R) c v,
  (Z.of_nat (length m) < depth < 2 ^ 31)%Z -> add depth m c v = Some m' ->
  exists r, m' = (c, v) :: r /\ (forall e, In e r <-> In e m /\ ~ dominates (c, v) e).
Proof.
  intros depth m m' c v Hd H. apply (add_removes depth); auto.
  rewrite below_depth_spec by lia. apply Z.ltb_lt. lia.
Qed.
Print Assumptions C14_filter_removal_partial.

(** C14 is false at full depth: the new point (0,0) dominates both entries, yet one stays. *)
Theorem C14_filter_removal_refuted :
  exists (m m' : filter R) c v e, add 2 m c v = Some m' /\ In e m /\ In e (tl m') /\ dominates (c, v) e.
Proof.
  exists [(1, 2); (2, 1)], [(0, 0); (1, 2)], 0, 0, (1, 2).
  repeat split; simpl; auto; lra.
Qed.
Print Assumptions C14_filter_removal_refuted.

(** With depth zero the first insertion pops an empty list (undefined behaviour). *)
Theorem C14_filter_zero_depth_refuted : forall (T : Type) (ST : Scalar T) (c v : T), add 0 [] c v = None.
Proof. reflexivity. Qed.
Print Assumptions C14_filter_zero_depth_refuted.

(** examples, run with IEEE doubles: three points of which the third dominates the first *)
Definition F := SF_ofZ.
Example C14_example_run :
  @run _ SF_scalar (scst (ST:=SF_scalar) 1 100000) 10 []
     [Offer (F 5) (F 3); Offer (F 7) (F 1); Offer (F 7) (F 2); Offer (F 4) (F 2)]
  = Some [(F 4, F 2); (F 7, F 1)].
Proof. vm_compute. reflexivity. Qed.

Example C14_example_hyps : Forall careful [Offer 5 3; Offer 7 1; Clear; Offer 2 0] /\
  exists m h, history 0 10 [] [] [(5, 3); (7, 1)] = Some (m, h) /\ length h = 2%nat.
Proof.
  split.
  - repeat constructor; simpl; lra.
  - assert (A : is_acceptable 0 [(5, 3)] 7 1 = true).
    { apply is_acceptable_R. intros e [<-|[]] [_ H]. simpl in H. lra. }
    exists ((7, 1) :: List.filter (fun e => negb (dominated_by 7 1 e)) [(5, 3)]), [(7, 1); (5, 3)].
    split; [|reflexivity].
    transitivity (if is_acceptable 0 [(5, 3)] 7 1 then history 0 10 ((7, 1) :: List.filter (fun e => negb (dominated_by 7 1 e)) [(5, 3)]) [(7, 1); (5, 3)] []
                  else history 0 10 [(5, 3)] [(5, 3)] []); [reflexivity|].
    rewrite A. reflexivity.
Qed.
