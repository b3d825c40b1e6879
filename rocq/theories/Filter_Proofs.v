Require Import Reals Lra Lia List ZArith Bool.
Require Import Verif.Scal Verif.Filter_Model Verif.Filter_Spec.
Import ListNotations.
Local Open Scope R_scope.

(** ** any scalar: sizes and undefined behaviour *)
Section Any.
Context {T : Type} {ST : Scalar T}.

Lemma removelast_length : forall A (l : list A), length (removelast l) = (length l - 1)%nat.
Proof.
  induction l as [|a [|b l] IH]; auto.
  change (removelast (a :: b :: l)) with (a :: removelast (b :: l)).
  cbn [length] in *. lia.
Qed.

Lemma filter_length_le' : forall A f (l : list A), (length (List.filter f l) <= length l)%nat.
Proof. induction l; simpl; auto. destruct (f a); simpl; lia. Qed.

Lemma below_depth_spec : forall (m : filter T) depth, (0 <= depth < 2 ^ 31)%Z ->
  below_depth m depth = (Z.of_nat (length m) <? depth)%Z.
Proof. intros. unfold below_depth. rewrite Z.mod_small; auto. lia. Qed.

Lemma add_total : forall depth (m : filter T) c v, (1 <= depth < 2 ^ 31)%Z ->
  (Z.of_nat (length m) <= depth)%Z ->
  exists m', add depth m c v = Some m' /\ (Z.of_nat (length m') <= depth)%Z /\ hd_error m' = Some (c, v).
Proof.
  intros depth m c v Hd Hm. unfold add. rewrite below_depth_spec by lia.
  destruct (Z.ltb_spec (Z.of_nat (length m)) depth).
  - eexists; split; [reflexivity|]. split; [|reflexivity]. cbn [length].
    assert (L := filter_length_le' _ (fun e => negb (dominated_by c v e)) m). lia.
  - destruct m as [|e m]; [simpl in *; lia|].
    unfold pop_back. eexists; split; [reflexivity|]. split; [|reflexivity].
    change (Z.of_nat (S (length (removelast (e :: m)))) <= depth)%Z.
    rewrite removelast_length. cbn [length] in *. lia.
Qed.

Lemma step_depth : forall beta depth (m m' : filter T) o, (1 <= depth < 2 ^ 31)%Z ->
  (Z.of_nat (length m) <= depth)%Z -> step beta depth m o = Some m' ->
  (Z.of_nat (length m') <= depth)%Z.
Proof.
  intros beta depth m m' o Hd Hm. destruct o as [c v|c v| |]; cbn [step].
  - destruct (add_total depth m c v Hd Hm) as (m2 & -> & H & _). intros [= <-]; auto.
  - destruct (is_acceptable beta m c v).
    + destruct (add_total depth m c v Hd Hm) as (m2 & -> & H & _). intros [= <-]; auto.
    + intros [= <-]; auto.
  - destruct m as [|e m]; [discriminate|]. intros E. assert (m' = removelast (e :: m)) as -> by (unfold pop_back in E; congruence).
    rewrite removelast_length. cbn [length] in *; lia.
  - intros [= <-]. simpl; lia.
Qed.

Lemma run_depth : forall beta depth os (m m' : filter T), (1 <= depth < 2 ^ 31)%Z ->
  (Z.of_nat (length m) <= depth)%Z -> run beta depth m os = Some m' ->
  (Z.of_nat (length m') <= depth)%Z.
Proof.
  intros beta depth os. induction os as [|o os IH]; intros m m' Hd Hm H; cbn [run] in H.
  - injection H as <-; auto.
  - destruct (step beta depth m o) as [m1|] eqn:E; [|discriminate].
    apply (IH m1); auto. eapply step_depth; eauto.
Qed.

Lemma run_total : forall beta depth os (m : filter T), (1 <= depth < 2 ^ 31)%Z ->
  (Z.of_nat (length m) <= depth)%Z -> ~ In RemoveOne os ->
  exists m', run beta depth m os = Some m'.
Proof.
  intros beta depth os. induction os as [|o os IH]; intros m Hd Hm Hr; cbn [run].
  - eauto.
  - assert (exists m1, step beta depth m o = Some m1) as [m1 E].
    { destruct o as [c v|c v| |]; cbn [step].
      - destruct (add_total depth m c v Hd Hm) as (m2 & -> & _). eauto.
      - destruct (is_acceptable beta m c v); eauto.
        destruct (add_total depth m c v Hd Hm) as (m2 & -> & _). eauto.
      - exfalso; apply Hr; left; auto.
      - eauto. }
    rewrite E. apply IH; auto.
    + eapply step_depth; eauto.
    + intros X; apply Hr; right; auto.
Qed.

End Any.

(** ** reals *)
Lemma dominated_by_R : forall c v e, dominated_by c v e = true <-> dominates (c, v) e.
Proof.
  intros. unfold dominated_by, dominates. simpl. rewrite andb_true_iff, !Rleb_true. tauto.
Qed.

Lemma is_dominated_R : forall m c v, is_dominated m c v = true <-> exists e, In e m /\ dominates e (c, v).
Proof.
  induction m as [|[a b] m IH]; intros c v; simpl.
  - split; [discriminate|intros (e & [] & _)].
  - destruct (Rleb a c && Rleb b v) eqn:E.
    + apply andb_true_iff in E. rewrite !Rleb_true in E. split; auto. intros _. exists (a, b). split; auto.
    + rewrite IH. split.
      * intros (e & He & Hd); eauto.
      * intros (e & [<-|He] & Hd); eauto. exfalso. apply Bool.not_true_iff_false in E. apply E.
        apply andb_true_iff. rewrite !Rleb_true. exact Hd.
Qed.

Lemma is_acceptable_R : forall beta m c v,
  is_acceptable beta m c v = true <-> forall e, In e m -> ~ blocks beta e (c, v).
Proof.
  intros beta. induction m as [|[a b] m IH]; intros c v; simpl.
  - split; auto.
  - destruct (Rleb (a - beta * b) c && Rleb (b - beta * b) v) eqn:E.
    + apply andb_true_iff in E. rewrite !Rleb_true in E. split; [discriminate|].
      intros H. exfalso. apply (H (a, b)); auto.
    + rewrite IH. split.
      * intros H e [<-|He]; auto. intros X. apply Bool.not_true_iff_false in E. apply E.
        apply andb_true_iff. rewrite !Rleb_true. exact X.
      * intros H e He. apply H; auto.
Qed.

Lemma is_acceptable_false_R : forall beta m c v,
  is_acceptable beta m c v = false <-> exists e, In e m /\ blocks beta e (c, v).
Proof.
  intros beta. induction m as [|[a b] m IH]; intros c v; simpl.
  - split; [discriminate|intros (e & [] & _)].
  - destruct (Rleb (a - beta * b) c && Rleb (b - beta * b) v) eqn:E.
    + apply andb_true_iff in E. rewrite !Rleb_true in E. split; auto. intros _. exists (a, b); split; auto.
    + rewrite IH. split.
      * intros (e & He & Hd); eauto.
      * intros (e & [<-|He] & Hd); eauto. exfalso. apply Bool.not_true_iff_false in E. apply E.
        apply andb_true_iff. rewrite !Rleb_true. exact Hd.
Qed.

Lemma dominates_blocks : forall beta p q, 0 <= beta -> 0 <= snd p -> dominates p q -> blocks beta p q.
Proof.
  intros beta p q Hb Hp [H1 H2]. assert (0 <= beta * snd p) by (apply Rmult_le_pos; auto).
  split; lra.
Qed.

Lemma dominates_trans : forall p q r, dominates p q -> dominates q r -> dominates p r.
Proof. intros p q r [A B] [C D]; split; lra. Qed.
Lemma dominates_refl : forall p, dominates p p.
Proof. intros; split; lra. Qed.

(** ** removal of dominated entries *)
Lemma add_removes : forall depth m c v m', below_depth m depth = true ->
  add depth m c v = Some m' ->
  exists r, m' = (c, v) :: r /\ (forall e, In e r <-> In e m /\ ~ dominates (c, v) e).
Proof.
  intros depth m c v m' Hb. unfold add. rewrite Hb. intros [= <-].
  eexists; split; [reflexivity|]. intros e. rewrite filter_In, negb_true_iff.
  rewrite <- dominated_by_R. destruct (dominated_by c v e); intuition congruence.
Qed.

(** ** the invariant: newer entries are not dominated by older ones *)
Lemma newest_incl_filter : forall f m, newest_undominated m -> newest_undominated (List.filter f m).
Proof.
  induction m as [|p m IH]; simpl; auto. intros [H1 H2]. destruct (f p); simpl; auto.
  split; auto. intros q Hq. apply filter_In in Hq. apply H1; tauto.
Qed.

Lemma In_removelast : forall A (l : list A) x, In x (removelast l) -> In x l.
Proof.
  induction l as [|a [|b l] IH]; intros x H; auto; [contradiction|].
  destruct H as [->|H]; [left; auto|right; apply IH; auto].
Qed.

Lemma newest_removelast : forall m, newest_undominated m -> newest_undominated (removelast m).
Proof.
  induction m as [|p [|q m] IH]; simpl; auto. intros [H1 H2]. split; [|apply IH; auto].
  intros r Hr. apply H1. apply (In_removelast _ (q :: m)). exact Hr.
Qed.

Lemma add_In : forall depth (m m' : filter R) c v e, add depth m c v = Some m' -> In e m' -> e = (c, v) \/ In e m.
Proof.
  intros depth m m' c v e. unfold add. destruct (below_depth m depth).
  - intros [= <-] [<-|H]; auto. apply filter_In in H. tauto.
  - destruct m as [|x m]; [discriminate|]. intros E. assert (m' = (c, v) :: removelast (x :: m)) as -> by (unfold pop_back in E; congruence).
    intros [<-|H]; auto. right. apply In_removelast in H. exact H.
Qed.

Lemma offer_newest : forall beta depth m m' c v, 0 <= beta ->
  (forall e, In e m -> 0 <= snd e) -> newest_undominated m ->
  is_acceptable beta m c v = true -> add depth m c v = Some m' -> newest_undominated m'.
Proof.
  intros beta depth m m' c v Hb Hpos Hm Ha.
  assert (Hnd : forall e, In e m -> ~ dominates e (c, v)).
  { intros e He Hd. apply (proj1 (is_acceptable_R beta m c v) Ha e He).
    apply dominates_blocks; auto. }
  unfold add. destruct (below_depth m depth).
  - intros [= <-]. simpl. split.
    + intros q Hq. apply filter_In in Hq. apply Hnd; tauto.
    + apply newest_incl_filter; auto.
  - destruct m as [|x m]; [discriminate|]. intros E. assert (m' = (c, v) :: removelast (x :: m)) as -> by (unfold pop_back in E; congruence).
    cbn [newest_undominated]. split.
    + intros q Hq. apply Hnd. apply In_removelast; auto.
    + apply newest_removelast; auto.
Qed.

(** operations that only add acceptable points with nonnegative violation *)
Definition careful (o : op R) : Prop :=
  match o with Add _ _ => False | Offer _ v => 0 <= v | RemoveOne => True | Clear => True end.

Lemma run_newest_gen : forall beta depth os m m', 0 <= beta -> Forall careful os ->
  (forall e, In e m -> 0 <= snd e) -> newest_undominated m ->
  run beta depth m os = Some m' ->
  (forall e, In e m' -> 0 <= snd e) /\ newest_undominated m'.
Proof.
  intros beta depth os. induction os as [|o os IH]; intros m m' Hb Hc Hp Hm H; cbn [run] in H.
  - injection H as <-; auto.
  - destruct (step beta depth m o) as [m1|] eqn:E; [|discriminate].
    inversion Hc as [|? ? Ho Hos]; subst.
    assert ((forall e, In e m1 -> 0 <= snd e) /\ newest_undominated m1) as [P1 N1].
    { destruct o as [c v|c v| |]; cbn [step] in E; [contradiction| | |].
      - destruct (is_acceptable beta m c v) eqn:Ea.
        + split; [|exact (offer_newest beta depth m m1 c v Hb Hp Hm Ea E)].
          intros e He. destruct (add_In _ _ _ _ _ _ E He) as [->|Hi]; [exact Ho|auto].
        + injection E as <-; auto.
      - destruct m as [|x m]; [discriminate|]. assert (m1 = removelast (x :: m)) as -> by (unfold pop_back in E; congruence).
        split; [|apply newest_removelast; auto].
        intros e He. apply Hp. apply In_removelast; auto.
      - injection E as <-. split; [intros e []|exact I]. }
    apply (IH m1); auto.
Qed.

(** ** history: without eviction an accepted point is not dominated by anything inserted before *)
(** points inserted by a run, newest first, starting from the history [h]; [None] if some insertion
    happened at full depth (an entry was evicted) *)
Fixpoint history (beta : R) (depth : Z) (m : filter R) (h : list (R * R)) (ps : list (R * R))
  : option (filter R * list (R * R)) :=
  match ps with
  | [] => Some (m, h)
  | (c, v) :: r =>
      if is_acceptable beta m c v then
        if below_depth m depth then
          match add depth m c v with
          | Some m' => history beta depth m' ((c, v) :: h) r
          | None => None
          end
        else None
      else history beta depth m h r
  end.

Definition covers (m h : list (R * R)) : Prop := forall p, In p h -> exists e, In e m /\ dominates e p.

Lemma history_inv : forall beta depth ps m h m' h', 0 <= beta -> beta <= 1 ->
  (forall p, In p ps -> 0 <= snd p) ->
  (forall e, In e m -> 0 <= snd e) -> covers m h -> newest_undominated h ->
  history beta depth m h ps = Some (m', h') ->
  (forall e, In e m' -> 0 <= snd e) /\ covers m' h' /\ newest_undominated h'.
Proof.
  intros beta depth. induction ps as [|[c v] ps IH]; intros m h m' h' Hb Hb1 Hps Hm Hc Hh; cbn [history].
  - intros [= <- <-]; auto.
  - destruct (is_acceptable beta m c v) eqn:Ea; [|apply IH; auto; intros; apply Hps; right; auto].
    destruct (below_depth m depth) eqn:Eb; [|discriminate].
    destruct (add depth m c v) as [m1|] eqn:E; [|discriminate].
    destruct (add_removes _ _ _ _ _ Eb E) as (r & -> & Hr).
    apply IH; auto.
    + intros p Hp; apply Hps; right; auto.
    + intros e [<-|He]; [apply (Hps (c, v)); left; auto|]. apply Hm. apply Hr in He; tauto.
    + intros p [<-|Hp].
      * exists (c, v). split; [left; auto|apply dominates_refl].
      * destruct (Hc p Hp) as (e & He & Hd).
        destruct (dominated_by c v e) eqn:Ed.
        { exists (c, v). split; [left; auto|]. apply dominated_by_R in Ed. eapply dominates_trans; eauto. }
        { exists e. split; auto. right. apply Hr. split; auto. intros X. apply dominated_by_R in X. congruence. }
    + split; auto. intros q Hq Hd. destruct (Hc q Hq) as (e & He & Hde).
      assert (X := dominates_trans _ _ _ Hde Hd).
      apply (proj1 (is_acceptable_R beta m c v) Ea e He). apply dominates_blocks; auto.
Qed.
