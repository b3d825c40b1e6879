(** Farkas' lemma by Fourier-Motzkin elimination: a finite system of linear inequalities a.x <= b has a solution or
    a contradiction 0 <= b < 0 follows from it by adding and scaling rows. *)
Require Import List Arith Lia Reals Lra Psatz.
From Verif Require Import Scal RSum.
Import ListNotations.
Local Open Scope R_scope.

Definition row := (vec R * R)%type.

(** rows obtained by adding rows and scaling by nonnegative numbers *)
Inductive derives (L : list row) : vec R -> R -> Prop :=
| d_in a b : In (a, b) L -> derives L a b
| d_add a b a' b' : derives L a b -> derives L a' b' -> derives L (fun j => a j + a' j) (b + b')
| d_scal c a b : 0 <= c -> derives L a b -> derives L (fun j => c * a j) (c * b).

Lemma derives_trans L L' a b : (forall a b, In (a, b) L' -> derives L a b) -> derives L' a b -> derives L a b.
Proof. intros H D. induction D; [auto|apply d_add; auto|apply d_scal; auto]. Qed.
Lemma derives_zero L n a b : (forall a b, In (a, b) L -> a n = 0) -> derives L a b -> a n = 0.
Proof. intros H D. induction D; [eauto| |]; cbn beta; nra. Qed.

Definition sat (n : nat) (x : vec R) (r : row) : Prop := rdot n (fst r) x <= snd r.

(** a number between two lists of numbers *)
Lemma between (lo hi : list R) : (forall l h, In l lo -> In h hi -> l <= h) ->
  exists t, (forall l, In l lo -> l <= t) /\ (forall h, In h hi -> t <= h).
Proof.
  intros H. destruct lo as [|l0 lo].
  - clear H. exists (fold_right Rmin 0 hi). split; [intros ? []|]. induction hi as [|h hi IH]; [intros ? []|].
    intros g [->|Hg]; simpl; [apply Rmin_l|]. eapply Rle_trans; [apply Rmin_r|auto].
  - exists (fold_right Rmax l0 lo). split.
    + clear H. intros l [->|Hl]; [|revert l Hl]; induction lo as [|m lo IH]; simpl; try (intros ? []); subst.
      * lra.
      * eapply Rle_trans; [apply IH|apply Rmax_r].
      * apply Rmax_l.
      * eapply Rle_trans; [apply IH; auto|apply Rmax_r].
    + intros h Hh. assert (H0 : l0 <= h) by (apply H; simpl; auto).
      assert (H1 : forall l, In l lo -> l <= h) by (intros; apply H; simpl; auto). clear H.
      induction lo as [|m lo IH]; simpl; [auto|]. apply Rmax_lub; [apply H1; simpl; auto|apply IH; intros; apply H1; simpl; auto].
Qed.

Section Elim.
Variable n : nat.
Definition rpos (r : row) : bool := if Rlt_dec 0 (fst r n) then true else false.
Definition rneg (r : row) : bool := if Rlt_dec (fst r n) 0 then true else false.
Definition rzero (r : row) : bool := if Req_EM_T (fst r n) 0 then true else false.
Definition comb (q r : row) : row :=
  (fun j => - (fst r n) * fst q j + fst q n * fst r j, - (fst r n) * snd q + fst q n * snd r).
Definition elim (L : list row) : list row :=
  filter rzero L ++ flat_map (fun q => map (comb q) (filter rneg L)) (filter rpos L).

Lemma elim_in L r : In r (elim L) -> (In r L /\ fst r n = 0) \/
  (exists q r', In q L /\ In r' L /\ 0 < fst q n /\ fst r' n < 0 /\ r = comb q r').
Proof.
  unfold elim. rewrite in_app_iff, filter_In, in_flat_map. intros [[H1 H2]|(q & Hq & Hr)].
  - left. unfold rzero in H2. destruct (Req_EM_T _ _); [auto|discriminate].
  - right. apply in_map_iff in Hr. destruct Hr as (r' & E & Hr'). apply filter_In in Hq. apply filter_In in Hr'.
    destruct Hq as [Hq1 Hq2]. destruct Hr' as [Hr1 Hr2]. unfold rpos in Hq2. unfold rneg in Hr2.
    destruct (Rlt_dec 0 _) in Hq2; [|discriminate]. destruct (Rlt_dec _ 0) in Hr2; [|discriminate]. exists q, r'. auto.
Qed.
Lemma elim_derives L a b : In (a, b) (elim L) -> derives L a b.
Proof.
  intros H. apply elim_in in H. destruct H as [[H _]|((a1 & b1) & (a2 & b2) & H1 & H2 & P1 & P2 & E)]; [apply d_in; auto|].
  unfold comb in E. cbn [fst snd] in *. injection E as -> ->.
  apply d_add; apply d_scal; try lra; apply d_in; auto.
Qed.
Lemma elim_zero L a b : In (a, b) (elim L) -> a n = 0.
Proof.
  intros H. apply elim_in in H. destruct H as [[_ H]|((a1 & b1) & (a2 & b2) & H1 & H2 & P1 & P2 & E)]; [auto|].
  unfold comb in E. cbn [fst snd] in *. injection E as -> ->. ring.
Qed.
Lemma elim_has_zero L r : In r L -> fst r n = 0 -> In r (elim L).
Proof. intros H E. unfold elim. apply in_or_app. left. apply filter_In. split; auto. unfold rzero. destruct (Req_EM_T _ _); auto. Qed.
Lemma elim_has_comb L q r : In q L -> In r L -> 0 < fst q n -> fst r n < 0 -> In (comb q r) (elim L).
Proof.
  intros H1 H2 P1 P2. unfold elim. apply in_or_app. right. apply in_flat_map. exists q. split.
  - apply filter_In. split; auto. unfold rpos. destruct (Rlt_dec _ _); [auto|contradiction].
  - apply in_map. apply filter_In. split; auto. unfold rneg. destruct (Rlt_dec _ _); [auto|contradiction].
Qed.

Lemma extend L x : (forall r, In r (elim L) -> sat n x r) -> exists x', forall r, In r L -> sat (S n) x' r.
Proof.
  intros H. pose (bd := fun r : row => (snd r - rdot n (fst r) x) / fst r n).
  destruct (between (map bd (filter rneg L)) (map bd (filter rpos L))) as (t & T1 & T2).
  - intros l h Hl Hh. apply in_map_iff in Hl. apply in_map_iff in Hh. destruct Hl as (r & <- & Hr). destruct Hh as (q & <- & Hq).
    apply filter_In in Hr. apply filter_In in Hq. destruct Hr as [Hr Hr']. destruct Hq as [Hq Hq'].
    unfold rneg in Hr'. unfold rpos in Hq'. destruct (Rlt_dec _ 0) as [Nr|] in Hr'; [|discriminate]. destruct (Rlt_dec 0 _) as [Pq|] in Hq'; [|discriminate].
    assert (S := H _ (elim_has_comb L q r Hq Hr Pq Nr)). unfold sat, comb in S. cbn [fst snd] in S.
    assert (E : rdot n (fun j => - fst r n * fst q j + fst q n * fst r j) x = - fst r n * rdot n (fst q) x + fst q n * rdot n (fst r) x).
    { rewrite !rdot_def. rewrite <- !rsum_scal, <- rsum_plus. apply rsum_ext. intros; ring. }
    rewrite E in S. unfold bd. set (aq := fst q n) in *. set (ar := fst r n) in *.
    set (cq := snd q - rdot n (fst q) x). set (cr := snd r - rdot n (fst r) x).
    assert (S' : 0 <= - ar * cq + aq * cr) by (unfold cq, cr; lra). clearbody aq ar cq cr.
    apply (Rmult_le_reg_r (aq * - ar)); [apply Rmult_lt_0_compat; lra|].
    replace (cr / ar * (aq * - ar)) with (- (aq * cr)) by (field; lra).
    replace (cq / aq * (aq * - ar)) with (- ar * cq) by (field; lra). lra.
  - exists (fun j => if Nat.eqb j n then t else x j). intros r Hr.
    assert (E : rdot (S n) (fst r) (fun j => if Nat.eqb j n then t else x j) = rdot n (fst r) x + fst r n * t).
    { rewrite !rdot_def. rewrite rsum_S. rewrite Nat.eqb_refl. f_equal. apply rsum_ext. intros i Hi.
      replace (Nat.eqb i n) with false by (symmetry; apply Nat.eqb_neq; lia). reflexivity. }
    unfold sat. rewrite E. destruct (Rtotal_order (fst r n) 0) as [C|[C|C]].
    + assert (B : bd r <= t). { apply T1. apply in_map. apply filter_In. split; auto. unfold rneg. destruct (Rlt_dec _ _); [auto|contradiction]. }
      unfold bd in B. apply (Rmult_le_compat_r (- fst r n)) in B; [|lra].
      replace ((snd r - rdot n (fst r) x) / fst r n * - fst r n) with (- (snd r - rdot n (fst r) x)) in B by (field; lra). lra.
    + rewrite C. assert (S := H _ (elim_has_zero L r Hr C)). unfold sat in S. lra.
    + assert (B : t <= bd r). { apply T2. apply in_map. apply filter_In. split; auto. unfold rpos. destruct (Rlt_dec _ _); [auto|contradiction]. }
      unfold bd in B. apply (Rmult_le_compat_r (fst r n)) in B; [|lra].
      replace ((snd r - rdot n (fst r) x) / fst r n * fst r n) with (snd r - rdot n (fst r) x) in B by (field; lra). lra.
Qed.
End Elim.

Theorem farkas_lemma : forall n L, (exists x, forall r, In r L -> sat n x r) \/
  (exists a b, derives L a b /\ (forall j, (j < n)%nat -> a j = 0) /\ b < 0).
Proof.
  induction n as [|n IH]; intros L.
  - induction L as [|[a b] L IH]; [left; exists (fun _ => 0); intros ? []|].
    destruct (Rlt_dec b 0) as [H|H].
    + right. exists a, b. split; [apply d_in; simpl; auto|]. split; [intros; lia|auto].
    + destruct IH as [(x & Hx)|(a' & b' & D & Z & N)].
      * left. exists x. intros r [<-|Hr]; [|auto]. unfold sat. rewrite rdot_def. simpl. unfold rsum. simpl. rsimp. lra.
      * right. exists a', b'. split; [|auto]. apply (derives_trans _ L); [|auto]. intros; apply d_in; simpl; auto.
  - destruct (IH (elim n L)) as [(x & Hx)|(a & b & D & Z & N)].
    + left. apply (extend n L x Hx).
    + right. exists a, b. split; [apply (derives_trans _ (elim n L)); [intros; apply elim_derives with (n := n); auto|auto]|].
      split; [|auto]. intros j Hj. destruct (Nat.eq_dec j n) as [->|Hn]; [|apply Z; lia].
      apply (derives_zero (elim n L) n a b); [intros; eapply elim_zero; eauto|auto].
Qed.
