(** Proofs about dynamic-size derivatives. *)
From Coq Require Import List Arith Bool Reals Lra Lia.
From Verif Require Import Ad_Model Ad_Spec DynAd_Model DynAd_Spec.
Import ListNotations.
Local Open Scope R_scope.

Lemma loc_eqb_eq a b : loc_eqb a b = true <-> a = b.
Proof.
  destruct a, b; cbn; rewrite ?Nat.eqb_eq; split; intro H; try congruence; now injection H.
Qed.

Lemma write_same m l x : write m l x l = x.
Proof. unfold write. now rewrite (proj2 (loc_eqb_eq l l) eq_refl). Qed.

Lemma write_other m l x l' : l' <> l -> write m l x l' = m l'.
Proof.
  intro H. unfold write. destruct (loc_eqb l' l) eqn:E; [|reflexivity].
  apply loc_eqb_eq in E. contradiction.
Qed.

Lemma nth_zeros k n : nth k (repeat 0 n) 0 = 0.
Proof. revert k. induction n; destruct k; cbn; auto. Qed.

Lemma nth_nil0 k : nth k (@nil R) 0 = 0.
Proof. now destruct k. Qed.

Lemma nth_scale k x r : nth k (map (fun t => t * r) x) 0 = nth k x 0 * r.
Proof. revert k. induction x; destruct k; cbn; try ring. apply IHx. Qed.

Lemma nth_opp k x : nth k (map Ropp x) 0 = - nth k x 0.
Proof. revert k. induction x; destruct k; cbn; try ring. apply IHx. Qed.

Lemma map2_length f a b : length a = length b -> length (map2 f a b) = length a.
Proof. revert b. induction a; destruct b; cbn; intro H; try lia. now rewrite IHa by lia. Qed.

Lemma nth_map2 f k a b : f 0 0 = 0 -> length a = length b ->
  nth k (map2 f a b) 0 = f (nth k a 0) (nth k b 0).
Proof.
  intro H0. revert k b. induction a; destruct b; cbn; intro H; try discriminate.
  - destruct k; auto.
  - destruct k; auto.
Qed.

(** Value of component [k] of an expression, with zeros outside of the vectors. *)
Fixpoint dval (m : loc -> list R) (d : dx) (k : nat) : R :=
  match d with
  | DRef l => nth k (m l) 0
  | DScale d r => dval m d k * r
  | DNeg d => - dval m d k
  | DSum a b => dval m a k + dval m b k
  | DDiff a b => dval m a k - dval m b k
  end.

Lemma val_un u (x : dual R) : val (unary_fn u x) = unary_fn u (val x).
Proof. destruct u; reflexivity. Qed.

Lemma der_un u (x : dual R) k : der (unary_fn u x) k = der x k * slope u (val x).
Proof. unfold slope. destruct u; cbn; try ring. Qed.

Section Main.
Variable n : nat.
Hypothesis npos : n <> 0%nat.
Variable L : nat -> bool.
Variable v : nat -> R.
Variable Y : nat -> dual R.
Hypothesis HY : forall i, val (Y i) = v i.
Variable ltr : bool.

Definition valid (s : mstate) (l : loc) : Prop :=
  match l with LVar _ => True | LTmp j => (j < next s)%nat end.

Record Inv (s : mstate) : Prop := {
  inv_len : forall l, valid s l -> length (mem s l) = n \/ mem s l = [];
  inv_act : forall i, L i = true -> length (mem s (LVar i)) = n;
  inv_val : forall i k, nth k (mem s (LVar i)) 0 = der (Y i) k }.

Definition ext (s s' : mstate) : Prop :=
  (next s <= next s')%nat /\
  forall l, valid s l -> mem s' l = mem s l \/ (mem s l = [] /\ mem s' l = repeat 0 n).

Fixpoint full (s : mstate) (d : dx) : Prop :=
  match d with
  | DRef l => valid s l /\ length (mem s l) = n
  | DScale d _ | DNeg d => full s d
  | DSum a b | DDiff a b => full s a /\ full s b
  end.

Fixpoint chain (s : mstate) (d : dx) : Prop :=
  match d with
  | DRef l => valid s l
  | DScale d _ | DNeg d => chain s d
  | DSum _ _ | DDiff _ _ => False
  end.

Definition okd s d := full s d \/ chain s d.

Lemma valid_ext s s' l : ext s s' -> valid s l -> valid s' l.
Proof. intros [H _] Hv. destruct l; cbn in *; [trivial|lia]. Qed.

Lemma ext_refl s : ext s s.
Proof. split; auto. Qed.

Lemma ext_trans a b c : ext a b -> ext b c -> ext a c.
Proof.
  intros H1 H2. split; [destruct H1, H2; lia|]. intros l Hv.
  pose proof (valid_ext _ _ _ H1 Hv) as Hv'.
  destruct (proj2 H1 l Hv) as [E|[E1 E2]]; destruct (proj2 H2 l Hv') as [F|[F1 F2]].
  - left. congruence.
  - right. split; congruence.
  - right. split; congruence.
  - exfalso. rewrite E2 in F1. destruct n; [contradiction|discriminate].
Qed.

Lemma full_ext s s' d : ext s s' -> full s d -> full s' d.
Proof.
  intro H. induction d; cbn; try tauto.
  intros [Hv Hl]. split; [eapply valid_ext; eassumption|].
  destruct (proj2 H l Hv) as [E|[E _]]; [congruence|].
  rewrite E in Hl. cbn in Hl. congruence.
Qed.

Lemma chain_ext s s' d : ext s s' -> chain s d -> chain s' d.
Proof. intro H. induction d; cbn; try tauto. apply valid_ext; assumption. Qed.

Lemma okd_ext s s' d : ext s s' -> okd s d -> okd s' d.
Proof.
  intros H [F|C]; [left; eapply full_ext|right; eapply chain_ext]; eassumption.
Qed.

Fixpoint refs (s : mstate) (d : dx) : Prop :=
  match d with
  | DRef l => valid s l
  | DScale d _ | DNeg d => refs s d
  | DSum a b | DDiff a b => refs s a /\ refs s b
  end.

Lemma full_refs s d : full s d -> refs s d.
Proof. induction d; cbn; tauto. Qed.

Lemma okd_refs s d : okd s d -> refs s d.
Proof.
  intros [F|C]; [now apply full_refs|]. revert C. induction d; cbn; tauto.
Qed.

Lemma dval_ext s s' d k : ext s s' -> refs s d -> dval (mem s') d k = dval (mem s) d k.
Proof.
  intro H. induction d; cbn; intro Hr.
  - destruct (proj2 H l Hr) as [E|[E1 E2]]; [congruence|].
    rewrite E1, E2, nth_zeros, nth_nil0. reflexivity.
  - now rewrite IHd.
  - now rewrite IHd.
  - destruct Hr. now rewrite IHd1, IHd2.
  - destruct Hr. now rewrite IHd1, IHd2.
Qed.

Lemma size_full s d : full s d -> size (mem s) d = n.
Proof. induction d; cbn; tauto. Qed.

Lemma materialise_full s d : full s d -> exists x,
  materialise (mem s) d = Some x /\ length x = n /\ forall k, nth k x 0 = dval (mem s) d k.
Proof.
  induction d; cbn; intro H.
  - eexists. split; [reflexivity|]. tauto.
  - destruct (IHd H) as (x & -> & Hl & Hx). eexists. split; [reflexivity|].
    rewrite map_length. split; [exact Hl|]. intro k. now rewrite nth_scale, Hx.
  - destruct (IHd H) as (x & -> & Hl & Hx). eexists. split; [reflexivity|].
    rewrite map_length. split; [exact Hl|]. intro k. now rewrite nth_opp, Hx.
  - destruct H as [H1 H2]. destruct (IHd1 H1) as (x & -> & Hl & Hx).
    destruct (IHd2 H2) as (y & -> & Hl' & Hy).
    rewrite Hl, Hl', Nat.eqb_refl. eexists. split; [reflexivity|].
    rewrite map2_length by congruence. split; [exact Hl|]. intro k.
    rewrite nth_map2; [now rewrite Hx, Hy|ring|congruence].
  - destruct H as [H1 H2]. destruct (IHd1 H1) as (x & -> & Hl & Hx).
    destruct (IHd2 H2) as (y & -> & Hl' & Hy).
    rewrite Hl, Hl', Nat.eqb_refl. eexists. split; [reflexivity|].
    rewrite map2_length by congruence. split; [exact Hl|]. intro k.
    rewrite nth_map2; [now rewrite Hx, Hy|ring|congruence].
Qed.

Lemma materialise_chain s d : Inv s -> chain s d -> exists x,
  materialise (mem s) d = Some x /\ (length x = n \/ x = []) /\
  forall k, nth k x 0 = dval (mem s) d k.
Proof.
  intro I. induction d; cbn; intro H; try contradiction.
  - eexists. split; [reflexivity|]. split; [exact (inv_len _ I l H)|reflexivity].
  - destruct (IHd H) as (x & -> & Hl & Hx). eexists. split; [reflexivity|].
    rewrite map_length. split; [destruct Hl as [?| ->]; [now left|now right]|].
    intro k. now rewrite nth_scale, Hx.
  - destruct (IHd H) as (x & -> & Hl & Hx). eexists. split; [reflexivity|].
    rewrite map_length. split; [destruct Hl as [?| ->]; [now left|now right]|].
    intro k. now rewrite nth_opp, Hx.
Qed.

Lemma materialise_okd s d : Inv s -> okd s d -> exists x,
  materialise (mem s) d = Some x /\ (length x = n \/ x = []) /\
  forall k, nth k x 0 = dval (mem s) d k.
Proof.
  intros I [F|C]; [|now apply materialise_chain].
  destruct (materialise_full s d F) as (x & E & H & K). exists x. auto.
Qed.

(** writing zeros into an empty vector *)
Lemma fill s l : Inv s -> valid s l -> mem s l = [] ->
  let s' := mkM (next s) (write (mem s) l (repeat 0 n)) in
  Inv s' /\ ext s s' /\ length (mem s' l) = n.
Proof.
  intros I Hv He s'.
  assert (Hl : length (mem s' l) = n).
  { unfold s'; cbn [mem]. rewrite write_same. apply repeat_length. }
  split; [split|split]; [| | | |exact Hl].
  - intros l' Hv'. destruct (loc_eqb l' l) eqn:E.
    + apply loc_eqb_eq in E. subst. now left.
    + unfold s'; cbn [mem]. unfold write. rewrite E. apply (inv_len _ I).
      destruct l'; exact Hv'.
  - intros i Hi. pose proof (inv_act _ I i Hi) as Ha.
    unfold s'; cbn [mem]. rewrite write_other; [exact Ha|].
    intro E. rewrite E, He in Ha. cbn in Ha. congruence.
  - intros i k. unfold s'; cbn [mem]. rewrite <- (inv_val _ I i k).
    destruct (loc_eqb (LVar i) l) eqn:E.
    + apply loc_eqb_eq in E. rewrite <- E in He |- *. rewrite write_same, He.
      now rewrite nth_zeros, nth_nil0.
    + unfold write. now rewrite E.
  - split; [cbn; lia|]. intros l' Hv'. unfold s'; cbn [mem].
    destruct (loc_eqb l' l) eqn:E.
    + apply loc_eqb_eq in E. subst. right. split; [exact He|apply write_same].
    + left. unfold write. now rewrite E.
Qed.

Definition isref (d : dx) : Prop := exists l, d = DRef l.

Lemma coherent_ok s da db : Inv s -> okd s da -> okd s db ->
  isref da \/ full s da -> isref db \/ full s db -> full s da \/ full s db ->
  let s' := mkM (next s) (make_coherent (mem s) da db) in
  Inv s' /\ ext s s' /\ full s' da /\ full s' db.
Proof.
  intros I Oa Ob Ra Rb Rf s'.
  assert (Case1 : forall d la, da = DRef la -> db = d -> make_coherent (mem s) da db =
     (if (length (mem s la) =? 0)%nat then write (mem s) la (repeat 0 (size (mem s) d))
      else match d with
           | DRef lb => if (length (mem s lb) =? 0)%nat
                        then write (mem s) lb (repeat 0 (length (mem s la))) else mem s
           | _ => mem s end)).
  { intros d la -> ->. destruct d; cbn; try reflexivity;
      destruct (length (mem s la) =? 0)%nat; reflexivity. }
  assert (Hleave : full s da -> full s db -> make_coherent (mem s) da db = mem s).
  { intros Fa Fb. destruct da as [la|da r|da|a1 a2|a1 a2];
      destruct db as [lb|db r'|db|b1 b2|b1 b2]; cbn in *; try reflexivity;
      repeat match goal with H : valid _ _ /\ length _ = n |- _ =>
        destruct H as [? ->] end;
      (destruct (n =? 0)%nat eqn:En; [apply Nat.eqb_eq in En; contradiction|reflexivity]). }
  assert (Hsame : full s da -> full s db -> Inv s' /\ ext s s' /\ full s' da /\ full s' db).
  { intros Fa Fb. unfold s'. rewrite (Hleave Fa Fb).
    replace (mkM (next s) (mem s)) with s by (destruct s; reflexivity).
    repeat split; try assumption; apply ext_refl || exact (ext_refl s) || apply I || auto. }
  assert (Hempty : forall l, valid s l -> length (mem s l) <> n -> mem s l = []).
  { intros l Hv Hn. destruct (inv_len _ I l Hv); [contradiction|assumption]. }
  assert (Hdec : forall d, isref d \/ full s d -> okd s d ->
     full s d \/ exists l, d = DRef l /\ valid s l /\ mem s l = []).
  { intros d [[l ->]|F] O; [|now left].
    pose proof (okd_refs _ _ O) as Hv. cbn in Hv.
    destruct (inv_len _ I l Hv) as [E|E]; [left; cbn; auto|right; eauto]. }
  destruct (Hdec da Ra Oa) as [Fa|(la & -> & Hva & Ea)];
    destruct (Hdec db Rb Ob) as [Fb|(lb & -> & Hvb & Eb)].
  - now apply Hsame.
  - (* right operand empty *)
    assert (E : make_coherent (mem s) da (DRef lb) = write (mem s) lb (repeat 0 n)).
    { destruct da as [la|da r|da|a1 a2|a1 a2].
      - destruct Fa as [Hv Hl]. cbn. rewrite Hl, Eb. cbn.
        destruct (n =? 0)%nat eqn:En; [apply Nat.eqb_eq in En; contradiction|reflexivity].
      - cbn. rewrite Eb. cbn. now rewrite (size_full s da) by exact Fa.
      - cbn. rewrite Eb. cbn. now rewrite (size_full s da) by exact Fa.
      - cbn. rewrite Eb. cbn. now rewrite (size_full s a2) by exact (proj2 Fa).
      - cbn. rewrite Eb. cbn. now rewrite (size_full s a2) by exact (proj2 Fa). }
    unfold s'. rewrite E. destruct (fill s lb I Hvb Eb) as (I' & X & Hl).
    split; [exact I'|]. split; [exact X|]. split; [exact (full_ext _ _ _ X Fa)|].
    cbn [full]. split; [exact (valid_ext _ _ _ X Hvb)|exact Hl].
  - assert (E : make_coherent (mem s) (DRef la) db = write (mem s) la (repeat 0 n)).
    { rewrite (Case1 db la eq_refl eq_refl), Ea. cbn [length Nat.eqb].
      now rewrite (size_full s db Fb). }
    unfold s'. rewrite E. destruct (fill s la I Hva Ea) as (I' & X & Hl).
    split; [exact I'|]. split; [exact X|]. split; [|exact (full_ext _ _ _ X Fb)].
    cbn [full]. split; [exact (valid_ext _ _ _ X Hva)|exact Hl].
  - exfalso. destruct Rf as [F|F]; destruct F as [_ F].
    + rewrite Ea in F. cbn in F. congruence.
    + rewrite Eb in F. cbn in F. congruence.
Qed.

Lemma combine_ok s da db x d : Inv s -> okd s da -> okd s db ->
  isref da \/ full s da -> isref db \/ full s db -> full s da \/ full s db ->
  exists s', combine s da db x d = Some (s', (x, d)) /\
    Inv s' /\ ext s s' /\ full s' da /\ full s' db.
Proof.
  intros I Oa Ob Ra Rb Rf.
  destruct (coherent_ok s da db I Oa Ob Ra Rb Rf) as (I' & X & Fa & Fb).
  exists (mkM (next s) (make_coherent (mem s) da db)). split; [|auto].
  unfold combine. rewrite (size_full _ _ Fa : size (make_coherent (mem s) da db) da = n).
  rewrite (size_full _ _ Fb : size (make_coherent (mem s) da db) db = n).
  now rewrite Nat.eqb_refl.
Qed.

(** a new temporary *)
Lemma alloc_ok s x : Inv s -> length x = n \/ x = [] ->
  let (s', l) := alloc s x in
  Inv s' /\ ext s s' /\ valid s' l /\ mem s' l = x.
Proof.
  intros I Hx. cbn. set (s' := mkM _ _).
  assert (Hm : forall l, valid s l -> mem s' l = mem s l).
  { intros l Hv. unfold s'; cbn [mem]. apply write_other. intros ->. cbn in Hv. lia. }
  split; [split|split; [|split]].
  - intros l Hv. destruct (loc_eqb l (LTmp (next s))) eqn:E.
    + apply loc_eqb_eq in E. subst. unfold s'; cbn [mem]. now rewrite write_same.
    + rewrite Hm; [apply (inv_len _ I)|]; destruct l as [i|j]; cbn in Hv |- *; try trivial;
        cbn in E; apply Nat.eqb_neq in E; lia.
  - intros i Hi. rewrite Hm by exact Logic.I. apply (inv_act _ I i Hi).
  - intros i k. rewrite Hm by exact Logic.I. apply (inv_val _ I).
  - split; [cbn; lia|]. intros l Hv. left. now apply Hm.
  - lia.
  - apply write_same.
Qed.

Definition good_res (e : expr) (s s' : mstate) (x : R) (d : dx) : Prop :=
  Inv s' /\ ext s s' /\ x = val (ev Y e) /\ okd s' d /\
  (active L e = true -> full s' d) /\ (object e = true -> isref d) /\
  forall k, dval (mem s') d k = der (ev Y e) k.

Definition succeeds (e : expr) : Prop := forall s, Inv s ->
  exists s' x d, evd ltr v e s = Some (s', (x, d)) /\ good_res e s s' x d.

Lemma both_ok a b s k : succeeds a -> succeeds b -> Inv s ->
  exists s' xa da xb db,
    both ltr (evd ltr v a) (evd ltr v b) s k = k s' (xa, da) (xb, db) /\
    good_res a s s' xa da /\ good_res b s s' xb db.
Proof.
  intros Ha Hb I. unfold succeeds in Ha, Hb. unfold both.
  set (fa := evd ltr v a) in *. set (fb := evd ltr v b) in *. clearbody fa fb.
  destruct ltr.
  - destruct (Ha s I) as (s1 & xa & da & -> & I1 & X1 & Vx & O1 & A1 & P1 & D1).
    destruct (Hb s1 I1) as (s2 & xb & db & -> & I2 & X2 & Vy & O2 & A2 & P2 & D2).
    exists s2, xa, da, xb, db. split; [reflexivity|]. split; split; try exact I2.
    + split; [eapply ext_trans; eassumption|]. split; [exact Vx|].
      split; [eapply okd_ext; eassumption|].
      split; [intro T; eapply full_ext; eauto|]. split; [exact P1|].
      intro i. rewrite (dval_ext s1 s2) by (assumption || now apply okd_refs). apply D1.
    + split; [eapply ext_trans; eassumption|]. auto.
  - destruct (Hb s I) as (s1 & xb & db & -> & I1 & X1 & Vx & O1 & A1 & P1 & D1).
    destruct (Ha s1 I1) as (s2 & xa & da & -> & I2 & X2 & Vy & O2 & A2 & P2 & D2).
    exists s2, xa, da, xb, db. split; [reflexivity|]. split; split; try exact I2.
    + split; [eapply ext_trans; eassumption|]. auto.
    + split; [eapply ext_trans; eassumption|]. split; [exact Vx|].
      split; [eapply okd_ext; eassumption|].
      split; [intro T; eapply full_ext; eauto|]. split; [exact P1|].
      intro i. rewrite (dval_ext s1 s2) by (assumption || now apply okd_refs). apply D1.
Qed.

Lemma copy_ok s x d : Inv s -> okd s d ->
  exists s' d', copy s x d = Some (s', (x, d')) /\ Inv s' /\ ext s s' /\ okd s' d' /\
    (full s d -> full s' d') /\ (isref d -> isref d') /\
    forall k, dval (mem s') d' k = dval (mem s) d k.
Proof.
  intros I O. destruct d as [l|d r|d|a b|a b];
    try (exists s; eexists; split; [reflexivity|]; split; [exact I|];
         split; [apply ext_refl|]; auto; fail).
  pose proof (okd_refs _ _ O) as Hv. cbn in Hv.
  pose proof (alloc_ok s (mem s l) I (inv_len _ I l Hv)) as A.
  unfold copy. destruct (alloc s (mem s l)) as [s' l'].
  destruct A as (I' & X & Hv' & Hm). exists s', (DRef l'). split; [reflexivity|].
  split; [exact I'|]. split; [exact X|]. split; [right; exact Hv'|].
  split; [cbn; rewrite Hm; tauto|]. split; [intros _; now exists l'|].
  intro k. cbn. now rewrite Hm.
Qed.

Lemma plain_ok s x d : Inv s -> okd s d ->
  exists s' l, plain_result s x d = Some (s', (x, DRef l)) /\ Inv s' /\ ext s s' /\
    okd s' (DRef l) /\ (full s d -> full s' (DRef l)) /\
    forall k, dval (mem s') (DRef l) k = dval (mem s) d k.
Proof.
  intros I O. unfold plain_result.
  destruct (materialise_okd s d I O) as (y & E & Hy & Hk). rewrite E.
  pose proof (alloc_ok s y I Hy) as A. destruct (alloc s y) as [s' l].
  destruct A as (I' & X & Hv & Hm). exists s', l. split; [reflexivity|].
  split; [exact I'|]. split; [exact X|]. split; [right; exact Hv|].
  split.
  - intro F. destruct (materialise_full s d F) as (y' & E' & Hl & _).
    assert (y = y') as <- by congruence. cbn. rewrite Hm. auto.
  - intro k. cbn. rewrite Hm. apply Hk.
Qed.

Lemma arith_ok a b x d (mk : dx -> dx -> R -> R -> dx) e :
  succeeds a -> succeeds b ->
  object a || active L a = true -> object b || active L b = true ->
  active L a || active L b = true -> object e = false ->
  (forall xa xb da db s', full s' da -> full s' db -> full s' (d xa xb da db)) ->
  (forall xa xb da db m k, dval m (d xa xb da db) k = dval m (mk da db xa xb) k) ->
  x (val (ev Y a)) (val (ev Y b)) = val (ev Y e) ->
  (forall m da db k, dval m da k = der (ev Y a) k -> dval m db k = der (ev Y b) k ->
     dval m (mk da db (val (ev Y a)) (val (ev Y b))) k = der (ev Y e) k) ->
  forall s, Inv s -> exists s' x' d',
    both ltr (evd ltr v a) (evd ltr v b) s (fun s ra rb =>
      combine s (snd ra) (snd rb) (x (fst ra) (fst rb))
        (d (fst ra) (fst rb) (snd ra) (snd rb))) = Some (s', (x', d')) /\
    good_res e s s' x' d'.
Proof.
  intros Ha Hb Ra Rb Rf Oe Hf Hd Hx Hk s I.
  destruct (both_ok a b s (fun s ra rb =>
      combine s (snd ra) (snd rb) (x (fst ra) (fst rb))
        (d (fst ra) (fst rb) (snd ra) (snd rb))) Ha Hb I)
    as (s1 & xa & da & xb & db & -> & Ga & Gb).
  cbn [fst snd].
  destruct Ga as (I1 & X1 & Vx & O1 & A1 & P1 & D1).
  destruct Gb as (_ & _ & Vy & O2 & A2 & P2 & D2).
  destruct (combine_ok s1 da db (x xa xb) (d xa xb da db)) as (s2 & E & I2 & X2 & Fa & Fb);
    try assumption.
  - apply orb_true_iff in Ra. destruct Ra as [T|T]; [left; auto|right; auto].
  - apply orb_true_iff in Rb. destruct Rb as [T|T]; [left; auto|right; auto].
  - apply orb_true_iff in Rf. destruct Rf as [T|T]; [left; auto|right; auto].
  - exists s2, (x xa xb), (d xa xb da db). split; [exact E|].
    assert (F : full s2 (d xa xb da db)) by (apply Hf; assumption).
    split; [exact I2|]. split; [eapply ext_trans; eassumption|].
    split; [rewrite Vx, Vy; exact Hx|]. split; [left; exact F|].
    split; [auto|]. split; [rewrite Oe; discriminate|].
    intro k. rewrite Hd, Vx, Vy. apply Hk.
    + rewrite (dval_ext s1 s2) by (assumption || now apply okd_refs). apply D1.
    + rewrite (dval_ext s1 s2) by (assumption || now apply okd_refs). apply D2.
Qed.

Lemma map_ok a e x (f : R -> dx -> dx) :
  succeeds a -> active L e = active L a -> object e = false ->
  (forall y s d, full s d -> full s (f y d)) -> (forall y s d, chain s d -> chain s (f y d)) ->
  x (val (ev Y a)) = val (ev Y e) ->
  (forall m d k, dval m d k = der (ev Y a) k ->
     dval m (f (val (ev Y a)) d) k = der (ev Y e) k) ->
  forall s, Inv s -> exists s' x' d',
    un1 (evd ltr v a) s (fun s r => Some (s, (x (fst r), f (fst r) (snd r))))
      = Some (s', (x', d')) /\ good_res e s s' x' d'.
Proof.
  intros Ha Ea Oe Hf Hc Hx Hk s I. unfold un1.
  destruct (Ha s I) as (s1 & xa & da & -> & I1 & X1 & Vx & O1 & A1 & P1 & D1).
  cbn [fst snd]. exists s1, (x xa), (f xa da). split; [reflexivity|].
  split; [exact I1|]. split; [exact X1|]. split; [rewrite Vx; exact Hx|].
  split; [destruct O1; [left|right]; auto|].
  split; [rewrite Ea; auto|]. split; [rewrite Oe; discriminate|].
  intro k. rewrite Vx. apply Hk. apply D1.
Qed.

Lemma copy_node_ok a e x :
  succeeds a -> active L e = active L a -> object e = object a ->
  x (val (ev Y a)) = val (ev Y e) -> (forall k, der (ev Y e) k = der (ev Y a) k) ->
  forall s, Inv s -> exists s' x' d',
    un1 (evd ltr v a) s (fun s r => copy s (x (fst r)) (snd r)) = Some (s', (x', d')) /\
    good_res e s s' x' d'.
Proof.
  intros Ha Ea Oe Hx Hk s I. unfold un1.
  destruct (Ha s I) as (s1 & xa & da & -> & I1 & X1 & Vx & O1 & A1 & P1 & D1).
  cbn [fst snd].
  destruct (copy_ok s1 (x xa) da I1 O1) as (s2 & d' & E & I2 & X2 & O2 & F & P & D).
  exists s2, (x xa), d'. split; [exact E|]. split; [exact I2|].
  split; [eapply ext_trans; eassumption|]. split; [rewrite Vx; exact Hx|].
  split; [exact O2|]. split; [rewrite Ea; auto|]. split; [rewrite Oe; auto|].
  intro k. rewrite D, Hk. apply D1.
Qed.

Lemma choose_ok a b e (P : R -> R -> Prop) (dec : forall x y, {P x y} + {~ P x y}) :
  succeeds a -> succeeds b -> active L e = active L a && active L b ->
  ev Y e = (if dec (val (ev Y a)) (val (ev Y b)) then ev Y a else ev Y b) ->
  forall s, Inv s -> exists s' x' d',
    both ltr (evd ltr v a) (evd ltr v b) s (fun s ra rb =>
      if dec (fst ra) (fst rb) then plain_result s (fst ra) (snd ra)
      else plain_result s (fst rb) (snd rb)) = Some (s', (x', d')) /\
    good_res e s s' x' d'.
Proof.
  intros Ha Hb Ea Ee s I.
  destruct (both_ok a b s (fun s ra rb =>
      if dec (fst ra) (fst rb) then plain_result s (fst ra) (snd ra)
      else plain_result s (fst rb) (snd rb)) Ha Hb I)
    as (s1 & xa & da & xb & db & -> & Ga & Gb).
  cbn [fst snd].
  destruct Ga as (I1 & X1 & Vx & O1 & A1 & P1 & D1).
  destruct Gb as (_ & _ & Vy & O2 & A2 & P2 & D2).
  rewrite <- Vx, <- Vy in Ee. destruct (dec xa xb).
  - destruct (plain_ok s1 xa da I1 O1) as (s2 & l & -> & I2 & X2 & O & F & D).
    exists s2, xa, (DRef l). split; [reflexivity|]. split; [exact I2|].
    split; [eapply ext_trans; eassumption|]. split; [rewrite Ee; exact Vx|].
    split; [exact O|]. split; [rewrite Ea; intro T; apply andb_true_iff in T; apply F; tauto|].
    split; [intros _; now exists l|]. intro k. rewrite D, Ee. apply D1.
  - destruct (plain_ok s1 xb db I1 O2) as (s2 & l & -> & I2 & X2 & O & F & D).
    exists s2, xb, (DRef l). split; [reflexivity|]. split; [exact I2|].
    split; [eapply ext_trans; eassumption|]. split; [rewrite Ee; exact Vy|].
    split; [exact O|]. split; [rewrite Ea; intro T; apply andb_true_iff in T; apply F; tauto|].
    split; [intros _; now exists l|]. intro k. rewrite D, Ee. apply D2.
Qed.

Ltac split_disc H :=
  cbn [disciplined] in H;
  repeat match type of H with
  | _ && _ = true => let H' := fresh "Hd" in apply andb_true_iff in H; destruct H as [H H']
  end.

Lemma evd_ok e : disciplined L e = true -> succeeds e.
Proof.
  induction e; intro H; try (split_disc H; intros s I; cbn [evd]).
  - exists s, (v i), (DRef (LVar i)). split; [reflexivity|]. split; [exact I|].
    split; [apply ext_refl|]. split; [symmetry; apply HY|].
    split; [right; exact Logic.I|].
    split; [intro T; split; [exact Logic.I|exact (inv_act _ I i T)]|].
    split; [intros _; now eexists|]. intro k. apply (inv_val _ I).
  - pose proof (alloc_ok s [] I (or_intror eq_refl)) as A.
    destruct (alloc s []) as [s' l]. destruct A as (I' & X & Hv & Hm).
    exists s', c, (DRef l). split; [reflexivity|]. split; [exact I'|]. split; [exact X|].
    split; [reflexivity|]. split; [right; exact Hv|]. split; [discriminate|].
    split; [intros _; now eexists|]. intro k. cbn. rewrite Hm. now destruct k.
  - apply (arith_ok e1 e2 Rplus (fun _ _ da db => DSum da db) (fun da db _ _ => DSum da db));
      auto; try (cbn; tauto).
    intros m da db k E1 E2. cbn. now rewrite E1, E2.
  - apply (arith_ok e1 e2 Rminus (fun _ _ da db => DDiff da db)
             (fun da db _ _ => DDiff da db)); auto; try (cbn; tauto).
    intros m da db k E1 E2. cbn. now rewrite E1, E2.
  - apply (arith_ok e1 e2 Rmult
             (fun xa xb da db => DSum (DScale da xb) (DScale db xa))
             (fun da db xa xb => DSum (DScale da xb) (DScale db xa)));
      auto; try (cbn; tauto).
    intros m da db k E1 E2. cbn. now rewrite E1, E2.
  - apply (arith_ok e1 e2 Rdiv
             (fun xa xb da db => DScale (DDiff (DScale da xb) (DScale db xa))
                (1 / (xb * xb)))
             (fun da db xa xb => DScale (DDiff (DScale da xb) (DScale db xa))
                (1 / (xb * xb))));
      auto; try (cbn; tauto).
    intros m da db k E1 E2. cbn. now rewrite E1, E2.
  - apply (map_ok e _ Ropp (fun _ d => DNeg d)); auto.
    intros m d k E. cbn. now rewrite E.
  - apply (copy_node_ok e _ (fun x => x + c)); auto.
  - apply (copy_node_ok e _ (fun x => c + x)); auto.
  - apply (copy_node_ok e _ (fun x => x - c)); auto.
  - apply (map_ok e _ (fun x => c - x) (fun _ d => DNeg d)); auto.
    intros m d k E. cbn. now rewrite E.
  - apply (map_ok e _ (fun x => x * c) (fun _ d => DScale d c)); auto.
    intros m d k E. cbn. now rewrite E.
  - apply (map_ok e _ (fun x => x * c) (fun _ d => DScale d c)); auto.
    intros m d k E. cbn. now rewrite E.
  - apply (map_ok e _ (fun x => x / c) (fun _ d => DScale d (1 / c))); auto.
    intros m d k E. cbn. now rewrite E.
  - apply (map_ok e _ (fun x => c / x) (fun x d => DScale d (- c / (x * x)))); auto.
    intros m d k E. cbn. now rewrite E.
  - apply (map_ok e _ (unary_fn u) (fun x d => DScale d (slope u x))); auto.
    + cbn [ev]. symmetry. apply val_un.
    + intros m d k E. cbn [dval ev]. rewrite E. symmetry. apply der_un.
  - apply (map_ok e _ (fun x => std_pow x y) (fun x d => DScale d (pow_slope x y))); auto.
    intros m d k E. cbn. rewrite E. reflexivity.
  - (* atan2 *)
    match goal with |- context [both _ _ _ _ ?k] =>
      destruct (both_ok e1 e2 s k (IHe1 H) (IHe2 Hd1) I)
        as (s1 & xa & da & xb & db & -> & Ga & Gb) end.
    cbn [fst snd].
    destruct Ga as (I1 & X1 & Vx & O1 & A1 & P1 & D1).
    destruct Gb as (_ & _ & Vy & O2 & A2 & P2 & D2).
    pose proof (A1 Hd0) as Fa. pose proof (A2 Hd) as Fb.
    rewrite (size_full _ _ Fa), (size_full _ _ Fb), Nat.eqb_refl.
    set (d := DScale _ _).
    assert (F : full s1 d) by (cbn; auto).
    destruct (plain_ok s1 (std_atan2 xa xb) d I1 (or_introl F))
      as (s2 & l & -> & I2 & X2 & O & Fl & D).
    exists s2, (std_atan2 xa xb), (DRef l). split; [reflexivity|]. split; [exact I2|].
    split; [eapply ext_trans; eassumption|].
    split; [rewrite Vx, Vy; reflexivity|]. split; [exact O|].
    split; [auto|]. split; [intros _; now exists l|].
    intro k. rewrite D. unfold d. cbn [dval ev]. rewrite D1, D2, Vx, Vy. cbn.
    unfold Rdiv. f_equal. ring.
  - apply (choose_ok e1 e2 _ Rlt Rlt_dec); auto.
  - apply (choose_ok e1 e2 _ (fun x y => y <= x) (fun x y => Rle_dec y x)); auto.
Qed.

End Main.

Lemma dyn_gen n L ltr v Y d e : n <> 0%nat -> (forall i, val (Y i) = v i) ->
  common_length n d -> (forall i, L i = true -> length (d i) = n) ->
  (forall i k, nth k (d i) 0 = der (Y i) k) -> disciplined L e = true ->
  exists d' x g, run_dyn ltr v d e = Some (d', x, g) /\
    x = val (ev Y e) /\
    (forall k, nth k g 0 = der (ev Y e) k) /\
    (length g = n \/ g = []) /\
    (active L e = true -> length g = n) /\
    (forall i, d' i = d i \/ (d i = [] /\ d' i = repeat 0 n)).
Proof.
  intros Hn HY Hc HL Hv Hd.
  set (s0 := mkM 0 (fun l => match l with LVar i => d i | LTmp _ => [] end)).
  assert (I : Inv n L Y s0).
  { split.
    - intros l Hl. destruct l; cbn in *; [|lia].
      destruct (Hc i) as [E|E]; [now left|right]. now apply length_zero_iff_nil.
    - exact HL.
    - exact Hv. }
  destruct (evd_ok n Hn L v Y HY ltr e Hd s0 I)
    as (s' & x & g & E & I' & X & Vx & O & A & P & D).
  destruct (materialise_okd n L Y s' g I' O) as (y & Em & Hl & Hy).
  exists (fun i => mem s' (LVar i)), x, y. unfold run_dyn. fold s0. rewrite E, Em.
  split; [reflexivity|]. split; [exact Vx|].
  split; [intro k; rewrite Hy; apply D|]. split; [exact Hl|]. split.
  - intro T. destruct (materialise_full n L s' g (A T)) as (y' & Em' & Hl' & _). congruence.
  - intro i. exact (proj2 X (LVar i) Logic.I).
Qed.

Theorem dyn_ok n ltr v d e : n <> 0%nat -> common_length n d ->
  disciplined (fun i => negb (length (d i) =? 0)%nat) e = true ->
  exists d' x g, run_dyn ltr v d e = Some (d', x, g) /\
    x = val (ev (padded v d) e) /\
    (forall k, nth k g 0 = der (ev (padded v d) e) k) /\
    (length g = n \/ g = []) /\
    (active (fun i => negb (length (d i) =? 0)%nat) e = true -> length g = n) /\
    (forall i, d' i = d i \/ (d i = [] /\ d' i = repeat 0 n)).
Proof.
  intros Hn Hc Hd. apply dyn_gen; try assumption; try reflexivity.
  intros i Hi. destruct (Hc i) as [E|E]; [exact E|]. rewrite E in Hi. discriminate.
Qed.

(** ** Programs *)
Record Rel n L (v : nat -> R) (d : nat -> list R) (Y : nat -> dual R) : Prop := {
  rel_val : forall i, val (Y i) = v i;
  rel_len : common_length n d;
  rel_act : forall i, L i = true -> length (d i) = n;
  rel_der : forall i k, nth k (d i) 0 = der (Y i) k }.

Lemma assign_ok n L ltr v d Y r e : n <> 0%nat -> Rel n L v d Y -> disciplined L e = true ->
  exists v' d', assign_dyn ltr v d r e = Some (v', d') /\
    Rel n (upd L r (active L e)) v' d' (upd Y r (ev Y e)).
Proof.
  intros Hn [HY Hc HL Hv] Hd.
  destruct (dyn_gen n L ltr v Y d e Hn HY Hc HL Hv Hd) as (d' & x & g & E & Vx & Hk & Hl & Ha & Hs).
  unfold assign_dyn. rewrite E. do 2 eexists. split; [reflexivity|].
  assert (Hnn : forall i, d' i = d i \/ (d i = [] /\ d' i = repeat 0 n)) by exact Hs.
  split; unfold upd; intro i.
  - destruct (i =? r)%nat; auto.
  - destruct (i =? r)%nat.
    + destruct Hl as [Hl|Hl]; [left; exact Hl|right; now rewrite Hl].
    + destruct (Hs i) as [->|[_ ->]]; [apply Hc|left; apply repeat_length].
  - destruct (i =? r)%nat; [exact Ha|]. intro T.
    destruct (Hs i) as [->|[_ ->]]; [now apply HL|apply repeat_length].
  - intro k. destruct (i =? r)%nat; [apply Hk|].
    destruct (Hs i) as [->|[E0 ->]]; [apply Hv|].
    rewrite <- Hv, E0, nth_zeros, nth_nil0. reflexivity.
Qed.

Lemma value_only n L v d Y r x y : Rel n L v d Y -> val y = x ->
  (forall k, der y k = der (Y r) k) -> Rel n L (upd v r x) d (upd Y r y).
Proof.
  intros [HY Hc HL Hv] Hx Hd. split; try assumption; unfold upd; intro i.
  - destruct (i =? r)%nat; auto.
  - intro k. destruct (i =? r)%nat eqn:E; [|apply Hv].
    apply Nat.eqb_eq in E. subst i. now rewrite Hd.
Qed.

Lemma step_ok n L ltr v d Y s : n <> 0%nat -> Rel n L v d Y -> disciplined_step L s = true ->
  exists v' d', step_dyn ltr v d s = Some (v', d') /\ Rel n (active_after L s) v' d' (step_ad Y s).
Proof.
  intros Hn HR Hd.
  assert (K : forall r c, exists v' d',
    assign_dyn ltr v d r (MulR (Var r) c) = Some (v', d') /\ Rel n L v' d' (upd Y r (mulr (Y r) c))).
  { intros r c. destruct (assign_ok n L ltr v d Y r (MulR (Var r) c) Hn HR eq_refl)
      as (v' & d' & E & HR'). exists v', d'. split; [exact E|].
    destruct HR' as [A B C D]. split; auto. intros i Hi. apply C.
    unfold upd. destruct (i =? r)%nat eqn:Ei; [apply Nat.eqb_eq in Ei; subst|]; exact Hi. }
  assert (K' : forall r c, exists v' d',
    assign_dyn ltr v d r (DivR (Var r) c) = Some (v', d') /\ Rel n L v' d' (upd Y r (divr (Y r) c))).
  { intros r c. destruct (assign_ok n L ltr v d Y r (DivR (Var r) c) Hn HR eq_refl)
      as (v' & d' & E & HR'). exists v', d'. split; [exact E|].
    destruct HR' as [A B C D]. split; auto. intros i Hi. apply C.
    unfold upd. destruct (i =? r)%nat eqn:Ei; [apply Nat.eqb_eq in Ei; subst|]; exact Hi. }
  destruct s; cbn [step_dyn active_after step_ad disciplined_step] in *; auto.
  - now apply assign_ok.
  - exists (upd v r c), d. split; [reflexivity|]. now apply value_only.
  - apply andb_true_iff in Hd. destruct Hd as [Hd H3]. apply andb_true_iff in Hd.
    destruct Hd as [H1 H2]. apply (assign_ok n L ltr v d Y r (Add (Var r) e) Hn HR).
    cbn. now rewrite H1, H2, H3.
  - apply andb_true_iff in Hd. destruct Hd as [Hd H3]. apply andb_true_iff in Hd.
    destruct Hd as [H1 H2]. apply (assign_ok n L ltr v d Y r (Sub (Var r) e) Hn HR).
    cbn. now rewrite H1, H2, H3.
  - apply andb_true_iff in Hd. destruct Hd as [Hd H3]. apply andb_true_iff in Hd.
    destruct Hd as [H1 H2]. apply (assign_ok n L ltr v d Y r (Mul (Var r) e) Hn HR).
    cbn. now rewrite H1, H2, H3.
  - apply andb_true_iff in Hd. destruct Hd as [Hd H3]. apply andb_true_iff in Hd.
    destruct Hd as [H1 H2]. apply (assign_ok n L ltr v d Y r (Div (Var r) e) Hn HR).
    cbn. now rewrite H1, H2, H3.
  - exists (upd v r (v r + c)), d. split; [reflexivity|].
    apply value_only; [exact HR| |reflexivity]. cbn. now rewrite (rel_val _ _ _ _ _ HR).
  - exists (upd v r (v r - c)), d. split; [reflexivity|].
    apply value_only; [exact HR| |reflexivity]. cbn. now rewrite (rel_val _ _ _ _ _ HR).
Qed.

Theorem prog_ok n ltr p : n <> 0%nat -> forall L v d Y, Rel n L v d Y ->
  disciplined_prog L p = true ->
  exists v' d', run_prog_dyn ltr v d p = Some (v', d') /\ common_length n d' /\
    forall i, v' i = val (run_ad Y p i) /\ forall k, nth k (d' i) 0 = der (run_ad Y p i) k.
Proof.
  intro Hn. induction p as [|s p IH]; intros L v d Y HR Hd.
  - exists v, d. split; [reflexivity|]. destruct HR as [A B C D]. split; [exact B|].
    intro i. split; [symmetry; apply A|apply D].
  - cbn in Hd. apply andb_true_iff in Hd. destruct Hd as [H1 H2].
    destruct (step_ok n L ltr v d Y s Hn HR H1) as (v' & d' & E & HR').
    cbn. rewrite E. exact (IH _ _ _ _ HR' H2).
Qed.

(** ** Constants only *)
Section Empty.
Variable ltr : bool.
Variable v : nat -> R.
Definition empty (s : mstate) : Prop := forall l, mem s l = [].

Lemma size_empty s d : empty s -> size (mem s) d = 0%nat.
Proof. intro E. induction d; cbn; auto. now rewrite E. Qed.

Lemma materialise_empty s d : empty s -> materialise (mem s) d = Some [].
Proof.
  intro E. induction d; cbn; rewrite ?IHd, ?IHd1, ?IHd2; cbn; auto. now rewrite E.
Qed.

Lemma write_empty s l n' : empty s -> empty (mkM n' (write (mem s) l [])).
Proof. intros E l'. cbn. unfold write. destruct (loc_eqb l' l); auto. Qed.

Lemma coherent_empty s a b n' : empty s -> empty (mkM n' (make_coherent (mem s) a b)).
Proof.
  intro E. pose proof (size_empty s a E) as Sa. pose proof (size_empty s b E) as Sb.
  destruct a, b; cbn in *; rewrite ?E, ?Sa, ?Sb; cbn;
    try (apply write_empty; exact E); try exact E.
Qed.

Lemma combine_empty s a b x d : empty s -> exists s', combine s a b x d = Some (s', (x, d)) /\
  empty s'.
Proof.
  intro E. pose proof (coherent_empty s a b (next s) E) as E'. unfold combine.
  exists (mkM (next s) (make_coherent (mem s) a b)).
  rewrite (size_empty _ a E' : size (make_coherent (mem s) a b) a = 0%nat).
  rewrite (size_empty _ b E' : size (make_coherent (mem s) a b) b = 0%nat). auto.
Qed.

Lemma copy_empty s x d : empty s -> exists s' d', copy s x d = Some (s', (x, d')) /\ empty s'.
Proof.
  intro E. destruct d; cbn; try (do 2 eexists; split; [reflexivity|exact E]).
  rewrite E. do 2 eexists. split; [reflexivity|]. now apply write_empty.
Qed.

Lemma plain_empty s x d : empty s ->
  exists s' d', plain_result s x d = Some (s', (x, d')) /\ empty s'.
Proof.
  intro E. unfold plain_result. rewrite materialise_empty by exact E. cbn.
  do 2 eexists. split; [reflexivity|]. now apply write_empty.
Qed.

Lemma evd_empty e s : empty s ->
  exists s' d, evd ltr v e s = Some (s', (ev v e, d)) /\ empty s'.
Proof.
  assert (B : forall a b x k s,
    (forall s, empty s -> exists s' d, evd ltr v a s = Some (s', (ev v a, d)) /\ empty s') ->
    (forall s, empty s -> exists s' d, evd ltr v b s = Some (s', (ev v b, d)) /\ empty s') ->
    (forall s da db, empty s -> exists s' d, k s (ev v a, da) (ev v b, db)
        = Some (s', (x, d)) /\ empty s') -> empty s ->
    exists s' d, both ltr (evd ltr v a) (evd ltr v b) s k = Some (s', (x, d)) /\ empty s').
  { intros a b x k s0 Ha Hb Hk E. unfold both.
    set (fa := evd ltr v a) in *. set (fb := evd ltr v b) in *. clearbody fa fb.
    destruct ltr.
    - destruct (Ha s0 E) as (s1 & da & -> & E1). destruct (Hb s1 E1) as (s2 & db & -> & E2).
      now apply Hk.
    - destruct (Hb s0 E) as (s1 & db & -> & E1). destruct (Ha s1 E1) as (s2 & da & -> & E2).
      now apply Hk. }
  assert (U : forall a x k s,
    (forall s, empty s -> exists s' d, evd ltr v a s = Some (s', (ev v a, d)) /\ empty s') ->
    (forall s da, empty s -> exists s' d, k s (ev v a, da) = Some (s', (x, d)) /\ empty s') ->
    empty s -> exists s' d, un1 (evd ltr v a) s k = Some (s', (x, d)) /\ empty s').
  { intros a x k s0 Ha Hk E. unfold un1. destruct (Ha s0 E) as (s1 & da & -> & E1).
    now apply Hk. }
  revert s. induction e; intros s E; cbn [evd ev].
  - do 2 eexists. split; [reflexivity|exact E].
  - cbn. do 2 eexists. split; [reflexivity|]. now apply write_empty.
  - apply B; auto. intros s1 da db E1. cbn [fst snd].
    destruct (combine_empty s1 da db (ev v e1 + ev v e2) (DSum da db) E1) as (s2 & C & E2).
    exists s2; eexists; split; [exact C|exact E2].
  - apply B; auto. intros s1 da db E1. cbn [fst snd].
    destruct (combine_empty s1 da db (ev v e1 - ev v e2) (DDiff da db) E1) as (s2 & C & E2).
    exists s2; eexists; split; [exact C|exact E2].
  - apply B; auto. intros s1 da db E1. cbn [fst snd].
    edestruct (combine_empty s1 da db (ev v e1 * ev v e2)) as (s2 & C & E2); [exact E1|].
    exists s2; eexists; split; [exact C|exact E2].
  - apply B; auto. intros s1 da db E1. cbn [fst snd].
    edestruct (combine_empty s1 da db (ev v e1 / ev v e2)) as (s2 & C & E2); [exact E1|].
    exists s2; eexists; split; [exact C|exact E2].
  - apply U; auto. intros s1 da E1. do 2 eexists. split; [reflexivity|exact E1].
  - apply U; auto. intros s1 da E1. now apply copy_empty.
  - apply U; auto. intros s1 da E1. now apply copy_empty.
  - apply U; auto. intros s1 da E1. now apply copy_empty.
  - apply U; auto. intros s1 da E1. do 2 eexists. split; [reflexivity|exact E1].
  - apply U; auto. intros s1 da E1. do 2 eexists. split; [reflexivity|exact E1].
  - apply U; auto. intros s1 da E1. do 2 eexists. split; [|exact E1].
    cbn [fst snd]. f_equal. f_equal. f_equal. cbn. ring.
  - apply U; auto. intros s1 da E1. do 2 eexists. split; [reflexivity|exact E1].
  - apply U; auto. intros s1 da E1. do 2 eexists. split; [reflexivity|exact E1].
  - apply U; auto. intros s1 da E1. do 2 eexists. split; [reflexivity|exact E1].
  - apply U; auto. intros s1 da E1. do 2 eexists. split; [reflexivity|exact E1].
  - apply B; auto. intros s1 da db E1. cbn [fst snd].
    rewrite !(size_empty s1) by exact E1. cbn [Nat.eqb]. now apply plain_empty.
  - apply B; auto. intros s1 da db E1. cbn [fst snd fmin Fn_R].
    destruct (Rlt_dec (ev v e1) (ev v e2)); now apply plain_empty.
  - apply B; auto. intros s1 da db E1. cbn [fst snd fmax Fn_R].
    destruct (Rle_dec (ev v e2) (ev v e1)); now apply plain_empty.
Qed.

Theorem dyn_empty d e : (forall i, d i = []) ->
  exists d', run_dyn ltr v d e = Some (d', ev v e, []).
Proof.
  intro H. unfold run_dyn.
  destruct (evd_empty e (mkM 0 (fun l => match l with LVar i => d i | LTmp _ => [] end)))
    as (s & g & E & Es).
  - intros [i|j]; cbn; auto.
  - rewrite E, (materialise_empty s g Es). eexists. reflexivity.
Qed.
End Empty.
