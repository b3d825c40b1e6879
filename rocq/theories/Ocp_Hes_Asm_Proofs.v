(** Sparse cost Hessian: first assembly and later updates. *)
Require Import Arith ZArith List Bool Lia Reals Lra.
From Verif Require Import Scal RSum Blk Sparse Sparse_Proofs Cheb_Model Cheb_Proofs Ocp_Model Ocp_Spec Ocp_Proofs Ocp_Cost_Proofs Ocp_Sparse_Model Ocp_Sparse_Proofs Ocp_Hes_Proofs.

Lemma cnt_inv_total : forall (f : nat -> bool) (rho : nat -> nat) n m,
  (forall a b, (a < b)%nat -> (b < n)%nat -> (rho a < rho b)%nat) ->
  (forall i, (i < m)%nat -> f i = true -> exists a, (a < n)%nat /\ rho a = i) ->
  (forall a, (a < n)%nat -> f (rho a) = true /\ (rho a < m)%nat) ->
  cnt f m = n.
Proof.
  intros f rho n m Hm Hi Hf. destruct n as [|n].
  - apply cnt_none. intros i Hlt. destruct (f i) eqn:E; auto. destruct (Hi i Hlt E) as (a & Ha & _). lia.
  - destruct (Hf n) as (F & L); [lia|].
    replace m with (rho n + (1 + (m - rho n - 1)))%nat by lia. rewrite cnt_add, cnt_add. cbn [cnt].
    rewrite Nat.add_0_r, F.
    rewrite (cnt_none (fun i => f (rho n + (1 + i))%nat)).
    2:{ intros i Hlt. destruct (f (rho n + (1 + i))%nat) eqn:E; auto. exfalso. destruct (Hi (rho n + (1 + i))%nat) as (b & Hb & Eb); [lia|exact E|].
        destruct (Nat.eq_dec b n) as [->|]; [lia|]. specialize (Hm b n). lia. }
    assert (Hc : cnt f (rho n) = n); [|lia].
    rewrite (cnt_ext f (fun i => f i && (i <? m)%nat)).
    2:{ intros i Hlt. rewrite (proj2 (Nat.ltb_lt i m)) by lia. rewrite andb_true_r. reflexivity. }
    apply (cnt_inv _ rho (S n)); auto.
    + intros i E. apply andb_true_iff in E. destruct E as (E1 & E2). apply Nat.ltb_lt in E2. auto.
    + intros a Ha. destruct (Hf a Ha) as (A & B). rewrite A. apply Nat.ltb_lt in B. rewrite B. reflexivity.
Qed.

Section P.
Variable o : ocp R.
Local Notation nx := (NX o).
Local Notation nu := (NU o).
Local Notation np := (NP o).
Local Notation P := (PO o).
Local Notation Sg := (SG o).
Local Notation N := (NUM_NODES o).
Local Notation vx := (VARX o).
Local Notation vu := (VARU o).
Local Notation zidx := (zidx o).
Local Notation inz := (inz o).
Local Notation zrow := (zrow o).
Local Notation nadd := (nadd o).
Local Notation pp := (pp o).
Local Notation ready := (ready o).
Local Open Scope R_scope.

Definition nodeof (j : nat) : nat := if (j <? vx)%nat then (j / nx)%nat else ((j - vx) / nu)%nat.
Definition hpat (i j : nat) : bool := (vx + vu <=? i)%nat || (vx + vu <=? j)%nat || (nodeof i =? nodeof j)%nat.

Lemma nodeof_zrow : forall n a, (n < N)%nat -> (a < nx + nu)%nat -> nodeof (zrow n a) = n /\ (zrow n a < vx + vu)%nat.
Proof.
  intros n a Hn Ha. unfold nodeof, Ocp_Hes_Proofs.zrow. destruct (Nat.ltb_spec a nx).
  - assert ((n * nx + a < vx)%nat) by (unfold VARX; nia).
    rewrite (proj2 (Nat.ltb_lt (n * nx + a) vx)) by auto. split; [|lia].
    rewrite Nat.div_add_l by lia. rewrite Nat.div_small by auto. lia.
  - rewrite (proj2 (Nat.ltb_lt a (nx + nu))) by auto.
    rewrite (proj2 (Nat.ltb_ge (n * nu + vx + (a - nx)) vx)) by lia.
    replace (n * nu + vx + (a - nx) - vx)%nat with (n * nu + (a - nx))%nat by lia. split.
    + rewrite Nat.div_add_l by lia. rewrite Nat.div_small by lia. lia.
    + unfold VARU. nia.
Qed.

(** every unknown belongs to a node *)
Lemma node_exists : forall i, (i < VAR o)%nat -> exists n a, (n < N)%nat /\ (a < NZ o)%nat /\ zidx n i = Some a /\
  (i < vx + vu -> a < nx + nu)%nat.
Proof.
  intros i Hi. destruct (var_cases o i Hi) as [(k & m & -> & Hk & Hm)|[(k & m & -> & Hk & Hm)|(m & -> & Hm)]].
  - exists k, m. rewrite zidx_x by auto. rewrite Nat.eqb_refl. unfold NZ. repeat split; auto; lia.
  - exists k, (nx + m)%nat. rewrite zidx_u by auto. rewrite Nat.eqb_refl. unfold NZ. repeat split; auto; lia.
  - exists O, (nx + nu + m)%nat. pose proof (node0_lt o). rewrite zidx_p by auto. pose proof (ip_range o m Hm).
    unfold NZ. repeat split; auto; lia.
Qed.

Lemma zidx_unique : forall n n' i a a', (n < N)%nat -> (n' < N)%nat -> (i < vx + vu)%nat ->
  zidx n i = Some a -> zidx n' i = Some a' -> n = n'.
Proof.
  intros n n' i a a' Hn Hn' Hi H H'.
  assert (Q : forall m b, (m < N)%nat -> zidx m i = Some b -> nodeof i = m).
  { intros m b Hm Hb. pose proof (zidx_p_ge o m i b Hm Hb) as Hge.
    rewrite (proj2 (Nat.leb_gt (vx + vu) i)) in Hge by auto. symmetry in Hge. apply Nat.leb_gt in Hge.
    destruct (zidx_inv o m i b Hm Hb) as (-> & _). apply nodeof_zrow; auto. }
  rewrite <- (Q n a), <- (Q n' a'); auto.
Qed.

Lemma hpat_col : forall n c i, (n < N)%nat -> (c < nx + nu)%nat -> (i < VAR o)%nat -> hpat i (zrow n c) = inz n i.
Proof.
  intros n c i Hn Hc Hi. destruct (nodeof_zrow n c Hn Hc) as (E1 & L1). unfold hpat. rewrite E1.
  rewrite (proj2 (Nat.leb_gt (vx + vu) (zrow n c))) by auto. rewrite orb_false_r.
  destruct (Nat.leb_spec (vx + vu) i) as [Li|Li]; cbn [orb].
  - unfold Ocp_Sparse_Proofs.inz.
    replace i with (zrow n (nx + nu + (i - (vx + vu)))) by (rewrite zrow_p; lia).
    rewrite zidx_zrow; auto. unfold NZ, VAR in *; lia.
  - destruct (node_exists i Hi) as (m & a & Hm & Ha & Ez & Hlt). specialize (Hlt Li).
    destruct (zidx_inv o m i a Hm Ez) as (Ei & _). destruct (nodeof_zrow m a Hm Hlt) as (E2 & _).
    rewrite <- Ei in E2. rewrite E2. unfold Ocp_Sparse_Proofs.inz.
    destruct (Nat.eqb_spec m n) as [->|Hne]; [rewrite Ez; reflexivity|].
    destruct (zidx n i) as [b|] eqn:Eb; auto. exfalso. apply Hne. eapply zidx_unique; eauto.
Qed.
Lemma hpat_p : forall i j, (vx + vu <= j)%nat -> hpat i j = true.
Proof. intros. unfold hpat. rewrite (proj2 (Nat.leb_le (vx + vu) j)) by auto. rewrite orb_true_r. reflexivity. Qed.

(** an entry of the pattern belongs to a node *)
Lemma hpat_node : forall i j, (i < VAR o)%nat -> (j < VAR o)%nat ->
  (hpat i j = true <-> exists n, (n < N)%nat /\ inz n i = true /\ inz n j = true).
Proof.
  intros i j Hi Hj. destruct (Nat.lt_ge_cases j (vx + vu)) as [Lj|Lj].
  - destruct (node_exists j Hj) as (n & b & Hn & Hb & Eb & Hlt). specialize (Hlt Lj).
    destruct (zidx_inv o n j b Hn Eb) as (Ej & _).
    assert (Hjn : inz n j = true) by (unfold Ocp_Sparse_Proofs.inz; rewrite Eb; reflexivity).
    rewrite Ej at 1. rewrite hpat_col by auto. split.
    + intro H. exists n. auto.
    + intros (n' & Hn' & A & B). unfold Ocp_Sparse_Proofs.inz in B. destruct (zidx n' j) as [b'|] eqn:Eb'; [|discriminate].
      rewrite (zidx_unique n n' j b b'); auto.
  - rewrite hpat_p by auto. split; auto. intros _. destruct (node_exists i Hi) as (n & a & Hn & Ha & Ea & _).
    exists n. unfold Ocp_Sparse_Proofs.inz. rewrite Ea. repeat split; auto.
    replace j with (zrow n (nx + nu + (j - (vx + vu)))) by (rewrite zrow_p; lia).
    rewrite zidx_zrow; auto. unfold NZ, VAR in *; lia.
Qed.

Lemma hpat_count : forall j, (j < VAR o)%nat -> cnt (fun i => hpat i j) (VAR o) = hes_est o j.
Proof.
  intros j Hj. unfold hes_est. destruct (Nat.ltb_spec j (vx + vu)) as [Lj|Lj].
  - destruct (node_exists j Hj) as (n & b & Hn & Hb & Eb & Hlt). specialize (Hlt Lj).
    destruct (zidx_inv o n j b Hn Eb) as (Ej & _). change (nx + nu + np)%nat with (NZ o).
    apply (cnt_inv_total _ (zrow n)).
    + intros. apply zrow_mono; auto.
    + intros i Hi E. rewrite Ej in E. rewrite hpat_col in E by auto. unfold Ocp_Sparse_Proofs.inz in E.
      destruct (zidx n i) as [a|] eqn:Ea; [|discriminate]. destruct (zidx_inv o n i a Hn Ea). exists a. auto.
    + intros a Ha. pose proof (zrow_lt o n a Hn Ha). split; auto. rewrite Ej, hpat_col by auto. apply inz_zrow; auto.
  - apply cnt_all. intros. apply hpat_p; auto.
Qed.

(** a complete Hessian matrix *)
Definition hok (M : spmat R) : Prop :=
  sp_r M = VAR o /\ sp_c M = VAR o /\ (forall j, (j < VAR o)%nat -> slack M j = O) /\
  (forall i j, (i < VAR o)%nat -> (j < VAR o)%nat -> pat M i j = hpat i j).

Lemma hok_ready : forall M n, hok M -> (n < N)%nat -> ready M n.
Proof.
  intros M n (Hr & Hc & _ & Hp) Hn. split; auto. split; auto. split.
  - intros i c Hi Hcc. rewrite Hp; auto; [apply hpat_col; auto|]. apply zrow_lt; auto. unfold NZ; lia.
  - intros i m Hi Hm. rewrite Hp; auto; [apply hpat_p; lia|]. unfold VAR; lia.
Qed.
Lemma hok_same : forall M M', hok M -> same M M' -> hok M'.
Proof. intros M M' (a & b & c & d) (a' & b' & c' & d'). unfold hok. rewrite a', b', c', d'. auto. Qed.
Lemma hok_nonzeros : forall M, hok M -> nonzeros M = nsum (VAR o) (hes_est o).
Proof.
  intros M (Hr & Hc & _ & Hp). unfold nonzeros. rewrite Hc. apply nsum_ext. intros j Hj. unfold ncol.
  rewrite Hr. rewrite <- hpat_count by auto. apply cnt_ext. intros. apply Hp; auto.
Qed.

(** * contributions of the nodes visited so far *)
Variable var : vec R.
Local Notation C s k := (node_hes o var k (k + s * P)).
Definition Ssum (s k i j : nat) : R :=
  rsum s (fun s' => rsum (P + 1) (fun k' => nadd (k' + s' * P) (C s' k') i j))
  + rsum k (fun k' => nadd (k' + s * P) (C s k') i j).
Definition TOT (i j : nat) : R := Ssum Sg 0 i j + nadd 0 (may_hes o var) i j.

Lemma nadd_other : forall n n' h i j, (n < N)%nat -> (n' < N)%nat -> n <> n' -> pp i j = false ->
  inz n i = true -> inz n j = true -> nadd n' h i j = 0.
Proof.
  intros n n' h i j Hn Hn' Hne Hpp Hi Hj. unfold Ocp_Hes_Proofs.nadd, Ocp_Sparse_Proofs.inz in *.
  destruct (zidx n i) as [a|] eqn:Ea; [|discriminate]. destruct (zidx n j) as [b|] eqn:Eb; [|discriminate].
  destruct (zidx n' i) as [a'|] eqn:Ea'; auto. destruct (zidx n' j) as [b'|] eqn:Eb'; auto. exfalso.
  unfold Ocp_Hes_Proofs.pp in Hpp. apply andb_false_iff in Hpp. destruct Hpp as [H|H]; apply Nat.leb_gt in H; apply Hne.
  - apply (zidx_unique n n' i a a'); auto.
  - apply (zidx_unique n n' j b b'); auto.
Qed.

Lemma Ssum_S : forall s k i j, Ssum s (S k) i j = Ssum s k i j + nadd (k + s * P) (C s k) i j.
Proof. intros. unfold Ssum. rewrite (rsum_S k). lra. Qed.
Lemma Ssum_next : forall s i j, Ssum (S s) 0 i j = Ssum s (P + 1) i j.
Proof. intros. unfold Ssum. rewrite rsum_S, rsum_0. lra. Qed.

Lemma node_lt_N : forall s k, (s < Sg)%nat -> (k <= P)%nat -> (k + s * P < N)%nat.
Proof. intros. apply node_lt'; lia. Qed.

Lemma Ssum_new : forall s k i j, (s < Sg)%nat -> (k <= P)%nat -> (s = 0 \/ 0 < k)%nat -> pp i j = false ->
  inz (k + s * P) i = true -> inz (k + s * P) j = true -> Ssum s k i j = 0.
Proof.
  intros s k i j Hs Hk Hd Hpp Hi Hj. unfold Ssum. rewrite !rsum_zero; [lra| |].
  - intros k' Hk'. apply (nadd_other (k + s * P)); auto; try (apply node_lt_N; lia). lia.
  - intros s' Hs'. apply rsum_zero. intros k' Hk'. apply (nadd_other (k + s * P)); auto; try (apply node_lt_N; lia).
    destruct Hd as [->|Hd]; [lia|]. assert (s' * P + P <= s * P)%nat by nia. lia.
Qed.

(** number of nodes visited before step (s, k) *)
Definition seen (s k : nat) : nat := (s * P + Nat.max k (if (s =? 0)%nat then 0 else 1))%nat.
Definition Inv (s k : nat) (V : mat R) : Prop :=
  forall n i j, (n < seen s k)%nat -> (n < N)%nat -> (i < VAR o)%nat -> (j < VAR o)%nat -> pp i j = false ->
    inz n i = true -> inz n j = true -> V i j = Ssum s k i j.

Lemma Inv_start : forall V, Inv 0 0 V.
Proof. intros V n i j H. unfold seen in H. cbn in H. lia. Qed.
Lemma Inv_next : forall s V, (1 <= P)%nat -> Inv s (P + 1) V -> Inv (S s) 0 V.
Proof.
  intros s V HP H n i j Hn. intros. rewrite Ssum_next. apply (H n); auto. unfold seen in *. cbn [Nat.eqb] in Hn.
  destruct (s =? 0)%nat; lia.
Qed.
Lemma Inv_new : forall s k V V', (s < Sg)%nat -> (k <= P)%nat -> (s = 0 \/ 0 < k)%nat ->
  Inv s k V ->
  (forall i j, (i < VAR o)%nat -> (j < VAR o)%nat -> V' i j =
     if inz (k + s * P) i && inz (k + s * P) j && negb (pp i j) then nadd (k + s * P) (C s k) i j else V i j) ->
  Inv s (S k) V'.
Proof.
  intros s k V V' Hs Hk Hd HI HV n i j Hn HnN Hi Hj Hpp Hzi Hzj. rewrite HV by auto. rewrite Ssum_S.
  destruct (Nat.eq_dec n (k + s * P)) as [->|Hne].
  - rewrite Hzi, Hzj, Hpp. cbn [andb negb]. rewrite Ssum_new by auto. lra.
  - rewrite (nadd_other n (k + s * P)) by (auto; apply node_lt_N; lia).
    replace (inz (k + s * P) i && inz (k + s * P) j && negb (pp i j)) with false.
    + rewrite (HI n i j); auto; [lra|]. unfold seen in *. destruct (s =? 0)%nat eqn:E0; [apply Nat.eqb_eq in E0; subst s; cbn in *|]; lia.
    + symmetry. rewrite Hpp. cbn [negb]. rewrite andb_true_r. apply andb_false_iff.
      unfold Ocp_Hes_Proofs.pp in Hpp. apply andb_false_iff in Hpp.
      pose proof (node_lt_N s k Hs Hk) as Hlt.
      unfold Ocp_Sparse_Proofs.inz in *. destruct (zidx n i) as [a|] eqn:Ea; [|discriminate]. destruct (zidx n j) as [b|] eqn:Eb; [|discriminate].
      destruct Hpp as [H|H]; apply Nat.leb_gt in H; [left|right].
      * destruct (zidx (k + s * P) i) as [a'|] eqn:Ea'; auto. exfalso. apply Hne. apply (zidx_unique n _ i a a'); auto.
      * destruct (zidx (k + s * P) j) as [b'|] eqn:Eb'; auto. exfalso. apply Hne. apply (zidx_unique n _ j b b'); auto.
Qed.
Lemma Inv_glue : forall s V V', (0 < s)%nat -> (s < Sg)%nat ->
  Inv s 0 V ->
  (forall i j, (i < VAR o)%nat -> (j < VAR o)%nat -> V' i j =
     if pp i j then V i j else V i j + nadd (0 + s * P) (C s 0) i j) ->
  Inv s 1 V'.
Proof.
  intros s V V' H0 Hs HI HV n i j Hn HnN Hi Hj Hpp Hzi Hzj. rewrite HV, Hpp, Ssum_S by auto.
  rewrite (HI n i j); auto. unfold seen in *. rewrite (proj2 (Nat.eqb_neq s 0)) in * by lia. lia.
Qed.
(** the separately accumulated parameter block *)
Definition Ppp (s k : nat) (H : mat R) : Prop :=
  forall i j, (i < np)%nat -> (j < np)%nat -> H i j = Ssum s k (vx + vu + i)%nat (vx + vu + j)%nat.
Lemma nadd_pp : forall n h i j, (n < N)%nat -> (i < np)%nat -> (j < np)%nat ->
  nadd n h (vx + vu + i)%nat (vx + vu + j)%nat = h (nx + nu + i)%nat (nx + nu + j)%nat.
Proof.
  intros n h i j Hn Hi Hj. unfold Ocp_Hes_Proofs.nadd. rewrite <- !(zrow_p o n).
  rewrite !zidx_zrow; auto; unfold NZ; lia.
Qed.
Lemma Ppp_S : forall s k H, (s < Sg)%nat -> (k <= P)%nat -> Ppp s k H ->
  Ppp s (S k) (fun i j => H i j + C s k (nx + nu + i)%nat (nx + nu + j)%nat).
Proof.
  intros s k H Hs Hk HP i j Hi Hj. rewrite Ssum_S, <- HP by auto. rewrite nadd_pp; auto. apply node_lt_N; auto.
Qed.
Lemma Ssum_0 : forall i j, Ssum 0 0 i j = 0.
Proof. intros. unfold Ssum. rewrite !rsum_0. lra. Qed.
Lemma Ppp_next : forall s H, Ppp s (P + 1) H -> Ppp (S s) 0 H.
Proof. intros s H HP i j Hi Hj. rewrite Ssum_next. apply HP; auto. Qed.

Lemma pp_split : forall i j, pp i j = true -> (i < VAR o)%nat -> (j < VAR o)%nat ->
  exists i' j', i = (vx + vu + i')%nat /\ j = (vx + vu + j')%nat /\ (i' < np)%nat /\ (j' < np)%nat.
Proof.
  intros i j H Hi Hj. unfold Ocp_Hes_Proofs.pp in H. apply andb_true_iff in H. destruct H as (A & B).
  apply Nat.leb_le in A, B. unfold VAR in *. exists (i - (vx + vu))%nat, (j - (vx + vu))%nat. lia.
Qed.

Lemma seen_end : (1 <= P)%nat -> (1 <= Sg)%nat -> seen Sg 0 = N.
Proof. intros. unfold seen, NUM_NODES. rewrite (proj2 (Nat.eqb_neq Sg 0)) by lia. lia. Qed.

Lemma nadd_off : forall n h i j, (n < N)%nat -> (i < VAR o)%nat -> (j < VAR o)%nat -> hpat i j = false -> nadd n h i j = 0.
Proof.
  intros n h i j Hn Hi Hj H. unfold Ocp_Hes_Proofs.nadd. destruct (zidx n i) as [a|] eqn:Ea; auto. destruct (zidx n j) as [b|] eqn:Eb; auto.
  exfalso. assert (hpat i j = true); [|congruence]. apply hpat_node; auto. exists n. unfold Ocp_Sparse_Proofs.inz. rewrite Ea, Eb. auto.
Qed.
Lemma TOT_off : forall i j, (i < VAR o)%nat -> (j < VAR o)%nat -> hpat i j = false -> TOT i j = 0.
Proof.
  intros i j Hi Hj H. unfold TOT, Ssum. rewrite rsum_0. rewrite rsum_zero.
  - rewrite nadd_off; auto; [lra|apply node0_lt].
  - intros s Hs. apply rsum_zero. intros k Hk. apply nadd_off; auto. apply node_lt_N; lia.
Qed.

(** * the update *)
Theorem hes_upd_ok : forall M, (1 <= P)%nat -> (1 <= Sg)%nat -> mayer_u_ok o = true -> hok M ->
  exists M', hes_upd o var M = Some M' /\ hok M' /\
   forall i j, (i < VAR o)%nat -> (j < VAR o)%nat -> coeff M' i j = TOT i j.
Proof.
  intros M HP HS Hu HM. unfold hes_upd.
  match goal with |- context [obind (oloop Sg ?f ?a) _] =>
    destruct (oloop_inv _ (fun s (st : mat R * spmat R) => Ppp s 0 (fst st) /\ hok (snd st) /\ Inv s 0 (val (snd st))) Sg f a) as ((q & M1) & E1 & A1 & A2 & A3) end.
  - cbn [fst snd]. split; [|split; auto; apply Inv_start]. intros i j _ _. rewrite Ssum_0. reflexivity.
  - intros s st Hs (B1 & B2 & B3).
    match goal with |- context [oloop (P + 1) ?f st] =>
      destruct (oloop_inv _ (fun k (st : mat R * spmat R) => Ppp s k (fst st) /\ hok (snd st) /\ Inv s k (val (snd st))) (P + 1) f st) as (st2 & E2 & C1 & C2 & C3) end; auto.
    + intros k (q & Ma) Hk (D1 & D2 & D3). cbn [fst snd] in *.
      assert (HnN : (k + s * P < N)%nat) by (apply node_lt_N; lia).
      destruct (Nat.ltb_spec 0 s) as [L0|L0]; [destruct (Nat.eqb_spec k 0) as [->|Hk0]|]; cbn [andb].
      * destruct (hes_glue_ok o Ma (0 + s * P) (C s 0)) as (Mb & Eb & Sb & Vb); auto; [apply hok_ready; auto|].
        rewrite Eb. cbn [obind]. eexists. split; [reflexivity|]. cbn [fst snd]. split; [apply (Ppp_S s 0); auto; lia|].
        split; [eapply hok_same; eauto|]. apply (Inv_glue s (val Ma)); auto.
      * destruct (hes_copy_cols_ok o Ma (k + s * P) (C s k)) as (Mb & Eb & Sb & Vb); auto; [apply hok_ready; auto|].
        rewrite Eb. cbn [obind]. eexists. split; [reflexivity|]. cbn [fst snd]. split; [apply (Ppp_S s k); auto; lia|].
        split; [eapply hok_same; eauto|]. apply (Inv_new s k (val Ma)); auto; lia.
      * destruct (hes_copy_cols_ok o Ma (k + s * P) (C s k)) as (Mb & Eb & Sb & Vb); auto; [apply hok_ready; auto|].
        rewrite Eb. cbn [obind]. eexists. split; [reflexivity|]. cbn [fst snd]. split; [apply (Ppp_S s k); auto; lia|].
        split; [eapply hok_same; eauto|]. apply (Inv_new s k (val Ma)); auto; lia.
    + exists st2. split; auto. split; [apply Ppp_next; auto|]. split; auto. apply Inv_next; auto.
  - match goal with |- context [obind (oloop Sg ?f ?a) _] => replace (oloop Sg f a) with (Some (q, M1)) by (symmetry; exact E1) end.
    cbn [obind fst snd] in *. unfold copy_n.
    destruct (pp_loop o M1 0 (fun j r _ => q r j)) as (M2 & E2 & S2 & V2); [apply hok_ready; auto; apply node0_lt|apply node0_lt|].
    match goal with |- context [obind (oloop ?n ?f ?a) _] => replace (oloop n f a) with (Some M2) by (symmetry; exact E2) end.
    cbn [obind]. rewrite Hu. assert (HM2 : hok M2) by (eapply hok_same; eauto).
    destruct (hes_add_cols_ok o M2 0 (may_hes o var)) as (M3 & E3 & S3 & V3); [apply hok_ready; auto; apply node0_lt|apply node0_lt|].
    assert (HM3 : hok M3) by (eapply hok_same; eauto).
    exists M3. split; [exact E3|]. split; auto. intros i j Hi Hj. unfold coeff. pose proof HM3 as (_ & _ & _ & Hp).
    rewrite Hp by auto. destruct (hpat i j) eqn:Eh; [|rewrite TOT_off; auto].
    rewrite V3, V2 by auto. unfold TOT. f_equal. destruct (pp i j) eqn:Ep.
    + destruct (pp_split i j Ep Hi Hj) as (i' & j' & -> & -> & Hi' & Hj').
      replace (vx + vu + i' - (vx + vu))%nat with i' by lia. replace (vx + vu + j' - (vx + vu))%nat with j' by lia. apply A1; auto.
    + apply hpat_node in Eh; auto. destruct Eh as (n & Hn & Zi & Zj). apply (A3 n); auto. rewrite seen_end; auto.
Qed.

(** * the first assembly *)
(** pattern after [m] nodes have been inserted *)
Definition vis (m i j : nat) : Prop := pp i j = false /\ exists n, (n < m)%nat /\ inz n i = true /\ inz n j = true.
Definition part (m : nat) (M : spmat R) : Prop :=
  sp_r M = VAR o /\ sp_c M = VAR o /\ lay M hpat (hes_est o) /\
  (forall i j, (i < VAR o)%nat -> (j < VAR o)%nat -> (pat M i j = true <-> vis m i j)).

Lemma part_same : forall m M M', part m M -> same M M' -> part m M'.
Proof.
  intros m M M' (a & b & c & d) Hs. pose proof Hs as (a' & b' & c' & d'). unfold part. rewrite a', b', c'.
  repeat split; auto; try (eapply lay_same; eauto); apply d; auto.
Qed.

(** the parameter columns are only complete when there are none *)
Lemma part_ready : forall m M n, part m M -> np = O -> (n < m)%nat -> (n < N)%nat -> (m <= N)%nat -> ready M n.
Proof.
  intros m M n (Hr & Hc & _ & Hp) H0 Hnm Hn Hm. split; auto. split; auto. split.
  - intros i c Hi Hcc. assert (Hz : (zrow n c < VAR o)%nat) by (apply zrow_lt; auto; unfold NZ; lia).
    destruct (nodeof_zrow n c Hn Hcc) as (_ & L1).
    assert (Hjn : zidx n (zrow n c) = Some c) by (apply zidx_zrow; auto; unfold NZ; lia).
    apply eq_true_iff_eq. rewrite Hp by auto. split.
    + intros (_ & n' & Hn' & A & B). unfold Ocp_Sparse_Proofs.inz in B. destruct (zidx n' (zrow n c)) as [b|] eqn:Eb; [|discriminate].
      rewrite (zidx_unique n n' (zrow n c) c b); auto. lia.
    + intro H. split; [|exists n; repeat split; auto; apply inz_zrow; auto; unfold NZ; lia].
      unfold Ocp_Hes_Proofs.pp. rewrite (proj2 (Nat.leb_gt (vx + vu) (zrow n c))) by auto. apply andb_false_r.
  - intros i m' Hi Hm'. lia.
Qed.

Lemma inz_pp : forall n i, (n < N)%nat -> (vx + vu <= i)%nat -> (i < VAR o)%nat -> inz n i = true.
Proof.
  intros n i Hn L Hi. replace i with (zrow n (nx + nu + (i - (vx + vu)))) by (rewrite zrow_p; lia).
  apply inz_zrow; auto. unfold NZ, VAR in *. lia.
Qed.

Lemma vis_new : forall n i j, (n < N)%nat -> inz n i = true -> inz n j = true -> ~ vis n i j.
Proof.
  intros n i j Hn Hi Hj (Hpp & n' & Hn' & A & B).
  assert (Hnn : n' <> n) by lia. unfold Ocp_Hes_Proofs.pp in Hpp. apply andb_false_iff in Hpp. unfold Ocp_Sparse_Proofs.inz in *.
  destruct (zidx n i) as [a|] eqn:Ea; [|discriminate]. destruct (zidx n j) as [b|] eqn:Eb; [|discriminate].
  destruct (zidx n' i) as [a'|] eqn:Ea'; [|discriminate]. destruct (zidx n' j) as [b'|] eqn:Eb'; [|discriminate].
  destruct Hpp as [H|H]; apply Nat.leb_gt in H; apply Hnn.
  - apply (zidx_unique n' n i a' a); auto; lia.
  - apply (zidx_unique n' n j b' b); auto; lia.
Qed.

(** one block whose rows and columns lie in the ranges of node [n]; [Q] is the pattern before *)
Lemma oob_col : forall X d m Y, (X + d <= Y)%nat -> forall j, (j < m)%nat -> in_seg X d (Y + j) = false.
Proof. intros. apply in_seg_false. lia. Qed.

Ltac sg := repeat match goal with
  | |- context [in_seg ?a ?b ?c] => first [rewrite (in_seg_true a b c) by lia | rewrite (in_seg_false a b c) by lia]
  end.

Definition sx (n i : nat) := in_seg (n * nx) nx i.
Definition su (n i : nat) := in_seg (n * nu + vx) nu i.
Definition sq (i : nat) := in_seg (vx + vu) np i.

Lemma node_ins : forall M n (B1 B2 B3 B4 B5 B6 B7 B8 : mat R), part n M -> (n < N)%nat ->
  let X := (n * nx)%nat in let U := (n * nu + vx)%nat in let Q := (vx + vu)%nat in
  exists M',
  obind (oloop nx (fun j M => oloop nx (fun r M => insert M (X + r) (X + j) (B1 r j)) M) M) (fun M =>
  obind (oloop nu (fun j M => oloop nx (fun r M => insert M (X + r) (U + j) (B2 r j)) M) M) (fun M =>
  obind (oloop np (fun j M => oloop nx (fun r M => insert M (X + r) (Q + j) (B3 r j)) M) M) (fun M =>
  obind (oloop nu (fun j M => oloop nu (fun r M => insert M (U + r) (U + j) (B4 r j)) M) M) (fun M =>
  obind (oloop nx (fun j M => oloop nu (fun r M => insert M (U + r) (X + j) (B5 r j)) M) M) (fun M =>
  obind (oloop np (fun j M => oloop nu (fun r M => insert M (U + r) (Q + j) (B6 r j)) M) M) (fun M =>
  obind (oloop nx (fun j M => oloop np (fun r M => insert M (Q + r) (X + j) (B7 r j)) M) M) (fun M =>
  oloop nu (fun j M => oloop np (fun r M => insert M (Q + r) (U + j) (B8 r j)) M) M))))))) = Some M' /\
  part (S n) M' /\
  (forall i j, val M' i j =
     if sq i && su n j then B8 (i - Q)%nat (j - U)%nat else
     if sq i && sx n j then B7 (i - Q)%nat (j - X)%nat else
     if su n i && sq j then B6 (i - U)%nat (j - Q)%nat else
     if su n i && sx n j then B5 (i - U)%nat (j - X)%nat else
     if su n i && su n j then B4 (i - U)%nat (j - U)%nat else
     if sx n i && sq j then B3 (i - X)%nat (j - Q)%nat else
     if sx n i && su n j then B2 (i - X)%nat (j - U)%nat else
     if sx n i && sx n j then B1 (i - X)%nat (j - X)%nat else val M i j).
Proof.
  intros M n B1 B2 B3 B4 B5 B6 B7 B8 (Hr & Hc & HL & Hp) Hn X U Q.
  assert (HX : (X + nx <= vx)%nat) by (unfold X, VARX; nia).
  assert (HU0 : (vx <= U)%nat) by (unfold U; lia).
  assert (HU : (U + nu <= Q)%nat) by (unfold U, Q, VARU; nia).
  assert (HQ : (Q + np = VAR o)%nat) by (unfold Q, VAR; lia).
  assert (Zx : forall r, (r < nx)%nat -> inz n (X + r) = true).
  { intros r H. unfold X. rewrite <- zrow_x by auto. apply inz_zrow; auto. unfold NZ; lia. }
  assert (Zu : forall r, (r < nu)%nat -> inz n (U + r) = true).
  { intros r H. unfold U. rewrite <- zrow_u by auto. apply inz_zrow; auto. unfold NZ; lia. }
  assert (Zq : forall r, (r < np)%nat -> inz n (Q + r) = true).
  { intros r H. unfold Q. rewrite <- (zrow_p o n). apply inz_zrow; auto. unfold NZ; lia. }
  assert (F0 : forall i j, (i < VAR o)%nat -> (j < VAR o)%nat -> inz n i = true -> inz n j = true -> pat M i j = false /\ hpat i j = true).
  { intros i j Hi Hj A B. split.
    - destruct (pat M i j) eqn:Ep; auto. exfalso. apply Hp in Ep; auto. revert Ep. apply vis_new; auto.
    - apply hpat_node; auto. exists n; auto. }
  destruct (insert_block nx nx B1 M hpat (hes_est o) X X HL) as (M1 & E1 & L1 & R1 & C1 & P1 & V1); [lia|lia|intros; apply F0; auto; lia|].
  rewrite E1. cbn [obind].
  destruct (insert_block nx nu B2 M1 hpat (hes_est o) X U L1) as (M2 & E2 & L2 & R2 & C2 & P2 & V2); [lia|lia| |].
  { intros i j Hi Hj. destruct (F0 (X + i)%nat (U + j)%nat) as (A & B); auto; try lia. split; auto. rewrite P1, A. sg. reflexivity. }
  rewrite E2. cbn [obind].
  destruct (insert_block nx np B3 M2 hpat (hes_est o) X Q L2) as (M3 & E3 & L3 & R3 & C3 & P3 & V3); [lia|lia| |].
  { intros i j Hi Hj. destruct (F0 (X + i)%nat (Q + j)%nat) as (A & B); auto; try lia. split; auto. rewrite P2, P1, A. sg. reflexivity. }
  rewrite E3. cbn [obind].
  destruct (insert_block nu nu B4 M3 hpat (hes_est o) U U L3) as (M4 & E4 & L4 & R4 & C4 & P4 & V4); [lia|lia| |].
  { intros i j Hi Hj. destruct (F0 (U + i)%nat (U + j)%nat) as (A & B); auto; try lia. split; auto. rewrite P3, P2, P1, A. sg. reflexivity. }
  rewrite E4. cbn [obind].
  destruct (insert_block nu nx B5 M4 hpat (hes_est o) U X L4) as (M5 & E5 & L5 & R5 & C5 & P5 & V5); [lia|lia| |].
  { intros i j Hi Hj. destruct (F0 (U + i)%nat (X + j)%nat) as (A & B); auto; try lia. split; auto. rewrite P4, P3, P2, P1, A. sg. reflexivity. }
  rewrite E5. cbn [obind].
  destruct (insert_block nu np B6 M5 hpat (hes_est o) U Q L5) as (M6 & E6 & L6 & R6 & C6 & P6 & V6); [lia|lia| |].
  { intros i j Hi Hj. destruct (F0 (U + i)%nat (Q + j)%nat) as (A & B); auto; try lia. split; auto. rewrite P5, P4, P3, P2, P1, A. sg. reflexivity. }
  rewrite E6. cbn [obind].
  destruct (insert_block np nx B7 M6 hpat (hes_est o) Q X L6) as (M7 & E7 & L7 & R7 & C7 & P7 & V7); [lia|lia| |].
  { intros i j Hi Hj. destruct (F0 (Q + i)%nat (X + j)%nat) as (A & B); auto; try lia. split; auto. rewrite P6, P5, P4, P3, P2, P1, A. sg. reflexivity. }
  rewrite E7. cbn [obind].
  destruct (insert_block np nu B8 M7 hpat (hes_est o) Q U L7) as (M8 & E8 & L8 & R8 & C8 & P8 & V8); [lia|lia| |].
  { intros i j Hi Hj. destruct (F0 (Q + i)%nat (U + j)%nat) as (A & B); auto; try lia. split; auto. rewrite P7, P6, P5, P4, P3, P2, P1, A. sg. reflexivity. }
  exists M8. split; [exact E8|]. split.
  - split; [congruence|]. split; [congruence|]. split; auto. intros i j Hi Hj.
    assert (EP : pat M8 i j = (inz n i && inz n j && negb (pp i j)) || pat M i j).
    { rewrite P8, P7, P6, P5, P4, P3, P2, P1. generalize (pat M i j) as w. intro w.
      assert (Ci : forall i, (i < VAR o)%nat -> inz n i = sx n i || su n i || sq i /\ (vx + vu <=? i)%nat = sq i /\ (sq i = true -> sx n i = false /\ su n i = false)).
      { intros q Hq. destruct (col_cases o n q Hn Hq) as [(b & Eb & Hb & Ej & Ea & B & Ec)|[(b & Eb & Hb & Ej & Ea & B & Ec)|[(b & Eb & Hb & Ej & Ea & B & Ec)|(Eb & Ea & B & Ec)]]];
        unfold sx, su, sq, Ocp_Sparse_Proofs.inz; rewrite Eb, Ea, B, Ec; split; auto; split; try discriminate; auto.
        - pose proof (zidx_p_ge o n q _ Hn Eb) as G. rewrite G. apply Nat.leb_gt. lia.
        - pose proof (zidx_p_ge o n q _ Hn Eb) as G. rewrite G. apply Nat.leb_gt. lia.
        - pose proof (zidx_p_ge o n q _ Hn Eb) as G. rewrite G. apply Nat.leb_le. lia.
        - apply Nat.leb_gt. destruct (Nat.lt_ge_cases q (vx + vu)); auto. rewrite in_seg_true in Ec; [discriminate|auto|fold Q; lia]. }
      destruct (Ci i Hi) as (I1 & I2 & I3). destruct (Ci j Hj) as (J1 & J2 & J3).
      unfold Ocp_Hes_Proofs.pp. rewrite I1, J1, I2, J2. unfold sx, su, sq in *. fold X U Q in I3, J3 |- *.
      clear - I3 J3.
      destruct (in_seg Q np i); [destruct I3 as (-> & ->); auto|];
      (destruct (in_seg Q np j); [destruct J3 as (-> & ->); auto|]);
      try destruct (in_seg X nx i); try destruct (in_seg U nu i); try destruct (in_seg X nx j); try destruct (in_seg U nu j); reflexivity. }
    rewrite EP. rewrite orb_true_iff, andb_true_iff, andb_true_iff, negb_true_iff, Hp by auto. unfold vis. split.
    + intros [((A & B) & Cc)|(A & n' & Hn' & B & Cc)]; split; auto; [exists n|exists n']; repeat split; auto; lia.
    + intros (A & n' & Hn' & B & Cc). destruct (Nat.eq_dec n' n) as [->|]; [left; auto|right]. split; auto. exists n'. repeat split; auto; lia.
  - intros i j. rewrite V8, V7, V6, V5, V4, V3, V2, V1. reflexivity.
Qed.

Lemma obind_ext : forall A B (x : option A) (f g : A -> option B), (forall a, f a = g a) -> obind x f = obind x g.
Proof. intros A B [a|] f g H; cbn; auto. Qed.

(** the column indices read by the assembly are inside the node Hessian *)
Definition rd_ok : Prop := (np = 0 \/ np <= nu <= nx + np)%nat.

Lemma hes_insert_ok : forall M n h, rd_ok -> part n M -> (n < N)%nat ->
  exists M', hes_insert o M n h = Some M' /\ part (S n) M' /\
  (np = O -> forall i j, (i < VAR o)%nat -> (j < VAR o)%nat ->
     val M' i j = if inz n i && inz n j && negb (pp i j) then nadd n h i j else val M i j).
Proof.
  intros M n h Hrd HM Hn.
  destruct (node_ins M n (fun r j => h r j) (fun r j => h r (nx + j)%nat) (fun r j => h r (j + nx + np)%nat)
    (fun r j => h (nx + r)%nat (nx + j)%nat) (fun r j => h (nx + r)%nat j) (fun r j => h (nx + r)%nat (nx + nu + j)%nat)
    (fun r j => h (nx + nu + r)%nat j) (fun r j => h (nx + nu + r)%nat (j + nu)%nat) HM Hn) as (M' & E1 & L1 & V1).
  exists M'. split; [|split; auto].
  - rewrite <- E1. unfold hes_insert. cbv zeta. unfold rd.
    apply obind_ext; intro Ma. apply obind_ext; intro Mb.
    match goal with |- obind ?a _ = obind ?b _ => assert (Eab : a = b) end.
    { apply oloop_ext. intros j Mx Hj. apply oloop_ext. intros r My Hr.
      rewrite (proj2 (Nat.ltb_lt r (NZ o))), (proj2 (Nat.ltb_lt (j + nx + np) (NZ o))) by (destruct Hrd; unfold NZ; lia). reflexivity. }
    rewrite Eab. apply obind_ext; intro Mc. apply obind_ext; intro Md. apply obind_ext; intro Me.
    apply obind_ext; intro Mf. apply obind_ext; intro Mg.
    apply oloop_ext. intros j Mx Hj. apply oloop_ext. intros r My Hr.
    rewrite (proj2 (Nat.ltb_lt (nx + nu + r) (NZ o))), (proj2 (Nat.ltb_lt (j + nu) (NZ o))) by (destruct Hrd; unfold NZ; lia). reflexivity.
  - intros H0 i j Hi Hj. rewrite V1. unfold Ocp_Hes_Proofs.nadd, Ocp_Sparse_Proofs.inz, Ocp_Hes_Proofs.pp, sx, su, sq.
    assert (Hni : (vx + vu <=? i)%nat = false) by (apply Nat.leb_gt; unfold VAR in Hi; lia). rewrite Hni. cbn [andb negb]. rewrite andb_true_r.
    destruct (col_cases o n i Hn Hi) as [(a & Za & Ha & Ei & I1 & I2 & I3)|[(a & Za & Ha & Ei & I1 & I2 & I3)|[(a & _ & Ha & _)|(Za & I1 & I2 & I3)]]]; try lia;
    (destruct (col_cases o n j Hn Hj) as [(b & Zb & Hb & Ej & J1 & J2 & J3)|[(b & Zb & Hb & Ej & J1 & J2 & J3)|[(b & _ & Hb & _)|(Zb & J1 & J2 & J3)]]]); try lia;
    rewrite ?Za, ?Zb, ?I1, ?I2, ?I3, ?J1, ?J2, ?J3, ?Ei, ?Ej; reflexivity.
Qed.

(** writes inside the reserved value array keep the pattern *)
Lemma run_safe : forall len (M : spmat R) ad f, (ad + len <= outer M (sp_c M))%nat ->
  exists M', oloop len (fun q M => upd M (ad + q) (f q)) M = Some M' /\ same M M'.
Proof.
  intros len M ad f H.
  apply (oloop_inv _ (fun k M' => same M M') len (fun q M => upd M (ad + q) (f q)) M); [apply same_refl|].
  intros k M1 Hk S1. unfold upd. rewrite (same_outer M M1) by auto. pose proof S1 as (_ & Sc & _). rewrite Sc.
  rewrite (proj2 (Nat.ltb_lt (ad + k) (outer M (sp_c M)))) by lia. eexists. split; [reflexivity|].
  eapply same_trans; [exact S1|]. unfold same. cbn. auto.
Qed.
Lemma est_bound : forall M m c k, part m M -> (c < VAR o)%nat -> (k <= hes_est o c)%nat -> (outer M c + k <= outer M (sp_c M))%nat.
Proof.
  intros M m c k (_ & Hc & HL & _) Hlt Hk. rewrite (lay_outer M hpat (hes_est o)) by (auto; lia).
  rewrite (lay_outer M hpat (hes_est o) (sp_c M)) by auto. rewrite Hc.
  pose proof (nsum_mono (hes_est o) (S c) (VAR o) Hlt) as Hm. cbn [nsum] in Hm. lia.
Qed.
Lemma cols_safe : forall m M nc len (f : nat -> nat -> R -> R) (ad : nat -> spmat R -> nat) c0 off, part m M ->
  (c0 + nc <= VAR o)%nat -> (forall j M1, ad j M1 = (outer M1 (c0 + j) + off)%nat) ->
  (forall j, (j < nc)%nat -> (off + len <= hes_est o (c0 + j))%nat) ->
  exists M', oloop nc (fun j M => oloop len (fun q M1 => upd M1 (ad j M + q) (f j q)) M) M = Some M' /\ same M M'.
Proof.
  intros m M nc len f ad c0 off HM Hnc Had Hoff.
  apply (oloop_inv _ (fun k M' => same M M')); [apply same_refl|].
  intros k M1 Hk S1. destruct (run_safe len M1 (ad k M1) (f k)) as (M2 & E2 & S2).
  - rewrite Had. rewrite <- Nat.add_assoc. apply (est_bound M1 m); auto; [eapply part_same; eauto|lia].
  - exists M2. split; auto. eapply same_trans; eauto.
Qed.

Lemma glue_safe : forall m M n h, part m M -> (n < N)%nat ->
  exists M', hes_glue o M n h = Some M' /\ same M M'.
Proof.
  intros m M n h HM Hn. unfold hes_glue, add_n.
  assert (HX : (n * nx + nx <= vx)%nat) by (unfold VARX; nia).
  assert (HU : (n * nu + nu <= vu)%nat) by (unfold VARU; nia).
  assert (HQ : (vx + vu + np = VAR o)%nat) by (unfold VAR; lia).
  assert (Ex : forall c, (c < vx + vu)%nat -> hes_est o c = (nx + nu + np)%nat).
  { intros c H. unfold hes_est. rewrite (proj2 (Nat.ltb_lt c (vx + vu))) by auto. reflexivity. }
  assert (Eq : forall j, hes_est o (vx + vu + j) = VAR o).
  { intros j. unfold hes_est. rewrite (proj2 (Nat.ltb_ge (vx + vu + j) (vx + vu))) by lia. reflexivity. }
  destruct (cols_safe m M nx nx (fun j q v => v + h q j) (fun j M => outer M (n * nx + j)%nat) (n * nx) 0) as (M1 & E1 & S1);
    [auto|lia|intros; lia|intros; rewrite Ex; lia|].
  match goal with |- context [obind ?x _] => replace x with (Some M1) by (symmetry; exact E1) end. cbn [obind].
  assert (R1 : part m M1) by (eapply part_same; eauto).
  destruct (cols_safe m M1 nu nx (fun j q v => v + h q (nx + j)%nat) (fun j M => outer M (n * nu + vx + j)%nat) (n * nu + vx) 0) as (M2 & E2 & S2);
    [auto|lia|intros; lia|intros; rewrite Ex; lia|].
  match goal with |- context [obind ?x _] => replace x with (Some M2) by (symmetry; exact E2) end. cbn [obind].
  assert (R2 : part m M2) by (eapply part_same; eauto).
  destruct (cols_safe m M2 np nx (fun j q v => v + h q (nx + nu + j)%nat) (fun j M => outer M (vx + vu + j) + n * nx)%nat (vx + vu) (n * nx)) as (M3 & E3 & S3);
    [auto|lia|intros; lia|intros; rewrite Eq; lia|].
  match goal with |- context [obind ?x _] => replace x with (Some M3) by (symmetry; exact E3) end. cbn [obind].
  assert (R3 : part m M3) by (eapply part_same; eauto).
  destruct (cols_safe m M3 nu nu (fun j q v => v + h (nx + q)%nat (nx + j)%nat) (fun j M => outer M (n * nu + vx + j) + nx)%nat (n * nu + vx) nx) as (M4 & E4 & S4);
    [auto|lia|intros; lia|intros; rewrite Ex; lia|].
  match goal with |- context [obind ?x _] => replace x with (Some M4) by (symmetry; exact E4) end. cbn [obind].
  assert (R4 : part m M4) by (eapply part_same; eauto).
  destruct (cols_safe m M4 nx nu (fun j q v => v + h (nx + q)%nat j) (fun j M => outer M (n * nx + j) + nx)%nat (n * nx) nx) as (M5 & E5 & S5);
    [auto|lia|intros; lia|intros; rewrite Ex; lia|].
  match goal with |- context [obind ?x _] => replace x with (Some M5) by (symmetry; exact E5) end. cbn [obind].
  assert (R5 : part m M5) by (eapply part_same; eauto).
  destruct (cols_safe m M5 np nu (fun j q v => v + h (nx + q)%nat (nx + nu + j)%nat) (fun j M => outer M (vx + vu + j) + vx + n * nu)%nat (vx + vu) (vx + n * nu)) as (M6 & E6 & S6);
    [auto|lia|intros; lia|intros; rewrite Eq; lia|].
  match goal with |- context [obind ?x _] => replace x with (Some M6) by (symmetry; exact E6) end. cbn [obind].
  assert (R6 : part m M6) by (eapply part_same; eauto).
  destruct (cols_safe m M6 nx np (fun j q v => v + h (nx + nu + q)%nat j) (fun j M => outer M (n * nx + j) + nx + nu)%nat (n * nx) (nx + nu)) as (M7 & E7 & S7);
    [auto|lia|intros; lia|intros; rewrite Ex; lia|].
  match goal with |- context [obind ?x _] => replace x with (Some M7) by (symmetry; exact E7) end. cbn [obind].
  assert (R7 : part m M7) by (eapply part_same; eauto).
  destruct (cols_safe m M7 nu np (fun j q v => v + h (nx + nu + q)%nat (nx + j)%nat) (fun j M => outer M (n * nu + vx + j) + nx + nu)%nat (n * nu + vx) (nx + nu)) as (M8 & E8 & S8);
    [auto|lia|intros; lia|intros; rewrite Ex; lia|].
  exists M8. split; [exact E8|]. eauto 10 using same_trans.
Qed.

Lemma part_start : part 0 (reserve (sp_empty (VAR o) (VAR o)) (hes_est o)).
Proof.
  split; [reflexivity|]. split; [reflexivity|]. split.
  - apply lay_reserve. intros j Hj. rewrite hpat_count by auto. lia.
  - intros i j _ _. cbn. split; [discriminate|]. intros (_ & n & Hn & _). lia.
Qed.

Lemma seen_new : forall s k, (s = 0 \/ 0 < k)%nat -> seen s k = (k + s * P)%nat /\ seen s (S k) = S (k + s * P).
Proof. intros s k [->|H]; unfold seen; [cbn; lia|]. destruct (s =? 0)%nat; lia. Qed.

Theorem hes_asm_ok : (1 <= P)%nat -> (1 <= Sg)%nat -> mayer_u_ok o = true -> rd_ok ->
  exists M', hes_asm o var (sp_empty (VAR o) (VAR o)) = Some M' /\ hok M' /\
   (np = O -> forall i j, (i < VAR o)%nat -> (j < VAR o)%nat -> coeff M' i j = TOT i j).
Proof.
  intros HP HS Hu Hrd. unfold hes_asm.
  match goal with |- context [obind (oloop Sg ?f ?a) _] =>
    destruct (oloop_inv _ (fun s (st : mat R * spmat R) => Ppp s 0 (fst st) /\ part (seen s 0) (snd st) /\ (np = O -> Inv s 0 (val (snd st)))) Sg f a) as ((q & M1) & E1 & A1 & A2 & A3) end.
  - cbn [fst snd]. split; [|split; [apply part_start|intros _; apply Inv_start]]. intros i j _ _. rewrite Ssum_0. reflexivity.
  - intros s st Hs (B1 & B2 & B3).
    match goal with |- context [oloop (P + 1) ?f st] =>
      destruct (oloop_inv _ (fun k (st : mat R * spmat R) => Ppp s k (fst st) /\ part (seen s k) (snd st) /\ (np = O -> Inv s k (val (snd st)))) (P + 1) f st) as (st2 & E2 & C1 & C2 & C3) end; auto.
    + intros k (q & Ma) Hk (D1 & D2 & D3). cbn [fst snd] in *.
      assert (HnN : (k + s * P < N)%nat) by (apply node_lt_N; lia).
      assert (Hnew : (s = 0 \/ 0 < k)%nat -> exists s', obind (hes_insert o Ma (k + s * P) (C s k)) (fun M0 : spmat R =>
            Some ((fun i j : nat => q i j + C s k (nx + nu + i)%nat (nx + nu + j)%nat), M0)) = Some s' /\
            Ppp s (S k) (fst s') /\ part (seen s (S k)) (snd s') /\ (np = O -> Inv s (S k) (val (snd s')))).
      { intro Hd. destruct (seen_new s k Hd) as (Q1 & Q2). rewrite Q1 in D2.
        destruct (hes_insert_ok Ma (k + s * P) (C s k)) as (Mb & Eb & Pb & Vb); auto.
        rewrite Eb. cbn [obind]. eexists. split; [reflexivity|]. cbn [fst snd]. split; [apply (Ppp_S s k); auto; lia|].
        split; [rewrite Q2; auto|]. intro H0. apply (Inv_new s k (val Ma)); auto; try lia. }
      destruct (Nat.ltb_spec 0 s) as [L0|L0]; [destruct (Nat.eqb_spec k 0) as [->|Hk0]|]; cbn [andb]; [|apply Hnew; lia|apply Hnew; lia].
      assert (Q1 : seen s 0 = S (0 + s * P)) by (unfold seen; rewrite (proj2 (Nat.eqb_neq s 0)) by lia; lia).
      assert (Q2 : seen s 1 = S (0 + s * P)) by (unfold seen; rewrite (proj2 (Nat.eqb_neq s 0)) by lia; lia).
      destruct (Nat.eq_dec np 0) as [H0|H0].
      * destruct (hes_glue_ok o Ma (0 + s * P) (C s 0)) as (Mb & Eb & Sb & Vb); auto; [apply (part_ready (seen s 0)); auto; lia|].
        rewrite Eb. cbn [obind]. eexists. split; [reflexivity|]. cbn [fst snd]. split; [apply (Ppp_S s 0); auto; lia|].
        split; [rewrite Q2, <- Q1; eapply part_same; eauto|]. intros _. apply (Inv_glue s (val Ma)); auto.
      * destruct (glue_safe (seen s 0) Ma (0 + s * P) (C s 0)) as (Mb & Eb & Sb); auto.
        rewrite Eb. cbn [obind]. eexists. split; [reflexivity|]. cbn [fst snd]. split; [apply (Ppp_S s 0); auto; lia|].
        split; [rewrite Q2, <- Q1; eapply part_same; eauto|]. intros Hc; contradiction.
    + exists st2. split; auto. split; [apply Ppp_next; auto|].
      assert (Q : seen (S s) 0 = seen s (P + 1)) by (unfold seen; cbn [Nat.eqb]; destruct (s =? 0)%nat; lia).
      rewrite Q. split; auto. intro H0. apply Inv_next; auto.
  - match goal with |- context [obind (oloop Sg ?f ?a) _] => replace (oloop Sg f a) with (Some (q, M1)) by (symmetry; exact E1) end.
    cbn [obind fst snd] in *. rewrite seen_end in A2 by auto. pose proof A2 as (Hr & Hc & HL & Hp).
    destruct (insert_block np np (fun r j => q r j) M1 hpat (hes_est o) (vx + vu) (vx + vu) HL) as (M2 & E2 & L2 & R2 & C2 & P2 & V2);
      [rewrite Hr; unfold VAR; lia|rewrite Hc; unfold VAR; lia| |].
    { intros i j Hi Hj. split; [|apply hpat_p; lia]. destruct (pat M1 _ _) eqn:Ep; auto. exfalso.
      apply Hp in Ep; [|unfold VAR; lia|unfold VAR; lia]. destruct Ep as (Ep & _). unfold Ocp_Hes_Proofs.pp in Ep.
      rewrite !(proj2 (Nat.leb_le _ _)) in Ep by lia. discriminate. }
    rewrite E2. cbn [obind]. rewrite Hu.
    assert (Ps : forall i j, (i < VAR o)%nat -> (j < VAR o)%nat -> pp i j = in_seg (vx + vu) np i && in_seg (vx + vu) np j).
    { assert (Q : forall q, (q < VAR o)%nat -> (vx + vu <=? q)%nat = in_seg (vx + vu) np q).
      { intros q0 Hq. unfold in_seg. rewrite (proj2 (Nat.ltb_lt q0 (vx + vu + np))) by (unfold VAR in Hq; lia). rewrite andb_true_r. reflexivity. }
      intros i j Hi Hj. unfold Ocp_Hes_Proofs.pp. rewrite !Q by auto. reflexivity. }
    assert (HM2 : hok M2).
    { assert (Hpat : forall i j, (i < VAR o)%nat -> (j < VAR o)%nat -> pat M2 i j = hpat i j).
      { intros i j Hi Hj. rewrite P2, <- Ps by auto. apply eq_true_iff_eq. rewrite orb_true_iff, Hp, hpat_node by auto. split.
        - intros [Ep|(_ & n & A & B & D)]; [|exists n; auto]. exists O.
          unfold Ocp_Hes_Proofs.pp in Ep. apply andb_true_iff in Ep. destruct Ep as (Ea & Eb). apply Nat.leb_le in Ea, Eb.
          repeat split; [apply node0_lt|apply inz_pp; auto; apply node0_lt|apply inz_pp; auto; apply node0_lt].
        - intros (n & A & B & D). destruct (pp i j) eqn:Ep; [left; auto|right; split; auto; exists n; auto]. }
      split; [congruence|]. split; [congruence|]. split; auto. intros j Hj. destruct L2 as (La & _ & _).
      specialize (La j). rewrite C2, Hc in La. specialize (La Hj).
      assert (Hn : ncol M2 j = hes_est o j); [|lia]. unfold ncol. rewrite R2, Hr, <- hpat_count by auto. apply cnt_ext. intros; apply Hpat; auto. }
    destruct (hes_glue_ok o M2 0 (may_hes o var)) as (M3 & E3 & S3 & V3); [apply hok_ready; auto; apply node0_lt|apply node0_lt|].
    assert (HM3 : hok M3) by (eapply hok_same; eauto).
    match goal with |- context [obind (hes_glue o M2 0 ?h) _] => replace (hes_glue o M2 0 h) with (Some M3) by (symmetry; exact E3) end.
    cbn [obind]. unfold hes_pp_add, add_n.
    destruct (pp_loop o M3 0 (fun j r v => v + may_hes o var (nx + nu + r)%nat (nx + nu + j)%nat)) as (M4 & E4 & S4 & V4); [apply hok_ready; auto; apply node0_lt|apply node0_lt|].
    assert (HM4 : hok M4) by (eapply hok_same; eauto).
    exists M4. split; [exact E4|]. split; auto. intros H0 i j Hi Hj. unfold coeff. pose proof HM4 as (_ & _ & _ & Hp4).
    rewrite Hp4 by auto. destruct (hpat i j) eqn:Eh; [|rewrite TOT_off; auto].
    assert (Ep : pp i j = false). { unfold Ocp_Hes_Proofs.pp. rewrite (proj2 (Nat.leb_gt (vx + vu) i)); auto. unfold VAR in Hi; lia. }
    rewrite V4, Ep, V3, Ep, V2, <- Ps, Ep by auto. unfold TOT. f_equal.
    apply hpat_node in Eh; auto. destruct Eh as (n & Hn & Zi & Zj). apply (A3 H0 n); auto. rewrite seen_end; auto.
Qed.

(** * both calls *)
Lemma nonzeros_empty : nonzeros (sp_empty (VAR o) (VAR o)) = O.
Proof.
  unfold nonzeros. cbn [sp_c sp_empty]. generalize (VAR o) at 1 as n. intro n. induction n; cbn [nsum]; auto. rewrite IHn.
  unfold ncol. rewrite cnt_none; auto.
Qed.
Lemma est_pos : (0 < NZ o)%nat -> nsum (VAR o) (hes_est o) <> O.
Proof.
  intros H. assert (HV : (0 < VAR o)%nat) by (unfold VAR, VARX, VARU, NUM_NODES, NZ in *; nia).
  pose proof (nsum_mono (hes_est o) 1 (VAR o) HV) as Hm. cbn [nsum] in Hm. unfold hes_est at 1 in Hm. unfold NZ in H.
  destruct (0 <? vx + vu)%nat; lia.
Qed.

Theorem hes_first : (0 < NZ o)%nat -> (1 <= P)%nat -> (1 <= Sg)%nat -> mayer_u_ok o = true -> rd_ok ->
  exists M', hes_sparse o var (sp_empty (VAR o) (VAR o)) = Some M' /\ hok M' /\
   (np = O -> forall i j, (i < VAR o)%nat -> (j < VAR o)%nat -> coeff M' i j = TOT i j).
Proof.
  intros HZ HP HS Hu Hrd. unfold hes_sparse. rewrite nonzeros_empty.
  rewrite (proj2 (Nat.eqb_neq 0 (nsum (VAR o) (hes_est o)))) by (intro E; apply (est_pos HZ); auto). apply hes_asm_ok; auto.
Qed.
Theorem hes_again : forall M, (1 <= P)%nat -> (1 <= Sg)%nat -> mayer_u_ok o = true -> hok M ->
  exists M', hes_sparse o var M = Some M' /\ hok M' /\
   forall i j, (i < VAR o)%nat -> (j < VAR o)%nat -> coeff M' i j = TOT i j.
Proof.
  intros M HP HS Hu HM. unfold hes_sparse. rewrite hok_nonzeros by auto. rewrite Nat.eqb_refl. apply hes_upd_ok; auto.
Qed.

End P.
