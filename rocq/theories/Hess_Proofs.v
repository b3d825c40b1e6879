Require Import Reals Lra Lia List ZArith.
Require Import Verif.Scal Verif.RSum Verif.Hess_Model.
Import ListNotations.
Local Open Scope R_scope.

Lemma dbl_eps_pos : 0 < (dbl_eps : R).
Proof. unfold dbl_eps, scst. simpl. apply Rdiv_lt_0_compat; lra. Qed.

(** algebra of the rank-one modifications *)
Section Rank.
Variable n : nat.

Lemma qf_ext : forall A A' x, (forall i j, (i < n)%nat -> (j < n)%nat -> A i j = A' i j) ->
  qf n A x = qf n A' x.
Proof.
  intros. unfold qf. apply rdot_ext; intros; auto. apply rmv_ext; intros; auto.
Qed.

Lemma rmv_rank1 : forall A (u : vec R) c x i,
  rmv n (fun i j => A i j + (u i * u j) * c) x i = rmv n A x i + u i * c * rdot n u x.
Proof.
  intros. rewrite !rmv_def, rdot_def. rewrite <- rsum_scal, <- rsum_plus.
  apply rsum_ext; intros. ring.
Qed.

Lemma qf_rank1 : forall A (u : vec R) c x,
  qf n (fun i j => A i j + (u i * u j) * c) x = qf n A x + c * (rdot n u x * rdot n u x).
Proof.
  intros. unfold qf. rewrite !rdot_def.
  rewrite (rsum_ext n _ (fun i => x i * rmv n A x i + (u i * x i) * (c * rdot n u x))).
  - rewrite rsum_plus, rsum_scal_r, <- (rdot_def n u x). ring.
  - intros. rewrite rmv_rank1. ring.
Qed.

(** Equality case of Cauchy-Schwarz for a positive definite matrix *)
Lemma posdef_cs_eq : forall B s x, symmetric n B -> posdef n B -> nonzero_vec n s ->
  qf n B x * qf n B s = bf n B x s * bf n B x s ->
  exists c, forall i, (i < n)%nat -> x i = c * s i.
Proof.
  intros B s x Hsym Hpd Hs Heq.
  assert (Hs' := Hpd s Hs).
  set (c := bf n B x s / qf n B s).
  exists c.
  assert (Hw : qf n B (fun i => x i + (- c) * s i) = 0).
  { rewrite qf_plus_scal by auto.
    replace (qf n B x) with (bf n B x s * bf n B x s / qf n B s) by (rewrite <- Heq; field; lra).
    unfold c. field. lra. }
  destruct (nonzero_dec n (fun i => x i + (- c) * s i)) as [Hnz|Hz].
  - specialize (Hpd _ Hnz). lra.
  - intros i Hi. specialize (Hz i Hi). simpl in Hz. lra.
Qed.

End Rank.

Section Bfgs.
Variable n : nat.

(** data of an update over the reals *)
Definition bBs (B : mat R) (s : vec R) : vec R := rmv n B s.

Lemma bfgs_r_sr : forall y Bs sBs sy (s : vec R), sBs = rdot n s Bs -> sy = rdot n s y ->
  rdot n s (fst (bfgs_r n y Bs sBs sy)) = snd (bfgs_r n y Bs sBs sy).
Proof.
  intros. unfold bfgs_r. simpl. destruct (Rltb sy _); simpl; auto.
  rewrite (rdot_ext n s _ s (fun i => scst 8 10 * sBs / (sBs - sy) * y i + (1 - scst 8 10 * sBs / (sBs - sy)) * Bs i)); auto.
  - rewrite rdot_plus_r, !rdot_scal_r, <- H, <- H0. reflexivity.
  - intros. rewrite tab_spec by auto. reflexivity.
Qed.

(** the update in closed form on the index range *)
Definition r_of (B : mat R) (s y : vec R) : vec R :=
  fst (bfgs_r n y (tab n (mv n B s)) (dot n s (tab n (mv n B s))) (dot n s y)).
Definition sr_of (B : mat R) (s y : vec R) : R :=
  snd (bfgs_r n y (tab n (mv n B s)) (dot n s (tab n (mv n B s))) (dot n s y)).

Lemma dot_tab : forall (s : vec R) f, dot n s (tab n f) = rdot n s f.
Proof. intros. apply rdot_ext; auto. intros; rewrite tab_spec; auto. Qed.

Lemma bfgs_cases : forall B s y,
  (sr_of B s y < dbl_eps /\ bfgs_update n B s y = B) \/
  (dbl_eps <= sr_of B s y /\ forall i j, (i < n)%nat -> (j < n)%nat ->
     bfgs_update n B s y i j =
       (B i j + (rmv n B s i * rmv n B s j) * (- / rdot n s (rmv n B s)))
       + (r_of B s y i * r_of B s y j) * / sr_of B s y).
Proof.
  intros B s y. unfold bfgs_update, r_of, sr_of.
  destruct (bfgs_r n y _ _ _) as [r sr]. cbn [fst snd].
  change (@sltb R R_scalar) with Rltb.
  destruct (Rltb sr dbl_eps) eqn:E.
  - left. apply Rltb_true in E. split; [exact E|reflexivity].
  - right. apply Rltb_false in E. split; [exact E|]. intros i j Hi Hj.
    rewrite !tab2_spec by auto. simpl. rewrite !tab_spec by auto. rewrite dot_tab.
    unfold Rdiv. fold (rmv n B s). ring.
Qed.

Lemma sr_eq : forall B s y, rdot n s (r_of B s y) = sr_of B s y.
Proof. intros. unfold r_of, sr_of. apply bfgs_r_sr; auto. Qed.

Lemma bfgs_spd : forall B s y, symmetric n B -> posdef n B ->
  symmetric n (bfgs_update n B s y) /\ posdef n (bfgs_update n B s y).
Proof.
  intros B s y Hsym Hpd.
  destruct (bfgs_cases B s y) as [[_ ->]|[Hsr Hup]]; [auto|].
  assert (Heps := dbl_eps_pos).
  assert (Hs : nonzero_vec n s).
  { destruct (nonzero_dec n s) as [|Hz]; auto. exfalso.
    rewrite <- sr_eq in Hsr. rewrite rdot_def in Hsr.
    rewrite rsum_zero in Hsr; [lra|]. intros; rewrite Hz; auto; ring. }
  assert (HsBs : 0 < rdot n s (rmv n B s)) by (apply (Hpd s Hs)).
  split.
  - intros i j Hi Hj. rewrite !Hup by auto. rewrite (Hsym i j) by auto. ring.
  - intros x Hx.
    rewrite (qf_ext n _ _ x Hup).
    rewrite (qf_rank1 n (fun i j => B i j + rmv n B s i * rmv n B s j * - / rdot n s (rmv n B s)) (r_of B s y) (/ sr_of B s y)).
    rewrite (qf_rank1 n B (rmv n B s) (- / rdot n s (rmv n B s))).
    assert (Hbf : rdot n (rmv n B s) x = bf n B x s) by (unfold bf; apply rdot_comm).
    rewrite Hbf.
    assert (Hcs := cauchy_schwarz n B x s Hsym (posdef_psd n B Hpd)).
    assert (HqS : qf n B s = rdot n s (rmv n B s)) by reflexivity.
    assert (Hsr0 : 0 < / sr_of B s y) by (apply Rinv_0_lt_compat; lra).
    assert (Hfirst : 0 <= qf n B x + - / rdot n s (rmv n B s) * (bf n B x s * bf n B x s)).
    { rewrite <- HqS in *. apply Rmult_le_reg_r with (qf n B s); [lra|].
      replace ((qf n B x + - / qf n B s * (bf n B x s * bf n B x s)) * qf n B s)
        with (qf n B x * qf n B s - bf n B x s * bf n B x s) by (field; lra).
      lra. }
    assert (Hsq : 0 <= rdot n (r_of B s y) x * rdot n (r_of B s y) x) by nra.
    destruct (Rle_lt_or_eq_dec _ _ Hfirst) as [Hlt|Heq].
    + assert (0 <= / sr_of B s y * (rdot n (r_of B s y) x * rdot n (r_of B s y) x)) by (apply Rmult_le_pos; lra).
      lra.
    + assert (Heq' : qf n B x * qf n B s = bf n B x s * bf n B x s).
      { rewrite <- HqS in *.
        replace (qf n B x) with (/ qf n B s * (bf n B x s * bf n B x s)) by lra.
        field; lra. }
      destruct (posdef_cs_eq n B s x Hsym Hpd Hs Heq') as [c Hc].
      assert (Hrx : rdot n (r_of B s y) x = c * sr_of B s y).
      { rewrite <- sr_eq, (rdot_comm n s), <- rdot_scal_r. apply rdot_ext; auto. }
      assert (c <> 0).
      { intros ->. destruct Hx as (i & Hi & Hxi). apply Hxi. rewrite Hc by auto. ring. }
      rewrite Hrx. rewrite <- Heq.
      replace (/ sr_of B s y * (c * sr_of B s y * (c * sr_of B s y))) with (c * c * sr_of B s y) by (field; lra).
      assert (0 < c * c) by nra.
      assert (0 < c * c * sr_of B s y) by (apply Rmult_lt_0_compat; lra). lra.
Qed.

Lemma bfgs_run_spd : forall ps B, symmetric n B -> posdef n B ->
  symmetric n (bfgs_run n B ps) /\ posdef n (bfgs_run n B ps).
Proof.
  induction ps as [|[s y] ps IH]; intros B Hs Hp; [auto|].
  unfold bfgs_run. cbn [fold_left fst snd]. apply IH; apply bfgs_spd; auto.
Qed.

(** secant equation of an accepted update *)
Lemma bfgs_secant : forall B s y, symmetric n B -> dbl_eps <= sr_of B s y ->
  rdot n s (rmv n B s) <> 0 ->
  forall i, (i < n)%nat -> rmv n (bfgs_update n B s y) s i = r_of B s y i.
Proof.
  intros B s y Hsym Hsr HsBs i Hi.
  destruct (bfgs_cases B s y) as [[Hlt _]|[_ Hup]]; [lra|].
  assert (Heps := dbl_eps_pos).
  rewrite (rmv_ext n _ (fun i j => B i j + rmv n B s i * rmv n B s j * - / rdot n s (rmv n B s) + r_of B s y i * r_of B s y j * / sr_of B s y) s s i).
  - rewrite (rmv_rank1 n (fun i j => B i j + rmv n B s i * rmv n B s j * - / rdot n s (rmv n B s)) (r_of B s y) (/ sr_of B s y)).
    rewrite (rmv_rank1 n B (rmv n B s)).
    rewrite (rdot_comm n (r_of B s y)), sr_eq, (rdot_comm n (rmv n B s) s).
    field. split; [lra|auto].
  - intros; apply Hup; auto.
  - auto.
Qed.

(** [r] in terms of the arguments *)
Lemma r_of_spec : forall B s y,
  let sBs := rdot n s (rmv n B s) in let sy := rdot n s y in
  (2 / 10 * sBs <= sy -> forall i, (i < n)%nat -> r_of B s y i = y i) /\
  (sy < 2 / 10 * sBs -> forall i, (i < n)%nat ->
     r_of B s y i = (8 / 10 * sBs / (sBs - sy)) * y i + (1 - 8 / 10 * sBs / (sBs - sy)) * rmv n B s i).
Proof.
  intros B s y sBs sy. unfold r_of, bfgs_r.
  rewrite dot_tab. fold sBs. change (dot n s y) with sy.
  change (@sltb R R_scalar) with Rltb. change (@smul R R_scalar) with Rmult.
  change (@scst R R_scalar 2 10) with (2 / 10).
  split; intros H i Hi.
  - rewrite (proj2 (Rltb_false _ _) H). reflexivity.
  - rewrite (proj2 (Rltb_true _ _) H). cbn [fst]. rewrite !tab_spec by auto. reflexivity.
Qed.

Lemma sr_of_spec : forall B s y,
  let sBs := rdot n s (rmv n B s) in let sy := rdot n s y in
  0 <= sBs -> sr_of B s y = Rmax sy (2 / 10 * sBs).
Proof.
  intros B s y sBs sy Hp. unfold sr_of, bfgs_r.
  rewrite dot_tab. fold sBs. change (dot n s y) with sy.
  change (@sltb R R_scalar) with Rltb. change (@smul R R_scalar) with Rmult.
  change (@scst R R_scalar 2 10) with (2 / 10).
  destruct (Rltb sy (2 / 10 * sBs)) eqn:E; cbn [snd].
  - apply Rltb_true in E. rewrite Rmax_right by lra.
    change (8 / 10 * sBs / (sBs - sy) * sy + (1 - 8 / 10 * sBs / (sBs - sy)) * sBs = 2 / 10 * sBs).
    field. lra.
  - apply Rltb_false in E. rewrite Rmax_left by lra. reflexivity.
Qed.

End Bfgs.

Lemma bfgs_secant_full : forall n (B : mat R) s y,
  symmetric n B -> posdef n B ->
  let sBs := rdot n s (rmv n B s) in
  let sy := rdot n s y in
  let theta := 8 / 10 * sBs / (sBs - sy) in
  let c := Rmax sy (2 / 10 * sBs) in
  (c < dbl_eps -> bfgs_update n B s y = B) /\
  (dbl_eps <= c -> 2 / 10 * sBs <= sy ->
     forall i, (i < n)%nat -> rmv n (bfgs_update n B s y) s i = y i) /\
  (dbl_eps <= c -> sy < 2 / 10 * sBs ->
     forall i, (i < n)%nat ->
       rmv n (bfgs_update n B s y) s i = theta * y i + (1 - theta) * rmv n B s i).
Proof.
  intros n B s y Hsym Hpd sBs sy theta c.
  assert (Hp : 0 <= sBs) by (apply (posdef_psd n B Hpd s)).
  assert (Hc : sr_of n B s y = c) by (apply (sr_of_spec n B s y); exact Hp).
  destruct (r_of_spec n B s y) as [R1 R2].
  assert (Hnz : dbl_eps <= c -> rdot n s (rmv n B s) <> 0).
  { intros H. assert (E := dbl_eps_pos). destruct (nonzero_dec n s) as [Hs|Hs].
    - specialize (Hpd s Hs). unfold qf in Hpd. lra.
    - exfalso. rewrite <- Hc, <- sr_eq in H. rewrite rdot_def, rsum_zero in H; [lra|].
      intros; rewrite Hs; auto; ring. }
  repeat split.
  - intros H. destruct (bfgs_cases n B s y) as [[_ E]|[E _]]; [exact E|]. rewrite Hc in E. lra.
  - intros H H2 i Hi. rewrite bfgs_secant; [apply R1; auto|auto|rewrite Hc; exact H|auto|auto].
  - intros H H2 i Hi. rewrite bfgs_secant; [apply R2; auto|auto|rewrite Hc; exact H|auto|auto].
Qed.

(** ** SR1 *)
Section Sr1.
Variable n : nat.

Lemma sr1_cases : forall (B : mat R) s y,
  let v := fun i => y i - rmv n B s i in
  (Rabs (rdot n v s) < 1 / 1000000 * sqrt (rdot n s s) * sqrt (rdot n v v) /\ sr1_update n B s y = B) \/
  (1 / 1000000 * sqrt (rdot n s s) * sqrt (rdot n v v) <= Rabs (rdot n v s) /\
   forall i j, (i < n)%nat -> (j < n)%nat ->
     sr1_update n B s y i j = B i j + (v i * v j) * / rdot n v s).
Proof.
  intros B s y v. unfold sr1_update, norm2.
  set (w := tab n (fun i => ssub (y i) (tab n (mv n B s) i))).
  assert (Hw : forall i, (i < n)%nat -> w i = v i).
  { intros. unfold w. rewrite !tab_spec by auto. reflexivity. }
  assert (E1 : dot n w s = rdot n v s) by (apply rdot_ext; auto).
  assert (E2 : dot n w w = rdot n v v) by (apply rdot_ext; auto).
  cbv zeta. rewrite E1, E2.
  change (@sleb R R_scalar) with Rleb. change (@smul R R_scalar) with Rmult.
  change (@scst R R_scalar 1 1000000) with (1 / 1000000).
  change (@sabs R R_scalar) with Rabs. change (@ssqrt R R_scalar) with sqrt.
  change (dot n s s) with (rdot n s s).
  destruct (Rleb _ _) eqn:E.
  - right. apply Rleb_true in E. split; auto. intros. rewrite tab2_spec by auto.
    simpl. rewrite !Hw by auto. reflexivity.
  - left. apply Rleb_false in E. auto.
Qed.

Lemma sr1_symmetric : forall (B : mat R) s y, symmetric n B -> symmetric n (sr1_update n B s y).
Proof.
  intros B s y H. destruct (sr1_cases B s y) as [[_ ->]|[_ Hup]]; auto.
  intros i j Hi Hj. rewrite !Hup, (H i j) by auto. ring.
Qed.

Lemma sr1_run_symmetric : forall ps (B : mat R), symmetric n B -> symmetric n (sr1_run n B ps).
Proof.
  induction ps as [|[s y] ps IH]; intros B H; auto.
  unfold sr1_run; cbn [fold_left fst snd]. apply IH, sr1_symmetric; auto.
Qed.

Lemma nonzero_norm_pos : forall f, nonzero_vec n f -> 0 < rdot n f f.
Proof.
  intros f (i & Hi & Hf).
  destruct (Rle_lt_or_eq_dec _ _ (rdot_self_nonneg n f)) as [|E]; auto.
  exfalso. apply Hf. apply (rdot_self_zero n f); auto.
Qed.

Lemma sr1_divisor : forall (B : mat R) s y,
  let v := fun i => y i - rmv n B s i in
  nonzero_vec n s -> nonzero_vec n v ->
  1 / 1000000 * sqrt (rdot n s s) * sqrt (rdot n v v) <= Rabs (rdot n v s) ->
  rdot n v s <> 0.
Proof.
  intros B s y v Hs Hv Hle E. rewrite E, Rabs_R0 in Hle.
  assert (0 < sqrt (rdot n s s)) by (apply sqrt_lt_R0, nonzero_norm_pos; auto).
  assert (0 < sqrt (rdot n v v)) by (apply sqrt_lt_R0, nonzero_norm_pos; auto).
  assert (0 < 1 / 1000000 * sqrt (rdot n s s)) by (apply Rmult_lt_0_compat; lra).
  assert (0 < 1 / 1000000 * sqrt (rdot n s s) * sqrt (rdot n v v)) by (apply Rmult_lt_0_compat; lra).
  lra.
Qed.

Lemma sr1_secant : forall (B : mat R) s y,
  let v := fun i => y i - rmv n B s i in
  rdot n v s <> 0 ->
  1 / 1000000 * sqrt (rdot n s s) * sqrt (rdot n v v) <= Rabs (rdot n v s) ->
  forall i, (i < n)%nat -> rmv n (sr1_update n B s y) s i = y i.
Proof.
  intros B s y v Hnz Hle i Hi.
  destruct (sr1_cases B s y) as [[Hlt _]|[_ Hup]]; [unfold v in Hle; lra|fold v in Hup].
  rewrite (rmv_ext n _ (fun i j => B i j + v i * v j * / rdot n v s) s s i).
  - rewrite (rmv_rank1 n B v). unfold v at 1. field. exact Hnz.
  - intros; apply Hup; auto.
  - auto.
Qed.

(** unconditional summary for non-degenerate pairs *)
Lemma sr1_dichotomy : forall (B : mat R) s y,
  let v := fun i => y i - rmv n B s i in
  nonzero_vec n s -> nonzero_vec n v ->
  sr1_update n B s y = B \/
  (rdot n v s <> 0 /\ forall i, (i < n)%nat -> rmv n (sr1_update n B s y) s i = y i).
Proof.
  intros B s y v Hs Hv. destruct (sr1_cases B s y) as [[_ H]|[H _]]; auto.
  right. assert (Hd := sr1_divisor B s y Hs Hv H). split; auto. apply sr1_secant; auto.
Qed.

End Sr1.
