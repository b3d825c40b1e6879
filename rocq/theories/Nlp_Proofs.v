Require Import Arith Bool List Reals Lra Lia FunctionalExtensionality.
From Verif Require Import RSum Ad_Model Ad_Spec Ad_Proofs Ad_Nested_Proofs Ad_Prog_Proofs Rbf_Model Rbf_Proofs Ad_Props Nlp_Model Nlp_Spec.
Local Open Scope R_scope.

(** * nested active scalars carry a symmetric second derivative *)
Definition good (a : dual (dual R)) : Prop :=
  (forall k, der (val a) k = val (der a k)) /\ (forall j k, der (der a j) k = der (der a k) j).
Lemma good_un (x : dual (dual R)) (v d : dual R) :
  (forall k, der v k = der (val x) k * val d) -> (exists c, forall k, der d k = der (val x) k * c) ->
  good x -> good (d_un x v d).
Proof.
  intros Hv [c Hd] [G1 G2]. split.
  - intro k. cbn. rewrite Hv, G1. reflexivity.
  - intros j k. cbn. rewrite !Hd, !G1, (G2 j k). ring.
Qed.
Lemma good_sub_ok (x y : dual (dual R)) : good x -> good y ->
  good (add x y) /\ good (sub x y) /\ good (mul x y) /\ good (div x y) /\ good (fmin x y) /\ good (fmax x y).
Proof.
  intros [X1 X2] [Y1 Y2].
  repeat split; try (intros; cbn; rewrite ?X1, ?Y1; unfold Rdiv; first [reflexivity|ring]).
  - intros j k. cbn. rewrite (X2 j k), (Y2 j k). reflexivity.
  - intros j k. cbn. rewrite (X2 j k), (Y2 j k). reflexivity.
  - intros j k. cbn. rewrite (X2 j k), (Y2 j k), !X1, !Y1. ring.
  - intros j k. cbn. rewrite (X2 j k), (Y2 j k), !X1, !Y1. destruct (Req_dec (val (val y)) 0) as [E|E]; [|field; exact E].
    rewrite E. unfold Rdiv. rewrite !Rmult_0_l, Rinv_0. ring.
  - intro k. cbn. destruct (Rlt_dec _ _); auto.
  - intros j k. cbn. destruct (Rlt_dec _ _); auto.
  - intro k. cbn. destruct (Rle_dec _ _); auto.
  - intros j k. cbn. destruct (Rle_dec _ _); auto.
Qed.
Lemma good_scal (x : dual (dual R)) (c : R) : good x ->
  good (opp x) /\ good (addr x c) /\ good (radd c x) /\ good (subr x c) /\ good (rsub c x) /\
  good (mulr x c) /\ good (rmul c x) /\ good (divr x c) /\ good (rdiv c x).
Proof.
  intros [X1 X2]. unfold good.
  repeat match goal with |- _ /\ _ => split end;
    try (intros j k; cbn; rewrite (X2 j k), ?X1; unfold Rdiv; ring);
    try (intro k; cbn; rewrite ?X1; unfold Rdiv; ring).
  intro k. cbn. rewrite ?X1. destruct (Req_dec c 0) as [E|E]; [rewrite E; unfold Rdiv; rewrite Rmult_0_l, Rinv_0; ring|field; exact E].
Qed.
Lemma good_unary u (x : dual (dual R)) : good x -> good (unary_fn u x).
Proof.
  intro G. destruct u; cbn [unary_fn].
  - apply good_un; [|destruct (Rlt_dec (re (val x)) 0); exists 0; intro; cbn; ring|exact G].
    intro k. cbn. destruct (Rlt_dec (val (val x)) 0); reflexivity.
  - apply good_un; [intro; cbn; reflexivity|exists 2; intro; cbn; ring|exact G].
  - apply good_un; [intro; cbn; reflexivity| |exact G].
    eexists. intro k. cbn. unfold Rdiv. rewrite !Rmult_0_l.
    instantiate (1 := - (1 * / 2 * / sqrt (val (val x)) * (1 * / 2) * (1 * / (sqrt (val (val x)) * sqrt (val (val x)))))). ring.
  - apply good_un; [intro; cbn; reflexivity|exists (- cos (val (val x))); intro; cbn; ring|exact G].
  - apply good_un; [intro; cbn; reflexivity|exists (- sin (val (val x))); intro; cbn; ring|exact G].
  - apply good_un; [intro; cbn; reflexivity|exists (exp (val (val x))); intro; cbn; ring|exact G].
  - apply good_un; [intro; cbn; reflexivity| |exact G].
    exists (- (1 * / (val (val x) * val (val x)))). intro k. cbn. unfold Rdiv. ring.
  - apply good_un; [intro; cbn; reflexivity|exists 0; intro; cbn; ring|exact G].
  - apply good_un; [intro; cbn; reflexivity| |exact G].
    eexists. intro k. cbn. unfold Rdiv. rewrite !Rmult_0_l.
    set (c := cos (val (val x))). set (s := sin (val (val x))).
    instantiate (1 := 2 * cos (val (val x)) * sin (val (val x)) *
      (1 * / (cos (val (val x)) * cos (val (val x)) * (cos (val (val x)) * cos (val (val x)))))). fold c s. ring.
  - apply good_un; [intro; cbn; reflexivity| |exact G].
    eexists. intro k. cbn. unfold Rdiv. rewrite !Rmult_0_l.
    set (v := val (val x)). set (q := sqrt (1 - v * v)).
    instantiate (1 := 2 * val (val x) * (1 * / 2 * / sqrt (1 - val (val x) * val (val x))) *
      (1 * / (sqrt (1 - val (val x) * val (val x)) * sqrt (1 - val (val x) * val (val x))))). fold v. fold q. ring.
  - apply good_un; [intro; cbn; reflexivity| |exact G].
    eexists. intro k. cbn. unfold Rdiv. rewrite !Rmult_0_l.
    set (v := val (val x)). set (q := sqrt (1 - v * v)).
    instantiate (1 := - (2 * val (val x) * (1 * / 2 * / sqrt (1 - val (val x) * val (val x))) *
      (1 * / (sqrt (1 - val (val x) * val (val x)) * sqrt (1 - val (val x) * val (val x)))))). fold v. fold q. ring.
  - apply good_un; [intro; cbn; reflexivity| |exact G].
    eexists. intro k. cbn. unfold Rdiv. rewrite !Rmult_0_l.
    set (c := cosh (val (val x))). set (s := sinh (val (val x))).
    instantiate (1 := - (2 * cosh (val (val x)) * sinh (val (val x)) *
      (1 * / (cosh (val (val x)) * cosh (val (val x)) * (cosh (val (val x)) * cosh (val (val x))))))). fold c s. ring.
  - apply good_un; [intro; cbn; reflexivity|exists (sinh (val (val x))); intro; cbn; ring|exact G].
  - apply good_un; [intro; cbn; reflexivity|exists (cosh (val (val x))); intro; cbn; ring|exact G].
Qed.
Lemma good_ev (y : nat -> dual (dual R)) : (forall i, good (y i)) -> forall e, nestable e -> good (ev y e).
Proof.
  intros Hy. induction e; cbn [ev nestable]; intro N; try contradiction;
    try (destruct N as [N1 N2]; specialize (IHe1 N1); specialize (IHe2 N2);
         pose proof (good_sub_ok _ _ IHe1 IHe2) as Q; tauto);
    try (specialize (IHe N); pose proof (fun c => good_scal _ c IHe) as Q; specialize (Q c); tauto);
    try (specialize (IHe N); pose proof (good_scal _ 0 IHe) as Q; tauto).
  - apply Hy.
  - split; intros; reflexivity.
  - apply good_unary; auto.
Qed.
Lemma good_var v i : good (d_var (d_var v i) i).
Proof.
  split; [intro k|intros j k]; cbn; repeat (destruct (_ =? _)%nat); reflexivity.
Qed.

(** * the seeds survive *)
Definition seeded (s : state) : Prop := forall i,
  der (ad_var s i) = (fun k => if (k =? i)%nat then 1 else 0) /\
  der (val (ad2_var s i)) = (fun k => if (k =? i)%nat then 1 else 0) /\
  der (ad2_var s i) = (fun k => if (k =? i)%nat then d_cst 1 else d_cst 0).
Lemma seeded_seed junk : seeded (seed junk).
Proof. intro i. repeat split. Qed.
Lemma seeded_set s x : seeded s -> seeded (set_ad s x).
Proof. intros H i. destruct (H i) as [A [B C]]. repeat split; auto. Qed.
Lemma seeded_set2 s x : seeded s -> seeded (set_ad2 s x).
Proof. intros H i. destruct (H i) as [A [B C]]. repeat split; auto. Qed.
Lemma set_ad_var s x : seeded s -> ad_var (set_ad s x) = fun i => d_var (x i) i.
Proof.
  intro H. apply functional_extensionality. intro i. destruct (H i) as [A _]. cbn.
  unfold assign_scalar. rewrite A. reflexivity.
Qed.
Lemma set_ad2_var s x : seeded s -> ad2_var (set_ad2 s x) = fun i => d_var (d_var (x i) i) i.
Proof.
  intro H. apply functional_extensionality. intro i. destruct (H i) as [_ [B C]]. cbn.
  rewrite B, C. reflexivity.
Qed.

Section P.
Variable P : problem.
Lemma cl_seeded p s x g J : seeded s -> seeded (fst (fst (constraints_linearised P p s x g J))).
Proof.
  intro H. unfold constraints_linearised, equalities_linearised, inequalities_linearised.
  destruct (0 <? NE P)%nat, (0 <? NI P)%nat; cbn; repeat apply seeded_set; exact H.
Qed.
Lemma lag_seeded p s x lam g J H : seeded s -> seeded (o_state (lagrangian_gradient P p s x lam g J H)).
Proof.
  intro Hs. unfold lagrangian_gradient, cost_gradient. cbv zeta.
  destruct (constraints_linearised P p (set_ad s x) x g J) as [[s' g'] J'] eqn:E. cbn.
  pose proof (cl_seeded p (set_ad s x) x g J (seeded_set _ x Hs)) as Q. rewrite E in Q. exact Q.
Qed.
Lemma lagh_seeded p s x lam g J c : seeded s -> seeded (o_state (lagrangian_gradient_hessian P p s x lam g J c)).
Proof.
  intro Hs. unfold lagrangian_gradient_hessian, cost_gradient_hessian. cbv zeta.
  destruct (constraints_linearised P p (set_ad2 s x) x g J) as [[s' g'] J'] eqn:E. cbn.
  pose proof (cl_seeded p (set_ad2 s x) x g J (seeded_set2 _ x Hs)) as Q. rewrite E in Q.
  apply seeded_set2. exact Q.
Qed.
Lemma life_seeded junk calls : seeded (life P junk calls).
Proof.
  unfold life. assert (forall s, seeded s -> seeded (fold_left (fun s c => after P (fst c) s (snd c)) calls s)) as Q.
  { induction calls as [|[p c] t IH]; intros s H; cbn; [exact H|]. apply IH.
    destruct c; cbn [after fst snd].
    - apply seeded_set, H.
    - apply seeded_set2, H.
    - apply seeded_set, H.
    - apply seeded_set, H.
    - apply cl_seeded, H.
    - apply lag_seeded, H.
    - apply lagh_seeded, H. }
  apply Q, seeded_seed.
Qed.

Variable p : nat -> R.
Variable s : state.
Hypothesis Hs : seeded s.

Lemma cl_values x g J :
  let '(_, g', J') := constraints_linearised P p s x g J in
  (forall i, (i < NE P + NI P)%nat -> g' i = con P p i x) /\
  (forall i k, (i < NE P + NI P)%nat ->
     J' i k = der (ev (fun i => d_var (x i) i) (if (i <? NE P)%nat then ceq P p i else cin P p (i - NE P)%nat)) k) /\
  (forall i, (NE P + NI P <= i)%nat -> g' i = g i /\ J' i = J i).
Proof.
  assert (forall e, val (ev (fun i => d_var (x i) i) e) = ev x e) as V by (intro e; rewrite C38_value; reflexivity).
  unfold constraints_linearised, equalities_linearised, inequalities_linearised. cbv zeta.
  destruct (Nat.ltb_spec 0 (NE P)) as [L1|L1]; destruct (Nat.ltb_spec 0 (NI P)) as [L2|L2]; cbv beta iota.
  all: rewrite ?(set_ad_var _ _ (seeded_set _ _ Hs)), ?(set_ad_var _ _ Hs); unfold put_top, put_bottom, con.
  all: split; [|split]; [intros i Hi|intros i k Hi|intros i Hi];
    destruct (Nat.ltb_spec i (NE P)); destruct (Nat.leb_spec (NE P) i); try lia;
    destruct (Nat.ltb_spec i (NE P + NI P)); try lia; cbn [andb]; rewrite ?V; auto.
Qed.

Lemma con_partial x i k : smooth_at P p x -> (i < NE P + NI P)%nat ->
  partial (con P p i) x k
    (der (ev (fun i => d_var (x i) i) (if (i <? NE P)%nat then ceq P p i else cin P p (i - NE P)%nat)) k).
Proof.
  intros [_ [A B]] Hi. unfold partial, con. destruct (Nat.ltb_spec i (NE P)).
  - apply C38_gradient. auto.
  - apply C38_gradient. apply B. lia.
Qed.

Lemma dpl_rsum n (f : nat -> R -> R) (l : nat -> R) :
  (forall i, (i < n)%nat -> derivable_pt_lim (f i) 0 (l i)) ->
  derivable_pt_lim (fun t => rsum n (fun i => f i t)) 0 (rsum n l).
Proof.
  induction n; intro H.
  - apply (dpl_local (fun _ => 0)); [apply near_all; intro; rewrite rsum_0; reflexivity|].
    rewrite rsum_0. apply derivable_pt_lim_const.
  - apply (dpl_local (fun t => rsum n (fun i => f i t) + f n t)); [apply near_all; intro; rewrite rsum_S; reflexivity|].
    rewrite rsum_S. apply derivable_pt_lim_plus; [apply IHn; auto|apply H; lia].
Qed.
Lemma dpl_lin (c : R) f l : derivable_pt_lim f 0 l -> derivable_pt_lim (fun t => c * f t) 0 (c * l).
Proof. intro H. apply derivable_pt_lim_scal. exact H. Qed.

Lemma shift_lim x k i : derivable_pt_lim (fun t => shift x k t i) 0 (if (i =? k)%nat then 1 else 0).
Proof. apply shift_d. Qed.

Lemma Lag_partial scale lam x k (cg : R) (J : nat -> R) : (k < NX P)%nat ->
  partial (f0 P p) x k cg -> (forall i, (i < NE P + NI P)%nat -> partial (con P p i) x k (J i)) ->
  partial (Lag P p scale lam) x k (scale * cg + rsum (NE P + NI P) (fun i => lam i * J i) + lam (NE P + NI P + k)%nat).
Proof.
  intros Hk Hc HJ. unfold partial, Lag.
  apply derivable_pt_lim_plus; [apply derivable_pt_lim_plus|].
  - apply dpl_lin. exact Hc.
  - apply (dpl_rsum _ (fun i t => lam i * con P p i (shift x k t))). intros i Hi. apply dpl_lin. apply HJ, Hi.
  - eapply dpl_eq.
    + apply (dpl_rsum _ (fun i t => lam (NE P + NI P + i)%nat * shift x k t i)). intros i Hi. apply dpl_lin, shift_lim.
    + rewrite (rsum_isolate (NX P) k) by lia.
      rewrite Nat.eqb_refl, (rsum_zero (NX P)); [ring|]. intros i Hi.
      destruct (Nat.eqb_spec i k); cbv iota; ring.
Qed.

(** * second derivatives *)
Lemma partial2_plus f g x j k a b : partial2 f x j k a -> partial2 g x j k b ->
  partial2 (fun x => f x + g x) x j k (a + b).
Proof.
  intros [u [d [Hd [U1 U2]]]] [v [e [He [V1 V2]]]]. exists (fun t => u t + v t), (Rmin d e).
  split; [apply Rmin_pos; assumption|]. split.
  - intros t Ht. pose proof (Rmin_l d e). pose proof (Rmin_r d e).
    apply derivable_pt_lim_plus; [apply U1|apply V1]; lra.
  - apply derivable_pt_lim_plus; assumption.
Qed.
Lemma partial2_scal c f x j k a : partial2 f x j k a -> partial2 (fun x => c * f x) x j k (c * a).
Proof.
  intros [u [d [Hd [U1 U2]]]]. exists (fun t => c * u t), d. split; [exact Hd|]. split.
  - intros t Ht. apply derivable_pt_lim_scal, U1, Ht.
  - apply derivable_pt_lim_scal, U2.
Qed.
Lemma partial2_const c x j k : partial2 (fun _ => c) x j k 0.
Proof.
  exists (fun _ => 0), 1. split; [lra|]. split; [intros; apply derivable_pt_lim_const|apply derivable_pt_lim_const].
Qed.
Lemma partial2_var i x j k : partial2 (fun x => x i) x j k 0.
Proof.
  exists (fun _ => if (i =? j)%nat then 1 else 0), 1. split; [lra|].
  split; [intros; apply shift_lim|apply derivable_pt_lim_const].
Qed.
Lemma partial2_ext f g x j k a : (forall x, f x = g x) -> partial2 f x j k a -> partial2 g x j k a.
Proof.
  intros E [u [d [Hd [U1 U2]]]]. exists u, d. split; [exact Hd|]. split; [|exact U2].
  intros t Ht. apply (dpl_local (fun s => f (shift (shift x k t) j s))); [apply near_all; intro; apply E|apply U1, Ht].
Qed.
Lemma partial2_rsum n (f : nat -> (nat -> R) -> R) x j k (a : nat -> R) :
  (forall i, (i < n)%nat -> partial2 (f i) x j k (a i)) ->
  partial2 (fun x => rsum n (fun i => f i x)) x j k (rsum n a).
Proof.
  induction n; intro H.
  - rewrite rsum_0. apply (partial2_ext (fun _ => 0)); [intro; rewrite rsum_0; reflexivity|apply partial2_const].
  - rewrite rsum_S. apply (partial2_ext (fun x => rsum n (fun i => f i x) + f n x)); [intro; rewrite rsum_S; reflexivity|].
    apply partial2_plus; [apply IHn; auto|apply H; lia].
Qed.
Lemma ev_partial2 e x j k : nestable e -> smooth x e ->
  partial2 (fun x => ev x e) x j k (der (der (ev (fun i => d_var (d_var (x i) i) i) e) j) k).
Proof.
  intros N S. destruct (C38_hessian e j k x N S) as [_ [_ [g [d [Hd [A [_ B]]]]]]].
  exists g, d. split; [exact Hd|]. split; [exact A|exact B].
Qed.

Lemma add_hessians_sum n e w H k i :
  add_hessians n e w H k i = H k i + rsum n (fun m => w m * der (der (e m) k) i).
Proof.
  induction n; cbn [add_hessians]; [rewrite rsum_0; ring|].
  rewrite rsum_S, IHn. ring.
Qed.

Definition nv (x : nat -> R) : nat -> dual (dual R) := fun i => d_var (d_var (x i) i) i.
Definition conx (i : nat) : expr := if (i <? NE P)%nat then ceq P p i else cin P p (i - NE P)%nat.
Lemma lagh_hessian x lam g J c j k :
  o_hessian (lagrangian_gradient_hessian P p s x lam g J c) j k =
  c * der (der (ev (nv x) (cost P p)) k) j +
  rsum (NE P + NI P) (fun i => lam i * der (der (ev (nv x) (conx i)) j) k).
Proof.
  unfold lagrangian_gradient_hessian, cost_gradient_hessian. cbv zeta.
  destruct (constraints_linearised P p (set_ad2 s x) x g J) as [[s' g'] J'] eqn:E. cbn [o_hessian].
  assert (seeded s') as Hs'.
  { pose proof (cl_seeded p (set_ad2 s x) x g J (seeded_set2 _ x Hs)) as Q. rewrite E in Q. exact Q. }
  rewrite (set_ad2_var s x Hs), (set_ad2_var s' x Hs'). fold (nv x).
  rewrite !add_hessians_sum, rsum_split.
  replace ((if Req_EM_T c 1 then fun k0 i => der (der (ev (nv x) (cost P p)) i) k0
            else fun k0 i => c * der (der (ev (nv x) (cost P p)) i) k0) j k)
    with (c * der (der (ev (nv x) (cost P p)) k) j).
  2:{ destruct (Req_EM_T c 1) as [Ec|Ec]; cbv beta; [rewrite Ec; ring|reflexivity]. }
  rewrite Rplus_assoc. f_equal. f_equal; apply rsum_ext; intros i Hi; unfold conx.
  - destruct (Nat.ltb_spec i (NE P)); [reflexivity|lia].
  - destruct (Nat.ltb_spec (NE P + i) (NE P)); [lia|].
    rewrite (Nat.add_comm i (NE P)). do 6 f_equal. lia.
Qed.
Lemma conx_ok x i : nestable_all P p -> smooth_at P p x -> (i < NE P + NI P)%nat ->
  nestable (conx i) /\ smooth x (conx i).
Proof.
  intros [_ [N1 N2]] [_ [S1 S2]] Hi. unfold conx. destruct (Nat.ltb_spec i (NE P)); split; auto; [apply N2|apply S2]; lia.
Qed.
Lemma nv_sym x e j k : nestable e -> der (der (ev (nv x) e) j) k = der (der (ev (nv x) e) k) j.
Proof. intro N. apply (proj2 (good_ev (nv x) (fun i => good_var (x i) i) e N)). Qed.
Lemma lagh_partial2 x lam g J c j k : nestable_all P p -> smooth_at P p x ->
  partial2 (Lag P p c lam) x j k (o_hessian (lagrangian_gradient_hessian P p s x lam g J c) j k).
Proof.
  intros N S. rewrite lagh_hessian.
  rewrite <- (Rplus_0_r (_ + _)).
  unfold Lag. apply partial2_plus; [apply partial2_plus|].
  - apply partial2_scal. rewrite nv_sym by apply N. apply ev_partial2; [apply N|apply S].
  - apply (partial2_rsum _ (fun i x => lam i * con P p i x)). intros i Hi. apply partial2_scal.
    destruct (conx_ok x i N S Hi) as [A B].
    apply (partial2_ext (fun x => ev x (conx i))); [|apply ev_partial2; assumption].
    intro y. unfold con, conx. destruct (i <? NE P)%nat; reflexivity.
  - rewrite <- (rsum_zero (NX P) (fun i => lam (NE P + NI P + i)%nat * 0)) by (intros; ring).
    apply (partial2_rsum _ (fun i x => lam (NE P + NI P + i)%nat * x i)). intros i Hi.
    apply partial2_scal, partial2_var.
Qed.
Lemma lagh_sym x lam g J c j k : nestable_all P p ->
  o_hessian (lagrangian_gradient_hessian P p s x lam g J c) j k =
  o_hessian (lagrangian_gradient_hessian P p s x lam g J c) k j.
Proof.
  intros N. rewrite !lagh_hessian. f_equal.
  - rewrite nv_sym by apply N. reflexivity.
  - apply rsum_ext. intros i Hi. rewrite nv_sym; [reflexivity|].
    destruct N as [_ [N1 N2]]. unfold conx. destruct (Nat.ltb_spec i (NE P)); auto. apply N2. lia.
Qed.
End P.
