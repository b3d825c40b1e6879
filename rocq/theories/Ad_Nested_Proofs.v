(** Nested active scalars: second derivatives; straight-line programs. *)
Require Import Arith ZArith Bool List Reals Lra Lia.
From Verif Require Import Ad_Model Ad_Spec Ad_Proofs.
Local Open Scope R_scope.

Section Lift.
Context (A B : Type) (FA : Fn A) (FB : Fn B) (Q : (R -> A) -> B -> Prop) (HA : Hom A FA) (HB : Hom B FB)
        (S : Sound A B FA FB Q).
Definition L (f : R -> dual A) (b : dual B) : Prop := Q (fun t => val (f t)) (val b) /\ forall j, Q (fun t => der (f t) j) (der b j).
Let sl := s_local _ _ _ _ _ S. Let sc := s_cont _ _ _ _ _ S. Let sr := s_re _ _ _ _ _ S. Let sk := s_cst _ _ _ _ _ S.
Let sa := s_add _ _ _ _ _ S. Let ss := s_sub _ _ _ _ _ S. Let sm := s_mul _ _ _ _ _ S. Let sd := s_div _ _ _ _ _ S.
Let so := s_opp _ _ _ _ _ S. Let su := s_un _ _ _ _ _ S.
Lemma L_un u (f : R -> dual A) (b : dual B) (g : A -> A) (g' : B) : L f b -> smooth_un u (re (val (f 0))) ->
  Q (fun t => g (val (f t))) g' ->
  L (fun t => d_un (f t) (unary_fn u (val (f t))) (g (val (f t)))) (d_un b (unary_fn u (val b)) g').
Proof.
  intros [V D] Hs Hg. split; cbn.
  - apply (su u (fun t => val (f t))); assumption.
  - intro j. apply (sm (fun t => der (f t) j) _ (fun t => g (val (f t)))); [apply D|exact Hg].
Qed.
Lemma L_sound : Sound (dual A) (dual B) Fn_dual Fn_dual L.
Proof.
  split.
  - intros f g b N [V D]. split.
    + apply (sl (fun t => val (f t))); [|exact V]. apply (near_imp _ _ N). intros t ->. reflexivity.
    + intro j. apply (sl (fun t => der (f t) j)); [|apply D]. apply (near_imp _ _ N). intros t ->. reflexivity.
  - intros f b [V _]. exact (sc _ _ V).
  - intros f b [V _]. exact (sr _ _ V).
  - intro c. split; intros; apply sk.
  - intros f a g b [V D] [W E]. split; cbn; intros; [apply sa; assumption|apply sa; auto].
  - intros f a g b [V D] [W E]. split; cbn; intros; [apply ss; assumption|apply ss; auto].
  - intros f a g b [V D] [W E]. split; cbn; intros; [apply sm; assumption|].
    apply sa; apply sm; auto.
  - intros f a g b [V D] [W E] Hz. cbn in Hz. split; cbn; intros; [apply sd; assumption|].
    apply sm.
    + apply ss; apply sm; auto.
    + apply sd; [apply sk|apply sm; assumption|]. rewrite (h_mul _ _ HA). nra.
  - intros f a [V D]. split; cbn; intros; [apply so; exact V|apply so; apply D].
  - intros f a c [V D]. split; cbn; intros; [apply sa; [exact V|apply sk]|apply D].
  - intros f a c [V D]. split; cbn; intros; [apply (sa _ _ (fun t => val (f t))); [apply sk|exact V]|apply D].
  - intros f a c [V D]. split; cbn; intros; [apply ss; [exact V|apply sk]|apply D].
  - intros f a c [V D]. split; cbn; intros; [apply (ss _ _ (fun t => val (f t))); [apply sk|exact V]|apply so; apply D].
  - intros f a c [V D]. split; cbn; intros; [apply sm; [exact V|apply sk]|apply (sm (fun t => der (f t) j)); [apply D|apply sk]].
  - intros f a c [V D]. split; cbn; intros; [apply sm; [exact V|apply sk]|apply (sm (fun t => der (f t) j)); [apply D|apply sk]].
  - intros f a c [V D] Hc. split; cbn; intros.
    + apply sd; [exact V|apply sk|rewrite (h_cst _ _ HA); exact Hc].
    + apply (sm (fun t => der (f t) j)); [apply D|]. apply (sd (fun _ => cst 1)); [apply sk|apply sk|rewrite (h_cst _ _ HA); exact Hc].
  - intros f a c [V D] Hz. cbn in Hz. split; cbn; intros.
    + apply (sd (fun _ => cst c)); [apply sk|exact V|exact Hz].
    + apply (sm (fun t => der (f t) j)); [apply D|]. apply (sd (fun _ => cst (- c))); [apply sk|apply sm; exact V|].
      rewrite (h_mul _ _ HA). nra.
  - intros u f a HL Hs. cbn in Hs. pose proof HL as [V _].
    assert (forall v, smooth_un v (re (val (f 0))) -> Q (fun t => unary_fn v (val (f t))) (unary_fn v (val a))) as U.
    { intros v Hv. apply (su v (fun t => val (f t))); assumption. }
    assert (re (val a) = re (val (f 0))) as RV by (exact (sr _ _ V)).
    destruct u; cbn [unary_fn]; cbn.
    + (* abs: the sign is constant near the point *)
      split; cbn; [apply (U UAbs Hs)|]. intro j. cbn in Hs.
      pose proof (sc _ _ V) as C. cbn in C. destruct HL as [_ D]. rewrite RV.
      destruct (Rlt_dec (re (val (f 0))) 0) as [Hn|Hn].
      * apply (sl (fun t => mul (der (f t) j) (cst (-1)))).
        -- apply (near_imp _ _ (near_neg _ C Hn)). intros t Ht. destruct (Rlt_dec (re (val (f t))) 0); [reflexivity|lra].
        -- apply (sm (fun t => der (f t) j)); [apply D|apply sk].
      * apply (sl (fun t => mul (der (f t) j) (cst 1))).
        -- assert (0 < re (val (f 0))) as Hp by lra.
           apply (near_imp _ _ (near_pos _ C Hp)). intros t Ht. destruct (Rlt_dec (re (val (f t))) 0); [lra|reflexivity].
        -- apply (sm (fun t => der (f t) j)); [apply D|apply sk].
    + apply (L_un UAbs2 f a (fun v => mul (cst 2) v)); [exact HL|exact Hs|]. apply (sm (fun _ => cst 2)); [apply sk|exact V].
    + apply (L_un USqrt f a (fun v => div (cst (1 / 2)) (fsqrt v))); [exact HL|exact Hs|].
      apply (sd (fun _ => cst (1 / 2))); [apply sk|apply (U USqrt Hs)|].
      pose proof (h_un _ _ HA USqrt (val (f 0))) as E. cbn in E. rewrite E. pose proof (sqrt_lt_R0 _ Hs). lra.
    + apply (L_un UCos f a (fun v => opp (fsin v))); [exact HL|exact Hs|]. apply so. apply (U USin I).
    + apply (L_un USin f a fcos); [exact HL|exact Hs|]. apply (U UCos I).
    + apply (L_un UExp f a fexp); [exact HL|exact Hs|]. apply (U UExp I).
    + apply (L_un ULog f a (fun v => div (cst 1) v)); [exact HL|exact Hs|].
      apply (sd (fun _ => cst 1)); [apply sk|exact V|]. cbn in Hs. lra.
    + destruct Hs.
    + apply (L_un UTan f a (fun v => div (cst 1) (fabs2 (fcos v)))); [exact HL|exact Hs|].
      apply (sd (fun _ => cst 1)); [apply sk|apply (su UAbs2 (fun t => fcos (val (f t)))); [apply (U UCos I)|exact I]|].
      pose proof (h_un _ _ HA UAbs2 (fcos (val (f 0)))) as E. cbn in E. rewrite E.
      pose proof (h_un _ _ HA UCos (val (f 0))) as E2. cbn in E2. rewrite E2. cbn in Hs. nra.
    + apply (L_un UAsin f a (fun v => div (cst 1) (fsqrt (rsub 1 (fabs2 v))))); [exact HL|exact Hs|].
      cbn in Hs. assert (0 < re (rsub 1 (fabs2 (val (f 0))))) as Hp.
      { rewrite (h_rsub _ _ HA). pose proof (h_un _ _ HA UAbs2 (val (f 0))) as E. cbn in E. rewrite E. nra. }
      assert (Q (fun t => rsub 1 (fabs2 (val (f t)))) (rsub 1 (fabs2 (val a)))) as QR
        by (apply (s_rsub _ _ _ _ _ S (fun t => fabs2 (val (f t)))); apply (U UAbs2 I)).
      apply (sd (fun _ => cst 1)); [apply sk|apply (su USqrt (fun t => rsub 1 (fabs2 (val (f t))))); [exact QR|exact Hp]|].
      pose proof (h_un _ _ HA USqrt (rsub 1 (fabs2 (val (f 0))))) as E. cbn in E. rewrite E. pose proof (sqrt_lt_R0 _ Hp). lra.
    + apply (L_un UAcos f a (fun v => div (cst (-1)) (fsqrt (rsub 1 (fabs2 v))))); [exact HL|exact Hs|].
      cbn in Hs. assert (0 < re (rsub 1 (fabs2 (val (f 0))))) as Hp.
      { rewrite (h_rsub _ _ HA). pose proof (h_un _ _ HA UAbs2 (val (f 0))) as E. cbn in E. rewrite E. nra. }
      assert (Q (fun t => rsub 1 (fabs2 (val (f t)))) (rsub 1 (fabs2 (val a)))) as QR
        by (apply (s_rsub _ _ _ _ _ S (fun t => fabs2 (val (f t)))); apply (U UAbs2 I)).
      apply (sd (fun _ => cst (-1))); [apply sk|apply (su USqrt (fun t => rsub 1 (fabs2 (val (f t))))); [exact QR|exact Hp]|].
      pose proof (h_un _ _ HA USqrt (rsub 1 (fabs2 (val (f 0))))) as E. cbn in E. rewrite E. pose proof (sqrt_lt_R0 _ Hp). lra.
    + apply (L_un UTanh f a (fun v => div (cst 1) (fabs2 (fcosh v)))); [exact HL|exact Hs|].
      apply (sd (fun _ => cst 1)); [apply sk|apply (su UAbs2 (fun t => fcosh (val (f t)))); [apply (U UCosh I)|exact I]|].
      pose proof (h_un _ _ HA UAbs2 (fcosh (val (f 0)))) as E. cbn in E. rewrite E.
      pose proof (h_un _ _ HA UCosh (val (f 0))) as E2. cbn in E2. rewrite E2. pose proof (cosh_pos (re (val (f 0)))). nra.
    + apply (L_un USinh f a fcosh); [exact HL|exact Hs|]. apply (U UCosh I).
    + apply (L_un UCosh f a fsinh); [exact HL|exact Hs|]. apply (U USinh I).
  - intros f a g b [V D] [W E] Hne. cbn in Hne.
    pose proof (sc _ _ V) as Cf. pose proof (sc _ _ W) as Cg. pose proof (sr _ _ V) as Ra. pose proof (sr _ _ W) as Rb.
    cbn in Cf, Cg, Ra, Rb. unfold L. cbn [fmin Fn_dual]. cbn. rewrite Ra, Rb.
    destruct (Rlt_dec (re (val (f 0))) (re (val (g 0)))) as [N|N].
    + assert (near (fun t => (if Rlt_dec (re (val (f t))) (re (val (g t))) then f t else g t) = f t)) as NN.
      { apply (near_imp _ _ (near_lt _ _ Cf Cg N)). intros t Ht. destruct (Rlt_dec (re (val (f t))) (re (val (g t)))); [reflexivity|lra]. }
      split; [apply (sl (fun t => val (f t))); [|exact V]|intro j; apply (sl (fun t => der (f t) j)); [|apply D]];
        apply (near_imp _ _ NN); intros t ->; reflexivity.
    + assert (re (val (g 0)) < re (val (f 0))) as N' by lra.
      assert (near (fun t => (if Rlt_dec (re (val (f t))) (re (val (g t))) then f t else g t) = g t)) as NN.
      { apply (near_imp _ _ (near_lt _ _ Cg Cf N')). intros t Ht. destruct (Rlt_dec (re (val (f t))) (re (val (g t)))); [lra|reflexivity]. }
      split; [apply (sl (fun t => val (g t))); [|exact W]|intro j; apply (sl (fun t => der (g t) j)); [|apply E]];
        apply (near_imp _ _ NN); intros t ->; reflexivity.
  - intros f a g b [V D] [W E] Hne. cbn in Hne.
    pose proof (sc _ _ V) as Cf. pose proof (sc _ _ W) as Cg. pose proof (sr _ _ V) as Ra. pose proof (sr _ _ W) as Rb.
    cbn in Cf, Cg, Ra, Rb. unfold L. cbn [fmin Fn_dual]. cbn. rewrite Ra, Rb.
    destruct (Rle_dec (re (val (g 0))) (re (val (f 0)))) as [N|N].
    + assert (re (val (g 0)) < re (val (f 0))) as N' by lra.
      assert (near (fun t => (if Rle_dec (re (val (g t))) (re (val (f t))) then f t else g t) = f t)) as NN.
      { apply (near_imp _ _ (near_lt _ _ Cg Cf N')). intros t Ht. destruct (Rle_dec (re (val (g t))) (re (val (f t)))); [reflexivity|lra]. }
      split; [apply (sl (fun t => val (f t))); [|exact V]|intro j; apply (sl (fun t => der (f t) j)); [|apply D]];
        apply (near_imp _ _ NN); intros t ->; reflexivity.
    + assert (re (val (f 0)) < re (val (g 0))) as N' by lra.
      assert (near (fun t => (if Rle_dec (re (val (g t))) (re (val (f t))) then f t else g t) = g t)) as NN.
      { apply (near_imp _ _ (near_lt _ _ Cf Cg N')). intros t Ht. destruct (Rle_dec (re (val (g t))) (re (val (f t)))); [lra|reflexivity]. }
      split; [apply (sl (fun t => val (g t))); [|exact W]|intro j; apply (sl (fun t => der (g t) j)); [|apply E]];
        apply (near_imp _ _ NN); intros t ->; reflexivity.
Qed.
End Lift.

(** * The smooth points form an open set along differentiable curves *)
Lemma smooth_open x y : (forall i, D1 0 (fun t => x t i) (y i)) -> forall e, smooth (x 0) e -> near (fun t => smooth (x t) e).
Proof.
  intros Hx. assert (forall e, smooth (x 0) e -> continuity_pt (fun t => ev (x t) e) 0) as C.
  { intros e He. destruct (first_order 0 x y Hx e He) as [_ D]. exact (dpl_cont _ _ D). }
  induction e; cbn [smooth]; intro Hs; try (apply near_all; intro; exact I); auto.
  all: try (destruct Hs as [H1 H2]; apply near_and; [apply IHe1; exact H1|apply IHe2; exact H2]).
  - destruct Hs as [H1 [H2 H3]]. apply near_and; [auto|apply near_and; [auto|]]. apply near_nz; [apply C; exact H2|exact H3].
  - destruct Hs as [H1 H2]. apply near_and; [auto|apply near_all; intros _; exact H2].
  - destruct Hs as [H1 H2]. apply near_and; [auto|]. apply near_nz; [apply C; exact H1|exact H2].
  - destruct Hs as [H1 H2]. apply near_and; [auto|]. pose proof (C e H1) as Ce.
    destruct u; cbn in *; try (apply near_all; intro; exact I).
    + apply near_nz; assumption.
    + apply near_pos; assumption.
    + apply near_pos; assumption.
    + apply near_all. intros _. exact H2.
    + apply (near_nz (fun t => cos (ev (x t) e))); [|exact H2].
      apply (continuity_pt_comp (fun t => ev (x t) e) cos); [exact Ce|]. apply continuity_cos.
    + apply near_and; apply near_lt; try lra; try exact Ce; apply continuity_pt_const; intros ? ?; reflexivity.
    + apply near_and; apply near_lt; try lra; try exact Ce; apply continuity_pt_const; intros ? ?; reflexivity.
  - destruct Hs as [H1 H2]. apply near_and; [auto|]. pose proof (C e H1) as Ce.
    destruct H2 as [H2|[z [Hz [H2|H2]]]].
    + apply (near_imp _ _ (near_pos _ Ce H2)). intros t Ht. left. exact Ht.
    + apply (near_imp _ _ (near_nz _ Ce H2)). intros t Ht. right. exists z. split; [exact Hz|left; exact Ht].
    + apply near_all. intros t. right. exists z. split; [exact Hz|right; exact H2].
  - destruct Hs as [H1 [H2 H3]]. apply near_and; [auto|apply near_and; [auto|]]. destruct H3 as [H3|H3].
    + apply (near_imp _ _ (near_pos _ (C _ H2) H3)). intros t Ht. left. exact Ht.
    + apply (near_imp _ _ (near_nz _ (C _ H1) H3)). intros t Ht. right. exact Ht.
  - destruct Hs as [H1 [H2 H3]]. apply near_and; [auto|apply near_and; [auto|]].
    apply (near_imp (fun t => ev (x t) e1 - ev (x t) e2 <> 0)); [|intros; lra].
    apply (near_nz (fun t => ev (x t) e1 - ev (x t) e2)); [|lra].
    apply (continuity_pt_minus (fun t => ev (x t) e1) (fun t => ev (x t) e2)); apply C; assumption.
  - destruct Hs as [H1 [H2 H3]]. apply near_and; [auto|apply near_and; [auto|]].
    apply (near_imp (fun t => ev (x t) e1 - ev (x t) e2 <> 0)); [|intros; lra].
    apply (near_nz (fun t => ev (x t) e1 - ev (x t) e2)); [|lra].
    apply (continuity_pt_minus (fun t => ev (x t) e1) (fun t => ev (x t) e2)); apply C; assumption.
Qed.

(** the first derivative as a function of the point, and its derivative *)
Lemma second_order j k (X : R -> R -> nat -> R) (a : R -> nat -> R) (y : nat -> dual (dual R)) e :
  (forall t i, derivable_pt_lim (fun s => X s t i) 0 (a t i)) ->
  (forall i, derivable_pt_lim (fun t => X 0 t i) 0 (der (val (y i)) k)) ->
  (forall i, derivable_pt_lim (fun t => a t i) 0 (der (der (y i) j) k)) ->
  (forall i, val (val (y i)) = X 0 0 i /\ val (der (y i) j) = a 0 i) ->
  nestable e -> smooth (X 0 0) e ->
  val (val (ev y e)) = ev (X 0 0) e /\
  derivable_pt_lim (fun t => ev (X 0 t) e) 0 (der (val (ev y e)) k) /\
  exists g : R -> R, near (fun t => derivable_pt_lim (fun s => ev (X s t) e) 0 (g t)) /\
    val (der (ev y e) j) = g 0 /\ derivable_pt_lim g 0 (der (der (ev y e) j) k).
Proof.
  intros Ha Hb Hc Hv HN Hs.
  set (yj := fun i => Dual (val (y i)) (fun _ => der (y i) j)).
  pose (Z := fun t i => Dual (X 0 t i) (fun _ : nat => a t i)).
  pose proof (L_sound R (dual R) Fn_R Fn_dual (D1 k) Hom_R (D1_sound k)) as SL.
  assert (forall (p w : nat -> dual (dual R)), (forall i, val (p i) = val (w i) /\ der (p i) j = der (w i) j) ->
          forall e, val (ev p e) = val (ev w e) /\ der (ev p e) j = der (ev w e) j) as Der1.
  { intros p w H e'. induction e'; cbn [ev]; try (apply H); try (split; reflexivity).
    all: try (destruct IHe'1 as [E1 E2]; destruct IHe'2 as [E3 E4]; cbn; rewrite ?E1, ?E2, ?E3, ?E4; split; reflexivity).
    all: try (destruct IHe' as [E1 E2]; cbn; rewrite ?E1, ?E2; split; reflexivity).
    - destruct IHe' as [E1 E2]. destruct u; cbn; rewrite ?E1, ?E2; split; reflexivity.
    - destruct IHe'1 as [E1 E2]; destruct IHe'2 as [E3 E4]. cbn. rewrite E1, E3. destruct (Rlt_dec _ _); split; assumption.
    - destruct IHe'1 as [E1 E2]; destruct IHe'2 as [E3 E4]. cbn. rewrite E1, E3. destruct (Rle_dec _ _); split; assumption. }
  assert (forall i, L R (dual R) (D1 k) (fun t => Z t i) (yj i)) as HZ.
  { intro i. destruct (Hv i) as [E1 E2]. split; cbn; [split; [exact E1|apply Hb]|].
    intros _. split; [exact E2|apply Hc]. }
  assert (smooth (fun i => re (Z 0 i)) e) as Hs' by exact Hs.
  pose proof (sound_ev _ _ _ _ _ (Hom_dual R Fn_R Hom_R) SL Z yj HZ e (or_introl HN) Hs') as [[V1 V2] D].
  assert (forall i, val (y i) = val (yj i) /\ der (y i) j = der (yj i) j) as Hy by (intro i; split; reflexivity).
  destruct (Der1 y yj Hy e) as [E1 E2].
  assert (forall t, val (ev (Z t) e) = ev (X 0 t) e) as VZ.
  { intro t. pose proof (re_ev _ _ (Hom_dual R Fn_R Hom_R) (Z t) e) as E. exact E. }
  rewrite E1, E2. split; [|split].
  - rewrite V1. apply VZ.
  - apply (dpl_local (fun t => val (ev (Z t) e))); [apply near_all; exact VZ|exact V2].
  - exists (fun t => der (ev (Z t) e) j). destruct (D j) as [D2 D3]. split; [|split; [exact D2|exact D3]].
    assert (near (fun t => smooth (X 0 t) e)) as NS.
    { apply (smooth_open (fun t => X 0 t) (fun i => Dual (X 0 0 i) (fun _ => der (val (y i)) k))).
      - intro i. split; [reflexivity|apply Hb].
      - exact Hs. }
    apply (near_imp _ _ NS). intros t Ht.
    destruct (first_order j (fun s => X s t) (Z t)) with (e := e) as [_ F].
    + intro i. split; [reflexivity|apply Ha].
    + exact Ht.
    + exact F.
Qed.
