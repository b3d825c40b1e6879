(** Proofs about the automatic differentiation model. *)
Require Import Arith ZArith Bool List Reals Lra Lia.
From Verif Require Import Ad_Model Ad_Spec.
Local Open Scope R_scope.

(** * Statements that hold near a point *)
Definition near (P : R -> Prop) : Prop := exists d, 0 < d /\ forall t, Rabs t < d -> P t.
Lemma near_and (P Q : R -> Prop) : near P -> near Q -> near (fun t => P t /\ Q t).
Proof.
  intros [d [Hd HP]] [e [He HQ]]. exists (Rmin d e). split; [apply Rmin_pos; assumption|].
  intros t Ht. split; [apply HP|apply HQ]; (eapply Rlt_le_trans; [exact Ht|]); [apply Rmin_l|apply Rmin_r].
Qed.
Lemma near_imp (P Q : R -> Prop) : near P -> (forall t, P t -> Q t) -> near Q.
Proof. intros [d [Hd HP]] H. exists d. split; [exact Hd|auto]. Qed.
Lemma near_all (P : R -> Prop) : (forall t, P t) -> near P.
Proof. intro H. exists 1. split; [lra|auto]. Qed.
Lemma near_0 P : near P -> P 0.
Proof. intros [d [Hd HP]]. apply HP. rewrite Rabs_R0. exact Hd. Qed.
Lemma cont_near f e : continuity_pt f 0 -> 0 < e -> near (fun t => Rabs (f t - f 0) < e).
Proof.
  intros Hc He. destruct (Hc e He) as [d [Hd H]]. exists d. split; [exact Hd|]. intros t Ht.
  destruct (Req_dec t 0) as [->|N].
  - replace (f 0 - f 0) with 0 by ring. rewrite Rabs_R0. exact He.
  - apply (H t). split.
    + split; [exact I|]. intro E. apply N. symmetry. exact E.
    + simpl. unfold R_dist. replace (t - 0) with t by ring. exact Ht.
Qed.
Lemma near_pos f : continuity_pt f 0 -> 0 < f 0 -> near (fun t => 0 < f t).
Proof.
  intros Hc Hp. apply (near_imp _ _ (cont_near f _ Hc Hp)). intros t Ht. apply Rabs_def2 in Ht. lra.
Qed.
Lemma near_neg f : continuity_pt f 0 -> f 0 < 0 -> near (fun t => f t < 0).
Proof.
  intros Hc Hp. assert (0 < - f 0) as Hq by lra.
  apply (near_imp _ _ (cont_near f _ Hc Hq)). intros t Ht. apply Rabs_def2 in Ht. lra.
Qed.
Lemma near_nz f : continuity_pt f 0 -> f 0 <> 0 -> near (fun t => f t <> 0).
Proof.
  intros Hc Hp. destruct (Rtotal_order (f 0) 0) as [H|[H|H]]; [|lra|].
  - apply (near_imp _ _ (near_neg f Hc H)). intros; lra.
  - apply (near_imp _ _ (near_pos f Hc H)). intros; lra.
Qed.
Lemma near_lt f g : continuity_pt f 0 -> continuity_pt g 0 -> f 0 < g 0 -> near (fun t => f t < g t).
Proof.
  intros Hf Hg H. apply (near_imp (fun t => 0 < (g - f)%F t)).
  - apply near_pos; [apply continuity_pt_minus; assumption|unfold minus_fct; lra].
  - intros t Ht. unfold minus_fct in Ht. lra.
Qed.

Lemma dpl_cont f l : derivable_pt_lim f 0 l -> continuity_pt f 0.
Proof. intro H. apply derivable_continuous_pt. exists l. exact H. Qed.
Lemma dpl_local f g l : near (fun t => f t = g t) -> derivable_pt_lim f 0 l -> derivable_pt_lim g 0 l.
Proof.
  intros N H. pose proof (near_0 _ N) as E0. cbv beta in E0. destruct N as [d [Hd E]].
  intros eps He. destruct (H eps He) as [d2 H2].
  assert (0 < Rmin d d2) as Hm by (apply Rmin_pos; [exact Hd|apply cond_pos]).
  exists (mkposreal _ Hm). intros h Hh Hlt. cbn in Hlt.
  rewrite <- E0, <- E.
  - apply H2; [exact Hh|]. eapply Rlt_le_trans; [exact Hlt|apply Rmin_r].
  - rewrite Rplus_0_l. eapply Rlt_le_trans; [exact Hlt|apply Rmin_l].
Qed.
Lemma dpl_eq f l l' : derivable_pt_lim f 0 l -> l = l' -> derivable_pt_lim f 0 l'.
Proof. intros H <-. exact H. Qed.
Lemma dpl_comp f g l l' : derivable_pt_lim f 0 l -> derivable_pt_lim g (f 0) l' -> derivable_pt_lim (fun t => g (f t)) 0 (l * l').
Proof. intros Hf Hg. rewrite Rmult_comm. exact (derivable_pt_lim_comp f g 0 l l' Hf Hg). Qed.

(** * Derivatives of the elementary functions *)
Definition un' (u : unary) (v : R) : R :=
  match u with
  | UAbs => if Rlt_dec v 0 then -1 else 1 | UAbs2 => 2 * v | USqrt => (1 / 2) / sqrt v | UCos => - sin v | USin => cos v
  | UExp => exp v | ULog => 1 / v | UFloor => 1 | UTan => 1 / (cos v * cos v) | UAsin => 1 / sqrt (1 - v * v)
  | UAcos => -1 / sqrt (1 - v * v) | UTanh => 1 / (cosh v * cosh v) | USinh => cosh v | UCosh => sinh v
  end.
Lemma cosh_pos v : 0 < cosh v.
Proof. unfold cosh. pose proof (exp_pos v). pose proof (exp_pos (- v)). lra. Qed.
Lemma cosh_sinh v : cosh v * cosh v - sinh v * sinh v = 1.
Proof.
  unfold cosh, sinh. pose proof (exp_plus v (- v)) as H. rewrite Rplus_opp_r, exp_0 in H.
  assert ((exp v + exp (- v)) / 2 * ((exp v + exp (- v)) / 2) - (exp v - exp (- v)) / 2 * ((exp v - exp (- v)) / 2)
          = exp v * exp (- v)) as -> by field. lra.
Qed.
Lemma un_derivative u v : smooth_un u v -> derivable_pt_lim (@unary_fn R Fn_R u) v (un' u v).
Proof.
  destruct u; cbn [smooth_un un' unary_fn]; intro H; cbn.
  - destruct (Rlt_dec v 0); [apply Rabs_derive_2; exact r|apply Rabs_derive_1; lra].
  - replace (2 * v) with (1 * v + v * 1) by ring. apply (derivable_pt_lim_mult id id); apply derivable_pt_lim_id.
  - replace (1 / 2 / sqrt v) with (/ (2 * sqrt v)). { apply derivable_pt_lim_sqrt; exact H. }
    pose proof (sqrt_lt_R0 v H). field. lra.
  - apply derivable_pt_lim_cos.
  - apply derivable_pt_lim_sin.
  - apply derivable_pt_lim_exp.
  - unfold Rdiv. rewrite Rmult_1_l. apply derivable_pt_lim_ln; exact H.
  - destruct H.
  - replace (1 / (cos v * cos v)) with ((cos v * cos v - - sin v * sin v) / Rsqr (cos v)).
    + apply (derivable_pt_lim_div sin cos); [apply derivable_pt_lim_sin|apply derivable_pt_lim_cos|exact H].
    + pose proof (sin2_cos2 v) as S. unfold Rsqr in *.
      replace (cos v * cos v - - sin v * sin v) with 1 by lra. reflexivity.
  - change (v * v) with (Rsqr v). eapply derive_pt_eq_1. apply (derive_pt_asin v H).
  - change (v * v) with (Rsqr v). eapply derive_pt_eq_1. apply (derive_pt_acos v H).
  - unfold std_tanh. replace (1 / (cosh v * cosh v)) with ((cosh v * cosh v - sinh v * sinh v) / Rsqr (cosh v)).
    + apply (derivable_pt_lim_div sinh cosh); [apply derivable_pt_lim_sinh|apply derivable_pt_lim_cosh|].
      pose proof (cosh_pos v). lra.
    + rewrite cosh_sinh. reflexivity.
  - apply derivable_pt_lim_sinh.
  - apply derivable_pt_lim_cosh.
Qed.

Lemma Int_part_Z z : Int_part (IZR z) = z.
Proof.
  destruct (base_Int_part (IZR z)) as [A B].
  apply le_IZR in A.
  assert (IZR z < IZR (Int_part (IZR z) + 1)) as C by (rewrite plus_IZR; lra).
  apply lt_IZR in C. lia.
Qed.
Lemma std_pow_Z x z : std_pow x (IZR z) = powerRZ x z.
Proof. unfold std_pow. rewrite Int_part_Z. destruct (Req_EM_T (IZR z) (IZR z)); [reflexivity|lra]. Qed.
Lemma powerRZ_derivative v z : v <> 0 \/ (1 <= z)%Z ->
  derivable_pt_lim (fun x => powerRZ x z) v (IZR z * powerRZ v (z - 1)).
Proof.
  intro H. destruct z as [|p|p].
  - cbn [powerRZ]. rewrite Rmult_0_l. apply derivable_pt_lim_const.
  - cbn [powerRZ]. replace (IZR (Z.pos p) * powerRZ v (Z.pos p - 1)) with (INR (Pos.to_nat p) * v ^ pred (Pos.to_nat p)).
    + apply derivable_pt_lim_pow.
    + rewrite INR_IZR_INZ, positive_nat_Z. f_equal.
      destruct (Pos.eq_dec p 1) as [->|N].
      * reflexivity.
      * replace (Z.pos p - 1)%Z with (Z.pos (p - 1)) by lia. cbn [powerRZ]. f_equal. lia.
  - assert (v <> 0) as Hv by (destruct H; [assumption|lia]). cbn [powerRZ].
    pose proof (pow_nonzero v (Pos.to_nat p) Hv) as Hn.
    replace (IZR (Z.neg p) * powerRZ v (Z.neg p - 1))
      with ((0 * v ^ Pos.to_nat p - INR (Pos.to_nat p) * v ^ pred (Pos.to_nat p) * 1) / Rsqr (v ^ Pos.to_nat p)).
    + pose proof (derivable_pt_lim_div (fun _ => 1) (fun y => y ^ Pos.to_nat p) v _ _
        (derivable_pt_lim_const 1 v) (derivable_pt_lim_pow v (Pos.to_nat p)) Hn) as D.
      intros e He. destruct (D e He) as [d Hd]. exists d. intros h H1 H2.
      specialize (Hd h H1 H2). unfold div_fct, Rdiv in Hd. rewrite !Rmult_1_l in Hd. exact Hd.
    + replace (Z.neg p - 1)%Z with (Z.neg (p + 1)) by lia. cbn [powerRZ].
      replace (Pos.to_nat (p + 1)) with (S (Pos.to_nat p)) by lia.
      assert (IZR (Z.neg p) = - INR (Pos.to_nat p)) as -> by (rewrite INR_IZR_INZ, positive_nat_Z; reflexivity).
      unfold Rsqr. pose proof (Pos2Nat.is_pos p) as Pp.
      destruct (Pos.to_nat p) as [|m] eqn:E; [lia|]. cbn [pred]. cbn [pow]. cbn [pow] in Hn.
      field. split; [|exact Hv]. apply pow_nonzero; exact Hv.
Qed.
Lemma pow_derivative v y : (0 < v \/ exists z : Z, y = IZR z /\ (v <> 0 \/ (1 <= z)%Z)) ->
  derivable_pt_lim (fun x => std_pow x y) v (y * std_pow v (y - 1)).
Proof.
  intro H. destruct (Req_EM_T (IZR (Int_part y)) y) as [E|N].
  - assert (v <> 0 \/ (1 <= Int_part y)%Z) as H'.
    { destruct H as [H|[z [Hz Hv]]]; [left; lra|]. subst y. rewrite Int_part_Z. exact Hv. }
    rewrite <- E. set (z := Int_part y) in *. clearbody z.
    replace (IZR z - 1) with (IZR (z - 1)) by (rewrite minus_IZR; reflexivity).
    rewrite std_pow_Z. pose proof (powerRZ_derivative v z H') as D.
    intros e He. destruct (D e He) as [d Hd]. exists d. intros h H1 H2. rewrite !std_pow_Z. exact (Hd h H1 H2).
  - assert (0 < v) as Hv. { destruct H as [H|[z [Hz _]]]; [exact H|]. exfalso. apply N. subst y. rewrite Int_part_Z. reflexivity. }
    assert (forall x, std_pow x y = Rpower x y) as P1 by (intro x; unfold std_pow; destruct (Req_EM_T (IZR (Int_part y)) y); [contradiction|reflexivity]).
    assert (std_pow v (y - 1) = Rpower v (y - 1)) as ->.
    { unfold std_pow. destruct (Req_EM_T (IZR (Int_part (y - 1))) (y - 1)) as [E|_]; [|reflexivity].
      exfalso. apply N. replace y with (IZR (Int_part (y - 1) + 1)) by (rewrite plus_IZR; lra). rewrite Int_part_Z. reflexivity. }
    pose proof (derivable_pt_lim_power v y Hv) as D.
    intros e He. destruct (D e He) as [d Hd]. exists d. intros h H1 H2. rewrite !P1. exact (Hd h H1 H2).
Qed.

Lemma atan2_up y x : 0 < y -> std_atan2 y x = PI / 2 - atan (x / y).
Proof.
  intro Hy. unfold std_atan2. destruct (Rlt_dec 0 x) as [Hx|Hx].
  - replace (y / x) with (/ (x / y)) by (field; lra). apply atan_inv. apply Rdiv_lt_0_compat; assumption.
  - destruct (Rlt_dec 0 y); [reflexivity|lra].
Qed.
Lemma atan2_down y x : y < 0 -> std_atan2 y x = - (PI / 2) - atan (x / y).
Proof.
  intro Hy. unfold std_atan2. destruct (Rlt_dec 0 x) as [Hx|Hx].
  - replace (y / x) with (- / (x / - y)) by (field; lra). rewrite atan_opp, atan_inv by (apply Rdiv_lt_0_compat; lra).
    replace (x / y) with (- (x / - y)) by (field; lra). rewrite atan_opp. ring.
  - destruct (Rlt_dec 0 y); [lra|]. destruct (Rlt_dec y 0); [reflexivity|lra].
Qed.
Lemma quot_derivative f g l m : derivable_pt_lim f 0 l -> derivable_pt_lim g 0 m -> g 0 <> 0 ->
  derivable_pt_lim (fun t => f t / g t) 0 ((l * g 0 - m * f 0) / (g 0 * g 0)).
Proof. intros Hf Hg H0. exact (derivable_pt_lim_div f g 0 l m Hf Hg H0). Qed.
Lemma atan2_derivative f g l m : derivable_pt_lim f 0 l -> derivable_pt_lim g 0 m -> (0 < g 0 \/ f 0 <> 0) ->
  derivable_pt_lim (fun t => std_atan2 (f t) (g t)) 0 ((l * g 0 - f 0 * m) / (f 0 * f 0 + g 0 * g 0)).
Proof.
  intros Hf Hg H. pose proof (dpl_cont _ _ Hf) as Cf. pose proof (dpl_cont _ _ Hg) as Cg.
  destruct (Rtotal_order (f 0) 0) as [Hn|[Hz|Hp]].
  - apply dpl_local with (fun t => - (PI / 2) - atan (g t / f t)).
    { apply (near_imp _ _ (near_neg f Cf Hn)). intros t Ht. symmetry. apply atan2_down; exact Ht. }
    eapply dpl_eq.
    { apply (derivable_pt_lim_minus (fun _ => - (PI / 2)) (fun t => atan (g t / f t))).
      - apply derivable_pt_lim_const.
      - apply (dpl_comp (fun t => g t / f t) atan); [apply quot_derivative; [exact Hg|exact Hf|lra]|apply derivable_pt_lim_atan]. }
    cbv beta. cbn [pow]. assert (f 0 * f 0 + g 0 * g 0 <> 0) by nra. field; repeat split; try lra; try nra.
  - assert (0 < g 0) as Hg0 by (destruct H; [assumption|contradiction]).
    apply dpl_local with (fun t => atan (f t / g t)).
    { apply (near_imp _ _ (near_pos g Cg Hg0)). intros t Ht. unfold std_atan2. destruct (Rlt_dec 0 (g t)); [reflexivity|lra]. }
    eapply dpl_eq.
    { apply (dpl_comp (fun t => f t / g t) atan); [apply quot_derivative; [exact Hf|exact Hg|lra]|apply derivable_pt_lim_atan]. }
    cbv beta. cbn [pow]. field; repeat split; try lra; try nra.
  - apply dpl_local with (fun t => PI / 2 - atan (g t / f t)).
    { apply (near_imp _ _ (near_pos f Cf Hp)). intros t Ht. symmetry. apply atan2_up; exact Ht. }
    eapply dpl_eq.
    { apply (derivable_pt_lim_minus (fun _ => PI / 2) (fun t => atan (g t / f t))).
      - apply derivable_pt_lim_const.
      - apply (dpl_comp (fun t => g t / f t) atan); [apply quot_derivative; [exact Hg|exact Hf|lra]|apply derivable_pt_lim_atan]. }
    cbv beta. cbn [pow]. assert (f 0 * f 0 + g 0 * g 0 <> 0) by nra. field; repeat split; try lra; try nra.
Qed.

(** * The innermost value behaves like a real number *)
Record Hom (T : Type) (F : Fn T) : Prop := {
  h_cst : forall c, re (cst c) = c;
  h_add : forall a b, re (add a b) = re a + re b; h_sub : forall a b, re (sub a b) = re a - re b;
  h_mul : forall a b, re (mul a b) = re a * re b; h_div : forall a b, re (div a b) = re a / re b;
  h_opp : forall a, re (opp a) = - re a;
  h_addr : forall a c, re (addr a c) = re a + c; h_radd : forall c a, re (radd c a) = c + re a;
  h_subr : forall a c, re (subr a c) = re a - c; h_rsub : forall c a, re (rsub c a) = c - re a;
  h_mulr : forall a c, re (mulr a c) = re a * c; h_rmul : forall c a, re (rmul c a) = c * re a;
  h_divr : forall a c, re (divr a c) = re a / c; h_rdiv : forall c a, re (rdiv c a) = c / re a;
  h_un : forall u a, re (unary_fn u a) = unary_fn u (re a);
  h_pow : forall a y, re (fpow a y) = fpow (re a) y; h_atan2 : forall a b, re (fatan2 a b) = fatan2 (re a) (re b);
  h_min : forall a b, re (fmin a b) = fmin (re a) (re b); h_max : forall a b, re (fmax a b) = fmax (re a) (re b) }.
Lemma Hom_R : Hom R Fn_R.
Proof. split; intros; try destruct u; reflexivity. Qed.
Lemma Hom_dual T (F : Fn T) : Hom T F -> Hom (dual T) Fn_dual.
Proof.
  intros [H1 H2 H3 H4 H5 H6 H7 H8 H9 H10 H11 H12 H13 H14 H15 H16 H17 H18 H19].
  split; intros; cbn; try (rewrite ?H2, ?H3, ?H4, ?H5, ?H6, ?H1, ?H16, ?H17; reflexivity).
  - rewrite H4, H1. ring.
  - pose proof (H15 u (val a)) as H. destruct u; cbn in *; exact H.
  - destruct (Rlt_dec (re (val a)) (re (val b))); reflexivity.
  - destruct (Rle_dec (re (val b)) (re (val a))); reflexivity.
Qed.
Lemma re_ev T (F : Fn T) : Hom T F -> forall x e, re (ev x e) = ev (fun i => re (x i)) e.
Proof.
  intros [H1 H2 H3 H4 H5 H6 H7 H8 H9 H10 H11 H12 H13 H14 H15 H16 H17 H18 H19] x e.
  induction e; cbn [ev]; rewrite ?H1, ?H2, ?H3, ?H4, ?H5, ?H6, ?H7, ?H8, ?H9, ?H10, ?H11, ?H12, ?H13, ?H14, ?H15, ?H16, ?H17, ?H18, ?H19;
    rewrite ?IHe, ?IHe1, ?IHe2; try reflexivity.
Qed.

(** * Relations between a curve of scalars and one scalar that the operations preserve *)
Record Sound (A B : Type) (FA : Fn A) (FB : Fn B) (Q : (R -> A) -> B -> Prop) : Prop := {
  s_local : forall f g b, near (fun t => f t = g t) -> Q f b -> Q g b;
  s_cont : forall f b, Q f b -> continuity_pt (fun t => re (f t)) 0;
  s_re : forall f b, Q f b -> re b = re (f 0);
  s_cst : forall c, Q (fun _ => cst c) (cst c);
  s_add : forall f a g b, Q f a -> Q g b -> Q (fun t => add (f t) (g t)) (add a b);
  s_sub : forall f a g b, Q f a -> Q g b -> Q (fun t => sub (f t) (g t)) (sub a b);
  s_mul : forall f a g b, Q f a -> Q g b -> Q (fun t => mul (f t) (g t)) (mul a b);
  s_div : forall f a g b, Q f a -> Q g b -> re (g 0) <> 0 -> Q (fun t => div (f t) (g t)) (div a b);
  s_opp : forall f a, Q f a -> Q (fun t => opp (f t)) (opp a);
  s_addr : forall f a c, Q f a -> Q (fun t => addr (f t) c) (addr a c);
  s_radd : forall f a c, Q f a -> Q (fun t => radd c (f t)) (radd c a);
  s_subr : forall f a c, Q f a -> Q (fun t => subr (f t) c) (subr a c);
  s_rsub : forall f a c, Q f a -> Q (fun t => rsub c (f t)) (rsub c a);
  s_mulr : forall f a c, Q f a -> Q (fun t => mulr (f t) c) (mulr a c);
  s_rmul : forall f a c, Q f a -> Q (fun t => rmul c (f t)) (rmul c a);
  s_divr : forall f a c, Q f a -> c <> 0 -> Q (fun t => divr (f t) c) (divr a c);
  s_rdiv : forall f a c, Q f a -> re (f 0) <> 0 -> Q (fun t => rdiv c (f t)) (rdiv c a);
  s_un : forall u f a, Q f a -> smooth_un u (re (f 0)) -> Q (fun t => unary_fn u (f t)) (unary_fn u a);
  s_min : forall f a g b, Q f a -> Q g b -> re (f 0) <> re (g 0) -> Q (fun t => fmin (f t) (g t)) (fmin a b);
  s_max : forall f a g b, Q f a -> Q g b -> re (f 0) <> re (g 0) -> Q (fun t => fmax (f t) (g t)) (fmax a b) }.
Definition Full (A B : Type) (FA : Fn A) (FB : Fn B) (Q : (R -> A) -> B -> Prop) : Prop :=
  (forall f a y, Q f a -> (0 < re (f 0) \/ exists z : Z, y = IZR z /\ (re (f 0) <> 0 \/ (1 <= z)%Z)) ->
     Q (fun t => fpow (f t) y) (fpow a y)) /\
  (forall f a g b, Q f a -> Q g b -> (0 < re (g 0) \/ re (f 0) <> 0) -> Q (fun t => fatan2 (f t) (g t)) (fatan2 a b)).
Lemma sound_ev A B FA FB Q : Hom A FA -> Sound A B FA FB Q -> forall (x : R -> nat -> A) (y : nat -> B),
  (forall i, Q (fun t => x t i) (y i)) -> forall e, (nestable e \/ Full A B FA FB Q) -> smooth (fun i => re (x 0 i)) e ->
  Q (fun t => ev (x t) e) (ev y e).
Proof.
  intros HH HS x y Hx. pose proof (re_ev A FA HH) as RE.
  assert (forall e, ev (fun i => re (x 0 i)) e = re (ev (x 0) e)) as RV by (intro e; rewrite RE; reflexivity).
  induction e; cbn [ev smooth nestable]; intros HN Hs; rewrite ?RV in Hs.
  1: apply Hx.
  1: apply (s_cst _ _ _ _ _ HS).
  all: try (assert (nestable e1 \/ Full A B FA FB Q) as N1 by tauto; assert (nestable e2 \/ Full A B FA FB Q) as N2 by tauto).
  - apply (s_add _ _ _ _ _ HS); tauto.
  - apply (s_sub _ _ _ _ _ HS); tauto.
  - apply (s_mul _ _ _ _ _ HS); tauto.
  - apply (s_div _ _ _ _ _ HS); tauto.
  - apply (s_opp _ _ _ _ _ HS); tauto.
  - apply (s_addr _ _ _ _ _ HS (fun t => ev (x t) e)); tauto.
  - apply (s_radd _ _ _ _ _ HS (fun t => ev (x t) e)); tauto.
  - apply (s_subr _ _ _ _ _ HS (fun t => ev (x t) e)); tauto.
  - apply (s_rsub _ _ _ _ _ HS (fun t => ev (x t) e)); tauto.
  - apply (s_mulr _ _ _ _ _ HS (fun t => ev (x t) e)); tauto.
  - apply (s_rmul _ _ _ _ _ HS (fun t => ev (x t) e)); tauto.
  - apply (s_divr _ _ _ _ _ HS (fun t => ev (x t) e)); tauto.
  - apply (s_rdiv _ _ _ _ _ HS (fun t => ev (x t) e)); tauto.
  - apply (s_un _ _ _ _ _ HS u (fun t => ev (x t) e)); tauto.
  - destruct HN as [[]|HF]. apply (proj1 HF (fun t => ev (x t) e)); tauto.
  - destruct HN as [[]|HF]. apply (proj2 HF (fun t => ev (x t) e1) _ (fun t => ev (x t) e2)); tauto.
  - apply (s_min _ _ _ _ _ HS (fun t => ev (x t) e1) _ (fun t => ev (x t) e2)); tauto.
  - apply (s_max _ _ _ _ _ HS (fun t => ev (x t) e1) _ (fun t => ev (x t) e2)); tauto.
Qed.

(** * First order: one derivative component against the derivative of a curve *)
Definition D1 (k : nat) (f : R -> R) (b : dual R) : Prop := val b = f 0 /\ derivable_pt_lim f 0 (der b k).
Lemma D1_un k (g : R -> R) g' f (b : dual R) : D1 k f b -> derivable_pt_lim g (f 0) g' ->
  D1 k (fun t => g (f t)) (d_un b (g (val b)) g').
Proof.
  intros [E D] Hg. split; cbn; [rewrite E; reflexivity|]. apply dpl_comp; assumption.
Qed.
Lemma D1_sound k : Sound R (dual R) Fn_R Fn_dual (D1 k).
Proof.
  split.
  - intros f g b N [E D]. split; [rewrite E; apply (near_0 _ N)|]. exact (dpl_local f g _ N D).
  - intros f b [_ D]. exact (dpl_cont _ _ D).
  - intros f b [E _]. exact E.
  - intro c. split; [reflexivity|]. apply derivable_pt_lim_const.
  - intros f a g b [E1 D2] [E3 D4]. split; cbn; [rewrite E1, E3; reflexivity|]. exact (derivable_pt_lim_plus f g 0 _ _ D2 D4).
  - intros f a g b [E1 D2] [E3 D4]. split; cbn; [rewrite E1, E3; reflexivity|]. exact (derivable_pt_lim_minus f g 0 _ _ D2 D4).
  - intros f a g b [E1 D2] [E3 D4]. split; cbn; [rewrite E1, E3; reflexivity|].
    eapply dpl_eq; [exact (derivable_pt_lim_mult f g 0 _ _ D2 D4)|]. rewrite E1, E3. ring.
  - intros f a g b [E1 D2] [E3 D4] Hz. cbn in Hz. split; cbn; [rewrite E1, E3; reflexivity|].
    eapply dpl_eq; [exact (quot_derivative f g _ _ D2 D4 Hz)|]. rewrite E1, E3. field. exact Hz.
  - intros f a [E D]. split; cbn; [rewrite E; reflexivity|]. exact (derivable_pt_lim_opp f 0 _ D).
  - intros f a c [E D]. split; cbn; [rewrite E; reflexivity|].
    eapply dpl_eq; [exact (derivable_pt_lim_plus f (fun _ => c) 0 _ _ D (derivable_pt_lim_const c 0))|cbv beta; ring].
  - intros f a c [E D]. split; cbn; [rewrite E; reflexivity|].
    eapply dpl_eq; [exact (derivable_pt_lim_plus (fun _ => c) f 0 _ _ (derivable_pt_lim_const c 0) D)|cbv beta; ring].
  - intros f a c [E D]. split; cbn; [rewrite E; reflexivity|].
    eapply dpl_eq; [exact (derivable_pt_lim_minus f (fun _ => c) 0 _ _ D (derivable_pt_lim_const c 0))|cbv beta; ring].
  - intros f a c [E D]. split; cbn; [rewrite E; reflexivity|].
    eapply dpl_eq; [exact (derivable_pt_lim_minus (fun _ => c) f 0 _ _ (derivable_pt_lim_const c 0) D)|cbv beta; ring].
  - intros f a c [E D]. split; cbn; [rewrite E; reflexivity|].
    eapply dpl_eq; [exact (derivable_pt_lim_mult f (fun _ => c) 0 _ _ D (derivable_pt_lim_const c 0))|cbv beta; ring].
  - intros f a c [E D]. split; cbn; [rewrite E; ring|].
    eapply dpl_eq; [exact (derivable_pt_lim_mult (fun _ => c) f 0 _ _ (derivable_pt_lim_const c 0) D)|cbv beta; ring].
  - intros f a c [E D] Hc. split; cbn; [rewrite E; reflexivity|].
    eapply dpl_eq; [exact (quot_derivative f (fun _ => c) _ _ D (derivable_pt_lim_const c 0) Hc)|cbv beta; field; exact Hc].
  - intros f a c [E D] Hz. cbn in Hz. split; cbn; [rewrite E; reflexivity|].
    eapply dpl_eq; [exact (quot_derivative (fun _ => c) f _ _ (derivable_pt_lim_const c 0) D Hz)|]. rewrite E. cbv beta. field. exact Hz.
  - intros u f a HD Hs. pose proof (un_derivative u (f 0) Hs) as Du.
    pose proof (D1_un k _ _ f a HD Du) as X. destruct HD as [E _].
    destruct u; cbn in *; rewrite <- ?E in X; exact X.
  - intros f a g b [E1 D2] [E3 D4] Hne. cbn in Hne. unfold D1. cbn. rewrite E1, E3.
    pose proof (dpl_cont _ _ D2) as Cf. pose proof (dpl_cont _ _ D4) as Cg.
    destruct (Rlt_dec (f 0) (g 0)) as [L|L].
    + split; [exact E1|]. apply (dpl_local f); [|exact D2].
      apply (near_imp _ _ (near_lt f g Cf Cg L)). intros t Ht. destruct (Rlt_dec (f t) (g t)); [reflexivity|lra].
    + split; [exact E3|]. apply (dpl_local g); [|exact D4].
      assert (g 0 < f 0) as L' by lra.
      apply (near_imp _ _ (near_lt g f Cg Cf L')). intros t Ht. destruct (Rlt_dec (f t) (g t)); [lra|reflexivity].
  - intros f a g b [E1 D2] [E3 D4] Hne. cbn in Hne. unfold D1. cbn. rewrite E1, E3.
    pose proof (dpl_cont _ _ D2) as Cf. pose proof (dpl_cont _ _ D4) as Cg.
    destruct (Rle_dec (g 0) (f 0)) as [L|L].
    + split; [exact E1|]. apply (dpl_local f); [|exact D2].
      assert (g 0 < f 0) as L' by lra.
      apply (near_imp _ _ (near_lt g f Cg Cf L')). intros t Ht. destruct (Rle_dec (g t) (f t)); [reflexivity|lra].
    + split; [exact E3|]. apply (dpl_local g); [|exact D4].
      assert (f 0 < g 0) as L' by lra.
      apply (near_imp _ _ (near_lt f g Cf Cg L')). intros t Ht. destruct (Rle_dec (g t) (f t)); [lra|reflexivity].
Qed.
Lemma D1_full k : Full R (dual R) Fn_R Fn_dual (D1 k).
Proof.
  split.
  - intros f a y HD Hs. cbn in Hs. pose proof (pow_derivative (f 0) y Hs) as Du.
    pose proof (D1_un k (fun x => std_pow x y) _ f a HD Du) as X. destruct HD as [E _]. cbn. rewrite <- E in X. exact X.
  - intros f a g b [E1 D2] [E3 D4] Hs. cbn in Hs. split; cbn; [rewrite E1, E3; reflexivity|].
    rewrite E1, E3. apply atan2_derivative; assumption.
Qed.
Lemma first_order k x y : (forall i, D1 k (fun t => x t i) (y i)) -> forall e, smooth (x 0) e ->
  D1 k (fun t => ev (x t) e) (ev y e).
Proof.
  intros H e Hs. apply (sound_ev _ _ _ _ _ Hom_R (D1_sound k) x y H e); [right; apply D1_full|exact Hs].
Qed.
