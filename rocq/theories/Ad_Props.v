(** C38 (automatic differentiation), C39 (assigning constants), C46 (radial basis kernel). *)
Require Import Arith ZArith Bool List Reals Lra Lia.
From Verif Require Import Ad_Model Ad_Spec Ad_Proofs Ad_Nested_Proofs Ad_Prog_Proofs Rbf_Model Rbf_Proofs.
Import ListNotations.
Local Open Scope R_scope.

(** ** C38 *)
(** values are never disturbed, whatever the derivatives and whether or not the program is differentiable *)
Theorem C38_value : forall e (y : nat -> dual R), val (ev y e) = ev (fun i => val (y i)) e.
Proof. intros. exact (re_ev _ _ (Hom_dual R Fn_R Hom_R) y e). Qed.
(** along any differentiable path of inputs whose velocities are the seeds *)
Theorem C38_first_order : forall e k (y : nat -> dual R) (x : R -> nat -> R),
  (forall i, val (y i) = x 0 i /\ derivable_pt_lim (fun t => x t i) 0 (der (y i) k)) ->
  smooth (x 0) e ->
  derivable_pt_lim (fun t => ev (x t) e) 0 (der (ev y e) k).
Proof. intros e k y x H Hs. exact (proj2 (first_order k x y H e Hs)). Qed.
(** with unit seeds the derivatives are the gradient *)
Theorem C38_gradient : forall e k (v : nat -> R), smooth v e ->
  derivable_pt_lim (fun h => ev (shift v k h) e) 0 (der (ev (fun i => d_var (v i) i) e) k).
Proof.
  intros e k v Hs.
  assert (forall i, D1 k (fun t => shift v k t i) (d_var (v i) i)) as H.
  { intro i. split; cbn; [rewrite shift_0; reflexivity|]. rewrite Nat.eqb_sym. apply shift_d. }
  assert (forall e, ev (shift v k 0) e = ev v e) as E0.
  { clear. intro e. induction e; cbn [ev]; rewrite ?IHe, ?IHe1, ?IHe2; try reflexivity. apply shift_0. }
  assert (forall e, smooth v e -> smooth (shift v k 0) e) as S0.
  { clear - E0. induction e; cbn [smooth]; rewrite ?E0; intuition. }
  exact (proj2 (first_order k (shift v k) _ H e (S0 e Hs))).
Qed.
(** nested active scalars: [g] is the first derivative along the first direction as a function of the second
    parameter, and the nested run returns its derivative *)
Theorem C38_second_order : forall e j k (y : nat -> dual (dual R)) (X : R -> R -> nat -> R) (a : R -> nat -> R),
  (forall i, val (val (y i)) = X 0 0 i /\ val (der (y i) j) = a 0 i) ->
  (forall t i, derivable_pt_lim (fun s => X s t i) 0 (a t i)) ->
  (forall i, derivable_pt_lim (fun t => X 0 t i) 0 (der (val (y i)) k)) ->
  (forall i, derivable_pt_lim (fun t => a t i) 0 (der (der (y i) j) k)) ->
  nestable e -> smooth (X 0 0) e ->
  val (val (ev y e)) = ev (X 0 0) e /\
  derivable_pt_lim (fun t => ev (X 0 t) e) 0 (der (val (ev y e)) k) /\
  exists (g : R -> R) (d : R), 0 < d /\
    (forall t, Rabs t < d -> derivable_pt_lim (fun s => ev (X s t) e) 0 (g t)) /\
    val (der (ev y e) j) = g 0 /\ derivable_pt_lim g 0 (der (der (ev y e) j) k).
Proof.
  intros e j k y X a H1 H2 H3 H4 HN Hs.
  destruct (second_order j k X a y e H2 H3 H4 H1 HN Hs) as [A [B [g [[d [Hd N]] [C D]]]]].
  split; [exact A|]. split; [exact B|]. exists g, d. auto.
Qed.
(** with unit seeds on both levels: gradient and Hessian *)
Theorem C38_hessian : forall e j k (v : nat -> R), nestable e -> smooth v e ->
  let r := ev (fun i => d_var (d_var (v i) i) i) e in
  val (val r) = ev v e /\
  derivable_pt_lim (fun t => ev (shift v k t) e) 0 (der (val r) k) /\
  exists (g : R -> R) (d : R), 0 < d /\
    (forall t, Rabs t < d -> derivable_pt_lim (fun s => ev (shift (shift v k t) j s) e) 0 (g t)) /\
    val (der r j) = g 0 /\ derivable_pt_lim g 0 (der (der r j) k).
Proof.
  intros e j k v HN Hs r.
  assert (forall w m e, ev (shift w m 0) e = ev w e) as E0.
  { clear. intros w m e. induction e; cbn [ev]; rewrite ?IHe, ?IHe1, ?IHe2; try reflexivity. apply shift_0. }
  assert (forall w m e, smooth w e -> smooth (shift w m 0) e) as S0.
  { clear - E0. intros w m. induction e; cbn [smooth]; rewrite ?E0; intuition. }
  destruct (second_order j k (fun s t => shift (shift v k t) j s) (fun _ i => if (i =? j)%nat then 1 else 0)
              (fun i => d_var (d_var (v i) i) i) e) as [A [B [g [[d [Hd N]] [C D]]]]].
  - intros t i. apply shift_d.
  - intro i. cbn. apply (dpl_local (fun t => shift v k t i)); [apply near_all; intro t; rewrite shift_0; reflexivity|].
    rewrite Nat.eqb_sym. apply shift_d.
  - intro i. cbn. rewrite (Nat.eqb_sym i j). destruct (j =? i)%nat; cbn; apply derivable_pt_lim_const.
  - intro i. cbn. rewrite !shift_0. split; [reflexivity|]. rewrite (Nat.eqb_sym i j). destruct (j =? i)%nat; reflexivity.
  - exact HN.
  - apply S0, S0, Hs.
  - split; [|split].
    + unfold r. rewrite A. rewrite !E0. reflexivity.
    + apply (dpl_local (fun t => ev (shift (shift v k t) j 0) e)); [apply near_all; intro t; apply E0|exact B].
    + exists g, d. auto.
Qed.
(** floor keeps the seeds: at every non-integer point its derivative is 0, the library says 1 *)
Theorem C38_floor_refuted : forall v : R, (forall z, v <> IZR z) ->
  derivable_pt_lim (fun h => ev (shift (fun _ => v) 0 h) (Un UFloor (Var 0))) 0 0 /\
  der (ev (fun i => d_var v i) (Un UFloor (Var 0))) 0 = 1.
Proof.
  intros v Hv. split; [|cbn; ring].
  destruct (base_Int_part v) as [A B]. assert (IZR (Int_part v) < v) as A' by (pose proof (Hv (Int_part v)); lra).
  apply (dpl_local (fun _ => IZR (Int_part v))); [|apply derivable_pt_lim_const].
  exists (Rmin (v - IZR (Int_part v)) (1 + IZR (Int_part v) - v)). split; [apply Rmin_pos; lra|].
  intros t Ht. cbn. unfold shift. cbn. f_equal.
  pose proof (Rmin_l (v - IZR (Int_part v)) (1 + IZR (Int_part v) - v)).
  pose proof (Rmin_r (v - IZR (Int_part v)) (1 + IZR (Int_part v) - v)).
  apply Rabs_def2 in Ht. destruct (base_Int_part (v + t)) as [C D].
  set (a := Int_part v) in *. set (b := Int_part (v + t)) in *. clearbody a b.
  assert (IZR a < IZR (b + 1)) as X by (rewrite plus_IZR; lra). assert (IZR b < IZR (a + 1)) as Y by (rewrite plus_IZR; lra).
  apply lt_IZR in X. apply lt_IZR in Y. lia.
Qed.

(** ** C39 *)
(** a program that gives plain numbers only to variables without derivatives (in particular one that gives
    none) is differentiated correctly, whatever else it does *)
Theorem C39_programs_partial : forall k p (x : R -> nat -> R) (y : nat -> dual R),
  (forall i, val (y i) = x 0 i /\ derivable_pt_lim (fun t => x t i) 0 (der (y i) k)) ->
  smooth_prog (x 0) p -> clean k y p ->
  forall r, val (run_ad y p r) = run_R (x 0) p r /\
            derivable_pt_lim (fun t => run_R (x t) p r) 0 (der (run_ad y p r) k).
Proof. intros k p x y H Hs Hc r. exact (run_D1 k p x y H Hs Hc r). Qed.
(** assigning a plain number keeps every derivative the variable had, so it is a constant afterwards only if
    the variable was one before *)
Theorem C39_assignment_refuted : forall (x : dual R) (c : R) k,
  val (assign_scalar x c) = c /\ (der (assign_scalar x c) k = 0 <-> der x k = 0).
Proof. intros. cbn. split; [reflexivity|tauto]. Qed.
(** reusing a variable: [x1 = x0 * x0; x0 = 3; x1 += x0] at [x0 = 2]. The derivative of [x1] is 4, the
    library returns 5 *)
Definition reuse : list instr := [Assign 1 (Mul (Var 0) (Var 0)); AssignConst 0 3; AddTo 1 (Var 0)].
Theorem C39_reuse_refuted : exists (p : list instr) (v : nat -> R),
  smooth_prog v p /\
  exists l, derivable_pt_lim (fun h => run_R (shift v 0 h) p 1%nat) 0 l /\
            der (run_ad (fun i => d_var (v i) i) p 1%nat) 0 <> l.
Proof.
  exists reuse, (fun _ => 2). split; [cbn; repeat split|]. exists 4. split.
  - apply (dpl_local (fun h => (2 + h) * (2 + h) + 3)).
    + apply near_all. intro t. cbn. unfold shift. cbn. reflexivity.
    + eapply dpl_eq.
      * apply (derivable_pt_lim_plus (fun h => (2 + h) * (2 + h)) (fun _ => 3)); [|apply derivable_pt_lim_const].
        apply (derivable_pt_lim_mult (fun h => 2 + h) (fun h => 2 + h));
          apply (derivable_pt_lim_plus (fun _ => 2) id); try apply derivable_pt_lim_const; apply derivable_pt_lim_id.
      * cbv beta. ring.
  - cbn. lra.
Qed.

(** ** C46 *)
(** the general template, run with active scalars, returns exact derivatives for every seeding *)
Theorem C46_template_partial : forall n (y : nat -> R) k (z : nat -> dual R) (x : R -> nat -> R),
  (forall i, val (z i) = x 0 i /\ derivable_pt_lim (fun t => x t i) 0 (der (z i) k)) ->
  derivable_pt_lim (fun t => rbf_eval n (x t) y) 0 (der (rbf_eval n z y) k).
Proof.
  intros n y k z x H. pose proof (C38_first_order (rbf_expr n y) k z x H (rbf_smooth n _ y)) as D.
  rewrite rbf_expr_ev in D. apply (dpl_local (fun t => ev (x t) (rbf_expr n y))); [|exact D].
  apply near_all. intro t. apply rbf_expr_ev.
Qed.
(** the first-order specialisation returns value and gradient *)
Theorem C46_gradient_partial : forall n (z : nat -> dual R) (y : nat -> R) k, (k < n)%nat ->
  let x := fun i => val (z i) in
  val (rbf_eval_ad n z y) = exp (- fsum n (fun i => (x i - y i) * (x i - y i))) /\
  derivable_pt_lim (fun t => exp (- fsum n (fun i => (shift x k t i - y i) * (shift x k t i - y i)))) 0
    (der (rbf_eval_ad n z y) k).
Proof. intros n z y k Hk x. split; [reflexivity|]. exact (rbf_d n x y k Hk). Qed.
(** ... which is the directional derivative only for unit seeds: the seeds of the inputs are ignored *)
Theorem C46_seeds_refuted : exists n (z : nat -> dual R) (y : nat -> R) k (x : R -> nat -> R) l,
  (k < n)%nat /\ (forall i, val (z i) = x 0 i /\ derivable_pt_lim (fun t => x t i) 0 (der (z i) k)) /\
  derivable_pt_lim (fun t => rbf_eval n (x t) y) 0 l /\ der (rbf_eval_ad n z y) k <> l.
Proof.
  exists 1%nat, (fun _ => Dual 1 (fun _ => 0)), (fun _ => 0), 0%nat, (fun _ _ => 1), 0.
  split; [lia|]. split; [intro i; split; [reflexivity|apply derivable_pt_lim_const]|].
  split; [apply derivable_pt_lim_const|].
  cbn [rbf_eval_ad der val]. pose proof (rbf_pos 1 (fun _ => 1) (fun _ => 0)). cbv beta. nra.
Qed.
(** the second-order specialisation: value, inner derivatives and mixed second derivatives are right *)
Theorem C46_second_partial : forall junk n (z : nat -> dual (dual R)) (y : nat -> R) i k, (i < n)%nat -> (k < n)%nat ->
  let x := fun i => val (val (z i)) in
  let r := rbf_eval_ad2 junk n z y in
  val (val r) = rbf_eval n x y /\
  derivable_pt_lim (fun t => rbf_eval n (shift x k t) y) 0 (der (val r) k) /\
  (i <> k -> exists g : R -> R,
     (forall t, derivable_pt_lim (fun s => rbf_eval n (shift (shift x k t) i s) y) 0 (g t)) /\
     derivable_pt_lim g 0 (der (der r i) k)).
Proof.
  intros junk n z y i k Hi Hk x r. split; [reflexivity|]. split; [exact (rbf_d n x y k Hk)|].
  intro Hne. exists (fun t => -2 * rbf_eval n (shift x k t) y * (shift x k t i - y i)). split.
  - intro t. apply rbf_d. exact Hi.
  - eapply dpl_eq; [apply rbf_d2; assumption|]. unfold r. cbn [der rbf_eval_ad2].
    assert ((i =? k)%nat = false) as -> by (apply Nat.eqb_neq; exact Hne).
    assert ((k =? i)%nat = false) as -> by (apply Nat.eqb_neq; auto). reflexivity.
Qed.
(** every diagonal entry of the Hessian is wrong: it exceeds the second derivative by the kernel value *)
Theorem C46_diagonal_refuted : forall junk n (z : nat -> dual (dual R)) (y : nat -> R) k, (k < n)%nat ->
  let x := fun i => val (val (z i)) in
  exists (g : R -> R) l,
    (forall t, derivable_pt_lim (fun s => rbf_eval n (shift (shift x k t) k s) y) 0 (g t)) /\
    derivable_pt_lim g 0 l /\
    der (der (rbf_eval_ad2 junk n z y) k) k = l + rbf_eval n x y /\ der (der (rbf_eval_ad2 junk n z y) k) k <> l.
Proof.
  intros junk n z y k Hk x. exists (fun t => -2 * rbf_eval n (shift x k t) y * (shift x k t k - y k)).
  eexists. split; [intro t; apply rbf_d; exact Hk|]. split; [apply rbf_d2; assumption|].
  cbn [der rbf_eval_ad2]. rewrite !Nat.eqb_refl. pose proof (rbf_pos n x y) as P.
  change (rbf_eval n (fun i => val (val (z i))) y) with (rbf_eval n x y). change (val (val (z k))) with (x k).
  split; [ring|]. intro E. ring_simplify in E. lra.
Qed.
(** the values of the outer derivatives are whatever was in memory *)
Theorem C46_uninitialised_refuted : forall n (z : nat -> dual (dual R)) (y : nat -> R) (w : nat -> R) i,
  exists junk, val (der (rbf_eval_ad2 junk n z y) i) = w i.
Proof. intros. exists w. reflexivity. Qed.

Print Assumptions C38_value.
Print Assumptions C38_first_order.
Print Assumptions C38_gradient.
Print Assumptions C38_second_order.
Print Assumptions C38_hessian.
Print Assumptions C38_floor_refuted.
Print Assumptions C39_programs_partial.
Print Assumptions C39_assignment_refuted.
Print Assumptions C39_reuse_refuted.
Print Assumptions C46_template_partial.
Print Assumptions C46_gradient_partial.
Print Assumptions C46_seeds_refuted.
Print Assumptions C46_second_partial.
Print Assumptions C46_diagonal_refuted.
Print Assumptions C46_uninitialised_refuted.

(** ** Examples *)
(** x0 * sin x1 / sqrt (x0 + 1) at (3, 0) *)
Definition ex_e : expr := Div (Mul (Var 0) (Un USin (Var 1))) (Un USqrt (AddR (Var 0) 1)).
Definition ex_v : nat -> R := fun i => match i with O => 3 | _ => 0 end.
Example ex_smooth : nestable ex_e /\ smooth ex_v ex_e.
Proof.
  split; [cbn; tauto|]. cbn. replace (3 + 1) with (2 * 2) by ring. rewrite sqrt_square by lra.
  repeat split; lra.
Qed.
Example ex_gradient_value : der (ev (fun i => d_var (ex_v i) i) ex_e) 1 = 3 / 2.
Proof. cbn. replace (3 + 1) with (2 * 2) by ring. rewrite sqrt_square by lra. rewrite cos_0, sin_0. lra. Qed.
Example ex_hessian_value : der (der (ev (fun i => d_var (d_var (ex_v i) i) i) ex_e) 0) 1 = 5 / 16.
Proof. cbn. replace (3 + 1) with (2 * 2) by ring. rewrite sqrt_square by lra. rewrite cos_0, sin_0. lra. Qed.
(** every elementary function at once, away from the exceptional points *)
Definition ex_all : expr :=
  fold_right (fun u e => Add (Un u (Var 0)) e) (Max (Pow (Var 0) 2) (Min (Atan2 (Var 0) (Var 0)) (RDiv 1 (RSub 2 (Var 0)))))
    [UAbs; UAbs2; USqrt; UCos; USin; UExp; ULog; UTan; UAsin; UAcos; UTanh; USinh; UCosh].
Example ex_all_smooth : smooth (fun _ => 1 / 2) ex_all.
Proof.
  assert (0 < cos (1 / 2)) as Hc by (apply cos_gt_0; pose proof PI2_3_2; lra).
  assert (std_pow (1 / 2) 2 = 1 / 4) as Hp by (rewrite std_pow_Z; unfold powerRZ; replace (Pos.to_nat 2) with 2%nat by reflexivity; cbn [pow]; lra).
  assert (std_atan2 (1 / 2) (1 / 2) = PI / 4) as Ha.
  { unfold std_atan2. destruct (Rlt_dec 0 (1 / 2)); [|lra]. replace (1 / 2 / (1 / 2)) with 1 by lra. apply atan_1. }
  pose proof PI2_3_2 as P.
  cbn. rewrite Hp, Ha. repeat split; try lra.
  - destruct (Rlt_dec (PI / 4) (1 / (2 - 1 / 2))); lra.
Qed.
Definition ex_prog : list instr :=
  [Assign 2 (Un UExp (Mul (Var 0) (Var 1))); AssignConst 3 7; MulBy 2 (Var 3); DivConst 2 2; SubFrom 1 (Var 2); DivBy 2 (Un UExp (Var 1))].
Example ex_prog_ok : forall k, smooth_prog (fun _ => 1) ex_prog /\
  clean k (fun i => if (i <? 2)%nat then d_var 1 i else d_cst 1) ex_prog.
Proof.
  intro k. split; cbn.
  - repeat split; try lra. apply Rgt_not_eq. apply exp_pos.
  - repeat split; intros r c E; inversion E; subst; reflexivity.
Qed.
Example ex_floor : forall z, 5 / 2 <> IZR z.
Proof.
  intros z H. assert (IZR 5 = IZR (2 * z)) as E by (rewrite mult_IZR; lra). apply eq_IZR in E. lia.
Qed.
Example ex_rbf : der (rbf_eval_ad 2 (fun i => d_var (INR i) i) (fun _ => 0)) 1 = -2 * exp (- (1)).
Proof. cbn. replace (0 + (0 - 0) * (0 - 0) + (1 - 0) * (1 - 0)) with 1 by ring. ring. Qed.
