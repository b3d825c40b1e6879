(** C108: derivative vectors of dynamic size. *)
From Coq Require Import List Arith Bool Reals Lra Lia.
From Verif Require Import Ad_Model Ad_Spec Ad_Proofs Ad_Props DynAd_Model DynAd_Spec DynAd_Proofs.
Import ListNotations.
Local Open Scope R_scope.

(** Expressions whose lazy operands contain derivatives: the computation succeeds in
    every evaluation order, the value is that of the program on plain numbers, the
    derivatives are those along every path with the given seeds, and operands are
    changed only by filling empty derivative vectors with zeros. *)
Theorem C108_dynamic : forall ltr n v d e,
  n <> 0%nat -> common_length n d ->
  disciplined (fun i => negb (length (d i) =? 0)%nat) e = true ->
  exists d' x g, run_dyn ltr v d e = Some (d', x, g) /\
    x = ev v e /\
    (length g = n \/ g = []) /\
    (active (fun i => negb (length (d i) =? 0)%nat) e = true -> length g = n) /\
    (forall k (p : R -> nat -> R), smooth v e -> (forall i, p 0 i = v i) ->
       (forall i, derivable_pt_lim (fun t => p t i) 0 (nth k (d i) 0)) ->
       derivable_pt_lim (fun t => ev (p t) e) 0 (nth k g 0)) /\
    (forall i, d' i = d i \/ (d i = [] /\ d' i = repeat 0 n)).
Proof.
  intros ltr n v d e Hn Hc Hd.
  destruct (dyn_ok n ltr v d e Hn Hc Hd) as (d' & x & g & E & Hx & Hk & Hl & Ha & Hs).
  exists d', x, g. split; [exact E|]. split; [rewrite Hx; apply C38_value|].
  split; [exact Hl|]. split; [exact Ha|]. split; [|exact Hs].
  intros k p Sm P0 Pd. rewrite Hk. apply C38_first_order.
  - intro i. split; [symmetry; apply P0|apply Pd].
  - assert (E0 : forall e, ev (p 0) e = ev v e).
    { clear - P0. intro e. induction e; cbn [ev]; rewrite ?IHe, ?IHe1, ?IHe2;
        try reflexivity. apply P0. }
    clear - E0 Sm. revert Sm. induction e; cbn [smooth]; rewrite ?E0; intuition.
Qed.

(** The derivatives are those of the class with fixed size, for the seeds padded with
    zeros, whether or not the function is differentiable. *)
Theorem C108_fixed_size : forall ltr n v d e,
  n <> 0%nat -> common_length n d ->
  disciplined (fun i => negb (length (d i) =? 0)%nat) e = true ->
  exists d' g, run_dyn ltr v d e = Some (d', val (ev (padded v d) e), g) /\
    forall k, nth k g 0 = der (ev (padded v d) e) k.
Proof.
  intros ltr n v d e Hn Hc Hd.
  destruct (dyn_ok n ltr v d e Hn Hc Hd) as (d' & x & g & E & Hx & Hk & _).
  exists d', g. split; [rewrite <- Hx; exact E|exact Hk].
Qed.

(** Programs of assignments: the dynamic run succeeds and agrees with the run with fixed
    size; where the program is differentiable, and no variable with derivatives receives
    a plain number (see C39), the vectors are the directional derivatives. *)
Theorem C108_programs : forall ltr n v d p,
  n <> 0%nat -> common_length n d ->
  disciplined_prog (fun i => negb (length (d i) =? 0)%nat) p = true ->
  exists v' d', run_prog_dyn ltr v d p = Some (v', d') /\ common_length n d' /\
    (forall i, v' i = val (run_ad (padded v d) p i) /\
               forall k, nth k (d' i) 0 = der (run_ad (padded v d) p i) k) /\
    forall k (x : R -> nat -> R), (forall i, x 0 i = v i) ->
      (forall i, derivable_pt_lim (fun t => x t i) 0 (nth k (d i) 0)) ->
      smooth_prog (x 0) p -> clean k (padded v d) p ->
      forall r, v' r = run_R (x 0) p r /\
                derivable_pt_lim (fun t => run_R (x t) p r) 0 (nth k (d' r) 0).
Proof.
  intros ltr n v d p Hn Hc Hd.
  destruct (prog_ok n ltr p Hn (fun i => negb (length (d i) =? 0)%nat) v d (padded v d))
    as (v' & d' & E & Hc' & Hr).
  - split; try reflexivity; [exact Hc|]. intros i Hi.
    destruct (Hc i) as [T|T]; [exact T|]. rewrite T in Hi. discriminate.
  - exact Hd.
  - exists v', d'. split; [exact E|]. split; [exact Hc'|]. split; [exact Hr|].
    intros k x X0 Xd Hs Hk r. destruct (Hr r) as [Hv Hder]. rewrite Hv, Hder.
    apply C39_programs_partial; try assumption.
    intro i. split; [symmetry; apply X0|apply Xd].
Qed.

(** Without any derivatives every expression can be computed. *)
Theorem C108_constants : forall ltr v d e, (forall i, d i = []) ->
  exists d', run_dyn ltr v d e = Some (d', ev v e, []).
Proof. exact dyn_empty. Qed.

(** The documented rule, "either a common derivative vector length or a zero-length
    derivative vector", does not suffice: a constant times a number, plus a variable. *)
Theorem C108_rule_refuted : exists n v d e, n <> 0%nat /\ common_length n d /\ smooth v e /\
  forall ltr, run_dyn ltr v d e = None.
Proof.
  exists 2%nat, (fun _ => 1), (fun i => match i with O => [1; 0] | _ => [] end),
    (Add (MulR (Var 1) 2) (Var 0)).
  split; [discriminate|]. split; [intros [|i]; cbn; auto|]. split; [cbn; auto|].
  intros []; reflexivity.
Qed.

(** Nor does it for atan2 of a variable and a constant, and this does not depend on the
    constant being written as an expression. *)
Theorem C108_atan2_refuted : forall ltr v d a b, length (d a) <> 0%nat -> d b = [] ->
  run_dyn ltr v d (Atan2 (Var a) (Var b)) = None /\
  run_dyn ltr v d (Atan2 (Var b) (Var a)) = None.
Proof.
  intros ltr v d a b Ha Hb. apply Nat.eqb_neq in Ha. split; unfold run_dyn; cbn.
  - destruct ltr; cbn; rewrite Hb; cbn; now rewrite Ha.
  - destruct ltr; cbn; rewrite Hb; cbn [length]; rewrite Nat.eqb_sym, Ha; reflexivity.
Qed.

(** Resizing after the fact: a sum of constants has length zero when it is built, one of
    its vectors is filled later, and the evaluation reads outside of the other. *)
Theorem C108_late_resize_refuted : exists n v d e, n <> 0%nat /\ common_length n d /\
  (exists s r, evd true v e (mkM 0 (fun l => match l with LVar i => d i | LTmp _ => [] end))
     = Some (s, r) /\ materialise (mem s) (snd r) = None).
Proof.
  exists 2%nat, (fun _ => 1), (fun i => match i with O => [1; 0] | _ => [] end),
    (Add (Add (Var 2) (Var 1)) (Add (Var 1) (Var 0))).
  split; [discriminate|]. split; [intros [|i]; cbn; auto|].
  do 2 eexists. split; reflexivity.
Qed.

Print Assumptions C108_dynamic.
Print Assumptions C108_fixed_size.
Print Assumptions C108_programs.
Print Assumptions C108_constants.
Print Assumptions C108_rule_refuted.
Print Assumptions C108_atan2_refuted.
Print Assumptions C108_late_resize_refuted.

(** ** Examples *)
(** sin(x)*y + (c + 1)*x/(2 - y): x and y with derivatives, c without. *)
Definition ex108 : expr :=
  Add (Mul (Un USin (Var 0)) (Var 1)) (Div (Mul (AddR (Var 2) 1) (Var 0)) (RSub 2 (Var 1))).
Definition ex108_v : nat -> R := fun _ => 1.
Definition ex108_d : nat -> list R :=
  fun i => match i with 0%nat => [1; 0] | 1%nat => [0; 1] | _ => [] end.
Example ex_C108_hyp : common_length 2 ex108_d /\ smooth ex108_v ex108 /\
  disciplined (fun i => negb (length (ex108_d i) =? 0)%nat) ex108 = true /\
  active (fun i => negb (length (ex108_d i) =? 0)%nat) ex108 = true.
Proof.
  split; [intros [|[|i]]; cbn; auto|]. split; [|split; reflexivity].
  cbn. unfold ex108_v. repeat split; auto; lra.
Qed.
(** the gradient of the example: (cos 1 + 2, sin 1 + 2) *)
Example ex_C108_run : exists d' x g, run_dyn false ex108_v ex108_d ex108 = Some (d', x, g) /\
  x = sin 1 + 2 /\ g = [cos 1 + 2; sin 1 + 2].
Proof.
  do 3 eexists. split; [reflexivity|]. unfold ex108_v, slope. cbn.
  split; [field|]. f_equal; [field|]. f_equal. field.
Qed.
(** the side effect: an empty vector of an operand is filled with zeros *)
Example ex_C108_side : exists d' x g,
  run_dyn true ex108_v ex108_d (Add (Var 2) (Var 0)) = Some (d', x, g) /\
  ex108_d 2 = [] /\ d' 2%nat = [0; 0].
Proof. do 3 eexists. split; [reflexivity|]. split; reflexivity. Qed.
(** a program: acc = 0 (a plain number, empty vector); acc += x; acc *= y; z = 3*acc *)
Definition ex108_p : list instr :=
  [AssignConst 3 0; AddTo 3 (Var 0); MulBy 3 (Var 1); Assign 4 (MulR (Var 3) 3)].
Example ex_C108_prog :
  disciplined_prog (fun i => negb (length (ex108_d i) =? 0)%nat) ex108_p = true /\
  smooth_prog ex108_v ex108_p /\ clean 0 (padded ex108_v ex108_d) ex108_p /\
  exists v' d', run_prog_dyn true ex108_v ex108_d ex108_p = Some (v', d') /\
    v' 4%nat = 3 /\ d' 4%nat = [3; 3].
Proof.
  split; [reflexivity|]. split; [cbn; repeat split|]. split.
  - cbn. repeat split; try discriminate. intros r c H. injection H as <- <-. reflexivity.
  - do 2 eexists. split; [reflexivity|]. unfold ex108_v. cbn. split; [ring|].
    f_equal; [ring|]. f_equal. ring.
Qed.
