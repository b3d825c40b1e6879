(** Straight-line programs run with active scalars. *)
Require Import Arith ZArith Bool List Reals Lra Lia.
From Verif Require Import Ad_Model Ad_Spec Ad_Proofs.
Import ListNotations.
Local Open Scope R_scope.

Lemma upd_D1 k (x : R -> nat -> R) (y : nat -> dual R) r f b : (forall i, D1 k (fun t => x t i) (y i)) -> D1 k f b ->
  forall i, D1 k (fun t => upd (x t) r (f t) i) (upd y r b i).
Proof. intros Hx Hf i. unfold upd. destruct (i =? r)%nat; [exact Hf|apply Hx]. Qed.
Lemma step_D1 k x y s : (forall i, D1 k (fun t => x t i) (y i)) -> smooth_step (x 0) s ->
  (forall r c, s = AssignConst r c -> der (y r) k = 0) ->
  forall i, D1 k (fun t => step_R (x t) s i) (step_ad y s i).
Proof.
  intros Hx Hs Hc. destruct s; cbn [step_R step_ad smooth_step] in *.
  - apply (upd_D1 k x y r (fun t => ev (x t) e)); [exact Hx|]. apply first_order; assumption.
  - apply (upd_D1 k x y r (fun _ => c)); [exact Hx|]. split; [reflexivity|]. cbn. rewrite (Hc r c eq_refl). apply derivable_pt_lim_const.
  - apply (upd_D1 k x y r (fun t => x t r + ev (x t) e)); [exact Hx|]. apply (s_add _ _ _ _ _ (D1_sound k)); [apply Hx|apply first_order; assumption].
  - apply (upd_D1 k x y r (fun t => x t r - ev (x t) e)); [exact Hx|]. apply (s_sub _ _ _ _ _ (D1_sound k)); [apply Hx|apply first_order; assumption].
  - apply (upd_D1 k x y r (fun t => x t r * ev (x t) e)); [exact Hx|]. apply (s_mul _ _ _ _ _ (D1_sound k)); [apply Hx|apply first_order; assumption].
  - destruct Hs as [Hs Hn]. apply (upd_D1 k x y r (fun t => x t r / ev (x t) e)); [exact Hx|].
    apply (s_div _ _ _ _ _ (D1_sound k)); [apply Hx|apply first_order; assumption|exact Hn].
  - apply (upd_D1 k x y r (fun t => x t r + c)); [exact Hx|]. apply (s_addr _ _ _ _ _ (D1_sound k) (fun t => x t r)); apply Hx.
  - apply (upd_D1 k x y r (fun t => x t r - c)); [exact Hx|]. apply (s_subr _ _ _ _ _ (D1_sound k) (fun t => x t r)); apply Hx.
  - apply (upd_D1 k x y r (fun t => x t r * c)); [exact Hx|]. apply (s_mulr _ _ _ _ _ (D1_sound k) (fun t => x t r)); apply Hx.
  - apply (upd_D1 k x y r (fun t => x t r / c)); [exact Hx|]. apply (s_divr _ _ _ _ _ (D1_sound k) (fun t => x t r)); [apply Hx|exact Hs].
Qed.
Lemma run_D1 k p : forall x y, (forall i, D1 k (fun t => x t i) (y i)) -> smooth_prog (x 0) p -> clean k y p ->
  forall i, D1 k (fun t => run_R (x t) p i) (run_ad y p i).
Proof.
  induction p as [|s p IH]; intros x y Hx Hs Hc; [exact Hx|].
  destruct Hs as [Hs Hp]. destruct Hc as [Hc Hcp]. cbn [run_R run_ad fold_left].
  apply (IH (fun t => step_R (x t) s) (step_ad y s)); [|exact Hp|exact Hcp].
  apply step_D1; assumption.
Qed.
Lemma clean_no_const k p : (forall s, In s p -> ~ assigns_constant s) -> forall y, clean k y p.
Proof.
  induction p as [|s p IH]; intros H y; [exact I|]. split.
  - intros r c ->. exfalso. apply (H (AssignConst r c)); [left; reflexivity|exact I].
  - apply IH. intros s' Hs'. apply H. right. exact Hs'.
Qed.
