Require Import Arith ZArith Bool List Reals Lra Lia.
From Verif Require Import Ad_Model Ad_Spec Ad_Proofs Ad_Nested_Proofs Rbf_Model.
Local Open Scope R_scope.

Lemma shift_0 x j i : shift x j 0 i = x i.
Proof. unfold shift. destruct (i =? j)%nat; ring. Qed.
Lemma shift_d x j i : derivable_pt_lim (fun s => shift x j s i) 0 (if (i =? j)%nat then 1 else 0).
Proof.
  unfold shift. destruct (i =? j)%nat.
  - eapply dpl_eq; [exact (derivable_pt_lim_plus (fun _ => x i) id 0 _ _ (derivable_pt_lim_const _ _) (derivable_pt_lim_id 0))|ring].
  - eapply dpl_eq; [exact (derivable_pt_lim_const (x i + 0) 0)|reflexivity].
Qed.

(** the kernel as a program *)
Fixpoint rbf_sum (n : nat) (y : nat -> R) : expr :=
  match n with O => Cst 0 | S m => Add (rbf_sum m y) (Un UAbs2 (Sub (Var m) (Cst (y m)))) end.
Definition rbf_expr (n : nat) (y : nat -> R) : expr := Un UExp (Opp (rbf_sum n y)).
Lemma rbf_sum_ev T (F : Fn T) n x y : ev x (rbf_sum n y) = fsum n (fun i => fabs2 (sub (x i) (cst (y i)))).
Proof. induction n; cbn; [reflexivity|]. rewrite IHn. reflexivity. Qed.
Lemma rbf_expr_ev T (F : Fn T) n x y : ev x (rbf_expr n y) = rbf_eval n x y.
Proof. unfold rbf_expr, rbf_eval. cbn. rewrite rbf_sum_ev. reflexivity. Qed.
Lemma rbf_smooth n x y : smooth x (rbf_expr n y).
Proof. cbn. split; [|exact I]. induction n; cbn; auto. Qed.
Lemma rbf_nestable n y : nestable (rbf_expr n y).
Proof. cbn. induction n; cbn; auto. Qed.

(** partial derivatives of the sum of squares and of the kernel *)
Lemma sq_d n x y k : (k < n)%nat ->
  derivable_pt_lim (fun t => fsum n (fun i => fabs2 (sub (shift x k t i) (cst (y i))))) 0 (2 * (x k - y k)).
Proof.
  assert (forall n, derivable_pt_lim (fun t => fsum n (fun i => fabs2 (sub (shift x k t i) (cst (y i))))) 0
            (if (k <? n)%nat then 2 * (x k - y k) else 0)) as H.
  { clear n. induction n as [|n IH].
    - cbn. apply derivable_pt_lim_const.
    - cbn [fsum]. eapply dpl_eq.
      + apply (derivable_pt_lim_plus (fun t => fsum n (fun i => fabs2 (sub (shift x k t i) (cst (y i)))))
                 (fun t => fabs2 (sub (shift x k t n) (cst (y n))))); [exact IH|].
        cbn. apply (derivable_pt_lim_mult (fun t => shift x k t n - y n) (fun t => shift x k t n - y n));
          apply (derivable_pt_lim_minus (fun t => shift x k t n) (fun _ => y n)); try apply shift_d; apply derivable_pt_lim_const.
      + cbv beta. rewrite shift_0. destruct (Nat.eqb_spec n k) as [->|N].
        * rewrite Nat.ltb_irrefl. assert ((k <? S k)%nat = true) as -> by (apply Nat.ltb_lt; lia). ring.
        * assert ((k <? S n)%nat = (k <? n)%nat) as ->.
          { destruct (Nat.ltb_spec k (S n)), (Nat.ltb_spec k n); try reflexivity; lia. }
          destruct (k <? n)%nat; ring. }
  intro Hk. specialize (H n). assert ((k <? n)%nat = true) as E by (apply Nat.ltb_lt; exact Hk). rewrite E in H. exact H.
Qed.
Lemma fsum_ext n f g : (forall i, (i < n)%nat -> f i = g i) -> @fsum R _ n f = fsum n g.
Proof. induction n; intro H; cbn; [reflexivity|]. rewrite IHn, H by auto. reflexivity. Qed.
Lemma rbf_shift_0 n x y k : rbf_eval n (shift x k 0) y = rbf_eval n x y.
Proof. unfold rbf_eval. do 2 f_equal. apply fsum_ext. intros. rewrite shift_0. reflexivity. Qed.
Lemma rbf_d n x y k : (k < n)%nat ->
  derivable_pt_lim (fun t => rbf_eval n (shift x k t) y) 0 (-2 * rbf_eval n x y * (x k - y k)).
Proof.
  intro Hk. unfold rbf_eval at 1. eapply dpl_eq.
  - apply (dpl_comp (fun t => - fsum n (fun i => fabs2 (sub (shift x k t i) (cst (y i))))) exp).
    + apply (derivable_pt_lim_opp (fun t => fsum n (fun i => fabs2 (sub (shift x k t i) (cst (y i)))))). apply sq_d; exact Hk.
    + apply derivable_pt_lim_exp.
  - change (exp (- fsum n (fun i => fabs2 (sub (shift x k 0 i) (cst (y i)))))) with (rbf_eval n (shift x k 0) y).
    rewrite rbf_shift_0. ring.
Qed.
Lemma rbf_d2 n x y i k : (i < n)%nat -> (k < n)%nat ->
  derivable_pt_lim (fun t => -2 * rbf_eval n (shift x k t) y * (shift x k t i - y i)) 0
    (rbf_eval n x y * (4 * ((x k - y k) * (x i - y i)) - (if (i =? k)%nat then 2 else 0))).
Proof.
  intros Hi Hk. eapply dpl_eq.
  - apply (derivable_pt_lim_mult (fun t => -2 * rbf_eval n (shift x k t) y) (fun t => shift x k t i - y i)).
    + apply (derivable_pt_lim_mult (fun _ => -2) (fun t => rbf_eval n (shift x k t) y));
        [apply derivable_pt_lim_const|apply rbf_d; exact Hk].
    + apply (derivable_pt_lim_minus (fun t => shift x k t i) (fun _ => y i)); [apply shift_d|apply derivable_pt_lim_const].
  - cbv beta. rewrite rbf_shift_0, shift_0. destruct (i =? k)%nat; ring.
Qed.
Lemma rbf_pos n x y : 0 < @rbf_eval R _ n x y.
Proof. unfold rbf_eval. cbn. apply exp_pos. Qed.
