(** A concrete QP and settings used to show that the hypotheses of the theorems can be met.
      minimise 1/2 (x0^2 + x1^2) - x0 - x1   subject to  x0 + x1 <= 1,  0 <= x0,  0 <= x1
    with optimum (1/2, 1/2), multiplier 1/2 of the general constraint. *)
Require Import ZArith List Bool Lia Reals Lra Psatz.
From Verif Require Import Scal RSum Qp_Model Qp_Spec.
Local Open Scope S_scope.

Section Generic.
Context {T : Type} {ST : Scalar T}.
Definition ex_qp : qp_data T :=
  mkQP 2 1 (fun i j => if Nat.eqb i j then s1 else s0) (fun _ => - s1) (fun _ _ => s1)
       (fun _ => MInf) (fun _ => Fin s1) (fun _ => Fin s0) (fun _ => PInf).
Definition ex_settings (mx : Z) (al : T) (ct : Z) (adapt : bool) : qp_settings T :=
  mkSettings (scst 1 1000) (scst 1 1000) mx (scst 1 10) (scst 1 1000000) al ct adapt (sofZ 5) 25.
Definition ex_x : vec T := fun _ => scst 1 2.
Definition ex_y : vec T := fun i => if Nat.eqb i 0 then scst 1 2 else s0.
End Generic.

Local Open Scope R_scope.
Lemma ex_sym : symmetric 2 (qH (ex_qp : qp_data R)).
Proof. intros i j _ _. simpl. rewrite (Nat.eqb_sym j i). reflexivity. Qed.

Lemma ex_psd : psd 2 (qH (ex_qp : qp_data R)).
Proof.
  intro x. unfold qf, rmv, rdot, rsum. cbn -[Rmult Rplus]. rsimp.
  assert (H := Rle_0_sqr (x 0%nat)). assert (H' := Rle_0_sqr (x 1%nat)). unfold Rsqr in *. nra.
Qed.

Lemma ex_consistent : qp_consistent (ex_qp : qp_data R).
Proof.
  split; intros; exists 0; split; simpl; auto; rsimp; lra.
Qed.

Lemma ex_kkt : kkt_pair (ex_qp : qp_data R) ex_x ex_y.
Proof.
  assert (HA : forall i, rmv 2 (fun _ _ : nat => 1) ex_x i = 1).
  { intros. rewrite rmv_def. unfold rsum. cbn -[Rmult Rplus]. unfold ex_x, scst. rsimp. lra. }
  split; [|split; [split|split]].
  - intros j Hj. simpl in Hj. unfold lag_grad. cbn [ex_qp qH qn qh qA qm].
    assert (E : rmv 2 (fun i j => if Nat.eqb i j then 1 else 0) ex_x j = 1 / 2).
    { rewrite rmv_def. unfold rsum, ex_x, scst. destruct j as [|[|]]; try lia; cbn -[Rmult Rplus]; rsimp; lra. }
    rsimp. rewrite E. unfold rsum, ex_y, scst. destruct j as [|[|]]; try lia; cbn -[Rmult Rplus]; rsimp; lra.
  - intros i Hi. split; [exact I|]. simpl. rsimp. rewrite HA. lra.
  - intros j Hj. split; [|exact I]. simpl. unfold ex_x, scst. rsimp. lra.
  - intros i Hi. simpl in Hi. assert (i = 0)%nat by lia. subst. split; intro Hy; unfold ex_y, scst in Hy; simpl in Hy; rsimp.
    + simpl. rsimp. rewrite HA. reflexivity.
    + lra.
  - intros j Hj. split; intro Hy; unfold ex_y, scst in Hy; simpl in Hy; rsimp; lra.
Qed.

Lemma ex_settings_ok : forall mx al ct ad, let s := (ex_settings mx al ct ad : qp_settings R) in
  0 < sigma s /\ 0 < rho0 s /\ 0 < eps_abs s /\ 0 <= eps_rel s /\ RHO_MIN <= rho0 s <= RHO_MAX.
Proof. intros. unfold s, ex_settings, RHO_MIN, RHO_MAX, scst. simpl. rsimp. lra. Qed.
