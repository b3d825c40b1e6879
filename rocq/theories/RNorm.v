(** The Euclidean norm. *)
Require Import Reals Lra Lia.
Require Import Verif.Scal Verif.RSum.
Local Open Scope R_scope.

Definition enorm (n : nat) (v : vec R) : R := sqrt (rdot n v v).
Definition edist (n : nat) (x y : vec R) : R := enorm n (fun j => x j - y j).

Lemma enorm_nonneg n v : 0 <= enorm n v.
Proof. apply sqrt_pos. Qed.
Lemma enorm_sq n v : enorm n v * enorm n v = rdot n v v.
Proof. apply sqrt_sqrt, rdot_self_nonneg. Qed.
Lemma enorm_ext n v w : (forall j, (j < n)%nat -> v j = w j) -> enorm n v = enorm n w.
Proof. intros H. unfold enorm. rewrite (rdot_ext n v v w w); auto. Qed.
Lemma enorm_le n v e : 0 <= e -> rdot n v v <= e * e -> enorm n v <= e.
Proof. intros He H. rewrite <- (sqrt_square e He). apply sqrt_le_1_alt. exact H. Qed.
Lemma enorm_entry n v j : (j < n)%nat -> Rabs (v j) <= enorm n v.
Proof.
  intros Hj. rewrite <- sqrt_Rsqr_abs. apply sqrt_le_1_alt. rewrite rdot_def. unfold Rsqr.
  apply (rsum_nonneg_term n (fun j => v j * v j) j); auto. intros; apply Rle_0_sqr.
Qed.
Lemma enorm_zero n v : enorm n v = 0 -> forall j, (j < n)%nat -> v j = 0.
Proof.
  intros H j Hj. assert (E := enorm_entry n v j Hj). rewrite H in E. assert (A := Rabs_pos (v j)).
  destruct (Req_dec (v j) 0) as [|N]; auto. apply Rabs_pos_lt in N. lra.
Qed.
Lemma rdot_norms n v w : rdot n v w <= enorm n v * enorm n w.
Proof.
  assert (A := enorm_nonneg n v). assert (B := enorm_nonneg n w). assert (A2 := enorm_sq n v). assert (B2 := enorm_sq n w).
  set (a := enorm n v) in *. set (b := enorm n w) in *.
  destruct (Req_dec b 0) as [E|N].
  - assert (Z := enorm_zero n w E). rewrite rdot_def, (rsum_zero n); [rewrite E; lra|]. intros j Hj. rewrite Z by auto. ring.
  - assert (Hb : 0 < b) by lra.
    assert (Q : 0 <= rdot n (fun j => b * v j - a * w j) (fun j => b * v j - a * w j)) by apply rdot_self_nonneg.
    rewrite rdot_minus_l, !rdot_minus_r, !rdot_scal_l, !rdot_scal_r in Q. rewrite (rdot_comm n w v) in Q. rewrite <- A2, <- B2 in Q.
    destruct (Req_dec a 0) as [Ea|Na].
    + assert (Z := enorm_zero n v Ea). rewrite rdot_def, (rsum_zero n); [rewrite Ea; lra|]. intros j Hj. rewrite Z by auto. ring.
    + assert (Hab : 0 < a * b) by (apply Rmult_lt_0_compat; lra).
      apply Rmult_le_reg_l with (2 * (a * b)); [lra|]. lra.
Qed.
Lemma enorm_plus n v w : enorm n (fun j => v j + w j) <= enorm n v + enorm n w.
Proof.
  assert (A := enorm_nonneg n v). assert (B := enorm_nonneg n w). apply enorm_le; [lra|].
  rewrite rdot_plus_l, !rdot_plus_r, (rdot_comm n w v), <- !enorm_sq. assert (C := rdot_norms n v w). lra.
Qed.
Lemma enorm_scal n a v : 0 <= a -> enorm n (fun j => a * v j) = a * enorm n v.
Proof.
  intros Ha. unfold enorm. rewrite rdot_scal_l, rdot_scal_r, <- Rmult_assoc. rewrite sqrt_mult_alt by (apply Rmult_le_pos; auto).
  rewrite sqrt_square by auto. reflexivity.
Qed.
Lemma enorm_opp n v : enorm n (fun j => - v j) = enorm n v.
Proof.
  unfold enorm. f_equal. rewrite (rdot_ext n (fun j => - v j) (fun j => - v j) (fun j => (-1) * v j) (fun j => (-1) * v j)) by (intros; ring).
  rewrite rdot_scal_l, rdot_scal_r. ring.
Qed.
Lemma edist_sym n x y : edist n x y = edist n y x.
Proof. unfold edist. rewrite <- enorm_opp. apply enorm_ext. intros; ring. Qed.
