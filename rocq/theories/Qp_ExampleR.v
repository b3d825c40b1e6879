(** Counterexamples used by the property files (ADMM / boxADMM). *)
Require Import ZArith List Bool Lia Reals Lra Psatz.
From Verif Require Import Scal RSum Qp_Model Qp_Spec Qp_Proofs Admm_Model Admm_Spec Admm_SpecR Admm_Proofs Admm_ProofsR Admm_Conv
  BoxAdmm_Model BoxAdmm_Proofs BoxAdmm_ProofsR BoxAdmm_Equiv Gauss Qp_Example.
Local Open Scope R_scope.

Lemma stale_residuals : exists s p xg yg o',
  admm_solve (gauss_solver false) false s p xg yg (admm_new 1) = Some o' /\
  res_prim (a_res o') = 1 /\ res_dual (a_res o') = 1 /\
  (forall i, (i < qm p)%nat -> rmv (qn p) (qA p) (a_x o') i - a_z o' i = 0) /\
  (forall j, (j < qn p)%nat -> a_x o' j - a_z o' (qm p + j)%nat = 0) /\
  (forall j, (j < qn p)%nat -> lag_grad p (a_x o') (a_y o') j = 0).
Proof.
  exists (ex_settings 1 1 25 false), ex_qp, ex_x, ex_y.
  set (s := ex_settings 1 1 25 false). set (init := admm_setup false s ex_qp ex_x ex_y (admm_new 1)).
  exists (set_iter 2 (set_status MAX_ITER_EXCEEDED (admm_update (gauss_solver false) s ex_qp init))).
  split; [reflexivity|]. split; [reflexivity|]. split; [reflexivity|].
  destruct (ex_settings_ok 1 1 25 false) as (H1 & H2 & _). fold s in H1, H2.
  assert (Hv : visits (admm_body (gauss_solver false) s ex_qp) (max_iter s) init 1 init) by constructor.
  assert (P := kkt_fixed (gauss_solver false) false (gauss_solver_exact false) s ex_qp init ex_x ex_y
    (visits_admm_inv _ _ _ _ _ _ _ _ _ Hv) ex_sym ex_psd H1 ex_kkt (visits_rho_pos _ _ _ _ _ _ _ _ _ H2 Hv)
    (setup_at_pair _ _ _ _ _ _)).
  set (u := admm_update (gauss_solver false) s ex_qp init) in *. clearbody u. destruct P as (Px & Py & Pz).
  cbn [a_x a_y a_z set_iter set_status].
  repeat split.
  - intros i Hi. rewrite Pz by (simpl in *; lia). unfold stackv. rewrite (proj2 (Nat.ltb_lt _ _)) by auto.
    rewrite (rmv_ext _ _ (qA ex_qp) (a_x u) ex_x) by auto. ring.
  - intros j Hj. rewrite Pz, Px by (simpl in *; lia). unfold stackv. destruct (Nat.ltb_spec (qm (ex_qp : qp_data R) + j) (qm (ex_qp : qp_data R))); [lia|].
    replace (qm (ex_qp : qp_data R) + j - qm (ex_qp : qp_data R))%nat with j by lia. ring.
  - intros j Hj. destruct ex_kkt as (K & _). rewrite <- (K j Hj). unfold lag_grad.
    rewrite (rmv_ext _ _ (qH ex_qp) (a_x u) ex_x) by auto. rewrite Py by (simpl in *; lia).
    f_equal. f_equal. apply rsum_ext. intros. rewrite Py by lia. reflexivity.
Qed.

(** one boxADMM iteration from an exact optimum multiplies the primal point by alpha (2 - alpha) *)
Lemma box_one_iteration : forall lsolve full, exact_solver full lsolve ->
  forall s p xg yg o, boff (qn p) (qm p) (b_K o) ->
  symmetric (qn p) (qH p) -> psd (qn p) (qH p) -> 0 < sigma s -> 0 < rho0 s -> kkt_pair p xg yg ->
  max_iter s = 1%Z -> check_termination s = 0%Z -> adaptive_rho s = false ->
  exists o', box_solve lsolve full s p xg yg o = Some o' /\
    forall j, (j < qn p)%nat -> b_x o' j = alpha s * (2 - alpha s) * xg j.
Proof.
  intros lsolve full He s p xg yg o H0 Hs Hp Hsig Hr HK Hm Hc Ha.
  set (init := box_setup full s p xg yg o).
  exists (bset_iter 2 (bset_status MAX_ITER_EXCEEDED (box_update lsolve s p init))).
  split.
  - assert (Hb : box_body lsolve s p 1 init = Cont (box_update lsolve s p init)).
    { unfold box_body, is_check_iter. cbv zeta. rewrite Hc, Ha. reflexivity. }
    unfold box_solve. fold init. rewrite Hm. change (S (Z.to_nat 1)) with 2%nat. cbn [qp_loop]. change (1 <=? 1)%Z with true. cbv iota.
    rewrite Hb. reflexivity.
  - intros j Hj. apply (b_alpha_moves lsolve full He s p xg yg o); auto.
Qed.
