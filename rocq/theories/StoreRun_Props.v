(** C107, continued: ADMM and whole runs of the SQP solver. *)
From Coq Require Import Bool ZArith Lia.
From Verif Require Import Store_Model Store_Spec Store_Proofs StoreRun_Model StoreRun_Proofs.
Local Open Scope Z_scope.

(** The solver ADMM: for all sizes for which the class is compiled, constructing the
    object and solving a QP with matrices of the right sizes makes no access outside of
    a matrix if and only if a vector of 2 N + M scalars is below the limit of static
    objects. *)
Theorem C107_admm : forall lim sz n m,
  0 < lim -> 0 < sz -> 0 <= n -> 0 <= m -> admm_compiles lim sz n m = true ->
  (admm_solve_in lim sz n m (mkShape n n) (mkShape n 1) (mkShape m n)
     (mkShape m 1) (mkShape m 1) (mkShape n 1) (mkShape n 1) = true
   <-> below lim sz (2 * n + m) 1).
Proof.
  intros lim sz n m Hl Hsz Hn Hm Hc. split.
  - intro E. destruct (Z_lt_dec ((2 * n + m) * 1 * sz) lim) as [L|L]; [exact L|].
    rewrite admm_unsafe in E by (assumption || exact L). discriminate.
  - intro B. apply admm_safe; assumption.
Qed.

(** The arguments of a call of ADMM: exactly those of the sizes of the problem are in
    storage, the initial guesses included. *)
Theorem C107_admm_arguments : forall lim sz n m H h A alb aub xlb xub xg yg,
  0 < lim -> 0 < sz -> 0 <= n -> 0 <= m -> admm_compiles lim sz n m = true -> below lim sz (2 * n + m) 1 ->
  (admm_in lim sz n m H h A alb aub xlb xub xg yg = true <->
   H = mkShape n n /\ h = mkShape n 1 /\ A = mkShape m n /\ alb = mkShape m 1 /\ aub = mkShape m 1 /\
   xlb = mkShape n 1 /\ xub = mkShape n 1 /\ xg = mkShape n 1 /\ yg = mkShape (n + m) 1).
Proof.
  intros lim sz n m H h A alb aub xlb xub xg yg Hl Hsz Hn Hm Hc B. split.
  - apply selector_is_fixed in Hc; [|lia|lia].
    assert (Bn : below lim sz n 1) by (eapply below_le; [| |exact B]; lia).
    unfold admm_in. rewrite kkt_shape, jacobian_shape by assumption. unfold qp_dual_a_t, qp_var_t, qp_dual_t, admm_dual_t, kkt_vec_t. intro E.
    rewrite !(selector_fixed lim sz n 1), !(selector_fixed lim sz (n + m) 1) in E by (assumption || lia).
    cbn [assign fresh srows scols] in E. unfold construct_A_in, admm_kkt_in, admm_rhs_in, admm_projection_in, admm_residuals_in, same in E.
    cbn [srows scols] in E. rewrite !andb_true_iff, !Z.eqb_eq in E.
    destruct H as [h1 h2], h as [v1 v2], A as [a1 a2], alb as [b1 b2], aub as [c1 c2], xlb as [d1 d2], xub as [e1 e2], xg as [g1 g2], yg as [y1 y2].
    cbn [srows scols] in E. repeat split; f_equal; lia.
  - intros (-> & -> & -> & -> & -> & -> & -> & -> & ->).
    rewrite (Z.add_comm n m). apply admm_safe; assumption.
Qed.
Print Assumptions C107_admm_arguments.

(** There are sizes for which boxADMM has storage and ADMM is compiled but has not. *)
Theorem C107_admm_refuted : exists n m,
  0 < n /\ 0 < m /\ admm_compiles 131072 8 n m = true /\
  box_admm_solve_in 131072 8 n m (mkShape n n) (mkShape n 1) (mkShape m n)
     (mkShape m 1) (mkShape m 1) (mkShape n 1) (mkShape n 1) = true /\
  admm_solve_in 131072 8 n m (mkShape n n) (mkShape n 1) (mkShape m n)
     (mkShape m 1) (mkShape m 1) (mkShape n 1) (mkShape n 1) = false.
Proof.
  exists 8192, 100. split; [lia|]. split; [lia|]. split; [reflexivity|]. split.
  - apply box_admm_safe; unfold below; lia.
  - apply admm_unsafe; unfold below; lia.
Qed.

(** A whole call of solve: for all dimensions for which the class is compiled and any
    number of iterations, the call is free of accesses outside of a matrix under
    exactly the conditions of C107_sqp: what the first QP has storage for, the line
    search, the quasi-Newton update and all later QPs have storage for. *)
Theorem C107_solve : forall lim sz d s k,
  0 < lim -> 0 < sz -> odim_wf d -> sqp_construct lim sz d = Some s ->
  (sqp_solve_in lim sz d s k = true <->
   below lim sz (var_size d) (var_size d) /\
   below lim sz (num_eq d + num_ineq d) (var_size d) /\
   below lim sz (dual_size d) 1 /\
   (onu d = 0 \/ (onu d <= onx d /\ onx d <= varu_size d + onp d))).
Proof. intros lim sz d s k Hl Hsz Hwf Hc. exact (solve_iff d lim sz s k Hwf Hl Hsz Hc). Qed.

Example C107_admm_example :
  admm_solve_in 131072 8 130 78 (mkShape 130 130) (mkShape 130 1) (mkShape 78 130)
     (mkShape 78 1) (mkShape 78 1) (mkShape 130 1) (mkShape 130 1) = true.
Proof.
  apply (C107_admm 131072 8 130 78); [lia|lia|lia|lia|vm_compute; reflexivity|].
  unfold below. lia.
Qed.

Example C107_solve_example : exists s,
  sqp_construct 131072 8 (mkOdim 3 2 1 1 5 2) = Some s /\
  forall k, sqp_solve_in 131072 8 (mkOdim 3 2 1 1 5 2) s k = true.
Proof.
  eexists. split; [vm_compute; reflexivity|]. intro k.
  apply (C107_solve 131072 8 (mkOdim 3 2 1 1 5 2)); [lia|lia|unfold odim_wf; cbn; lia|
    vm_compute; reflexivity|].
  unfold below. vm_compute. repeat split; try reflexivity.
  right. split; discriminate.
Qed.

(** A multiplier guess without the part of the bounds is refused. *)
Example C107_admm_arguments_example :
  admm_in 131072 8 130 78 (mkShape 130 130) (mkShape 130 1) (mkShape 78 130)
     (mkShape 78 1) (mkShape 78 1) (mkShape 130 1) (mkShape 130 1) (mkShape 130 1) (mkShape 78 1) = false.
Proof.
  apply not_true_is_false. intro E.
  apply (C107_admm_arguments 131072 8 130 78) in E; [|lia|lia|lia|lia|vm_compute; reflexivity|unfold below; lia].
  destruct E as (_ & _ & _ & _ & _ & _ & _ & _ & E). discriminate E.
Qed.

Print Assumptions C107_admm.
Print Assumptions C107_admm_refuted.
Print Assumptions C107_solve.
