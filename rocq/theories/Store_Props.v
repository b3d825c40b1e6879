(** C107: the dense solver objects have storage for the problems they are built for. *)
From Coq Require Import Bool ZArith Lia.
From Verif Require Import Store_Model Store_Spec Store_Proofs.
Local Open Scope Z_scope.

(** The QP solver alone: for all sizes for which the class is compiled, constructing the
    object and solving a QP with matrices of the right sizes makes no access outside of
    a matrix if and only if a vector of N + M scalars is below the limit of static
    objects.  The sizes of the matrices do not matter: the KKT matrix is allocated by
    the constructor. *)
Theorem C107_box_admm : forall lim sz n m,
  0 < lim -> 0 < sz -> 0 <= n -> 0 <= m -> box_admm_compiles lim sz n m = true ->
  (box_admm_solve_in lim sz n m (mkShape n n) (mkShape n 1) (mkShape m n)
     (mkShape m 1) (mkShape m 1) (mkShape n 1) (mkShape n 1) = true
   <-> below lim sz (n + m) 1).
Proof.
  intros lim sz n m Hl Hsz Hn Hm Hc. split.
  - intro E. destruct (Z_lt_dec ((n + m) * 1 * sz) lim) as [L|L]; [exact L|].
    rewrite box_admm_unsafe in E by (assumption || exact L). discriminate.
  - intro B. apply andb_prop in Hc. destruct Hc as [C1 C2].
    apply selector_is_fixed in C1; [|lia|lia]. apply selector_is_fixed in C2; [|lia|lia].
    apply box_admm_safe; assumption.
Qed.

(** The arguments of the call: a class that is compiled and whose vectors are below the limit stays in its storage for
    exactly the arguments of the sizes of the problem, the two initial guesses included.  (The Hessian and the constraint
    matrix may be of dynamic-size type, in which case no compiler checks their sizes.) *)
Theorem C107_arguments : forall lim sz n m H h A alb aub xlb xub xg yg,
  0 < lim -> 0 < sz -> 0 <= n -> 0 <= m -> box_admm_compiles lim sz n m = true -> below lim sz (n + m) 1 ->
  (box_admm_in lim sz n m H h A alb aub xlb xub xg yg = true <->
   H = mkShape n n /\ h = mkShape n 1 /\ A = mkShape m n /\ alb = mkShape m 1 /\ aub = mkShape m 1 /\
   xlb = mkShape n 1 /\ xub = mkShape n 1 /\ xg = mkShape n 1 /\ yg = mkShape (n + m) 1).
Proof.
  intros lim sz n m H h A alb aub xlb xub xg yg Hl Hsz Hn Hm Hc B.
  apply andb_prop in Hc. destruct Hc as [C1 C2].
  apply selector_is_fixed in C1; [|lia|lia]. apply selector_is_fixed in C2; [|lia|lia]. split.
  - unfold box_admm_in, qp_dual_a_t, qp_var_t, qp_dual_t, qp_kkt_vec_t. intro E.
    rewrite !(selector_fixed lim sz n), !(selector_fixed lim sz m), !(selector_fixed lim sz (n + m)) in E by (assumption || lia).
    cbn [assign fresh srows scols] in E. unfold construct_kkt_in, residuals_in, same in E. cbn [srows scols] in E.
    rewrite !andb_true_iff, !Z.eqb_eq in E.
    destruct H as [h1 h2], h as [v1 v2], A as [a1 a2], alb as [b1 b2], aub as [c1 c2], xlb as [d1 d2], xub as [e1 e2], xg as [g1 g2], yg as [y1 y2].
    cbn [srows scols] in E. repeat split; f_equal; lia.
  - intros (-> & -> & -> & -> & -> & -> & -> & -> & ->).
    rewrite (Z.add_comm n m). apply box_admm_safe; assumption.
Qed.
Print Assumptions C107_arguments.

(** The SQP solver over a dense control problem: for all dimensions for which the class
    is compiled, solving the first QP from the constructed object is free of accesses
    outside of a matrix if and only if the Hessian, the Jacobian and the multiplier
    vector are all below the limit and the number of controls is zero or not larger
    than the number of states (and the states fit after the states of the nodes). *)
Theorem C107_sqp : forall lim sz d s,
  0 < lim -> 0 < sz -> odim_wf d -> sqp_construct lim sz d = Some s ->
  (sqp_first_qp_in lim sz d s = true <->
   below lim sz (var_size d) (var_size d) /\
   below lim sz (num_eq d + num_ineq d) (var_size d) /\
   below lim sz (dual_size d) 1 /\
   (onu d = 0 \/ (onu d <= onx d /\ onx d <= varu_size d + onp d))).
Proof. intros lim sz d s Hl Hsz Hwf Hc. exact (sqp_iff d Hwf lim sz s Hl Hsz Hc). Qed.

(** A control problem with three states and two controls on five segments of order five
    has 130 variables.  With doubles and the default limit the solver is compiled, but
    its Hessian is an empty matrix and the first solve accesses a block of it. *)
Definition wide : odim := mkOdim 3 2 0 0 5 5.

Theorem C107_large_refuted : exists d s,
  odim_wf d /\ sqp_construct 131072 8 d = Some s /\
  onu d <= onx d /\ st_H s = mkShape 0 0 /\ var_size d = 130 /\
  sqp_first_qp_in 131072 8 d s = false.
Proof.
  exists wide. eexists. split; [unfold odim_wf; cbn; lia|].
  split; [vm_compute; reflexivity|]. vm_compute. repeat split; discriminate.
Qed.

(** A small problem with one state and two controls: the Mayer term reads the controls
    through a segment of the length of the state. *)
Theorem C107_controls_refuted : exists d s,
  odim_wf d /\ sqp_construct 131072 8 d = Some s /\ var_size d = 18 /\
  sqp_first_qp_in 131072 8 d s = false.
Proof.
  exists (mkOdim 1 2 0 0 5 1). eexists. split; [unfold odim_wf; cbn; lia|].
  split; [vm_compute; reflexivity|]. vm_compute. repeat split.
Qed.

(** The same problem as [wide] on two segments (55 variables) is solved in storage, by
    the theorem; also one with inequality constraints and parameters. *)
Example C107_sqp_example : exists s,
  sqp_construct 131072 8 (mkOdim 3 2 1 1 5 2) = Some s /\
  sqp_first_qp_in 131072 8 (mkOdim 3 2 1 1 5 2) s = true.
Proof.
  eexists. split; [vm_compute; reflexivity|].
  apply (C107_sqp 131072 8 (mkOdim 3 2 1 1 5 2)); [lia|lia|unfold odim_wf; cbn; lia|
    vm_compute; reflexivity|].
  unfold below. vm_compute. repeat split; try reflexivity.
  right. split; discriminate.
Qed.

(** The QP solver alone is in storage at the size at which the SQP solver is not. *)
Example C107_box_admm_example :
  box_admm_solve_in 131072 8 130 78 (mkShape 130 130) (mkShape 130 1) (mkShape 78 130)
     (mkShape 78 1) (mkShape 78 1) (mkShape 130 1) (mkShape 130 1) = true.
Proof.
  apply (C107_box_admm 131072 8 130 78); [lia|lia|lia|lia|vm_compute; reflexivity|].
  unfold below. lia.
Qed.

Print Assumptions C107_box_admm.
Print Assumptions C107_sqp.
Print Assumptions C107_large_refuted.
Print Assumptions C107_controls_refuted.

(** A guess of the multipliers without the part of the bounds is refused. *)
Example C107_arguments_example :
  box_admm_in 131072 8 130 78 (mkShape 130 130) (mkShape 130 1) (mkShape 78 130)
     (mkShape 78 1) (mkShape 78 1) (mkShape 130 1) (mkShape 130 1) (mkShape 130 1) (mkShape 78 1) = false.
Proof.
  apply not_true_is_false. intro E.
  apply (C107_arguments 131072 8 130 78) in E; [|lia|lia|lia|lia|vm_compute; reflexivity|unfold below; lia].
  destruct E as (_ & _ & _ & _ & _ & _ & _ & _ & E). discriminate E.
Qed.
