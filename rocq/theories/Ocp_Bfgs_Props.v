(** Properties of the block Hessian approximation of transcribed problems (C45) and of the
    announced storage sizes (C62). *)
Require Import Arith ZArith List Bool Lia Reals Lra.
From Verif Require Import Scal RSum Blk Poly_Spec PolyR Cheb_Model Cheb_Proofs Sparse Sparse_Proofs Ocp_Model Ocp_Spec Ocp_Proofs Ocp_Cost_Proofs
  Ocp_Sparse_Model Ocp_Sparse_Proofs Ocp_Stack_Proofs Ocp_Cor_Proofs Ocp_Hes_Proofs Ocp_Hes_Asm_Proofs Ocp_Hes_Cor_Proofs Ocp_Example
  Ocp_Props Ocp_Hes_Props Block_Pd Ocp_Bfgs_Spec Ocp_Bfgs_Proofs.
Local Open Scope R_scope.

(** * C45: block BFGS *)

(** the update is the damped BFGS update at the stored places and nothing elsewhere *)
Theorem C45_block_bfgs : forall (o : ocp R) M s y, block_matrix o M ->
  exists M', block_bfgs o M s y = Some M' /\ block_matrix o M' /\
    forall i j, (i < VAR o)%nat -> (j < VAR o)%nat ->
      (coupled o i j -> coeff M' i j = damped_bfgs (VAR o) (coeff M) s y i j) /\
      (~ coupled o i j -> coeff M' i j = 0).
Proof. intros o M s y HM. apply block_bfgs_spec; auto. Qed.

(** without parameters the matrix stays symmetric positive definite over any sequence of updates *)
Theorem C45_stays_spd : forall (o : ocp R), NP o = 0%nat ->
  forall pairs M, block_matrix o M -> symmetric (VAR o) (coeff M) -> posdef (VAR o) (coeff M) ->
  (forall s y, In (s, y) pairs -> nonzero_vec (VAR o) s) ->
  exists M', run (fun p M => block_bfgs o M (fst p) (snd p)) pairs M = Some M' /\ block_matrix o M' /\
    symmetric (VAR o) (coeff M') /\ posdef (VAR o) (coeff M').
Proof.
  intros o H0 pairs M HM HS HP Hin. apply block_bfgs_run; auto. intros [s y] Hp. apply (Hin s y). exact Hp.
Qed.

(** the matrices the exact Lagrangian Hessian leaves behind are valid starting points *)
Theorem C45_assembled : forall (o : ocp R), chebyshev_ocp o -> controls_fit o -> offsets_fit o ->
  forall history scale var lam, exists M M',
    run (fun q => lag_hes_sparse o (fst q) (fst (snd q)) (snd (snd q))) history (sp_empty (VAR o) (VAR o)) = Some M /\
    lag_hes_sparse o scale var lam M = Some M' /\ block_matrix o M'.
Proof.
  intros o Hch Hu Hrd history scale var lam. pose proof Hch as (HP & HS & HX & _). pose proof (mayer_u_fit o Hu) as Hu'.
  assert (HZ : (0 < NZ o)%nat) by (unfold NZ; lia).
  destruct (lag_hes_run o HZ HP HS Hu' Hrd history (sp_empty (VAR o) (VAR o)) (or_introl eq_refl)) as (M & E & HM). exists M.
  assert (H1 : exists M1, hes_sparse o var M = Some M1 /\ hok o M1).
  { destruct HM as [[-> ->]|HM].
    - destruct (hes_first o var HZ HP HS Hu' Hrd) as (M' & E' & O' & V). exists M'. auto.
    - destruct (hes_again o var M HP HS Hu' HM) as (M' & E' & O' & V). exists M'. auto. }
  destruct H1 as (M1 & E1 & O1). destruct (lag_sparse_tail o lam scale var M1 O1) as (M' & E' & O' & V').
  exists M'. split; auto. split; [unfold lag_hes_sparse; rewrite E1; exact E'|]. apply block_hok; auto.
Qed.

(** with parameters one update can already lose definiteness: one state at two nodes, one parameter *)
Definition xp_ocp : ocp R := {|
  NX := 1%nat; NU := 0%nat; NP := 1%nat; NG := 0%nat; PO := 1%nat; SG := 1%nat;
  m_D := cheb_D 1; m_nodes := cheb_nodes 1; m_w := cheb_int_weights 1; t_start := 0; t_stop := 1;
  o_dyn := fun x u p t c => 0; o_dyn_jac := fun _ _ _ _ _ _ => 0; o_dyn_hes := fun _ _ _ _ _ _ _ => 0;
  o_ine := fun _ _ _ _ _ => 0; o_ine_jac := fun _ _ _ _ _ _ => 0; o_ine_hes := fun _ _ _ _ _ _ _ => 0;
  o_lag := None; o_may := None |}.
Definition xp_pat (i j : nat) : bool := (i =? j)%nat || (i =? 2)%nat || (j =? 2)%nat.
Definition xp_eye : spmat R := SpMat 3 3 xp_pat (fun i j => if (i =? j)%nat then 1 else 0) (fun _ => 0%nat).
Lemma xp_block : block_matrix xp_ocp xp_eye.
Proof.
  apply block_hok. split; [reflexivity|]. split; [reflexivity|]. split; [reflexivity|].
  intros i j Hi Hj. change (VAR xp_ocp) with 3%nat in *.
  do 3 (destruct i as [|i]; [do 3 (destruct j as [|j]; [reflexivity|]); lia|]). lia.
Qed.
Lemma xp_coeff : forall i j, coeff xp_eye i j = if (i =? j)%nat then 1 else 0.
Proof. intros. unfold coeff, xp_eye, pat, val, xp_pat. destruct (i =? j)%nat; auto. destruct (_ || _); reflexivity. Qed.
Theorem C45_parameters_refuted : exists (o : ocp R) M s y M', chebyshev_ocp o /\ block_matrix o M /\
  symmetric (VAR o) (coeff M) /\ posdef (VAR o) (coeff M) /\ nonzero_vec (VAR o) s /\ 0 < rdot (VAR o) s y /\
  block_bfgs o M s y = Some M' /\ ~ posdef (VAR o) (coeff M').
Proof.
  set (s := fun i : nat => match i with 2%nat => 0 | _ => 1 end).
  set (y := fun i : nat => match i with 2%nat => -10 | _ => 10 end).
  destruct (C45_block_bfgs xp_ocp xp_eye s y xp_block) as (M' & E & B & V).
  exists xp_ocp, xp_eye, s, y, M'. split; [repeat split; try reflexivity; cbn; lia|]. split; [apply xp_block|].
  change (VAR xp_ocp) with 3%nat in *.
  assert (C : forall i j, (i < 3)%nat -> (j < 3)%nat -> coeff M' i j = if xp_pat i j then damped_bfgs 3 (coeff xp_eye) s y i j else 0).
  { intros i j Hi Hj. destruct (V i j Hi Hj) as [V1 V2]. pose proof xp_block as (_ & _ & _ & Hp). specialize (Hp i j Hi Hj).
    cbn [pat xp_eye] in Hp. destruct (xp_pat i j) eqn:Ep; [apply V1; apply Hp; auto|]. apply V2. intro Hc. apply Hp in Hc. discriminate. }
  split; [intros i j Hi Hj; rewrite !xp_coeff, Nat.eqb_sym; reflexivity|].
  assert (Q : forall x i, (i < 3)%nat -> rmv 3 (coeff xp_eye) x i = x i).
  { intros x i Hi. unfold rmv, rdot. rewrite !rsum_S, rsum_0, !xp_coeff. do 3 (destruct i as [|i]; [cbn; ring|]). lia. }
  split; [|split; [|split; [|split; [exact E|]]]].
  - intros x (i & Hi & Hx). unfold qf, rdot. rewrite !rsum_S, rsum_0, !Q by lia. cbn.
    pose proof (Rle_0_sqr (x 0%nat)). pose proof (Rle_0_sqr (x 1%nat)). pose proof (Rle_0_sqr (x 2%nat)).
    pose proof (Rsqr_pos_lt (x i) Hx). unfold Rsqr in *. do 3 (destruct i as [|i]; [lra|]). lia.
  - exists 0%nat. split; [lia|]. cbn. lra.
  - unfold rdot. rewrite !rsum_S, rsum_0. cbn. lra.
  - intro HP. set (z := fun i : nat => match i with 2%nat => 2 | _ => 1 end).
    assert (Hz : 0 < qf 3 (coeff M') z) by (apply HP; exists 0%nat; split; [lia|cbn; lra]).
    assert (W : rdot 3 s (rmv 3 (coeff xp_eye) s) = 2) by (unfold rdot; rewrite !rsum_S, rsum_0, !Q by lia; cbn; ring).
    assert (Y : forall i, powell_diff 3 (coeff xp_eye) s y i = y i).
    { intro i. unfold powell_diff. rewrite W. destruct (Rle_dec _ _) as [_|n]; [reflexivity|]. exfalso. apply n. unfold rdot. rewrite !rsum_S, rsum_0. cbn. lra. }
    assert (D : forall i j, (i < 3)%nat -> (j < 3)%nat -> damped_bfgs 3 (coeff xp_eye) s y i j = (if (i =? j)%nat then 1 else 0) - s i * s j / 2 + y i * y j / 20).
    { intros i j Hi Hj. unfold damped_bfgs. rewrite W, !Q, !Y, xp_coeff by lia. replace (rdot 3 s (powell_diff 3 (coeff xp_eye) s y)) with 20; [reflexivity|].
      unfold rdot. rewrite !rsum_S, rsum_0, !Y. cbn. ring. }
    unfold qf, rmv, rdot in Hz. rewrite !rsum_S, !rsum_0 in Hz. rewrite !C, !D in Hz by lia. cbn in Hz. lra.
Qed.

(** * C62: announced storage sizes *)

(** every matrix the sparse Lagrangian Hessian produces stores exactly the announced number of entries
    on and below the diagonal *)
Theorem C62_hessian : forall (o : ocp R), chebyshev_ocp o -> controls_fit o -> offsets_fit o ->
  forall history scale var lam M M',
    run (fun q => lag_hes_sparse o (fst q) (fst (snd q)) (snd (snd q))) history (sp_empty (VAR o) (VAR o)) = Some M ->
    lag_hes_sparse o scale var lam M = Some M' ->
    nnz_lag_hessian o = nsum (VAR o) (fun j => cnt (fun i => (j <=? i)%nat && pat M' i j) (VAR o)).
Proof.
  intros o Hch Hu Hrd history scale var lam M M' E1 E2.
  destruct (C45_assembled o Hch Hu Hrd history scale var lam) as (N & N' & F1 & F2 & B).
  rewrite E1 in F1. injection F1 as <-. rewrite E2 in F2. injection F2 as <-.
  apply lower_nnz. apply block_hok. exact B.
Qed.
(** the number itself: one triangle per node, the node/parameter coupling, one parameter triangle *)
Theorem C62_count : forall T (o : ocp T), let N := (PO o * SG o + 1)%nat in let z := (NX o + NU o)%nat in
  (2 * nnz_lag_hessian o = N * (z * (z + 1)) + 2 * (NP o * (N * z)) + NP o * (NP o + 1))%nat.
Proof. intros. apply nnz_hessian_formula. Qed.

(** the stacked Jacobian of a first evaluation stores exactly the announced number of entries *)
Theorem C62_jacobian : forall o, chebyshev_ocp o -> (Z.of_nat (PO o) <= 10 ^ 27)%Z -> forall junk ad var lam,
  exists Je Ji J c lg g ad1,
    lag_gradient_sparse o junk ad var lam
      (sp_empty (NUM_EQ o) (VAR o), sp_empty (NUM_INEQ o) (VAR o), sp_empty (NUM_EQ o + NUM_INEQ o) (VAR o)) = Some (c, lg, g, ad1, (Je, Ji, J)) /\
    nonzeros J = nnz_jacobian o.
Proof.
  intros o Hch Ho junk ad var lam.
  destruct (C35_sparse_partial o Hch Ho nil junk ad var lam (or_intror (or_intror eq_refl))) as (st & Je & Ji & J & c & lg & g & ad1 & E1 & E2 & E3).
  cbn [run] in E1. injection E1 as <-. exists Je, Ji, J, c, lg, g, ad1. split; [exact E2|].
  destruct (lagrangian_gradient o ad var lam) as [[[[[? ?] ?] ?] ?] ?]. apply E3.
Qed.

(** * examples *)

(** two states, one control and one parameter over five nodes: the assembled Lagrangian Hessian, updated *)
Example C45_example : forall lam s y, exists M M',
  lag_hes_sparse ex_ocp 1 ex_traj lam (sp_empty (VAR ex_ocp) (VAR ex_ocp)) = Some M /\
  block_bfgs ex_ocp M s y = Some M' /\
  coeff M' 1 0 = damped_bfgs 16 (coeff M) s y 1 0 /\ coeff M' 2 0 = 0.
Proof.
  intros lam s y. destruct ex_fit as (F1 & F2 & F3).
  destruct (C45_assembled ex_ocp ex_cheb F1 F2 nil 1 ex_traj lam) as (M & M' & E1 & E2 & B).
  cbn [run] in E1. injection E1 as <-. destruct (C45_block_bfgs ex_ocp M' s y B) as (M2 & E3 & B2 & V).
  exists M', M2. split; [exact E2|]. split; [exact E3|].
  destruct (V 1%nat 0%nat) as [V1 _]; [vm_compute; lia|vm_compute; lia|].
  destruct (V 2%nat 0%nat) as [_ V2]; [vm_compute; lia|vm_compute; lia|]. split.
  - apply V1. exists 0%nat. split; [vm_compute; lia|]. split; left; [exists 1%nat|exists 0%nat]; split; try reflexivity; cbn; lia.
  - apply V2. intros (k & Hk & A & C).
    assert (HH : hpat ex_ocp 2 0 = true) by (apply (hpat_coupled ex_ocp 2 0); [vm_compute; lia|vm_compute; lia|exists k; auto]).
    vm_compute in HH. discriminate.
Qed.

(** one state over two nodes, no parameters: the identity satisfies the hypotheses *)
Definition x_ocp : ocp R := {|
  NX := 1%nat; NU := 0%nat; NP := 0%nat; NG := 0%nat; PO := 1%nat; SG := 1%nat;
  m_D := cheb_D 1; m_nodes := cheb_nodes 1; m_w := cheb_int_weights 1; t_start := 0; t_stop := 1;
  o_dyn := fun x u p t c => 0; o_dyn_jac := fun _ _ _ _ _ _ => 0; o_dyn_hes := fun _ _ _ _ _ _ _ => 0;
  o_ine := fun _ _ _ _ _ => 0; o_ine_jac := fun _ _ _ _ _ _ => 0; o_ine_hes := fun _ _ _ _ _ _ _ => 0;
  o_lag := None; o_may := None |}.
Definition x_eye : spmat R := SpMat 2 2 (fun i j => (i =? j)%nat) (fun i j => if (i =? j)%nat then 1 else 0) (fun _ => 0%nat).
Example C45_spd_example : forall y1 y2, exists M',
  run (fun p M => block_bfgs x_ocp M (fst p) (snd p))
    (((fun i => INR i + 1), y1) :: ((fun i => 1 - INR i), y2) :: nil) x_eye = Some M' /\ posdef 2 (coeff M').
Proof.
  intros y1 y2.
  assert (C : forall i j, coeff x_eye i j = if (i =? j)%nat then 1 else 0).
  { intros. unfold coeff, x_eye, pat, val. destruct (i =? j)%nat; reflexivity. }
  destruct (C45_stays_spd x_ocp eq_refl (((fun i => INR i + 1), y1) :: ((fun i => 1 - INR i), y2) :: nil) x_eye) as (M' & E & _ & _ & P).
  - apply block_hok. split; [reflexivity|]. split; [reflexivity|]. split; [reflexivity|].
    intros i j Hi Hj. change (VAR x_ocp) with 2%nat in *.
    do 2 (destruct i as [|i]; [do 2 (destruct j as [|j]; [reflexivity|]); lia|]). lia.
  - intros i j _ _. rewrite !C, Nat.eqb_sym. reflexivity.
  - change (VAR x_ocp) with 2%nat. intros x (i & Hi & Hx). unfold qf, rmv, rdot. rewrite !rsum_S, !rsum_0, !C. cbn.
    pose proof (Rle_0_sqr (x 0%nat)). pose proof (Rle_0_sqr (x 1%nat)). pose proof (Rsqr_pos_lt (x i) Hx). unfold Rsqr in *.
    do 2 (destruct i as [|i]; [lra|]). lia.
  - change (VAR x_ocp) with 2%nat. intros s y [H|[H|[]]]; injection H as <- <-; exists 0%nat; split; try lia; cbn; lra.
  - exists M'. split; [exact E|exact P].
Qed.
Example C62_example : nnz_lag_hessian ex_ocp = 46%nat.
Proof. vm_compute. reflexivity. Qed.

Print Assumptions C45_block_bfgs.
Print Assumptions C45_stays_spd.
Print Assumptions C45_assembled.
Print Assumptions C45_parameters_refuted.
Print Assumptions C62_hessian.
Print Assumptions C62_count.
Print Assumptions C62_jacobian.
