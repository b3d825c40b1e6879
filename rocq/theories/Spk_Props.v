(** Property theorems about the sparse variants of ADMM and boxADMM (C72). *)
Require Import ZArith Arith List Bool Reals Lra Lia Floats.SpecFloat.
From Verif Require Import Scal RSum Sparse Qp_Model Qp_Spec Admm_Model Admm_Spec Admm_SpecR Admm_Proofs BoxAdmm_Model BoxAdmm_Proofs BoxAdmm_ProofsR Gauss Qp_Example
  Spk_Model Spk_Spec Spk_Proofs Spk_Sess_Proofs Spk_Example Admm_Props BoxAdmm_Props.
Import ListNotations.
Local Open Scope R_scope.

(** the KKT matrix built from scratch, for every stored pattern of H and A *)
Theorem C72_kkt_build : forall full N r (H A : spmat R) d rinv,
  sp_r H = N -> sp_c H = N -> sp_r A = r -> sp_c A = N ->
  exists K, kkt_build N r full H A d rinv = Some K /\ sp_r K = (N + r)%nat /\ sp_c K = (N + r)%nat /\
    (forall i j, (i < N + r)%nat -> (j < N + r)%nat -> coeff K i j = kkt_entry full N (coeff H) (coeff A) d rinv i j) /\
    (forall j, (j < N + r)%nat -> pat K j j = true).
Proof.
  intros full N r H A d rinv HR HC AR AC.
  destruct (construct_ok full N r false H A (pat A) (pat H) d [d] rinv (sp_empty 0 0) None HR HC AR AC) as (K & K0 & E & S1 & _ & V).
  - discriminate.
  - reflexivity.
  - unfold kkt_construct in E. destruct (kkt_build N r full H A d rinv) as [K1|]; cbn [obind] in E; [|discriminate].
    injection E as E _. exists K. rewrite E. split; [reflexivity|]. pose proof S1 as (a & b & _). split; [exact a|]. split; [exact b|].
    split; [exact V|]. intros j Hj. exact (kshape_diag _ _ _ _ _ _ S1 j Hj).
Qed.
Print Assumptions C72_kkt_build.

(** sequences of solves on one object: the sparse solver does what the dense solver does *)
Theorem C72_box_session_partial : forall lsolve full N M r0 cs, proper full N M None cs ->
  option_map sb_o (sbox_session lsolve full (sbox_new r0) cs) = box_session lsolve full (box_new r0) cs.
Proof.
  intros. symmetry. apply (sbox_session_sim lsolve full N M cs None (sbox_new r0)); [assumption|exact I|].
  intros i j _ _ _. reflexivity.
Qed.
Print Assumptions C72_box_session_partial.

Theorem C72_admm_session_partial : forall lsolve full N M r0 cs, proper full N M None cs ->
  option_map sa_o (sadmm_session lsolve full (sadmm_new r0) cs) = admm_session lsolve full (admm_new r0) cs.
Proof.
  intros. symmetry. apply (sadmm_session_sim lsolve full N M cs None (sadmm_new r0)); [assumption|split; exact I|].
  intros i j _ _ _ _. reflexivity.
Qed.
Print Assumptions C72_admm_session_partial.

(** in particular a SOLVED status of the sparse solver carries the same certificate *)
Lemma box_last lsolve full (o : box_obj R) cs s reuse p xg yg o' : box_session lsolve full o (cs ++ [(s, reuse, p, xg, yg)]) = Some o' ->
  exists o1, box_solve lsolve full s (dense p) xg yg o1 = Some o'.
Proof.
  unfold box_session. rewrite fold_left_app. cbn [fold_left]. destruct (fold_left _ cs (Some o)) as [o1|]; cbn [obind]; [|discriminate].
  intro E. exists o1. exact E.
Qed.
Lemma admm_last lsolve full (o : admm_obj R) cs s reuse p xg yg o' : admm_session lsolve full o (cs ++ [(s, reuse, p, xg, yg)]) = Some o' ->
  exists o1, admm_solve lsolve full s (dense p) xg yg o1 = Some o'.
Proof.
  unfold admm_session. rewrite fold_left_app. cbn [fold_left]. destruct (fold_left _ cs (Some o)) as [o1|]; cbn [obind]; [|discriminate].
  intro E. exists o1. exact E.
Qed.
Theorem C72_admm_near_optimal_partial : forall lsolve full N M r0 cs s reuse p xg yg so,
  proper full N M None (cs ++ [(s, reuse, p, xg, yg)]) -> qp_consistent (dense p) -> 0 < rho0 s ->
  symmetric N (coeff (am (sH p))) -> psd N (coeff (am (sH p))) -> sn p = N ->
  sadmm_session lsolve full (sadmm_new r0) (cs ++ [(s, reuse, p, xg, yg)]) = Some so -> a_status (sa_o so) = SOLVED ->
  let x := a_x (sa_o so) in let y := a_y (sa_o so) in let z := a_z (sa_o so) in
  near_optimal (dense p) x y (eps_abs s + eps_rel s * admm_prim_scale (dense p) x z)
    (eps_abs s + eps_rel s * qp_dual_scale (dense p) x y).
Proof.
  intros lsolve full N M r0 cs s reuse p xg yg so HP HC Hr HS HD Hn E St.
  pose proof (C72_admm_session_partial lsolve full N M r0 _ HP) as X. rewrite E in X. symmetry in X.
  apply admm_last in X. destruct X as [o1 X].
  rewrite <- Hn in HS, HD.
  exact (C01_admm_solved_near_optimal lsolve full s (dense p) xg yg o1 (sa_o so) HC Hr HS HD X St).
Qed.
Print Assumptions C72_admm_near_optimal_partial.

Theorem C72_box_near_optimal_partial : forall lsolve full N M r0 cs s reuse p xg yg so,
  proper full N M None (cs ++ [(s, reuse, p, xg, yg)]) -> qp_consistent (dense p) -> 0 < rho0 s ->
  symmetric N (coeff (am (sH p))) -> psd N (coeff (am (sH p))) -> sn p = N ->
  sbox_session lsolve full (sbox_new r0) (cs ++ [(s, reuse, p, xg, yg)]) = Some so -> b_status (sb_o so) = SOLVED ->
  let x := b_x (sb_o so) in let y := b_y (sb_o so) in let z := b_z (sb_o so) in
  near_optimal (dense p) x y (eps_abs s + eps_rel s * box_prim_scale (dense p) x z)
    (eps_abs s + eps_rel s * qp_dual_scale (dense p) x y).
Proof.
  intros lsolve full N M r0 cs s reuse p xg yg so HP HC Hr HS HD Hn E St.
  pose proof (C72_box_session_partial lsolve full N M r0 _ HP) as X. rewrite E in X. symmetry in X.
  apply box_last in X. destruct X as [o1 X].
  rewrite <- Hn in HS, HD.
  exact (C03_box_solved_near_optimal lsolve full s (dense p) xg yg o1 (sb_o so) HC Hr HS HD X St).
Qed.
Print Assumptions C72_box_near_optimal_partial.

(** a session that reuses the pattern for a different right-hand side *)
Example C72_example : forall s xg yg, proper false 2 1 None
  [(s, false, exs_qp Nat.eqb (1 : R), xg, yg); (s, true, exs_qp Nat.eqb (2 : R), xg, yg); (s, true, exs_qp Nat.eqb (1 : R), yg, xg)].
Proof.
  intros. cbn. unfold regular, same_structure, diagonal_stored. cbn. repeat split; intros; try discriminate; try reflexivity; apply Nat.eqb_refl.
Qed.
(** and it is solved: IEEE arithmetic *)
Definition st : qp_settings spec_float := @ex_settings _ SF_scalar 1000 (@s1 _ SF_scalar) 5 false.
Definition call_of (reuse : bool) (p : sqp_data spec_float) : call spec_float := (st, reuse, p, fun _ => @s0 _ SF_scalar, fun _ => @s0 _ SF_scalar).
Definition run_sparse (full : bool) (cs : list (call spec_float)) : option (qp_status * Z) :=
  option_map (fun so => (b_status (sb_o so), b_iter (sb_o so)))
    (@sbox_session _ SF_scalar (@gauss_solver _ SF_scalar full) full (@sbox_new _ SF_scalar (@s1 _ SF_scalar)) cs).
Definition run_dense (full : bool) (cs : list (call spec_float)) : option (qp_status * Z) :=
  option_map (fun o => (b_status o, b_iter o))
    (@box_session _ SF_scalar (@gauss_solver _ SF_scalar full) full (@box_new _ SF_scalar (@s1 _ SF_scalar)) cs).
Example C72_example_solved :
  let q := @exs_qp _ SF_scalar Nat.eqb (@s1 _ SF_scalar) in
  run_sparse false [call_of false q; call_of true q] = Some (SOLVED, 35%Z).
Proof. vm_compute. reflexivity. Qed.

(** false in general: when the linear solver reads both triangles, the second solve with reuse_pattern is undefined
    (entries are inserted that exist; in any case they are inserted into the wrong block) *)
Theorem C72_both_triangles_refuted : exists p : sqp_data spec_float,
  (forall i, (i < 2)%nat -> pat (am (sH p)) i i = true) /\
  run_dense true [call_of false p; call_of true p] = Some (SOLVED, 35%Z) /\
  run_sparse true [call_of false p] = Some (SOLVED, 35%Z) /\
  run_sparse true [call_of false p; call_of true p] = None.
Proof.
  exists (@exs_qp _ SF_scalar Nat.eqb (@s1 _ SF_scalar)). split; [intros; apply Nat.eqb_refl|].
  repeat split; vm_compute; reflexivity.
Qed.
Print Assumptions C72_both_triangles_refuted.

(** false in general: if a diagonal entry of H is not stored, the second solve of the same problem with
    reuse_pattern puts entries of A on the diagonal and no longer converges *)
Theorem C72_missing_diagonal_refuted : exists p : sqp_data spec_float,
  run_dense false [call_of false p; call_of true p] = Some (SOLVED, 40%Z) /\
  run_sparse false [call_of false p] = Some (SOLVED, 40%Z) /\
  run_sparse false [call_of false p; call_of true p] = Some (MAX_ITER_EXCEEDED, 1001%Z).
Proof.
  exists (@exs_lp _ SF_scalar (@s1 _ SF_scalar)). repeat split; vm_compute; reflexivity.
Qed.
Print Assumptions C72_missing_diagonal_refuted.

(** false in general: matrices in compressed storage have no innerNonZeroPtr *)
Theorem C72_compressed_refuted : exists H A : sparse_arg R, compressed H = true /\
  forall lsolve full s reuse h al au xl xu xg yg r0,
    sbox_session lsolve full (sbox_new r0) [(s, reuse, SQP 2 1 H h A al au xl xu, xg, yg)] = None.
Proof.
  exists (Arg (exs_H Nat.eqb) true), (Arg exs_A false). split; [reflexivity|]. intros. reflexivity.
Qed.
Print Assumptions C72_compressed_refuted.
