(** Hessians of the cost and of the Lagrangian: the assembled matrices are second derivatives. *)
Require Import Arith ZArith List Bool Lia Reals Lra.
From Verif Require Import Scal RSum Blk Poly_Spec PolyR Cheb_Model Cheb_Proofs Ocp_Model Ocp_Spec Ocp_Proofs Ocp_Cost_Proofs
  Sparse Sparse_Proofs Ocp_Sparse_Model Ocp_Sparse_Proofs Ocp_Stack_Proofs Ocp_Cor_Proofs Ocp_Hes_Proofs Ocp_Hes_Asm_Proofs.
Local Open Scope R_scope.

Lemma dir_deriv_ext : forall F G x d l, (forall y, F y = G y) -> dir_deriv F x d l -> dir_deriv G x d l.
Proof. intros F G x d l H D. unfold dir_deriv in *. apply derivable_pt_lim_ext with (2 := D). intro h. apply H. Qed.

Lemma qf2_ext : forall n A B e d, (forall i j, (i < n)%nat -> (j < n)%nat -> A i j = B i j) -> qf2 n A e d = qf2 n B e d.
Proof. intros n A B e d H. unfold qf2. apply rsum_ext. intros i Hi. apply rsum_ext. intros j Hj. rewrite H; auto. Qed.
Lemma qf2_plus : forall n A B e d, qf2 n (fun i j => A i j + B i j) e d = qf2 n A e d + qf2 n B e d.
Proof. intros. unfold qf2. rewrite <- rsum_plus. apply rsum_ext. intros. rewrite <- rsum_plus. apply rsum_ext. intros; ring. Qed.
Lemma qf2_scal : forall n a A e d, qf2 n (fun i j => a * A i j) e d = a * qf2 n A e d.
Proof. intros. unfold qf2. rewrite <- rsum_scal. apply rsum_ext. intros. rewrite <- rsum_scal. apply rsum_ext. intros; ring. Qed.
Lemma qf2_zero : forall n e d, qf2 n (fun _ _ => 0) e d = 0.
Proof. intros. unfold qf2. apply rsum_zero. intros. apply rsum_zero. intros; ring. Qed.
Lemma qf2_sum : forall n m (A : nat -> mat R) e d, qf2 n (fun i j => rsum m (fun k => A k i j)) e d = rsum m (fun k => qf2 n (A k) e d).
Proof.
  intros n m A e d. induction m as [|m IH].
  - rewrite rsum_0. rewrite <- (qf2_zero n e d). apply qf2_ext. intros. apply rsum_0.
  - rewrite rsum_S, <- IH, <- qf2_plus. apply qf2_ext. intros i j _ _. apply (rsum_S m (fun k => A k i j)).
Qed.

Lemma qf2_unit : forall n A i j, (i < n)%nat -> (j < n)%nat ->
  qf2 n A (fun k => if (k =? i)%nat then 1 else 0) (fun k => if (k =? j)%nat then 1 else 0) = A i j.
Proof.
  intros n A i j Hi Hj. unfold qf2.
  rewrite (rsum_ext n _ (fun k => if (k =? i)%nat then A k j else 0)); [apply (rsum_delta n i (fun k => A k j)); auto|].
  intros k Hk. rewrite (rsum_ext n _ (fun l => if (l =? j)%nat then (if (k =? i)%nat then A k l else 0) else 0)).
  - apply (rsum_delta n j (fun l => if (k =? i)%nat then A k l else 0)); auto.
  - intros l Hl. destruct (k =? i)%nat, (l =? j)%nat; ring.
Qed.

(** second derivatives are unique *)
Lemma is_hessian_unique : forall n F x H H', is_hessian n F x H -> is_hessian n F x H' ->
  forall i j, (i < n)%nat -> (j < n)%nat -> H i j = H' i j.
Proof.
  intros n F x H H' (G & G1 & G2) (G' & G1' & G2') i j Hi Hj.
  rewrite <- (qf2_unit n H i j), <- (qf2_unit n H' i j) by auto.
  set (e := fun k => if (k =? i)%nat then 1 else 0). set (d := fun k => if (k =? j)%nat then 1 else 0).
  apply (uniqueness_limite (fun h => rsum n (fun j => G (fun i => x i + h * d i) j * e j)) 0).
  - apply (G2 e d).
  - change (dir_deriv (fun y => rsum n (fun j => G y j * e j)) x d (qf2 n H' e d)).
    apply (dir_deriv_ext (fun y => rsum n (fun j => G' y j * e j))); [|apply G2'].
    intro y. apply (uniqueness_limite (fun h => F (fun i => y i + h * e i)) 0); [apply G1'|apply G1].
Qed.

Section P.
Variable o : ocp R.
Local Notation nx := (NX o).
Local Notation nu := (NU o).
Local Notation np := (NP o).
Local Notation ng := (NG o).
Local Notation P := (PO o).
Local Notation Sg := (SG o).
Local Notation N := (NUM_NODES o).
Local Notation vx := (VARX o).
Local Notation vu := (VARU o).

Definition bil (h : mat R) (e d : vec R) (k : nat) : R :=
  node_bil o h (state o e k) (control o e k) (params o e) (state o d k) (control o d k) (params o d).

Lemma node_dot_plus : forall g g' dx du dp, node_dot o (fun i => g i + g' i) dx du dp = node_dot o g dx du dp + node_dot o g' dx du dp.
Proof.
  intros. unfold node_dot.
  rewrite (rsum_ext nx _ (fun i => g i * dx i + g' i * dx i)) by (intros; ring).
  rewrite (rsum_ext nu _ (fun i => g (nx + i)%nat * du i + g' (nx + i)%nat * du i)) by (intros; ring).
  rewrite (rsum_ext np _ (fun i => g (nx + nu + i)%nat * dp i + g' (nx + nu + i)%nat * dp i)) by (intros; ring).
  rewrite !rsum_plus. ring.
Qed.
Lemma node_dot_ext : forall g g' dx du dp, (forall i, g i = g' i) -> node_dot o g dx du dp = node_dot o g' dx du dp.
Proof. intros. unfold node_dot. f_equal; [f_equal|]; apply rsum_ext; intros; rewrite H; auto. Qed.
Lemma bil_plus : forall h h' e d k, bil (fun i j => h i j + h' i j) e d k = bil h e d k + bil h' e d k.
Proof. intros. unfold bil, node_bil. rewrite <- node_dot_plus. apply node_dot_ext. intro i. apply (node_dot_plus (h i) (h' i)). Qed.
Lemma bil_zero : forall e d k, bil (fun _ _ => 0) e d k = 0.
Proof. intros. unfold bil, node_bil. rewrite (node_dot_ext _ (fun _ => 0)); [apply node_dot_zero|]. intro. apply node_dot_zero. Qed.
Lemma bil_scal : forall a h e d k, bil (fun i j => a * h i j) e d k = a * bil h e d k.
Proof. intros. apply node_bil_scal. Qed.
Lemma bil_sum : forall m (h : nat -> mat R) e d k, bil (fun i j => rsum m (fun n => h n i j)) e d k = rsum m (fun n => bil (h n) e d k).
Proof.
  intros m h e d k. induction m as [|m IH].
  - rewrite rsum_0. apply bil_zero.
  - rewrite rsum_S, <- IH, <- bil_plus. unfold bil, node_bil. apply node_dot_ext. intro i. apply node_dot_ext. intro j. apply (rsum_S m (fun n => h n i j)).
Qed.

Lemma blk_in : forall (b1 b2 : bool) (v w : R), (if b1 && b2 then v + w else v) = v + (if b1 && b2 then w else 0).
Proof. intros [] []; intros; simpl; ring. Qed.

(** the dense update adds exactly the node contribution *)
Lemma nadd_qf : forall k h e d, (k < N)%nat -> qf2 (VAR o) (nadd o k h) e d = bil h e d k.
Proof.
  intros k h e d Hk. unfold bil.
  rewrite <- (Rplus_0_l (node_bil _ _ _ _ _ _ _ _)). rewrite <- (qf2_zero (VAR o) e d). rewrite <- hes_add_qf by auto.
  apply qf2_ext. intros i j Hi Hj. unfold hes_add, macc, blk, nadd.
  destruct (col_cases o k i Hk Hi) as [(a & Ea & Ha & Da & A1 & A2 & A3)|[(a & Ea & Ha & Da & A1 & A2 & A3)|[(a & Ea & Ha & Da & A1 & A2 & A3)|(Ea & A1 & A2 & A3)]]];
  destruct (col_cases o k j Hk Hj) as [(b & Eb & Hb & Db & B1 & B2 & B3)|[(b & Eb & Hb & Db & B1 & B2 & B3)|[(b & Eb & Hb & Db & B1 & B2 & B3)|(Eb & B1 & B2 & B3)]]];
  rewrite Ea, ?Eb, A1, A2, A3, B1, B2, B3; cbn [andb Nat.add]; rewrite ?Da, ?Db; simpl; ring.
Qed.

Lemma nadd_entry : forall k h i j, (k < N)%nat -> (i < VAR o)%nat -> (j < VAR o)%nat -> forall H : mat R,
  hes_add o H k h i j = H i j + nadd o k h i j.
Proof.
  intros k h i j Hk Hi Hj H. unfold hes_add, macc, blk, nadd.
  destruct (col_cases o k i Hk Hi) as [(a & Ea & Ha & Da & A1 & A2 & A3)|[(a & Ea & Ha & Da & A1 & A2 & A3)|[(a & Ea & Ha & Da & A1 & A2 & A3)|(Ea & A1 & A2 & A3)]]];
  destruct (col_cases o k j Hk Hj) as [(b & Eb & Hb & Db & B1 & B2 & B3)|[(b & Eb & Hb & Db & B1 & B2 & B3)|[(b & Eb & Hb & Db & B1 & B2 & B3)|(Eb & B1 & B2 & B3)]]];
  rewrite Ea, ?Eb, A1, A2, A3, B1, B2, B3; cbn [andb Nat.add]; rewrite ?Da, ?Db; simpl; ring.
Qed.

Lemma TOT_qf : forall var e d, qf2 (VAR o) (TOT o var) e d = hes_bil o var e d.
Proof.
  intros var e d. unfold TOT.
  rewrite (qf2_plus (VAR o) (Ssum o var Sg 0) (nadd o 0 (may_hes o var))). unfold hes_bil. f_equal; [|apply nadd_qf; apply node0_lt].
  unfold Ssum.
  rewrite (qf2_ext _ _ (fun i j => rsum Sg (fun s' => rsum (P + 1) (fun k' => nadd o (k' + s' * P) (node_hes o var k' (k' + s' * P)) i j))))
    by (intros; rewrite rsum_0; ring).
  rewrite (qf2_sum (VAR o) Sg (fun s' i j => rsum (P + 1) (fun k' => nadd o (k' + s' * P) (node_hes o var k' (k' + s' * P)) i j))).
  apply rsum_ext. intros s Hs.
  rewrite (qf2_sum (VAR o) (P + 1) (fun k' i j => nadd o (k' + s * P) (node_hes o var k' (k' + s * P)) i j)).
  replace (P + 1)%nat with (S P) by lia. apply rsum_ext. intros k Hk.
  change (fun i j : nat => nadd o (k + s * P) (node_hes o var k (k + s * P)) i j) with (nadd o (k + s * P) (node_hes o var k (k + s * P))).
  rewrite nadd_qf by (apply node_lt'; auto). unfold node_hes. apply (bil_scal (t_scale o * m_w o k)).
Qed.

(** * cost *)
Definition cgrad (y : vec R) : vec R := snd (fst (cost_gradient o (0, fun _ => 0) y)).
Lemma cgrad_dot : forall y d, rsum (VAR o) (fun j => cgrad y j * d j) = grad_dot o y d.
Proof. intros y d. apply (proj2 (cost_gradient_eq o (0, fun _ => 0) y (or_intror (fun _ => eq_refl))) d). Qed.

Lemma cost_hessian_of : cost_gradients_exact o -> cost_hessians_exact o -> forall var H,
  (forall e d, qf2 (VAR o) H e d = hes_bil o var e d) -> is_hessian (VAR o) (cost o) var H.
Proof.
  intros [HL HM] [HL2 HM2] var H HH. exists cgrad. split.
  - intros y d. rewrite cgrad_dot. apply cost_dir; auto.
  - intros e d. apply (dir_deriv_ext (fun y => grad_dot o y e)); [intro; rewrite cgrad_dot; reflexivity|].
    fold (qf2 (VAR o) H e d). rewrite HH. apply grad_dot_deriv; auto.
Qed.

Lemma TOT_hessian : cost_gradients_exact o -> cost_hessians_exact o -> forall var, is_hessian (VAR o) (cost o) var (TOT o var).
Proof. intros. apply cost_hessian_of; auto. intros. apply TOT_qf. Qed.

Lemma is_hessian_ext : forall n F x H H', (forall i j, (i < n)%nat -> (j < n)%nat -> H i j = H' i j) ->
  is_hessian n F x H -> is_hessian n F x H'.
Proof.
  intros n F x H H' E (G & G1 & G2). exists G. split; auto. intros e d. fold (qf2 n H' e d). rewrite <- (qf2_ext n H H') by auto. apply G2.
Qed.

Lemma dense_hessian_ok : cost_gradients_exact o -> cost_hessians_exact o -> (1 <= P)%nat -> (1 <= Sg)%nat -> mayer_u_ok o = true ->
  forall var, (np = 0%nat \/ may_no_p o var) ->
  exists g H, cost_gradient_hessian o var = Some (cost o var, g, H) /\
    (forall d, dir_deriv (cost o) var d (rsum (VAR o) (fun j => g j * d j))) /\
    (forall e d, qf2 (VAR o) H e d = hes_bil o var e d).
Proof.
  intros HG HH HP HS Hu var Hp. destruct (dense_hessian_eq o var HS HP Hu) as (g & H & E & Eg & EH).
  exists g, H. split; auto. split.
  - intro d. rewrite Eg. destruct HG as [HL HM]. apply cost_dir; auto.
  - intros e d. rewrite EH. destruct Hp as [Hp|Hp].
    + rewrite Hp, !rsum_0. ring.
    + destruct (may_no_p_zero o var e d Hp) as [E1 E2]. rewrite E1.
      rewrite <- (Rminus_0_r (hes_bil o var e d)) at 2. rewrite <- (Rplus_0_r (hes_bil o var e d - 0)) at 2. f_equal.
      apply rsum_zero. intros i Hi. apply rsum_zero. intros j Hj. rewrite Hp; auto; [ring|unfold NZ; lia].
Qed.

(** * constraints *)
Variable lam : vec R.

Definition con_dot (var e : vec R) : R :=
  rsum N (fun k => rsum nx (fun c => lam (c + k * nx)%nat * (DX o e k c
     - t_scale o * node_dot o (at_node o (o_dyn_jac o) var k c) (state o e k) (control o e k) (params o e))))
  + rsum N (fun k => rsum ng (fun c => lam (c + k * ng + NUM_EQ o)%nat *
      node_dot o (at_node o (o_ine_jac o) var k c) (state o e k) (control o e k) (params o e))).

Lemma con_jac_dot : chebyshev_ocp o -> forall var e,
  rsum (NUM_EQ o + NUM_INEQ o) (fun i => lam i * rsum (VAR o) (fun j => snd (constraints_linearised o var) i j * e j)) = con_dot var e.
Proof.
  intros Hch var e. pose proof Hch as (HP & HS & _).
  rewrite rsum_split. unfold NUM_EQ at 1. unfold VARX at 1. unfold NUM_INEQ. rewrite !rsum_blocks. unfold con_dot, constraints_linearised.
  assert (D1 : forall k c, (k < N)%nat -> (c < nx)%nat ->
     rsum (VAR o) (fun j => snd (equalities_linearised o var) (k * nx + c)%nat j * e j) = DX o e k c
     - t_scale o * node_dot o (at_node o (o_dyn_jac o) var k c) (state o e k) (control o e k) (params o e)).
  { intros k c Hk Hc. destruct (node_decomp o k HP HS Hk) as (s & l & -> & Hs & Hl & Hd). apply dense_jac_dir; auto. }
  assert (D2 : forall k c, (k < N)%nat -> (c < ng)%nat ->
     rsum (VAR o) (fun j => snd (inequalities_linearised o var) (k * ng + c)%nat j * e j) =
     node_dot o (at_node o (o_ine_jac o) var k c) (state o e k) (control o e k) (params o e)).
  { intros k c Hk Hc. apply ijac_dir; auto. }
  destruct (equalities_linearised o var) as [ce De]. destruct (inequalities_linearised o var) as [ci Di]. cbn [snd] in *.
  f_equal; apply rsum_ext; intros k Hk; apply rsum_ext; intros c Hc.
  - rewrite <- D1 by auto. replace (c + k * nx)%nat with (k * nx + c)%nat by lia. f_equal. apply rsum_ext. intros j Hj.
    rewrite (proj2 (Nat.ltb_lt _ _)); [reflexivity|]. unfold NUM_EQ, VARX. nia.
  - rewrite <- D2 by auto. replace (c + k * ng + NUM_EQ o)%nat with (NUM_EQ o + (k * ng + c))%nat by lia. f_equal. apply rsum_ext. intros j Hj.
    rewrite (proj2 (Nat.ltb_ge _ _)) by lia. f_equal. f_equal. lia.
Qed.

Lemma con_dot_deriv : constraint_hessians_exact o -> forall var e d,
  dir_deriv (fun y => con_dot y e) var d (rsum N (fun k => bil (con_hes o var lam k) e d k)).
Proof.
  intros [HD HI] var e d. unfold dir_deriv, con_dot.
  assert (ND : forall (Jf : ufun R (nat -> R)) Hf k, hessian_of o Jf Hf ->
     derivable_pt_lim (fun h => node_dot o (at_node o Jf (fun i => var i + h * d i) k) (state o e k) (control o e k) (params o e)) 0
       (bil (at_node o Hf var k) e d k)).
  { intros Jf Hf k [H _]. apply node_dot_deriv. intros i Hi. apply (at_node_deriv o (fun x u p t => Jf x u p t i) (fun x u p t => Hf x u p t i)). apply H. exact Hi. }
  replace (rsum N (fun k => bil (con_hes o var lam k) e d k)) with
    (rsum N (fun k => rsum nx (fun c => lam (c + k * nx)%nat * (0 - t_scale o * bil (at_node o (o_dyn_hes o) var k c) e d k)))
     + rsum N (fun k => rsum ng (fun c => lam (c + k * ng + NUM_EQ o)%nat * bil (at_node o (o_ine_hes o) var k c) e d k))).
  2:{ rewrite <- rsum_plus. apply rsum_ext. intros k Hk. unfold con_hes.
      change (fun i j => @ssum R R_scalar nx (fun n => (- lam (n + k * nx)%nat * t_scale o) * at_node o (o_dyn_hes o) var k n i j)%S
         + @ssum R R_scalar ng (fun n => (lam (n + k * ng + NUM_EQ o)%nat * at_node o (o_ine_hes o) var k n i j)%S))%S with
       (fun i j => rsum nx (fun n => (- lam (n + k * nx)%nat * t_scale o) * at_node o (o_dyn_hes o) var k n i j)
         + rsum ng (fun n => lam (n + k * ng + NUM_EQ o)%nat * at_node o (o_ine_hes o) var k n i j)).
      rewrite (bil_plus (fun i j => rsum nx (fun n => (- lam (n + k * nx)%nat * t_scale o) * at_node o (o_dyn_hes o) var k n i j))
        (fun i j => rsum ng (fun n => lam (n + k * ng + NUM_EQ o)%nat * at_node o (o_ine_hes o) var k n i j))).
      rewrite (bil_sum nx (fun n i j => (- lam (n + k * nx)%nat * t_scale o) * at_node o (o_dyn_hes o) var k n i j)).
      rewrite (bil_sum ng (fun n i j => lam (n + k * ng + NUM_EQ o)%nat * at_node o (o_ine_hes o) var k n i j)).
      f_equal; apply rsum_ext; intros c Hc.
      - rewrite (bil_scal (- lam (c + k * nx)%nat * t_scale o) (at_node o (o_dyn_hes o) var k c)). ring.
      - rewrite (bil_scal (lam (c + k * ng + NUM_EQ o)%nat) (at_node o (o_ine_hes o) var k c)). ring. }
  apply derivable_pt_lim_plus.
  - apply (derivable_rsum N (fun k h => rsum nx (fun c => lam (c + k * nx)%nat * (DX o e k c
     - t_scale o * node_dot o (at_node o (o_dyn_jac o) (fun i => var i + h * d i) k c) (state o e k) (control o e k) (params o e))))
     (fun k _ => rsum nx (fun c => lam (c + k * nx)%nat * (0 - t_scale o * bil (at_node o (o_dyn_hes o) var k c) e d k)))).
    intros k Hk.
    apply (derivable_rsum nx (fun c h => lam (c + k * nx)%nat * (DX o e k c
     - t_scale o * node_dot o (at_node o (o_dyn_jac o) (fun i => var i + h * d i) k c) (state o e k) (control o e k) (params o e)))
     (fun c _ => lam (c + k * nx)%nat * (0 - t_scale o * bil (at_node o (o_dyn_hes o) var k c) e d k))).
    intros c Hc. apply derivable_pt_lim_scal. apply derivable_pt_lim_minus; [apply derivable_pt_lim_const|]. apply derivable_pt_lim_scal.
    apply (ND (fun x u p t => o_dyn_jac o x u p t c) (fun x u p t => o_dyn_hes o x u p t c)). auto.
  - apply (derivable_rsum N (fun k h => rsum ng (fun c => lam (c + k * ng + NUM_EQ o)%nat *
       node_dot o (at_node o (o_ine_jac o) (fun i => var i + h * d i) k c) (state o e k) (control o e k) (params o e)))
     (fun k _ => rsum ng (fun c => lam (c + k * ng + NUM_EQ o)%nat * bil (at_node o (o_ine_hes o) var k c) e d k))).
    intros k Hk.
    apply (derivable_rsum ng (fun c h => lam (c + k * ng + NUM_EQ o)%nat *
       node_dot o (at_node o (o_ine_jac o) (fun i => var i + h * d i) k c) (state o e k) (control o e k) (params o e))
     (fun c _ => lam (c + k * ng + NUM_EQ o)%nat * bil (at_node o (o_ine_hes o) var k c) e d k)).
    intros c Hc. apply derivable_pt_lim_scal.
    apply (ND (fun x u p t => o_ine_jac o x u p t c) (fun x u p t => o_ine_hes o x u p t c)). auto.
Qed.

(** * Lagrangian *)
Variable scale : R.
Definition lgrad (y : vec R) : vec R := fun j =>
  scale * cgrad y j + rsum (NUM_EQ o + NUM_INEQ o) (fun i => lam i * snd (constraints_linearised o y) i j)
  + lam (NUM_EQ o + NUM_INEQ o + j)%nat.

Lemma lgrad_dot : chebyshev_ocp o -> forall y e, rsum (VAR o) (fun j => lgrad y j * e j) =
  scale * grad_dot o y e + con_dot y e + rsum (VAR o) (fun j => lam (NUM_EQ o + NUM_INEQ o + j)%nat * e j).
Proof.
  intros Hch y e. rewrite <- con_jac_dot by auto. rewrite <- cgrad_dot.
  rewrite (rsum_ext _ _ (fun j => scale * (cgrad y j * e j)
     + rsum (NUM_EQ o + NUM_INEQ o) (fun i => lam i * (snd (constraints_linearised o y) i j * e j)) + lam (NUM_EQ o + NUM_INEQ o + j)%nat * e j)).
  2:{ intros j Hj. unfold lgrad. rewrite !Rmult_plus_distr_r. f_equal. f_equal; [ring|].
      rewrite <- rsum_scal_r. apply rsum_ext. intros; ring. }
  rewrite !rsum_plus, rsum_scal. f_equal. f_equal. rewrite rsum_swap. apply rsum_ext. intros i Hi. rewrite rsum_scal. reflexivity.
Qed.

Definition lbil (var e d : vec R) : R :=
  scale * hes_bil o var e d + rsum N (fun k => bil (con_hes o var lam k) e d k).

Lemma lagrangian_hessian_of : chebyshev_ocp o -> cost_gradients_exact o -> cost_hessians_exact o ->
  jacobian_of o nx (o_dyn o) (o_dyn_jac o) -> jacobian_of o ng (o_ine o) (o_ine_jac o) -> constraint_hessians_exact o ->
  forall var H, (forall e d, qf2 (VAR o) H e d = lbil var e d) ->
  is_hessian (VAR o) (scaled_lagrangian o scale lam) var H.
Proof.
  intros Hch [HL HM] [HL2 HM2] HJ HI HC var H HH. exists lgrad. split.
  - intros y d. rewrite lgrad_dot by auto. unfold scaled_lagrangian, dir_deriv. apply derivable_pt_lim_plus; [apply derivable_pt_lim_plus|].
    + apply derivable_pt_lim_scal. apply cost_dir; auto.
    + rewrite <- con_jac_dot by auto.
      apply (derivable_rsum (NUM_EQ o + NUM_INEQ o) (fun i h => lam i * constraints o (fun i => y i + h * d i) i)
        (fun i _ => lam i * rsum (VAR o) (fun j => snd (constraints_linearised o y) i j * d j))).
      intros i Hi. apply derivable_pt_lim_scal. apply constraints_dir; auto.
    + apply (derivable_rsum (VAR o) (fun j h => lam (NUM_EQ o + NUM_INEQ o + j)%nat * (y j + h * d j))
        (fun j _ => lam (NUM_EQ o + NUM_INEQ o + j)%nat * d j)).
      intros j Hj. apply derivable_pt_lim_scal. apply (derivable_line (y j) (d j)).
  - intros e d.
    apply (dir_deriv_ext (fun y => scale * grad_dot o y e + con_dot y e + rsum (VAR o) (fun j => lam (NUM_EQ o + NUM_INEQ o + j)%nat * e j)));
      [intro; rewrite lgrad_dot by auto; reflexivity|].
    fold (qf2 (VAR o) H e d). rewrite HH. unfold lbil. rewrite <- (Rplus_0_r (_ + _)). unfold dir_deriv.
    apply derivable_pt_lim_plus; [|apply derivable_pt_lim_const]. apply derivable_pt_lim_plus.
    + apply derivable_pt_lim_scal. apply grad_dot_deriv; auto.
    + apply con_dot_deriv; auto.
Qed.

Lemma scale_id : sleb scale s1 && sleb s1 scale = true -> scale = 1.
Proof.
  intros H. apply andb_prop in H. destruct H as [H1 H2].
  apply Rleb_true in H1. apply Rleb_true in H2. change (@s1 R R_scalar) with 1 in *. lra.
Qed.

Lemma con_loop : forall var m H e d, (m <= N)%nat ->
  qf2 (VAR o) (loop m (fun k H => hes_add o H k (con_hes o var lam k)) H) e d =
  qf2 (VAR o) H e d + rsum m (fun k => bil (con_hes o var lam k) e d k).
Proof.
  intros var m H e d. induction m as [|m IH]; intro Hm; cbn [loop].
  - rewrite rsum_0. ring.
  - rewrite hes_add_qf by lia. rewrite IH by lia. rewrite rsum_S. unfold bil. ring.
Qed.

Lemma lag_dense_ok : cost_gradients_exact o -> cost_hessians_exact o -> (1 <= P)%nat -> (1 <= Sg)%nat -> mayer_u_ok o = true ->
  forall var, (np = 0%nat \/ may_no_p o var) ->
  exists H, lag_hes_dense o scale var lam = Some H /\ (forall e d, qf2 (VAR o) H e d = lbil var e d).
Proof.
  intros HG HH HP HS Hu var Hp. destruct (dense_hessian_ok HG HH HP HS Hu var Hp) as (g & H & E & _ & EH).
  unfold lag_hes_dense. rewrite E. cbn [obind snd]. eexists. split; [reflexivity|]. intros e d.
  rewrite con_loop by lia. unfold lbil. f_equal.
  destruct (sleb scale s1 && sleb s1 scale) eqn:Es.
  - apply scale_id in Es. rewrite Es, EH. ring.
  - rewrite <- EH. apply (qf2_scal (VAR o) scale H).
Qed.

Lemma hok_scale : forall a M, hok o M -> hok o (sp_scale a M).
Proof. intros a M H. exact H. Qed.

Lemma con_oloop : forall var m M, (m <= N)%nat -> hok o M ->
  exists M', oloop m (fun k M => hes_add_cols o M k (con_hes o var lam k)) M = Some M' /\ hok o M' /\
    forall i j, (i < VAR o)%nat -> (j < VAR o)%nat -> val M' i j = val M i j + rsum m (fun k => nadd o k (con_hes o var lam k) i j).
Proof.
  intros var m M. induction m as [|m IH]; intros Hm HM; cbn [oloop].
  - exists M. split; auto. split; auto. intros. rewrite rsum_0. ring.
  - destruct IH as (M1 & E1 & O1 & V1); [lia|auto|]. rewrite E1.
    destruct (hes_add_cols_ok o M1 m (con_hes o var lam m)) as (M2 & E2 & S2 & V2); [apply hok_ready; auto; lia|lia|].
    exists M2. split; [exact E2|]. split; [eapply hok_same; eauto|]. intros i j Hi Hj. rewrite V2, V1, rsum_S by auto. ring.
Qed.

Lemma hok_val : forall M i j, hok o M -> (i < VAR o)%nat -> (j < VAR o)%nat -> coeff M i j = if hpat o i j then val M i j else 0.
Proof.
  intros M i j (H1 & H2 & H3 & H4) Hi Hj. unfold coeff. rewrite H4 by auto. reflexivity.
Qed.

Lemma con_off : forall var i j, (i < VAR o)%nat -> (j < VAR o)%nat -> hpat o i j = false ->
  rsum N (fun k => nadd o k (con_hes o var lam k) i j) = 0.
Proof. intros. apply rsum_zero. intros. apply nadd_off; auto. Qed.

Definition LTOT (var : vec R) (i j : nat) : R := scale * TOT o var i j + rsum N (fun k => nadd o k (con_hes o var lam k) i j).

Lemma LTOT_qf : forall var e d, qf2 (VAR o) (LTOT var) e d = lbil var e d.
Proof.
  intros var e d. unfold LTOT, lbil. rewrite (qf2_plus (VAR o) (fun i j => scale * TOT o var i j)).
  rewrite (qf2_scal (VAR o) scale (TOT o var)), TOT_qf. f_equal.
  rewrite (qf2_sum (VAR o) N (fun k i j => nadd o k (con_hes o var lam k) i j)). apply rsum_ext. intros k Hk. apply (nadd_qf k); auto.
Qed.

Lemma lag_sparse_tail : forall var M, hok o M ->
  exists M', oloop N (fun k M => hes_add_cols o M k (con_hes o var lam k)) (if sleb scale s1 && sleb s1 scale then M else sp_scale scale M) = Some M' /\
    hok o M' /\
    ((forall i j, (i < VAR o)%nat -> (j < VAR o)%nat -> coeff M i j = TOT o var i j) ->
     forall i j, (i < VAR o)%nat -> (j < VAR o)%nat -> coeff M' i j = LTOT var i j).
Proof.
  intros var M HM.
  assert (HM1 : hok o (if sleb scale s1 && sleb s1 scale then M else sp_scale scale M)) by (destruct (_ && _); auto).
  destruct (con_oloop var N _ (Nat.le_refl N) HM1) as (M' & E & O & V). exists M'. split; auto. split; auto.
  intros HT i j Hi Hj. rewrite hok_val by auto. pose proof (HT i j Hi Hj) as Hij. rewrite hok_val in Hij by auto. unfold LTOT.
  destruct (hpat o i j) eqn:Ep.
  - rewrite V by auto. f_equal. destruct (_ && _) eqn:Es.
    + apply scale_id in Es. rewrite Es, Hij. ring.
    + rewrite <- Hij. reflexivity.
  - rewrite con_off by auto. rewrite <- Hij. ring.
Qed.

End P.

(** * runs of calls *)
Section R.
Variable o : ocp R.
Local Notation np := (NP o).

Lemma hes_run : (0 < NZ o)%nat -> (1 <= PO o)%nat -> (1 <= SG o)%nat -> mayer_u_ok o = true -> rd_ok o -> forall pts M,
  M = sp_empty (VAR o) (VAR o) \/ hok o M ->
  exists M', run (hes_sparse o) pts M = Some M' /\ ((pts = nil /\ M' = M) \/ hok o M').
Proof.
  intros HZ HP HS Hu Hrd pts. induction pts as [|x l IH]; intros M HM; cbn [run]; [eauto|].
  assert (H1 : exists M1, hes_sparse o x M = Some M1 /\ hok o M1).
  { destruct HM as [->|HM].
    - destruct (hes_first o x HZ HP HS Hu Hrd) as (M1 & E & O & _). eauto.
    - destruct (hes_again o x M HP HS Hu HM) as (M1 & E & O & _). eauto. }
  destruct H1 as (M1 & E & O). rewrite E. destruct (IH M1 (or_intror O)) as (M2 & E2 & [[-> ->]|O2]); exists M2 || exists M1; eauto.
Qed.

Lemma lag_hes_run : (0 < NZ o)%nat -> (1 <= PO o)%nat -> (1 <= SG o)%nat -> mayer_u_ok o = true -> rd_ok o -> forall pts M,
  M = sp_empty (VAR o) (VAR o) \/ hok o M ->
  exists M', run (fun q => lag_hes_sparse o (fst q) (fst (snd q)) (snd (snd q))) pts M = Some M' /\ ((pts = nil /\ M' = M) \/ hok o M').
Proof.
  intros HZ HP HS Hu Hrd pts. induction pts as [|[sc [x lam]] l IH]; intros M HM; cbn [run fst snd]; [eauto|].
  assert (H1 : exists M1, hes_sparse o x M = Some M1 /\ hok o M1).
  { destruct HM as [->|HM].
    - destruct (hes_first o x HZ HP HS Hu Hrd) as (M1 & E & O & _). eauto.
    - destruct (hes_again o x M HP HS Hu HM) as (M1 & E & O & _). eauto. }
  destruct H1 as (M1 & E & O). unfold lag_hes_sparse at 1. rewrite E. cbn [obind].
  destruct (lag_sparse_tail o lam sc x M1 O) as (M1' & E1 & O1 & _). cbn zeta.
  match goal with |- context [match ?x with _ => _ end] => replace x with (Some M1') by (symmetry; exact E1) end.
  destruct (IH M1' (or_intror O1)) as (M2 & E2 & [[-> ->]|O2]); exists M2 || exists M1'; eauto.
Qed.
End R.

Lemma mayer_u_fit : forall o : ocp R, controls_fit o -> mayer_u_ok o = true.
Proof.
  intros o H. unfold mayer_u_ok, VAR, VARU, VARX, NUM_NODES. destruct H as [H|H].
  - rewrite H. reflexivity.
  - apply orb_true_intro. right. apply andb_true_intro. split; apply Nat.leb_le; lia.
Qed.
Lemma param_free_no_p : forall (o : ocp R) var, terminal_param_free o var -> may_no_p o var.
Proof.
  intros o var H i j Hi Hj. unfold terminal_param_free, may_hes, call in *. destruct (o_may o) as [g|]; auto. apply H; auto.
Qed.

(** * failures *)
Lemma oloop_fail : forall A n k (f : nat -> A -> option A) a, (k < n)%nat -> (forall a, f k a = None) -> oloop n f a = None.
Proof.
  intros A n k f a Hk H. induction n as [|n IH]; [lia|]. cbn [oloop].
  destruct (Nat.eq_dec k n) as [->|]; [destruct (oloop n f a); [apply H|reflexivity]|]. rewrite IH by lia. reflexivity.
Qed.
Lemma obind_fail : forall A B (x : option A) (f : A -> option B), (forall a, f a = None) -> obind x f = None.
Proof. intros A B [a|] f H; cbn [obind]; auto. Qed.

Lemma mayer_u_bad : forall T (o : ocp T), (NX o < NU o)%nat -> mayer_u_ok o = false.
Proof.
  intros T o H. unfold mayer_u_ok. rewrite (proj2 (Nat.eqb_neq (NU o) 0)) by lia. rewrite (proj2 (Nat.leb_gt (NU o) (NX o))) by lia.
  rewrite andb_false_r. reflexivity.
Qed.
Lemma dense_fail : forall T (sc : Scalar T) (o : ocp T) var, (NX o < NU o)%nat -> cost_gradient_hessian o var = None.
Proof.
  intros T sc o var H. unfold cost_gradient_hessian. rewrite mayer_u_bad by auto.
  match goal with |- context [loop (SG o) ?f ?a] => destruct (loop (SG o) f a) as [[c g] HH] end. reflexivity.
Qed.
Lemma sparse_fail_u : forall T (sc : Scalar T) (o : ocp T) var M, (NX o < NU o)%nat -> hes_sparse o var M = None.
Proof.
  intros T sc o var M H. unfold hes_sparse, hes_upd, hes_asm. rewrite mayer_u_bad by auto.
  destruct (_ =? _)%nat; (apply obind_fail; intros [pp M1]; apply obind_fail; auto).
Qed.
Lemma sparse_fail_p : forall T (sc : Scalar T) (o : ocp T) var M, (NU o < NP o)%nat -> (1 <= NX o)%nat -> (1 <= SG o)%nat ->
  nonzeros M = 0%nat -> hes_sparse o var M = None.
Proof.
  intros T sc o var M H HX HS HM. unfold hes_sparse. rewrite HM.
  rewrite (proj2 (Nat.eqb_neq 0 (nsum (VAR o) (hes_est o)))).
  2:{ intro E. destruct (VAR o) as [|v] eqn:EV; [unfold VAR, VARX, NUM_NODES in EV; nia|].
      cbn [nsum] in E. assert (hes_est o v = 0)%nat by lia. unfold hes_est in H0. destruct (_ <? _)%nat; unfold VAR, VARX, NUM_NODES in *; nia. }
  unfold hes_asm.
  rewrite (oloop_fail _ (SG o) 0 _ _); [reflexivity|lia|]. intro st.
  apply (oloop_fail _ (PO o + 1) 0); [lia|]. intros [pp M1]. cbn [Nat.ltb Nat.leb andb]. apply (f_equal (fun x => obind x _)) with (y := None).
  unfold hes_insert. apply obind_fail. intro M2. apply obind_fail. intro M3.
  rewrite (oloop_fail _ (NP o) (NU o)); [reflexivity|auto|]. intro M4. apply (oloop_fail _ (NX o) 0); [lia|]. intro M5.
  unfold rd. rewrite (proj2 (Nat.ltb_ge (NU o + NX o + NP o) (NZ o))) by (unfold NZ; lia). rewrite andb_false_r. reflexivity.
Qed.
