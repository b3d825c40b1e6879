(** The transcription of a linear-quadratic optimal control problem is a quadratic program. *)
Require Import Arith ZArith List Bool Lia Reals Lra.
From Verif Require Import Scal RSum Poly_Spec Cheb_Model Cheb_Proofs Blk Ocp_Model Ocp_Spec Ocp_Proofs Ocp_Cost_Proofs Ocp_Cor_Proofs
  Mpc_Model Mpc_Spec Mpc_Proofs Mpc_Props Qp_Model Qp_Spec Sqp_Model Sqp_Spec Sqp_Proofs Sqp_ProofsR SqpQp_Spec SqpQp_Proofs SqpQp_Props Msv_Model Msv_Spec Msv_Proofs LqMpc_Spec.
Import ListNotations.
Local Open Scope R_scope.

(** * affine and quadratic functions *)
Definition aff (n : nat) (f : vec R -> R) : Prop := exists a b, forall x, f x = b + rdot n a x.
Definition quad (n : nat) (f : vec R -> R) : Prop :=
  exists G c c0, symmetric n G /\ forall x, f x = c0 + rdot n c x + / 2 * qf n G x.

Lemma rdot0 : forall n x, rdot n (fun _ => 0) x = 0.
Proof. intros. rewrite rdot_def. apply rsum_zero. intros. ring. Qed.
Lemma qf_ext : forall n A B x, (forall i j, (i < n)%nat -> (j < n)%nat -> A i j = B i j) -> qf n A x = qf n B x.
Proof. intros. unfold qf. apply rdot_ext; auto. intros. apply rmv_ext; auto. Qed.
Lemma qf_sum2 : forall n A x, qf n A x = rsum n (fun i => rsum n (fun j => A i j * x i * x j)).
Proof.
  intros. unfold qf. rewrite rdot_def. apply rsum_ext. intros i Hi. rewrite rmv_def, <- rsum_scal. apply rsum_ext. intros. ring.
Qed.

Lemma aff_ext : forall n f g, (forall x, f x = g x) -> aff n f -> aff n g.
Proof. intros n f g E (a & b & H). exists a, b. intros x. rewrite <- E. apply H. Qed.
Lemma aff_const : forall n b, aff n (fun _ => b).
Proof. intros. exists (fun _ => 0), b. intros. rewrite rdot0. ring. Qed.
Lemma aff_coord : forall n j, (j < n)%nat -> aff n (fun x => x j).
Proof.
  intros n j Hj. exists (fun i => if (i =? j)%nat then 1 else 0), 0. intros x. rewrite rdot_def.
  rewrite (rsum_ext n _ (fun i => if (i =? j)%nat then x i else 0)); [rewrite rsum_delta by exact Hj; ring|].
  intros i _. destruct (i =? j)%nat; ring.
Qed.
Lemma aff_plus : forall n f g, aff n f -> aff n g -> aff n (fun x => f x + g x).
Proof. intros n f g (a & b & H) (a' & b' & H'). exists (fun i => a i + a' i), (b + b'). intros. rewrite H, H', rdot_plus_l. ring. Qed.
Lemma aff_scal : forall n k f, aff n f -> aff n (fun x => k * f x).
Proof. intros n k f (a & b & H). exists (fun i => k * a i), (k * b). intros. rewrite H, rdot_scal_l. ring. Qed.
Lemma aff_sum : forall n m f, (forall i, (i < m)%nat -> aff n (f i)) -> aff n (fun x => rsum m (fun i => f i x)).
Proof.
  intros n m f H. induction m as [|m IH].
  - apply (aff_ext n (fun _ => 0)); [intros; rewrite rsum_0; reflexivity|apply aff_const].
  - apply (aff_ext n (fun x => rsum m (fun i => f i x) + f m x)); [intros; rewrite rsum_S; reflexivity|].
    apply aff_plus; [apply IH; intros; apply H; lia|apply H; lia].
Qed.

Lemma quad_ext : forall n f g, (forall x, f x = g x) -> quad n f -> quad n g.
Proof. intros n f g E (G & c & c0 & S & H). exists G, c, c0. split; [exact S|]. intros x. rewrite <- E. apply H. Qed.
Lemma quad_aff : forall n f, aff n f -> quad n f.
Proof.
  intros n f (a & b & H). exists (fun _ _ => 0), a, b. split; [intros i j _ _; reflexivity|]. intros x. rewrite H, qf_sum2.
  rewrite rsum_zero; [ring|]. intros i _. apply rsum_zero. intros. ring.
Qed.
Lemma quad_plus : forall n f g, quad n f -> quad n g -> quad n (fun x => f x + g x).
Proof.
  intros n f g (G & c & c0 & S & H) (G' & c' & c0' & S' & H').
  exists (fun i j => G i j + G' i j), (fun i => c i + c' i), (c0 + c0'). split; [intros i j Hi Hj; rewrite (S i j), (S' i j) by assumption; reflexivity|].
  intros x. rewrite H, H', rdot_plus_l.
  assert (E : qf n (fun i j => G i j + G' i j) x = qf n G x + qf n G' x).
  { rewrite !qf_sum2, <- rsum_plus. apply rsum_ext. intros. rewrite <- rsum_plus. apply rsum_ext. intros. ring. }
  rewrite E. ring.
Qed.
Lemma quad_scal : forall n k f, quad n f -> quad n (fun x => k * f x).
Proof.
  intros n k f (G & c & c0 & S & H). exists (fun i j => k * G i j), (fun i => k * c i), (k * c0).
  split; [intros i j Hi Hj; rewrite (S i j) by assumption; reflexivity|]. intros x. rewrite H, rdot_scal_l.
  assert (E : qf n (fun i j => k * G i j) x = k * qf n G x).
  { rewrite !qf_sum2, <- rsum_scal. apply rsum_ext. intros. rewrite <- rsum_scal. apply rsum_ext. intros. ring. }
  rewrite E. ring.
Qed.
Lemma quad_sum : forall n m f, (forall i, (i < m)%nat -> quad n (f i)) -> quad n (fun x => rsum m (fun i => f i x)).
Proof.
  intros n m f H. induction m as [|m IH].
  - apply (quad_ext n (fun _ => 0)); [intros; rewrite rsum_0; reflexivity|apply quad_aff, aff_const].
  - apply (quad_ext n (fun x => rsum m (fun i => f i x) + f m x)); [intros; rewrite rsum_S; reflexivity|].
    apply quad_plus; [apply IH; intros; apply H; lia|apply H; lia].
Qed.
Lemma quad_mul : forall n f g, aff n f -> aff n g -> quad n (fun x => f x * g x).
Proof.
  intros n f g (a & b & H) (a' & b' & H').
  exists (fun i j => a i * a' j + a' i * a j), (fun i => b * a' i + b' * a i), (b * b').
  split; [intros i j _ _; ring|]. intros x. rewrite H, H', rdot_plus_l, !rdot_scal_l.
  assert (E : qf n (fun i j => a i * a' j + a' i * a j) x = 2 * (rdot n a x * rdot n a' x)).
  { rewrite qf_sum2, !rdot_def.
    rewrite (rsum_ext n _ (fun i => a i * x i * rsum n (fun j => a' j * x j) + a' i * x i * rsum n (fun j => a j * x j))).
    - rewrite rsum_plus, !rsum_scal_r. ring.
    - intros i _. rewrite <- !rsum_scal, <- rsum_plus. apply rsum_ext. intros. ring. }
  rewrite E. field.
Qed.

(** * derivatives of affine and quadratic functions are unique *)
Definition unit_at (k : nat) : vec R := fun i => if (i =? k)%nat then 1 else 0.
Lemma rdot_unit : forall n a k, (k < n)%nat -> rdot n a (unit_at k) = a k.
Proof.
  intros n a k Hk. rewrite rdot_def. rewrite (rsum_ext n _ (fun i => if (i =? k)%nat then a i else 0)); [apply rsum_delta; exact Hk|].
  intros i _. unfold unit_at. destruct (i =? k)%nat; ring.
Qed.
Lemma rdot_line : forall n a x d h, rdot n a (fun i => x i + h * d i) = rdot n a x + h * rdot n a d.
Proof. intros. rewrite rdot_plus_r, rdot_scal_r. reflexivity. Qed.

Lemma poly2_deriv : forall p q r, derivable_pt_lim (fun h => p + q * h + r * (h * h)) 0 q.
Proof.
  intros p q r.
  pose proof (derivable_pt_lim_plus _ _ 0 _ _ (derivable_pt_lim_plus _ _ 0 _ _ (derivable_pt_lim_const p 0)
     (derivable_pt_lim_scal id q 0 1 (derivable_pt_lim_id 0)))
     (derivable_pt_lim_scal (id * id)%F r 0 _ (derivable_pt_lim_mult id id 0 1 1 (derivable_pt_lim_id 0) (derivable_pt_lim_id 0)))) as D.
  unfold id in D. replace (0 + q * 1 + r * (1 * 0 + 0 * 1)) with q in D by ring. exact D.
Qed.

Lemma derivable_ext : forall (f g : R -> R) x l, (forall t, f t = g t) -> derivable_pt_lim f x l -> derivable_pt_lim g x l.
Proof. intros f g x l E D e He. destruct (D e He) as (dl & Hd). exists dl. intros h Hh Hh'. rewrite <- !E. apply Hd; assumption. Qed.

Lemma dir_quad : forall n G c c0 f x d, symmetric n G -> (forall x, f x = c0 + rdot n c x + / 2 * qf n G x) ->
  dir_deriv f x d (rdot n (fun j => c j + rmv n G x j) d).
Proof.
  intros n G c c0 f x d S H. unfold dir_deriv.
  apply (derivable_ext (fun h => f x + rdot n (fun j => c j + rmv n G x j) d * h + / 2 * qf n G d * (h * h))); [|apply poly2_deriv].
  intros h. rewrite !H, rdot_line, qf_plus_scal by exact S. rewrite rdot_plus_l.
  replace (bf n G x d) with (rdot n (rmv n G x) d).
  - field.
  - rewrite bf_sym by exact S. unfold bf. apply rdot_comm.
Qed.
Lemma dir_aff : forall n a b f x d, (forall x, f x = b + rdot n a x) -> dir_deriv f x d (rdot n a d).
Proof.
  intros n a b f x d H. unfold dir_deriv.
  apply (derivable_ext (fun h => f x + rdot n a d * h + 0 * (h * h))); [|apply poly2_deriv].
  intros h. rewrite !H, rdot_line. ring.
Qed.
Lemma grad_unique : forall n f x g g', (forall d, dir_deriv f x d (rdot n g d)) -> (forall d, dir_deriv f x d (rdot n g' d)) ->
  forall j, (j < n)%nat -> g j = g' j.
Proof.
  intros n f x g g' H H' j Hj. rewrite <- (rdot_unit n g j Hj), <- (rdot_unit n g' j Hj).
  eapply uniqueness_limite; [apply H|apply H'].
Qed.

(** * the transcription *)
Section Tr.
Variable o : ocp R.
Local Notation N := (NUM_NODES o).
Local Notation z var k := (stacked o (state o var k) (control o var k) (params o var)).

(** position of entry a of (x, u, p) at node k *)
Definition zpos (k a : nat) : nat :=
  if (a <? NX o)%nat then ix o k a else if (a <? NX o + NU o)%nat then iu o k (a - NX o) else ip o (a - NX o - NU o).
Lemma z_at : forall var k a, z var k a = var (zpos k a).
Proof. intros. unfold stacked, zpos, state, control, params. destruct (a <? NX o)%nat; [reflexivity|]. destruct (a <? NX o + NU o)%nat; reflexivity. Qed.
Lemma zpos_lt : forall k a, (k < N)%nat -> (a < zsize o)%nat -> (zpos k a < VAR o)%nat.
Proof.
  intros k a Hk Ha. unfold zpos, VAR, VARX, VARU, ix, iu, ip, zsize, NUM_NODES in *.
  destruct (Nat.ltb_spec a (NX o)); [nia|]. destruct (Nat.ltb_spec a (NX o + NU o)); [|lia].
  assert (k * NU o + (a - NX o) < NU o * (PO o * SG o + 1))%nat by nia. lia.
Qed.
(** without parameters every variable belongs to a node *)
Lemma zpos_onto : forall i, NP o = O -> (i < VAR o)%nat -> exists k a, (k < N)%nat /\ (a < zsize o)%nat /\ i = zpos k a.
Proof.
  intros i H0 Hi. unfold VAR in Hi. rewrite H0 in Hi. destruct (Nat.lt_ge_cases i (VARX o)) as [L|L].
  - destruct (index_split (NX o) N i L) as (k & c & E & Hk & Hc). exists k, c. split; [exact Hk|]. split; [unfold zsize; lia|].
    unfold zpos. destruct (Nat.ltb_spec c (NX o)); [exact E|lia].
  - assert (Hu : (i - VARX o < NU o * N)%nat) by (unfold VARU in Hi; lia).
    destruct (index_split (NU o) N _ Hu) as (k & c & E & Hk & Hc). exists k, (NX o + c)%nat.
    split; [exact Hk|]. split; [unfold zsize; lia|]. unfold zpos, iu.
    destruct (Nat.ltb_spec (NX o + c) (NX o)); [lia|]. destruct (Nat.ltb_spec (NX o + c) (NX o + NU o)); [|lia].
    unfold VARX, NUM_NODES in *. lia.
Qed.

Lemma z_aff : forall k a, (k < N)%nat -> (a < zsize o)%nat -> aff (VAR o) (fun var => z var k a).
Proof. intros k a Hk Ha. apply (aff_ext _ (fun var => var (zpos k a))); [intros; symmetry; apply z_at|]. apply aff_coord, zpos_lt; assumption. Qed.

Lemma user_aff : forall rows f k c, affine_function o rows f -> (k < N)%nat -> (c < rows)%nat -> aff (VAR o) (fun var => at_node o f var k c).
Proof.
  intros rows f k c (K & kk & H) Hk Hc.
  apply (aff_ext _ (fun var => rsum (zsize o) (fun a => K (time_nodes o k) c a * z var k a) + kk (time_nodes o k) c)).
  - intros var. unfold at_node. change (xk o var k) with (state o var k). change (uk o var k) with (control o var k).
    change (pk o var) with (params o var). rewrite H by exact Hc. rewrite rmv_def. reflexivity.
  - apply aff_plus; [|apply aff_const]. apply aff_sum. intros a Ha. apply aff_scal, z_aff; assumption.
Qed.

Lemma user_quad : forall M g t k, quadratic_term o M (Some g) -> (k < N)%nat ->
  quad (VAR o) (fun var => get_val g (state o var k) (control o var k) (params o var) t).
Proof.
  intros M g t k (S & v & kk & H) Hk.
  apply (quad_ext _ (fun var => kk t + rsum (zsize o) (fun a => v t a * z var k a) +
    / 2 * rsum (zsize o) (fun a => rsum (zsize o) (fun b => M t a b * (z var k a * z var k b))))).
  - intros var. rewrite H, rdot_def, qf_sum2. f_equal. f_equal. apply rsum_ext. intros. apply rsum_ext. intros. ring.
  - apply quad_plus.
    + apply quad_aff, aff_plus; [apply aff_const|]. apply aff_sum. intros. apply aff_scal, z_aff; assumption.
    + apply quad_scal, quad_sum. intros a Ha. apply quad_sum. intros b Hb. apply quad_scal, quad_mul; apply z_aff; assumption.
Qed.

Lemma cost_quad : (1 <= SG o)%nat -> (exists M, quadratic_term o M (o_lag o)) -> (exists M, quadratic_term o M (o_may o)) -> quad (VAR o) (cost o).
Proof.
  intros HS (M & HL) (M' & HM).
  apply (quad_ext _ (fun var => rsum (SG o) (fun s => t_scale o * rsum (S (PO o)) (fun k => Ocp_Model.m_w o k * running_cost o var (s * PO o + k))) + terminal_cost o var)).
  - intros. symmetry. apply cost_formula.
  - apply quad_plus.
    + apply quad_sum. intros s Hs. apply quad_scal, quad_sum. intros k Hk. apply quad_scal. unfold running_cost.
      destruct (o_lag o) as [g|]; [|apply quad_aff, aff_const]. apply (user_quad M); [exact HL|]. apply node_lt; [exact Hs|lia].
    + unfold terminal_cost. destruct (o_may o) as [g|]; [|apply quad_aff, aff_const]. apply (user_quad M'); [exact HM|].
      unfold NUM_NODES. lia.
Qed.

Lemma eq_aff : (1 <= PO o)%nat -> (1 <= SG o)%nat -> affine_function o (NX o) (o_dyn o) -> forall i, (i < NUM_EQ o)%nat -> aff (VAR o) (fun var => equalities o var i).
Proof.
  intros HP HS HA i Hi. destruct (index_split (NX o) N i Hi) as (t & c & -> & Ht & Hc).
  destruct (node_decomp o t HP HS Ht) as (s & l & -> & Hs & Hl & Hd).
  apply (aff_ext _ (fun var => rsum (S (PO o)) (fun j => m_D o l j * state o var (s * PO o + j)%nat c) + - t_scale o * at_node o (o_dyn o) var (s * PO o + l)%nat c)).
  - intros var. change ((s * PO o + l) * NX o + c)%nat with (ix o (s * PO o + l) c). rewrite equalities_eq by assumption.
    rewrite DX_eq by assumption. ring.
  - apply aff_plus.
    + apply aff_sum. intros j Hj. apply aff_scal. unfold state. apply aff_coord.
      pose proof (xcol_lt o (s * PO o + j) c (node_lt o s j Hs ltac:(lia)) Hc). unfold VAR. lia.
    + apply aff_scal. apply (user_aff (NX o)); assumption.
Qed.
Lemma ineq_aff : affine_function o (NG o) (o_ine o) -> forall i, (i < NUM_INEQ o)%nat -> aff (VAR o) (fun var => inequalities o var i).
Proof.
  intros HA i Hi. destruct (index_split (NG o) N i Hi) as (t & c & -> & Ht & Hc).
  apply (aff_ext _ (fun var => at_node o (o_ine o) var t c)); [intros; symmetry; apply inequalities_eq; assumption|].
  apply (user_aff (NG o)); assumption.
Qed.

(** second differences of the cost *)
Lemma strictly_convex_cost : chebyshev_ocp o -> t_start o < t_stop o -> NP o = O ->
  forall g M, o_lag o = Some g -> quadratic_term o M (o_lag o) -> (forall t, posdef (zsize o) (M t)) ->
  forall M', quadratic_term o M' (o_may o) -> (forall t, psd (zsize o) (M' t)) ->
  forall v, nonzero_vec (VAR o) v -> 0 < cost o v + cost o (fun i => - v i) - 2 * cost o (fun _ => 0).
Proof.
  intros Hch Ht H0 g M Eg HM Hpd M' HM' Hpsd v (i & Hi & Hv).
  pose proof Hch as (HP & HS & HX & _ & _ & HW). pose proof (t_scale_pos o HS Ht) as Hts.
  rewrite !cost_formula.
  set (sd := fun F : vec R -> R => F v + F (fun i => - v i) - 2 * F (fun _ => 0)).
  assert (Z : forall k, (forall a, z (fun i => - v i) k a = - z v k a) /\ (forall a, z (fun _ => 0) k a = 0)).
  { intros k. split; intros a; rewrite !z_at; reflexivity. }
  assert (SD : forall k M g, quadratic_term o M (Some g) ->
     sd (fun var => get_val g (state o var k) (control o var k) (params o var) (time_nodes o k)) = qf (zsize o) (M (time_nodes o k)) (z v k)).
  { intros k M0 g0 (S & w & kk & H). unfold sd. rewrite !H. destruct (Z k) as [Z1 Z2].
    rewrite !rdot_def, !qf_sum2. set (t := time_nodes o k).
    rewrite (rsum_ext (zsize o) (fun i => w t i * z (fun i0 => - v i0) k i) (fun i => - (w t i * z v k i))) by (intros; rewrite Z1; ring).
    rewrite (rsum_zero (zsize o) (fun i => w t i * z (fun _ => 0) k i)) by (intros; rewrite Z2; ring).
    rewrite (rsum_zero (zsize o) (fun i => rsum (zsize o) (fun j => M0 t i j * z (fun _ => 0) k i * z (fun _ => 0) k j)))
      by (intros; apply rsum_zero; intros; rewrite !Z2; ring).
    rewrite (rsum_ext (zsize o) (fun i => rsum (zsize o) (fun j => M0 t i j * z (fun i0 => - v i0) k i * z (fun i0 => - v i0) k j))
      (fun i => rsum (zsize o) (fun j => M0 t i j * z v k i * z v k j))) by (intros; apply rsum_ext; intros; rewrite !Z1; ring).
    rewrite rsum_opp. field. }
  set (r k := qf (zsize o) (M (time_nodes o k)) (z v k)).
  assert (Er : forall k, running_cost o v k + running_cost o (fun i => - v i) k - 2 * running_cost o (fun _ => 0) k = r k).
  { intros k. unfold running_cost. rewrite Eg in *. apply (SD k M g HM). }
  assert (Et : 0 <= terminal_cost o v + terminal_cost o (fun i => - v i) - 2 * terminal_cost o (fun _ => 0)).
  { unfold terminal_cost. destruct (o_may o) as [g'|]; [|lra]. pose proof (SD O M' g' HM') as E. unfold sd in E. rewrite E. apply Hpsd. }
  assert (Hr : forall k, 0 <= r k) by (intros; apply posdef_psd, Hpd).
  assert (Hw : forall k, (k < S (PO o))%nat -> 0 < Ocp_Model.m_w o k) by (intros; rewrite HW by lia; apply cc_positive; lia).
  enough (0 < rsum (SG o) (fun s => t_scale o * rsum (S (PO o)) (fun k => Ocp_Model.m_w o k * r (s * PO o + k)%nat))) as Hp.
  { match goal with |- 0 < ?a + ?b + (?c + ?d) - 2 * (?e + ?f) => enough (a + c - 2 * e = rsum (SG o) (fun s => t_scale o * rsum (S (PO o)) (fun k => Ocp_Model.m_w o k * r (s * PO o + k)%nat))) by lra end.
    rewrite <- rsum_scal, <- rsum_plus, <- rsum_minus. apply rsum_ext. intros s Hs.
    rewrite (rsum_ext (S (PO o)) (fun k => Ocp_Model.m_w o k * r (s * PO o + k)%nat)
      (fun k => Ocp_Model.m_w o k * running_cost o v (s * PO o + k) + Ocp_Model.m_w o k * running_cost o (fun i => - v i) (s * PO o + k) - 2 * (Ocp_Model.m_w o k * running_cost o (fun _ => 0) (s * PO o + k))))
      by (intros; rewrite <- Er; ring).
    rewrite rsum_minus, rsum_plus, rsum_scal. ring. }
  destruct (zpos_onto i H0 Hi) as (k & a & Hk & Ha & ->).
  destruct (node_decomp o k HP HS Hk) as (s & l & Ek & Hs & Hl & _).
  assert (Hin : forall s, 0 <= t_scale o * rsum (S (PO o)) (fun k => Ocp_Model.m_w o k * r (s * PO o + k)%nat)).
  { intros s0. apply Rmult_le_pos; [lra|]. apply rsum_nonneg. intros j Hj. apply Rmult_le_pos; [left; apply Hw; exact Hj|apply Hr]. }
  eapply Rlt_le_trans; [|apply (rsum_nonneg_term (SG o) _ s); [intros; apply Hin|exact Hs]].
  apply Rmult_lt_0_compat; [exact Hts|].
  eapply Rlt_le_trans; [|apply (rsum_nonneg_term (S (PO o)) _ l); [intros j Hj; apply Rmult_le_pos; [left; apply Hw; exact Hj|apply Hr]|lia]].
  cbv beta. rewrite <- Ek. apply Rmult_lt_0_compat; [apply Hw; lia|]. apply Hpd. exists a. split; [exact Ha|]. rewrite z_at. exact Hv.
Qed.
End Tr.

(** * programs with quadratic cost and affine constraints *)
Lemma quad_hessian : forall P grad jac G, quad (nx P) (p_cost P) -> exact_derivatives P grad jac G ->
  exists c c0, symmetric (nx P) G /\ (forall x, p_cost P x = c0 + rdot (nx P) c x + / 2 * qf (nx P) G x) /\
    (forall x j, (j < nx P)%nat -> grad x j = c j + rmv (nx P) G x j).
Proof.
  intros P grad jac G (G0 & c & c0 & S & H) (D1 & _ & D3).
  assert (E1 : forall x j, (j < nx P)%nat -> grad x j = c j + rmv (nx P) G0 x j).
  { intros x j Hj. apply (grad_unique (nx P) (p_cost P) x (grad x) (fun j => c j + rmv (nx P) G0 x j)); [apply D1| |exact Hj].
    intros d. apply (dir_quad _ _ _ c0); assumption. }
  assert (E2 : forall i j, (i < nx P)%nat -> (j < nx P)%nat -> G i j = G0 i j).
  { intros i j Hi Hj. apply (grad_unique (nx P) (fun y => grad y i) (fun _ => 0) (G i) (G0 i)); [intros; apply D3; exact Hi| |exact Hj].
    intros d. apply (dir_aff (nx P) (G0 i) (c i)). intros x. rewrite E1 by exact Hi. rewrite rmv_def, rdot_def. reflexivity. }
  exists c, c0. split; [intros i j Hi Hj; rewrite !E2 by assumption; apply S; assumption|]. split.
  - intros x. rewrite H. f_equal. f_equal. apply qf_ext. intros; symmetry; apply E2; assumption.
  - intros x j Hj. rewrite E1 by exact Hj. f_equal. apply rmv_ext; [intros; symmetry; apply E2; assumption|reflexivity].
Qed.

Lemma make_qp : forall P grad jac G, quad (nx P) (p_cost P) -> (forall i, (i < ne P + ni P)%nat -> aff (nx P) (fun x => constr_values P x i)) ->
  exact_derivatives P grad jac G -> exists c c0 A b, quadratic_nlp P grad jac G c c0 A b.
Proof.
  intros P grad jac G HQ HA HD. destruct (quad_hessian P grad jac G HQ HD) as (c & c0 & S & E1 & E2). destruct HD as (_ & D2 & _).
  assert (J : forall i a b, (i < ne P + ni P)%nat -> (forall x, constr_values P x i = b + rdot (nx P) a x) -> forall x j, (j < nx P)%nat -> jac x i j = a j).
  { intros i a b Hi H x j Hj. apply (grad_unique (nx P) (fun y => constr_values P y i) x (jac x i) a); [intros; apply D2; exact Hi| |exact Hj].
    intros d. apply (dir_aff (nx P) a b). exact H. }
  exists c, c0, (jac (fun _ => 0)), (fun i => constr_values P (fun _ => 0) i).
  split; [exact S|]. split; [exact E1|]. split; [exact E2|]. split.
  - intros x i Hi. destruct (HA i Hi) as (a & b & H). rewrite (H x), (H (fun _ => 0)).
    rewrite rmv_def. rewrite (rsum_ext (nx P) _ (fun j => a j * x j)) by (intros j Hj; rewrite (J i a b Hi H) by exact Hj; reflexivity).
    replace (rdot (nx P) a (fun _ => 0)) with 0 by (rewrite rdot_comm, rdot0; reflexivity). rewrite rdot_def. ring.
  - intros x i j Hi Hj. destruct (HA i Hi) as (a & b & H). rewrite !(J i a b Hi H) by exact Hj. reflexivity.
Qed.

Lemma feasible_ext : forall P x y, (forall i, (i < ne P + ni P)%nat -> aff (nx P) (fun x => constr_values P x i)) ->
  (forall j, (j < nx P)%nat -> x j = y j) -> nlp_feasible P x -> nlp_feasible P y.
Proof.
  intros P x y HA E (F1 & F2 & F3).
  assert (C : forall i, (i < ne P + ni P)%nat -> constr_values P x i = constr_values P y i).
  { intros i Hi. destruct (HA i Hi) as (a & b & H). rewrite !H. f_equal. apply rdot_ext; auto. }
  split; [|split].
  - intros i Hi. specialize (C i ltac:(lia)). unfold constr_values in C. destruct (Nat.ltb_spec i (ne P)); [|lia]. rewrite <- C. auto.
  - intros i Hi. specialize (C (ne P + i)%nat ltac:(lia)). unfold constr_values in C. destruct (Nat.ltb_spec (ne P + i) (ne P)); [lia|].
    replace (ne P + i - ne P)%nat with i in C by lia. rewrite <- C. auto.
  - intros j Hj. rewrite <- E by exact Hj. auto.
Qed.

(** * solve of the wrapper *)
Section Mpc.
Variable U : user.
Variable big : R.
Variable lag_full : vec R -> vec R -> vec R * mat R * vec R * vec R * mat R.
Variable lag : vec R -> vec R -> vec R * vec R * vec R * mat R.
Local Notation nlp := (nlp_of U big lag_full lag).

Lemma nlp_quad : forall s, (1 <= SG (prob s))%nat -> linear_quadratic U (prob s) (m_par s) -> quad (nx (nlp s)) (p_cost (nlp s)).
Proof. intros s HS (_ & _ & HL & HM). apply (cost_quad (at_params U (prob s) (m_par s))); assumption. Qed.
Lemma nlp_aff : forall s, (1 <= PO (prob s))%nat -> (1 <= SG (prob s))%nat -> linear_quadratic U (prob s) (m_par s) ->
  forall i, (i < ne (nlp s) + ni (nlp s))%nat -> aff (nx (nlp s)) (fun x => constr_values (nlp s) x i).
Proof.
  intros s HP HS (HD & HI & _) i Hi. unfold constr_values. destruct (Nat.ltb_spec i (ne (nlp s))).
  - apply (eq_aff (at_params U (prob s) (m_par s))); assumption.
  - apply (ineq_aff (at_params U (prob s) (m_par s))); [assumption|].
    change (NUM_INEQ (at_params U (prob s) (m_par s))) with (ni (nlp s)). lia.
Qed.
Lemma nlp_qp : forall s grad jac G, (1 <= PO (prob s))%nat -> (1 <= SG (prob s))%nat -> linear_quadratic U (prob s) (m_par s) ->
  exact_derivatives (nlp s) grad jac G -> exists c c0 A b, quadratic_nlp (nlp s) grad jac G c c0 A b.
Proof. intros. apply make_qp; [apply nlp_quad|apply nlp_aff|]; assumption. Qed.

Lemma nlp_posdef : forall s grad jac G, chebyshev_ocp (prob s) -> t_start (prob s) < t_stop (prob s) -> NP (prob s) = O ->
  linear_quadratic U (prob s) (m_par s) -> exact_derivatives (nlp s) grad jac G ->
  forall g M, u_lag U (m_par s) = Some g -> quadratic_term (prob s) M (u_lag U (m_par s)) -> (forall t, posdef (zsize (prob s)) (M t)) ->
  forall M', quadratic_term (prob s) M' (u_may U (m_par s)) -> (forall t, psd (zsize (prob s)) (M' t)) ->
  posdef (nx (nlp s)) G.
Proof.
  intros s grad jac G Hch Ht H0 HL HD g M Eg HM Hpd M' HM' Hpsd v Hv. pose proof Hch as (HP & HS & _).
  destruct (quad_hessian (nlp s) grad jac G (nlp_quad s HS HL) HD) as (c & c0 & S & E & _).
  pose proof (strictly_convex_cost (at_params U (prob s) (m_par s)) Hch Ht H0 g M Eg HM Hpd M' HM' Hpsd v Hv) as X.
  change (cost (at_params U (prob s) (m_par s))) with (p_cost (nlp s)) in X. rewrite !E in X.
  rewrite (qf_zero_vec _ G (fun _ => 0)) in X by reflexivity. rewrite (rdot_comm _ c (fun _ => 0)), rdot0 in X.
  assert (E1 : rdot (nx (nlp s)) c (fun i => - v i) = - rdot (nx (nlp s)) c v) by (rewrite rdot_comm, rdot_opp_l, rdot_comm; reflexivity).
  assert (E2 : qf (nx (nlp s)) G (fun i => - v i) = qf (nx (nlp s)) G v).
  { rewrite !qf_sum2. apply rsum_ext. intros. apply rsum_ext. intros. ring. }
  rewrite E1, E2 in X. lra.
Qed.

(** bounds of absolute value below [big] on the wrong side are not infinite *)
Lemma nlp_proper : forall s,
  (forall i, (i < VAR (prob s))%nat -> m_lbx s i < big /\ - big < m_ubx s i) ->
  (forall i, (i < NUM_INEQ (prob s))%nat -> m_lbg s i < big /\ - big < m_ubg s i) -> proper_bounds (nlp s).
Proof.
  intros s HX HG. split; intros i Hi; cbn [nlp_of lbg ubg lbx ubx]; unfold as_bound; [destruct (HG i Hi)|destruct (HX i Hi)];
  split; repeat destruct (Rle_dec _ _); solve [exact I|discriminate|exfalso; lra].
Qed.

(** a stored point that satisfies the discretised problem satisfies the dynamics at all nodes *)
Lemma dynamics_exact : forall s s', prob s' = prob s -> nlp_feasible (nlp s) (Mpc_Model.m_x s') ->
  let o := prob s in chebyshev_ocp o -> t_start o < t_stop o ->
  forall i c q q', (i < SG o)%nat -> (c < NX o)%nat -> state_polynomial s' i c q -> derivative_of q q' ->
  forall l, (l <= PO o)%nat -> (0 < l \/ i = 0)%nat ->
  let k := (i * PO o + l)%nat in
  q' (grid_of o k) = u_dyn U (m_par s) (node_x s' k) (node_u s' k) (node_p s') (grid_of o k) c.
Proof.
  intros s s' Hpr (HE & _) o Hch Ht i c q q' Hi Hc (Hq & Hv) Hd l Hl Hor k. pose proof Hch as (HP & HS & HX & _).
  set (a := at_params U o (m_par s)). assert (Hcha : chebyshev_ocp a) by exact Hch.
  set (i' := (SG o - 1 - i)%nat). set (l' := (PO o - l)%nat).
  assert (Hi' : (i' < SG o)%nat) by (unfold i'; lia). assert (Hl' : (l' <= PO o)%nat) by (unfold l'; lia).
  assert (Hor' : (l' < PO o \/ i' = SG o - 1)%nat) by (unfold i', l'; lia).
  assert (Hk : (i' * PO o + l' = nodes o - 1 - k)%nat).
  { unfold i', l', k, nodes. assert (A : (i * PO o + PO o <= PO o * SG o)%nat) by nia.
    rewrite !Nat.mul_sub_distr_r. rewrite (Nat.mul_comm (SG o)). nia. }
  assert (Hkn : (k < nodes o)%nat) by (unfold k, nodes; nia).
  fold o in Hpr. rewrite Hpr in Hq. change (is_poly (PO a) q) in Hq.
  assert (Hn : (i' * PO o + l' < NUM_NODES o)%nat) by (rewrite Hk; unfold nodes, NUM_NODES; lia).
  assert (B : equalities a (Mpc_Model.m_x s') (ix a (i' * PO o + l') c) = 0).
  { apply HE. cbn [nlp_of ne]. change (at_params U (prob s) (m_par s)) with a. change (NUM_EQ a) with (NX o * NUM_NODES o)%nat.
    unfold ix. change (NX a) with (NX o). nia. }
  rewrite equalities_eq in B; [|exact Hn|exact Hc].
  change (PO o) with (PO a) in B. rewrite (residual_poly a Hcha (Mpc_Model.m_x s') i' l' c q q') in B; auto.
  - change (time_nodes a) with (time_nodes o) in B. change (t_scale a) with (t_scale o) in B. change (PO a) with (PO o) in B.
    assert (Et : time_nodes o (i' * PO o + l')%nat = grid_of o k) by (unfold grid_of; f_equal; rewrite Hk; reflexivity).
    rewrite Et in B.
    assert (Ea : at_node a (o_dyn a) (Mpc_Model.m_x s') (i' * PO o + l') c =
      u_dyn U (m_par s) (node_x s' k) (node_u s' k) (node_p s') (grid_of o k) c).
    { unfold at_node. cbn [a at_params o_dyn]. change (time_nodes a) with (time_nodes o). rewrite Et.
      change (xk a (Mpc_Model.m_x s') (i' * PO o + l')) with (state o (Mpc_Model.m_x s') (i' * PO o + l')).
      change (uk a (Mpc_Model.m_x s') (i' * PO o + l')) with (control o (Mpc_Model.m_x s') (i' * PO o + l')).
      change (pk a (Mpc_Model.m_x s')) with (params o (Mpc_Model.m_x s')).
      rewrite Hk, control_ext, params_ext by exact Hkn.
      unfold node_x, node_u, node_p. cbn [read]. rewrite Hpr. reflexivity. }
    rewrite Ea in B. pose proof (t_scale_pos o HS Ht) as Hp. nra.
  - intros j Hj. change (time_nodes a) with (time_nodes o). change (PO a) with (PO o).
    specialize (Hv (PO o - j)%nat ltac:(rewrite Hpr; lia)). rewrite Hpr in Hv.
    assert (Hkj : (i' * PO o + j = nodes o - 1 - (i * PO o + (PO o - j)))%nat).
    { unfold i', nodes. rewrite !Nat.mul_sub_distr_r. rewrite (Nat.mul_comm (SG o)). cbn in Hj. change (PO a) with (PO o) in Hj. nia. }
    unfold grid_of in Hv. change (NUM_NODES o) with (nodes o) in Hv. rewrite <- Hkj in Hv. rewrite Hv. cbn [read]. rewrite Hpr.
    unfold state, ix, traj. rewrite Hkj. reflexivity.
Qed.

Variable st : sqp_settings R.
Variables Q W : Type.
Variable hupd : mat R -> vec R -> vec R -> mat R.
Variable hreg : mat R -> mat R.
Variable pcc : W -> qp_data R -> W * qp_data R.
Variable pcs : W -> vec R * vec R -> vec R * vec R.
Variable pcu : W -> qp_data R -> qp_data R.
Variable qps : Q -> qp_data R -> Q * (vec R * vec R * Z).
Variable qpm : Q -> Q.

Lemma seen_head : forall P s, let r := sqp_solve P st Q W hupd hreg pcc pcs pcu qps qpm s in exists l, seen r = (m_x r, m_lam r) :: l.
Proof.
  intros P s. cbv zeta.
  apply (solve_inv2 P st Q W hupd hreg pcc pcs pcu qps qpm (fun s' => exists l, seen s' = (m_x s', m_lam s') :: l)).
  - intros s1 s2 (A1 & A2 & A3 & A4 & A5 & A6 & A7 & A8 & A9 & A10) H. rewrite <- A1, <- A2, <- A9. exact H.
  - intros s0 s' H h A b Hlin (p & lk & d2 & i & _ & _ & _ & _ & Hx' & _ & _ & _ & _ & _ & _ & _ & _ & Hseen & _ & Hsteps) IH.
    eauto.
  - eexists. reflexivity.
Qed.

Lemma lq_solve : forall s (w : sqp_state Q W) s' w' grad jac G,
  mpc_solve U big lag_full lag st Q W hupd hreg pcc pcs pcu qps qpm (s, w) = (s', w') ->
  let o := prob s in let n := VAR o in let P := nlp s in let nd := (ne P + ni P + nx P)%nat in
  (1 <= PO o)%nat -> (1 <= SG o)%nat -> linear_quadratic U o (m_par s) ->
  (forall i, (i < VAR o)%nat -> m_lbx s i < big /\ - big < m_ubx s i) ->
  (forall i, (i < NUM_INEQ o)%nat -> m_lbg s i < big /\ - big < m_ubg s i) ->
  exact_derivatives P grad jac G -> linearised_by P grad jac ->
  (forall w d w' d1, qn d = nx P -> qm d = (ne P + ni P)%nat -> pcc w d = (w', d1) ->
     forall j, (j < nx P)%nat -> qh (pcu w' d1) j = qh d j) ->
  0 <= tau st <= 1 -> 0 <= eta st < / 2 -> (2 <= ls_max_iter st)%Z ->
  Forall exact_step (steps w') -> Forall (hessian_is n G) (steps w') ->
  exists xs ls,
    nlp_kkt P (grad xs) (jac xs) xs ls /\
    (forall y, nlp_feasible P y -> p_cost P xs + / 2 * gdist2 n G y xs <= p_cost P y) /\
    gdist2 n G (Mpc_Model.m_x s') xs <= blur (eta st) (rnorminf nd ls) /\
    (blur (eta st) (rnorminf nd ls) <= gdist2 n G (Mpc_Model.m_x s) xs ->
       (forall j, (j < n)%nat -> Mpc_Model.m_x s' j = xs j) /\ nlp_feasible P (Mpc_Model.m_x s') /\
       ((forall lam, nlp_kkt P (grad xs) (jac xs) xs lam -> forall i, (i < nd)%nat -> lam i = ls i) ->
        0 <= eps_prim st -> 0 <= eps_dual st -> (2 <= smax_iter st)%Z ->
        m_status w' = SqpSolved /\ (m_iter w' <= 2)%Z /\ (forall i, (i < nd)%nat -> Mpc_Model.m_lam s' i = ls i))).
Proof.
  intros s w s' w' grad jac G E o n P nd HP HS HL HB HG HD Hlin Hpc Ht He Hls Hex Hh.
  destruct (nlp_qp s grad jac G HP HS HL HD) as (c & c0 & A & b & HQ).
  cbv [mpc_solve] in E. injection E as Es Er. rewrite <- Er in Hex, Hh.
  destruct (C93_quadratic_program (nlp s) st Q W hupd hreg pcc pcs pcu qps qpm (start_from Q W (Mpc_Model.m_x s) (Mpc_Model.m_lam s) w) grad jac G c c0 A b
    HQ (nlp_proper s HB HG) Hlin Hpc Ht He Hls Hex Hh) as (xs & ls & K & Min & l & Hseen & Hlen & Hnear & Hfar).
  exists xs, ls. split; [exact K|]. split; [exact Min|]. rewrite <- Es. cbn [set_sol Mpc_Model.m_x Mpc_Model.m_lam].
  rewrite <- Er. cbn [start_from m_x m_lam] in *. split.
  - destruct (seen_head (nlp s) (start_from Q W (Mpc_Model.m_x s) (Mpc_Model.m_lam s) w)) as (r & Hr). rewrite Hseen in Hr.
    destruct l as [|e l]; [cbn in Hlen; lia|]. cbn in Hr. injection Hr as -> _. inversion Hnear as [|? ? H1 _]. cbn [fst] in H1.
    eapply Rle_trans; [exact H1|apply Rmin_l].
  - intros Hb. destruct (Hfar Hb) as (_ & F1 & F2). split; [exact F1|]. split; [|exact F2].
    apply (feasible_ext (nlp s) xs); [apply nlp_aff; assumption| |apply K]. intros j Hj. symmetry. apply F1. exact Hj.
Qed.
End Mpc.
