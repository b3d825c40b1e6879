(** Proofs about the older collocation layer: residual, Jacobian, cost, gradient, Hessian.
    The layer is compared with the model of continuous_ocp.hpp for the problem [aut o] whose user
    functions ignore time. *)
Require Import Arith ZArith List Bool Lia Reals Lra FunctionalExtensionality.
From Verif Require Import Scal RSum Blk Poly_Spec PolyR Cheb_Model Cheb_Proofs Ocp_Model Ocp_Spec Ocp_Proofs
  Ocp_Cost_Proofs Ocp_Sparse_Model Ocp_Sparse_Proofs Ocp_Hes_Proofs Ocp_Cor_Proofs Ocp_Hes_Cor_Proofs Old_Model Old_Spec.
Local Open Scope R_scope.

Section P.
Variable o : ocp R.
Local Notation nx := (NX o).
Local Notation nu := (NU o).
Local Notation np := (NP o).
Local Notation P := (PO o).
Local Notation Sg := (SG o).
Local Notation N := (NUM_NODES o).
Local Notation vx := (VARX o).
Local Notation vu := (VARU o).

Definition lagA (g : ufun R R * ufun R (vec R) * ufun R (mat R)) : ufun R R * ufun R (vec R) * ufun R (mat R) :=
  ((fun x u p _ => get_val g x u p 0), (fun x u p _ => get_grad g x u p 0), (fun x u p _ => get_hes g x u p 0)).
Definition z0 : vec R := fun _ => 0.
Definition mayA (g : ufun R R * ufun R (vec R) * ufun R (mat R)) : ufun R R * ufun R (vec R) * ufun R (mat R) :=
  ((fun x _ _ _ => get_val g x z0 z0 0),
   (fun x _ _ _ i => if (i <? nx)%nat then get_grad g x z0 z0 0 i else 0),
   (fun x _ _ _ i j => if (i <? nx)%nat && (j <? nx)%nat then get_hes g x z0 z0 0 i j else 0)).

(** the problem with user functions that ignore time, terminal cost restricted to the state *)
Definition aut : ocp R := {|
  NX := nx; NU := nu; NP := np; NG := NG o; PO := P; SG := Sg;
  m_D := m_D o; m_nodes := m_nodes o; m_w := m_w o; t_start := t_start o; t_stop := t_stop o;
  o_dyn := fun x u p _ => o_dyn o x u p 0; o_dyn_jac := fun x u p _ => o_dyn_jac o x u p 0;
  o_dyn_hes := fun x u p _ => o_dyn_hes o x u p 0;
  o_ine := fun x u p _ => o_ine o x u p 0; o_ine_jac := fun x u p _ => o_ine_jac o x u p 0;
  o_ine_hes := fun x u p _ => o_ine_hes o x u p 0;
  o_lag := option_map lagA (o_lag o); o_may := option_map mayA (o_may o) |}.

(** * residual *)
Lemma old_DM_eq : forall s l k, (1 <= Sg)%nat -> (s < Sg)%nat -> (l <= P)%nat -> (l < P \/ s = Sg - 1)%nat -> (k < N)%nat ->
  old_DM o (s * P + l)%nat k = dmat o s l k.
Proof.
  intros s l k HS Hs Hl Hd Hk. unfold old_DM, dmat. destruct (Nat.ltb_spec Sg 2) as [H1|H1].
  - assert (s = 0)%nat as -> by lia. assert (Sg = 1)%nat as E by lia. unfold NUM_NODES in Hk. rewrite E in Hk.
    rewrite in_seg_true by lia. f_equal. lia.
  - assert (EN : (N - (P + 1) = (Sg - 1) * P)%nat) by (unfold NUM_NODES; nia). rewrite EN.
    destruct (Nat.eq_dec s (Sg - 1)) as [->|Hne].
    + rewrite (loop_skip _ _ (fun M : mat R => M ((Sg - 1) * P + l)%nat k)).
      * unfold mset. rewrite (in_seg_true ((Sg - 1) * P) (P + 1) ((Sg - 1) * P + l)) by lia. cbn [andb].
        replace ((Sg - 1) * P + l - (Sg - 1) * P)%nat with l by lia. reflexivity.
      * intros k' M Hk'. unfold mset. rewrite (in_seg_false (k' * P) P ((Sg - 1) * P + l)) by (right; nia). reflexivity.
    + destruct Hd as [Hd|]; [|contradiction].
      rewrite (loop_once _ _ (fun M : mat R => M (s * P + l)%nat k) (Sg - 1) _ _ (fun m => (m =? s)%nat)
        (fun m v => if in_seg (m * P) (P + 1) k then m_D o l (k - m * P)%nat else v) s); try lia.
      * unfold mset. rewrite (in_seg_false ((Sg - 1) * P) (P + 1) (s * P + l)) by (left; nia). reflexivity.
      * intros m M Hm. unfold mset. rewrite node_eqb by auto.
        destruct (Nat.eqb_spec m s) as [->|]; cbn [andb]; auto.
        replace (s * P + l - s * P)%nat with l by lia. reflexivity.
      * apply Nat.eqb_refl.
      * intros. apply Nat.eqb_neq. auto.
Qed.

Lemma div_ix : forall t c, (c < nx)%nat -> (ix o t c / nx = t /\ ix o t c mod nx = c)%nat.
Proof.
  intros t c Hc. unfold ix. split.
  - rewrite Nat.div_add_l by lia. rewrite Nat.div_small by auto. lia.
  - rewrite Nat.add_comm, Nat.mod_add by lia. apply Nat.mod_small; auto.
Qed.

Lemma old_kron_eq : forall t c k m, (c < nx)%nat -> (m < nx)%nat ->
  old_kron o (ix o t c) (ix o k m) = if (c =? m)%nat then old_DM o t k else 0.
Proof.
  intros t c k m Hc Hm. unfold old_kron. destruct (div_ix t c Hc) as [-> ->]. destruct (div_ix k m Hm) as [-> ->].
  destruct (c =? m)%nat; simpl; ring.
Qed.

Lemma old_diff_mul : forall v s l c, (1 <= Sg)%nat -> (s < Sg)%nat -> (l <= P)%nat -> (l < P \/ s = Sg - 1)%nat -> (c < nx)%nat ->
  rsum vx (fun j => old_kron o (ix o (s * P + l) c) j * v j) = DX o v (s * P + l)%nat c.
Proof.
  intros v s l c HS Hs Hl Hd Hc. unfold VARX. rewrite rsum_blocks. rewrite DX_eq by auto.
  rewrite (rsum_ext N _ (fun k => if in_seg (s * P) (P + 1) k then (fun j => m_D o l j * state o v (s * P + j)%nat c) (k - s * P)%nat else 0)).
  2:{ intros k Hk. rewrite (rsum_ext nx _ (fun m => if (m =? c)%nat then dmat o s l k * v (ix o k m) else 0)).
      - rewrite (rsum_delta nx c (fun m => dmat o s l k * v (ix o k m))) by auto. unfold dmat.
        destruct (in_seg (s * P) (P + 1) k) eqn:E; [|ring]. apply in_seg_spec in E. unfold state.
        replace (s * P + (k - s * P))%nat with k by lia. reflexivity.
      - intros m Hm. change (k * nx + m)%nat with (ix o k m). rewrite old_kron_eq by auto.
        rewrite old_DM_eq by auto. rewrite (Nat.eqb_sym c m). destruct (m =? c)%nat; ring. }
  rewrite (rsum_seg N (s * P) (P + 1) (fun j => m_D o l j * state o v (s * P + j)%nat c)) by (unfold NUM_NODES; nia). replace (P + 1)%nat with (S P) by lia. reflexivity.
Qed.

Lemma old_value_eq : forall ny (F : nat -> vec R) a t c, (t < N)%nat -> (c < ny)%nat ->
  loop N (fun k v => vset v (k * ny) ny (F k)) a (t * ny + c)%nat = F t c.
Proof.
  intros ny F a t c Ht Hc.
  rewrite (loop_pick _ _ (fun v : vec R => v (t * ny + c)%nat) N _ _ (fun k => (k =? t)%nat) (fun k => F k c) t); auto.
  - intros k v Hk. unfold vset. rewrite node_eqb by auto. destruct (Nat.eqb_spec k t) as [->|]; auto.
    replace (t * ny + c - t * ny)%nat with c by lia. auto.
  - apply Nat.eqb_refl.
  - intros. apply Nat.eqb_neq. auto.
Qed.

Lemma old_residual_eq : (1 <= P)%nat -> (1 <= Sg)%nat -> forall var i, (i < NUM_EQ o)%nat ->
  old_residual o (ode_default o) var i = equalities aut var i.
Proof.
  intros HP HS var i Hi. destruct (index_split nx N i Hi) as (t & c & -> & Ht & Hc).
  destruct (node_decomp o t HP HS Ht) as (s & l & -> & Hs & Hl & Hd).
  change ((s * P + l) * nx + c)%nat with (ix aut (s * P + l) c) at 2. rewrite (equalities_eq aut) by auto.
  unfold old_residual. cbn [oo_diff ode_default]. cbv zeta. rewrite old_value_eq by auto.
  change (ssum vx (fun j => old_kron o ((s * P + l) * nx + c)%nat j * var j)%S)
    with (rsum vx (fun j => old_kron o (ix o (s * P + l) c) j * var j)).
  rewrite old_diff_mul by auto. change (DX aut var) with (DX o var). change (t_scale aut) with (t_scale o).
  change (at_node aut (o_dyn aut) var (s * P + l)) with (old_at o (o_dyn o) var (s * P + l)). simpl. ring.
Qed.

(** * Jacobian *)
Lemma ad_jac_default : forall var k i j, (j < nx + nu)%nat -> old_ad_jac o (ode_default o) var k i j = old_at o (o_dyn_jac o) var k i j.
Proof.
  intros var k i j Hj. unfold old_ad_jac. cbn [oo_seed ode_default].
  rewrite (ssum_ext _ _ (fun m => if (m =? j)%nat then old_at o (o_dyn_jac o) var k i m else 0)).
  - apply (rsum_delta (nx + nu) j); auto.
  - intros m Hm. destruct (m =? j)%nat; simpl; ring.
Qed.

Definition old_jac (var : vec R) : mat R := snd (old_linearized o (ode_default o) var).

Definition lin_step (var : vec R) (k : nat) (va : vec R * mat R) : vec R * mat R :=
  let '(value, A) := va in
  let jac := old_ad_jac o (ode_default o) var k in
  (vset value (k * nx) nx (old_at o (o_dyn o) var k),
   mset (mset A (k * nx) (k * nx) nx nx (fun r c => - t_scale o * jac r c))
     (k * nx) (k * nu + vx) nx nu (fun r c => - t_scale o * jac r (nx + c)%nat)).
Definition lin_loop (var : vec R) := loop N (lin_step var) ((fun _ => 0), (fun _ _ => 0)).
Lemma old_jac_eq : forall var i j, old_jac var i j =
  if (j <? vx)%nat then snd (lin_loop var) i j + old_kron o i j else snd (lin_loop var) i j.
Proof.
  intros. unfold old_jac, old_linearized.
  match goal with |- snd (let '(_, _) := ?L in _) i j = _ => change L with (lin_loop var) end.
  destruct (lin_loop var) as [v A]. reflexivity.
Qed.
Lemma old_lin_val : forall var i, fst (old_linearized o (ode_default o) var) i =
  rsum vx (fun j => old_kron o i j * var j) - t_scale o * fst (lin_loop var) i.
Proof.
  intros. unfold old_linearized.
  match goal with |- fst (let '(_, _) := ?L in _) i = _ => change L with (lin_loop var) end.
  destruct (lin_loop var) as [v A]. reflexivity.
Qed.
Lemma lin_loop_val : forall var t c, (t < N)%nat -> (c < nx)%nat -> fst (lin_loop var) (ix o t c) = old_at o (o_dyn o) var t c.
Proof.
  intros var t c Ht Hc. unfold lin_loop, ix.
  rewrite (loop_pick _ _ (fun v : vec R * mat R => fst v (t * nx + c)%nat) N _ _ (fun k => (k =? t)%nat) (fun k => old_at o (o_dyn o) var k c) t); auto.
  - intros k [v A] Hk. unfold lin_step. cbn [fst]. unfold vset. rewrite node_eqb by auto. destruct (Nat.eqb_spec k t) as [->|]; auto.
    replace (t * nx + c - t * nx)%nat with c by lia. auto.
  - apply Nat.eqb_refl.
  - intros. apply Nat.eqb_neq. auto.
Qed.
Lemma lin_loop_x : forall var t c k m, (t < N)%nat -> (c < nx)%nat -> (k < N)%nat -> (m < nx)%nat ->
  snd (lin_loop var) (ix o t c) (ix o k m) = if (k =? t)%nat then - t_scale o * old_at o (o_dyn_jac o) var t c m else 0.
Proof.
  intros var t c k m Ht Hc Hk Hm. unfold lin_loop. pose proof (xcol_lt o k m Hk Hm) as Hx.
  rewrite (loop_once _ _ (fun v : vec R * mat R => snd v (ix o t c) (ix o k m)) N _ _ (fun n => (n =? t)%nat)
    (fun n v => if (n =? k)%nat then - t_scale o * old_at o (o_dyn_jac o) var n c m else v) t); auto.
  - cbn [snd]. rewrite (Nat.eqb_sym k t). reflexivity.
  - intros n [v A] Hn. unfold lin_step. cbn [snd]. unfold mset.
    rewrite (in_seg_false (n * nu + vx) nu (ix o k m)) by lia. rewrite andb_false_r.
    unfold ix. rewrite !node_eqb by auto.
    destruct (Nat.eqb_spec n t) as [->|]; cbn [andb]; auto.
    destruct (Nat.eqb_spec t k) as [<-|]; cbn [andb]; auto.
    replace (t * nx + c - t * nx)%nat with c by lia. replace (t * nx + m - t * nx)%nat with m by lia.
    rewrite ad_jac_default by lia. reflexivity.
  - apply Nat.eqb_refl.
  - intros. apply Nat.eqb_neq. auto.
Qed.
Lemma lin_loop_u : forall var t c k m, (t < N)%nat -> (c < nx)%nat -> (k < N)%nat -> (m < nu)%nat ->
  snd (lin_loop var) (ix o t c) (iu o k m) = if (k =? t)%nat then - t_scale o * old_at o (o_dyn_jac o) var t c (nx + m)%nat else 0.
Proof.
  intros var t c k m Ht Hc Hk Hm. unfold lin_loop. pose proof (iu_range o k m Hk Hm) as Hx.
  rewrite (loop_once _ _ (fun v : vec R * mat R => snd v (ix o t c) (iu o k m)) N _ _ (fun n => (n =? t)%nat)
    (fun n v => if (n =? k)%nat then - t_scale o * old_at o (o_dyn_jac o) var n c (nx + m)%nat else v) t); auto.
  - cbn [snd]. rewrite (Nat.eqb_sym k t). reflexivity.
  - intros n [v A] Hn. unfold lin_step. cbn [snd]. unfold mset.
    rewrite (in_seg_false (n * nx) nx (iu o k m)) by (right; unfold VARX in Hx; nia). rewrite andb_false_r.
    unfold ix. rewrite iu_seg by auto. rewrite !node_eqb by auto.
    destruct (Nat.eqb_spec n t) as [->|]; cbn [andb]; auto.
    destruct (Nat.eqb_spec t k) as [<-|]; cbn [andb]; auto.
    replace (t * nx + c - t * nx)%nat with c by lia.
    replace (iu o t m - (t * nu + vx))%nat with m by (unfold iu, VARX, NUM_NODES; lia).
    rewrite ad_jac_default by lia. reflexivity.
  - apply Nat.eqb_refl.
  - intros. apply Nat.eqb_neq. auto.
Qed.

Lemma aut_cheb : chebyshev_ocp o -> chebyshev_ocp aut.
Proof. intro H; exact H. Qed.

Lemma old_jac_dir : chebyshev_ocp o -> forall var v i, (i < NUM_EQ o)%nat -> param_free o v ->
  rsum (VAR o) (fun j => old_jac var i j * v j) = rsum (VAR o) (fun j => dense_jac aut var i j * v j).
Proof.
  intros Hch var v i Hi Hv. pose proof Hch as (HP & HS & _). destruct (index_split nx N i Hi) as (t & c & -> & Ht & Hc).
  destruct (node_decomp o t HP HS Ht) as (s & l & -> & Hs & Hl & Hd).
  change ((s * P + l) * nx + c)%nat with (ix o (s * P + l) c).
  rewrite !rsum_var. f_equal; [f_equal|].
  - apply rsum_ext. intros k Hk. apply rsum_ext. intros m Hm. f_equal.
    etransitivity; [|symmetry; exact (dense_jac_x aut (aut_cheb Hch) var s l c k m Hs Hl Hd Hc Hm Hk)].
    rewrite old_jac_eq. pose proof (xcol_lt o k m Hk Hm). destruct (Nat.ltb_spec (ix o k m) vx); [|lia].
    rewrite lin_loop_x, old_kron_eq, old_DM_eq by auto.
    change (PO aut) with P. change (at_node aut (o_dyn_jac aut) var (s * P + l)) with (old_at o (o_dyn_jac o) var (s * P + l)). change (t_scale aut) with (t_scale o).
    change (dmat aut s l k) with (dmat o s l k). change (PO aut) with P. destruct (k =? s * P + l)%nat; ring.
  - apply rsum_ext. intros k Hk. apply rsum_ext. intros m Hm. f_equal.
    etransitivity; [|symmetry; exact (dense_jac_u aut (aut_cheb Hch) var (s * P + l) c k m Ht Hc Hm Hk)].
    rewrite old_jac_eq. pose proof (iu_range o k m Hk Hm). destruct (Nat.ltb_spec (iu o k m) vx); [lia|].
    rewrite lin_loop_u by auto. change (at_node aut (o_dyn_jac aut) var (s * P + l)) with (old_at o (o_dyn_jac o) var (s * P + l)).
    change (t_scale aut) with (t_scale o). change (NX aut) with nx. destruct (k =? s * P + l)%nat; ring.
  - rewrite !rsum_zero; auto; intros m Hm; rewrite (Hv m Hm); ring.
Qed.

Lemma old_linearized_ok : chebyshev_ocp o -> jacobian_of o nx (o_dyn o) (o_dyn_jac o) -> forall var i, (i < NUM_EQ o)%nat ->
  fst (old_linearized o (ode_default o) var) i = old_residual o (ode_default o) var i /\
  forall v, param_free o v ->
    dir_deriv (fun x => old_residual o (ode_default o) x i) var v (rsum (VAR o) (fun j => old_jac var i j * v j)).
Proof.
  intros Hch HJ var i Hi. pose proof Hch as (HP & HS & _). split.
  - rewrite old_residual_eq by auto. destruct (index_split nx N i Hi) as (t & c & -> & Ht & Hc).
    destruct (node_decomp o t HP HS Ht) as (s & l & -> & Hs & Hl & Hd).
    rewrite old_lin_val. change ((s * P + l) * nx + c)%nat with (ix o (s * P + l) c).
    rewrite old_diff_mul by auto. rewrite lin_loop_val by auto.
    change (ix o (s * P + l) c) with (ix aut (s * P + l) c). rewrite (equalities_eq aut) by auto. reflexivity.
  - intros v Hv. rewrite old_jac_dir by auto.
    apply (dir_deriv_ext (fun x => equalities aut x i)); [intro y; symmetry; apply old_residual_eq; auto|].
    apply (equalities_dir aut (aut_cheb Hch)); auto.
    intros a Ha x u p t dx du dp. apply (HJ a Ha x u p 0 dx du dp).
Qed.

(** * cost *)
Definition mult (k : nat) : R := if junction o k then 2 else 1.

Lemma junction_spec : forall s l, (1 <= P)%nat -> (s < Sg)%nat -> (l < P)%nat ->
  (mult (s * P + l) = if (l =? 0)%nat && negb (s =? 0)%nat then 2 else 1) /\ ((s * P + l) mod P = l)%nat.
Proof.
  intros s l HP Hs Hl. assert (E : ((s * P + l) mod P = l)%nat).
  { rewrite Nat.add_comm, Nat.mod_add by lia. apply Nat.mod_small; auto. }
  split; auto. unfold mult, junction. rewrite E. destruct (Nat.eqb_spec l 0) as [->|Hl0]; cbn [andb]; auto.
  destruct (Nat.eqb_spec s 0) as [->|Hs0]; cbn [negb andb].
  - rewrite Nat.mul_0_l. reflexivity.
  - destruct (Nat.eqb_spec (s * P + 0) 0); [nia|]. cbn [negb andb]. destruct (Nat.ltb_spec (s * P + 0) (Sg * P)); [auto|nia].
Qed.

Lemma node_sum : forall (w f : nat -> R), (1 <= P)%nat -> (1 <= Sg)%nat -> w P = w O ->
  rsum N (fun k => mult k * w (k mod P)%nat * f k) = rsum Sg (fun s => rsum (S P) (fun l => w l * f (l + s * P)%nat)).
Proof.
  intros w f HP HS Hw.
  assert (Q : forall m, (m <= Sg)%nat ->
    rsum (m * P) (fun k => mult k * w (k mod P)%nat * f k) + (if (m =? 0)%nat then 0 else w O * f (m * P)%nat)
    = rsum m (fun s => rsum (S P) (fun l => w l * f (l + s * P)%nat))).
  { induction m as [|m IH]; intro Hm; [cbn [Nat.mul]; rewrite !rsum_0; simpl; ring|].
    rewrite rsum_S, <- IH by lia. replace (S m * P)%nat with (m * P + P)%nat by lia. rewrite rsum_split.
    rewrite rsum_S, Hw. replace (P + m * P)%nat with (m * P + P)%nat by lia.
    assert (E : rsum P (fun i => mult (m * P + i) * w ((m * P + i) mod P)%nat * f (m * P + i)%nat) =
      rsum P (fun l => w l * f (l + m * P)%nat) + (if (m =? 0)%nat then 0 else w O * f (m * P)%nat)).
    { rewrite (rsum_ext P _ (fun l => w l * f (l + m * P)%nat + (if (l =? 0)%nat then (fun _ => if (m =? 0)%nat then 0 else w O * f (m * P)%nat) l else 0))).
      - rewrite rsum_plus, rsum_delta by lia. reflexivity.
      - intros i Hi. destruct (junction_spec m i HP ltac:(lia) Hi) as [E3 E4]. rewrite E3, E4.
        replace (m * P + i)%nat with (i + m * P)%nat by lia.
        destruct (Nat.eqb_spec i 0) as [->|]; cbn [andb Nat.add]; [destruct (m =? 0)%nat; cbn [negb]|]; ring. }
    rewrite E. cbn [Nat.eqb]. ring. }
  rewrite <- Q by lia. unfold NUM_NODES. replace (P * Sg + 1)%nat with (S (Sg * P)) by lia. rewrite rsum_S. f_equal.
  rewrite Nat.mod_mul by lia. destruct (Nat.eqb_spec Sg 0); [lia|].
  unfold mult, junction. rewrite Nat.ltb_irrefl, andb_false_r. ring.
Qed.

Lemma w_ends : chebyshev_ocp o -> m_w o P = m_w o O.
Proof.
  intros (HP & _ & _ & _ & _ & Hw). rewrite !Hw by lia. rewrite <- (cc_symmetric P 0) by lia. f_equal. lia.
Qed.

Lemma ol_val_eq : forall var k, ol_val o var k = lag_val aut var k.
Proof. intros. unfold ol_val, lag_val, call. cbn [o_lag aut]. destruct (o_lag o) as [g|]; reflexivity. Qed.
Lemma om_val_eq : forall var, om_val o var = may_val aut var.
Proof. intros. unfold om_val, may_val, call. cbn [o_may aut]. destruct (o_may o) as [g|]; reflexivity. Qed.

Lemma cost_aut_sum : chebyshev_ocp o -> forall var,
  rsum N (fun k => mult k * (t_scale o * m_w o (k mod P)%nat) * lag_val aut var k) + may_val aut var = cost aut var.
Proof.
  intros Hch var. pose proof Hch as (HP & HS & _). rewrite cost_eq. f_equal.
  apply (node_sum (fun l => t_scale o * m_w o l) (lag_val aut var) HP HS). rewrite (w_ends Hch). reflexivity.
Qed.

Lemma old_cost_eq : chebyshev_ocp o -> forall var, old_cost_value o (cost_default o) var = cost aut var.
Proof.
  intros Hch var. rewrite <- (cost_aut_sum Hch). unfold old_cost_value.
  destruct (loop_add R (fun _ => True) (fun c => c) N
    (fun k c => let L := ol_val o var k in let c1 := c + t_scale o * oc_w (cost_default o) (k mod P)%nat * L in
       if junction o k then c1 + t_scale o * oc_w (cost_default o) (k mod P)%nat * L else c1)
    (fun k => mult k * (t_scale o * m_w o (k mod P)%nat) * lag_val aut var k) (0 + om_val o var) I) as [_ E].
  - intros k c Hk _. split; auto. cbv zeta. rewrite ol_val_eq. unfold mult. cbn [oc_w cost_default]. destruct (junction o k); ring.
  - etransitivity; [exact E|]. rewrite om_val_eq. ring.
Qed.

(** derivative vectors through identity seeds *)
Lemma ad_grad_default : forall n g j, old_ad_grad (cost_default o) n g j = if (j <? n)%nat then g j else 0.
Proof.
  intros n g j. unfold old_ad_grad. cbn [oc_seed cost_default].
  rewrite (ssum_ext _ _ (fun m => if (m =? j)%nat then g m else 0)).
  - destruct (Nat.ltb_spec j n); [apply (rsum_delta n j); auto|apply (rsum_delta_out n j); auto].
  - intros m Hm. destruct (m =? j)%nat; simpl; ring.
Qed.
Lemma ad_hes_default : forall n h i j, old_ad_hes (cost_default o) n h i j = if (i <? n)%nat && (j <? n)%nat then h i j else 0.
Proof.
  intros n h i j. unfold old_ad_hes. cbn [oc_seed cost_default].
  rewrite (ssum_ext _ _ (fun a => if (a =? i)%nat then (if (j <? n)%nat then h a j else 0) else 0)).
  - destruct (Nat.ltb_spec i n); [apply (rsum_delta n i (fun a => if (j <? n)%nat then h a j else 0)); auto|
      apply (rsum_delta_out n i (fun a => if (j <? n)%nat then h a j else 0)); auto].
  - intros a Ha. rewrite (ssum_ext _ _ (fun b => if (b =? j)%nat then (if (a =? i)%nat then h a b else 0) else 0)).
    + destruct (Nat.ltb_spec j n).
      * apply (rsum_delta n j (fun b => if (a =? i)%nat then h a b else 0)); auto.
      * rewrite (rsum_delta_out n j (fun b => if (a =? i)%nat then h a b else 0)) by auto. destruct (a =? i)%nat; auto.
    + intros b Hb. destruct (a =? i)%nat, (b =? j)%nat; simpl; ring.
Qed.

(** drop the parameter entries *)
Definition gmask (g : vec R) : vec R := fun i => if (i <? nx + nu)%nat then g i else 0.
Definition hmask (h : mat R) : mat R := fun i j => if (i <? nx + nu)%nat && (j <? nx + nu)%nat then h i j else 0.
Definition nadd1 (n : nat) (g : vec R) (i : nat) : R := match zidx o n i with Some a => g a | None => 0 end.

Lemma zidx_unique : forall n k i a, (n < N)%nat -> (k < N)%nat -> (i < VAR o)%nat ->
  zidx o n i = Some a -> (a < nx + nu)%nat -> k <> n -> zidx o k i = None.
Proof.
  intros n k i a Hn Hk Hi E Ha Hne.
  destruct (col_cases o n i Hn Hi) as [(b & Eb & Hb & Db & B1 & B2 & B3)|[(b & Eb & Hb & Db & B1 & B2 & B3)|[(b & Eb & Hb & Db & B1 & B2 & B3)|(Eb & B1 & B2 & B3)]]];
  rewrite Eb in E; inversion E; subst a.
  - apply in_seg_spec in B1. assert (Hx : (i < vx)%nat) by (unfold VARX; nia). unfold zidx.
    rewrite (in_seg_false (k * nx) nx i) by (assert (k < n \/ n < k)%nat as [|] by lia; [right|left]; nia).
    rewrite (in_seg_false (k * nu + vx) nu i) by lia. rewrite B3. reflexivity.
  - apply in_seg_spec in B2. assert (Hx : (vx <= i)%nat) by lia. unfold zidx.
    rewrite (in_seg_false (k * nx) nx i) by (right; unfold VARX in Hx; nia).
    rewrite (in_seg_false (k * nu + vx) nu i) by (assert (k < n \/ n < k)%nat as [|] by lia; [right|left]; nia).
    rewrite B3. reflexivity.
  - lia.
Qed.

Lemma gnode_eq : forall v k g i, (k < N)%nat -> (i < VAR o)%nat -> 
  old_grad_node o v k g i = match zidx o k i with Some a => if (a <? nx + nu)%nat then mult k * g a else v i | None => v i end.
Proof.
  intros v k g i Hk Hi. unfold old_grad_node, mult. cbv zeta.
  destruct (col_cases o k i Hk Hi) as [(b & Eb & Hb & Db & B1 & B2 & B3)|[(b & Eb & Hb & Db & B1 & B2 & B3)|[(b & Eb & Hb & Db & B1 & B2 & B3)|(Eb & B1 & B2 & B3)]]];
  rewrite Eb; destruct (junction o k); unfold vset; rewrite ?B1, ?B2.
  all: try (destruct (Nat.ltb_spec (nx + nu + b) (nx + nu)); [lia|]); try reflexivity.
  - destruct (Nat.ltb_spec b (nx + nu)); [|lia]. replace (k * nx + (i - k * nx))%nat with i by (apply in_seg_spec in B1; lia).
    rewrite B1, B2, Db. simpl. ring.
  - destruct (Nat.ltb_spec b (nx + nu)); [|lia]. rewrite Db. ring.
  - destruct (Nat.ltb_spec (nx + b) (nx + nu)); [|lia]. replace (k * nu + vx + (i - (k * nu + vx)))%nat with i by (apply in_seg_spec in B2; lia).
    rewrite B1, B2, Db. simpl. ring.
  - destruct (Nat.ltb_spec (nx + b) (nx + nu)); [|lia]. rewrite Db. ring.
Qed.

Lemma grad_loop : forall (G : nat -> vec R) m, (m <= N)%nat -> forall i, (i < VAR o)%nat ->
  loop m (fun k v => old_grad_node o v k (G k)) (fun _ => 0) i = rsum m (fun k => mult k * nadd1 k (gmask (G k)) i).
Proof.
  intros G m. induction m as [|m IH]; intros Hm i Hi; [reflexivity|].
  cbn [loop]. rewrite rsum_S, gnode_eq by (auto; lia). unfold nadd1 at 2, gmask at 2.
  destruct (zidx o m i) as [a|] eqn:E.
  - destruct (Nat.ltb_spec a (nx + nu)) as [Ha|Ha].
    + rewrite (rsum_zero m); [ring|]. intros k Hk. unfold nadd1. rewrite (zidx_unique m k i a) by (auto; lia). ring.
    + rewrite IH by (auto; lia). ring.
  - rewrite IH by (auto; lia). ring.
Qed.

Lemma nadd1_dot : forall k g d, (k < N)%nat ->
  rsum (VAR o) (fun i => nadd1 k g i * d i) = node_dot o g (state o d k) (control o d k) (params o d).
Proof.
  intros k g d Hk. rewrite <- (Rplus_0_l (node_dot _ _ _ _ _)).
  replace 0 with (rsum (VAR o) (fun j => (fun _ => 0) j * d j)) by (apply rsum_zero; intros; ring).
  rewrite <- grad_add_dot by auto. apply rsum_ext. intros i Hi. f_equal. unfold grad_add, vacc, nadd1.
  destruct (col_cases o k i Hk Hi) as [(b & Eb & Hb & Db & B1 & B2 & B3)|[(b & Eb & Hb & Db & B1 & B2 & B3)|[(b & Eb & Hb & Db & B1 & B2 & B3)|(Eb & B1 & B2 & B3)]]];
  rewrite Eb, B1, B2, B3, ?Db; simpl; ring.
Qed.

Lemma gmask_dot : forall g k d, param_free o d ->
  node_dot o (gmask g) (state o d k) (control o d k) (params o d) = node_dot o g (state o d k) (control o d k) (params o d).
Proof.
  intros g k d Hd. unfold node_dot, gmask. f_equal; [f_equal|].
  - apply rsum_ext. intros i Hi. destruct (Nat.ltb_spec i (nx + nu)); [auto|lia].
  - apply rsum_ext. intros i Hi. destruct (Nat.ltb_spec (nx + i) (nx + nu)); [auto|lia].
  - rewrite !rsum_zero; auto; intros i Hi; unfold params; rewrite (Hd i Hi); ring.
Qed.

Definition ncoef (k : nat) : R := t_scale o * m_w o (k mod P)%nat.

(** the value component of both derivative routines *)
Lemma val_loop : forall var c0, 
  loop N (fun k c => let L := ol_val o var k in let c1 := c + ncoef k * L in if junction o k then c1 + ncoef k * L else c1) c0 =
  c0 + rsum N (fun k => mult k * (t_scale o * m_w o (k mod P)%nat) * lag_val aut var k).
Proof.
  intros var c0. apply (loop_add R (fun _ => True) (fun c => c)); auto.
  intros k c Hk _. split; auto. cbv zeta. rewrite ol_val_eq. unfold mult, ncoef. destruct (junction o k); ring.
Qed.

Lemma loop_pair : forall A B n (f : nat -> A -> A) (g : nat -> B -> B) a b,
  loop n (fun k s => let '(x, y) := s in (f k x, g k y)) (a, b) = (loop n f a, loop n g b).
Proof. intros. induction n as [|n IH]; [reflexivity|]. cbn [loop]. rewrite IH. reflexivity. Qed.
Lemma loop_triple : forall A B C n (f : nat -> A -> A) (g : nat -> B -> B) (h : nat -> C -> C) a b c,
  loop n (fun k s => let '(x, y, z) := s in (f k x, g k y, h k z)) (a, b, c) = (loop n f a, loop n g b, loop n h c).
Proof. intros. induction n as [|n IH]; [reflexivity|]. cbn [loop]. rewrite IH. reflexivity. Qed.

Definition ngrad (var : vec R) (k : nat) : vec R := fun i => ncoef k * old_ad_grad (cost_default o) (nx + nu) (ol_grad o var k) i.
Definition nhes (var : vec R) (k : nat) : mat R := fun i j => ncoef k * old_ad_hes (cost_default o) (nx + nu) (ol_hes o var k) i j.
Definition vloop (var : vec R) : R :=
  loop N (fun k c => let L := ol_val o var k in let c1 := c + ncoef k * L in if junction o k then c1 + ncoef k * L else c1) 0.
Definition gloop (var : vec R) : vec R := loop N (fun k v => old_grad_node o v k (ngrad var k)) (fun _ => 0).
Definition hloop (var : vec R) : mat R := loop N (fun k H => old_hes_node o H k (nhes var k)) (fun _ _ => 0).
Definition gfinal (var : vec R) : vec R := vacc (gloop var) 0 (nx + nu) (old_ad_grad (cost_default o) nx (om_grad o var)).
Definition hfinal (var : vec R) : mat R := macc (hloop var) 0 0 (nx + nu) (nx + nu) (old_ad_hes (cost_default o) nx (om_hes o var)).

Lemma value_gradient_eq : forall var, old_value_gradient o (cost_default o) var = (vloop var + om_val o var, gfinal var).
Proof.
  intro var. unfold old_value_gradient.
  match goal with |- (let '(_, _) := ?L in _) = _ =>
    replace L with (vloop var, gloop var) by (symmetry; apply (loop_pair R (vec R) N)) end.
  reflexivity.
Qed.
Lemma value_gradient_hessian_eq : forall var,
  old_value_gradient_hessian o (cost_default o) var = (vloop var + om_val o var, gfinal var, hfinal var).
Proof.
  intro var. unfold old_value_gradient_hessian.
  match goal with |- context [loop N ?f ?a] =>
    replace (loop N f a) with (vloop var, gloop var, hloop var) by (symmetry; apply (loop_triple R (vec R) (mat R) N)) end.
  reflexivity.
Qed.
Lemma value_eq : chebyshev_ocp o -> forall var, vloop var + om_val o var = cost aut var.
Proof.
  intros Hch var. unfold vloop. rewrite val_loop, <- (cost_aut_sum Hch), om_val_eq. ring.
Qed.

Lemma ol_grad_eq : forall var k, ol_grad o var k = lag_grad aut var k.
Proof. intros. unfold ol_grad, lag_grad, call. cbn [o_lag aut]. destruct (o_lag o) as [g|]; reflexivity. Qed.
Lemma ol_hes_eq : forall var k, ol_hes o var k = lag_hes aut var k.
Proof. intros. unfold ol_hes, lag_hes, call. cbn [o_lag aut]. destruct (o_lag o) as [g|]; reflexivity. Qed.
Lemma om_grad_eq : forall var i, (if (i <? nx)%nat then om_grad o var i else 0) = may_grad aut var i.
Proof.
  intros. unfold om_grad, may_grad, call. cbn [o_may aut]. destruct (o_may o) as [g|]; [reflexivity|].
  cbn [option_map]. destruct (i <? nx)%nat; reflexivity.
Qed.
Lemma om_hes_eq : forall var i j, (if (i <? nx)%nat && (j <? nx)%nat then om_hes o var i j else 0) = may_hes aut var i j.
Proof.
  intros. unfold om_hes, may_hes, call. cbn [o_may aut]. destruct (o_may o) as [g|]; [reflexivity|].
  cbn [option_map]. destruct ((i <? nx)%nat && (j <? nx)%nat); reflexivity.
Qed.

Lemma dims_aut : VAR aut = VAR o. Proof. reflexivity. Qed.

Lemma node_dot_mask_ngrad : forall var k d, param_free o d ->
  node_dot o (gmask (ngrad var k)) (state o d k) (control o d k) (params o d) =
  ncoef k * node_dot aut (lag_grad aut var k) (state aut d k) (control aut d k) (params aut d).
Proof.
  intros var k d Hd. rewrite gmask_dot by auto. unfold ngrad. rewrite (node_dot_scal o (ncoef k)). f_equal.
  change (node_dot aut (lag_grad aut var k) (state aut d k) (control aut d k) (params aut d))
    with (node_dot o (lag_grad aut var k) (state o d k) (control o d k) (params o d)).
  rewrite <- (gmask_dot (lag_grad aut var k)) by auto.
  apply node_dot_ext. intro i. rewrite ad_grad_default, ol_grad_eq. reflexivity.
Qed.

Lemma nvx : (1 <= P)%nat -> (1 <= Sg)%nat -> (1 <= nx)%nat -> (nx <= vx)%nat /\ (nx + nu <= VAR o)%nat.
Proof. intros. unfold VAR, VARX, VARU, NUM_NODES. split; nia. Qed.

Lemma gfinal_dot : chebyshev_ocp o -> forall var d, param_free o d ->
  rsum (VAR o) (fun j => gfinal var j * d j) = grad_dot aut var d.
Proof.
  intros Hch var d Hd. pose proof Hch as (HP & HS & HX & _). destruct (nvx HP HS HX) as [Hnx Hnu].
  unfold gfinal. rewrite vacc_dot by lia. unfold grad_dot. f_equal.
  - rewrite (rsum_ext (VAR o) _ (fun i => rsum N (fun k => mult k * nadd1 k (gmask (ngrad var k)) i * d i))).
    2:{ intros i Hi. unfold gloop. rewrite grad_loop by auto. rewrite <- rsum_scal_r. reflexivity. }
    rewrite rsum_swap.
    rewrite (rsum_ext N _ (fun k => mult k * (fun l => t_scale o * m_w o l) (k mod P)%nat *
       node_dot aut (lag_grad aut var k) (state aut d k) (control aut d k) (params aut d))).
    + apply (node_sum (fun l => t_scale o * m_w o l) (fun k => node_dot aut (lag_grad aut var k) (state aut d k) (control aut d k) (params aut d))); auto.
      rewrite (w_ends Hch). reflexivity.
    + intros k Hk. rewrite (rsum_ext _ _ (fun i => mult k * (nadd1 k (gmask (ngrad var k)) i * d i))) by (intros; ring).
      rewrite rsum_scal, nadd1_dot, node_dot_mask_ngrad by auto. unfold ncoef. ring.
  - cbn [Nat.add]. rewrite rsum_split.
    rewrite (rsum_zero nu) by (intros i Hi; rewrite ad_grad_default; destruct (Nat.ltb_spec (nx + i) nx); [lia|ring]).
    unfold node_dot.
    assert (Z : forall i, (nx <= i)%nat -> may_grad aut var i = 0).
    { intros i Hi. rewrite <- om_grad_eq. destruct (Nat.ltb_spec i nx); [lia|auto]. }
    rewrite (rsum_zero (NU aut)) by (intros i Hi; rewrite Z by (cbn; lia); ring).
    rewrite (rsum_zero (NP aut)) by (intros i Hi; rewrite Z by (cbn; lia); ring).
    rewrite !Rplus_0_r. apply rsum_ext. intros i Hi. rewrite ad_grad_default, om_grad_eq. unfold state, ix. reflexivity.
Qed.

Lemma aut_grads : cost_gradients_exact o -> cost_gradients_exact aut.
Proof.
  intros [HL HM]. split; cbn [o_lag o_may aut].
  - destruct (o_lag o) as [g|]; cbn [option_map]; auto. intros x u p t dx du dp. apply (HL x u p 0 dx du dp).
  - destruct (o_may o) as [g|]; cbn [option_map]; auto. intros x u p t dx du dp.
    replace (node_dot aut (get_grad (mayA g) x u p t) dx du dp) with (node_dot o (get_grad g x z0 z0 0) dx z0 z0).
    + apply derivable_pt_lim_ext with (fun h => get_val g (fun i => x i + h * dx i) (fun i => z0 i + h * z0 i) (fun i => z0 i + h * z0 i) 0).
      * intro h. cbn [mayA get_val fst snd]. unfold get_val.
        replace (fun i : nat => z0 i + h * z0 i) with z0; [reflexivity|]. apply functional_extensionality. intro i. unfold z0. ring.
      * apply HM.
    + unfold node_dot, mayA, get_grad. cbn [fst snd NX NU NP aut].
      f_equal; [f_equal|].
      * apply rsum_ext. intros i Hi. destruct (Nat.ltb_spec i nx); [auto|lia].
      * apply rsum_ext. intros i Hi. destruct (Nat.ltb_spec (nx + i) nx); [lia|]. unfold z0. ring.
      * apply rsum_ext. intros i Hi. destruct (Nat.ltb_spec (nx + nu + i) nx); [lia|]. unfold z0. ring.
Qed.
Lemma aut_hess : cost_hessians_exact o -> cost_hessians_exact aut.
Proof.
  intros [HL HM]. split; cbn [o_lag o_may aut].
  - destruct (o_lag o) as [g|]; cbn [option_map]; auto. destruct HL as [HL1 HL2]. split.
    + intros i Hi x u p t dx du dp. apply (HL1 i Hi x u p 0 dx du dp).
    + intros x u p t i j Hi Hj. apply (HL2 x u p 0 i j Hi Hj).
  - destruct (o_may o) as [g|]; cbn [option_map]; auto. destruct HM as [HM1 HM2]. split.
    + intros i Hi x u p t dx du dp. cbn [NX NU NP aut] in Hi.
      destruct (Nat.ltb_spec i nx) as [Hix|Hix].
      * replace (node_dot aut (get_hes (mayA g) x u p t i) dx du dp) with (node_dot o (get_hes g x z0 z0 0 i) dx z0 z0).
        -- apply derivable_pt_lim_ext with (fun h => get_grad g (fun i => x i + h * dx i) (fun i => z0 i + h * z0 i) (fun i => z0 i + h * z0 i) 0 i).
           ++ intro h. unfold mayA, get_grad. cbn [fst snd]. destruct (Nat.ltb_spec i nx); [|lia].
              replace (fun i : nat => z0 i + h * z0 i) with z0; [reflexivity|]. apply functional_extensionality. intro a. unfold z0. ring.
           ++ apply (HM1 i Hi).
        -- unfold node_dot, mayA, get_hes. cbn [fst snd NX NU NP aut]. destruct (Nat.ltb_spec i nx); [|lia]. cbn [andb].
           f_equal; [f_equal|].
           ++ apply rsum_ext. intros a Ha. destruct (Nat.ltb_spec a nx); [auto|lia].
           ++ apply rsum_ext. intros a Ha. destruct (Nat.ltb_spec (nx + a) nx); [lia|]. unfold z0. ring.
           ++ apply rsum_ext. intros a Ha. destruct (Nat.ltb_spec (nx + nu + a) nx); [lia|]. unfold z0. ring.
      * replace (node_dot aut (get_hes (mayA g) x u p t i) dx du dp) with 0.
        -- apply derivable_pt_lim_ext with (fun _ => 0); [|apply derivable_pt_lim_const].
           intro h. unfold mayA, get_grad. cbn [fst snd]. destruct (Nat.ltb_spec i nx); [lia|auto].
        -- symmetry. unfold node_dot, mayA, get_hes. cbn [fst snd]. destruct (Nat.ltb_spec i nx); [lia|]. cbn [andb].
           rewrite !rsum_zero; try ring; intros; ring.
    + intros x u p t i j Hi Hj. unfold mayA, get_hes. cbn [fst snd]. rewrite andb_comm.
      destruct ((j <? nx)%nat && (i <? nx)%nat); auto. apply (HM2 x z0 z0 0 i j Hi Hj).
Qed.

Lemma old_gradient_ok : chebyshev_ocp o -> cost_gradients_exact o -> forall var d, param_free o d ->
  dir_deriv (old_cost_value o (cost_default o)) var d (rsum (VAR o) (fun j => gfinal var j * d j)).
Proof.
  intros Hch HG var d Hd. rewrite (gfinal_dot Hch) by auto.
  apply (dir_deriv_ext (cost aut)); [intro; symmetry; apply old_cost_eq; auto|].
  destruct (aut_grads HG). apply cost_dir; auto.
Qed.

(** * Hessian *)
Lemma hnode_eq : forall H k h i j, (k < N)%nat -> (i < VAR o)%nat -> (j < VAR o)%nat ->
  old_hes_node o H k h i j = match zidx o k i, zidx o k j with
    | Some a, Some b => if (a <? nx + nu)%nat && (b <? nx + nu)%nat then mult k * h a b else H i j
    | _, _ => H i j end.
Proof.
  intros H k h i j Hk Hi Hj. unfold old_hes_node, mult. cbv zeta.
  destruct (col_cases o k i Hk Hi) as [(a & Ea & Ha & Da & A1 & A2 & A3)|[(a & Ea & Ha & Da & A1 & A2 & A3)|[(a & Ea & Ha & Da & A1 & A2 & A3)|(Ea & A1 & A2 & A3)]]];
  destruct (col_cases o k j Hk Hj) as [(b & Eb & Hb & Db & B1 & B2 & B3)|[(b & Eb & Hb & Db & B1 & B2 & B3)|[(b & Eb & Hb & Db & B1 & B2 & B3)|(Eb & B1 & B2 & B3)]]];
  rewrite Ea, ?Eb; destruct (junction o k); unfold mset; rewrite ?A1, ?A2, ?B1, ?B2; cbn [andb]; rewrite ?andb_false_r;
  repeat match goal with |- context [(?x <? ?y)%nat] => destruct (Nat.ltb_spec x y); [try (exfalso; lia)|try (exfalso; lia)] end; cbn [andb];
  try reflexivity;
  try match type of A1 with _ = true => replace (k * nx + (i - k * nx))%nat with i by (apply in_seg_spec in A1; lia) end;
  try match type of A2 with _ = true => replace (k * nu + vx + (i - (k * nu + vx)))%nat with i by (apply in_seg_spec in A2; lia) end;
  try match type of B1 with _ = true => replace (k * nx + (j - k * nx))%nat with j by (apply in_seg_spec in B1; lia) end;
  try match type of B2 with _ = true => replace (k * nu + vx + (j - (k * nu + vx)))%nat with j by (apply in_seg_spec in B2; lia) end;
  rewrite ?A1, ?A2, ?B1, ?B2; cbn [andb]; unfold blk; rewrite ?Da, ?Db; cbn [Nat.add]; simpl; ring.
Qed.

Lemma hes_loop : forall (G : nat -> mat R) m, (m <= N)%nat -> forall i j, (i < VAR o)%nat -> (j < VAR o)%nat ->
  loop m (fun k v => old_hes_node o v k (G k)) (fun _ _ => 0) i j = rsum m (fun k => mult k * nadd o k (hmask (G k)) i j).
Proof.
  intros G m. induction m as [|m IH]; intros Hm i j Hi Hj; [reflexivity|].
  cbn [loop]. rewrite rsum_S, hnode_eq by (auto; lia). unfold nadd at 2, hmask at 2.
  destruct (zidx o m i) as [a|] eqn:Ei; [destruct (zidx o m j) as [b|] eqn:Ej|].
  - destruct (Nat.ltb_spec a (nx + nu)) as [Ha|Ha]; [destruct (Nat.ltb_spec b (nx + nu)) as [Hb|Hb]|]; cbn [andb].
    + rewrite (rsum_zero m); [ring|]. intros k Hk. unfold nadd. rewrite (zidx_unique m k i a) by (auto; lia). ring.
    + rewrite IH by (auto; lia). ring.
    + rewrite IH by (auto; lia). ring.
  - rewrite IH by (auto; lia). ring.
  - rewrite IH by (auto; lia). ring.
Qed.

Lemma hmask_bil : forall h k e d, param_free o e -> param_free o d -> bil o (hmask h) e d k = bil o h e d k.
Proof.
  intros h k e d He Hd. unfold bil, node_bil.
  rewrite <- (gmask_dot (fun i => node_dot o (hmask h i) (state o d k) (control o d k) (params o d))) by auto.
  rewrite <- (gmask_dot (fun i => node_dot o (h i) (state o d k) (control o d k) (params o d))) by auto.
  apply node_dot_ext. intro i. unfold gmask at 1 2. destruct (Nat.ltb_spec i (nx + nu)) as [Hi|]; auto.
  rewrite <- (gmask_dot (h i)) by auto. apply node_dot_ext. intro j. unfold hmask, gmask.
  destruct (Nat.ltb_spec i (nx + nu)); [auto|lia].
Qed.

Lemma bil_ext : forall h h' e d k, (forall i j, h i j = h' i j) -> bil o h e d k = bil o h' e d k.
Proof. intros. unfold bil, node_bil. apply node_dot_ext. intro. apply node_dot_ext. auto. Qed.

Lemma bil_mask_nhes : forall var k e d, param_free o e -> param_free o d ->
  bil o (hmask (nhes var k)) e d k = ncoef k * bil aut (lag_hes aut var k) e d k.
Proof.
  intros var k e d He Hd. rewrite hmask_bil by auto. unfold nhes. rewrite (bil_scal o (ncoef k)). f_equal.
  change (bil aut (lag_hes aut var k) e d k) with (bil o (lag_hes aut var k) e d k).
  rewrite <- (hmask_bil (lag_hes aut var k)) by auto. apply bil_ext. intros i j.
  rewrite ad_hes_default, ol_hes_eq. reflexivity.
Qed.

Lemma qf2_scal_l : forall n m (c : nat -> R) (A : nat -> mat R) e d,
  qf2 n (fun i j => rsum m (fun k => c k * A k i j)) e d = rsum m (fun k => c k * qf2 n (A k) e d).
Proof.
  intros. rewrite (qf2_sum n m (fun k i j => c k * A k i j)). apply rsum_ext. intros k _. apply qf2_scal.
Qed.

Lemma hfinal_qf : chebyshev_ocp o -> forall var e d, param_free o e -> param_free o d ->
  qf2 (VAR o) (hfinal var) e d = hes_bil aut var e d.
Proof.
  intros Hch var e d He Hd. pose proof Hch as (HP & HS & HX & _). destruct (nvx HP HS HX) as [Hnx Hnu].
  unfold hfinal. rewrite macc_qf by lia. unfold hes_bil. f_equal.
  - rewrite (qf2_ext _ _ (fun i j => rsum N (fun k => mult k * nadd o k (hmask (nhes var k)) i j))).
    2:{ intros. unfold hloop. apply hes_loop; auto. }
    rewrite qf2_scal_l.
    rewrite (rsum_ext N _ (fun k => mult k * (fun l => t_scale o * m_w o l) (k mod P)%nat * bil aut (lag_hes aut var k) e d k)).
    + apply (node_sum (fun l => t_scale o * m_w o l) (fun k => bil aut (lag_hes aut var k) e d k)); auto. rewrite (w_ends Hch). reflexivity.
    + intros k Hk. rewrite nadd_qf, bil_mask_nhes by auto. unfold ncoef. ring.
  - cbn [Nat.add].
    assert (Z : forall i j, (nx <= i \/ nx <= j)%nat -> may_hes aut var i j = 0).
    { intros i j Hij. rewrite <- om_hes_eq. destruct (Nat.ltb_spec i nx), (Nat.ltb_spec j nx); auto; lia. }
    rewrite (rsum_ext _ _ (fun i => rsum (nx + nu) (fun j => e i * may_hes aut var i j * d j))).
    2:{ intros i Hi. apply rsum_ext. intros j Hj. rewrite ad_hes_default, om_hes_eq. reflexivity. }
    assert (R1 : forall i, rsum (nx + nu) (fun j => e i * may_hes aut var i j * d j) = e i * rsum nx (fun j => may_hes aut var i j * d j)).
    { intro i. rewrite rsum_split. rewrite (rsum_zero nu) by (intros j Hj; rewrite Z by lia; ring).
      rewrite Rplus_0_r, <- rsum_scal. apply rsum_ext. intros; ring. }
    rewrite (rsum_ext _ _ _ (fun i _ => R1 i)). rewrite rsum_split.
    rewrite (rsum_zero nu).
    2:{ intros i Hi. rewrite (rsum_zero nx); [ring|]. intros j Hj. rewrite Z by lia. ring. }
    rewrite Rplus_0_r.
    assert (R2 : forall i, node_dot aut (may_hes aut var i) (state aut d 0) (control aut d 0) (params aut d) = rsum nx (fun j => may_hes aut var i j * d j)).
    { intro i. unfold node_dot. cbn [NX NU NP aut].
      rewrite (rsum_zero nu) by (intros j Hj; rewrite Z by lia; ring). rewrite (rsum_zero np) by (intros j Hj; rewrite Z by lia; ring).
      rewrite !Rplus_0_r. reflexivity. }
    unfold node_bil, node_dot at 1. cbn [NX NU NP aut].
    rewrite (rsum_zero nu).
    2:{ intros i Hi. rewrite R2, (rsum_zero nx); [ring|]. intros j Hj. rewrite Z by lia. ring. }
    rewrite (rsum_zero np).
    2:{ intros i Hi. rewrite R2, (rsum_zero nx); [ring|]. intros j Hj. rewrite Z by lia. ring. }
    rewrite !Rplus_0_r. apply rsum_ext. intros i Hi. rewrite R2. unfold state, ix. cbn [Nat.mul Nat.add]. ring.
Qed.

Lemma old_hessian_ok : chebyshev_ocp o -> cost_hessians_exact o -> forall var e d, param_free o e -> param_free o d ->
  dir_deriv (fun x => rsum (VAR o) (fun j => gfinal x j * e j)) var d (rsum (VAR o) (fun i => rsum (VAR o) (fun j => e i * hfinal var i j * d j))).
Proof.
  intros Hch HH var e d He Hd. fold (qf2 (VAR o) (hfinal var) e d). rewrite (hfinal_qf Hch) by auto.
  apply (dir_deriv_ext (fun y => grad_dot aut y e)); [intro; symmetry; apply gfinal_dot; auto|].
  destruct (aut_hess HH) as [H1 H2]. exact (grad_dot_deriv aut H1 H2 var e d).
Qed.
End P.
