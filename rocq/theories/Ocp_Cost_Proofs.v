(** Proofs about derivatives: dense Jacobians, cost, gradient, dense Hessian. *)
Require Import Arith ZArith List Bool Lia Reals Lra.
From Verif Require Import Scal RSum Blk Poly_Spec PolyR Cheb_Model Cheb_Proofs Ocp_Model Ocp_Spec Ocp_Proofs.
Local Open Scope R_scope.

Lemma loop_add : forall A (Inv : A -> Prop) (obs : A -> R) n (f : nat -> A -> A) (v : nat -> R) a,
  Inv a -> (forall k s, (k < n)%nat -> Inv s -> Inv (f k s) /\ obs (f k s) = obs s + v k) ->
  Inv (loop n f a) /\ obs (loop n f a) = obs a + rsum n v.
Proof.
  intros A Inv obs n f v a H0 HS. induction n as [|n IH].
  - rewrite rsum_0. cbn [loop]. split; auto. ring.
  - cbn [loop]. rewrite rsum_S. destruct IH as [I1 I2]; [intros; apply HS; auto; lia|].
    destruct (HS n (loop n f a)) as [J1 J2]; auto. split; auto. rewrite J2, I2. ring.
Qed.

Section P.
Variable o : ocp R.
Local Notation nx := (NX o).
Local Notation nu := (NU o).
Local Notation np := (NP o).
Local Notation ng := (NG o).
Local Notation P := (PO o).
Local Notation Sg := (SG o).

(** * equality constraints *)
Lemma DX_line : forall var v h s l c, (s < Sg)%nat -> (l <= P)%nat -> (l < P \/ s = Sg - 1)%nat -> (c < nx)%nat ->
  DX o (fun i => var i + h * v i) (s * P + l)%nat c = DX o var (s * P + l)%nat c + h * DX o v (s * P + l)%nat c.
Proof.
  intros. rewrite !DX_eq by auto. rewrite <- rsum_scal, <- rsum_plus. apply rsum_ext. intros j _. unfold state. ring.
Qed.

Lemma at_node_deriv : forall F G var v k, gradient_of o F G ->
  derivable_pt_lim (fun h => at_node o F (fun i => var i + h * v i) k) 0
    (node_dot o (at_node o G var k) (state o v k) (control o v k) (params o v)).
Proof. intros F G var v k H. apply (H (state o var k) (control o var k) (params o var) (time_nodes o k)). Qed.

Lemma equalities_dir : chebyshev_ocp o -> jacobian_of o nx (o_dyn o) (o_dyn_jac o) ->
  forall var v i, (i < NUM_EQ o)%nat ->
  dir_deriv (fun x => equalities o x i) var v (rsum (VAR o) (fun j => dense_jac o var i j * v j)).
Proof.
  intros Hch HJ var v i Hi. pose proof Hch as (HP & HS & _).
  destruct (index_split nx (NUM_NODES o) i Hi) as (t & c & -> & Ht & Hc).
  destruct (node_decomp o t HP HS Ht) as (s & l & -> & Hs & Hl & Hd).
  change ((s * P + l) * nx + c)%nat with (ix o (s * P + l) c).
  rewrite (dense_jac_dir o Hch) by auto. unfold dir_deriv.
  apply derivable_pt_lim_ext with (fun h => (DX o var (s * P + l)%nat c + h * DX o v (s * P + l)%nat c)
     - t_scale o * at_node o (fun x u p t => o_dyn o x u p t c) (fun i => var i + h * v i) (s * P + l)).
  - intro h. rewrite equalities_eq by auto. rewrite DX_line by auto. reflexivity.
  - apply derivable_pt_lim_minus.
    + apply derivable_line.
    + apply derivable_pt_lim_scal. apply (at_node_deriv _ (fun x u p t => o_dyn_jac o x u p t c)). apply HJ; auto.
Qed.

Lemma eq_lin_values : forall var i, (i < NUM_EQ o)%nat ->
  fst (equalities_linearised o var) i = equalities o var i.
Proof.
  intros var i Hi. destruct (index_split nx (NUM_NODES o) i Hi) as (t & c & -> & Ht & Hc).
  change (t * nx + c)%nat with (ix o t c). rewrite eq_lin_val, equalities_eq by auto. ring.
Qed.

(** * inequality constraints *)
Definition dense_ijac (var : vec R) : mat R := snd (inequalities_linearised o var).

Lemma ijac_x : forall var t c k m, (t < NUM_NODES o)%nat -> (k < NUM_NODES o)%nat -> (c < ng)%nat -> (m < nx)%nat ->
  dense_ijac var (t * ng + c)%nat (ix o k m) = if (k =? t)%nat then at_node o (o_ine_jac o) var t c m else 0.
Proof.
  intros var t c k m Ht Hk Hc Hm. unfold dense_ijac, inequalities_linearised.
  pose proof (xcol_lt o k m Hk Hm) as Hx.
  rewrite (loop_once _ _ (fun cj : vec R * mat R => snd cj (t * ng + c)%nat (ix o k m)) (NUM_NODES o) _ _ (fun n => (n =? t)%nat)
    (fun n v => if (n =? k)%nat then at_node o (o_ine_jac o) var n c m else v) t); auto.
  - cbn [snd]. rewrite (Nat.eqb_sym k t). reflexivity.
  - intros n [v J] Hn. cbn [snd]. unfold mset.
    rewrite (in_seg_false (VARX o + VARU o) np) by lia. rewrite andb_false_r.
    rewrite (in_seg_false (n * nu + VARX o) nu) by lia. rewrite andb_false_r.
    unfold ix. rewrite !node_eqb by auto.
    destruct (Nat.eqb_spec n t) as [->|]; cbn [andb]; auto.
    destruct (Nat.eqb_spec t k) as [<-|]; cbn [andb]; auto.
    replace (t * ng + c - t * ng)%nat with c by lia. replace (t * nx + m - t * nx)%nat with m by lia. reflexivity.
  - apply Nat.eqb_refl.
  - intros. apply Nat.eqb_neq. auto.
Qed.

Lemma iu_seg : forall n k m, (m < nu)%nat -> in_seg (n * nu + VARX o) nu (iu o k m) = (n =? k)%nat.
Proof.
  intros n k m Hm. rewrite <- (node_eqb n k m nu) by auto. unfold iu, in_seg. fold (NUM_NODES o). fold (VARX o).
  f_equal; [destruct (Nat.leb_spec (n * nu) (k * nu + m)), (Nat.leb_spec (n * nu + VARX o) (k * nu + VARX o + m))|
        destruct (Nat.ltb_spec (k * nu + m) (n * nu + nu)), (Nat.ltb_spec (k * nu + VARX o + m) (n * nu + VARX o + nu))]; auto; lia.
Qed.

Lemma iu_range : forall k m, (k < NUM_NODES o)%nat -> (m < nu)%nat -> (VARX o <= iu o k m < VARX o + VARU o)%nat.
Proof. intros. unfold iu. fold (NUM_NODES o). fold (VARX o). unfold VARU. nia. Qed.

Lemma ijac_u : forall var t c k m, (t < NUM_NODES o)%nat -> (k < NUM_NODES o)%nat -> (c < ng)%nat -> (m < nu)%nat ->
  dense_ijac var (t * ng + c)%nat (iu o k m) = if (k =? t)%nat then at_node o (o_ine_jac o) var t c (nx + m)%nat else 0.
Proof.
  intros var t c k m Ht Hk Hc Hm. unfold dense_ijac, inequalities_linearised.
  pose proof (iu_range k m Hk Hm) as Hx.
  rewrite (loop_once _ _ (fun cj : vec R * mat R => snd cj (t * ng + c)%nat (iu o k m)) (NUM_NODES o) _ _ (fun n => (n =? t)%nat)
    (fun n v => if (n =? k)%nat then at_node o (o_ine_jac o) var n c (nx + m)%nat else v) t); auto.
  - cbn [snd]. rewrite (Nat.eqb_sym k t). reflexivity.
  - intros n [v J] Hn. cbn [snd]. unfold mset.
    rewrite (in_seg_false (VARX o + VARU o) np) by lia. rewrite andb_false_r.
    rewrite (in_seg_false (n * nx) nx (iu o k m)) by (right; unfold VARX in Hx; nia).
    rewrite andb_false_r, iu_seg by auto. rewrite !node_eqb by auto.
    destruct (Nat.eqb_spec n t) as [->|]; cbn [andb]; auto.
    destruct (Nat.eqb_spec t k) as [<-|]; cbn [andb]; auto.
    replace (t * ng + c - t * ng)%nat with c by lia.
    replace (iu o t m - (t * nu + VARX o))%nat with m by (unfold iu, VARX, NUM_NODES; lia). reflexivity.
  - apply Nat.eqb_refl.
  - intros. apply Nat.eqb_neq. auto.
Qed.

Lemma ijac_p : forall var t c m, (t < NUM_NODES o)%nat -> (c < ng)%nat -> (m < np)%nat ->
  dense_ijac var (t * ng + c)%nat (ip o m) = at_node o (o_ine_jac o) var t c (nx + nu + m)%nat.
Proof.
  intros var t c m Ht Hc Hm. unfold dense_ijac, inequalities_linearised.
  assert (EP : ip o m = (VARX o + VARU o + m)%nat) by reflexivity.
  rewrite (loop_pick _ _ (fun cj : vec R * mat R => snd cj (t * ng + c)%nat (ip o m)) (NUM_NODES o) _ _ (fun n => (n =? t)%nat)
    (fun n => at_node o (o_ine_jac o) var n c (nx + nu + m)%nat) t); auto.
  - intros n [v J] Hn. cbn [snd]. unfold mset.
    rewrite (in_seg_true (VARX o + VARU o) np) by lia. rewrite andb_true_r.
    rewrite (in_seg_false (n * nx) nx (ip o m)) by (right; rewrite EP; unfold VARX; nia).
    rewrite (in_seg_false (n * nu + VARX o) nu (ip o m)) by (right; rewrite EP; unfold VARU; nia).
    rewrite !andb_false_r. rewrite !node_eqb by auto.
    destruct (Nat.eqb_spec n t) as [->|]; auto.
    replace (t * ng + c - t * ng)%nat with c by lia.
    replace (ip o m - (VARX o + VARU o))%nat with m by lia. reflexivity.
  - apply Nat.eqb_refl.
  - intros. apply Nat.eqb_neq. auto.
Qed.

Lemma ijac_dir : forall var v t c, (t < NUM_NODES o)%nat -> (c < ng)%nat ->
  rsum (VAR o) (fun j => dense_ijac var (t * ng + c)%nat j * v j) =
  node_dot o (at_node o (o_ine_jac o) var t c) (state o v t) (control o v t) (params o v).
Proof.
  intros var v t c Ht Hc. rewrite rsum_var.
  rewrite (rsum_ext (NUM_NODES o) (fun k => rsum nx (fun m => dense_ijac var (t * ng + c)%nat (ix o k m) * v (ix o k m)))
    (fun k => if (k =? t)%nat then (fun k => rsum nx (fun m => at_node o (o_ine_jac o) var t c m * v (ix o k m))) k else 0)).
  2:{ intros k Hk. destruct (Nat.eqb_spec k t) as [E|Hne]; [apply rsum_ext|apply rsum_zero]; intros m Hm; rewrite ijac_x by auto;
      [rewrite E, Nat.eqb_refl; reflexivity|destruct (Nat.eqb_spec k t); [contradiction|ring]]. }
  rewrite (rsum_ext (NUM_NODES o) (fun k => rsum nu (fun m => dense_ijac var (t * ng + c)%nat (iu o k m) * v (iu o k m)))
    (fun k => if (k =? t)%nat then (fun k => rsum nu (fun m => at_node o (o_ine_jac o) var t c (nx + m)%nat * v (iu o k m))) k else 0)).
  2:{ intros k Hk. destruct (Nat.eqb_spec k t) as [E|Hne]; [apply rsum_ext|apply rsum_zero]; intros m Hm; rewrite ijac_u by auto;
      [rewrite E, Nat.eqb_refl; reflexivity|destruct (Nat.eqb_spec k t); [contradiction|ring]]. }
  rewrite !rsum_delta by auto.
  rewrite (rsum_ext np _ (fun m => at_node o (o_ine_jac o) var t c (nx + nu + m)%nat * v (ip o m))).
  2:{ intros m Hm. rewrite ijac_p by auto. reflexivity. }
  reflexivity.
Qed.

Lemma inequalities_dir : jacobian_of o ng (o_ine o) (o_ine_jac o) ->
  forall var v i, (i < NUM_INEQ o)%nat ->
  dir_deriv (fun x => inequalities o x i) var v (rsum (VAR o) (fun j => dense_ijac var i j * v j)).
Proof.
  intros HJ var v i Hi.
  destruct (index_split ng (NUM_NODES o) i Hi) as (t & c & -> & Ht & Hc).
  rewrite ijac_dir by auto. unfold dir_deriv.
  apply derivable_pt_lim_ext with (fun h => at_node o (fun x u p t => o_ine o x u p t c) (fun i => var i + h * v i) t).
  - intro h. rewrite inequalities_eq by auto. reflexivity.
  - apply (at_node_deriv _ (fun x u p t => o_ine_jac o x u p t c)). apply HJ; auto.
Qed.

Lemma ineq_lin_values : forall var i, (i < NUM_INEQ o)%nat ->
  fst (inequalities_linearised o var) i = inequalities o var i.
Proof.
  intros var i Hi. destruct (index_split ng (NUM_NODES o) i Hi) as (t & c & -> & Ht & Hc).
  rewrite inequalities_eq by auto. unfold inequalities_linearised.
  rewrite (loop_pick _ _ (fun cj : vec R * mat R => fst cj (t * ng + c)%nat) (NUM_NODES o) _ _ (fun k => (k =? t)%nat)
    (fun k => at_node o (o_ine o) var k c) t); auto.
  - intros k [v J] Hk. cbn [fst]. unfold vset. rewrite node_eqb by auto.
    destruct (Nat.eqb_spec k t) as [->|]; auto. replace (t * ng + c - t * ng)%nat with c by lia. auto.
  - apply Nat.eqb_refl.
  - intros. apply Nat.eqb_neq. auto.
Qed.

(** * cost *)
Definition lag_val (var : vec R) (n : nat) : R := call o (o_lag o) get_val (fun v => v) 0 var n.
Definition lag_grad (var : vec R) (n : nat) : vec R := call o (o_lag o) get_grad (fun v => v) (fun _ => 0) var n.
Definition lag_hes (var : vec R) (n : nat) : mat R := call o (o_lag o) get_hes (fun v => v) (fun _ _ => 0) var n.
Definition may_val (var : vec R) : R := call o (o_may o) get_val (fun v => v) 0 var 0.
Definition may_grad (var : vec R) : vec R := call o (o_may o) get_grad (fun v => v) (fun _ => 0) var 0.
Definition may_hes (var : vec R) : mat R := call o (o_may o) get_hes (fun v => v) (fun _ _ => 0) var 0.

Lemma cost_eq : forall var, cost o var =
  rsum Sg (fun s => rsum (S P) (fun k => t_scale o * m_w o k * lag_val var (k + s * P))) + may_val var.
Proof.
  intro var. unfold cost.
  match goal with |- (let '(c, _) := ?L in _) = _ => set (LL := L) end.
  assert (H : fst LL = 0 + rsum Sg (fun s => rsum (S P) (fun k => t_scale o * m_w o k * lag_val var (k + s * P)))).
  { unfold LL. apply (loop_add (R * R) (fun cc => o_lag o = None -> snd cc = 0) fst).
    - auto.
    - intros s cc Hs Hcc. replace (P + 1)%nat with (S P) by lia.
      apply (loop_add (R * R) (fun cc => o_lag o = None -> snd cc = 0) fst); auto.
      intros k [c ci] Hk Hi. cbn [fst snd]. unfold lag_val, call. destruct (o_lag o) as [g|].
      + split; [discriminate|]. reflexivity.
      + cbn [snd] in Hi. rewrite Hi by auto. split; auto. }
  destruct LL as [c ci]. cbn [fst] in H. rewrite H, Rplus_0_l. reflexivity.
Qed.

(** effect of one node on the gradient, tested against a direction [d] *)
Lemma vacc_dot : forall n v a m g d, (a + m <= n)%nat ->
  rsum n (fun j => vacc v a m g j * d j) = rsum n (fun j => v j * d j) + rsum m (fun i => g i * d (a + i)%nat).
Proof.
  intros n v a m g d H. rewrite <- (rsum_seg n a m (fun i => g i * d (a + i)%nat)) by auto.
  rewrite <- rsum_plus. apply rsum_ext. intros j Hj. unfold vacc. destruct (in_seg a m j) eqn:E; [|ring].
  apply in_seg_spec in E. replace (a + (j - a))%nat with j by lia. simpl. ring.
Qed.

Lemma grad_add_dot : forall v k g d, (k < NUM_NODES o)%nat ->
  rsum (VAR o) (fun j => grad_add o v k g j * d j) =
  rsum (VAR o) (fun j => v j * d j) + node_dot o g (state o d k) (control o d k) (params o d).
Proof.
  intros v k g d Hk. unfold grad_add.
  rewrite !vacc_dot; unfold VAR; try lia; try (unfold VARX, VARU; nia).
  unfold node_dot. rewrite !Rplus_assoc. reflexivity.
Qed.

Lemma node_dot_scal : forall a g dx du dp, node_dot o (fun i => a * g i) dx du dp = a * node_dot o g dx du dp.
Proof.
  intros. unfold node_dot. rewrite !Rmult_plus_distr_l, <- !rsum_scal. f_equal; [f_equal|]; apply rsum_ext; intros; ring.
Qed.

Lemma node_dot_zero : forall dx du dp, node_dot o (fun _ => 0) dx du dp = 0.
Proof. intros. unfold node_dot. rewrite !rsum_zero; try ring; intros; ring. Qed.

Definition grad_dot (var d : vec R) : R :=
  rsum Sg (fun s => rsum (S P) (fun k => t_scale o * m_w o k *
     node_dot o (lag_grad var (k + s * P)) (state o d (k + s * P)) (control o d (k + s * P)) (params o d)))
  + node_dot o (may_grad var) (state o d 0) (control o d 0) (params o d).

Lemma node_lt' : forall s k, (s < Sg)%nat -> (k < S P)%nat -> (k + s * P < NUM_NODES o)%nat.
Proof. intros. rewrite Nat.add_comm. apply node_lt; auto; lia. Qed.

Lemma node0_lt : (0 < NUM_NODES o)%nat.
Proof. unfold NUM_NODES. lia. Qed.

(** gradient of the cost, provided the running cost is defined or the derivatives left in
    m_ad_cost are zero *)
Lemma cost_gradient_eq : forall ad var, o_lag o <> None \/ (forall i, snd ad i = 0) ->
  fst (fst (cost_gradient o ad var)) = cost o var /\
  (forall d, rsum (VAR o) (fun j => snd (fst (cost_gradient o ad var)) j * d j) = grad_dot var d).
Proof.
  intros ad var Had. unfold cost_gradient.
  match goal with |- context [loop Sg ?f ?a] => set (F := f); set (A0 := a) end.
  assert (Hcost : o_lag o <> None \/ (forall i, snd ad i = 0) ->
    fst (fst (loop Sg F A0)) = 0 + rsum Sg (fun s => rsum (S P) (fun k => t_scale o * m_w o k * lag_val var (k + s * P)))).
  { intro H. apply (loop_add _ (fun st => o_lag o = None -> fst (snd st) = 0) (fun st => fst (fst st))).
    - auto.
    - intros s st Hs Hst. unfold F. replace (P + 1)%nat with (S P) by lia.
      apply (loop_add _ (fun st => o_lag o = None -> fst (snd st) = 0) (fun st => fst (fst st))); auto.
      intros k [[c g] a] Hk Hi. cbn [fst snd] in *. unfold lag_val, call. destruct (o_lag o) as [gg|].
      + split; [discriminate|]. reflexivity.
      + rewrite Hi by auto. split; auto. }
  assert (Hgrad : forall d, o_lag o <> None \/ (forall i, snd ad i = 0) ->
    rsum (VAR o) (fun j => snd (fst (loop Sg F A0)) j * d j) = rsum (VAR o) (fun j => snd (fst A0) j * d j) +
      rsum Sg (fun s => rsum (S P) (fun k => t_scale o * m_w o k *
     node_dot o (lag_grad var (k + s * P)) (state o d (k + s * P)) (control o d (k + s * P)) (params o d)))).
  { intros d H. apply (loop_add _ (fun st => o_lag o = None -> forall i, snd (snd st) i = 0) (fun st => rsum (VAR o) (fun j => snd (fst st) j * d j))).
    - intro E. destruct H; [contradiction|]. auto.
    - intros s st Hs Hst. unfold F. replace (P + 1)%nat with (S P) by lia.
      apply (loop_add _ (fun st => o_lag o = None -> forall i, snd (snd st) i = 0) (fun st => rsum (VAR o) (fun j => snd (fst st) j * d j))); auto.
      intros k [[c g] a] Hk Hi. cbn [fst snd] in *.
      rewrite grad_add_dot by (apply node_lt'; auto). unfold lag_grad, call. destruct (o_lag o) as [gg|].
      + split; [discriminate|]. cbn [snd]. rewrite (node_dot_scal (t_scale o * m_w o k)). reflexivity.
      + split; auto. rewrite (node_dot_scal (t_scale o * m_w o k)). f_equal. f_equal.
        unfold node_dot. f_equal; [f_equal|]; apply rsum_ext; intros; rewrite Hi; auto. }
  specialize (Hcost Had).
  destruct (loop Sg F A0) as [[c g] a]. cbn [fst snd] in *. split.
  - rewrite cost_eq. rewrite Hcost, Rplus_0_l. unfold may_val, call. destruct (o_may o) as [gm|]; reflexivity.
  - intro d. rewrite grad_add_dot by apply node0_lt. rewrite Hgrad by auto. unfold A0. cbn [fst snd].
    change s0 with 0. rewrite (rsum_zero (VAR o)) by (intros; ring). unfold grad_dot, may_grad, call.
    destruct (o_may o) as [gm|]; cbn [snd]; rewrite Rplus_0_l; reflexivity.
Qed.

Definition lag_exact : Prop :=
  match o_lag o with Some g => gradient_of o (get_val g) (get_grad g) | None => True end.
Definition may_exact : Prop :=
  match o_may o with Some g => gradient_of o (get_val g) (get_grad g) | None => True end.

Lemma lag_deriv : lag_exact -> forall var d n,
  derivable_pt_lim (fun h => lag_val (fun i => var i + h * d i) n) 0
    (node_dot o (lag_grad var n) (state o d n) (control o d n) (params o d)).
Proof.
  unfold lag_exact, lag_val, lag_grad, call. destruct (o_lag o) as [g|]; intros H var d n.
  - apply (at_node_deriv _ (get_grad g)). auto.
  - rewrite node_dot_zero. apply derivable_pt_lim_const.
Qed.

Lemma may_deriv : may_exact -> forall var d,
  derivable_pt_lim (fun h => may_val (fun i => var i + h * d i)) 0
    (node_dot o (may_grad var) (state o d 0) (control o d 0) (params o d)).
Proof.
  unfold may_exact, may_val, may_grad, call. destruct (o_may o) as [g|]; intros H var d.
  - apply (at_node_deriv _ (get_grad g)). auto.
  - rewrite node_dot_zero. apply derivable_pt_lim_const.
Qed.

Lemma cost_dir : lag_exact -> may_exact -> forall var d, dir_deriv (cost o) var d (grad_dot var d).
Proof.
  intros HL HM var d. unfold dir_deriv.
  apply derivable_pt_lim_ext with (fun h =>
    rsum Sg (fun s => rsum (S P) (fun k => t_scale o * m_w o k * lag_val (fun i => var i + h * d i) (k + s * P)))
    + may_val (fun i => var i + h * d i)); [intro; rewrite cost_eq; reflexivity|].
  unfold grad_dot. apply derivable_pt_lim_plus; [|apply may_deriv; auto].
  apply (derivable_rsum Sg (fun s h => rsum (S P) (fun k => t_scale o * m_w o k * lag_val (fun i => var i + h * d i) (k + s * P)))
    (fun s _ => rsum (S P) (fun k => t_scale o * m_w o k *
     node_dot o (lag_grad var (k + s * P)) (state o d (k + s * P)) (control o d (k + s * P)) (params o d)))).
  intros s Hs.
  apply (derivable_rsum (S P) (fun k h => t_scale o * m_w o k * lag_val (fun i => var i + h * d i) (k + s * P))
    (fun k _ => t_scale o * m_w o k *
     node_dot o (lag_grad var (k + s * P)) (state o d (k + s * P)) (control o d (k + s * P)) (params o d))).
  intros k Hk. apply derivable_pt_lim_scal. apply lag_deriv; auto.
Qed.

(** * dense Hessian *)
Definition qf2 (n : nat) (M : mat R) (e d : vec R) : R := rsum n (fun i => rsum n (fun j => e i * M i j * d j)).

Lemma macc_qf : forall n M r c nr nc B e d, (r + nr <= n)%nat -> (c + nc <= n)%nat ->
  qf2 n (macc M r c nr nc B) e d =
  qf2 n M e d + rsum nr (fun i => rsum nc (fun j => e (r + i)%nat * B i j * d (c + j)%nat)).
Proof.
  intros n M r c nr nc B e d Hr Hc. unfold qf2.
  rewrite <- (rsum_seg n r nr (fun i => rsum nc (fun j => e (r + i)%nat * B i j * d (c + j)%nat))) by auto.
  rewrite <- rsum_plus. apply rsum_ext. intros i Hi. unfold macc. destruct (in_seg r nr i) eqn:E; cbn [andb]; [|ring].
  apply in_seg_spec in E. replace (r + (i - r))%nat with i by lia.
  rewrite <- (rsum_seg n c nc (fun j => e i * B (i - r)%nat j * d (c + j)%nat)) by auto.
  rewrite <- rsum_plus. apply rsum_ext. intros j Hj. destruct (in_seg c nc j) eqn:Ej; [|ring].
  apply in_seg_spec in Ej. replace (c + (j - c))%nat with j by lia. simpl. ring.
Qed.

Definition node_bil (h : mat R) (ex eu ep dx du dp : vec R) : R :=
  node_dot o (fun i => node_dot o (h i) dx du dp) ex eu ep.

Lemma node_bil_split : forall h ex eu ep dx du dp, node_bil h ex eu ep dx du dp =
  rsum nx (fun i => rsum nx (fun j => ex i * h i j * dx j)) +
  rsum nx (fun i => rsum nu (fun j => ex i * h i (nx + j)%nat * du j)) +
  rsum nu (fun i => rsum nx (fun j => eu i * h (nx + i)%nat j * dx j)) +
  rsum nu (fun i => rsum nu (fun j => eu i * h (nx + i)%nat (nx + j)%nat * du j)) +
  rsum nx (fun i => rsum np (fun j => ex i * h i (nx + nu + j)%nat * dp j)) +
  rsum nu (fun i => rsum np (fun j => eu i * h (nx + i)%nat (nx + nu + j)%nat * dp j)) +
  rsum np (fun i => rsum nx (fun j => ep i * h (nx + nu + i)%nat j * dx j)) +
  rsum np (fun i => rsum nu (fun j => ep i * h (nx + nu + i)%nat (nx + j)%nat * du j)) +
  rsum np (fun i => rsum np (fun j => ep i * h (nx + nu + i)%nat (nx + nu + j)%nat * dp j)).
Proof.
  intros. unfold node_bil, node_dot.
  assert (E : forall n (e : vec R) (a b c : vec R),
    rsum n (fun i => (a i + b i + c i) * e i) = rsum n (fun i => e i * a i) + rsum n (fun i => e i * b i) + rsum n (fun i => e i * c i)).
  { intros. rewrite <- !rsum_plus. apply rsum_ext. intros; ring. }
  assert (F : forall n m (e : vec R) (g : mat R) (d : vec R),
    rsum n (fun i => e i * rsum m (fun j => g i j * d j)) = rsum n (fun i => rsum m (fun j => e i * g i j * d j))).
  { intros. apply rsum_ext. intros. rewrite <- rsum_scal. apply rsum_ext. intros; ring. }
  rewrite (E nx ex), (E nu eu (fun i => rsum nx (fun j => h (nx + i)%nat j * dx j))),
    (E np ep (fun i => rsum nx (fun j => h (nx + nu + i)%nat j * dx j))).
  rewrite (F nx nx ex h), (F nx nu ex (fun i j => h i (nx + j)%nat)), (F nx np ex (fun i j => h i (nx + nu + j)%nat)).
  rewrite (F nu nx eu (fun i j => h (nx + i)%nat j)), (F nu nu eu (fun i j => h (nx + i)%nat (nx + j)%nat)),
    (F nu np eu (fun i j => h (nx + i)%nat (nx + nu + j)%nat)).
  rewrite (F np nx ep (fun i j => h (nx + nu + i)%nat j)), (F np nu ep (fun i j => h (nx + nu + i)%nat (nx + j)%nat)),
    (F np np ep (fun i j => h (nx + nu + i)%nat (nx + nu + j)%nat)).
  ring.
Qed.

Lemma hes_add_qf : forall H k h e d, (k < NUM_NODES o)%nat ->
  qf2 (VAR o) (hes_add o H k h) e d =
  qf2 (VAR o) H e d + node_bil h (state o e k) (control o e k) (params o e) (state o d k) (control o d k) (params o d).
Proof.
  intros H k h e d Hk. unfold hes_add.
  rewrite !macc_qf; unfold VAR; try lia; try (unfold VARX, VARU; nia).
  rewrite node_bil_split. unfold blk, state, control, params, ix, iu, ip.
  fold (NUM_NODES o). fold (VARX o). fold (VARU o). cbn [Nat.add]. ring.
Qed.

(** the error of line 1354: the Mayer pp block is missing and the first NP columns of the
    px rows are added once more *)
Lemma hes_mayer_qf : forall H h e d, (1 <= Sg)%nat -> (1 <= P)%nat ->
  qf2 (VAR o) (hes_mayer o H h) e d =
  qf2 (VAR o) H e d + node_bil h (state o e 0) (control o e 0) (params o e) (state o d 0) (control o d 0) (params o d)
  - rsum np (fun i => rsum np (fun j => params o e i * h (nx + nu + i)%nat (nx + nu + j)%nat * params o d j))
  + rsum np (fun i => rsum np (fun j => params o e i * h (nx + nu + i)%nat j * d j)).
Proof.
  intros H h e d HS HP. unfold hes_mayer. pose proof node0_lt as HN.
  assert (nx <= VARX o)%nat by (unfold VARX; nia). assert (nu <= VARU o)%nat by (unfold VARU; nia).
  rewrite !macc_qf; unfold VAR; try lia.
  rewrite node_bil_split. unfold blk, state, control, params, ix, iu, ip, NZ.
  fold (NUM_NODES o). fold (VARX o). fold (VARU o). cbn [Nat.add Nat.mul].
  replace (VARX o + VARU o + np - np)%nat with (VARX o + VARU o)%nat by lia.
  replace (nx + nu + np - np)%nat with (nx + nu)%nat by lia.
  ring.
Qed.

Definition hes_bil (var e d : vec R) : R :=
  rsum Sg (fun s => rsum (S P) (fun k => t_scale o * m_w o k *
     node_bil (lag_hes var (k + s * P)) (state o e (k + s * P)) (control o e (k + s * P)) (params o e)
       (state o d (k + s * P)) (control o d (k + s * P)) (params o d)))
  + node_bil (may_hes var) (state o e 0) (control o e 0) (params o e) (state o d 0) (control o d 0) (params o d).

Lemma node_bil_scal : forall a h ex eu ep dx du dp,
  node_bil (fun i j => a * h i j) ex eu ep dx du dp = a * node_bil h ex eu ep dx du dp.
Proof.
  intros. unfold node_bil. rewrite <- node_dot_scal. unfold node_dot at 1 3.
  f_equal; [f_equal|]; apply rsum_ext; intros; rewrite (node_dot_scal a); reflexivity.
Qed.

(** the Mayer Hessian has no entries in the parameter rows *)
Definition may_no_p (var : vec R) : Prop := forall i j, (i < np)%nat -> (j < NZ o)%nat -> may_hes var (nx + nu + i)%nat j = 0.

Lemma dense_hessian_eq : forall var, (1 <= Sg)%nat -> (1 <= P)%nat -> mayer_u_ok o = true ->
  exists g H, cost_gradient_hessian o var = Some (cost o var, g, H) /\
   (forall d, rsum (VAR o) (fun j => g j * d j) = grad_dot var d) /\
   (forall e d, qf2 (VAR o) H e d = hes_bil var e d
      - rsum np (fun i => rsum np (fun j => params o e i * may_hes var (nx + nu + i)%nat (nx + nu + j)%nat * params o d j))
      + rsum np (fun i => rsum np (fun j => params o e i * may_hes var (nx + nu + i)%nat j * d j))).
Proof.
  intros var HS HP Hok. unfold cost_gradient_hessian. rewrite Hok.
  match goal with |- context [loop Sg ?f ?a] => set (F := f); set (A0 := a) end.
  assert (Hcost : fst (fst (loop Sg F A0)) = 0 + rsum Sg (fun s => rsum (S P) (fun k => t_scale o * m_w o k * lag_val var (k + s * P)))).
  { apply (loop_add _ (fun st => True) (fun st => fst (fst st))); auto.
    intros s st Hs Hst. unfold F. replace (P + 1)%nat with (S P) by lia.
    apply (loop_add _ (fun st => True) (fun st => fst (fst st))); auto.
    intros k [[c g] H] Hk Hi. split; auto. }
  assert (Hgrad : forall d, rsum (VAR o) (fun j => snd (fst (loop Sg F A0)) j * d j) = rsum (VAR o) (fun j => snd (fst A0) j * d j) +
      rsum Sg (fun s => rsum (S P) (fun k => t_scale o * m_w o k *
     node_dot o (lag_grad var (k + s * P)) (state o d (k + s * P)) (control o d (k + s * P)) (params o d)))).
  { intros d. apply (loop_add _ (fun st => True) (fun st => rsum (VAR o) (fun j => snd (fst st) j * d j))); auto.
    intros s st Hs Hst. unfold F. replace (P + 1)%nat with (S P) by lia.
    apply (loop_add _ (fun st => True) (fun st => rsum (VAR o) (fun j => snd (fst st) j * d j))); auto.
    intros k [[c g] H] Hk Hi. split; auto. cbn [fst snd].
    rewrite grad_add_dot by (apply node_lt'; auto). rewrite (node_dot_scal (t_scale o * m_w o k)). reflexivity. }
  assert (Hhes : forall e d, qf2 (VAR o) (snd (loop Sg F A0)) e d = qf2 (VAR o) (snd A0) e d +
      rsum Sg (fun s => rsum (S P) (fun k => t_scale o * m_w o k *
     node_bil (lag_hes var (k + s * P)) (state o e (k + s * P)) (control o e (k + s * P)) (params o e)
       (state o d (k + s * P)) (control o d (k + s * P)) (params o d)))).
  { intros e d. apply (loop_add _ (fun st => True) (fun st => qf2 (VAR o) (snd st) e d)); auto.
    intros s st Hs Hst. unfold F. replace (P + 1)%nat with (S P) by lia.
    apply (loop_add _ (fun st => True) (fun st => qf2 (VAR o) (snd st) e d)); auto.
    intros k [[c g] H] Hk Hi. split; auto. cbn [fst snd].
    rewrite hes_add_qf by (apply node_lt'; auto). rewrite (node_bil_scal (t_scale o * m_w o k)). reflexivity. }
  destruct (loop Sg F A0) as [[c g] H]. cbn [fst snd] in *.
  eexists _, _. split; [|split].
  - apply f_equal. apply f_equal2; [|reflexivity]. apply f_equal2; [|reflexivity]. rewrite cost_eq, Hcost, Rplus_0_l. reflexivity.
  - intro d. rewrite grad_add_dot by apply node0_lt. rewrite Hgrad. change s0 with 0.
    rewrite (rsum_zero (VAR o)) by (intros; unfold A0; cbn [fst snd]; change s0 with 0; ring). unfold grad_dot. rewrite Rplus_0_l. reflexivity.
  - intros e d. rewrite hes_mayer_qf by auto. rewrite Hhes.
    replace (qf2 (VAR o) (snd A0) e d) with 0.
    2:{ unfold qf2, A0. cbn [snd]. change s0 with 0. symmetry. apply rsum_zero. intros. apply rsum_zero. intros. ring. }
    unfold hes_bil, may_hes. change s0 with 0. rewrite Rplus_0_l. reflexivity.
Qed.

Lemma may_no_p_zero : forall var e d, may_no_p var ->
  rsum np (fun i => rsum np (fun j => params o e i * may_hes var (nx + nu + i)%nat (nx + nu + j)%nat * params o d j)) = 0 /\
  ((1 <= nx + nu)%nat -> (np <= NZ o)%nat -> rsum np (fun i => rsum np (fun j => params o e i * may_hes var (nx + nu + i)%nat j * d j)) = 0).
Proof.
  intros var e d Hp. split.
  - apply rsum_zero. intros i Hi. apply rsum_zero. intros j Hj. rewrite Hp; auto; [ring|unfold NZ; lia].
  - intros _ Hn. apply rsum_zero. intros i Hi. apply rsum_zero. intros j Hj. rewrite Hp; auto; [ring|lia].
Qed.

Definition lag_exact2 : Prop :=
  match o_lag o with Some g => hessian_of o (get_grad g) (get_hes g) | None => True end.
Definition may_exact2 : Prop :=
  match o_may o with Some g => hessian_of o (get_grad g) (get_hes g) | None => True end.

Lemma node_dot_deriv : forall (G : R -> vec R) (H : mat R) ex eu ep dx du dp,
  (forall i, (i < NZ o)%nat -> derivable_pt_lim (fun h => G h i) 0 (node_dot o (H i) dx du dp)) ->
  derivable_pt_lim (fun h => node_dot o (G h) ex eu ep) 0 (node_bil H ex eu ep dx du dp).
Proof.
  intros G H ex eu ep dx du dp HG. unfold node_bil, node_dot at 1 2.
  assert (D : forall n a (e : vec R), (a + n <= NZ o)%nat ->
    derivable_pt_lim (fun h => rsum n (fun i => G h (a + i)%nat * e i)) 0
      (rsum n (fun i => node_dot o (H (a + i)%nat) dx du dp * e i))).
  { intros n a e Ha. apply (derivable_rsum n (fun i h => G h (a + i)%nat * e i) (fun i _ => node_dot o (H (a + i)%nat) dx du dp * e i)).
    intros i Hi. apply derivable_pt_lim_ext with (fun h => e i * G h (a + i)%nat); [intro; ring|].
    rewrite Rmult_comm. apply derivable_pt_lim_scal. apply HG. lia. }
  apply derivable_pt_lim_plus; [apply derivable_pt_lim_plus|].
  - apply (D nx O). unfold NZ; lia.
  - apply (D nu nx). unfold NZ; lia.
  - apply (D np (nx + nu)%nat). unfold NZ; lia.
Qed.

Lemma grad_dot_deriv : lag_exact2 -> may_exact2 -> forall var e d,
  derivable_pt_lim (fun h => grad_dot (fun i => var i + h * d i) e) 0 (hes_bil var e d).
Proof.
  intros HL HM var e d. unfold grad_dot, hes_bil. apply derivable_pt_lim_plus.
  - apply (derivable_rsum Sg (fun s h => rsum (S P) (fun k => t_scale o * m_w o k *
       node_dot o (lag_grad (fun i => var i + h * d i) (k + s * P)) (state o e (k + s * P)) (control o e (k + s * P)) (params o e)))
     (fun s _ => rsum (S P) (fun k => t_scale o * m_w o k *
       node_bil (lag_hes var (k + s * P)) (state o e (k + s * P)) (control o e (k + s * P)) (params o e)
       (state o d (k + s * P)) (control o d (k + s * P)) (params o d)))).
    intros s Hs. apply (derivable_rsum (S P) (fun k h => t_scale o * m_w o k *
       node_dot o (lag_grad (fun i => var i + h * d i) (k + s * P)) (state o e (k + s * P)) (control o e (k + s * P)) (params o e))
     (fun k _ => t_scale o * m_w o k *
       node_bil (lag_hes var (k + s * P)) (state o e (k + s * P)) (control o e (k + s * P)) (params o e)
       (state o d (k + s * P)) (control o d (k + s * P)) (params o d))).
    intros k Hk. apply derivable_pt_lim_scal. apply node_dot_deriv. intros i Hi.
    unfold lag_grad, lag_hes, call, lag_exact2 in *. destruct (o_lag o) as [g|].
    + destruct HL as [HL _].
      apply (at_node_deriv (fun x u p t => get_grad g x u p t i) (fun x u p t => get_hes g x u p t i)). apply HL. exact Hi.
    + rewrite node_dot_zero. apply derivable_pt_lim_const.
  - apply node_dot_deriv. intros i Hi.
    unfold may_grad, may_hes, call, may_exact2 in *. destruct (o_may o) as [g|].
    + destruct HM as [HM _].
      apply (at_node_deriv (fun x u p t => get_grad g x u p t i) (fun x u p t => get_hes g x u p t i)). apply HM. exact Hi.
    + rewrite node_dot_zero. apply derivable_pt_lim_const.
Qed.
End P.
