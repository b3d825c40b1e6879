(** Proofs about the CasADi collocation classes. *)
Require Import Arith ZArith List Bool Lia Reals Lra.
From Verif Require Import Scal RSum PolyR Poly_Spec Blk Cheb_Model Cheb_Proofs Ocp_Model Ocp_Spec Ocp_Proofs
  Ocp_Cost_Proofs Ocp_Cor_Proofs Old_Model Old_Proofs Cas_Model Cas_Spec.
Import ListNotations.
Local Open Scope R_scope.

(** * nodes, matrix, weights agree with ebyshev.hpp *)
Lemma cas_points_eq : forall P i, cas_points P i = cheb_nodes P i.
Proof. reflexivity. Qed.
Lemma cas_c_eq : forall P i, (i <= P)%nat -> cas_c P i = cheb_c P i.
Proof.
  intros P i Hi. unfold cas_c, cheb_c. destruct (Nat.eqb_spec i 0) as [->|H0]; [reflexivity|].
  destruct (Nat.ltb_spec i P), (Nat.eqb_spec i P); try lia; reflexivity.
Qed.
Lemma cas_Dn_eq : forall P i j, (i <= P)%nat -> (j <= P)%nat -> cas_Dn P i j = cheb_Dn P i j.
Proof.
  intros P i j Hi Hj. unfold cas_Dn, cheb_Dn. rewrite !cas_c_eq by auto. change (cas_points P) with (cheb_nodes P).
  unfold Rdiv. rewrite Rmult_1_l. reflexivity.
Qed.
Lemma cas_D_eq : forall P i j, (i <= P)%nat -> (j <= P)%nat -> cas_D P i j = cheb_D P i j.
Proof.
  intros P i j Hi Hj. unfold cas_D, cheb_D. rewrite cas_Dn_eq by auto. f_equal. destruct (i =? j)%nat; auto.
  replace (P + 1)%nat with (S P) by lia. change (rsum (S P) (fun k => cas_Dn P i k) = rsum (S P) (fun k => cheb_Dn P i k)).
  apply rsum_ext. intros k Hk. apply cas_Dn_eq; lia.
Qed.
Lemma cas_v_eq : forall K t, cas_v K t = cc_loop K t 1.
Proof.
  induction K; intro t; [reflexivity|]. cbn [cc_loop]. rewrite <- IHK. unfold cas_v. rewrite loop_S. unfold Rdiv. ring.
Qed.
Lemma mod2_even : forall P, (P mod 2 =? 0)%nat = Nat.even P.
Proof.
  intro P. destruct (Nat.even P) eqn:E.
  - apply Nat.even_spec in E. destruct E as [k ->]. rewrite Nat.mul_comm, Nat.mod_mul by lia. reflexivity.
  - assert (O : Nat.odd P = true) by (unfold Nat.odd; rewrite E; reflexivity). apply Nat.odd_spec in O. destruct O as [k ->].
    rewrite Nat.add_comm, Nat.mul_comm, Nat.mod_add by lia. reflexivity.
Qed.
Lemma cas_w_eq : forall P i, cas_w P i = cheb_int_weights P i.
Proof.
  intros P i. unfold cas_w, cheb_int_weights. rewrite mod2_even. unfold cc_v, cheb_theta.
  destruct (i =? 0)%nat; cbn [orb]; [reflexivity|]. destruct (i =? P)%nat; [reflexivity|].
  destruct (Nat.even P); rewrite !cas_v_eq; unfold Rdiv; ring.
Qed.

(** * the same data as a problem of Ocp_Model *)
Section Cas.
Variable c : cas.
Local Notation P := (cP c).
Local Notation Sg := (cS c).
Local Notation nx := (cX c).
Local Notation nu := (cU c).
Local Notation np := (cNP c).
Local Notation N := (cas_N c).

Definition ocp_of (F : list (list R) -> vec R) (t0 tf : R) (Dv : vec R) : ocp R := {|
  NX := nx; NU := nu; NP := np; NG := 0; PO := P; SG := Sg;
  m_D := cas_D P; m_nodes := cas_points P; m_w := cas_w P; t_start := t0; t_stop := tf;
  o_dyn := fun x u p _ => F (slice x 0 nx :: slice u 0 nu :: extra c p Dv);
  o_dyn_jac := fun _ _ _ _ _ _ => 0; o_dyn_hes := fun _ _ _ _ _ _ _ => 0;
  o_ine := fun _ _ _ _ _ => 0; o_ine_jac := fun _ _ _ _ _ _ => 0; o_ine_hes := fun _ _ _ _ _ _ _ => 0;
  o_lag := None; o_may := None |}.
Lemma ocp_of_cheb : forall F t0 tf Dv, dims_ok c -> chebyshev_ocp (ocp_of F t0 tf Dv).
Proof.
  intros F t0 tf Dv (HP & HS & HX). repeat split; cbn; auto.
  - intros. apply cas_D_eq; auto.
  - intros. apply cas_w_eq.
Qed.

(** m_X, m_U, m_P one after the other *)
Definition stack (X U Pv : vec R) : vec R := fun i =>
  if (i <? nx * N)%nat then X i else if (i <? nx * N + nu * N)%nat then U (i - nx * N)%nat else Pv (i - (nx * N + nu * N))%nat.
Lemma stack_x : forall X U Pv i, (i < nx * N)%nat -> stack X U Pv i = X i.
Proof. intros. unfold stack. destruct (Nat.ltb_spec i (nx * N)); auto; lia. Qed.
Lemma stack_u : forall X U Pv i, (i < nu * N)%nat -> stack X U Pv (nx * N + i)%nat = U i.
Proof.
  intros X U Pv i Hi. unfold stack. destruct (Nat.ltb_spec (nx * N + i) (nx * N)); [lia|].
  destruct (Nat.ltb_spec (nx * N + i) (nx * N + nu * N)); [|lia]. f_equal. lia.
Qed.
Lemma stack_p : forall X U Pv i, stack X U Pv (nx * N + nu * N + i)%nat = Pv i.
Proof.
  intros X U Pv i. unfold stack. destruct (Nat.ltb_spec (nx * N + nu * N + i) (nx * N)); [lia|].
  destruct (Nat.ltb_spec (nx * N + nu * N + i) (nx * N + nu * N)); [lia|]. f_equal. lia.
Qed.

Lemma slice_ext : forall v w a b n, (forall i, (i < n)%nat -> v (a + i)%nat = w (b + i)%nat) -> slice v a n = slice w b n.
Proof. intros v w a b n H. apply map_ext_in. intros i Hi. apply in_seq in Hi. apply H. lia. Qed.
Lemma slice_length : forall v a n, length (slice v a n) = n.
Proof. intros. unfold slice. rewrite map_length, seq_length. reflexivity. Qed.
Lemma slice_nth : forall v a n i, (i < n)%nat -> nth i (slice v a n) 0 = v (a + i)%nat.
Proof.
  intros v a n i Hi. unfold slice. rewrite (nth_indep _ 0 (v (a + 0)%nat)) by (rewrite map_length, seq_length; auto).
  rewrite (map_nth (fun i => v (a + i)%nat)), seq_nth by auto. reflexivity.
Qed.

Lemma kbound : forall k n i, (k < N)%nat -> (i < n)%nat -> (k * n + i < n * N)%nat.
Proof. intros. nia. Qed.

Lemma node_args_eq : forall F t0 tf X U Pv Dv k, (k < N)%nat ->
  o_dyn (ocp_of F t0 tf Dv) (state (ocp_of F t0 tf Dv) (stack X U Pv) k) (control (ocp_of F t0 tf Dv) (stack X U Pv) k)
    (params (ocp_of F t0 tf Dv) (stack X U Pv)) 0 = F (node_args c X U Pv Dv k).
Proof.
  intros F t0 tf X U Pv Dv k Hk. cbn [o_dyn ocp_of]. unfold node_args. f_equal. f_equal; [|f_equal].
  - apply slice_ext. intros i Hi. unfold state, ix. cbn [NX ocp_of Nat.add]. apply stack_x. apply kbound; auto.
  - apply slice_ext. intros i Hi. unfold control, iu. cbn [NX NU PO SG ocp_of Nat.add].
    change (P * Sg + 1)%nat with N. replace (k * nu + nx * N + i)%nat with (nx * N + (k * nu + i))%nat by lia.
    apply stack_u. apply kbound; auto.
  - unfold extra. destruct ((np =? 0) && (cND c =? 0))%nat; auto. f_equal. apply slice_ext. intros i Hi.
    unfold params, ip. cbn [NX NU PO SG ocp_of Nat.add]. apply stack_p.
Qed.

Lemma args_length : forall X U Pv Dv k, length (node_args c X U Pv Dv k) = num_args c.
Proof. intros. unfold node_args, extra, num_args. destruct ((np =? 0) && (cND c =? 0))%nat; reflexivity. Qed.
Lemma call_ok : forall f X U Pv Dv k, f_nin f = num_args c -> call f (node_args c X U Pv Dv k) = Some (f_val f (node_args c X U Pv Dv k)).
Proof. intros f X U Pv Dv k H. unfold call. rewrite args_length, H, Nat.eqb_refl. reflexivity. Qed.
Lemma call_bad : forall f X U Pv Dv k, f_nin f <> num_args c -> call f (node_args c X U Pv Dv k) = None.
Proof. intros f X U Pv Dv k H. unfold call. rewrite args_length. destruct (Nat.eqb_spec (num_args c) (f_nin f)); auto. congruence. Qed.

Lemma oloop_some : forall A n (f : nat -> A -> A) a, oloop n (fun k s => Some (f k s)) a = Some (loop n f a).
Proof. induction n; intros; simpl; auto. rewrite IHn. reflexivity. Qed.
Lemma oloop_ext : forall A n (f g : nat -> A -> option A) a, (forall k s, (k < n)%nat -> f k s = g k s) -> oloop n f a = oloop n g a.
Proof. induction n; intros f g a H; simpl; auto. rewrite (IHn f g) by (intros; apply H; lia). destruct (oloop n g a); auto. Qed.
Lemma oloop_none : forall A n (f : nat -> A -> option A) a, (1 <= n)%nat -> (forall s, f O s = None) -> oloop n f a = None.
Proof.
  intros A n f a Hn H. destruct n; [lia|]. clear Hn. induction n; [simpl; auto|].
  change (oloop (S (S n)) f a) with (match oloop (S n) f a with Some b => f (S n) b | None => None end). rewrite IHn. reflexivity.
Qed.

Definition dyn_rhs (f : cfun) (t0 tf : R) (X U Pv Dv : vec R) : vec R :=
  loop N (fun k F => vset F (k * nx) nx (fun i => cas_ts c t0 tf * f_val f (node_args c X U Pv Dv k) i)) (fun _ => 0).
Definition dyn_res (f : cfun) (t0 tf : R) (X U Pv Dv : vec R) : vec R :=
  fun i => mtimes (N * nx) (kron nx (cas_comp c)) X i - dyn_rhs f t0 tf X U Pv Dv i.

Lemma cas_dynamics_some : forall f t0 tf X U Pv Dv, f_nin f = num_args c -> f_out f = nx ->
  cas_dynamics c f t0 tf X U Pv Dv = Some (dyn_res f t0 tf X U Pv Dv).
Proof.
  intros f t0 tf X U Pv Dv Hn Ho. unfold cas_dynamics.
  rewrite (oloop_ext _ _ _ (fun k F => Some (vset F (k * nx) nx (fun i => cas_ts c t0 tf * f_val f (node_args c X U Pv Dv k) i)))).
  - rewrite oloop_some. reflexivity.
  - intros k s Hk. rewrite call_ok by auto. unfold fit. rewrite Ho, Nat.eqb_refl. reflexivity.
Qed.

Lemma cas_ts_eq : forall F t0 tf Dv, cas_ts c t0 tf = t_scale (ocp_of F t0 tf Dv).
Proof. intros. unfold cas_ts, t_scale. rewrite snat_INR. reflexivity. Qed.

Lemma comp_eq : forall F t0 tf Dv, cas_comp c = old_DM (ocp_of F t0 tf Dv).
Proof. reflexivity. Qed.
Lemma kron_eq : forall F t0 tf Dv, kron nx (cas_comp c) = old_kron (ocp_of F t0 tf Dv).
Proof. reflexivity. Qed.

Lemma dyn_res_eq : forall f t0 tf X U Pv Dv i, (i < nx * N)%nat ->
  dyn_res f t0 tf X U Pv Dv i = old_residual (ocp_of (f_val f) t0 tf Dv) (ode_default (ocp_of (f_val f) t0 tf Dv)) (stack X U Pv) i.
Proof.
  intros f t0 tf X U Pv Dv i Hi. set (o := ocp_of (f_val f) t0 tf Dv).
  destruct (index_split nx N i Hi) as (t & k & -> & Ht & Hk).
  unfold dyn_res, old_residual. cbn [oo_diff ode_default]. cbv zeta.
  rewrite (old_value_eq o nx (fun k => old_at o (o_dyn o) (stack X U Pv) k)) by auto.
  assert (E : dyn_rhs f t0 tf X U Pv Dv (t * nx + k)%nat = cas_ts c t0 tf * f_val f (node_args c X U Pv Dv t) k).
  { exact (old_value_eq o nx (fun k i => cas_ts c t0 tf * f_val f (node_args c X U Pv Dv k) i) (fun _ => 0) t k Ht Hk). }
  rewrite E. rewrite (cas_ts_eq (f_val f) t0 tf Dv). change (ocp_of (f_val f) t0 tf Dv) with o.
  replace (old_at o (o_dyn o) (stack X U Pv) t) with (f_val f (node_args c X U Pv Dv t))
    by (symmetry; exact (node_args_eq (f_val f) t0 tf X U Pv Dv t Ht)).
  unfold mtimes. replace (N * nx)%nat with (VARX o) by (unfold VARX; cbn [NX o ocp_of]; change (NUM_NODES o) with N; lia).
  match goal with |- ?a - ?T * ?Y = ?z => change z with (- T * Y + ssum (VARX o) (fun j => kron nx (cas_comp c) (t * nx + k)%nat j * stack X U Pv j)) end.
  match goal with |- ?a - ?t * ?y = - ?t * ?y' + ?b => assert (a = b) as -> end; [|simpl; ring].
  match goal with |- @ssum R _ ?n ?f = @ssum R _ ?n ?g => change (rsum n f = rsum n g) end. apply rsum_ext. intros j Hj.
  rewrite stack_x; [reflexivity|]. unfold VARX in Hj. cbn [NX o ocp_of] in Hj. change (NUM_NODES o) with N in Hj. exact Hj.
Qed.

Lemma node_time_eq : forall F t0 tf Dv s j, dims_ok c -> (s < Sg)%nat -> (j <= P)%nat ->
  time_nodes (ocp_of F t0 tf Dv) (s * P + j)%nat = node_time c t0 tf s j.
Proof.
  intros F t0 tf Dv s j Hd Hs Hj. pose proof (time_nodes_eq _ (ocp_of_cheb F t0 tf Dv Hd) s j Hs Hj) as E. cbn [PO ocp_of] in E.
  rewrite E. unfold node_time, seg_len, tlen, cheb_nodes, cheb_theta. cbn [PO ocp_of t_stop t_start SG].
  replace (INR j * (PI / INR P)) with (INR j * PI / INR P) by (unfold Rdiv; ring). ring.
Qed.

Lemma dyn_collocation : forall f t0 tf X U Pv Dv, dims_ok c -> t0 < tf ->
  ((forall i, (i < nx * N)%nat -> dyn_res f t0 tf X U Pv Dv i = 0) <->
   (forall s i, (s < Sg)%nat -> (i < nx)%nat -> exists q q', is_poly P q /\ derivative_of q q' /\
      (forall j, (j <= P)%nat -> q (node_time c t0 tf s j) = comp nx X (s * P + j) i) /\
      (forall l, (l <= P)%nat -> (l < P \/ s = Sg - 1)%nat ->
         q' (node_time c t0 tf s l) = f_val f (node_args c X U Pv Dv (s * P + l)) i))).
Proof.
  intros f t0 tf X U Pv Dv Hd Ht. set (o := ocp_of (f_val f) t0 tf Dv). assert (Hch : chebyshev_ocp o) by (apply ocp_of_cheb; auto).
  pose proof Hd as (HP & HS & HX).
  transitivity (forall i, (i < NUM_EQ (aut o))%nat -> equalities (aut o) (stack X U Pv) i = 0).
  - split; intros H i Hi.
    + rewrite <- (old_residual_eq o) by auto. etransitivity; [symmetry; apply dyn_res_eq|apply H]; exact Hi.
    + rewrite dyn_res_eq by auto. etransitivity; [apply (old_residual_eq o); auto|apply H; auto].
  - etransitivity; [apply (collocation (aut o) (aut_cheb o Hch) Ht)|].
    cbn [SG PO NX aut o ocp_of]. 
    assert (Hnode : forall s l, (s < Sg)%nat -> (l <= P)%nat -> (s * P + l < N)%nat) by (intros; unfold cas_N; nia).
    assert (Hst : forall s l i, (s < Sg)%nat -> (l <= P)%nat -> (i < nx)%nat -> state (aut o) (stack X U Pv) (s * P + l) i = comp nx X (s * P + l) i).
    { intros s l i Hs Hl Hi. unfold state, ix, comp. cbn [NX aut o ocp_of]. apply stack_x. apply kbound; auto. }
    split; intros H s i Hs Hi; destruct (H s i Hs Hi) as (q & q' & Hq & Hq' & Hv & Hc); exists q, q'; repeat split; auto.
    + intros j Hj. rewrite <- (node_time_eq (f_val f) t0 tf Dv) by auto. etransitivity; [apply (Hv j Hj)|]. apply Hst; auto.
    + intros l Hl Hor. rewrite <- (node_time_eq (f_val f) t0 tf Dv) by auto. etransitivity; [apply (Hc l Hl Hor)|].
      rewrite <- (node_args_eq (f_val f) t0 tf) by auto. reflexivity.
    + intros j Hj. etransitivity; [|symmetry; apply Hst; auto]. etransitivity; [|apply (Hv j Hj)].
      f_equal. apply (node_time_eq (f_val f) t0 tf Dv); auto.
    + intros l Hl Hor. etransitivity; [etransitivity; [|apply (Hc l Hl Hor)]|].
      * f_equal. apply (node_time_eq (f_val f) t0 tf Dv); auto.
      * rewrite <- (node_args_eq (f_val f) t0 tf) by auto. reflexivity.
Qed.

(** * one segment *)
Lemma ts_len : (1 <= Sg)%nat -> forall t0 tf, cas_ts c t0 tf = seg_len c t0 tf / 2.
Proof.
  intros HS t0 tf. unfold cas_ts, seg_len. rewrite mult_INR. simpl (INR 2). field. apply not_0_INR. lia.
Qed.
Lemma ts_pos : (1 <= Sg)%nat -> forall t0 tf, t0 < tf -> 0 < cas_ts c t0 tf.
Proof.
  intros HS t0 tf Ht. unfold cas_ts. apply Rdiv_lt_0_compat; [lra|]. apply lt_0_INR. lia.
Qed.
Lemma node_affine : forall t0 tf s j, node_time c t0 tf s j =
  seg_len c t0 tf / 2 * cheb_nodes P j + (tf - INR s * seg_len c t0 tf - seg_len c t0 tf / 2).
Proof.
  intros. unfold node_time, cheb_nodes, cheb_theta.
  replace (INR j * (PI / INR P)) with (INR j * PI / INR P) by (unfold Rdiv; ring). ring.
Qed.
Lemma poly_comp_affine : forall n p a b, is_poly n p -> is_poly n (fun x => p (a * x + b)).
Proof.
  intros n p a b Hp. destruct (is_poly_list n p Hp) as [l [Hl He]]. destruct (poly_affine a b l n Hl) as [e He'].
  exists e. intro x. rewrite He, He'. reflexivity.
Qed.
Lemma deriv_comp_affine : forall p p' a b, derivative_of p p' -> derivative_of (fun x => p (a * x + b)) (fun x => a * p' (a * x + b)).
Proof.
  intros p p' a b H x. replace (a * p' (a * x + b)) with (p' (a * x + b) * a) by ring.
  apply (derivable_pt_lim_comp (fun y => a * y + b) p); [|apply H].
  apply derivable_pt_lim_ext with (plus_fct (mult_real_fct a id) (fct_cte b)); [intro; auto|].
  replace a with (a * 1 + 0) at 2 by ring.
  apply derivable_pt_lim_plus; [apply derivable_pt_lim_scal, derivable_pt_lim_id|apply derivable_pt_lim_const].
Qed.
Lemma seg_diff : dims_ok c -> forall t0 tf q q' s l, is_poly P q -> derivative_of q q' -> (l <= P)%nat ->
  rsum (S P) (fun j => cas_D P l j * q (node_time c t0 tf s j)) = cas_ts c t0 tf * q' (node_time c t0 tf s l).
Proof.
  intros (HP & HS & HX) t0 tf q q' s l Hq Hd Hl. rewrite ts_len by auto. rewrite node_affine.
  set (a := seg_len c t0 tf / 2). set (b := tf - INR s * seg_len c t0 tf - a).
  rewrite (rsum_ext _ _ (fun j => cheb_D P l j * (fun x => q (a * x + b)) (cheb_nodes P j))).
  - exact (cheb_D_poly P (fun x => q (a * x + b)) (fun x => a * q' (a * x + b)) HP
      (poly_comp_affine P q a b Hq) (deriv_comp_affine q q' a b Hd) l Hl).
  - intros j Hj. rewrite cas_D_eq by lia. rewrite node_affine. reflexivity.
Qed.
Lemma times_distinct : dims_ok c -> forall t0 tf, t0 < tf -> forall s, distinct (S P) (fun j => node_time c t0 tf s j).
Proof.
  intros (HP & HS & HX) t0 tf Ht s i j Hi Hj Hne E. rewrite !node_affine in E.
  pose proof (ts_pos HS t0 tf Ht) as Hp. rewrite ts_len in Hp by auto.
  apply (nodes_distinct P HP i j Hi Hj Hne). nra.
Qed.
(** collocation on one segment: any values W, right-hand sides Y *)
Lemma seg_collocation : dims_ok c -> forall t0 tf, t0 < tf -> forall s (W Y : nat -> R) (ok : nat -> Prop),
  ((forall l, (l <= P)%nat -> ok l -> rsum (S P) (fun j => cas_D P l j * W j) - cas_ts c t0 tf * Y l = 0) <->
   exists q q', is_poly P q /\ derivative_of q q' /\ (forall j, (j <= P)%nat -> q (node_time c t0 tf s j) = W j) /\
     forall l, (l <= P)%nat -> ok l -> q' (node_time c t0 tf s l) = Y l).
Proof.
  intros Hd t0 tf Ht s W Y ok. pose proof Hd as (HP & HS & HX). pose proof (ts_pos HS t0 tf Ht) as Hp.
  assert (K : forall q q', is_poly P q -> derivative_of q q' -> (forall j, (j <= P)%nat -> q (node_time c t0 tf s j) = W j) ->
    forall l, (l <= P)%nat -> rsum (S P) (fun j => cas_D P l j * W j) = cas_ts c t0 tf * q' (node_time c t0 tf s l)).
  { intros q q' Hq Hq' Hv l Hl. rewrite <- (seg_diff Hd t0 tf q q' s l) by auto. apply rsum_ext. intros j Hj. rewrite Hv by lia. reflexivity. }
  split.
  - intro H. destruct (interp_exists P (fun j => node_time c t0 tf s j) W HP (times_distinct Hd t0 tf Ht s)) as (q & q' & Hq & Hq' & Hv).
    exists q, q'. repeat split; auto. intros l Hl Hok. specialize (H l Hl Hok). rewrite (K q q' Hq Hq' Hv l Hl) in H. nra.
  - intros (q & q' & Hq & Hq' & Hv & Hc) l Hl Hok. rewrite (K q q' Hq Hq' Hv l Hl), Hc by auto. ring.
Qed.

(** * Kronecker product with an identity *)
Lemma kron_mul : forall m n M v k i, (i < m)%nat -> mtimes (n * m) (kron m M) v (k * m + i)%nat = rsum n (fun j => M k j * v (j * m + i)%nat).
Proof.
  intros m n M v k i Hi. unfold mtimes. change (@ssum R R_scalar) with (fun n f => rsum n f). cbv beta.
  rewrite Nat.mul_comm, rsum_blocks. apply rsum_ext. intros j _.
  rewrite (rsum_ext m _ (fun r => if (r =? i)%nat then M k j * v (j * m + r)%nat else 0)).
  - rewrite (rsum_delta m i (fun r => M k j * v (j * m + r)%nat)) by auto. reflexivity.
  - intros r Hr. unfold kron.
    rewrite !Nat.div_add_l by lia. rewrite (Nat.div_small i), (Nat.div_small r) by auto. rewrite !Nat.add_0_r.
    rewrite (Nat.add_comm (k * m)), (Nat.add_comm (j * m)), !Nat.mod_add by lia. rewrite !Nat.mod_small by auto.
    rewrite (Nat.eqb_sym i r). rewrite (Nat.add_comm r). destruct (r =? i)%nat; simpl; ring.
Qed.
Lemma comp_row : forall s l (W : nat -> R), (1 <= Sg)%nat -> (s < Sg)%nat -> (l <= P)%nat -> (l < P \/ s = Sg - 1)%nat ->
  rsum N (fun k => cas_comp c (s * P + l)%nat k * W k) = rsum (S P) (fun j => cas_D P l j * W (s * P + j)%nat).
Proof.
  intros s l W HS Hs Hl Hd. set (o := ocp_of (fun _ _ => 0) 0 1 (fun _ => 0)).
  rewrite (rsum_ext N _ (fun k => if in_seg (s * P) (P + 1) k then (fun j => cas_D P l j * W (s * P + j)%nat) (k - s * P)%nat else 0)).
  - rewrite (rsum_seg N (s * P) (P + 1) (fun j => cas_D P l j * W (s * P + j)%nat)) by (unfold cas_N; nia).
    replace (P + 1)%nat with (S P) by lia. reflexivity.
  - intros k Hk. assert (E0 := old_DM_eq o s l k HS Hs Hl Hd Hk). change (old_DM o (s * PO o + l)%nat k) with (cas_comp c (s * P + l)%nat k) in E0.
    rewrite E0. unfold dmat. change (PO o) with P.
    destruct (in_seg (s * P) (P + 1) k) eqn:E; [|ring]. apply in_seg_spec in E. replace (s * P + (k - s * P))%nat with k by lia. reflexivity.
Qed.
Lemma comp_mul : forall m v s l i, (1 <= Sg)%nat -> (s < Sg)%nat -> (l <= P)%nat -> (l < P \/ s = Sg - 1)%nat -> (i < m)%nat ->
  mtimes (N * m) (kron m (cas_comp c)) v ((s * P + l) * m + i)%nat = rsum (S P) (fun j => cas_D P l j * comp m v (s * P + j) i).
Proof. intros m v s l i HS Hs Hl Hd Hi. rewrite kron_mul by auto. exact (comp_row s l (fun k => v (k * m + i)%nat) HS Hs Hl Hd). Qed.

(** * quadrature *)
Lemma quad_some : forall ts val v, (forall k m, (k < Sg)%nat -> (m <= P)%nat -> val k m = Some (v k m)) ->
  quad c ts val = Some (rsum Sg (fun k => ts * rsum (S P) (fun m => cas_w P m * v k m))).
Proof.
  intros ts val v H. unfold quad.
  assert (A : forall n f, oloop n (fun k acc => Some (acc + f k)) 0 = Some (rsum n f)).
  { induction n; intro f; [reflexivity|]. cbn [oloop]. rewrite IHn, rsum_S. reflexivity. }
  rewrite (oloop_ext _ _ _ (fun k acc => Some (acc + ts * rsum (S P) (fun m => cas_w P m * v k m)))); [apply A|].
  intros k acc Hk. replace (P + 1)%nat with (S P) by lia.
  rewrite (oloop_ext _ _ _ (fun m l => Some (l + cas_w P m * v k m))); [rewrite A; reflexivity|].
  intros m l Hm. rewrite H by lia. reflexivity.
Qed.
Lemma seg_ends : forall t0 tf s, (1 <= P)%nat ->
  node_time c t0 tf s 0 = tf - INR s * seg_len c t0 tf /\ node_time c t0 tf s P = tf - INR s * seg_len c t0 tf - seg_len c t0 tf.
Proof.
  intros t0 tf s HP. rewrite !node_affine, nodes_first, nodes_last by auto. split; field.
Qed.
Lemma quad_integral : dims_ok c -> forall t0 tf val (r F : nat -> R -> R),
  (forall s, (s < Sg)%nat -> is_poly P (r s) /\ derivative_of (F s) (r s) /\
     forall k, (k <= P)%nat -> val s k = Some (r s (node_time c t0 tf s k))) ->
  quad c (cas_ts c t0 tf) val = Some (rsum Sg (fun s => F s (node_time c t0 tf s 0) - F s (node_time c t0 tf s P))).
Proof.
  intros (HP & HS & HX) t0 tf val r F H.
  rewrite (quad_some _ val (fun s k => r s (node_time c t0 tf s k))) by (intros k m Hk Hm; apply (H k Hk); auto).
  f_equal. apply rsum_ext. intros s Hs. destruct (H s Hs) as (Hp & HF & _).
  rewrite <- (integrate_exact P (r s) (F s) _ _ HP Hp HF). unfold cheb_integrate. destruct (seg_ends t0 tf s HP) as [E0 E1].
  rewrite ts_len by auto. rewrite E0, E1. set (L := seg_len c t0 tf).
  match goal with |- _ = ?a * _ => replace a with (L / 2) by field end. f_equal.
  change (@ssum R R_scalar (S P)) with (rsum (S P)). apply rsum_ext. intros k Hk. rewrite cas_w_eq, node_affine. fold L.
  rewrite Rmult_comm. f_equal. f_equal. field.
Qed.

(** * CollocateFunction *)
Lemma vset_loop : forall n m (Y : nat -> vec R) a t i, (t < n)%nat -> (i < m)%nat ->
  loop n (fun k v => vset v (k * m) m (Y k)) a (t * m + i)%nat = Y t i.
Proof.
  intros n m Y a t i Ht Hi.
  rewrite (loop_pick _ _ (fun v : vec R => v (t * m + i)%nat) n _ _ (fun k => (k =? t)%nat) (fun k => Y k i) t); auto.
  - intros k v Hk. unfold vset. rewrite node_eqb by auto. destruct (Nat.eqb_spec k t) as [->|]; auto.
    replace (t * m + i - t * m)%nat with i by lia. auto.
  - apply Nat.eqb_refl.
  - intros. apply Nat.eqb_neq. auto.
Qed.
Lemma cas_function_some : forall f X U Pv Dv, f_nin f = num_args c ->
  exists v, cas_function c f X U Pv Dv = Some v /\
    forall k i, (k < N)%nat -> (i < f_out f)%nat -> comp (f_out f) v k i = f_val f (node_args c X U Pv Dv k) i.
Proof.
  intros f X U Pv Dv H. unfold cas_function.
  rewrite (oloop_ext _ _ _ (fun k v => Some (vset v (k * f_out f) (f_out f) (f_val f (node_args c X U Pv Dv k))))).
  - rewrite oloop_some. eexists. split; [reflexivity|]. intros k i Hk Hi. unfold comp. apply (vset_loop N (f_out f)); auto.
  - intros k v Hk. rewrite call_ok by auto. reflexivity.
Qed.
Lemma cas_function_none : forall f X U Pv Dv, f_nin f <> num_args c -> cas_function c f X U Pv Dv = None.
Proof. intros f X U Pv Dv H. unfold cas_function. apply oloop_none; [unfold cas_N; lia|]. intro s. rewrite call_bad by auto. reflexivity. Qed.
Lemma cas_dynamics_none : forall f t0 tf X U Pv Dv, f_nin f <> num_args c -> cas_dynamics c f t0 tf X U Pv Dv = None.
Proof.
  intros f t0 tf X U Pv Dv H. unfold cas_dynamics. rewrite oloop_none; [reflexivity|unfold cas_N; lia|]. intro s.
  rewrite call_bad by auto. reflexivity.
Qed.

(** * DifferentiateFunction *)
Lemma deriv_poly : forall n p p', is_poly n p -> derivative_of p p' -> is_poly n p'.
Proof.
  intros n p p' Hp Hd. destruct (is_poly_list n p Hp) as [l [Hl He]].
  assert (E : forall x, p' x = peval (pder l) x).
  { intro x. apply (derivable_unique p x); [apply Hd|]. apply derivable_pt_lim_ext with (peval l); [intro; symmetry; auto|apply peval_derivable]. }
  destruct (list_is_poly n (pder l)) as [e He']; [rewrite length_der; lia|]. exists e. intro x. rewrite E. apply He'.
Qed.
Lemma derivs_poly : forall n d k, derivatives n d -> is_poly n (d k).
Proof. intros n d k [H0 H]. induction k; auto. apply deriv_poly with (d k); auto. Qed.
Lemma iter_diff : dims_ok c -> forall t0 tf m order (d : nat -> nat -> nat -> R -> R) v,
  (forall s i, (s < Sg)%nat -> (i < m)%nat -> derivatives P (d s i)) ->
  (forall s i j, (s < Sg)%nat -> (i < m)%nat -> (j <= P)%nat -> comp m v (s * P + j) i = d s i 0%nat (node_time c t0 tf s j)) ->
  (forall k s i, (k < order)%nat -> (S s < Sg)%nat -> (i < m)%nat ->
     d s i k (node_time c t0 tf s P) = d (S s) i k (node_time c t0 tf (S s) 0)) ->
  forall s i l, (s < Sg)%nat -> (i < m)%nat -> (l <= P)%nat -> (l < P \/ s = Sg - 1)%nat ->
  comp m (loop order (fun _ v => mtimes (N * m) (kron m (cas_comp c)) v) v) (s * P + l) i =
  cas_ts c t0 tf ^ order * d s i order (node_time c t0 tf s l).
Proof.
  intros Hdim t0 tf m order d v HD Hv Hj. pose proof Hdim as (HP & HS & HX). revert Hj.
  induction order as [|n IH]; intros Hj s i l Hs Hi Hl Hor.
  - simpl loop. rewrite Hv by auto. simpl. ring.
  - rewrite loop_S. unfold comp. rewrite comp_mul by auto. specialize (IH (fun k s i H => Hj k s i ltac:(lia))).
    rewrite (rsum_ext _ _ (fun j => cas_ts c t0 tf ^ n * (cas_D P l j * d s i n (node_time c t0 tf s j)))).
    + rewrite rsum_scal. rewrite (seg_diff Hdim t0 tf (d s i n) (d s i (S n)) s l); auto.
      * simpl. ring.
      * apply derivs_poly. auto.
      * apply (HD s i); auto.
    + intros j Hjj. destruct (Nat.eq_dec j P) as [->|Hne].
      * destruct (Nat.eq_dec s (Sg - 1)) as [E|Hs'].
        -- rewrite IH by (auto; lia). ring.
        -- replace (s * P + P)%nat with (S s * P + 0)%nat by lia. rewrite IH by (auto; lia).
           rewrite (Hj n s i) by (auto; lia). ring.
      * rewrite IH by (auto; lia). ring.
Qed.

(** * SoftChebyshev *)
Lemma soft_some : forall f t0 tf X U Pv Dv, f_nin f = num_args c -> f_out f = nx -> (1 <= P)%nat ->
  soft_dynamics c f t0 tf X U Pv Dv = Some (rsum Sg (fun s => cas_ts c t0 tf * rsum (S P) (fun j => cas_w P j *
    rsum nx (fun i => (comp nx (dyn_res f t0 tf X U Pv Dv) (s * P + j) i) ^ 2)))).
Proof.
  intros f t0 tf X U Pv Dv Hn Ho HP. unfold soft_dynamics. cbv zeta. apply quad_some. intros k m Hk Hm.
  rewrite call_ok by auto. unfold fit. rewrite Ho, Nat.eqb_refl. f_equal. change (@ssum R R_scalar nx) with (rsum nx).
  apply rsum_ext. intros i Hi. unfold comp, dyn_res.
  assert (E : dyn_rhs f t0 tf X U Pv Dv ((k * P + m) * nx + i)%nat = cas_ts c t0 tf * f_val f (node_args c X U Pv Dv (k * P + m)) i).
  { unfold dyn_rhs. rewrite (vset_loop N nx (fun k i => cas_ts c t0 tf * f_val f (node_args c X U Pv Dv k) i)); auto. unfold cas_N. nia. }
  rewrite E. ring.
Qed.
Lemma soft_zero : forall t0 tf (r : vec R), dims_ok c -> t0 < tf ->
  let v := rsum Sg (fun s => cas_ts c t0 tf * rsum (S P) (fun j => cas_w P j * rsum nx (fun i => (comp nx r (s * P + j) i) ^ 2))) in
  0 <= v /\ (v = 0 <-> forall i, (i < nx * N)%nat -> r i = 0).
Proof.
  intros t0 tf r (HP & HS & HX) Ht v. pose proof (ts_pos HS t0 tf Ht) as Hp.
  assert (Hw : forall j, (j < S P)%nat -> 0 < cas_w P j) by (intros j Hj; rewrite cas_w_eq; apply cc_positive; lia).
  assert (H1 : forall s j, 0 <= rsum nx (fun i => (comp nx r (s * P + j) i) ^ 2)) by (intros; apply rsum_nonneg; intros; apply pow2_ge_0).
  assert (H2 : forall s, 0 <= rsum (S P) (fun j => cas_w P j * rsum nx (fun i => (comp nx r (s * P + j) i) ^ 2))).
  { intro s. apply rsum_nonneg. intros j Hj. apply Rmult_le_pos; [apply Rlt_le; auto|auto]. }
  assert (H3 : forall s, (s < Sg)%nat -> 0 <= cas_ts c t0 tf * rsum (S P) (fun j => cas_w P j * rsum nx (fun i => (comp nx r (s * P + j) i) ^ 2))).
  { intros s _. apply Rmult_le_pos; [lra|auto]. }
  split; [apply rsum_nonneg; auto|]. split.
  - intros Hz i Hi. destruct (index_split nx N i Hi) as (t & k & -> & Htn & Hk).
    assert (D : exists s j, t = (s * P + j)%nat /\ (s < Sg)%nat /\ (j <= P)%nat).
    { destruct (node_decomp (ocp_of (fun _ _ => 0) 0 1 (fun _ => 0)) t HP HS Htn) as (s & l & E & A & B & _). exists s, l. auto. }
    destruct D as (s & j & -> & Hs & Hj).
    pose proof (rsum_nonneg_zero _ _ H3 Hz s Hs) as E. apply Rmult_integral in E. destruct E as [E|E]; [lra|].
    assert (E2 := rsum_nonneg_zero _ _ (fun j Hj => Rmult_le_pos _ _ (Rlt_le _ _ (Hw j Hj)) (H1 s j)) E j ltac:(lia)).
    cbv beta in E2. apply Rmult_integral in E2. destruct E2 as [E2|E2]; [specialize (Hw j ltac:(lia)); lra|].
    assert (E3 := rsum_nonneg_zero _ _ (fun i _ => pow2_ge_0 (comp nx r (s * P + j) i)) E2 k Hk). cbv beta in E3.
    change (comp nx r (s * P + j) k = 0). nra.
  - intro H. unfold v. apply rsum_zero. intros s Hs. rewrite rsum_zero; [ring|]. intros j Hj. rewrite rsum_zero; [ring|].
    intros i Hi. unfold comp. rewrite H; [ring|]. apply kbound; auto. unfold cas_N. nia.
Qed.

(** * MSChebyshev *)
Lemma ms_args_length : forall X U Pv Dv j i, length (ms_args c X U Pv Dv j i) = num_args c.
Proof. intros. unfold ms_args, extra, num_args. destruct ((np =? 0) && (cND c =? 0))%nat; reflexivity. Qed.
Lemma ms_call_ok : forall f X U Pv Dv j i, f_nin f = num_args c -> call f (ms_args c X U Pv Dv j i) = Some (f_val f (ms_args c X U Pv Dv j i)).
Proof. intros f X U Pv Dv j i H. unfold call. rewrite ms_args_length, H, Nat.eqb_refl. reflexivity. Qed.
Lemma vset_loop2 : forall a b m (Y : nat -> nat -> vec R) v s l i, (s < a)%nat -> (l < b)%nat -> (i < m)%nat ->
  loop a (fun j v => loop b (fun k v => vset v ((j * b + k) * m) m (Y j k)) v) v ((s * b + l) * m + i)%nat = Y s l i.
Proof.
  intros a b m Y v s l i Hs Hl Hi.
  rewrite (loop_pick _ _ (fun v : vec R => v ((s * b + l) * m + i)%nat) a _ _ (fun j => (j =? s)%nat) (fun j => Y j l i) s); auto.
  - intros j w Hj. destruct (Nat.eqb_spec j s) as [->|Hne].
    + rewrite (loop_pick _ _ (fun v : vec R => v ((s * b + l) * m + i)%nat) b _ _ (fun k => (k =? l)%nat) (fun k => Y s k i) l); auto.
      * intros k u Hk. unfold vset. rewrite node_eqb by auto.
        destruct (Nat.eqb_spec k l) as [->|]; [rewrite Nat.eqb_refl|destruct (Nat.eqb_spec (s * b + k) (s * b + l)); [lia|]]; auto.
        f_equal. lia.
      * apply Nat.eqb_refl.
      * intros. apply Nat.eqb_neq. auto.
    + apply (loop_skip _ _ (fun v : vec R => v ((s * b + l) * m + i)%nat)). intros k u Hk. unfold vset. rewrite node_eqb by auto.
      destruct (Nat.eqb_spec (j * b + k) (s * b + l)) as [E|]; auto. exfalso. apply Hne. nia.
  - apply Nat.eqb_refl.
  - intros. apply Nat.eqb_neq. auto.
Qed.
Lemma ms_row : forall s l (W : nat -> R), (s < Sg)%nat -> (l <= P)%nat ->
  rsum (ms_N c) (fun k => ms_comp c (s * (P + 1) + l)%nat k * W k) = rsum (S P) (fun j => cas_D P l j * W (s * (P + 1) + j)%nat).
Proof.
  intros s l W Hs Hl. unfold ms_N, ms_comp. replace (P + 1)%nat with (S P) by lia. destruct (Nat.ltb_spec Sg 2) as [H1|H1].
  - assert (Sg = 1)%nat as -> by lia. assert (s = 0)%nat as -> by lia. rewrite Nat.mul_1_l. reflexivity.
  - rewrite (Nat.mul_comm Sg), rsum_blocks.
    rewrite (rsum_ext Sg _ (fun k => if (k =? s)%nat then rsum (S P) (fun j => cas_D P l j * W (k * S P + j)%nat) else 0)).
    + rewrite (rsum_delta Sg s (fun k => rsum (S P) (fun j => cas_D P l j * W (k * S P + j)%nat))) by auto. reflexivity.
    + intros k Hk. assert (Q : forall a b, (b < S P)%nat -> ((a * S P + b) / S P = a /\ (a * S P + b) mod S P = b)%nat).
      { intros a b Hb. split; [rewrite Nat.div_add_l by lia; rewrite Nat.div_small by auto; lia|].
        rewrite Nat.add_comm, Nat.mod_add by lia. apply Nat.mod_small; auto. }
      destruct (Q s l ltac:(lia)) as [-> ->].
      destruct (Nat.eqb_spec k s) as [->|Hne].
      * apply rsum_ext. intros j Hj. destruct (Q s j Hj) as [-> ->]. rewrite Nat.eqb_refl. reflexivity.
      * apply rsum_zero. intros j Hj. destruct (Q k j Hj) as [-> ->]. destruct (Nat.eqb_spec s k); [congruence|]. simpl. ring.
Qed.
Lemma ms_mul : forall m v s l i, (s < Sg)%nat -> (l <= P)%nat -> (i < m)%nat ->
  mtimes (ms_N c * m) (kron m (ms_comp c)) v ((s * (P + 1) + l) * m + i)%nat =
  rsum (S P) (fun j => cas_D P l j * comp m v (s * (P + 1) + j) i).
Proof. intros m v s l i Hs Hl Hi. rewrite kron_mul by auto. exact (ms_row s l (fun k => v (k * m + i)%nat) Hs Hl). Qed.

Lemma ms_dynamics_some : forall f t0 tf X U Pv Dv, f_nin f = num_args c -> f_out f = nx -> (1 <= Sg)%nat ->
  exists G, ms_dynamics c f t0 tf X U Pv Dv = Some G /\
    (forall s l i, (s < Sg)%nat -> (l <= P)%nat -> (i < nx)%nat -> G ((s * (P + 1) + l) * nx + i)%nat =
       rsum (S P) (fun j => cas_D P l j * comp nx X (s * (P + 1) + j) i) - cas_ts c t0 tf * f_val f (ms_args c X U Pv Dv s l) i) /\
    (forall s i, (S s < Sg)%nat -> (i < nx)%nat -> G (ms_N c * nx + s * nx + i)%nat = comp nx X (s * (P + 1) + P) i - comp nx X (S s * (P + 1)) i).
Proof.
  intros f t0 tf X U Pv Dv Hn Ho HS. unfold ms_dynamics.
  rewrite (oloop_ext _ _ _ (fun j F => Some (loop (P + 1) (fun i F =>
    vset F ((j * (P + 1) + i) * nx) nx (fun r => cas_ts c t0 tf * f_val f (ms_args c X U Pv Dv j i) r)) F))).
  2:{ intros j F Hj. rewrite <- oloop_some. apply oloop_ext. intros i F' Hi. rewrite ms_call_ok by auto. unfold fit. rewrite Ho, Nat.eqb_refl. reflexivity. }
  rewrite oloop_some. eexists. split; [reflexivity|]. cbv zeta. split.
  - intros s l i Hs Hl Hi.
    rewrite (loop_skip _ _ (fun v : vec R => v ((s * (P + 1) + l) * nx + i)%nat)).
    + rewrite ms_mul by auto. f_equal.
      exact (vset_loop2 Sg (P + 1) nx (fun j i r => cas_ts c t0 tf * f_val f (ms_args c X U Pv Dv j i) r) (fun _ => 0) s l i Hs ltac:(lia) Hi).
    + intros k v Hk. unfold vset. rewrite in_seg_false; auto. left. unfold ms_N. 
      assert ((s * (P + 1) + l + 1) * nx <= Sg * (P + 1) * nx)%nat by (apply Nat.mul_le_mono_r; nia). nia.
  - intros s i Hs Hi.
    rewrite (loop_pick _ _ (fun v : vec R => v (ms_N c * nx + s * nx + i)%nat) (Sg - 1) _ _ (fun k => (k =? s)%nat)
      (fun k => comp nx X (k * (P + 1) + P) i - comp nx X (S k * (P + 1)) i) s); auto; try lia.
    + intros k v Hk. unfold vset. destruct (Nat.eqb_spec k s) as [->|Hne].
      * rewrite in_seg_true by lia. unfold comp. f_equal; f_equal; nia.
      * rewrite in_seg_false; auto. destruct (Nat.lt_total k s) as [L|[L|L]]; [right|lia|left]; nia.
    + apply Nat.eqb_refl.
    + intros. apply Nat.eqb_neq. auto.
Qed.

Lemma ms_index : forall i, (i < nx * (Sg * (P + 1)) + nx * (Sg - 1))%nat ->
  (exists s l k, i = ((s * (P + 1) + l) * nx + k)%nat /\ (s < Sg)%nat /\ (l <= P)%nat /\ (k < nx)%nat) \/
  (exists s k, i = (ms_N c * nx + s * nx + k)%nat /\ (S s < Sg)%nat /\ (k < nx)%nat).
Proof.
  intros i Hi. destruct (Nat.lt_ge_cases i (nx * (Sg * (P + 1)))) as [H|H].
  - left. destruct (index_split nx (Sg * (P + 1)) i H) as (t & k & -> & Ht & Hk). rewrite Nat.mul_comm in Ht.
    destruct (index_split (P + 1) Sg t Ht) as (s & l & -> & Hs & Hl). exists s, l, k. repeat split; auto; lia.
  - right. destruct (index_split nx (Sg - 1) (i - nx * (Sg * (P + 1))) ltac:(lia)) as (s & k & E & Hs & Hk).
    exists s, k. repeat split; auto; [|lia]. unfold ms_N. lia.
Qed.

Lemma ms_collocation : forall f t0 tf X U Pv Dv, dims_ok c -> t0 < tf -> f_nin f = num_args c -> f_out f = nx ->
  exists G, ms_dynamics c f t0 tf X U Pv Dv = Some G /\
  ((forall i, (i < nx * (Sg * (P + 1)) + nx * (Sg - 1))%nat -> G i = 0) <->
   (forall s i, (s < Sg)%nat -> (i < nx)%nat -> exists q q', is_poly P q /\ derivative_of q q' /\
      (forall j, (j <= P)%nat -> q (node_time c t0 tf s j) = comp nx X (s * (P + 1) + j) i) /\
      (forall l, (l <= P)%nat -> q' (node_time c t0 tf s l) = f_val f (ms_args c X U Pv Dv s l) i)) /\
   (forall s i, (S s < Sg)%nat -> (i < nx)%nat -> comp nx X (s * (P + 1) + P) i = comp nx X (S s * (P + 1)) i)).
Proof.
  intros f t0 tf X U Pv Dv Hd Ht Hn Ho. pose proof Hd as (HP & HS & HX).
  destruct (ms_dynamics_some f t0 tf X U Pv Dv Hn Ho HS) as (G & EG & HG & HC). exists G. split; auto. split.
  - intro Hz. split.
    + intros s i Hs Hi.
      destruct (seg_collocation Hd t0 tf Ht s (fun j => comp nx X (s * (P + 1) + j) i)
        (fun l => f_val f (ms_args c X U Pv Dv s l) i) (fun _ => True)) as [K _].
      destruct K as (q & q' & Hq & Hq' & Hv & Hc).
      * intros l Hl _. rewrite <- HG by auto. apply Hz.
        assert ((s * (P + 1) + l + 1) * nx <= Sg * (P + 1) * nx)%nat by (apply Nat.mul_le_mono_r; nia). nia.
      * exists q, q'. repeat split; auto.
    + intros s i Hs Hi. assert (E := HC s i Hs Hi). rewrite Hz in E; [lra|]. unfold ms_N. nia.
  - intros [H1 H2] i Hi. destruct (ms_index i Hi) as [(s & l & k & -> & Hs & Hl & Hk)|(s & k & -> & Hs & Hk)].
    + rewrite HG by auto. destruct (H1 s k Hs Hk) as (q & q' & Hq & Hq' & Hv & Hc).
      apply (proj2 (seg_collocation Hd t0 tf Ht s (fun j => comp nx X (s * (P + 1) + j) k)
        (fun l => f_val f (ms_args c X U Pv Dv s l) k) (fun _ => True))); auto.
      exists q, q'. repeat split; auto.
    + rewrite HC by auto. rewrite H2 by auto. ring.
Qed.

Lemma ms_function_dep : forall f X U Pv Dv, f_nin f = num_args c ->
  exists v, ms_function c true f X U Pv Dv = Some v /\
    forall s l i, (s < Sg)%nat -> (l <= P)%nat -> (i < f_out f)%nat -> comp (f_out f) v (s * (P + 1) + l) i = f_val f (ms_args c X U Pv Dv s l) i.
Proof.
  intros f X U Pv Dv H. unfold ms_function.
  rewrite (oloop_ext _ _ _ (fun j F => Some (loop (P + 1) (fun i F => vset F ((j * (P + 1) + i) * f_out f) (f_out f) (f_val f (ms_args c X U Pv Dv j i))) F))).
  2:{ intros j F Hj. rewrite <- oloop_some. apply oloop_ext. intros i F' Hi. rewrite ms_call_ok by auto. reflexivity. }
  rewrite oloop_some. eexists. split; [reflexivity|]. intros s l i Hs Hl Hi. unfold comp.
  apply (vset_loop2 Sg (P + 1) (f_out f) (fun j i => f_val f (ms_args c X U Pv Dv j i))); auto. lia.
Qed.
Lemma ms_iter_diff : dims_ok c -> forall t0 tf m order (d : nat -> nat -> nat -> R -> R) v,
  (forall s i, (s < Sg)%nat -> (i < m)%nat -> derivatives P (d s i)) ->
  (forall s i j, (s < Sg)%nat -> (i < m)%nat -> (j <= P)%nat -> comp m v (s * (P + 1) + j) i = d s i 0%nat (node_time c t0 tf s j)) ->
  forall s i l, (s < Sg)%nat -> (i < m)%nat -> (l <= P)%nat ->
  comp m (loop order (fun _ v => mtimes (ms_N c * m) (kron m (ms_comp c)) v) v) (s * (P + 1) + l) i =
  cas_ts c t0 tf ^ order * d s i order (node_time c t0 tf s l).
Proof.
  intros Hdim t0 tf m order d v HD Hv. 
  induction order as [|n IH]; intros s i l Hs Hi Hl.
  - simpl loop. rewrite Hv by auto. simpl. ring.
  - rewrite loop_S. unfold comp. rewrite ms_mul by auto.
    rewrite (rsum_ext _ _ (fun j => cas_ts c t0 tf ^ n * (cas_D P l j * d s i n (node_time c t0 tf s j)))).
    + rewrite rsum_scal. rewrite (seg_diff Hdim t0 tf (d s i n) (d s i (S n)) s l); auto.
      * simpl. ring.
      * apply derivs_poly. auto.
      * apply (HD s i); auto.
    + intros j Hjj. rewrite IH by (auto; lia). ring.
Qed.

End Cas.
