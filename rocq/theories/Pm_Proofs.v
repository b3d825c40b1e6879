(** Proofs about the mathematical helpers. *)
Require Import Arith ZArith Bool List Reals Lra Lia.
From Verif Require Import Scal RSum PolyR Poly_Spec Cheb_Model Cheb_Proofs Legendre_Model Legendre_Proofs Spline_Model Spline_Proofs Pm_Model Pm_Spec.
Import ListNotations.
Local Open Scope R_scope.

(** * Runge-Kutta on linear systems *)
Lemma mv_lin n A a b c i : mv n A (fun j => a j + c * b j) i = mv n A a i + c * mv n A b i.
Proof.
  unfold mv. rewrite <- rsum_scal, <- rsum_plus. apply rsum_ext. intros; ring.
Qed.
Lemma rk4_linear n A g x h i :
  let d := fun i => mv n A x i + g i in
  rk4 (fun x i => mv n A x i + g i) x h i =
  x i + h * d i + h ^ 2 / 2 * mvpow n A 1 d i + h ^ 3 / 6 * mvpow n A 2 d i + h ^ 4 / 24 * mvpow n A 3 d i.
Proof.
  intro d. unfold rk4. cbn [mvpow].
  set (k1 := fun i => mv n A x i + g i). change d with k1.
  assert (forall c k i, mv n A (fun j => x j + c * k j) i + g i = k1 i + c * mv n A k i) as E.
  { intros. rewrite mv_lin. unfold k1. ring. }
  set (k2 := fun i => mv n A (fun j => x j + 1 / 2 * h * k1 j) i + g i).
  set (k3 := fun i => mv n A (fun j => x j + 1 / 2 * h * k2 j) i + g i).
  assert (forall i, k2 i = k1 i + 1 / 2 * h * mv n A k1 i) as E2 by (intro; apply E).
  assert (forall i, mv n A k2 i = mv n A k1 i + 1 / 2 * h * mv n A (mv n A k1) i) as M2.
  { intro j. rewrite <- mv_lin. unfold mv at 1 2. apply rsum_ext. intros l _. rewrite E2. reflexivity. }
  assert (forall i, k3 i = k1 i + 1 / 2 * h * mv n A k2 i) as E3 by (intro; apply E).
  assert (forall i, mv n A k3 i = mv n A k1 i + 1 / 2 * h * mv n A (mv n A k2) i) as M3.
  { intro j. rewrite <- mv_lin. unfold mv at 1 2. apply rsum_ext. intros l _. rewrite E3. reflexivity. }
  assert (forall i, mv n A (mv n A k2) i = mv n A (mv n A k1) i + 1 / 2 * h * mv n A (mv n A (mv n A k1)) i) as MM2.
  { intro j. rewrite <- mv_lin. unfold mv at 1 3. apply rsum_ext. intros l _. f_equal. apply M2. }
  transitivity (x i + h / 6 * (k1 i + 2 * k2 i + 2 * k3 i + (mv n A (fun j => x j + h * k3 j) i + g i))); [reflexivity|].
  rewrite (E h k3), M3, E3, E2, M2, MM2. field.
Qed.

(** * Runge-Kutta as a quadrature rule (Simpson) *)
Lemma rk4_quadrature n (q : nat -> R -> R) x h i : (i < n)%nat ->
  rk4 (fun x i => if (i =? n)%nat then 1 else q i (x n)) x h i =
  x i + h / 6 * (q i (x n) + 4 * q i (x n + h / 2) + q i (x n + h)).
Proof.
  intro Hi. unfold rk4. assert ((i =? n)%nat = false) as -> by (apply Nat.eqb_neq; lia). rewrite Nat.eqb_refl.
  replace (x n + 1 / 2 * h * 1) with (x n + h / 2) by field. replace (x n + h * 1) with (x n + h) by ring. ring.
Qed.
Lemma simpson (q Q : R -> R) a h : is_poly 3 q -> derivative_of Q q ->
  h / 6 * (q a + 4 * q (a + h / 2) + q (a + h)) = Q (a + h) - Q a.
Proof.
  intros [c Hc] HQ.
  set (l := [c 0%nat; c 1%nat; c 2%nat; c 3%nat]).
  assert (forall x, q x = peval l x) as E. { intro x. rewrite Hc. rewrite !rsum_S, rsum_0. cbn. ring. }
  rewrite (pint_spec l Q (fun x => eq_rect _ (derivable_pt_lim Q x) (HQ x) _ (E x)) a (a + h)).
  rewrite !E. unfold pint, l. cbn. field.
Qed.

(** * Truncated power series in the step size *)
Definition ser (a : R -> R) (l : list R) : Prop := exists r, forall h, a h = peval l h + h ^ 5 * peval r h.
Lemma split5 l h : peval l h = peval (firstn 5 l) h + h ^ 5 * peval (skipn 5 l) h.
Proof. do 5 (destruct l as [|? l]; [cbn; ring|]). cbn. ring. Qed.
Lemma ser_trunc a l : ser a l -> ser a (firstn 5 l).
Proof.
  intros [r H]. exists (padd (skipn 5 l) r). intro h. rewrite H, (split5 l), peval_add. ring.
Qed.
Lemma ser_const c : ser (fun _ => c) [c].
Proof. exists []. intro h. cbn. ring. Qed.
Lemma ser_h : ser (fun h => h) [0; 1].
Proof. exists []. intro h. cbn. ring. Qed.
Lemma ser_add a b l m : ser a l -> ser b m -> ser (fun h => a h + b h) (padd l m).
Proof. intros [r H] [s G]. exists (padd r s). intro h. rewrite H, G, !peval_add. ring. Qed.
Lemma ser_mul a b l m : ser a l -> ser b m -> ser (fun h => a h * b h) (firstn 5 (pmul l m)).
Proof.
  intros [r H] [s G]. apply ser_trunc.
  exists (padd (pmul l s) (padd (pmul r m) (pmul [0; 0; 0; 0; 0; 1] (pmul r s)))). intro h.
  rewrite H, G, !peval_add, !peval_mul. cbn [peval]. ring.
Qed.
Lemma ser_ext a b l : (forall h, a h = b h) -> ser a l -> ser b l.
Proof. intros E [r H]. exists r. intro h. rewrite <- E. apply H. Qed.
(** Taylor expansion of a polynomial at a point *)
Fixpoint tay (f : list R) (x : R) : list R :=
  match f with [] => [] | c :: g => padd [c] (padd (pscal x (tay g x)) (0 :: tay g x)) end.
Lemma tay_eval f x d : peval (tay f x) d = peval f (x + d).
Proof.
  induction f as [|c f IH]; [reflexivity|].
  cbn [tay]. rewrite !peval_add, peval_scal. cbn [peval]. rewrite IH. ring.
Qed.
Lemma ser_pow_zero d l : ser d (0 :: l) -> exists r, forall h, d h ^ 5 = h ^ 5 * peval r h.
Proof.
  intros [r H]. set (q := padd l (pmul [0;0;0;0;1] r)). exists (pmul q (pmul q (pmul q (pmul q q)))). intro h.
  assert (d h = h * peval q h) as E.
  { rewrite H. unfold q. rewrite peval_add, peval_mul. cbn [peval]. ring. }
  rewrite E, !peval_mul. ring.
Qed.
Lemma ser_poly f x d l : ser d (0 :: l) -> forall t0 t1 t2 t3 t4 tr, tay f x = t0 :: t1 :: t2 :: t3 :: t4 :: tr ->
  ser (fun h => peval f (x + d h))
      (padd [t0] (firstn 5 (pmul (0 :: l) (padd [t1] (firstn 5 (pmul (0 :: l) (padd [t2] (firstn 5 (pmul (0 :: l) (padd [t3] (firstn 5 (pmul (0 :: l) [t4])))))))))))).
Proof.
  intros Hd t0 t1 t2 t3 t4 tr E.
  destruct (ser_pow_zero d l Hd) as [r5 H5].
  apply (ser_ext (fun h => (t0 + d h * (t1 + d h * (t2 + d h * (t3 + d h * t4)))) + d h ^ 5 * peval tr (d h))).
  { intro h. rewrite <- (tay_eval f x), E. cbn [peval]. ring. }
  assert (ser (fun h => t0 + d h * (t1 + d h * (t2 + d h * (t3 + d h * t4))))
    (padd [t0] (firstn 5 (pmul (0 :: l) (padd [t1] (firstn 5 (pmul (0 :: l) (padd [t2] (firstn 5 (pmul (0 :: l) (padd [t3] (firstn 5 (pmul (0 :: l) [t4]))))))))))))) as [r1 H1].
  { repeat first [apply ser_const | apply (ser_add (fun _ => _)); [apply ser_const|] | apply ser_mul; [exact Hd|]]. }
  (* the remainder is h^5 times a polynomial in h *)
  destruct Hd as [rd Hd].
  set (dl := padd (0 :: l) (pmul [0; 0; 0; 0; 0; 1] rd)).
  assert (forall h, d h = peval dl h) as Ed. { intro h. rewrite Hd. unfold dl. rewrite peval_add, peval_mul. cbn [peval]. ring. }
  assert (exists s, forall h, peval tr (d h) = peval s h) as [s Hs].
  { clear - Ed. induction tr as [|c g [s IH]]; [exists []; reflexivity|].
    exists (padd [c] (pmul dl s)). intro h. rewrite peval_add, peval_mul. cbn [peval]. rewrite <- IH, <- Ed. ring. }
  exists (padd r1 (pmul r5 s)). intro h. rewrite H1, H5, Hs, (peval_add r1), (peval_mul r5). ring.
Qed.

(** solutions of y' = f(y) *)
Lemma lie_derivative f k y : (forall t, derivable_pt_lim y t (peval f (y t))) ->
  forall t, derivable_pt_lim (fun t => peval (lie f k) (y t)) t (peval (lie f (S k)) (y t)).
Proof.
  intros Hy t. cbn [lie]. rewrite peval_mul.
  apply (derivable_pt_lim_comp y (peval (lie f k)) t); [apply Hy | apply peval_derivable].
Qed.

Lemma tay_coef f x : forall d, peval (tay f x) d = peval f (x + d).
Proof. intro. apply tay_eval. Qed.
Lemma peval_tail l h : peval (l ++ [0; 0; 0; 0; 0]) h = peval l h.
Proof. induction l; cbn [app peval]; [cbn; ring|]. rewrite IHl. reflexivity. Qed.
Lemma pder_ext p q : (forall x, peval p x = peval q x) -> forall x, peval (pder p) x = peval (pder q) x.
Proof.
  intros E x. eapply derivable_unique; [apply peval_derivable|].
  eapply derivable_pt_lim_ext; [|apply peval_derivable]. intro; symmetry; apply E.
Qed.
Lemma tay_length f x : (length f <= length (tay f x))%nat.
Proof.
  assert (forall p q, (length q <= length (padd p q))%nat) as L.
  { induction p; intros [|b q]; cbn; try lia. specialize (IHp q). lia. }
  induction f as [|c f IH]; [cbn; lia|]. cbn [tay length].
  eapply Nat.le_trans; [|apply L]. eapply Nat.le_trans; [|apply L]. cbn. lia.
Qed.
Lemma tay_der f x d : peval (pder (tay f x)) d = peval (pder f) (x + d).
Proof.
  eapply derivable_unique; [apply peval_derivable|].
  eapply derivable_pt_lim_ext; [intro; symmetry; apply tay_eval|].
  replace (peval (pder f) (x + d)) with (peval (pder f) (x + d) * (0 + 1)) by ring.
  apply (derivable_pt_lim_comp (fun d => x + d) (peval f)); [|apply peval_derivable].
  apply (derivable_pt_lim_plus (fun _ => x) id); [apply derivable_pt_lim_const | apply derivable_pt_lim_id].
Qed.
Lemma tay_ders f x t0 t1 t2 t3 tr : tay f x = t0 :: t1 :: t2 :: t3 :: tr ->
  peval f x = t0 /\ peval (pder f) x = t1 /\ peval (pder (pder f)) x = 2 * t2 /\ peval (pder (pder (pder f))) x = 6 * t3.
Proof.
  intro E.
  assert (forall d, peval (pder (tay f x)) d = peval (tay (pder f) x) d) as E1 by (intro; rewrite tay_der, tay_eval; reflexivity).
  assert (forall d, peval (pder (pder (tay f x))) d = peval (tay (pder (pder f)) x) d) as E2.
  { intro. rewrite (pder_ext _ _ E1), tay_der, tay_eval. reflexivity. }
  assert (forall d, peval (pder (pder (pder (tay f x)))) d = peval (tay (pder (pder (pder f))) x) d) as E3.
  { intro. rewrite (pder_ext _ _ E2), tay_der, tay_eval. reflexivity. }
  assert (peval (tay f x) 0 = peval f x) as G0 by (rewrite tay_eval, Rplus_0_r; reflexivity).
  generalize (E1 0) (E2 0) (E3 0). rewrite (tay_eval (pder f)), (tay_eval (pder (pder f))), (tay_eval (pder (pder (pder f)))), Rplus_0_r.
  rewrite E in *. cbn in G0. cbn. intros <- <- <-. rewrite <- G0. repeat split; ring.
Qed.

Lemma cons_eq (a b : R) l m : a = b -> l = m -> a :: l = b :: m.
Proof. intros; subst; reflexivity. Qed.
Lemma rk4_order4 f x : exists r, forall h,
  rk4 (fun y _ => peval f (y 0%nat)) (fun _ => x) h 0%nat =
  x + h * peval (lie f 0) x + h ^ 2 / 2 * peval (lie f 1) x + h ^ 3 / 6 * peval (lie f 2) x + h ^ 4 / 24 * peval (lie f 3) x
  + h ^ 5 * peval r h.
Proof.
  set (g := f ++ [0; 0; 0; 0; 0]).
  assert (forall y, peval g y = peval f y) as Eg by (intro; apply peval_tail).
  destruct (tay g x) as [|t0 [|t1 [|t2 [|t3 [|t4 tr]]]]] eqn:Et;
    try (generalize (tay_length g x); rewrite Et; unfold g; rewrite app_length; cbn; lia).
  destruct (tay_ders g x _ _ _ _ _ Et) as (D0 & D1 & D2 & D3).
  rewrite Eg in D0. rewrite (pder_ext _ _ Eg) in D1.
  rewrite (pder_ext _ _ (pder_ext _ _ Eg)) in D2. rewrite (pder_ext _ _ (pder_ext _ _ (pder_ext _ _ Eg))) in D3.
  assert (peval (lie f 0) x = t0) as L0 by exact D0.
  assert (peval (lie f 1) x = t1 * t0) as L1 by (cbn [lie]; rewrite peval_mul, D0, D1; reflexivity).
  assert (peval (lie f 2) x = (2 * t2 * t0 + t1 * t1) * t0) as L2.
  { cbn [lie]. rewrite peval_mul, peval_der_mul, D0, D1, D2. ring. }
  assert (peval (lie f 3) x = (6 * t3 * t0 ^ 2 + 8 * t2 * t1 * t0 + t1 ^ 3) * t0) as L3.
  { cbn [lie]. rewrite peval_mul, peval_der_mul, D0, D1.
    rewrite (pder_ext (pder (pmul (pder f) f)) (padd (pmul (pder (pder f)) f) (pmul (pder f) (pder f)))).
    2:{ intro y. rewrite peval_der_mul, peval_add, !peval_mul. ring. }
    assert (peval (pder (padd (pmul (pder (pder f)) f) (pmul (pder f) (pder f)))) x =
            peval (pder (pmul (pder (pder f)) f)) x + peval (pder (pmul (pder f) (pder f))) x) as ->.
    { eapply derivable_unique; [apply peval_derivable|].
      eapply derivable_pt_lim_ext; [|apply derivable_pt_lim_plus; apply peval_derivable].
      intro; unfold plus_fct; rewrite peval_add; reflexivity. }
    rewrite !peval_der_mul, D0, D1, D2, D3. ring. }
  rewrite L0, L1, L2, L3.
  assert (forall c k a0 a1 a2 a3 rest, ser k (a0 :: a1 :: a2 :: a3 :: rest) ->
          ser (fun h => c * h * k h) [0; c * a0; c * a1; c * a2; c * a3]) as Sm.
  { intros c k a0 a1 a2 a3 rest [r Hr]. exists (padd (pscal c rest) (pmul [0; c] r)). intro h.
    rewrite Hr, peval_add, peval_scal, peval_mul. cbn [peval]. ring. }
  assert (forall d d1 d2 d3 d4, ser d [0; d1; d2; d3; d4] ->
    ser (fun h => peval f (x + d h))
        [t0; t1 * d1; t1 * d2 + t2 * d1 ^ 2; t1 * d3 + 2 * t2 * d1 * d2 + t3 * d1 ^ 3;
         t1 * d4 + t2 * (2 * d1 * d3 + d2 ^ 2) + 3 * t3 * d1 ^ 2 * d2 + t4 * d1 ^ 4]) as Sf.
  { intros d d1 d2 d3 d4 Hd. generalize (ser_poly g x d _ Hd _ _ _ _ _ _ Et). intro H.
    apply (ser_ext _ (fun h => peval f (x + d h))) in H; [|intro; apply Eg].
    match type of H with ser _ ?l => match goal with |- ser _ ?m => replace m with l; [exact H|] end end.
    cbn [pmul pscal map padd firstn]. repeat (apply cons_eq; [ring|]). reflexivity. }
  assert (ser (fun _ => peval f x) [t0; 0; 0; 0; 0]) as S1.
  { exists []. intro. rewrite D0. cbn. ring. }
  pose proof (Sf _ _ _ _ _ (Sm (1 / 2) _ _ _ _ _ _ S1)) as S2.
  pose proof (Sf _ _ _ _ _ (Sm (1 / 2) _ _ _ _ _ _ S2)) as S3.
  pose proof (Sf _ _ _ _ _ (Sm 1 _ _ _ _ _ _ S3)) as S4.
  cbv beta in S2, S3, S4.
  destruct S1 as [r1 H1], S2 as [r2 H2], S3 as [r3 H3], S4 as [r4 H4].
  cbv beta in H1, H2, H3, H4.
  match type of H1 with forall h, _ = peval ?a1 h + _ =>
  match type of H2 with forall h, _ = peval ?a2 h + _ =>
  match type of H3 with forall h, _ = peval ?a3 h + _ =>
  match type of H4 with forall h, _ = peval ?a4 h + _ =>
    exists (padd (pscal (1 / 6) (padd (padd (skipn 4 a1) (pscal 2 (skipn 4 a2))) (padd (pscal 2 (skipn 4 a3)) (skipn 4 a4))))
                 (pmul [0; 1 / 6] (padd (padd r1 (pscal 2 r2)) (padd (pscal 2 r3) r4))))
  end end end end.
  intro h. unfold rk4.
  assert (forall e : R, x + h * e = x + 1 * h * e) as One by (intro; ring). rewrite One.
  rewrite (H4 h), (H3 h), (H2 h), (H1 h). rewrite !peval_add, !peval_mul, !peval_scal, !peval_add, !peval_scal. cbn [skipn peval]. field.
Qed.

(** * Chebyshev points of an interval *)
Lemma pm_X_nodes N i : pm_X N i = cheb_nodes N i.
Proof. reflexivity. Qed.
Lemma pm_c_cheb N i : pm_c N i = cheb_c N i.
Proof. unfold pm_c, cheb_c. destruct (i =? 0)%nat, (i =? N)%nat; reflexivity. Qed.
Lemma node_range N i : (1 <= N)%nat -> -1 <= cheb_nodes N i <= 1.
Proof. intros. apply COS_bound. Qed.
Lemma cgl_nodes N a b i : (1 <= N)%nat -> cgl_interval N a b i = (b - a) / 2 * cheb_nodes N i + (a + b) / 2.
Proof.
  intro HN. unfold cgl_interval, cheb_nodes, cheb_theta.
  replace (INR i * (PI / INR N)) with (INR i * PI / INR N); [ring|]. unfold Rdiv. ring.
Qed.
(** the returned points are the right points moved by a constant *)
Lemma pm_points_shift N a b i : (1 <= N)%nat ->
  pm_points N a b i = cgl_interval N a b i + ((b - a) / 2 * (a + 1) - (a + b) / 2).
Proof. intro HN. rewrite cgl_nodes by auto. unfold pm_points. change pm_X with cheb_nodes. field. Qed.
Lemma pm_shift_zero a b : (b - a) / 2 * (a + 1) - (a + b) / 2 = a * (b - a - 2) / 2.
Proof. field. Qed.
Lemma pm_points_right N a b : (1 <= N)%nat -> a = 0 \/ b - a = 2 -> forall i, pm_points N a b i = cgl_interval N a b i.
Proof. intros HN H i. rewrite pm_points_shift, pm_shift_zero by auto. destruct H as [-> | ->]; field. Qed.
Lemma pm_Dn_off N a b i j : a <> b -> i <> j -> pm_Dn N a b i j = 2 / (b - a) * cheb_Dn N i j.
Proof.
  intros Hab Hij. unfold pm_Dn, cheb_Dn. apply Nat.eqb_neq in Hij. rewrite Hij, !Rplus_0_r, !pm_c_cheb.
  replace (pm_points N a b i - pm_points N a b j) with ((b - a) / 2 * (cheb_nodes N i - cheb_nodes N j)).
  2:{ unfold pm_points. change pm_X with cheb_nodes. ring. }
  unfold Rdiv. rewrite !Rinv_mult, !Rinv_inv. ring.
Qed.
Lemma pm_D_scaled N a b i j : a <> b -> (1 <= N)%nat -> (i <= N)%nat -> (j <= N)%nat ->
  pm_D N a b i j = 2 / (b - a) * cheb_D N i j.
Proof.
  intros Hab HN Hi Hj. destruct (Nat.eq_dec i j) as [->|H].
  2:{ unfold pm_D, cheb_D. assert ((i =? j)%nat = false) as -> by (apply Nat.eqb_neq; auto).
      rewrite pm_Dn_off by auto. cbn. ring. }
  unfold pm_D, cheb_D. rewrite Nat.eqb_refl.
  change (ssum (S N) (fun k => pm_Dn N a b j k)) with (rsum (S N) (fun k => pm_Dn N a b j k)).
  change (ssum (S N) (fun k => cheb_Dn N j k)) with (rsum (S N) (fun k => cheb_Dn N j k)).
  rewrite (rsum_isolate (S N) j (fun k => pm_Dn N a b j k)), (rsum_isolate (S N) j (fun k => cheb_Dn N j k)) by lia.
  rewrite (rsum_ext (S N) (fun k => if (k =? j)%nat then 0 else pm_Dn N a b j k)
             (fun k => 2 / (b - a) * (if (k =? j)%nat then 0 else cheb_Dn N j k))).
  - rewrite rsum_scal. cbn. ring.
  - intros k _. destruct (Nat.eqb_spec k j); [ring|]. apply pm_Dn_off; auto.
Qed.
(** exactness on any translate of the interval's points *)
Lemma pm_D_exact N a b c p p' i : a <> b -> (1 <= N)%nat -> is_poly N p -> derivative_of p p' -> (i <= N)%nat ->
  rsum (S N) (fun j => pm_D N a b i j * p ((b - a) / 2 * cheb_nodes N j + c)) = p' ((b - a) / 2 * cheb_nodes N i + c).
Proof.
  intros Hab HN Hp Hd Hi. set (s := (b - a) / 2).
  assert (s <> 0) as Hs by (unfold s; intro; apply Hab; lra).
  destruct (is_poly_list N p Hp) as [l [Hl He]].
  pose proof (poly_affine s c l N Hl) as Ha.
  assert (derivative_of (fun x => peval l (s * x + c)) (fun x => s * p' (s * x + c))) as Hda.
  { intro x. rewrite Rmult_comm.
    apply (derivable_pt_lim_ext (fun x => p (s * x + c))); [intro; apply He|].
    apply (derivable_pt_lim_comp (fun x => s * x + c) p); [|apply Hd].
    cut (derivable_pt_lim (fun x => s * x + c) x (s * 1 + 0)); [rewrite Rmult_1_r, Rplus_0_r; auto|].
    apply (derivable_pt_lim_plus (fun x => s * x) (fun _ => c)); [|apply derivable_pt_lim_const].
    apply (derivable_pt_lim_scal id s x 1). apply derivable_pt_lim_id. }
  pose proof (cheb_D_poly N _ _ HN Ha Hda i Hi) as H. cbv beta in H.
  rewrite (rsum_ext _ _ (fun j => / s * (cheb_D N i j * peval l (s * cheb_nodes N j + c)))).
  - rewrite rsum_scal, H. field. auto.
  - intros j Hj. rewrite pm_D_scaled by (auto; lia). rewrite He. unfold s. field. lra.
Qed.
Lemma pm_D_points N a b p p' i : a <> b -> (1 <= N)%nat -> is_poly N p -> derivative_of p p' -> (i <= N)%nat ->
  rsum (S N) (fun j => pm_D N a b i j * p (pm_points N a b j)) = p' (pm_points N a b i).
Proof.
  intros.
  assert (forall k, pm_points N a b k = (b - a) / 2 * cheb_nodes N k + (b - a) / 2 * (a + 1)) as E.
  { intro. unfold pm_points. change pm_X with cheb_nodes. ring. }
  rewrite E, <- (pm_D_exact N a b ((b - a) / 2 * (a + 1)) p p' i) by auto.
  apply rsum_ext. intros. rewrite E. reflexivity.
Qed.

(** * Chebyshev series *)
Lemma cheb_T_cos t k : cheb_T (cos t) k = cos (INR k * t).
Proof.
  assert (cheb_T (cos t) k = cos (INR k * t) /\ cheb_T (cos t) (S k) = cos (INR (S k) * t)); [|tauto].
  induction k as [|k [IH1 IH2]].
  - split; [cbn; rewrite Rmult_0_l, cos_0; reflexivity|]. cbn. rewrite Rmult_1_l. reflexivity.
  - split; [exact IH2|]. change (cheb_T (cos t) (S (S k))) with (2 * cos t * cheb_T (cos t) (S k) - cheb_T (cos t) k).
    rewrite IH1, IH2, !S_INR.
    replace ((INR k + 1 + 1) * t) with ((INR k + 1) * t + t) by ring.
    replace (INR k * t) with ((INR k + 1) * t - t) by ring.
    rewrite cos_plus, cos_minus. ring.
Qed.
Lemma fold_sum (w : nat -> R) u : forall s acc,
  fold_left (fun acc p => acc + w (fst p) * snd p) (combine (seq s (length u)) u) acc =
  acc + rsum (length u) (fun k => nth k u 0 * w (s + k)%nat).
Proof.
  induction u as [|a u IH]; intros s acc; [cbn; ring|].
  cbn [length seq combine fold_left fst snd]. rewrite IH, rsum_first. cbn [nth].
  rewrite Nat.add_0_r.
  rewrite (rsum_ext (length u) (fun k => nth k u 0 * w (S s + k)%nat) (fun i => nth i u 0 * w (s + S i)%nat)).
  2:{ intros i _. replace (S s + i)%nat with (s + S i)%nat by lia. reflexivity. }
  ring.
Qed.

(** * factorial *)
Lemma fact_mod n : fold_left (fun f i => (f * Z.of_nat i) mod 2 ^ 32)%Z (seq 1 n) 1%Z = (Z.of_nat (fact n) mod 2 ^ 32)%Z.
Proof.
  induction n as [|n IH]; [reflexivity|].
  rewrite seq_S, fold_left_app, IH. cbn [fold_left]. rewrite Z.mul_mod_idemp_l by discriminate.
  replace (1 + n)%nat with (S n) by lia. rewrite <- Nat2Z.inj_mul. do 2 f_equal.
  rewrite Nat.mul_comm. reflexivity.
Qed.
Lemma fact_zero n : (34 <= n)%nat ->
  fold_left (fun f i => (f * Z.of_nat i) mod 2 ^ 32)%Z (seq 1 n) 1%Z = 0%Z.
Proof.
  intro H. replace n with (34 + (n - 34))%nat by lia. generalize (n - 34)%nat. clear. intro k.
  rewrite seq_app, fold_left_app.
  replace (fold_left (fun f i => (f * Z.of_nat i) mod 2 ^ 32)%Z (seq 1 34) 1%Z) with 0%Z by (vm_compute; reflexivity).
  generalize (1 + 34)%nat. induction k as [|k IH]; intro s; [reflexivity|].
  cbn [seq fold_left]. rewrite Z.mul_0_l. change (0 mod 2 ^ 32)%Z with 0%Z. apply IH.
Qed.
Lemma fact_le n m : (n <= m)%nat -> (fact n <= fact m)%nat.
Proof. apply fact_le. Qed.
Lemma fact_Z n : Z.of_nat (fact n) = fold_left (fun f i => f * Z.of_nat i)%Z (seq 1 n) 1%Z.
Proof.
  induction n as [|n IH]; [reflexivity|].
  rewrite seq_S, fold_left_app, <- IH. cbn [fold_left]. replace (1 + n)%nat with (S n) by lia.
  rewrite <- Nat2Z.inj_mul. f_equal. rewrite Nat.mul_comm. reflexivity.
Qed.
Lemma fact_small n : (n <= 12)%nat -> (Z.of_nat (fact n) < 2 ^ 32)%Z.
Proof.
  intro H. apply Z.le_lt_trans with (Z.of_nat (fact 12)); [apply inj_le; apply fact_le; auto|].
  rewrite fact_Z. vm_compute. reflexivity.
Qed.
Lemma fact_big n : (13 <= n)%nat -> (2 ^ 32 <= Z.of_nat (fact n))%Z.
Proof.
  intro H. apply Z.le_trans with (Z.of_nat (fact 13)); [|apply inj_le; apply fact_le; auto].
  rewrite fact_Z. vm_compute. discriminate.
Qed.

(** * flip *)
Lemma flip_list {A} (a : A) l : slice_rev (a :: l) ++ [a] = rev (a :: l).
Proof. reflexivity. Qed.
Lemma flip1_rev {A} (m : list (list A)) : m <> [] -> flip1 m = Some (rev m).
Proof. destruct m as [|r m]; [contradiction|]. intros _. reflexivity. Qed.
Lemma flip2_rev {A} (m : list (list A)) : (forall row, In row m -> row <> []) -> flip2 m = Some (map (@rev A) m).
Proof.
  intro H. unfold flip2. induction m as [|row m IH]; [reflexivity|].
  cbn [map all_some]. destruct row as [|a row]; [exfalso; apply (H []); [left; reflexivity|reflexivity]|].
  rewrite IH by (intros; apply H; right; auto). reflexivity.
Qed.

(** * Lagrange interpolation *)
Lemma pm_lagrange n B values arg : poly_eval n (pm_coeffs n B values) arg = lagrange_eval n arg (fun _ => values) B 0%nat.
Proof. reflexivity. Qed.
Lemma pm_basis_some n X : (2 <= n)%nat -> exists B, pm_basis n X = Some B.
Proof. intro. unfold pm_basis, lagrange_basis. destruct (Nat.ltb_spec n 2); [lia|]. eexists. reflexivity. Qed.
Lemma phi_quot nodes k (t : R) l : forall acc,
  fold_left (fun acc j => if (j =? k)%nat then acc else acc * ((t - nodes j) / (nodes k - nodes j))) l acc =
  acc * (rprod (map (fun r => t - r) (map nodes (filter (fun j => negb (k =? j)%nat) l))) /
         rprod (map (fun r => nodes k - r) (map nodes (filter (fun j => negb (k =? j)%nat) l)))).
Proof.
  induction l as [|j l IH]; intro acc; [cbn; field|].
  cbn [fold_left filter]. rewrite IH. rewrite (Nat.eqb_sym k j). destruct (j =? k)%nat; cbn [negb]; [reflexivity|].
  cbn [map rprod fold_right]. unfold Rdiv. rewrite Rinv_mult. ring.
Qed.
Lemma lagrange_phi_quot n t nodes k :
  lagrange_phi n t nodes k = lag_num (S n) k nodes t / lag_num (S n) k nodes (nodes k).
Proof. unfold lagrange_phi. rewrite phi_quot, Rmult_1_l. reflexivity. Qed.
Lemma phi_reproduces n nodes p t : distinct (S n) nodes -> is_poly n p ->
  rsum (S n) (fun k => p (nodes k) * lagrange_phi n t nodes k) = p t.
Proof.
  intros Hd Hp. destruct n as [|n].
  - destruct Hp as [c Hc]. rewrite rsum_S, rsum_0, !Hc, !rsum_S, !rsum_0. unfold lagrange_phi. cbn. ring.
  - destruct (pm_basis_some (S (S n)) nodes ltac:(lia)) as [B HB].
    rewrite <- (lagrange_reproduces (S (S n)) nodes B (fun _ j => p (nodes j)) 0%nat p ltac:(lia) HB Hd) with (y := t); auto.
    rewrite (lagrange_eval_sum (S (S n)) nodes B _ t 0%nat ltac:(lia) HB Hd).
    apply rsum_ext. intros. rewrite lagrange_phi_quot. reflexivity.
Qed.
Lemma phi_at_nodes n nodes j k : distinct (S n) nodes -> (j <= n)%nat -> (k <= n)%nat ->
  lagrange_phi n (nodes j) nodes k = if (j =? k)%nat then 1 else 0.
Proof.
  intros Hd Hj Hk. rewrite lagrange_phi_quot. destruct (Nat.eqb_spec j k) as [->|H].
  - field. apply lag_num_self; auto. lia.
  - rewrite lag_num_other by (auto; lia). unfold Rdiv. ring.
Qed.
(** what an object remembers *)
Definition istate_ok (s : interp) (g : option ndata * option ipdata) : Prop :=
  (match fst g with
   | Some (n, nodes) => li_n s = n /\ (2 <= n)%nat /\ pm_basis n nodes = Some (li_basis s) /\ distinct n nodes
   | None => li_n s = 0%nat
   end) /\
  (match snd g with
   | Some (n, nodes, values) => li_m s = n /\ (2 <= n)%nat /\ distinct n nodes /\
       exists B, pm_basis n nodes = Some B /\ li_coef s = pm_coeffs n B values
   | None => li_m s = 0%nat
   end).
Lemma istate_empty : istate_ok interp_empty (None, None).
Proof. split; reflexivity. Qed.
Lemma basis_two n X B : pm_basis n X = Some B -> (2 <= n)%nat.
Proof. unfold pm_basis, lagrange_basis. destruct (Nat.ltb_spec n 2); [discriminate|auto]. Qed.
Lemma istate_step s g c s' r : istate_ok s g -> nodes_ok c -> iexec s c = Some (s', r) -> istate_ok s' (track g c).
Proof.
  intros [I1 I2] Hn H. destruct c as [n nodes values|n nodes|arg|arg m values]; cbn [iexec track] in *.
  - destruct (pm_basis n nodes) as [B|] eqn:E; [|discriminate]. injection H as <- <-.
    pose proof (basis_two _ _ _ E). split; cbn; repeat split; auto. exists B. auto.
  - destruct (pm_basis n nodes) as [B|] eqn:E; [|discriminate]. injection H as <- <-.
    pose proof (basis_two _ _ _ E). split; cbn; [repeat split; auto|]. exact I2.
  - injection H as <- <-. split; auto.
  - destruct ((m =? li_m s) && (m =? li_n s))%nat%bool eqn:E; [|discriminate]. injection H as <- <-.
    apply andb_true_iff in E. destruct E as [E1 E2]. apply Nat.eqb_eq in E1, E2.
    split; [exact I1|]. cbn [fst snd track].
    destruct (fst g) as [[n nodes]|] eqn:Eg; [destruct I1 as (-> & Hn2 & HB & Hd)|].
    + cbn. repeat split; auto. eexists; split; eauto.
    + destruct (snd g) as [[[n nodes] v]|].
      * destruct I2 as (E & H2 & _). lia.
      * cbn. auto.
Qed.
Lemma irun_app s cs c : irun s (cs ++ [c]) = match irun s cs with Some (s', _) => iexec s' c | None => None end.
Proof.
  revert s. induction cs as [|d cs IH]; intro s; [reflexivity|].
  destruct cs as [|e cs].
  - cbn. destruct (iexec s d) as [[s' r]|]; reflexivity.
  - change (irun s ((d :: e :: cs) ++ [c])) with (match iexec s d with Some (s', _) => irun s' ((e :: cs) ++ [c]) | None => None end).
    change (irun s (d :: e :: cs)) with (match iexec s d with Some (s', _) => irun s' (e :: cs) | None => None end).
    destruct (iexec s d) as [[s' r]|]; [apply IH|reflexivity].
Qed.
Lemma irun_state cs : forall s r, Forall nodes_ok cs -> irun interp_empty cs = Some (s, r) -> istate_ok s (tracked cs).
Proof.
  induction cs as [|c cs IH] using rev_ind; intros s r Hn H.
  - injection H as <- <-. apply istate_empty.
  - apply Forall_app in Hn. destruct Hn as [Hn Hc]. inversion Hc as [|? ? Hc1 _]; subst.
    rewrite irun_app in H. destruct (irun interp_empty cs) as [[s' r']|] eqn:E; [|discriminate].
    unfold tracked. rewrite fold_left_app. cbn [fold_left]. eapply istate_step; eauto.
Qed.

(** * Rotation by a quaternion *)
Lemma quat_mul_formula a b c d e f g h : quat_multiply (Q4 a b c d) (Q4 e f g h) =
  Q4 (a * e - b * f - c * g - d * h) (a * f + b * e + c * h - d * g) (a * g - b * h + c * e + d * f) (a * h + b * g - c * f + d * e).
Proof. unfold quat_multiply, cross3, dot3, vpart. cbn [qs qx qy qz vx vy vz]. f_equal; ring. Qed.
Lemma quat_transform_formula s x y z a b c : quat_transform (Q4 s x y z) (V3 a b c) =
  V3 ((s * s + x * x - y * y - z * z) * a + 2 * (x * y - s * z) * b + 2 * (x * z + s * y) * c)
     (2 * (x * y + s * z) * a + (s * s - x * x + y * y - z * z) * b + 2 * (y * z - s * x) * c)
     (2 * (x * z - s * y) * a + 2 * (y * z + s * x) * b + (s * s - x * x - y * y + z * z) * c).
Proof.
  unfold quat_transform, quat_inverse. cbn [qs qx qy qz vx vy vz]. rewrite !quat_mul_formula. unfold vpart. cbn [qs qx qy qz]. f_equal; ring.
Qed.
Lemma quat_transform_q q u : quat_multiply q (quat_multiply (Q4 0 (vx u) (vy u) (vz u)) (quat_inverse q)) =
  Q4 0 (vx (quat_transform q u)) (vy (quat_transform q u)) (vz (quat_transform q u)).
Proof.
  destruct q as [s x y z], u as [a b c]. rewrite quat_transform_formula. unfold quat_inverse. cbn [qs qx qy qz vx vy vz].
  rewrite !quat_mul_formula. f_equal; ring.
Qed.
Lemma quat_assoc p q r : quat_multiply p (quat_multiply q r) = quat_multiply (quat_multiply p q) r.
Proof. destruct p, q, r. rewrite !quat_mul_formula. f_equal; ring. Qed.
Lemma quat_inverse_mul p q : quat_inverse (quat_multiply p q) = quat_multiply (quat_inverse q) (quat_inverse p).
Proof. destruct p as [a b c d], q as [e f g h]. unfold quat_inverse. rewrite !quat_mul_formula. cbn [qs qx qy qz]. rewrite ?quat_mul_formula. f_equal; ring. Qed.
Lemma quat_transform_compose p q u : quat_transform p (quat_transform q u) = quat_transform (quat_multiply p q) u.
Proof.
  unfold quat_transform at 1. rewrite <- quat_transform_q. unfold quat_transform. f_equal.
  rewrite quat_inverse_mul, !quat_assoc. reflexivity.
Qed.
