(** Properties of the mathematical helpers (src/polymath.cpp, src/polymath.h, src/integration/integrator.cpp). *)
Require Import Arith ZArith Bool List Reals Lra Lia.
From Verif Require Import Scal RSum PolyR Poly_Spec Cheb_Model Cheb_Proofs Pm_Model Pm_Spec Pm_Proofs.
Import ListNotations.
Local Open Scope R_scope.

(** * C44: Chebyshev points of an interval *)
(** What holds: for intervals that start at 0 or have length 2 the points are those of the interval. *)
Theorem C44_points_partial : forall N a b, (1 <= N)%nat -> a <= b -> a = 0 \/ b - a = 2 ->
  (forall i, pm_points N a b i = cgl_interval N a b i) /\
  pm_points N a b 0 = b /\ pm_points N a b N = a /\ (forall i, (i <= N)%nat -> a <= pm_points N a b i <= b).
Proof.
  intros N a b HN Hab H. pose proof (pm_points_right N a b HN H) as E. split; [exact E|].
  rewrite !E, !cgl_nodes, nodes_first, nodes_last by auto. repeat split; try field.
  - rewrite E, cgl_nodes by auto. generalize (node_range N i HN). nra.
  - rewrite E, cgl_nodes by auto. generalize (node_range N i HN). nra.
Qed.
(** What is false: for every other interval no returned point is the right one, and the last point is not the left end. *)
Theorem C44_points_refuted : forall N a b, (1 <= N)%nat -> a < b -> a <> 0 -> b - a <> 2 ->
  (forall i, pm_points N a b i <> cgl_interval N a b i) /\ pm_points N a b N <> a /\ pm_points N a b 0 <> b.
Proof.
  intros N a b HN Hab Ha Hb.
  assert (a * (b - a - 2) / 2 <> 0) as Hs.
  { intro E. assert (a * (b - a - 2) = 0) as E2 by lra. apply Rmult_integral in E2. lra. }
  repeat split.
  - intros i E. rewrite pm_points_shift, pm_shift_zero in E by auto. lra.
  - intro E. rewrite pm_points_shift, pm_shift_zero, cgl_nodes, nodes_last in E by auto. lra.
  - intro E. rewrite pm_points_shift, pm_shift_zero, cgl_nodes, nodes_first in E by auto. lra.
Qed.
(** The differentiation matrix is right on every interval: exact for every polynomial of degree at most N sampled
    at the points of the interval, and also at the points the function returns. *)
Theorem C44_matrix : forall N a b p p', (1 <= N)%nat -> a <> b -> is_poly N p -> derivative_of p p' ->
  forall i, (i <= N)%nat ->
  rsum (S N) (fun j => pm_D N a b i j * p (cgl_interval N a b j)) = p' (cgl_interval N a b i) /\
  rsum (S N) (fun j => pm_D N a b i j * p (pm_points N a b j)) = p' (pm_points N a b i).
Proof.
  intros N a b p p' HN Hab Hp Hd i Hi. split; [|apply pm_D_points; auto].
  rewrite cgl_nodes, <- (pm_D_exact N a b ((a + b) / 2) p p' i) by auto.
  apply rsum_ext. intros. rewrite cgl_nodes by auto. reflexivity.
Qed.
(** two points: for the interval [1,2] the points 3/2 and 1/2 are returned, for [0,1] the end points *)
Example C44_ex : pm_points 1 1 2 0 = 3 / 2 /\ pm_points 1 1 2 1 = 1 / 2 /\ pm_points 1 0 1 0 = 1 /\ pm_points 1 0 1 1 = 0.
Proof.
  unfold pm_points, pm_X. cbn [INR]. rewrite Rmult_0_l, cos_0. replace (1 * (PI / 1)) with PI by field. rewrite cos_PI.
  repeat split; field.
Qed.
(** the matrix for two points of [1,3] differentiates 2 t + 5 *)
Example C44_ex_matrix : is_poly 1 (fun t => 2 * t + 5) /\ derivative_of (fun t => 2 * t + 5) (fun _ => 2) /\
  pm_D 1 1 3 0 0 * (2 * 3 + 5) + pm_D 1 1 3 0 1 * (2 * 1 + 5) = 2.
Proof.
  split; [exists (fun k => match k with O => 5 | _ => 2 end); intro x; rewrite !rsum_S, rsum_0; cbn; ring|].
  split.
  - intro x. cut (derivable_pt_lim (fun t => 2 * t + 5) x (2 * 1 + 0)); [rewrite Rmult_1_r, Rplus_0_r; auto|].
    apply (derivable_pt_lim_plus (fun t => 2 * t) (fun _ => 5)); [|apply derivable_pt_lim_const].
    apply (derivable_pt_lim_scal id 2 x 1). apply derivable_pt_lim_id.
  - unfold pm_D, pm_Dn, pm_points, pm_X, pm_c. cbn. rewrite Rmult_0_l, cos_0.
    replace (1 * (PI / 1)) with PI by field. rewrite cos_PI. field.
Qed.

(** * C47: quaternions *)
Theorem C47_product : forall p q r,
  quat_multiply p (quat_multiply q r) = quat_multiply (quat_multiply p q) r /\
  quat_multiply q_one p = p /\ quat_multiply p q_one = p /\
  qnorm2 (quat_multiply p q) = qnorm2 p * qnorm2 q.
Proof.
  intros p q r. split; [apply quat_assoc|].
  destruct p as [a b c d], q as [e f g h]. unfold q_one. rewrite !quat_mul_formula. unfold qnorm2. cbn [qs qx qy qz].
  repeat split; try ring; f_equal; ring.
Qed.
(** Hamilton's relations fix which product it is *)
Theorem C47_hamilton : let i := Q4 0 1 0 0 in let j := Q4 0 0 1 0 in let k := Q4 0 0 0 1 in
  quat_multiply i i = q_scale (-1) q_one /\ quat_multiply j j = q_scale (-1) q_one /\ quat_multiply k k = q_scale (-1) q_one /\
  quat_multiply i j = k /\ quat_multiply j k = i /\ quat_multiply k i = j.
Proof.
  intros i j k. unfold i, j, k. rewrite !quat_mul_formula. unfold q_one, q_scale. cbn [qs qx qy qz]. repeat split; f_equal; ring.
Qed.
Theorem C47_inverse : forall q,
  quat_multiply q (quat_inverse q) = q_scale (qnorm2 q) q_one /\ quat_multiply (quat_inverse q) q = q_scale (qnorm2 q) q_one /\
  (unit_quat q -> quat_multiply q (quat_inverse q) = q_one /\ quat_multiply (quat_inverse q) q = q_one).
Proof.
  intro q.
  assert (quat_multiply q (quat_inverse q) = q_scale (qnorm2 q) q_one /\ quat_multiply (quat_inverse q) q = q_scale (qnorm2 q) q_one) as [E1 E2].
  { destruct q as [a b c d]. unfold quat_inverse, q_one, qnorm2, q_scale. cbn [qs qx qy qz]. rewrite !quat_mul_formula. split; f_equal; ring. }
  rewrite E1, E2. repeat split; auto; rewrite H; unfold q_scale, q_one; cbn [qs qx qy qz]; f_equal; ring.
Qed.
(** Transforming a vector by a unit quaternion is a rotation: linear, keeps all scalar products and all cross
    products, and transforming twice is transforming by the product; the inverse quaternion undoes it. *)
Theorem C47_rotation : forall q, unit_quat q -> forall u v c,
  quat_transform q (v_add u v) = v_add (quat_transform q u) (quat_transform q v) /\
  quat_transform q (v_scale c u) = v_scale c (quat_transform q u) /\
  dot3 (quat_transform q u) (quat_transform q v) = dot3 u v /\
  cross3 (quat_transform q u) (quat_transform q v) = quat_transform q (cross3 u v) /\
  (forall p, quat_transform p (quat_transform q u) = quat_transform (quat_multiply p q) u) /\
  quat_transform (quat_inverse q) (quat_transform q u) = u.
Proof.
  intros q H u v c.
  assert (forall p, quat_transform p (quat_transform q u) = quat_transform (quat_multiply p q) u) as Hc by (intro; apply quat_transform_compose).
  rewrite Hc. rewrite (proj2 (proj2 (proj2 (C47_inverse q)) H)).
  destruct q as [s x y z], u as [a1 a2 a3], v as [b1 b2 b3]. unfold unit_quat, qnorm2 in H. cbn [qs qx qy qz] in H.
  unfold q_one. rewrite !quat_transform_formula. unfold v_add, v_scale, dot3, cross3. cbn [vx vy vz]. rewrite !quat_transform_formula.
  clear Hc. assert (s * s = 1 - x * x - y * y - z * z) as Hs by lra.
  repeat split; try (f_equal; ring).
  - ring [Hs].
  - f_equal; ring [Hs].
  - intro p. rewrite <- quat_transform_compose, quat_transform_formula. reflexivity.
Qed.
(** The elementary quaternions are unit quaternions, and they turn the coordinates: T3quat a takes the components
    of a vector to its components in the frame turned by the angle a about the third axis; likewise T1quat, T2quat. *)
Theorem C47_elementary : forall a,
  (unit_quat (T1quat a) /\ unit_quat (T2quat a) /\ unit_quat (T3quat a)) /\ forall v,
  quat_transform (T1quat a) v = V3 (vx v) (cos a * vy v + sin a * vz v) (- sin a * vy v + cos a * vz v) /\
  quat_transform (T2quat a) v = V3 (cos a * vx v - sin a * vz v) (vy v) (sin a * vx v + cos a * vz v) /\
  quat_transform (T3quat a) v = V3 (cos a * vx v + sin a * vy v) (- sin a * vx v + cos a * vy v) (vz v).
Proof.
  intro a. set (s := sin (- a / 2)). set (c := cos (- a / 2)).
  assert (c * c + s * s = 1) as H1. { unfold s, c. generalize (sin2_cos2 (- a / 2)). unfold Rsqr. lra. }
  assert (cos a = c * c - s * s) as Hc.
  { unfold s, c. rewrite <- cos_plus. replace (- a / 2 + - a / 2) with (- a) by field. rewrite cos_neg. reflexivity. }
  assert (sin a = - (2 * s * c)) as Hsn.
  { replace (sin a) with (- sin (- a)) by (rewrite sin_neg; ring). replace (- a) with (2 * (- a / 2)) by field. rewrite sin_2a.
    fold s c. ring. }
  assert (c * c = 1 - s * s) as Hcc by lra.
  split; [unfold unit_quat, qnorm2, T1quat, T2quat, T3quat; fold s c; cbn; repeat split; lra|].
  intros [x y z]. unfold T1quat, T2quat, T3quat. fold s c. rewrite !quat_transform_formula. cbn [vx vy vz].
  rewrite Hc, Hsn. repeat split; f_equal; ring [Hcc].
Qed.
Example C47_ex : unit_quat (Q4 (1 / 2) (1 / 2) (1 / 2) (1 / 2)) /\
  quat_transform (Q4 (1 / 2) (1 / 2) (1 / 2) (1 / 2)) (V3 1 2 3) = V3 3 1 2.
Proof.
  rewrite quat_transform_formula. unfold unit_quat, qnorm2. cbn [qs qx qy qz]. split; [|f_equal]; field.
Qed.
(** the cartesian point of spherical coordinates is at distance r, and on the horizontal plane for elevation 0 *)
Theorem C47_spheric : forall az el r, dot3 (spheric2cart az el r) (spheric2cart az el r) = r * r /\
  vz (spheric2cart az 0 r) = 0 /\ spheric2cart az (PI / 2) r = V3 0 0 r.
Proof.
  intros. unfold spheric2cart, dot3. cbn. rewrite sin_0, sin_PI2, cos_PI2.
  generalize (sin2_cos2 az) (sin2_cos2 el). unfold Rsqr. intros A B. repeat split; try ring.
  - assert (sin az * sin az = 1 - cos az * cos az) as A' by lra. assert (sin el * sin el = 1 - cos el * cos el) as B' by lra.
    ring [A' B'].
  - f_equal; ring.
Qed.

(** * C48: Runge-Kutta *)
(** On a system x' = A x + g the step is the exponential series cut after the fourth power of the step. *)
Theorem C48_linear : forall n A g x h i,
  let d := fun i => rsum n (fun j => A i j * x j) + g i in
  rk4 (fun x i => rsum n (fun j => A i j * x j) + g i) x h i =
  x i + rsum 4 (fun k => h ^ S k / INR (fact (S k)) * mvpow n A k d i).
Proof.
  intros. etransitivity; [exact (rk4_linear n A g x h i)|].
  change (fun i => mv n A x i + g i) with d.
  set (f := fun k => h ^ S k / INR (fact (S k)) * mvpow n A k d i).
  rewrite (rsum_S 3), (rsum_S 2), (rsum_S 1), (rsum_S 0), rsum_0. unfold f.
  replace (INR (fact 1)) with 1 by (cbn; ring). replace (INR (fact 2)) with 2 by (cbn; ring).
  replace (INR (fact 3)) with 6 by (cbn; ring). replace (INR (fact 4)) with 24 by (cbn; ring).
  change (mvpow n A 0 d i) with (d i). change (mv n A x i + g i) with (d i). field.
Qed.
(** Right-hand sides that are polynomials of degree at most 3 in time are integrated exactly; component n is the time. *)
Theorem C48_quadrature : forall n q Q x h i, (i < n)%nat ->
  (forall i, (i < n)%nat -> is_poly 3 (q i)) -> (forall i, (i < n)%nat -> derivative_of (Q i) (q i)) ->
  rk4 (fun x i => if (i =? n)%nat then 1 else q i (x n)) x h i = x i + (Q i (x n + h) - Q i (x n)) /\
  rk4 (fun x i => if (i =? n)%nat then 1 else q i (x n)) x h n = x n + h.
Proof.
  intros n q Q x h i Hi Hq HQ. rewrite rk4_quadrature by auto. rewrite (simpson (q i) (Q i)) by auto. split; [reflexivity|].
  unfold rk4. rewrite Nat.eqb_refl. field.
Qed.
(** Order four for every scalar equation y' = f(y) with a polynomial f: the step and the solution have the same
    Taylor coefficients up to the fourth power of the step; [lie f k] gives the (k+1)-th derivative of a solution. *)
Theorem C48_order : forall f x, exists r, forall h,
  rk4 (fun y _ => peval f (y 0%nat)) (fun _ => x) h 0%nat =
  x + rsum 4 (fun k => h ^ S k / INR (fact (S k)) * peval (lie f k) x) + h ^ 5 * peval r h.
Proof.
  intros f x. destruct (rk4_order4 f x) as [r H]. exists r. intro h. rewrite H, !rsum_S, rsum_0.
  cbn [pow fact Nat.mul Nat.add INR lie]. field.
Qed.
Theorem C48_solution_derivatives : forall f y, (forall t, derivable_pt_lim y t (peval f (y t))) -> forall k t,
  derivable_pt_lim (fun t => peval (lie f k) (y t)) t (peval (lie f (S k)) (y t)).
Proof. intros. apply lie_derivative; auto. Qed.
(** The integrator: with the method RK4 a call advances by one such step of the given size, from whatever parameter
    updates came before; the stored horizon has no influence. *)
Theorem C48_integrator : forall cvodes p us rhs x0 u pr dt,
  chosen us (p_method p) = RK4 ->
  ode_solve cvodes (fold_left update_param us p) rhs x0 u pr dt = Some (rk4 (fun x => rhs x u pr) x0 dt) /\
  ode_solve_np cvodes (fold_left update_param us p) rhs x0 u dt = Some (rk4 (fun x => rhs x u (fun _ => 0)) x0 dt).
Proof.
  intros * H. assert (E : p_method (fold_left update_param us p) = RK4).
  { revert p H. induction us as [|[m|t|] us IH]; intros p H; cbn [chosen] in H; [exact H|apply IH; exact H..]. }
  unfold ode_solve_np, ode_solve. rewrite E. auto.
Qed.
Example C48_ex_method : chosen [PMethod RK4; PTf 3; PUnknown] CVODES = RK4.
Proof. reflexivity. Qed.
(** one step of size 2 for x' = x from 1: 1 + 2 + 2 + 4/3 + 2/3 *)
Example C48_ex_linear : rk4 (fun x i => rsum 1 (fun j => 1 * x j) + 0) (fun _ => 1) 2 0%nat = 7.
Proof. unfold rk4. rewrite !rsum_S, !rsum_0. field. Qed.
Example C48_ex_quadrature : is_poly 3 (fun t => t ^ 3) /\ derivative_of (fun t => / 4 * t ^ 4) (fun t => / 4 * (INR 4 * t ^ 3)) /\
  rk4 (fun x i => if (i =? 1)%nat then 1 else (x 1%nat) ^ 3) (fun _ => 0) 2 0%nat = 4.
Proof.
  split; [exists (fun k => match k with 3%nat => 1 | _ => 0 end); intro; rewrite !rsum_S, rsum_0; cbn; ring|].
  split; [|unfold rk4; cbn; field].
  intro t. apply (derivable_pt_lim_scal (fun t => t ^ 4) (/ 4)). apply (derivable_pt_lim_pow t 4).
Qed.
(** y' = y^2 from 1: derivatives 1, 2, 6, 24 *)
Example C48_ex_order : map (fun k => peval (lie [0; 0; 1] k) 1) (seq 0 4) = [1; 2; 6; 24].
Proof. cbn. repeat (apply cons_eq; [ring|]). reflexivity. Qed.

(** * C63: Lagrange interpolation *)
(** The interpolant reproduces every polynomial of degree below the number of nodes, in particular the data. *)
Theorem C63_interpolant : forall n X Y, (2 <= n)%nat -> distinct_nodes n X ->
  exists c, pm_interpolant n X Y = Some c /\
  (forall j, (j < n)%nat -> Legendre_Model.poly_eval n c (X j) = Y j) /\
  (forall p, is_poly (n - 1) p -> (forall j, (j < n)%nat -> Y j = p (X j)) -> forall t, Legendre_Model.poly_eval n c t = p t).
Proof.
  intros n X Y Hn Hd. destruct (pm_basis_some n X Hn) as [B HB]. exists (pm_coeffs n B Y).
  unfold pm_interpolant. rewrite HB. split; [reflexivity|]. split.
  - intros j Hj. rewrite pm_lagrange. exact (Spline_Proofs.lagrange_at_nodes n X B (fun _ => Y) 0%nat j Hn HB Hd Hj).
  - intros p Hp HY t. rewrite pm_lagrange. apply (Spline_Proofs.lagrange_reproduces n X B (fun _ => Y) 0%nat p Hn HB Hd); auto.
Qed.
(** The functions of lagrange_poly are the cardinal functions: 1 at their node, 0 at the others, and they reproduce
    polynomials. *)
Theorem C63_cardinal : forall n X, distinct_nodes (S n) X ->
  (forall j k, (j <= n)%nat -> (k <= n)%nat -> lagrange_phi n (X j) X k = if (j =? k)%nat then 1 else 0) /\
  (forall p t, is_poly n p -> rsum (S n) (fun k => p (X k) * lagrange_phi n t X k) = p t).
Proof. intros. split; intros; [apply phi_at_nodes | apply phi_reproduces]; auto. Qed.
(** The interpolator object: whatever calls were made, an evaluation returns the value of the polynomial through the
    data of the last call that formed one; values given to eval(arg, values) belong to the current nodes. *)
Theorem C63_object : forall cs s r0 c s' y n X Y p t,
  Forall nodes_ok (cs ++ [c]) -> irun interp_empty cs = Some (s, r0) -> iexec s c = Some (s', Some y) ->
  (c = IEval t \/ exists m v, c = IEvalV t m v) ->
  snd (tracked (cs ++ [c])) = Some (n, X, Y) -> is_poly (n - 1) p -> (forall j, (j < n)%nat -> Y j = p (X j)) ->
  y = p t.
Proof.
  intros * Hn Hr He Hc Ht Hp HY.
  assert (irun interp_empty (cs ++ [c]) = Some (s', Some y)) as Hr2 by (rewrite irun_app, Hr; exact He).
  destruct (irun_state _ _ _ Hn Hr2) as [_ I]. rewrite Ht in I. destruct I as (Em & Hn2 & Hd & B & HB & Ec).
  assert (y = Legendre_Model.poly_eval n (pm_coeffs n B Y) t) as ->.
  { rewrite <- Ec, <- Em. destruct Hc as [-> | (m & v & ->)]; cbn [iexec] in He.
    - injection He as <- <-. reflexivity.
    - destruct ((m =? li_m s) && (m =? li_n s))%nat%bool; [|discriminate]. injection He as <- <-. reflexivity. }
  rewrite pm_lagrange. apply (Spline_Proofs.lagrange_reproduces n X B (fun _ => Y) 0%nat p Hn2 HB Hd); auto.
Qed.
(** update_basis does not change what eval(arg) returns *)
Theorem C63_update_keeps_polynomial : forall s n X s' r t, iexec s (IUpdate n X) = Some (s', r) ->
  option_map snd (iexec s' (IEval t)) = option_map snd (iexec s (IEval t)).
Proof.
  intros * H. cbn [iexec] in *. destruct (pm_basis n X); [|discriminate]. injection H as <- <-. reflexivity.
Qed.
(** and, once the number of nodes has changed, no new values are accepted for them *)
Theorem C63_resize_refuted : forall n m X Y X' t v, (2 <= n)%nat -> (2 <= m)%nat -> n <> m ->
  irun interp_empty [IInit n X Y; IUpdate m X'; IEvalV t m v] = None.
Proof.
  intros * Hn Hm H. destruct (pm_basis_some n X Hn) as [B HB]. destruct (pm_basis_some m X' Hm) as [B' HB'].
  cbn [irun iexec]. rewrite HB, HB'. cbn [li_m li_n]. apply not_eq_sym, Nat.eqb_neq in H. rewrite H. reflexivity.
Qed.
(** a single node is not accepted *)
Theorem C63_one_node_refuted : forall X Y, pm_interpolant 1 X Y = None.
Proof. reflexivity. Qed.
(** the data (1,1), (2,4), (3,9): the object returns squares; the cardinal functions sum up to the square of 5 *)
Example C63_ex : let X := fun i => INR (S i) in let Y := fun i => INR (S i) ^ 2 in
  distinct_nodes 3 X /\ is_poly 2 (fun t => t ^ 2) /\
  (exists s, irun interp_empty [IInit 3 X (fun _ => 0); IUpdate 3 X; IEvalV 5 3 Y; IEval 5] = Some (s, Some 25)) /\
  rsum 3 (fun k => Y k * lagrange_phi 2 5 X k) = 25.
Proof.
  intros X Y.
  assert (distinct_nodes 3 X) as Hd. { intros i j Hi Hj H E. unfold X in E. apply INR_eq in E. lia. }
  assert (is_poly 2 (fun t => t ^ 2)) as Hp.
  { exists (fun k => match k with 2%nat => 1 | _ => 0 end). intro t. rewrite !rsum_S, rsum_0. cbn. ring. }
  split; [exact Hd|]. split; [exact Hp|]. split.
  - destruct (irun interp_empty [IInit 3 X (fun _ => 0); IUpdate 3 X; IEvalV 5 3 Y; IEval 5]) as [[s [y|]]|] eqn:E;
      [|cbn in E; discriminate|cbn in E; discriminate].
    exists s. do 3 f_equal.
    change [IInit 3 X (fun _ => 0); IUpdate 3 X; IEvalV 5 3 Y; IEval 5]
      with ([IInit 3 X (fun _ => 0); IUpdate 3 X; IEvalV 5 3 Y] ++ [IEval 5]) in E.
    rewrite irun_app in E.
    destruct (irun interp_empty [IInit 3 X (fun _ => 0); IUpdate 3 X; IEvalV 5 3 Y]) as [[s1 r1]|] eqn:E1; [|discriminate].
    replace 25 with ((fun t => t ^ 2) 5) by ring.
    eapply (C63_object _ s1 r1 (IEval 5) s y 3 X Y (fun t => t ^ 2) 5); [| exact E1 | exact E | left; reflexivity | reflexivity | exact Hp | reflexivity].
    repeat constructor; exact Hd.
  - destruct (C63_cardinal 2 X Hd) as [_ H]. specialize (H (fun t => t ^ 2) 5 Hp). cbv beta in H.
    replace 25 with (5 ^ 2) by ring. rewrite <- H. reflexivity.
Qed.

(** * C64: Chebyshev series *)
Theorem C64_expansion : forall u t, u <> [] ->
  cheb_expansion u (cos t) = Some (rsum (length u) (fun k => nth k u 0 * cos (INR k * t))).
Proof.
  intros u t Hu. destruct u as [|a u]; [contradiction|]. unfold cheb_expansion. rewrite (fold_sum (cheb_T (cos t))), Rplus_0_l.
  f_equal. apply rsum_ext. intros. rewrite cheb_T_cos. reflexivity.
Qed.
(** both evaluations agree on the whole reference interval *)
Theorem C64_agree : forall u x, -1 <= x <= 1 -> cheb_expansion u x = cheb_expansion2 u x.
Proof.
  intros u x Hx. destruct u as [|a u]; [reflexivity|]. unfold cheb_expansion, cheb_expansion2.
  rewrite (fold_sum (cheb_T x)), (fold_sum (fun k => cos (INR k * acos x))). f_equal. f_equal. apply rsum_ext. intros.
  rewrite <- (cos_acos x) at 1 by auto. rewrite cheb_T_cos. reflexivity.
Qed.
Example C64_ex : cheb_expansion [1; 2; 3] (1 / 2) = Some (1 + 2 * (1 / 2) + 3 * (- 1 / 2)).
Proof. cbn. f_equal. field. Qed.

(** * C65: factorial *)
(** What holds: the result is n! modulo 2^32, which is n! up to n = 12. *)
Theorem C65_modular : forall n, (0 <= n < 2 ^ 31 - 1)%Z ->
  factorial n = Some (Z.of_nat (fact (Z.to_nat n)) mod 2 ^ 32)%Z.
Proof.
  intros n H. unfold factorial. destruct (Z.ltb_spec n (2 ^ 31 - 1)); [|lia]. rewrite fact_mod. reflexivity.
Qed.
Theorem C65_small_partial : forall n, (n <= 12)%nat -> factorial (Z.of_nat n) = Some (Z.of_nat (fact n)).
Proof.
  intros n H. rewrite C65_modular by lia. rewrite Nat2Z.id. f_equal. apply Z.mod_small.
  split; [apply Nat2Z.is_nonneg | apply fact_small; auto].
Qed.
(** What is false: from n = 13 on the result is never n!, and from n = 34 on it is 0. *)
Theorem C65_large_refuted : forall n, (13 <= n)%nat -> (Z.of_nat n < 2 ^ 31 - 1)%Z ->
  factorial (Z.of_nat n) <> Some (Z.of_nat (fact n)) /\ ((34 <= n)%nat -> factorial (Z.of_nat n) = Some 0%Z).
Proof.
  intros n Hn Hb. split.
  - intro E. rewrite C65_modular, Nat2Z.id in E by (split; [apply Nat2Z.is_nonneg|exact Hb]). injection E as E.
    pose proof (fact_big n Hn). pose proof (Z.mod_pos_bound (Z.of_nat (fact n)) (2 ^ 32) eq_refl). lia.
  - intro H. unfold factorial. destruct (Z.ltb_spec (Z.of_nat n) (2 ^ 31 - 1)); [|lia]. rewrite Nat2Z.id, fact_zero; auto.
Qed.
Example C65_ex : factorial 5 = Some 120%Z /\ factorial 13 = Some 1932053504%Z.
Proof. split; vm_compute; reflexivity. Qed.

(** * C66: flip *)
Theorem C66_flip : forall (A : Type) (m : list (list A)),
  (m <> [] -> flip 1 m = Some (rev m)) /\
  ((forall row, In row m -> row <> []) -> flip 2 m = Some (map (@rev A) m)) /\
  (forall d m', (d = 1 \/ d = 2)%nat -> flip d m = Some m' -> flip d m' = Some m).
Proof.
  intros A m. split; [apply flip1_rev|]. split; [apply flip2_rev|]. intros d m' [-> | ->] H.
  - destruct m as [|r m]; [discriminate|]. cbn [flip] in H. rewrite flip1_rev in H by discriminate.
    assert (m' = rev (r :: m)) as -> by congruence.
    cbn [flip]. rewrite flip1_rev, rev_involutive; [reflexivity|]. cbn. intro E. apply (f_equal (@length _)) in E.
    rewrite app_length in E. cbn in E. lia.
  - cbn [flip] in *. assert (forall row, In row m -> row <> []) as Hr.
    { clear - H. unfold flip2 in H. revert m' H. induction m as [|r m IH]; intros m' H row Hin; [destruct Hin|].
      cbn [map all_some] in H. destruct r as [|a r]; [discriminate|]. destruct Hin as [<-|Hin]; [discriminate|].
      destruct (all_some _) as [l|] eqn:E; [|discriminate]. eapply IH; eauto. }
    rewrite flip2_rev in H by auto. assert (m' = map (@rev A) m) as -> by congruence. rewrite flip2_rev.
    + rewrite map_map. f_equal. rewrite <- (map_id m) at 2. apply map_ext. intro; apply rev_involutive.
    + intros row Hin. apply in_map_iff in Hin. destruct Hin as (r & <- & Hr2). apply Hr in Hr2.
      destruct r; [contradiction|]. cbn. intro E. apply (f_equal (@length _)) in E. rewrite app_length in E. cbn in E. lia.
Qed.
Example C66_ex : flip 1 [[1; 2]; [3; 4]; [5; 6]] = Some [[5; 6]; [3; 4]; [1; 2]] /\ flip 2 [[1; 2]; [3; 4]] = Some [[2; 1]; [4; 3]].
Proof. split; reflexivity. Qed.

Print Assumptions C44_points_partial.
Print Assumptions C44_points_refuted.
Print Assumptions C44_matrix.
Print Assumptions C47_product.
Print Assumptions C47_hamilton.
Print Assumptions C47_inverse.
Print Assumptions C47_rotation.
Print Assumptions C47_elementary.
Print Assumptions C47_spheric.
Print Assumptions C48_linear.
Print Assumptions C48_quadrature.
Print Assumptions C48_order.
Print Assumptions C48_solution_derivatives.
Print Assumptions C48_integrator.
Print Assumptions C63_interpolant.
Print Assumptions C63_cardinal.
Print Assumptions C63_object.
Print Assumptions C63_update_keeps_polynomial.
Print Assumptions C63_resize_refuted.
Print Assumptions C63_one_node_refuted.
Print Assumptions C64_expansion.
Print Assumptions C64_agree.
Print Assumptions C65_modular.
Print Assumptions C65_small_partial.
Print Assumptions C65_large_refuted.
Print Assumptions C66_flip.
