(** C20-C27, C59, C60: Chebyshev and Legendre bases, polynomial helpers, splines. *)
Require Import Reals Lra Lia List ZArith Bool.
Require Import Verif.Scal Verif.RSum Verif.PolyR Verif.Poly_Spec Verif.Cheb_Model Verif.Cheb_Proofs
  Verif.Leg_Math Verif.Legendre_Model Verif.Legendre_Proofs Verif.Leg_Roots Verif.Spline_Model Verif.Spline_Proofs.
Import ListNotations.
Local Open Scope R_scope.

(** C20: the nodes run strictly downwards from 1 to -1 and are symmetric. *)
Theorem C20_chebyshev_nodes : forall N, (1 <= N)%nat ->
  cheb_nodes N 0 = 1 /\ cheb_nodes N N = -1 /\
  (forall i j, (i < j)%nat -> (j <= N)%nat -> cheb_nodes N j < cheb_nodes N i) /\
  (forall i, (i <= N)%nat -> cheb_nodes N (N - i) = - cheb_nodes N i) /\
  distinct_nodes (S N) (cheb_nodes N).
Proof.
  intros N HN. split; [apply nodes_first|]. split; [apply nodes_last; auto|].
  split; [intros; apply nodes_decreasing; auto|]. split; [intros; apply nodes_symmetric; auto|].
  exact (nodes_distinct N HN).
Qed.
Print Assumptions C20_chebyshev_nodes.
Example C20_example : cheb_nodes 2 1 = 0.
Proof. unfold cheb_nodes, cheb_theta. simpl. replace (1 * (PI / (1 + 1))) with (PI / 2) by field. apply cos_PI2. Qed.

(** C21: exact on polynomials of degree at most N, zero row sums, centro-antisymmetric. *)
Theorem C21_chebyshev_diff_matrix : forall N, (1 <= N)%nat ->
  (forall p p', is_poly N p -> derivative_of p p' -> forall i, (i <= N)%nat ->
     rsum (S N) (fun j => cheb_D N i j * p (cheb_nodes N j)) = p' (cheb_nodes N i)) /\
  (forall i, (i <= N)%nat -> rsum (S N) (fun j => cheb_D N i j) = 0) /\
  (forall i j, (i <= N)%nat -> (j <= N)%nat -> cheb_D N (N - i) (N - j) = - cheb_D N i j).
Proof.
  intros N HN. split; [intros; apply cheb_D_poly; auto|].
  split; [intros; apply D_row_sum; auto|intros; apply D_mirror; auto].
Qed.
Print Assumptions C21_chebyshev_diff_matrix.

Lemma cube_poly : is_poly 3 (fun x => x ^ 3).
Proof. exists (fun k => if (k =? 3)%nat then 1 else 0). intro x. rewrite !rsum_S, rsum_0. simpl. ring. Qed.
Lemma cube_der : derivative_of (fun x => x ^ 3) (fun x => 3 * x ^ 2).
Proof. intro x. assert (H := derivable_pt_lim_pow x 3). simpl pred in H. replace (INR 3) with 3 in H by (simpl; ring). exact H. Qed.
(** the derivative of x^3 at the third of four nodes *)
Example C21_example : rsum 4 (fun j => cheb_D 3 2 j * cheb_nodes 3 j ^ 3) = 3 / 4.
Proof.
  destruct (C21_chebyshev_diff_matrix 3) as [H _]; [lia|].
  rewrite (H _ _ cube_poly cube_der 2%nat) by lia.
  unfold cheb_nodes, cheb_theta. simpl INR. replace ((1 + 1) * (PI / (1 + 1 + 1))) with (2 * (PI / 3)) by field.
  rewrite cos_2PI3. field.
Qed.

(** C22: Clenshaw-Curtis weights and integrate are exact up to degree N. *)
Theorem C22_clenshaw_curtis : forall N, (1 <= N)%nat ->
  (forall p F, is_poly N p -> derivative_of F p ->
     rsum (S N) (fun i => cheb_int_weights N i * p (cheb_nodes N i)) = F 1 - F (-1)) /\
  (forall f F t0 tf, is_poly N f -> derivative_of F f -> cheb_integrate N f t0 tf = F tf - F t0) /\
  rsum (S N) (cheb_int_weights N) = 2 /\
  (forall i, (i <= N)%nat -> 0 < cheb_int_weights N i /\ cheb_int_weights N (N - i) = cheb_int_weights N i).
Proof.
  intros N HN. split; [intros; apply cc_exact; auto|].
  split; [intros; apply Cheb_Proofs.integrate_exact; auto|].
  split; [apply cc_sum; auto|]. intros; split; [apply cc_positive|apply cc_symmetric]; auto.
Qed.
Print Assumptions C22_clenshaw_curtis.
(** Simpson's rule *)
Example C22_example : cheb_int_weights 2 0 = 1 / 3 /\ cheb_int_weights 2 1 = 4 / 3 /\
  cheb_integrate 3 (fun x => 3 * x ^ 2) 1 3 = 26.
Proof.
  split; [unfold cheb_int_weights; simpl; field|]. split.
  - unfold cheb_int_weights, cc_v, cheb_theta. simpl. replace ((1 + 1) * (1 * (PI / (1 + 1)))) with PI by field.
    rewrite cos_PI. field.
  - destruct (C22_clenshaw_curtis 3) as (_ & H & _); [lia|].
    rewrite (H _ (fun x => x ^ 3)); [ring| |exact cube_der].
    exists (fun k => if (k =? 2)%nat then 3 else 0). intro x. rewrite !rsum_S, rsum_0. simpl. ring.
Qed.

(** link between the specification and the proofs *)
Lemma basis_fun : forall N L, (1 <= N)%nat -> legendre_basis N = Some L ->
  forall c x, (c <= N)%nat -> poly_eval (N + 1) (L c) x = peval (leg c) x.
Proof. intros N L HN E. destruct (basis_spec N HN) as (L' & E' & _ & H). rewrite E in E'. injection E' as <-. exact H. Qed.
Lemma stationary_good : forall N L roots, (1 <= N)%nat -> legendre_basis N = Some L ->
  (stationary_points N (poly_eval (N + 1) (L N)) roots <-> good_roots N roots).
Proof.
  intros N L roots HN E. assert (H := basis_fun N L HN E N).
  assert (D : forall x, derivable_pt_lim (poly_eval (N + 1) (L N)) x (peval (pder (leg N)) x)).
  { intro x. apply derivable_pt_lim_ext with (peval (leg N)); [intro; symmetry; apply H; lia|apply peval_derivable]. }
  unfold stationary_points, good_roots. split; intros [H1 H2]; split; auto; intros i Hi; destruct (H1 i Hi) as [B Z]; split; auto.
  - apply derivable_unique with (poly_eval (N + 1) (L N)) (roots i); auto.
  - rewrite <- Z. apply D.
Qed.
Lemma nodes_ok : forall N L roots, (1 <= N)%nat -> legendre_basis N = Some L ->
  stationary_points N (poly_eval (N + 1) (L N)) roots -> lgl_nodes N (legendre_nodes N roots).
Proof. intros N L roots HN E H. apply nodes_lgl; auto. apply (stationary_good N L); auto. Qed.

(** for every order the root finder has a correct answer *)
Theorem C23_legendre_nodes_exist : forall N, (1 <= N)%nat ->
  exists L roots, legendre_basis N = Some L /\ stationary_points N (poly_eval (N + 1) (L N)) roots /\
    let x := legendre_nodes N roots in
    x 0%nat = -1 /\ x N = 1 /\ forall i j, (i < j)%nat -> (j <= N)%nat -> x i < x j.
Proof.
  intros N HN. destruct (basis_spec N HN) as (L & E & _ & _). destruct (good_roots_exist N HN) as [roots G].
  exists L, roots. split; auto. split; [apply (stationary_good N L); auto|].
  destruct (nodes_lgl N roots HN G) as [F1 F2 F3 _]. auto.
Qed.
Print Assumptions C23_legendre_nodes_exist.

(** C23, what holds: all rows but the first and the last differentiate exactly; the first and last rows are off
    by N(N+1)/2 times the value of the polynomial (missing: exactness of these two rows, which is false). *)
Theorem C23_legendre_diff_matrix_partial : forall N L roots, (1 <= N)%nat -> legendre_basis N = Some L ->
  stationary_points N (poly_eval (N + 1) (L N)) roots ->
  let x := legendre_nodes N roots in
  let D := legendre_D N (L N) x in
  forall p p', is_poly N p -> derivative_of p p' ->
  (forall i, (0 < i)%nat -> (i < N)%nat -> rsum (S N) (fun j => D i j * p (x j)) = p' (x i)) /\
  rsum (S N) (fun j => D 0%nat j * p (x j)) = p' (-1) + INR N * (INR N + 1) / 2 * p (-1) /\
  rsum (S N) (fun j => D N j * p (x j)) = p' 1 - INR N * (INR N + 1) / 2 * p 1.
Proof.
  intros N L roots HN E Sp x D p p' Hp Hd. assert (Hx := nodes_ok N L roots HN E Sp). fold x in Hx.
  assert (HL := basis_fun N L HN E).
  destruct (is_poly_list N p Hp) as (l & Hl & He).
  assert (A : forall i, (i <= N)%nat -> rsum (S N) (fun j => D i j * p (x j)) = p' (x i) - 2 * lg_diag N x i * p (x i)).
  { intros i Hi. rewrite (rsum_ext _ _ (fun j => D i j * peval l (x j))) by (intros; rewrite He; auto).
    unfold D. rewrite (Legendre_Proofs.D_apply N x L HN Hx HL l i Hi Hl), <- He. f_equal.
    apply derivable_unique with p (x i); [|apply Hd].
    apply derivable_pt_lim_ext with (peval l); [intro; symmetry; apply He|apply peval_derivable]. }
  assert (F := lgl_first _ _ Hx). assert (G := lgl_last _ _ Hx). split; [|split].
  - intros i H0 H1. rewrite A by lia. unfold lg_diag. rewrite (lgl_root _ _ Hx) by auto. unfold Rdiv. ring.
  - rewrite A by lia. unfold lg_diag. rewrite F, leg_der_m1, leg_at_m1. field. apply pow_nonzero. lra.
  - rewrite A by lia. unfold lg_diag. rewrite G, leg_der_1, leg_at_1. field.
Qed.
Print Assumptions C23_legendre_diff_matrix_partial.

(** C23 is false for every order: the constant 1 is differentiated wrongly at both ends. *)
Theorem C23_legendre_diff_matrix_refuted : forall N, (1 <= N)%nat ->
  exists L roots p p', legendre_basis N = Some L /\ stationary_points N (poly_eval (N + 1) (L N)) roots /\
    is_poly N p /\ derivative_of p p' /\
    let x := legendre_nodes N roots in
    rsum (S N) (fun j => legendre_D N (L N) x 0%nat j * p (x j)) <> p' (x 0%nat) /\
    rsum (S N) (fun j => legendre_D N (L N) x N j * p (x j)) <> p' (x N).
Proof.
  intros N HN. destruct (C23_legendre_nodes_exist N HN) as (L & roots & E & Sp & F & G & _).
  exists L, roots, (fun _ => 1), (fun _ => 0). split; auto. split; auto.
  assert (P : is_poly N (fun _ => 1)).
  { exists (fun k => if (k =? 0)%nat then 1 else 0). intro x. rewrite rsum_first, rsum_zero; [simpl; ring|].
    intros i _. simpl. ring. }
  assert (Q : derivative_of (fun _ => 1) (fun _ => 0)) by (intro x; apply derivable_pt_lim_const).
  split; auto. split; auto.
  destruct (C23_legendre_diff_matrix_partial N L roots HN E Sp _ _ P Q) as (_ & A & B).
  assert (0 < INR N) by (apply lt_0_INR; lia). cbv zeta. rewrite A, B. split; nra.
Qed.
Print Assumptions C23_legendre_diff_matrix_refuted.

(** C24: the columns of the basis matrix are the Legendre polynomials. *)
Theorem C24_legendre_basis : forall N, (1 <= N)%nat ->
  exists L, legendre_basis N = Some L /\
  forall n, (n <= N)%nat ->
  let P := poly_eval (N + 1) (L n) in
  (L n n <> 0 /\ forall k, (n < k)%nat -> (k <= N)%nat -> L n k = 0) /\
  P 1 = 1 /\ P (-1) = (-1) ^ n /\
  (forall x, P (- x) = (-1) ^ n * P x) /\
  (exists P', derivative_of P P' /\
     derivative_of (fun x => (1 - x ^ 2) * P' x) (fun x => - (INR n * (INR n + 1)) * P x)) /\
  (forall m F, (m <= N)%nat -> derivative_of F (fun x => poly_eval (N + 1) (L m) x * P x) ->
     F 1 - F (-1) = if (m =? n)%nat then 2 / (2 * INR n + 1) else 0).
Proof.
  intros N HN. destruct (basis_spec N HN) as (L & E & HC & HV). exists L. split; auto.
  intros n Hn P. assert (HP : forall x, P x = peval (leg n) x) by (intro; apply HV; auto).
  split; [split|].
  - rewrite HC by lia. assert (A := leg_lead n). lra.
  - intros k H1 H2. rewrite HC by lia. apply pcoef_over. rewrite length_leg. lia.
  - split; [rewrite HP; apply leg_at_1|]. split; [rewrite HP; apply leg_at_m1|].
    split; [intro; rewrite !HP; apply leg_parity|]. split.
    + exists (peval (pder (leg n))). split.
      * intro x. apply derivable_pt_lim_ext with (peval (leg n)); [intro; symmetry; apply HP|apply peval_derivable].
      * intro x. rewrite HP, <- leg_ode.
        apply derivable_pt_lim_ext with (peval (legw n)); [intro; apply legw_eval|apply peval_derivable].
    + intros m F Hm HF.
      assert (G : forall x, derivable_pt_lim F x (peval (pmul (leg m) (leg n)) x)).
      { intro x. rewrite peval_mul, <- HP, <- (HV m x Hm). apply HF. }
      rewrite (pint_spec _ F G). change (pint (pmul (leg m) (leg n)) (-1) 1) with (ip (leg m) (leg n)).
      destruct (Nat.eqb_spec m n) as [->|]; [apply leg_norm|apply leg_orth; auto].
Qed.
Print Assumptions C24_legendre_basis.
(** the third Legendre polynomial (5x^3 - 3x)/2, exactly in rational arithmetic *)
Example C24_example : let sc := Q_scalar in
  match @legendre_basis _ Q_scalar 3 with
  | Some L => QArith_base.Qeq (L 3%nat 3%nat) (QArith_base.Qmake 5 2) /\ QArith_base.Qeq (L 3%nat 1%nat) (QArith_base.Qmake (-3) 2) /\
      QArith_base.Qeq (L 3%nat 0%nat) (QArith_base.Qmake 0 1)
  | None => False end.
Proof. vm_compute. repeat split. Qed.

(** C25, product, what holds: poly_mul is right when the second factor is a single monomial and the product fits
    (missing: general second factors, for which it is false; the zero polynomial reads an uninitialised variable). *)
Theorem C25_poly_mul_partial : forall n (p1 p2 : nat -> R) a m, (m < n)%nat -> (a < n)%nat ->
  / 2 ^ 52 <= Rabs (p1 a) -> (forall k, (a < k)%nat -> (k < n)%nat -> p1 k = 0) ->
  / 2 ^ 52 <= Rabs (p2 m) -> (forall k, k <> m -> (k < n)%nat -> p2 k = 0) ->
  exists q, poly_mul n p1 p2 = Some q /\ forall k, (k < n)%nat -> q k = product_coef p1 p2 k.
Proof.
  intros n p1 p2 a m Hm Ha H1 H2 H3 H4.
  assert (Ee : @pm_eps R R_scalar = / 2 ^ 52).
  { unfold pm_eps, scst. cbn [sdiv sofZ R_scalar]. rewrite (pow_IZR 2 52). unfold Rdiv. rewrite Rmult_1_l. reflexivity. }
  rewrite <- Ee in H1, H3. destruct (mul_monomial n p1 p2 a m Hm Ha H1 H2 H3 H4) as (q & E & Hq).
  exists q. split; auto. intros k Hk. rewrite Hq by auto. symmetry. apply conv_monomial. intros; apply H4; auto; lia.
Qed.
Print Assumptions C25_poly_mul_partial.

(** (1+x)(1+x) with room for three coefficients gives 1 + x + x^2; the product with the zero polynomial reads
    an uninitialised index. *)
Theorem C25_poly_mul_refuted :
  let p : nat -> R := fun k => if (k <? 2)%nat then 1 else 0 in
  (exists q, poly_mul 3 p p = Some q /\ q 1%nat = 1 /\ product_coef p p 1 = 2) /\
  poly_mul 3 p (fun _ => 0) = None.
Proof.
  intro p.
  assert (E0 : Rabs 0 = 0) by apply Rabs_R0. assert (E1 : Rabs 1 = 1) by apply Rabs_R1.
  assert (B := eps_pos).
  assert (L0 : sleb (@pm_eps R R_scalar) (sabs 0) = false).
  { cbn [sleb sabs R_scalar]. rewrite E0. unfold Rleb. destruct (Rle_dec _ _); auto. exfalso; lra. }
  assert (L1 : sleb (@pm_eps R R_scalar) (sabs 1) = true).
  { cbn [sleb sabs R_scalar]. rewrite E1. unfold Rleb. destruct (Rle_dec _ _); auto. exfalso; lra. }
  assert (Sp : pm_scan 3 p = Some 1%nat).
  { cbn [pm_scan]. change (p 2%nat) with 0. change (p 1%nat) with 1. rewrite L0, L1. auto. }
  split.
  - unfold poly_mul. rewrite Sp. eexists. split; [reflexivity|]. split.
    + rewrite tab_spec by lia. cbn. unfold upd. simpl. ring.
    + unfold product_coef, p. rewrite !rsum_S, rsum_0. simpl. ring.
  - unfold poly_mul. rewrite Sp. cbn [pm_scan]. rewrite L0. auto.
Qed.
Print Assumptions C25_poly_mul_refuted.

(** C25, derivative: poly_diff gives the coefficients of the derivative. *)
Theorem C25_poly_diff : forall n (p : nat -> R), (1 <= n)%nat ->
  derivative_of (fun x => rsum n (fun k => p k * x ^ k)) (fun x => rsum n (fun k => poly_diff n p k * x ^ k)).
Proof.
  intros n p Hn x. assert (H := diff_spec n p Hn x).
  rewrite poly_eval_R in H. apply derivable_pt_lim_ext with (fun x => poly_eval n p x); [intro; apply poly_eval_R|exact H].
Qed.
Print Assumptions C25_poly_diff.
Example C25_example : let sc := SF_scalar in
  (match poly_mul 4 (fun k => sofZ (Z.of_nat k + 1)) (fun k => if (k =? 0)%nat then sofZ 3 else s0) with
   | Some q => q 3%nat = sofZ 12 | None => False end) /\
  poly_diff 4 (fun k => sofZ (Z.of_nat k + 1)) 2%nat = sofZ 12.
Proof. vm_compute. split; reflexivity. Qed.

(** C26: interpolation of the data and reproduction of polynomials, for at least two distinct nodes. *)
Theorem C26_lagrange_spline : forall n (x : nat -> R), (2 <= n)%nat -> distinct_nodes n x ->
  exists B, lagrange_basis n x = Some B /\
  forall (values : nat -> nat -> R) d,
  (forall j, (j < n)%nat -> lagrange_eval n (x j) values B d = values d j) /\
  (forall p, is_poly (n - 1) p -> (forall j, (j < n)%nat -> values d j = p (x j)) ->
     forall y, lagrange_eval n y values B d = p y).
Proof.
  intros n x Hn Hd.
  assert (E : exists B, lagrange_basis n x = Some B).
  { unfold lagrange_basis. destruct (Nat.ltb_spec n 2); [lia|]. eauto. }
  destruct E as [B E]. exists B. split; auto. intros v d. split.
  - intros. apply lagrange_at_nodes; auto.
  - intros. apply (lagrange_reproduces n x B v d p); auto.
Qed.
Print Assumptions C26_lagrange_spline.
(** x^2 through the nodes 0, 1, 3 at the point 2, in floating point *)
Example C26_example : let sc := SF_scalar in
  let x := fun j => match j with O => s0 | S O => s1 | _ => sofZ 3 end in
  match lagrange_basis 3 x with
  | Some B => lagrange_eval 3 (sofZ 2) (fun _ j => smul (x j) (x j)) B 0 = sofZ 4
  | None => False end.
Proof. vm_compute. reflexivity. Qed.

(** C27, what holds: inside [0, cols * len) the containing segment is used, left of 0 the first one (missing:
    points at or beyond the right end, where it is false, and quotients beyond the range of int). *)
Theorem C27_cubic_spline_partial : forall cols (coef : nat -> nat -> R) len x,
  (1 <= cols)%nat -> (Z.of_nat cols <= 2 ^ 31)%Z -> 0 < len ->
  let value j := coef 0%nat j + coef 1%nat j * x + coef 2%nat j * x ^ 2 + coef 3%nat j * x ^ 3 in
  (forall j, (j < cols)%nat -> INR j * len <= x < (INR j + 1) * len -> cubic_eval cols coef len x = Some (value j)) /\
  (- 2 ^ 31 * len <= x < 0 -> cubic_eval cols coef len x = Some (value 0%nat)).
Proof.
  intros cols coef len x H1 H2 Hl value. split.
  - intros j Hj Hx. rewrite (cubic_inside cols coef len x j); auto. unfold value. f_equal. ring.
  - intros Hx. rewrite (cubic_left cols coef len x); auto; [unfold value; f_equal; ring|].
    assert (E : IZR (2 ^ 31) = 2 ^ 31) by (rewrite (pow_IZR 2 31); reflexivity). rewrite E. lra.
Qed.
Print Assumptions C27_cubic_spline_partial.
(** C27 is false: from the right end of the interval on, a column that does not exist is read, whatever the
    spline. *)
Theorem C27_cubic_spline_refuted : forall cols (coef : nat -> nat -> R) len, 0 < len ->
  exists x0, x0 = INR cols * len /\ forall x, x0 <= x -> cubic_eval cols coef len x = None.
Proof. intros. exists (INR cols * len). split; auto. intros. apply cubic_right; auto. Qed.
Print Assumptions C27_cubic_spline_refuted.
Example C27_example : cubic_eval 3 (fun k j => INR (k + j)) 2 5 = Some (INR 2 + 5 * INR 3 + 25 * INR 4 + 125 * INR 5).
Proof.
  destruct (C27_cubic_spline_partial 3 (fun k j => INR (k + j)) 2 5) as [H _]; [lia|lia|lra|].
  rewrite (H 2%nat); [f_equal; simpl; ring|lia|simpl; lra].
Qed.

(** C59: Gauss-type weights are exact up to degree 2N - 1: Chebyshev weights for the weight 1/sqrt(1-x^2)
    (integral over the angle), Legendre weights and Legendre integrate for the plain integral. *)
Theorem C59_chebyshev_gauss : forall N p G, (1 <= N)%nat -> is_poly (2 * N - 1) p ->
  derivative_of G (fun t => p (cos t)) ->
  rsum (S N) (fun i => cheb_quad_weights N i * p (cheb_nodes N i)) = G PI - G 0.
Proof. intros. apply Cheb_Proofs.quad_exact; auto. Qed.
Print Assumptions C59_chebyshev_gauss.
Theorem C59_legendre_gauss : forall N L roots, (1 <= N)%nat -> legendre_basis N = Some L ->
  stationary_points N (poly_eval (N + 1) (L N)) roots ->
  let x := legendre_nodes N roots in
  (forall p F, is_poly (2 * N - 1) p -> derivative_of F p ->
     rsum (S N) (fun i => legendre_weights N (L N) x i * p (x i)) = F 1 - F (-1) /\
     forall t0 tf, legendre_integrate N (L N) x p t0 tf = F tf - F t0) /\
  (forall i, (i <= N)%nat -> 0 < legendre_weights N (L N) x i).
Proof.
  intros N L roots HN E Sp x. assert (Hx := nodes_ok N L roots HN E Sp). fold x in Hx. assert (HL := basis_fun N L HN E).
  split.
  - intros p F Hp HF. split.
    + destruct (is_poly_list _ p Hp) as (l & Hl & He).
      rewrite (rsum_ext _ _ (fun i => legendre_weights N (L N) x i * peval l (x i))) by (intros; rewrite He; auto).
      rewrite (Legendre_Proofs.quad_exact N x L HN Hx HL l) by lia. symmetry. apply pint_spec. intro y. rewrite <- He. apply HF.
    + intros. apply (Legendre_Proofs.integrate_exact N x L HN Hx HL); auto.
  - intros i Hi. apply (weights_pos N x L HN Hx HL i Hi).
Qed.
Print Assumptions C59_legendre_gauss.
(** x^3 with two Chebyshev intervals: degree 3 = 2N - 1 *)
Example C59_example : rsum 3 (fun i => cheb_quad_weights 2 i * cheb_nodes 2 i ^ 3) = 0.
Proof.
  rewrite (C59_chebyshev_gauss 2 (fun x => x ^ 3) (fun t => sin t - sin t ^ 3 / 3)).
  - rewrite sin_PI, sin_0. field.
  - lia.
  - exact cube_poly.
  - intro t. replace (cos t ^ 3) with (cos t - (3 * sin t ^ 2 * cos t) / 3).
    + apply derivable_pt_lim_minus; [apply derivable_pt_lim_sin|].
      apply derivable_pt_lim_ext with (fun y => / 3 * (fun z => sin z ^ 3) y); [intro; field|].
      replace (3 * sin t ^ 2 * cos t / 3) with (/ 3 * (3 * sin t ^ 2 * cos t)) by field.
      apply derivable_pt_lim_scal.
      apply (derivable_pt_lim_comp sin (fun y => y ^ 3)); [apply derivable_pt_lim_sin|apply cube_der].
    + assert (H := sin2_cos2 t). unfold Rsqr in H. replace (sin t ^ 2) with (1 - cos t ^ 2) by (simpl; nra). field.
Qed.

(** C60: projection of a polynomial returns the polynomial.  Legendre: up to degree N. *)
Theorem C60_legendre_projection : forall N L roots, (1 <= N)%nat -> legendre_basis N = Some L ->
  stationary_points N (poly_eval (N + 1) (L N)) roots ->
  let x := legendre_nodes N roots in
  forall f a b, a <> b -> is_poly N f ->
  forall y, legendre_proj_eval N L (legendre_project N L x f a b) a b y = f y.
Proof.
  intros N L roots HN E Sp x f a b Hab Hf y. assert (Hx := nodes_ok N L roots HN E Sp).
  apply (Legendre_Proofs.project_reproduces N x L HN Hx (basis_fun N L HN E)); auto.
Qed.
Print Assumptions C60_legendre_projection.
(** Chebyshev, what holds: degree below N, inside the interval (missing: degree N, for which it is false). *)
Theorem C60_chebyshev_projection_partial : forall N f a b, (1 <= N)%nat -> a < b -> is_poly (N - 1) f ->
  forall x, a <= x <= b -> cheb_proj_eval N (cheb_project N f a b) a b x = f x.
Proof. exact Cheb_Proofs.project_reproduces. Qed.
Print Assumptions C60_chebyshev_projection_partial.
(** the identity with order 1 is doubled: the normalisation of the last coefficient is not halved *)
Theorem C60_chebyshev_projection_refuted : exists N f a b x,
  (1 <= N)%nat /\ a < b /\ is_poly N f /\ a <= x <= b /\ cheb_proj_eval N (cheb_project N f a b) a b x <> f x.
Proof.
  exists 1%nat, (fun y => y), (-1), 1, 1. split; [lia|]. split; [lra|]. split.
  - exists (fun k => if (k =? 1)%nat then 1 else 0). intro x. rewrite !rsum_S, rsum_0. simpl. ring.
  - split; [lra|]. rewrite project_id_order_one by lra. lra.
Qed.
Print Assumptions C60_chebyshev_projection_refuted.
Example C60_example : cheb_proj_eval 3 (cheb_project 3 (fun x => x ^ 2) 0 5) 0 5 3 = 9.
Proof.
  rewrite (C60_chebyshev_projection_partial 3 (fun x => x ^ 2) 0 5); [ring|lia|lra| |lra].
  exists (fun k => if (k =? 2)%nat then 1 else 0). intro x. change (S (3 - 1)) with 3%nat. rewrite !rsum_S, rsum_0. simpl. ring.
Qed.
