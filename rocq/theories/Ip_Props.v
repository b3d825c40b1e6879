(** C42: the Ipopt adapter. *)
Require Import Arith Bool List Reals Lra Lia.
From Verif Require Import RSum Scal Sparse Ad_Spec Nlp_Model Nlp_Spec Nlp_Proofs Nlp_Props Ip_Model Ip_Spec Ip_Proofs.
Import ListNotations.
Local Open Scope R_scope.

(** ** dense problems *)
(** buffers of the announced size: Ipopt reconstructs exactly the matrix, whatever the buffers held *)
Theorem C42_dense_jacobian_partial : forall r c (A : nat -> nat -> R) irow jcol vals,
  length irow = (r * c)%nat -> length jcol = (r * c)%nat -> length vals = (r * c)%nat ->
  exists ir jc vs, get_sparsity_dense r c false irow jcol = Some (ir, jc) /\ get_data_dense r c A false vals = Some vs /\
    length ir = (r * c)%nat /\ length jc = (r * c)%nat /\ length vs = (r * c)%nat /\
    in_range ir jc r c /\ forall i j, (i < r)%nat -> (j < c)%nat -> tsum ir jc vs i j = A i j.
Proof.
  intros r c A irow jcol vals H1 H2 H3. set (es := col_major r c).
  pose proof (length_col_major r c) as L. fold es in L.
  exists (map fst es), (map snd es), (map (fun e => A (fst e) (snd e)) es).
  split; [apply indices_ok; lia|]. split; [apply fill_all; fold es; lia|].
  rewrite !map_length. repeat (split; [exact L|]). split.
  - apply range_ok. intros i j H. apply in_col_major, H.
  - intros i j Hi Hj. rewrite tsum_one; [reflexivity|apply nodup_col_major|apply in_col_major; auto].
Qed.
Theorem C42_dense_hessian_partial : forall n (H : nat -> nat -> R) irow jcol vals,
  (forall i j, H i j = H j i) ->
  let nnz := (n * (n + 1) / 2)%nat in
  length irow = nnz -> length jcol = nnz -> length vals = nnz ->
  exists ir jc vs, get_sparsity_dense n n true irow jcol = Some (ir, jc) /\ get_data_dense n n H true vals = Some vs /\
    length ir = nnz /\ length jc = nnz /\ length vs = nnz /\
    in_range ir jc n n /\ forall i j, (i < n)%nat -> (j < n)%nat -> tsym ir jc vs i j = H i j.
Proof.
  intros n H irow jcol vals Hsym nnz H1 H2 H3. set (es := lower (col_major n n)).
  pose proof (length_lower n) as L. fold nnz es in L.
  exists (map fst es), (map snd es), (map (fun e => H (fst e) (snd e)) es).
  split; [apply indices_ok; fold es; lia|]. split; [apply fill_all; fold es; lia|].
  rewrite !map_length. repeat (split; [exact L|]). split.
  - apply range_ok. intros i j Q. apply in_lower in Q. apply in_col_major, Q.
  - intros i j Hi Hj. rewrite tsym_tsum by (intros _; apply lower_Forall2).
    rewrite tsum_one; cbn [fst snd].
    + destruct (Nat.le_gt_cases i j); [rewrite Nat.max_r, Nat.min_l by lia; apply Hsym|rewrite Nat.max_l, Nat.min_r by lia; reflexivity].
    + apply NoDup_filter, nodup_col_major.
    + apply in_lower. split; [apply in_col_major; lia|lia].
Qed.
(** a buffer that is too short is overrun *)
Theorem C42_dense_size_partial : forall r c A vals, (length vals < r * c)%nat -> get_data_dense r c A false vals = None.
Proof.
  intros r c A vals H. apply fill_short; [|rewrite length_col_major; lia].
  intro E. pose proof (length_col_major r c) as L. rewrite E in L. cbn in L. lia.
Qed.

(** end to end: user functions, automatic differentiation, adapter, Ipopt *)
Definition dims_of (P : problem) : dims := Dims (NX P) (NE P) (NI P).
Definition nlp_lin (P : problem) (p : nat -> R) (s : state) (g : nat -> R) (J : nat -> nat -> R) (x : nat -> R) :=
  snd (constraints_linearised P p s x g J).
Definition nlp_hess (P : problem) (p : nat -> R) (s : state) (g : nat -> R) (J : nat -> nat -> R) (x lam : nat -> R) (c : R) :=
  o_hessian (lagrangian_gradient_hessian P p s x lam g J c).
Definition pt (x : list R) : nat -> R := fun i => nth i x 0.
Theorem C42_nlp_jacobian_partial : forall P junk calls p g J x irow jcol vals,
  length x = NX P -> smooth_at P p (pt x) ->
  length irow = nnz_jacobian P -> length jcol = nnz_jacobian P -> length vals = nnz_jacobian P ->
  exists ir jc vs, get_sparsity_dense (NE P + NI P) (NX P) false irow jcol = Some (ir, jc) /\
    eval_jac_g_dense (dims_of P) (nlp_lin P p (life P junk calls) g J) x vals = Some vs /\
    forall i k, (i < NE P + NI P)%nat -> (k < NX P)%nat -> partial (con P p i) (pt x) k (tsum ir jc vs i k).
Proof.
  intros P junk calls p g J x irow jcol vals Hx S H1 H2 H3. unfold nnz_jacobian in *.
  destruct (C42_dense_jacobian_partial (NE P + NI P) (NX P) (nlp_lin P p (life P junk calls) g J (pt x)) irow jcol vals H1 H2 H3)
    as [ir [jc [vs [A [B [_ [_ [_ [_ C]]]]]]]]].
  exists ir, jc, vs. split; [exact A|]. split.
  - unfold eval_jac_g_dense, map_read. cbn [nx dims_of ncon ne ni]. rewrite Hx.
    replace (NX P <? NX P)%nat with false by (symmetry; apply Nat.ltb_irrefl). exact B.
  - intros i k Hi Hk. rewrite C by assumption. unfold nlp_lin.
    pose proof (C67_jacobian P junk calls p (pt x) g J) as Q.
    destruct (constraints_linearised P p (life P junk calls) (pt x) g J) as [[s' g'] J']. cbn [snd].
    destruct Q as [_ [Q _]]. apply Q; assumption.
Qed.
(** the Hessian of obj_factor * cost + lambda * constraints, provided the NX entries behind lambda can be read;
    their content does not matter *)
Theorem C42_nlp_hessian_partial : forall P junk calls p g J x lambda obj irow jcol vals,
  length x = NX P -> smooth_at P p (pt x) -> nestable_all P p ->
  (NE P + NI P + NX P <= length lambda)%nat ->
  length irow = nnz_lag_hessian P -> length jcol = nnz_lag_hessian P -> length vals = nnz_lag_hessian P ->
  exists ir jc vs, get_sparsity_dense (NX P) (NX P) true irow jcol = Some (ir, jc) /\
    eval_h_dense (dims_of P) (nlp_hess P p (life P junk calls) g J) x lambda obj vals = Some vs /\
    forall i j, (i < NX P)%nat -> (j < NX P)%nat ->
      partial2 (fun z => obj * f0 P p z + rsum (NE P + NI P) (fun n => nth n lambda 0 * con P p n z)) (pt x) i j (tsym ir jc vs i j).
Proof.
  intros P junk calls p g J x lambda obj irow jcol vals Hx S N Hl H1 H2 H3. unfold nnz_lag_hessian in *.
  destruct (C67_hessian P junk calls p (pt x) (pt lambda) g J obj S N) as [D Sym].
  destruct (C42_dense_hessian_partial (NX P) (nlp_hess P p (life P junk calls) g J (pt x) (pt lambda) obj) irow jcol vals Sym H1 H2 H3)
    as [ir [jc [vs [A [B [_ [_ [_ [_ C]]]]]]]]].
  exists ir, jc, vs. split; [exact A|]. split.
  - unfold eval_h_dense, map_read, ndual. cbn [nx dims_of ncon ne ni]. rewrite Hx.
    replace (NX P <? NX P)%nat with false by (symmetry; apply Nat.ltb_irrefl).
    replace (length lambda <? NE P + NI P + NX P)%nat with false by (symmetry; apply Nat.ltb_ge; exact Hl). exact B.
  - intros i j Hi Hj. rewrite C by assumption. unfold nlp_hess.
    eapply partial2_ext; [|rewrite <- (Rplus_0_r (o_hessian _ i j)); apply partial2_plus; [apply D|]].
    2:{ apply (partial2_ext (fun z => -1 * rsum (NX P) (fun i => pt lambda (NE P + NI P + i)%nat * z i))); [intro; reflexivity|].
        replace 0 with (-1 * rsum (NX P) (fun i => pt lambda (NE P + NI P + i)%nat * 0)) by (rewrite rsum_zero by (intros; ring); ring).
        apply partial2_scal. apply (partial2_rsum (NX P) (fun i z => pt lambda (NE P + NI P + i)%nat * z i)).
        intros q Hq. apply partial2_scal, partial2_var. }
    intro z. cbv beta. unfold Lag, pt. ring.
Qed.

(** ** what the solver believes the feasible set to be *)
Theorem C42_feasible_set : forall P p a xl xu gl gu g x,
  length xl = NX P -> length xu = NX P -> length gl = (NE P + NI P)%nat -> length gu = (NE P + NI P)%nat ->
  length g = (NE P + NI P)%nat -> length x = NX P ->
  exists xl' xu' gl' gu' g', get_bounds_info (dims_of P) a xl xu gl gu = Some (xl', xu', gl', gu') /\
    eval_g (dims_of P) (equalities P p) (inequalities P p) x g = Some g' /\
    ((within xl' x xu' /\ within gl' g' gu') <->
     ((forall i, (i < NX P)%nat -> m_lbx a i <= pt x i <= m_ubx a i) /\
      (forall i, (i < NE P)%nat -> ev (pt x) (ceq P p i) = 0) /\
      (forall i, (i < NI P)%nat -> m_lbg a i <= ev (pt x) (cin P p i) <= m_ubg a i))).
Proof.
  intros P p a xl xu gl gu g x H1 H2 H3 H4 H5 H6.
  destruct (put_two (NE P) (NI P) (fun _ => 0) (m_lbg a) gl H3) as [gl0 [gl' [A1 [A2 [A3 [A4 A5]]]]]].
  destruct (put_two (NE P) (NI P) (fun _ => 0) (m_ubg a) gu H4) as [gu0 [gu' [B1 [B2 [B3 [B4 B5]]]]]].
  assert (exists g', eval_g (dims_of P) (equalities P p) (inequalities P p) x g = Some g' /\ length g' = (NE P + NI P)%nat /\
    (forall i, (i < NE P)%nat -> nth i g' 0 = ev (pt x) (ceq P p i)) /\
    (forall i, (i < NI P)%nat -> nth (NE P + i) g' 0 = ev (pt x) (cin P p i))) as [g' [G1 [G2 [G3 G4]]]].
  { destruct (put_two (NE P) (NI P) (equalities P p (pt x)) (inequalities P p (pt x)) g H5) as [g0 [g' [C1 [C2 [C3 [C4 C5]]]]]].
    exists g'. split; [|auto]. unfold eval_g, map_read. cbn [dims_of nx ne ni]. rewrite H6.
    replace (NX P <? NX P)%nat with false by (symmetry; apply Nat.ltb_irrefl). fold (pt x).
    assert (map_write 0 (NE P) (equalities P p (pt x)) g = Some g0) as ->.
    { destruct (Nat.ltb_spec 0 (NE P)); [exact C1|]. assert (NE P = 0)%nat as E by lia. rewrite E. unfold map_write. cbn.
      exact C1. }
    destruct (Nat.ltb_spec 0 (NI P)); [exact C2|]. assert (NI P = 0)%nat as E by lia. rewrite E. unfold map_write. cbn. exact C2. }
  exists (map (m_lbx a) (seq 0 (NX P))), (map (m_ubx a) (seq 0 (NX P))), gl', gu', g'.
  split.
  { unfold get_bounds_info. cbn [dims_of nx ne ni]. rewrite !map_write_all by assumption. rewrite A1, B1, A2, B2. reflexivity. }
  split; [exact G1|]. unfold within. rewrite H6, G2. split.
  - intros [Q1 Q2]. split; [|split]; intros i Hi.
    + specialize (Q1 i Hi). rewrite !nth_map_seq in Q1 by exact Hi. exact Q1.
    + specialize (Q2 i ltac:(lia)). rewrite A4, B4, G3 in Q2 by exact Hi. lra.
    + specialize (Q2 (NE P + i)%nat ltac:(lia)). rewrite A5, B5, G4 in Q2 by exact Hi. exact Q2.
  - intros [Q1 [Q2 Q3]]. split; intros i Hi.
    + rewrite !nth_map_seq by exact Hi. apply Q1, Hi.
    + destruct (Nat.lt_ge_cases i (NE P)) as [L|L].
      * rewrite A4, B4, G3, Q2 by exact L. lra.
      * replace i with (NE P + (i - NE P))%nat by lia. rewrite A5, B5, G4 by lia. apply Q3. lia.
Qed.
(** the start handed to Ipopt: box multipliers are split into nonnegative parts with difference lam_box (Ipopt's
    Lagrangian is f + lambda g - z_L (x - x_l) + z_U (x - x_u)), at most one of them non-zero *)
Theorem C42_start : forall d a x lam bx bzl bzu bl,
  length bx = nx d -> length bzl = nx d -> length bzu = nx d -> length bl = ncon d ->
  exists x' zl zu l, get_starting_point d (set_guess a x lam) bx bzl bzu bl = Some (x', zl, zu, l) /\
    (forall i, (i < nx d)%nat -> nth i x' 0 = x i /\ 0 <= nth i zl 0 /\ 0 <= nth i zu 0 /\
        nth i zu 0 - nth i zl 0 = lam (ncon d + i)%nat /\ nth i zl 0 * nth i zu 0 = 0) /\
    (forall i, (i < ncon d)%nat -> nth i l 0 = lam i).
Proof.
  intros d a x lam bx bzl bzu bl H1 H2 H3 H4. unfold get_starting_point. cbn [m_x m_lam set_guess].
  rewrite !map_write_all by assumption. do 4 eexists. split; [reflexivity|]. split; intros i Hi; rewrite !nth_map_seq by exact Hi; [|reflexivity].
  split; [reflexivity|]. unfold Rmin, Rmax. destruct (Rle_dec (lam (ncon d + i)%nat) 0) as [L|L].
  - rewrite Rabs_left1 by exact L. repeat split; lra.
  - rewrite Rabs_R0. repeat split; lra.
Qed.

(** ** sparse problems *)
(** the Hessian is passed correctly *)
Theorem C42_sparse_hessian_partial : forall (M : spmat R) n irow jcol vals, sp_r M = n -> sp_c M = n ->
  (forall i j, (i < n)%nat -> (j < n)%nat -> coeff M i j = coeff M j i /\ pat M i j = pat M j i) ->
  let nnz := length (lower (stored M)) in
  length irow = nnz -> length jcol = nnz -> length vals = nnz ->
  exists ir jc vs, get_sparsity_sparse M true irow jcol = Some (ir, jc) /\ get_data_sparse M true vals = Some vs /\
    in_range ir jc n n /\ forall i j, (i < n)%nat -> (j < n)%nat -> tsym ir jc vs i j = coeff M i j.
Proof.
  intros M n irow jcol vals Hr Hc Hsym nnz H1 H2 H3. set (es := lower (stored M)) in *.
  exists (map fst es), (map snd es), (map (fun e => val M (fst e) (snd e)) es).
  split; [apply indices_ok; assumption|]. split; [unfold get_data_sparse; fold es; apply fill_all; assumption|]. split.
  - apply range_ok. intros i j Q. apply in_lower in Q. destruct Q as [Q _]. apply in_stored in Q. lia.
  - intros i j Hi Hj. rewrite tsym_tsum by (intros _; apply lower_Forall2).
    assert (forall a b, (a < n)%nat -> (b < n)%nat -> (b <= a)%nat ->
      tsum (map fst es) (map snd es) (map (fun e => val M (fst e) (snd e)) es) a b = coeff M a b) as Q.
    { intros a b Ha Hb Hab. unfold coeff. destruct (pat M a b) eqn:E.
      - rewrite tsum_one; [reflexivity|apply NoDup_filter, NoDup_filter, nodup_col_major|].
        apply in_lower. split; [apply in_stored; repeat split; try lia; exact E|exact Hab].
      - apply tsum_none. intro X. apply in_lower in X. destruct X as [X _]. apply in_stored in X. destruct X as [_ [_ X]]. congruence. }
    destruct (Nat.le_gt_cases i j).
    + rewrite Nat.max_r, Nat.min_l by lia. rewrite Q by lia. apply Hsym; assumption.
    + rewrite Nat.max_l, Nat.min_r by lia. apply Q; lia.
Qed.
(** ... but the Jacobian values never reach Ipopt: the buffer keeps what it held *)
Theorem C42_sparse_jacobian_refuted : exists (M : spmat R) x irow jcol vals ir jc vs,
  length irow = nonzeros M /\ length jcol = nonzeros M /\ length vals = nonzeros M /\
  get_sparsity_sparse M false irow jcol = Some (ir, jc) /\
  eval_jac_g_sparse (Dims 2 1 0) (fun _ => M) x vals = Some vs /\
  exists i j, (i < sp_r M)%nat /\ (j < sp_c M)%nat /\ tsum ir jc vs i j <> coeff M i j.
Proof.
  exists (SpMat 1 2 (fun _ _ => true) (fun _ j => INR j + 3) (fun _ => O)), [0; 0], [7; 7]%nat, [7; 7]%nat, [0; 0].
  exists [0; 0]%nat, [0; 1]%nat, [0; 0]. repeat split.
  exists 0%nat, 1%nat. cbn. repeat split; [lia|lia|lra].
Qed.
Theorem C42_sparse_jacobian_partial : forall d lin x vals, length x = nx d ->
  eval_jac_g_sparse d lin x vals = Some vals.
Proof. intros d lin x vals H. unfold eval_jac_g_sparse, map_read. rewrite H, Nat.ltb_irrefl. reflexivity. Qed.

(** ** the multipliers *)
(** Ipopt supplies one multiplier per constraint; eval_h and finalize_solution read one more per variable *)
Theorem C42_multipliers_partial : forall d a hess x lambda obj vals,
  length x = nx d -> length lambda = ncon d -> (0 < nx d)%nat ->
  eval_h_dense d hess x lambda obj vals = None /\ finalize_solution d a x lambda = None.
Proof.
  intros d a hess x lambda obj vals Hx Hl H. unfold eval_h_dense, finalize_solution, map_read, ndual.
  rewrite Hx, Hl, Nat.ltb_irrefl. unfold ncon.
  replace (ne d + ni d <? ne d + ni d + nx d)%nat with true by (symmetry; apply Nat.ltb_lt; lia). split; reflexivity.
Qed.
Theorem C42_multipliers_refuted : exists d a hess x lambda obj vals,
  length x = nx d /\ length lambda = ncon d /\ length vals = (nx d * (nx d + 1) / 2)%nat /\
  eval_h_dense d hess x lambda obj vals = None /\ finalize_solution d a x lambda = None.
Proof.
  exists (Dims 2 1 0), (Adapter (fun _ => 0) (fun _ => 0) (fun _ => 0) (fun _ => 0) (fun _ => 0) (fun _ => 0)),
    (fun _ _ _ _ _ => 0), [1; 2], [3], 1, [0; 0; 0].
  repeat split; apply C42_multipliers_partial; cbn; try reflexivity; lia.
Qed.
(** and the box multipliers that end up in the dual solution are whatever follows lambda in memory, not z_U - z_L *)
Theorem C42_box_multipliers_partial : forall d a x lambda behind a',
  length lambda = ncon d -> length behind = nx d ->
  finalize_solution d a x (lambda ++ behind) = Some a' ->
  (forall i, (i < ncon d)%nat -> m_lam a' i = nth i lambda 0) /\
  (forall i, (i < nx d)%nat -> m_lam a' (ncon d + i)%nat = nth i behind 0).
Proof.
  intros d a x lambda behind a' H1 H2 H. unfold finalize_solution, map_read, ndual in H.
  destruct (length x <? nx d)%nat; [discriminate|]. rewrite app_length, H1, H2 in H.
  unfold ncon in H. rewrite Nat.ltb_irrefl in H. injection H as <-. cbn [m_lam]. split; intros i Hi.
  - apply app_nth1. lia.
  - rewrite app_nth2 by lia. f_equal. lia.
Qed.

Example C42_box_multipliers_example : exists a', finalize_solution (Dims 1 1 0)
    (Adapter (fun _ => 0) (fun _ => 0) (fun _ => 0) (fun _ => 0) (fun _ => 0) (fun _ => 0)) [2] ([3] ++ [99]) = Some a' /\ m_lam a' 1 = 99.
Proof. eexists. split; reflexivity. Qed.

(** ** a concrete run *)
Example C42_demo_jacobian : exists ir jc vs,
  get_sparsity_dense 2 2 false [9; 9; 9; 9]%nat [9; 9; 9; 9]%nat = Some (ir, jc) /\
  eval_jac_g_dense (dims_of demo) (nlp_lin demo (fun _ => 5) (seed (fun _ => 0)) (fun _ => 0) (fun _ _ => 0)) [0; 2] [9; 9; 9; 9] = Some vs /\
  ir = [0; 1; 0; 1]%nat /\ jc = [0; 0; 1; 1]%nat /\ map (fun k => nth k vs 0) [0; 1; 2; 3]%nat = [0; 5; 4; 0].
Proof.
  do 3 eexists. split; [reflexivity|]. split; [reflexivity|]. split; [reflexivity|]. split; [reflexivity|].
  cbn. rewrite exp_0. repeat (f_equal; try lra).
Qed.
Example C42_demo_hypotheses : length [0; 2] = NX demo /\ smooth_at demo (fun _ => 5) (pt [0; 2]) /\ nestable_all demo (fun _ => 5) /\
  (NE demo + NI demo + NX demo <= length [3; 7; 11; 13])%nat /\ nnz_lag_hessian demo = 3%nat.
Proof. repeat split; cbn; intros; repeat split; lia. Qed.
Example C42_demo_hessian : exists vs,
  eval_h_dense (dims_of demo) (nlp_hess demo (fun _ => 5) (seed (fun _ => 0)) (fun _ => 0) (fun _ _ => 0))
    [0; 2] [3; 7; 11; 13] (1 / 2) [9; 9; 9] = Some vs /\ map (fun k => nth k vs 0) [0; 1; 2]%nat = [41; 1 / 2; 6].
Proof.
  eexists. split; [reflexivity|]. unfold nlp_hess, lagrangian_gradient_hessian.
  destruct (Req_EM_T (1 / 2) 1) as [E|E]; [lra|clear E]. cbn. rewrite exp_0. repeat (f_equal; try lra).
Qed.
Example C42_demo_sparse : let M := SpMat 2 2 (fun i j => (i =? j)%nat) (fun i _ => INR i + 3) (fun _ => O) in
  length (lower (stored M)) = 2%nat /\ get_data_sparse M true [0; 0] = Some [INR 0 + 3; INR 1 + 3] /\
  (forall i j, (i < 2)%nat -> (j < 2)%nat -> coeff M i j = coeff M j i /\ pat M i j = pat M j i).
Proof.
  split; [reflexivity|]. split; [reflexivity|]. intros i j _ _. unfold coeff. cbn. rewrite (Nat.eqb_sym j i).
  destruct (Nat.eqb_spec i j); subst; split; reflexivity.
Qed.

Print Assumptions C42_dense_jacobian_partial.
Print Assumptions C42_dense_hessian_partial.
Print Assumptions C42_dense_size_partial.
Print Assumptions C42_nlp_jacobian_partial.
Print Assumptions C42_nlp_hessian_partial.
Print Assumptions C42_feasible_set.
Print Assumptions C42_start.
Print Assumptions C42_sparse_hessian_partial.
Print Assumptions C42_sparse_jacobian_refuted.
Print Assumptions C42_sparse_jacobian_partial.
Print Assumptions C42_multipliers_partial.
Print Assumptions C42_multipliers_refuted.
Print Assumptions C42_box_multipliers_partial.
