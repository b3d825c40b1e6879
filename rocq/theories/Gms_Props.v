(** Property theorems for GenericOCP with MSChebyshev (C103). *)
Require Import Arith List Bool Lia Reals Lra String FunctionalExtensionality.
From Verif Require Import Scal RSum PolyR Poly_Spec Blk Cheb_Proofs Ocp_Proofs Cas_Model Cas_Spec Cas_Proofs Cas_Props Pso_Model Pso_Spec Pso_Proofs
  Nmpc_Model Nmpc_Proofs Nmpc_Props Gen_Model Gen_Spec Gen_Proofs Gen_Props Gms_Model Gms_Spec Gms_Proofs.
Import ListNotations.
Local Open Scope R_scope.

Lemma m_scales : forall dep s, m_setup_ok dep s = true -> scales_ok s = true.
Proof. intros dep s H. apply (m_setup_parts dep s H). Qed.
Lemma dl_data : forall s (d : list R), List.length d = cND (g_cas s) -> dl s (lval d) = d.
Proof.
  intros s d L. unfold dl. apply nth_ext with 0 0; [rewrite map_length, seq_length; auto|]. intros i Hi. rewrite map_length, seq_length in Hi. rewrite map_nth_seq by lia. reflexivity.
Qed.

(** after any sequence of setter and solve calls, in physical units: a feasible point of the NLP is a solution of the optimal
    control problem with one constant control per segment, with the boxes set last, the data set last and the bounds on the
    initial state given to solve; and every such solution extends (by the slacks, if they are used) to a feasible point *)
Theorem C103_problem : forall ipopt dep s t b lb ub X0 LX LG x, m_proper dep s -> mrun ipopt dep s t b ->
  let c := g_cas s in
  let t' := fst (m_solve dep s ipopt t lb ub X0 LX LG) in
  (gfeasible (gms_nlp dep s) (s_lbx t') (s_ubx t') (lval (s_p t')) x -> m_solution dep s (s_p t) lb ub b (m_physical s x)) /\
  (m_solution dep s (s_p t) lb ub b (m_physical s x) ->
   exists y, (forall i, (i < cS c * (cP c + 1) * cX c + cS c * cU c + cNP c)%nat -> y i = x i) /\
     gfeasible (gms_nlp dep s) (s_lbx t') (s_ubx t') (lval (s_p t')) y).
Proof.
  intros ipopt dep s t b lb ub X0 LX LG x (Hd & Ht & Hpos & Hdep & Hex & Hn) Hr c t'. pose proof (m_setup_inv dep s Hn) as Hs. pose proof (m_scales dep s Hs) as Hsc.
  pose proof (mrun_inv dep s Hd Hs ipopt t b Hr) as Hi. destruct (m_solve_st dep s ipopt t lb ub X0 LX LG) as (E1 & E2 & E3 & _). fold t' in E1, E2, E3.
  rewrite E1, E2, E3. change (s_p (m_prepare s t lb ub X0 LX LG)) with (s_p t).
  assert (Ed : s_p t = dl s (lval (s_p t))) by (symmetry; apply dl_data; apply Hi).
  split.
  - intro H. rewrite Ed. apply (m_sound dep s Hd Hdep Ht Hpos Hsc Hex Hs t b lb ub X0 LX LG x _ Hi H).
  - intro H. rewrite Ed in H. destruct (m_complete dep s Hd Hdep Ht Hpos Hsc Hex Hs t b lb ub X0 LX LG x _ Hi H) as (y & Ey & F).
    exists y. split; [|exact F]. intros i Hi'. apply Ey. exact Hi'.
Qed.
Print Assumptions C103_problem.

(** if the NLP solver answers with a feasible point, the getters return a solution of the control problem (the parameters:
    when there are as many data) *)
Theorem C103_result : forall ipopt dep s t b lb ub X0 LX LG t', m_proper dep s -> mrun ipopt dep s t b ->
  m_solve dep s ipopt t lb ub X0 LX LG = (t', true) ->
  (forall x lx lg, s_res t' = Some (x, lx, lg) -> gfeasible (gms_nlp dep s) (s_lbx t') (s_ubx t') (lval (s_p t')) x) ->
  exists W V p, m_get_trajectory s t' = Some W /\ m_get_control s t' = Some V /\
    (cNP (g_cas s) = cND (g_cas s) -> m_get_parameters dep s t' = Some (map p (seq 0 (cNP (g_cas s))))) /\
    m_solution dep s (s_p t) lb ub b (mkMT (fun sg j => W (sg * (cP (g_cas s) + 1) + j)%nat) V p).
Proof.
  intros ipopt dep s t b lb ub X0 LX LG t' Hp Hr E Hip.
  pose proof (C103_problem ipopt dep s t b lb ub X0 LX LG) as H. cbv zeta in H. rewrite E in H. cbn [fst] in *.
  unfold m_solve in E. destruct (ipopt (gms_nlp dep s) _ _ _ _ _ _) as [[[x lx] lg]|] eqn:Ei; [|discriminate]. inversion E as [Et]. clear E.
  destruct (H x Hp Hr) as [F _]. rewrite <- Et in Hip, F. specialize (F (Hip x lx lg eq_refl)). clear Ei.
  unfold m_get_trajectory, m_get_control, m_get_parameters. cbn [s_res]. eexists. eexists. exists (mp (m_physical s x)). do 2 (split; [reflexivity|]). split.
  - intro Eq. rewrite <- Eq, Nat.eqb_refl. f_equal. apply map_ext. intro i. unfold g_SP. rewrite inv_factor. reflexivity.
  - replace (mkMT _ _ _) with (m_physical s x); [exact F|]. unfold m_physical. f_equal.
    + unfold g_SX. rewrite inv_factor. reflexivity.
    + extensionality k. extensionality i. unfold g_SU. rewrite inv_factor. f_equal. f_equal. unfold m_U_START, ms_N. lia.
Qed.
Print Assumptions C103_result.

(** the cost without slacks: Mayer term at the final state; the exact integral of the Lagrange term when it is a polynomial of
    degree at most P in time on every segment, with the constant control of the segment; the norm terms, unless the other terms are
    identically zero *)
Theorem C103_cost : forall dep s x d (r F : nat -> R -> R), m_proper dep s -> List.length d = cND (g_cas s) -> g_slacks s = false ->
  let w := m_physical s x in
  (forall sg, (sg < cS (g_cas s))%nat -> is_poly (cP (g_cas s)) (r sg) /\ derivative_of (F sg) (r sg) /\
     forall k, (k <= cP (g_cas s))%nat -> m_at s w d (g_lag s) sg k = r sg (gtime s sg k)) ->
  exists n1 n2,
    n_f (gms_nlp dep s) x (lval d) =
      g_may s (map (mx w 0%nat 0%nat) (seq 0 (cX (g_cas s)))) (map (mp w) (seq 0 (cNP (g_cas s)))) d +
      rsum (cS (g_cas s)) (fun sg => F sg (gtime s sg 0) - F sg (gtime s sg (cP (g_cas s)))) + n1 + n2 /\
    (if g_zero s then n1 = 0 /\ n2 = 0 else m_norms_of dep s d w 1 (g_nd s) n1 /\ m_norms_of dep s d w 2 (g_ndd s) n2).
Proof.
  intros dep s x d r F (Hd & Ht & Hpos & Hdep & Hex & Hn) Hld Hu w H. pose proof (m_setup_inv dep s Hn) as Hs. pose proof (m_scales dep s Hs) as Hsc.
  pose proof (dl_data s d Hld) as Ed.
  assert (Eb : m_base_cost s x (lval d) = Some (g_may s (map (mx w 0%nat 0%nat) (seq 0 (cX (g_cas s)))) (map (mp w) (seq 0 (cNP (g_cas s)))) d +
      rsum (cS (g_cas s)) (fun sg => F sg (gtime s sg 0) - F sg (gtime s sg (cP (g_cas s)))))).
  { unfold m_base_cost. rewrite (C79_parametric_cost (g_cas s) (Some (mayer_func s)) (gfun s 1 (fun x u p d _ => g_lag s x u p d)) (g_t0 s) (g_tf s) x (mU s x) (mP s x) (lval d) r F Hd eq_refl eq_refl).
    - f_equal. f_equal. cbn [term mayer_func f_val]. change (block (cX (g_cas s)) x 0) with (slice x ((0 * (cP (g_cas s) + 1) + 0) * cX (g_cas s)) (cX (g_cas s))). change (block (cNP (g_cas s)) (mP s x) 0) with (slice (mP s x) 0 (cNP (g_cas s))).
      rewrite m_px_eq, m_pp_eq. change (block (cND (g_cas s)) (lval d) 0) with (dl s (lval d)). rewrite Ed. reflexivity.
    - intros sg Hsg. destruct (H sg Hsg) as (A & B & C). split; [exact A|]. split; [exact B|]. intros k Hk. etransitivity; [|exact (C k Hk)]. cbn [gfun f_val].
      change (block (cX (g_cas s)) x (sg * (cP (g_cas s) + 1) + k)) with (slice x ((sg * (cP (g_cas s) + 1) + k) * cX (g_cas s)) (cX (g_cas s))).
      change (block (cU (g_cas s)) (mU s x) sg) with (slice (mU s x) (sg * cU (g_cas s)) (cU (g_cas s))).
      change (block (cNP (g_cas s)) (mP s x) 0) with (slice (mP s x) 0 (cNP (g_cas s))). rewrite m_px_eq, m_pu_eq, m_pp_eq.
      change (block (cND (g_cas s)) (lval d) 0) with (dl s (lval d)). rewrite Ed. reflexivity. }
  destruct (m_setup_parts dep s Hs) as (_ & _ & Hc & _).
  destruct (m_cost_some dep s Hd Hdep Ht Hpos Hsc x (lval d) _ Hc Eb) as (n1 & n2 & Ec & Hz). rewrite Ed in Hz.
  exists n1, n2. split; [|exact Hz]. cbn [n_f gms_nlp]. rewrite Ec. cbn [oget]. unfold m_use. rewrite Hu. cbn [andb]. ring.
Qed.
Print Assumptions C103_cost.

(** ** Examples: two segments, one state, one control, x' = u, order 1, on [0, 2] *)
Definition msys (np nd nic : nat) (ic : ufun (vec R)) (df : list dexpr) (slacks : bool) : gocp :=
  mkOcp (mkCas 1 2 1 1 np nd) false 0 2 by_u (fun x _ _ _ => nth 0 x 0) (fun x _ _ => nth 0 x 0) nic ic 0 ic [] [] df [] false false None None None slacks false None None.
(** the state appears: a test that suffices here *)
Definition dep_x (F : ufun (vec R)) : bool := if Req_EM_T (F [1] [0] [] [] 0%nat) 0 then false else true.
Lemma dep_u : dep_x by_u = false.
Proof. unfold dep_x, by_u. cbn. destruct (Req_EM_T 0 0); [reflexivity|congruence]. Qed.
Lemma dep_ic : dep_x ic5 = true.
Proof. unfold dep_x, ic5. cbn. destruct (Req_EM_T (1 - 5) 0); [lra|reflexivity]. Qed.
Lemma msys_proper : forall np nd nic df slacks, num_args (mkCas 1 2 1 1 np nd) = 4%nat -> (forall e, In e df -> e_n e = 1%nat) ->
  m_proper dep_x (msys np nd nic ic5 df slacks).
Proof.
  intros np nd nic df slacks H4 He. set (s := msys np nd nic ic5 df slacks). assert (D : dims_ok (g_cas s)) by (repeat split; cbn; lia).
  assert (Hpos : forall l, g_sx s = Some l \/ g_su s = Some l \/ g_sp s = Some l -> forall i, (i < List.length l)%nat -> 0 < nth i l 0) by (intros l [E|[E|E]]; discriminate).
  assert (Hdep : forall F, F = g_ic s \/ F = g_fc s -> dep_x F = false -> forall x x' u p d, F x u p d = F x' u p d).
  { intros F HF E. exfalso. assert (F = ic5) as -> by (destruct HF; auto). rewrite dep_ic in E. discriminate. }
  assert (Hex : forall e, In e (g_df s) \/ In e (g_ddf s) -> e_n e <> 0%nat /\ (dep_x (e_f e) = false -> e_n e = cU (g_cas s))).
  { intros e [E|[]]. rewrite (He e E). split; [discriminate|reflexivity]. }
  assert (Ht : g_t0 s < g_tf s) by (cbn; lra).
  split; [exact D|]. split; [exact Ht|]. split; [exact Hpos|]. split; [exact Hdep|]. split; [exact Hex|].
  unfold gms_new. rewrite (m_accept dep_x s D Hdep Ht Hpos eq_refl Hex H4); [discriminate|right; reflexivity|intros e []|intros e []|intros e []|reflexivity].
Qed.
Lemma msys_times : forall np nd nic df slacks, let s := msys np nd nic ic5 df slacks in gtime s 0 0 = 2 /\ gtime s 0 1 = 1 /\ gtime s 1 0 = 1 /\ gtime s 1 1 = 0.
Proof.
  intros. destruct (seg_ends (mkCas 1 2 1 1 np nd) 0 2 0) as [A B]; [cbn; lia|]. destruct (seg_ends (mkCas 1 2 1 1 np nd) 0 2 1) as [C D]; [cbn; lia|].
  cbn [cP] in B, D. unfold s, gtime. cbn [g_cas g_t0 g_tf msys]. rewrite A, B, C, D. unfold seg_len. cbn. repeat split; field.
Qed.
(** from 0 with the control b and then a *)
Definition mpt (a b p : R) (sl : vec R) : vec R :=
  fun i => match i with 0%nat => b + a | 1%nat => b | 2%nat => b | 3%nat => 0 | 4%nat => a | 5%nat => b | 6%nat => p | _ => sl (i - 7)%nat end.
Lemma msys_dyn : forall np nd nic df slacks d a b p sl, m_dynamics_ok (msys np nd nic ic5 df slacks) d (m_physical (msys np nd nic ic5 df slacks) (mpt a b p sl)).
Proof.
  intros np nd nic df slacks d a b p sl. destruct (msys_times np nd nic df slacks) as (T0 & T1 & T2 & T3). cbv zeta in T0, T1, T2, T3.
  set (s := msys np nd nic ic5 df slacks) in *.
  assert (X : forall sg j, mx (m_physical s (mpt a b p sl)) sg j 0%nat = mpt a b p sl ((sg * 2 + j) * 1 + 0)%nat) by (intros; cbn; field).
  split.
  - intros sg i Hsg Hi. cbn in Hsg, Hi. assert (i = 0)%nat as -> by lia. destruct sg as [|[|]]; [| |lia].
    + exists (fun t => a * t + (b - a)), (fun _ => a). split; [exact (lin_poly a (b - a))|]. split; [exact (lin_deriv a (b - a))|]. split.
      * intros j Hj. cbn in Hj. rewrite X. destruct j as [|[|]]; [rewrite T0|rewrite T1|lia]; cbn; ring.
      * intros l Hl. cbn. field.
    + exists (fun t => b * t + 0), (fun _ => b). split; [exact (lin_poly b 0)|]. split; [exact (lin_deriv b 0)|]. split.
      * intros j Hj. cbn in Hj. rewrite X. destruct j as [|[|]]; [rewrite T2|rewrite T3|lia]; cbn; ring.
      * intros l Hl. cbn. field.
  - intros sg i Hsg Hi. cbn in Hsg, Hi. assert (i = 0)%nat as -> by lia. assert (sg = 0)%nat as -> by lia. cbn. field.
Qed.
Lemma msys_solution : forall np nd nic df slacks d a b p sl, let s := msys np nd nic ic5 df slacks in let w := m_physical s (mpt a b p sl) in
  (nic = 0%nat \/ (nic = 1%nat /\ b <= 5 /\ b + a <= 5 /\ forall e, In e df -> m_rate_ok dep_x s d w 1 (fun v => v <= 0) e)) ->
  m_solution dep_x s d (fun _ => Some 0) (fun _ => Some 0) nobox w.
Proof.
  intros np nd nic df slacks d a b p sl s w Hn. split; [|split; [|split; [|split; [|split; [|split]]]]]; try (intros; split; exact I).
  - intros i Hi. cbn in Hi. assert (i = 0)%nat as -> by lia. unfold w, s. cbn. split; cbn; lra.
  - apply msys_dyn.
  - intro Hz. destruct Hn as [->|(-> & Hb & Hab & He)]; [exfalso; apply Hz; reflexivity|]. split; [|split; [exact He|intros e []]].
    intros sg j i Hsg Hj Hi. cbn in Hsg, Hj, Hi. destruct sg as [|[|]]; [| |lia]; (destruct j as [|[|]]; [| |lia]); unfold m_at, w, s; cbn; unfold ic5; cbn; lra.
  - intro Hz. exfalso. apply Hz. reflexivity.
Qed.
Lemma msys_feasible : forall np nd nic df slacks a b p sl, num_args (mkCas 1 2 1 1 np nd) = 4%nat -> (forall e, In e df -> e_n e = 1%nat) ->
  let s := msys np nd nic ic5 df slacks in let w := m_physical s (mpt a b p sl) in
  (nic = 0%nat \/ (nic = 1%nat /\ b <= 5 /\ b + a <= 5 /\ forall d e, In e df -> m_rate_ok dep_x s d w 1 (fun v => v <= 0) e)) ->
  exists t y, gms_new dep_x s = Some t /\ (forall i, (i < 6 + np)%nat -> y i = mpt a b p sl i) /\
    let t' := fst (m_solve dep_x s stuck t (fun _ => Some 0) (fun _ => Some 0) None None None) in gfeasible (gms_nlp dep_x s) (s_lbx t') (s_ubx t') (lval (s_p t')) y.
Proof.
  intros np nd nic df slacks a b p sl H4 He s w Hn. pose proof (msys_proper np nd nic df slacks H4 He) as Hp. fold s in Hp.
  pose proof Hp as (_ & _ & _ & _ & _ & Hnew). destruct (gms_new dep_x s) as [t|] eqn:E; [|congruence]. exists t.
  destruct (C103_problem stuck dep_x s t nobox (fun _ => Some 0) (fun _ => Some 0) None None None (mpt a b p sl) Hp (mr_new stuck dep_x s t E)) as [_ F].
  destruct F as (y & Ey & F).
  - apply msys_solution. destruct Hn as [Hn|(H1 & H2 & H3 & H5)]; [left; auto|right; auto].
  - exists y. split; [reflexivity|]. split; [|exact F]. intros i Hi. apply Ey. cbn. lia.
Qed.
Lemma sq_deriv : forall a b, derivative_of (fun t => a / 2 * t ^ 2 + b * t) (fun t => a * t + b).
Proof.
  intros a b t. replace (a * t + b) with (a / 2 * (INR 2 * t ^ 1) + b * 1) by (cbn; field).
  apply (derivable_pt_lim_plus (fun t => a / 2 * t ^ 2) (fun t => b * t)).
  - apply (derivable_pt_lim_scal (fun t => t ^ 2)). exact (derivable_pt_lim_pow t 2).
  - apply (derivable_pt_lim_scal (fun t => t)). apply derivable_pt_lim_id.
Qed.

(** x' = u with u = 1 and then 3, with the constraint x <= 5 *)
Example C103_problem_ex : exists t y, let s := msys 0 1 1 ic5 [] true in gms_new dep_x s = Some t /\ y 0%nat = 4 /\ y 4%nat = 3 /\ y 5%nat = 1 /\
  let t' := fst (m_solve dep_x s stuck t (fun _ => Some 0) (fun _ => Some 0) None None None) in gfeasible (gms_nlp dep_x s) (s_lbx t') (s_ubx t') (lval (s_p t')) y.
Proof.
  destruct (msys_feasible 0 1 1 [] true 3 1 0 (fun _ => 0) eq_refl) as (t & y & E & Ey & F); [intros e []| |].
  - right. split; [reflexivity|]. split; [lra|]. split; [lra|intros d e []].
  - exists t, y. split; [exact E|]. rewrite !Ey by lia. cbn. split; [lra|]. split; [reflexivity|]. split; [reflexivity|exact F].
Qed.
Example C103_result_ex : exists ipopt t t' W V p, let s := msys 1 1 1 ic5 [] true in
  gms_new dep_x s = Some t /\ m_solve dep_x s ipopt t (fun _ => Some 0) (fun _ => Some 0) None None None = (t', true) /\
  m_get_trajectory s t' = Some W /\ m_get_control s t' = Some V /\ m_get_parameters dep_x s t' = Some [7] /\ W 0%nat 0%nat = 4 /\
  m_solution dep_x s [0] (fun _ => Some 0) (fun _ => Some 0) nobox (mkMT (fun sg j => W (sg * 2 + j)%nat) V p).
Proof.
  destruct (msys_feasible 1 1 1 [] true 3 1 7 (fun _ => 0) eq_refl) as (t & y & E & Ey & F); [intros e []| |].
  { right. split; [reflexivity|]. split; [lra|]. split; [lra|intros d e []]. }
  pose proof (msys_proper 1 1 1 [] true eq_refl (fun e K => match K with end)) as Hp. set (s := msys 1 1 1 ic5 [] true) in *.
  set (ip := fun (_ : gnlp) (_ _ _ : vec (option R)) (_ : list R) (_ _ : option (vec R)) => Some (y, z, z)).
  assert (F' : let t' := fst (m_solve dep_x s ip t (fun _ => Some 0) (fun _ => Some 0) None None None) in gfeasible (gms_nlp dep_x s) (s_lbx t') (s_ubx t') (lval (s_p t')) y) by exact F.
  destruct (C103_result ip dep_x s t nobox (fun _ => Some 0) (fun _ => Some 0) None None None _ Hp (mr_new ip dep_x s t E) eq_refl) as (W & V & p & E1 & E2 & E3 & K).
  - intros x lx lg Hx. cbn [s_res] in Hx. inversion Hx. subst x. exact F'.
  - exists ip, t. eexists. exists W, V, p. split; [exact E|]. split; [reflexivity|]. split; [exact E1|]. split; [exact E2|]. split; [|split].
    + unfold m_get_parameters. cbn [s_res s g_cas msys cNP cND Nat.eqb seq map]. unfold dinv. cbn. rewrite Ey by lia. cbn. f_equal. f_equal. field.
    + assert (Z : W 0%nat 0%nat = / 1 * y 0%nat) by (cbn in E1; inversion E1; unfold dinv; cbn; reflexivity). rewrite Z, Ey by lia. cbn. field.
    + assert (Ep : s_p t = [0]) by (unfold gms_new in E; destruct (m_setup_ok dep_x s); [|discriminate]; inversion E; reflexivity). rewrite Ep in K. exact K.
Qed.
(** final state 4 plus the integral of the state (1/2 and 5/2) *)
Example C103_cost_ex : n_f (gms_nlp dep_x (msys 0 1 0 ic5 [] false)) (mpt 3 1 0 (fun _ => 0)) (lval [0]) = 7.
Proof.
  set (s := msys 0 1 0 ic5 [] false). destruct (msys_times 0 1 0 [] false) as (T0 & T1 & T2 & T3). fold s in T0, T1, T2, T3.
  destruct (C103_cost dep_x s (mpt 3 1 0 (fun _ => 0)) [0] (fun sg t => match sg with 0%nat => 3 * t + -2 | _ => 1 * t + 0 end)
    (fun sg t => match sg with 0%nat => 3 / 2 * t ^ 2 + -2 * t | _ => 1 / 2 * t ^ 2 + 0 * t end)) as (n1 & n2 & E & H1 & H2).
  - apply msys_proper; [reflexivity|intros e []].
  - reflexivity.
  - reflexivity.
  - intros sg Hsg. cbn in Hsg. destruct sg as [|[|]]; [| |lia].
    + split; [exact (lin_poly 3 (-2))|]. split; [exact (sq_deriv 3 (-2))|]. intros k Hk. cbn in Hk. destruct k as [|[|]]; [rewrite T0|rewrite T1|lia]; cbn; field.
    + split; [exact (lin_poly 1 0)|]. split; [exact (sq_deriv 1 0)|]. intros k Hk. cbn in Hk. destruct k as [|[|]]; [rewrite T2|rewrite T3|lia]; cbn; field.
  - rewrite E. inversion H1. inversion H2. cbn [g_cas s msys cS cP]. rewrite !rsum_S, rsum_0, T0, T1, T2, T3. cbn. field.
Qed.

(** "a bound on diff(u) bounds the growth of the control from one segment to the next": false, it bounds the decrease.
    u <= 1 asked for the change, and the control goes from 1 (first in time) to 3 *)
Theorem C103_rate_refuted : exists dep s t x e, m_proper dep s /\ gms_new dep s = Some t /\
  (let t' := fst (m_solve dep s stuck t (fun _ => Some 0) (fun _ => Some 0) None None None) in gfeasible (gms_nlp dep s) (s_lbx t') (s_ubx t') (lval (s_p t')) x) /\
  In e (g_df s) /\ e_n e = 1%nat /\ (forall xs u p d i, e_f e xs u p d i = nth 0 u 0) /\ e_c e 0%nat = 1 /\
  gtime s 1 1 < gtime s 1 0 /\ gtime s 1 0 = gtime s 0 1 /\ gtime s 0 1 < gtime s 0 0 /\
  mu (m_physical s x) 1 0%nat = 1 /\ mu (m_physical s x) 0 0%nat = 3.
Proof.
  set (e := mkD 1 by_u (fun _ => 1)). set (s := msys 0 1 1 ic5 [e] false).
  assert (He : forall e', In e' [e] -> e_n e' = 1%nat) by (intros e' [<-|[]]; reflexivity).
  destruct (msys_feasible 0 1 1 [e] false 3 1 0 (fun _ => 0) eq_refl He) as (t & y & E & Ey & F).
  - right. split; [reflexivity|]. split; [lra|]. split; [lra|]. intros d e' [<-|[]]. unfold m_rate_ok. cbn [e_f e]. rewrite dep_u. intros sg i Hsg Hi. cbn in Hsg, Hi.
    assert (sg = 0)%nat as -> by lia. assert (i = 0)%nat as -> by lia. unfold m_physical. cbn. lra.
  - destruct (msys_times 0 1 1 [e] false) as (T0 & T1 & T2 & T3). fold s in T0, T1, T2, T3.
    exists dep_x, s, t, y, e. split; [apply msys_proper; [reflexivity|exact He]|]. split; [exact E|]. split; [exact F|]. split; [left; reflexivity|].
    split; [reflexivity|]. split; [reflexivity|]. split; [reflexivity|]. rewrite T0, T1, T2, T3. split; [lra|]. split; [reflexivity|]. split; [lra|].
    unfold m_physical. cbn. rewrite !Ey by lia. cbn. split; field.
Qed.
Print Assumptions C103_rate_refuted.

(** "a box set for the parameters holds": false when there are fewer data than parameters.  One parameter, no data: the call
    returns and changes nothing *)
Theorem C103_parameter_box_refuted : exists dep s t t' lb ub x, m_proper dep s /\ gms_new dep s = Some t /\ m_parameters_box dep s t lb ub = Some t' /\
  cNP (g_cas s) = 1%nat /\ lb 0%nat = Some 0 /\ ub 0%nat = Some 1 /\
  (let t2 := fst (m_solve dep s stuck t' (fun _ => Some 0) (fun _ => Some 0) None None None) in gfeasible (gms_nlp dep s) (s_lbx t2) (s_ubx t2) (lval (s_p t2)) x) /\
  mp (m_physical s x) 0%nat = 7.
Proof.
  set (s := msys 1 0 0 ic5 [] false). destruct (msys_feasible 1 0 0 [] false 3 1 7 (fun _ => 0) eq_refl) as (t & y & E & Ey & F); [intros e []|left; reflexivity|].
  exists dep_x, s, t, t, (fun _ => Some 0), (fun _ => Some 1), y. split; [apply msys_proper; [reflexivity|intros e []]|]. split; [exact E|]. split.
  - unfold m_parameters_box. replace (m_P_END s <=? n_nx (gms_nlp dep_x s))%nat with true.
    + cbn [s g_cas msys cNP cND Nat.eqb andb orb]. f_equal.
      assert (K : forall (f : nat -> option R) old, (fun i => if in_seg (m_P_START s) 0 i then f i else old i) = old).
      { intros f old. extensionality i. destruct (Nat.lt_ge_cases i (m_P_START s)); rewrite in_seg_false by lia; reflexivity. }
      rewrite !K. destruct t. reflexivity.
    + symmetry. apply Nat.leb_le. cbn [n_nx gms_nlp]. unfold m_P_END, m_VARS. cbn [s g_cas msys cNP cND]. lia.
  - split; [reflexivity|]. split; [reflexivity|]. split; [reflexivity|]. split; [exact F|]. unfold m_physical. cbn. rewrite Ey by lia. cbn. field.
Qed.
Print Assumptions C103_parameter_box_refuted.

(** "the getters return the parameters and the slacks": false.  One parameter (7), no data, four slacks: no parameter is
    returned, and the parameter is the first of five slacks *)
Theorem C103_getters_refuted : exists ipopt dep s t t' l, m_proper dep s /\ gms_new dep s = Some t /\
  m_solve dep s ipopt t (fun _ => Some 0) (fun _ => Some 0) None None None = (t', true) /\
  (exists x, s_res t' = Some (x, z, z) /\ gfeasible (gms_nlp dep s) (s_lbx t') (s_ubx t') (lval (s_p t')) x /\ mp (m_physical s x) 0%nat = 7) /\
  cNP (g_cas s) = 1%nat /\ n_nx (gms_nlp dep s) = (4 + 2 + 1 + 4)%nat /\
  m_get_parameters dep s t' = Some [] /\ m_get_slacks dep s t' = Some l /\ List.length l = 5%nat /\ nth 0 l 0 = 7.
Proof.
  set (s := msys 1 0 1 ic5 [] true). destruct (msys_feasible 1 0 1 [] true 3 1 7 (fun _ => 0) eq_refl) as (t & y & E & Ey & F); [intros e []| |].
  { right. split; [reflexivity|]. split; [lra|]. split; [lra|intros d e []]. }
  pose proof (msys_proper 1 0 1 [] true eq_refl (fun e K => match K with end)) as Hp. fold s in Hp, E, F.
  set (ip := fun (_ : gnlp) (_ _ _ : vec (option R)) (_ : list R) (_ _ : option (vec R)) => Some (y, z, z)).
  assert (Hn : m_npath dep_x s = 4%nat).
  { pose proof Hp as (Hd & Ht & Hpos & Hdep & Hex & Hnew). pose proof (m_setup_inv dep_x s Hnew) as Hs.
    rewrite (m_npath_count dep_x s Hd Hdep Ht Hpos (m_scales dep_x s Hs) Hex Hs). unfold m_fun_size. cbn [g_ic s msys]. rewrite dep_ic. reflexivity. }
  assert (Hv : n_nx (gms_nlp dep_x s) = 11%nat) by (cbn [n_nx gms_nlp]; unfold m_use; rewrite Hn; reflexivity).
  exists ip, dep_x, s, t. eexists. eexists. split; [exact Hp|]. split; [exact E|]. split; [reflexivity|]. split.
  { exists y. split; [reflexivity|]. split; [exact F|]. unfold m_physical. cbn. rewrite Ey by lia. cbn. field. }
  split; [reflexivity|]. split; [exact Hv|]. split.
  - unfold m_get_parameters. rewrite Hv. reflexivity.
  - split; [unfold m_get_slacks; rewrite Hv; reflexivity|]. split; [reflexivity|]. cbn. rewrite Ey by lia. reflexivity.
Qed.
Print Assumptions C103_getters_refuted.

(** "the path constraints hold": false after a box for the parameters has been set, when there are more data than parameters.
    One parameter, two data: the box [-5, 5] also replaces the bound 0 <= slack of the first constraint.  x <= 5 at all the
    nodes, and x = 8 at the final one *)
Theorem C103_box_slack_refuted : exists dep s t t' x, m_proper dep s /\ gms_new dep s = Some t /\
  m_parameters_box dep s t (fun _ => Some (-5)) (fun _ => Some 5) = Some t' /\
  (let t2 := fst (m_solve dep s stuck t' (fun _ => Some 0) (fun _ => Some 0) None None None) in gfeasible (gms_nlp dep s) (s_lbx t2) (s_ubx t2) (lval (s_p t2)) x) /\
  g_nic s = 1%nat /\ (forall xs u p d, g_ic s xs u p d 0%nat = nth 0 xs 0 - 5) /\ mx (m_physical s x) 0 0 0%nat = 8.
Proof.
  set (s := msys 1 2 1 ic5 [] true).
  pose proof (msys_proper 1 2 1 [] true eq_refl (fun e K => match K with end)) as Hp. fold s in Hp.
  pose proof Hp as (Hd & Ht & Hpos & Hdep & Hex & Hnew). pose proof (m_setup_inv dep_x s Hnew) as Hs. pose proof (m_scales dep_x s Hs) as Hsc.
  assert (Hn : m_npath dep_x s = 4%nat) by (rewrite (m_npath_count dep_x s Hd Hdep Ht Hpos Hsc Hex Hs); unfold m_fun_size; cbn [g_ic s msys]; rewrite dep_ic; reflexivity).
  assert (Hu : m_use dep_x s = true) by (unfold m_use; rewrite Hn; reflexivity).
  assert (Hv : n_nx (gms_nlp dep_x s) = 11%nat) by (cbn [n_nx gms_nlp]; rewrite Hu, Hn; reflexivity).
  set (x := mpt 7 1 0 (fun k => match k with 0%nat => -3 | 1%nat => 4 | 2%nat => 4 | _ => 5 end)).
  destruct (gms_new dep_x s) as [t|] eqn:E; [|congruence].
  exists dep_x, s, t. eexists. exists x. split; [exact Hp|]. split; [exact E|]. split; [unfold m_parameters_box; rewrite Hv; reflexivity|]. split; [|split; [reflexivity|split; [reflexivity|]]].
  - unfold gms_new in E. rewrite Hs, Hu in E. injection E as E. split.
    + rewrite Hv, <- E. intros i Hi. unfold inside. do 11 (destruct i as [|i]; [cbn; lra|]). lia.
    + apply (m_rows_iff dep_x s Hd Ht Hpos Hsc). split; [apply msys_dyn|]. rewrite Hn, Hu.
      assert (V : forall d g j, (g < 2)%nat -> (j <= 1)%nat -> cat (m_path_blocks dep_x s x d) (g * 2 + j)%nat = mx (m_physical s x) g j 0%nat - 5).
      { intros d g j Hg Hj. pose proof (m_cat_ic dep_x s Hd Hdep Ht Hpos Hsc Hex Hs x d g j 0%nat) as K. unfold row in K. cbn [g_ic s msys] in K. rewrite dep_ic in K.
        replace (g * 2 + j)%nat with ((g * (1 + 1) + j) * 1 + 0)%nat by lia. etransitivity; [apply K; [discriminate|exact Hg|exact Hj|cbn; lia]|reflexivity]. }
      assert (X : forall g j, mx (m_physical s x) g j 0%nat = x ((g * 2 + j) * 1 + 0)%nat) by (intros; cbn; field).
      intros i Hi. destruct i as [|[|[|[|]]]]; [pose proof (V (lval (s_p t)) 0%nat 0%nat) as K|pose proof (V (lval (s_p t)) 0%nat 1%nat) as K|
        pose proof (V (lval (s_p t)) 1%nat 0%nat) as K|pose proof (V (lval (s_p t)) 1%nat 1%nat) as K|lia]; rewrite X in K;
        (etransitivity; [|apply f_equal; symmetry; apply K; lia]); cbn; lra.
  - unfold m_physical. cbn. field.
Qed.
Print Assumptions C103_box_slack_refuted.
