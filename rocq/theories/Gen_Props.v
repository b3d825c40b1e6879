(** Property theorems for GenericOCP (C84, C85). *)
Require Import Arith List Bool Lia Reals Lra String FunctionalExtensionality.
From Verif Require Import Scal RSum PolyR Poly_Spec Blk Cheb_Proofs Ocp_Proofs Cas_Model Cas_Spec Cas_Proofs Cas_Props Pso_Model Pso_Spec Pso_Proofs
  Nmpc_Model Nmpc_Proofs Nmpc_Props Gen_Model Gen_Spec Gen_Proofs.
Import ListNotations.
Local Open Scope R_scope.

(** * C84: the problem that solve() solves *)

(** after any sequence of setter and solve calls, in physical units: a feasible point of the NLP is a solution of the
    optimal control problem with the boxes set last, the data set last and the bounds on the initial state given to
    solve; and every solution extends (by the slacks, if they are used) to a feasible point *)
Theorem C84_problem : forall ipopt s t b lb ub X0 LX LG x, proper s -> grun ipopt s t b ->
  let t' := fst (gsolve s ipopt t lb ub X0 LX LG) in
  (gfeasible (gen_nlp s) (s_lbx t') (s_ubx t') (lval (s_p t')) x -> solution s (s_p t) lb ub b (physical s x)) /\
  (solution s (s_p t) lb ub b (physical s x) ->
   exists y, (forall i, (i < (last s + 1) * (cX (g_cas s) + cU (g_cas s)) + cNP (g_cas s))%nat -> y i = x i) /\
     gfeasible (gen_nlp s) (s_lbx t') (s_ubx t') (lval (s_p t')) y).
Proof.
  intros ipopt s t b lb ub X0 LX LG x (Hd & Ht & Hpos & Hn) Hr t'. pose proof (setup_inv s Hn) as Hs.
  pose proof (grun_inv s Hs ipopt t b Hr) as Hi. destruct (gsolve_st s ipopt t lb ub X0 LX LG) as (E1 & E2 & E3 & _). fold t' in E1, E2, E3.
  rewrite E1, E2, E3. change (s_p (gprepare s t lb ub X0 LX LG)) with (s_p t).
  assert (Ed : s_p t = dl s (lval (s_p t))).
  { destruct Hi as (_ & _ & _ & _ & _ & _ & _ & L). unfold dl. apply nth_ext with 0 0; [rewrite map_length, seq_length; auto|]. intros i Hi. rewrite map_nth_seq by lia. reflexivity. }
  split.
  - intro H. rewrite Ed. apply (feasible_sound s Hd Ht Hs Hpos t b lb ub X0 LX LG x _ Hi H).
  - intro H. rewrite Ed in H. destruct (feasible_complete s Hd Ht Hs Hpos t b lb ub X0 LX LG x _ Hi H) as (y & Ey & F).
    exists y. split; [|exact F]. intros i Hi'. apply Ey. unfold P_END, P_START, U_START. rewrite N_last. lia.
Qed.
Print Assumptions C84_problem.

(** if the NLP solver answers with a feasible point, the getters return a solution of the control problem *)
Theorem C84_result : forall ipopt s t b lb ub X0 LX LG t', proper s -> grun ipopt s t b ->
  gsolve s ipopt t lb ub X0 LX LG = (t', true) ->
  (forall x lx lg, s_res t' = Some (x, lx, lg) -> gfeasible (gen_nlp s) (s_lbx t') (s_ubx t') (lval (s_p t')) x) ->
  exists W V p, get_trajectory s t' = Some W /\ get_control s t' = Some V /\ get_parameters s t' = Some p /\
    solution s (s_p t) lb ub b (mkT W V p).
Proof.
  intros ipopt s t b lb ub X0 LX LG t' Hp Hr E Hip.
  pose proof (C84_problem ipopt s t b lb ub X0 LX LG) as H. cbv zeta in H. rewrite E in H. cbn [fst] in *.
  unfold gsolve in E. destruct (ipopt (gen_nlp s) _ _ _ _ _ _) as [[[x lx] lg]|] eqn:Ei; [|discriminate]. inversion E as [Et]. clear E.
  destruct (H x Hp Hr) as [F _]. rewrite <- Et in Hip, F. specialize (F (Hip x lx lg eq_refl)). clear Ei.
  unfold get_trajectory, get_control, get_parameters. cbn [s_res]. do 3 eexists. do 3 (split; [reflexivity|]).
  replace (mkT _ _ _) with (physical s x); [exact F|]. unfold physical. f_equal.
  - unfold g_SX. rewrite inv_factor. reflexivity.
  - extensionality k. extensionality i. unfold g_SU. rewrite inv_factor. f_equal. f_equal. unfold U_START. rewrite N_last. lia.
  - extensionality i. unfold g_SP. rewrite inv_factor. reflexivity.
Qed.
Print Assumptions C84_result.

(** which problems the constructor accepts.  Sizes of the scaling factors; as many parameters as controls when the
    parameters are scaled; at least one parameter or datum when there are path or final constraints, or norms of
    derivatives in a cost that is not zero; with the misspelt key and scaling a penalty type; with slacks a known
    type, and EXACT only for a single row *)
Theorem C84_setup : forall s, dims_ok (g_cas s) -> g_t0 s < g_tf s ->
  (gen_new s <> None <->
   (g_scaling s = true ->
      (forall l, g_sx s = Some l -> List.length l = cX (g_cas s)) /\ (forall l, g_su s = Some l -> List.length l = cU (g_cas s)) /\
      (forall l, g_sp s = Some l -> List.length l = cNP (g_cas s) /\ cNP (g_cas s) = cU (g_cas s))) /\
   (cNP (g_cas s) = 0%nat -> cND (g_cas s) = 0%nat ->
      g_nic s = 0%nat /\ g_nfc s = 0%nat /\ (g_zero s = true \/ g_nd s = [] /\ g_ndd s = [])) /\
   (let own := g_scaling s = true /\ g_penaly s = true in
    (own -> g_penalty s <> None) /\
    (own -> g_slacks s = true -> path_count s <> 0%nat -> g_penalty s = Some QUADRATIC \/ g_penalty s = Some EXACT /\ path_count s = 1%nat))).
Proof.
  intros s Hd Ht. transitivity (setup_ok s = true); [unfold gen_new; destruct (setup_ok s); split; congruence|]. rewrite setup_iff by auto.
  assert (A : scales_ok s = true <-> (g_scaling s = true ->
      (forall l, g_sx s = Some l -> List.length l = cX (g_cas s)) /\ (forall l, g_su s = Some l -> List.length l = cU (g_cas s)) /\
      (forall l, g_sp s = Some l -> List.length l = cNP (g_cas s) /\ cNP (g_cas s) = cU (g_cas s)))).
  { unfold scales_ok, len_ok. destruct (g_scaling s); [|cbn; split; [discriminate|reflexivity]].
    rewrite !andb_true_iff. split.
    - intros [[[H1 H2] H3] H4] _. split; [|split]; intros l E; rewrite E in *; repeat match goal with H : (_ =? _)%nat = true |- _ => apply Nat.eqb_eq in H end; auto.
    - intro H. destruct (H eq_refl) as (H1 & H2 & H3). destruct (g_sx s) as [l1|], (g_su s) as [l2|], (g_sp s) as [l3|]; rewrite ?Nat.eqb_eq; repeat split; auto;
        try (apply (H1 _ eq_refl)); try (apply (H2 _ eq_refl)); try (apply (H3 _ eq_refl)). }
  assert (B : calls_ok s <-> (cNP (g_cas s) = 0%nat -> cND (g_cas s) = 0%nat ->
      g_nic s = 0%nat /\ g_nfc s = 0%nat /\ (g_zero s = true \/ g_nd s = [] /\ g_ndd s = []))).
  { unfold calls_ok, num_args. destruct (Nat.eqb_spec (cNP (g_cas s)) 0), (Nat.eqb_spec (cND (g_cas s)) 0); cbn [andb];
      (split; [intros [H|H] ? ?; auto; try discriminate; try contradiction|intro H; auto; try (right; auto; fail)]); auto. }
  rewrite A, B. apply and_iff_compat_l, and_iff_compat_l. cbv zeta. unfold penalty_type. destruct (g_scaling s), (g_penaly s); cbn [andb].
  - split.
    + intros (pt & -> & H). split; [discriminate|]. intros _ Hu Hc. destruct (H Hu Hc) as [->|[-> E]]; auto.
    + intros [H1 H2]. destruct (g_penalty s) as [pt|]; [|exfalso; apply H1; auto]. exists pt. split; auto. intros Hu Hc.
      destruct (H2 (conj eq_refl eq_refl) Hu Hc) as [E|[E E']]; inversion E; auto.
  - split; [intros _; split; intros [_ K]; discriminate|]. intros _. exists QUADRATIC. auto.
  - split; [intros _; split; intros [K _]; discriminate|]. intros _. exists QUADRATIC. auto.
  - split; [intros _; split; intros [K _]; discriminate|]. intros _. exists QUADRATIC. auto.
Qed.
Print Assumptions C84_setup.

(** the starting point: the guess X0 when it is given; otherwise the scaled midpoint of the bounds on the initial state
    at all the nodes, the rest as in the last call; multipliers: those given last *)
Theorem C84_guess : forall ipopt s t lb ub X0 LX LG, proper s ->
  let t' := fst (gsolve s ipopt t lb ub X0 LX LG) in
  (forall x, X0 = Some x -> forall i, s_x0 t' i = Some (x i)) /\
  (X0 = None ->
     (forall k i, (k <= last s)%nat -> (i < cX (g_cas s))%nat -> forall a b, lb i = Some a -> ub i = Some b ->
        s_x0 t' (k * cX (g_cas s) + i)%nat = Some (factor s (g_sx s) i * ((a + b) / 2))) /\
     (forall i, ((last s + 1) * cX (g_cas s) <= i)%nat -> s_x0 t' i = s_x0 t i)) /\
  s_lamx t' = (match LX with Some l => Some l | None => s_lamx t end) /\ s_lamg t' = (match LG with Some l => Some l | None => s_lamg t end).
Proof.
  intros ipopt s t lb ub X0 LX LG Hp t'. destruct (gsolve_st s ipopt t lb ub X0 LX LG) as (_ & _ & _ & E4 & E5 & E6). fold t' in E4, E5, E6.
  rewrite E4, E5, E6. cbn [s_x0 s_lamx s_lamg gprepare]. split; [|split; [|split; reflexivity]].
  - intros x -> i. reflexivity.
  - intros ->. assert (HU : U_START s = ((last s + 1) * cX (g_cas s))%nat) by (unfold U_START; rewrite N_last; lia). split.
    + intros k i Hk Hi a b Ha Hb. rewrite HU, in_seg_true by nia. rewrite (Nat.add_comm (k * _)), Nat.mod_add, Nat.mod_small by lia. rewrite Ha, Hb.
      unfold g_SX. rewrite diag_factor. f_equal. field.
    + intros i Hi. rewrite HU, in_seg_false by lia. reflexivity.
Qed.
Print Assumptions C84_guess.

(** set_parameters(name, value) for a name mapped to [a, b): the entries a .. b - 1 are set, all the others are kept; it
    throws exactly when the name is unknown, the range leaves the vector or the size does not fit *)
Theorem C84_named : forall t n v a b, s_map t n = Some (a, b) -> (a <= b)%nat ->
  (set_parameters_name t n v = None <-> (List.length (s_p t) < b)%nat \/ (List.length v <> b - a /\ List.length v <> 1)%nat) /\
  (forall t', set_parameters_name t n v = Some t' ->
     List.length (s_p t') = List.length (s_p t) /\
     (forall i, (i < b - a)%nat -> nth (a + i) (s_p t') 0 = nth (if (List.length v =? 1)%nat then 0 else i) v 0) /\
     (forall i, (i < a \/ b <= i)%nat -> nth i (s_p t') 0 = nth i (s_p t) 0) /\
     s_lbx t' = s_lbx t /\ s_ubx t' = s_ubx t /\ s_x0 t' = s_x0 t /\ s_map t' = s_map t).
Proof.
  intros t n v a b Hm Hab. unfold set_parameters_name. rewrite Hm. unfold assign. split.
  - destruct (Nat.leb_spec b (List.length (s_p t))); [|cbn; split; auto].
    destruct (Nat.eqb_spec (List.length v) (b - a)); [cbn; split; [discriminate|lia]|]. destruct (Nat.eqb_spec (List.length v) 1); cbn; split; try discriminate; auto. lia.
  - intros t' E. destruct ((b <=? List.length (s_p t))%nat && _) eqn:K; [|discriminate]. inversion E as [Et]. clear E Et. cbn [s_p set_p s_lbx s_ubx s_x0 s_map].
    apply andb_prop in K. destruct K as [K _]. apply Nat.leb_le in K. set (f := fun i => _). split; [rewrite map_length, seq_length; reflexivity|]. split; [|split; [|auto]].
    + intros i Hi. rewrite (map_nth_seq _ _ f) by lia. unfold f. rewrite in_seg_true by lia. replace (a + i - a)%nat with i by lia. reflexivity.
    + intros i Hi. destruct (Nat.lt_ge_cases i (List.length (s_p t))) as [L|L].
      * rewrite (map_nth_seq _ _ f) by lia. unfold f. rewrite in_seg_false by lia. reflexivity.
      * rewrite !nth_overflow; auto. rewrite map_length, seq_length. auto.
Qed.
Print Assumptions C84_named.

(** ** Examples: one state, one control, x' = u (or x' = p), two nodes on [0, 2] *)
Definition one_x : ufun (vec R) := fun x _ _ _ _ => nth 0 x 0.
Definition gsys (np : nat) (dyn : ufun (vec R)) (nic : nat) (ic : ufun (vec R)) (nfc : nat) (fc : ufun (vec R)) (df : list dexpr)
  (sc : bool) (sx sp : option (list R)) (slacks : bool) (pen : option penalty) : gocp :=
  mkOcp (mkCas 1 1 1 1 np 1) false 0 2 dyn (fun _ _ _ _ => 0) (fun x _ _ => nth 0 x 0) nic ic nfc fc [] [] df [] false sc sx None sp slacks false pen None.
Definition by_u : ufun (vec R) := fun _ u _ _ _ => nth 0 u 0.
Definition by_p : ufun (vec R) := fun _ _ p _ _ => nth 0 p 0.
Lemma gsys_proper : forall np dyn nic ic nfc fc df sc sx sp slacks pen, (forall l, sx = Some l -> exists a, l = [a] /\ 0 < a) ->
  (forall l, sp = Some l -> np = 1%nat /\ exists a, l = [a] /\ 0 < a) -> proper (gsys np dyn nic ic nfc fc df sc sx sp slacks pen).
Proof.
  intros np dyn nic ic nfc fc df sc sx sp slacks pen Hx Hp. assert (D : dims_ok (mkCas 1 1 1 1 np 1)) by (repeat split; cbn; lia).
  repeat split; try exact D; cbn; try lia; try lra.
  - intros l [E|[E|E]] i Hi; [|discriminate|].
    + destruct (Hx l E) as (a & -> & Ha). cbn in Hi. assert (i = 0)%nat as -> by lia. auto.
    + destruct (Hp l E) as (_ & a & -> & Ha). cbn in Hi. assert (i = 0)%nat as -> by lia. auto.
  - apply C84_setup; [exact D|cbn; lra|]. cbn. split; [|split].
    + intros _. split; [|split].
      * intros l E. destruct (Hx l E) as (a & -> & _). reflexivity.
      * discriminate.
      * intros l E. destruct (Hp l E) as (-> & a & -> & _). split; reflexivity.
    + discriminate.
    + split; intros [_ K]; discriminate.
Qed.
Lemma gsys_times : forall np dyn nic ic nfc fc df sc sx sp slacks pen, let s := gsys np dyn nic ic nfc fc df sc sx sp slacks pen in gtime s 0 0 = 2 /\ gtime s 0 1 = 0.
Proof.
  intros. destruct (seg_ends (mkCas 1 1 1 1 np 1) 0 2 0) as [Z0 Z1]; [cbn; lia|]. cbn [cP] in Z1. unfold s, gtime. cbn [g_cas g_t0 g_tf gsys]. rewrite Z0, Z1.
  unfold seg_len. cbn. split; field.
Qed.
Lemma gsys_dyn : forall np dyn nic ic nfc fc df sc sx sp slacks pen d w a b, let s := gsys np dyn nic ic nfc fc df sc sx sp slacks pen in
  tx w 0%nat 0%nat = a * 2 + b -> tx w 1%nat 0%nat = b ->
  (forall k, (k <= 1)%nat -> at_node s (mkT (tx w) (tu w) (fun i => factor s (g_sp s) i * tp w i)) d (g_dyn s) k 0%nat = a) -> dynamics_ok s d w.
Proof.
  intros np dyn nic ic nfc fc df sc sx sp slacks pen d w a b s H0 H1 Ha g i Hg Hi. cbn in Hg, Hi. assert (g = 0)%nat as -> by lia. assert (i = 0)%nat as -> by lia.
  destruct (gsys_times np dyn nic ic nfc fc df sc sx sp slacks pen) as [T0 T1]. fold s in T0, T1.
  exists (fun t => a * t + b), (fun _ => a). split; [exact (lin_poly a b)|]. split; [exact (lin_deriv a b)|]. split.
  - intros j Hj. cbn in Hj. destruct j as [|[|]]; [rewrite T0|rewrite T1|lia]; cbn [Nat.mul Nat.add g_cas s gsys cP]; rewrite ?H0, ?H1; ring.
  - intros l Hl _. cbn in Hl. cbn [g_cas s gsys cP Nat.mul Nat.add]. rewrite Ha by lia. reflexivity.
Qed.
Definition stuck : gnlp -> vec (option R) -> vec (option R) -> vec (option R) -> list R -> option (vec R) -> option (vec R) -> option (vec R * vec R * vec R) :=
  fun _ _ _ _ _ _ _ => None.
Definition none : vec (option R) := fun _ => None.
(** a new controller, solved from the state [a] *)
Lemma gsys_feasible : forall s a x, proper s -> g_soft s = false -> solution s (map (fun _ => 0) (seq 0 (cND (g_cas s)))) (fun _ => Some a) (fun _ => Some a) nobox (physical s x) ->
  exists t y, gen_new s = Some t /\ (forall i, (i < (last s + 1) * (cX (g_cas s) + cU (g_cas s)) + cNP (g_cas s))%nat -> y i = x i) /\
    let t' := fst (gsolve s stuck t (fun _ => Some a) (fun _ => Some a) None None None) in
    gfeasible (gen_nlp s) (s_lbx t') (s_ubx t') (lval (s_p t')) y.
Proof.
  intros s a x Hp Hso H. pose proof Hp as (_ & _ & _ & Hn). destruct (gen_new s) as [t|] eqn:E; [|congruence]. exists t.
  destruct (C84_problem stuck s t nobox (fun _ => Some a) (fun _ => Some a) None None None x Hp (gr_new stuck s t E)) as [_ F].
  destruct F as (y & Ey & F).
  - unfold gen_new in E. destruct (setup_ok s); [|discriminate]. inversion E. cbn [s_p]. exact H.
  - exists y. auto.
Qed.

(** x' = 1 from 3, constraint x <= 5: feasible, and the solution is the state (5, 3) with the control (1, 1) *)
Definition ic5 : ufun (vec R) := fun x _ _ _ _ => nth 0 x 0 - 5.
Definition pt4 (a b e f : R) : vec R := fun i => match i with 0 => a | 1 => b | 2 => e | 3 => f | _ => 0 end.
Example C84_problem_ex : exists t y, let s := gsys 0 by_u 1 ic5 0 ic5 [] true (Some [2]) None true None in
  gen_new s = Some t /\ y 0%nat = 10 /\ y 1%nat = 6 /\
  gfeasible (gen_nlp s) (s_lbx (fst (gsolve s stuck t (fun _ => Some 3) (fun _ => Some 3) None None None)))
    (s_ubx (fst (gsolve s stuck t (fun _ => Some 3) (fun _ => Some 3) None None None)))
    (lval (s_p (fst (gsolve s stuck t (fun _ => Some 3) (fun _ => Some 3) None None None)))) y.
Proof.
  set (s := gsys 0 by_u 1 ic5 0 ic5 [] true (Some [2]) None true None).
  assert (Hp : proper s) by (apply gsys_proper; [intros l E; inversion E; exists 2; split; [reflexivity|lra]|discriminate]).
  destruct (gsys_feasible s 3 (pt4 10 6 1 1) Hp eq_refl) as (t & y & E & Ey & F).
  - assert (X0 : tx (physical s (pt4 10 6 1 1)) 0%nat 0%nat = 5) by (cbn; field). assert (X1 : tx (physical s (pt4 10 6 1 1)) 1%nat 0%nat = 3) by (cbn; field).
    split; [|split; [|split; [|split; [|split; [|split]]]]].
    + intros i Hi. cbn in Hi. assert (i = 0)%nat as -> by lia. change (last s) with 1%nat. rewrite X1. split; cbn; lra.
    + intros; split; exact I.
    + intros; split; exact I.
    + intros; split; exact I.
    + intros _. apply (gsys_dyn 0 by_u 1 ic5 0 ic5 [] true (Some [2]) None true None _ _ 1 3).
      * etransitivity; [exact X0|ring].
      * exact X1.
      * intros k Hk. destruct k as [|[|]]; [| |lia]; cbn; field.
    + intros _. split; [|split; intros e []]. intros k i Hk Hi. cbn in Hk, Hi. assert (i = 0)%nat as -> by lia.
      destruct k as [|[|]]; [| |lia]; [change (tx (physical s (pt4 10 6 1 1)) 0%nat 0%nat - 5 <= 0)|change (tx (physical s (pt4 10 6 1 1)) 1%nat 0%nat - 5 <= 0)]; lra.
    + intro K. exfalso. apply K. reflexivity.
  - exists t, y. split; [exact E|]. split; [apply Ey; cbn; lia|]. split; [apply Ey; cbn; lia|exact F].
Qed.
Example C84_result_ex : exists ipopt t t' W V p, let s := gsys 0 by_u 1 ic5 0 ic5 [] true (Some [2]) None true None in
  gen_new s = Some t /\ gsolve s ipopt t (fun _ => Some 3) (fun _ => Some 3) None None None = (t', true) /\
  get_trajectory s t' = Some W /\ get_control s t' = Some V /\ get_parameters s t' = Some p /\ W 0%nat 0%nat = 5 /\
  solution s [0] (fun _ => Some 3) (fun _ => Some 3) nobox (mkT W V p).
Proof.
  set (s := gsys 0 by_u 1 ic5 0 ic5 [] true (Some [2]) None true None).
  assert (Hp : proper s) by (apply gsys_proper; [intros l E; inversion E; exists 2; split; [reflexivity|lra]|discriminate]).
  destruct C84_problem_ex as (t & y & E & Y0 & _ & F). fold s in E, F.
  set (ip := fun (_ : gnlp) (_ _ _ : vec (option R)) (_ : list R) (_ _ : option (vec R)) => Some (y, z, z)).
  assert (F' : let t' := fst (gsolve s ip t (fun _ => Some 3) (fun _ => Some 3) None None None) in gfeasible (gen_nlp s) (s_lbx t') (s_ubx t') (lval (s_p t')) y) by exact F.
  destruct (C84_result ip s t nobox (fun _ => Some 3) (fun _ => Some 3) None None None _ Hp (gr_new ip s t E) eq_refl) as (W & V & p & E1 & E2 & E3 & K).
  - intros x lx lg Hx. cbn [s_res] in Hx. inversion Hx. subst x. exact F'.
  - exists ip, t. eexists. exists W, V, p. split; [exact E|]. split; [reflexivity|]. split; [exact E1|]. split; [exact E2|]. split; [exact E3|]. split.
    + assert (Z : W 0%nat 0%nat = / 2 * y 0%nat) by (cbn in E1; inversion E1; unfold dinv; cbn; reflexivity). rewrite Z, Y0. field.
    + assert (Ep : s_p t = [0]) by (unfold gen_new in E; destruct (setup_ok s); [|discriminate]; inversion E; reflexivity). rewrite Ep in K. exact K.
Qed.
Example C84_guess_ex : exists t, let s := gsys 0 by_u 1 ic5 0 ic5 [] true (Some [2]) None true None in gen_new s = Some t /\
  s_x0 (fst (gsolve s stuck t (fun _ => Some 3) (fun _ => Some 5) None None None)) 1%nat = Some 8.
Proof.
  set (s := gsys 0 by_u 1 ic5 0 ic5 [] true (Some [2]) None true None).
  assert (Hp : proper s) by (apply gsys_proper; [intros l E; inversion E; exists 2; split; [reflexivity|lra]|discriminate]).
  destruct C84_problem_ex as (t & y & E & _). exists t. split; [exact E|].
  destruct (C84_guess stuck s t (fun _ => Some 3) (fun _ => Some 5) None None None Hp) as (_ & G & _). destruct (G eq_refl) as [G1 _].
  etransitivity; [exact (G1 1%nat 0%nat ltac:(cbn; lia) ltac:(cbn; lia) 3 5 eq_refl eq_refl)|]. f_equal. cbn. field.
Qed.
Example C84_setup_ex : gen_new (gsys 0 by_u 1 ic5 0 ic5 [] true (Some [2]) None true None) <> None /\
  gen_new (mkOcp (mkCas 1 1 1 1 0 0) false 0 2 by_u (fun _ _ _ _ => 0) (fun x _ _ => nth 0 x 0) 1 ic5 0 ic5 [] [] [] [] false false None None None false false None None) = None.
Proof.
  split.
  - apply gsys_proper; [intros l E; inversion E; exists 2; split; [reflexivity|lra]|discriminate].
  - match goal with |- gen_new ?s = None => set (s1 := s) end. destruct (gen_new s1) eqn:E; [|reflexivity]. exfalso.
    assert (K : gen_new s1 <> None) by congruence. apply C84_setup in K; [|repeat split; cbn; lia|cbn; lra]. destruct K as (_ & K & _).
    destruct (K eq_refl eq_refl) as (K1 & _). discriminate.
Qed.
Example C84_named_ex : exists t t', gen_new (gsys 0 by_u 0 ic5 0 ic5 [] false None None false None) = Some t /\ s_p t = [0] /\
  set_parameters_name (set_mapping t "v" (0%nat, 1%nat)) "v" [7] = Some t' /\ s_p t' = [7] /\
  set_parameters_name (set_mapping t "v" (0%nat, 1%nat)) "w" [7] = None.
Proof.
  set (s := gsys 0 by_u 0 ic5 0 ic5 [] false None None false None).
  assert (Hp : proper s) by (apply gsys_proper; discriminate). destruct Hp as (_ & _ & _ & Hn).
  unfold gen_new in *. destruct (setup_ok s); [|congruence]. eexists. eexists. split; [reflexivity|]. split; [reflexivity|]. split; [reflexivity|]. split; reflexivity.
Qed.

(** "the final constraint holds at the final state": false for more than one component, only the first one is kept.  (The
    example in the repository asks for x - 1 <= 0 and 1 - x <= 0 to fix the final state.) *)
Definition fix1 : ufun (vec R) := fun x _ _ _ i => match i with 0 => nth 0 x 0 - 1 | _ => 1 - nth 0 x 0 end.
Theorem C84_final_refuted : exists s t x i, proper s /\ gen_new s = Some t /\
  (let t' := fst (gsolve s stuck t (fun _ => Some 0) (fun _ => Some 0) None None None) in gfeasible (gen_nlp s) (s_lbx t') (s_ubx t') (lval (s_p t')) x) /\
  (i < g_nfc s)%nat /\ 0 < at_node s (physical s x) (s_p t) (g_fc s) 0 i.
Proof.
  set (s := gsys 0 by_u 0 ic5 2 fix1 [] false None None false None).
  assert (Hp : proper s) by (apply gsys_proper; discriminate).
  destruct (gsys_feasible s 0 (fun _ => 0) Hp eq_refl) as (t & y & E & Ey & F).
  - assert (X : forall k i, tx (physical s (fun _ => 0)) k i = 0) by (intros; cbn; ring).
    split; [|split; [|split; [|split; [|split; [|split]]]]]; try (intros; split; exact I).
    + intros i Hi. rewrite X. split; cbn; lra.
    + intros _. apply (gsys_dyn 0 by_u 0 ic5 2 fix1 [] false None None false None _ _ 0 0); [rewrite X; ring|apply X|].
      intros k Hk. cbn. field.
    + intro K. exfalso. apply K. reflexivity.
    + intros _. cbn. lra.
  - exists s, t, y, 1%nat. split; [exact Hp|]. split; [exact E|]. split; [exact F|]. split; [cbn; lia|].
    cbn. rewrite (Ey 0%nat) by (cbn; lia). lra.
Qed.
Print Assumptions C84_final_refuted.

(** "the dynamics hold in physical units": false when parameters are scaled.  x' = p with the factor 2: x' = 2 for p = 1 *)
Theorem C84_scaled_parameter_refuted : exists s t x, proper s /\ gen_new s = Some t /\
  (let t' := fst (gsolve s stuck t (fun _ => Some 0) (fun _ => Some 0) None None None) in gfeasible (gen_nlp s) (s_lbx t') (s_ubx t') (lval (s_p t')) x) /\
  let w := physical s x in
  tp w 0%nat = 1 /\ (forall k, at_node s w (s_p t) (g_dyn s) k 0%nat = 1) /\
  exists q, is_poly 1 q /\ derivative_of q (fun _ => 2) /\ forall j, (j <= 1)%nat -> q (gtime s 0 j) = tx w j 0%nat.
Proof.
  set (s := gsys 1 by_p 0 ic5 0 ic5 [] true None (Some [2]) false None).
  assert (Hp : proper s) by (apply gsys_proper; [discriminate|intros l E; inversion E; split; [reflexivity|exists 2; split; [reflexivity|lra]]]).
  set (x0 := fun i : nat => match i with 0%nat => 4 | 4%nat => 2 | _ => 0 end).
  assert (X0 : tx (physical s x0) 0%nat 0%nat = 2 * 2 + 0) by (cbn; field). assert (X1 : tx (physical s x0) 1%nat 0%nat = 0) by (cbn; field).
  destruct (gsys_feasible s 0 x0 Hp eq_refl) as (t & y & E & Ey & F).
  - split; [|split; [|split; [|split; [|split; [|split]]]]]; try (intros; split; exact I).
    + intros i Hi. cbn in Hi. assert (i = 0)%nat as -> by lia. change (last s) with 1%nat. rewrite X1. split; cbn; lra.
    + intros _. apply (gsys_dyn 1 by_p 0 ic5 0 ic5 [] true None (Some [2]) false None _ _ 2 0); [exact X0|exact X1|]. intros k Hk. cbn. field.
    + intro K. exfalso. apply K. reflexivity.
    + intro K. exfalso. apply K. reflexivity.
  - exists s, t, y. split; [exact Hp|]. split; [exact E|]. split; [exact F|]. cbv zeta.
    assert (Y4 : y 4%nat = 2) by (rewrite Ey; [reflexivity|cbn; lia]). assert (Y0 : y 0%nat = 4) by (rewrite Ey; [reflexivity|cbn; lia]).
    assert (Y1 : y 1%nat = 0) by (rewrite Ey; [reflexivity|cbn; lia]).
    split; [cbn; rewrite Y4; field|]. split; [intro k; cbn; rewrite Y4; field|].
    exists (fun t => 2 * t + 0). split; [exact (lin_poly 2 0)|]. split; [exact (lin_deriv 2 0)|]. intros j Hj.
    destruct (gsys_times 1 by_p 0 ic5 0 ic5 [] true None (Some [2]) false None) as [T0 T1]. fold s in T0, T1.
    destruct j as [|[|]]; [rewrite T0|rewrite T1|lia]; cbn; rewrite ?Y0, ?Y1; field.
Qed.
Print Assumptions C84_scaled_parameter_refuted.

(** "a bound on a derivative is imposed": false without other path constraints.  x' <= -1 with x = 0 *)
Theorem C84_diff_alone_refuted : exists s t x e, proper s /\ gen_new s = Some t /\
  (let t' := fst (gsolve s stuck t (fun _ => Some 0) (fun _ => Some 0) None None None) in gfeasible (gen_nlp s) (s_lbx t') (s_ubx t') (lval (s_p t')) x) /\
  In e (g_df s) /\ e_n e = 1%nat /\
  ~ exists v, nder s 1 (fun k => at_node s (physical s x) (s_p t) (e_f e) k 0%nat) v /\ forall k, (k <= last s)%nat -> v k - e_c e 0%nat <= 0.
Proof.
  set (e := mkD 1 one_x (fun _ => -1)). set (s := gsys 0 by_u 0 ic5 0 ic5 [e] false None None false None).
  assert (Hp : proper s) by (apply gsys_proper; discriminate).
  destruct (gsys_feasible s 0 (fun _ => 0) Hp eq_refl) as (t & y & E & Ey & F).
  - assert (X : forall k i, tx (physical s (fun _ => 0)) k i = 0) by (intros; cbn; ring).
    split; [|split; [|split; [|split; [|split; [|split]]]]]; try (intros; split; exact I).
    + intros i Hi. rewrite X. split; cbn; lra.
    + intros _. apply (gsys_dyn 0 by_u 0 ic5 0 ic5 [e] false None None false None _ _ 0 0); [rewrite X; ring|apply X|].
      intros k Hk. cbn. field.
    + intro K. exfalso. apply K. reflexivity.
    + intro K. exfalso. apply K. reflexivity.
  - exists s, t, y, e. split; [exact Hp|]. split; [exact E|]. split; [exact F|]. split; [left; reflexivity|]. split; [reflexivity|].
    intros (v & Hv & Hk). destruct Hp as (Hd & Ht & _).
    assert (Hz : nder s 1 (fun _ => 0) (fun _ => 0)).
    { exists (fun _ => 0). split; [intros k _; reflexivity|]. intros g Hg. exists (fun t => 0 * t + 0), (fun _ => 0).
      split; [exact (lin_poly 0 0)|]. split; [exact (lin_deriv 0 0)|]. split; intros; ring. }
    assert (W : forall k, (k <= last s)%nat -> at_node s (physical s y) (s_p t) (e_f e) k 0%nat = 0).
    { intros k Hk'. cbn in Hk'. destruct k as [|[|]]; [| |lia]; cbn; rewrite Ey by (cbn; lia); field. }
    pose proof (nder_unique s Hd 1 _ _ _ _ W Hv Hz 0%nat ltac:(lia)) as K. specialize (Hk 0%nat ltac:(lia)). rewrite K in Hk. cbn in Hk. lra.
Qed.
Print Assumptions C84_diff_alone_refuted.

(** * C85: the cost *)

(** without slacks: Mayer term at the final state, plus the exact integral of the Lagrange term when it is a polynomial of
    degree at most P in time on every segment; plus, for the soft collocation, the weight times the integrated squared defects,
    which are zero exactly for trajectories that satisfy the dynamics; plus the sums of the squared derivatives (in the time of
    the grid) of the norm expressions, unless the other terms are identically zero *)
Theorem C85_cost : forall s x d (r F : nat -> R -> R), proper s -> List.length d = cND (g_cas s) -> g_slacks s = false ->
  let w := physical s x in
  (forall sg, (sg < cS (g_cas s))%nat -> is_poly (cP (g_cas s)) (r sg) /\ derivative_of (F sg) (r sg) /\
     forall k, (k <= cP (g_cas s))%nat -> at_node s w d (g_lag s) (sg * cP (g_cas s) + k)%nat = r sg (gtime s sg k)) ->
  exists e n1 n2,
    n_f (gen_nlp s) x (lval d) =
      g_may s (map (tx w 0%nat) (seq 0 (cX (g_cas s)))) (map (tp w) (seq 0 (cNP (g_cas s)))) d +
      rsum (cS (g_cas s)) (fun sg => F sg (gtime s sg 0) - F sg (gtime s sg (cP (g_cas s)))) + e + n1 + n2 /\
    (if g_soft s then exists v, e = (match g_rho s with Some a => a | None => 1000000 end) * v /\ soft_defect s d w v /\ 0 <= v /\ (v = 0 <-> dynamics_ok s d w) else e = 0) /\
    (if g_zero s then n1 = 0 /\ n2 = 0 else norms s d w 1 (g_nd s) n1 /\ norms s d w 2 (g_ndd s) n2).
Proof.
  intros s x d r F (Hd & Ht & Hpos & Hn) Hld Hu w H. pose proof (setup_inv s Hn) as Hs.
  assert (Ed : dl s (lval d) = d).
  { unfold dl. apply nth_ext with 0 0; [rewrite map_length, seq_length; auto|]. intros i Hi. rewrite map_length, seq_length in Hi. rewrite map_nth_seq by lia. reflexivity. }
  assert (Eb : base_cost s x (lval d) = Some (g_may s (map (tx w 0%nat) (seq 0 (cX (g_cas s)))) (map (tp w) (seq 0 (cNP (g_cas s)))) d +
      rsum (cS (g_cas s)) (fun sg => F sg (gtime s sg 0) - F sg (gtime s sg (cP (g_cas s)))))).
  { unfold base_cost. rewrite (C78_parametric_cost (g_cas s) (Some (mayer_func s)) (gfun s 1 (fun x u p d _ => g_lag s x u p d)) (g_t0 s) (g_tf s) x (gU s x) (gP s x) (lval d) r F Hd eq_refl eq_refl).
    - f_equal. f_equal. cbn [term mayer_func f_val]. change (block (cX (g_cas s)) x 0) with (slice x (0 * cX (g_cas s)) (cX (g_cas s))). change (block (cNP (g_cas s)) (gP s x) 0) with (slice (gP s x) 0 (cNP (g_cas s))).
      rewrite px_eq, pp_eq. change (block (cND (g_cas s)) (lval d) 0) with (dl s (lval d)). rewrite Ed. reflexivity.
    - intros sg Hsg. destruct (H sg Hsg) as (A & B & C). split; [exact A|]. split; [exact B|]. intros k Hk. etransitivity; [|exact (C k Hk)]. cbn [gfun f_val].
      change (block (cX (g_cas s)) x (sg * cP (g_cas s) + k)) with (slice x ((sg * cP (g_cas s) + k) * cX (g_cas s)) (cX (g_cas s))).
      change (block (cU (g_cas s)) (gU s x) (sg * cP (g_cas s) + k)) with (slice (gU s x) ((sg * cP (g_cas s) + k) * cU (g_cas s)) (cU (g_cas s))).
      change (block (cNP (g_cas s)) (gP s x) 0) with (slice (gP s x) 0 (cNP (g_cas s))). rewrite px_eq, pu_eq, pp_eq.
      change (block (cND (g_cas s)) (lval d) 0) with (dl s (lval d)). rewrite Ed. reflexivity. }
  destruct (cost_some s Hd Ht Hs Hpos x (lval d) _ Eb) as (e & n1 & n2 & Ec & He & Hz). rewrite Ed in He, Hz.
  exists e, n1, n2. split; [|split; [exact He|exact Hz]]. cbn [n_f gen_nlp]. rewrite Ec. cbn [oget]. unfold use. rewrite Hu. cbn [andb]. ring.
Qed.
Print Assumptions C85_cost.

(** the norm terms are determined by the trajectory *)
Theorem C85_norms : forall s d w n l a b, proper s -> norms s d w n l a -> norms s d w n l b -> a = b /\ 0 <= a.
Proof.
  intros s d w n l a b (Hd & Ht & _) Ha Hb. split; [exact (norms_unique s Hd n l w d a b Ha Hb)|].
  clear Hb. induction Ha as [|e l r v H IH Hv]; [lra|]. assert (0 <= rsum (last s + 1) (fun k => rsum (w_n e) (fun i => v i k ^ 2))).
  { apply rsum_nonneg. intros k _. apply rsum_nonneg. intros i _. apply pow2_ge_0. } lra.
Qed.
Print Assumptions C85_norms.

(** with slacks, at every feasible point: the cost without slacks plus a penalty, which is never negative and is zero exactly
    when every path constraint is active everywhere *)
Theorem C85_slacks : forall ipopt s t b lb ub X0 LX LG x, proper s -> grun ipopt s t b -> g_slacks s = true -> path_count s <> 0%nat ->
  let t' := fst (gsolve s ipopt t lb ub X0 LX LG) in
  gfeasible (gen_nlp s) (s_lbx t') (s_ubx t') (lval (s_p t')) x ->
  exists r, n_f (gen_nlp s) x (lval (s_p t')) = n_f (gen_nlp (with_slacks s false)) x (lval (s_p t')) + r /\ 0 <= r /\
    (r = 0 <-> path_all s (s_p t) (physical s x) (fun v => v = 0)).
Proof.
  intros ipopt s t b lb ub X0 LX LG x (Hd & Ht & Hpos & Hn) Hr Hu Hc t' F. pose proof (setup_inv s Hn) as Hs.
  pose proof (grun_inv s Hs ipopt t b Hr) as Hi. destruct (gsolve_st s ipopt t lb ub X0 LX LG) as (E1 & E2 & E3 & _). fold t' in E1, E2, E3.
  rewrite E1, E2, E3 in F. rewrite E3. change (s_p (gprepare s t lb ub X0 LX LG)) with (s_p t) in *.
  assert (Ed : dl s (lval (s_p t)) = s_p t).
  { destruct Hi as (_ & _ & _ & _ & _ & _ & _ & L). unfold dl. apply nth_ext with 0 0; [rewrite map_length, seq_length; auto|]. intros i Hj. rewrite map_length, seq_length in Hj. rewrite map_nth_seq by lia. reflexivity. }
  assert (Sc := Hs). apply setup_iff in Sc; auto. destruct Sc as (_ & Hcalls & pt & Ept & Hpt). specialize (Hpt Hu Hc).
  assert (En : n_path s = path_count s) by (apply n_path_count; auto; unfold calls_ok in Hcalls; tauto).
  assert (Euse : use s = true) by (unfold use; rewrite Hu, En; apply Nat.eqb_neq in Hc; rewrite Hc; reflexivity).
  destruct F as [F1 F2]. apply (bounds_iff s Hs Hpos t b lb ub X0 LX LG x Hi) in F1. destruct F1 as (_ & _ & _ & _ & Fs). specialize (Fs Euse).
  apply (rows_iff s Hd Ht Hs Hpos) in F2. destruct F2 as [_ F2]. rewrite Euse in F2.
  destruct (path_slack s Hd Ht Hs x (lval (s_p t)) Euse F2) as [P1 P2]. rewrite Ed in P2.
  assert (Ef : n_f (gen_nlp (with_slacks s false)) x (lval (s_p t)) = oget 0 (cost_rows s x (lval (s_p t)))).
  { change (oget 0 (cost_rows s x (lval (s_p t))) + 0 = oget 0 (cost_rows s x (lval (s_p t)))). ring. }
  rewrite Ef. cbn [n_f gen_nlp]. rewrite Euse, Ept. change (@ssum R R_scalar (n_path s)) with (rsum (n_path s)).
  destruct Hpt as [->|[-> E1']].
  - eexists. split; [reflexivity|]. split; [lra|]. rewrite <- P2. split; lra.
  - assert (L1 : (0 < n_path s)%nat) by lia. specialize (Fs 0%nat L1). rewrite Nat.add_0_r in Fs. eexists. split; [reflexivity|]. split; [lra|]. rewrite <- P2. split; [lra|]. intro Z. rewrite Z.
    assert (Q : forall i, (i < n_path s)%nat -> 0 <= x (P_END s + i)%nat * x (P_END s + i)%nat) by (intros; nra).
    pose proof (rsum_nonneg_zero _ _ Q Z 0%nat L1) as K. cbv beta in K. rewrite Nat.add_0_r in K. nra.
Qed.
Print Assumptions C85_slacks.

(** ** Examples and refuted expectations *)
Lemma gsys_base : forall np dyn nic ic nfc fc df sc sx sp slacks pen d x, List.length d = 1%nat -> (forall l, sx = Some l -> exists a, l = [a] /\ 0 < a) ->
  (forall l, sp = Some l -> np = 1%nat /\ exists a, l = [a] /\ 0 < a) ->
  let s := gsys np dyn nic ic nfc fc df sc sx sp slacks pen in n_f (gen_nlp (with_slacks s false)) x (lval d) = tx (physical s x) 0%nat 0%nat.
Proof.
  intros np dyn nic ic nfc fc df sc sx sp slacks pen d x Hl Hx Hp s.
  destruct (C85_cost (gsys np dyn nic ic nfc fc df sc sx sp false pen) x d (fun _ t => 0 * t + 0) (fun _ t => 0 * t + 0)) as (e & n1 & n2 & E & He & Hn1 & Hn2).
  - apply gsys_proper; auto.
  - exact Hl.
  - reflexivity.
  - intros sg Hsg. split; [exact (lin_poly 0 0)|]. split.
    + intro t. replace (0 * t + 0) with 0 by ring. exact (lin_deriv 0 0 t).
    + intros k Hk. cbn. ring.
  - change (gen_nlp (with_slacks s false)) with (gen_nlp (gsys np dyn nic ic nfc fc df sc sx sp false pen)). rewrite E.
    change (e = 0) in He. clear E. inversion Hn1. inversion Hn2. rewrite He. cbn.
    change (factor s sx 0) with (factor (gsys np dyn nic ic nfc fc df sc sx sp false pen) sx 0). ring.
Qed.

(** x(tf) with the constraint x <= 10: slacks add 10 times the sum of the squared distances *)
Definition ic10 : ufun (vec R) := fun x _ _ _ _ => nth 0 x 0 - 10.
Definition slk : gocp := gsys 0 by_u 1 ic10 0 ic10 [] false None None true None.
Lemma slk_proper : proper slk.
Proof. apply gsys_proper; discriminate. Qed.
Lemma slk_cost : forall t a y, gen_new slk = Some t -> let t' := fst (gsolve slk stuck t (fun _ => Some a) (fun _ => Some a) None None None) in
  gfeasible (gen_nlp slk) (s_lbx t') (s_ubx t') (lval (s_p t')) y ->
  n_f (gen_nlp slk) y (lval (s_p t')) = y 0%nat + 10 * ((10 - y 0%nat) ^ 2 + (10 - y 1%nat) ^ 2).
Proof.
  intros t a y E t' F. pose proof slk_proper as (Hd & Ht & Hpos & Hn). pose proof (setup_inv slk Hn) as Hs.
  destruct (gsolve_st slk stuck t (fun _ => Some a) (fun _ => Some a) None None None) as (E1 & E2 & E3 & _). fold t' in E1, E2, E3.
  assert (Ep : s_p t' = [0]). { rewrite E3. unfold gen_new in E. destruct (setup_ok slk); [|discriminate]. inversion E. reflexivity. }
  rewrite Ep in *. destruct F as [_ F]. apply (rows_iff slk Hd Ht Hs Hpos) in F. destruct F as [_ F].
  assert (En : n_path slk = 2%nat) by (rewrite n_path_count; auto). assert (Eu : use slk = true) by (unfold use; rewrite En; reflexivity).
  rewrite Eu, En in F. change (P_END slk) with 4%nat in F.
  assert (V : forall k, (k < 2)%nat -> cat (path_blocks slk y (lval [0])) k = y k - 10).
  { destruct (fun_rows_some slk 1 ic10 y (lval [0]) eq_refl) as (v & Ev & Hv). intros k Hk. unfold path_blocks, ineq_blocks. change (g_nic slk) with 1%nat. change (g_ic slk) with ic10.
    rewrite Ev. cbn [Nat.eqb diff_blocks g_df g_ddf slk gsys app oget final_blocks g_nfc cat]. change (cas_N (g_cas slk) * 1)%nat with 2%nat.
    destruct (Nat.ltb_spec k 2); [|lia]. specialize (Hv k 0%nat ltac:(cbn; lia) ltac:(lia)). replace (k * 1 + 0)%nat with k in Hv by lia. rewrite Hv.
    unfold at_node, ic10, physical, slk. cbn. replace (k * 1 + 0)%nat with k by lia. field. }
  pose proof (gsys_base 0 by_u 1 ic10 0 ic10 [] false None None true None [0] y eq_refl ltac:(discriminate) ltac:(discriminate)) as B. cbv zeta in B. fold slk in B.
  assert (Ef : n_f (gen_nlp (with_slacks slk false)) y (lval [0]) = oget 0 (cost_rows slk y (lval [0]))).
  { change (oget 0 (cost_rows slk y (lval [0])) + 0 = oget 0 (cost_rows slk y (lval [0]))). ring. }
  rewrite Ef in B. cbn [n_f gen_nlp]. rewrite B, Eu, En. change (penalty_type slk) with (Some QUADRATIC). cbv iota. change (P_END slk) with 4%nat.
  cbn [ssum]. cbn [R_scalar sadd s0]. rewrite (F 0%nat), (F 1%nat), !V by lia. cbn. field.
Qed.
Lemma slk_point : forall a, a <= 10 -> exists t y, gen_new slk = Some t /\ y 0%nat = a /\ y 1%nat = a /\
  let t' := fst (gsolve slk stuck t (fun _ => Some a) (fun _ => Some a) None None None) in gfeasible (gen_nlp slk) (s_lbx t') (s_ubx t') (lval (s_p t')) y.
Proof.
  intros a Ha. destruct (gsys_feasible slk a (pt4 a a 0 0) slk_proper eq_refl) as (t & y & E & Ey & F).
  - assert (X : forall k, (k <= 1)%nat -> tx (physical slk (pt4 a a 0 0)) k 0%nat = a) by (intros [|[|]] Hk; [cbn; field|cbn; field|lia]).
    split; [|split; [|split; [|split; [|split; [|split]]]]]; try (intros; split; exact I).
    + intros i Hi. cbn in Hi. assert (i = 0)%nat as -> by lia. change (last slk) with 1%nat. rewrite X by lia. split; cbn; lra.
    + intros _. apply (gsys_dyn 0 by_u 1 ic10 0 ic10 [] false None None true None _ _ 0 a).
      * etransitivity; [exact (X 0%nat ltac:(lia))|ring].
      * exact (X 1%nat ltac:(lia)).
      * intros k Hk. destruct k as [|[|]]; [| |lia]; cbn; field.
    + intros _. split; [|split; intros e []]. intros k i Hk Hi. cbn in Hk, Hi. assert (i = 0)%nat as -> by lia.
      change (tx (physical slk (pt4 a a 0 0)) k 0%nat - 10 <= 0). rewrite X by lia. lra.
    + intro K. exfalso. apply K. reflexivity.
  - exists t, y. split; [exact E|]. split; [apply Ey; cbn; lia|]. split; [apply Ey; cbn; lia|exact F].
Qed.
Example C85_cost_ex : forall x, n_f (gen_nlp (with_slacks slk false)) x (lval [0]) = tx (physical slk x) 0%nat 0%nat.
Proof. intro x. apply (gsys_base 0 by_u 1 ic10 0 ic10 [] false None None true None [0] x eq_refl); discriminate. Qed.
Example C85_slacks_ex : exists t y r, gen_new slk = Some t /\ y 0%nat = 4 /\ 0 < r /\
  let t' := fst (gsolve slk stuck t (fun _ => Some 4) (fun _ => Some 4) None None None) in
  n_f (gen_nlp slk) y (lval (s_p t')) = n_f (gen_nlp (with_slacks slk false)) y (lval (s_p t')) + r.
Proof.
  destruct (slk_point 4 ltac:(lra)) as (t & y & E & Y0 & Y1 & F).
  destruct (C85_slacks stuck slk t nobox (fun _ => Some 4) (fun _ => Some 4) None None None y slk_proper (gr_new stuck slk t E) eq_refl ltac:(cbn; lia) F) as (r & Er & Hr & Hz).
  exists t, y, r. split; [exact E|]. split; [exact Y0|]. split; [|exact Er].
  destruct Hr as [Hr|Hr]; [exact Hr|]. exfalso. symmetry in Hr. apply Hz in Hr. destruct Hr as [Hr _]. destruct (Hr ltac:(discriminate)) as [K _].
  specialize (K 0%nat 0%nat ltac:(cbn; lia) ltac:(cbn; lia)). unfold at_node, physical, slk in K. cbn in K. unfold ic10 in K. cbn in K. rewrite Y0 in K. lra.
Qed.

(** "slacks do not change which of two feasible trajectories is better": false, they penalise constraints that hold strictly *)
Theorem C85_slacks_refuted : exists s t1 t2 x1 x2 y1 y2, proper s /\ g_slacks s = true /\ gen_new s = Some t1 /\ gen_new s = Some t2 /\
  let t1' := fst (gsolve s stuck t1 (fun _ => Some x1) (fun _ => Some x1) None None None) in
  let t2' := fst (gsolve s stuck t2 (fun _ => Some x2) (fun _ => Some x2) None None None) in
  gfeasible (gen_nlp s) (s_lbx t1') (s_ubx t1') (lval (s_p t1')) y1 /\ gfeasible (gen_nlp s) (s_lbx t2') (s_ubx t2') (lval (s_p t2')) y2 /\
  n_f (gen_nlp (with_slacks s false)) y1 (lval (s_p t1')) < n_f (gen_nlp (with_slacks s false)) y2 (lval (s_p t2')) /\
  n_f (gen_nlp s) y2 (lval (s_p t2')) < n_f (gen_nlp s) y1 (lval (s_p t1')).
Proof.
  destruct (slk_point 0 ltac:(lra)) as (t1 & y1 & E1 & A0 & A1 & F1). destruct (slk_point 1 ltac:(lra)) as (t2 & y2 & E2 & B0 & B1 & F2).
  exists slk, t1, t2, 0, 1, y1, y2. split; [exact slk_proper|]. split; [reflexivity|]. split; [exact E1|]. split; [exact E2|]. cbv zeta in *.
  split; [exact F1|]. split; [exact F2|].
  rewrite (slk_cost t1 0 y1 E1 F1), (slk_cost t2 1 y2 E2 F2). rewrite A0, A1, B0, B1. split; [|lra].
  assert (P : forall t a, gen_new slk = Some t -> s_p (fst (gsolve slk stuck t (fun _ => Some a) (fun _ => Some a) None None None)) = [0]).
  { intros t a E. destruct (gsolve_st slk stuck t (fun _ => Some a) (fun _ => Some a) None None None) as (_ & _ & E3 & _). rewrite E3.
    unfold gen_new in E. destruct (setup_ok slk); [|discriminate]. inversion E. reflexivity. }
  rewrite !P by auto. rewrite !C85_cost_ex. cbn. rewrite A0, B0. lra.
Qed.
Print Assumptions C85_slacks_refuted.

(** "mpc.slack_penalty_type selects the penalty": false, the key is only read when the misspelt key is present as well *)
Theorem C85_penalty_refuted : exists s x d, proper s /\ g_scaling s = true /\ g_slacks s = true /\ g_penalty s = Some EXACT /\ path_count s = 1%nat /\
  let v := x ((last s + 1) * (cX (g_cas s) + cU (g_cas s)) + cNP (g_cas s))%nat in
  n_f (gen_nlp s) x (lval d) <> n_f (gen_nlp (with_slacks s false)) x (lval d) + (v ^ 2 + 10 * v).
Proof.
  set (s := gsys 0 by_u 0 ic5 1 ic5 [] true None None true (Some EXACT)). set (x := fun i : nat => match i with 4%nat => 2 | _ => 0 end).
  assert (Hp : proper s) by (apply gsys_proper; discriminate).
  exists s, x, [0]. split; [exact Hp|]. do 4 (split; [reflexivity|]). cbv zeta. destruct Hp as (Hd & Ht & _).
  assert (En : n_path s = 1%nat) by (rewrite n_path_count; auto). assert (Eu : use s = true) by (unfold use; rewrite En; reflexivity).
  assert (Ef : n_f (gen_nlp (with_slacks s false)) x (lval [0]) = oget 0 (cost_rows s x (lval [0]))).
  { change (oget 0 (cost_rows s x (lval [0])) + 0 = oget 0 (cost_rows s x (lval [0]))). ring. }
  rewrite Ef. cbn [n_f gen_nlp]. rewrite Eu, En. change (penalty_type s) with (Some QUADRATIC). cbv iota. cbn [ssum]. cbn [R_scalar sadd s0].
  change (x (P_END s + 0)%nat) with 2. change (x ((last s + 1) * (cX (g_cas s) + cU (g_cas s)) + cNP (g_cas s))%nat) with 2. lra.
Qed.
Print Assumptions C85_penalty_refuted.

(** "norm_diff adds the integral of the squared derivative": false (the comment in the code says so).  x = t on [0, 4]: the
    integral is 4, the cost grows by 8 *)
Definition gnd : gocp :=
  mkOcp (mkCas 1 1 1 1 0 1) false 0 4 by_u (fun _ _ _ _ => 0) (fun x _ _ => nth 0 x 0) 0 ic5 0 ic5 [mkW 1 one_x (fun _ _ => 1)] [] [] [] false false None None None false false None None.
Theorem C85_norm_refuted : exists s x d q q' F, proper s /\
  (exists W, g_nd s = [mkW 1 one_x W] /\ W 0%nat 0%nat = 1) /\ g_ndd s = [] /\ cS (g_cas s) = 1%nat /\ cX (g_cas s) = 1%nat /\ g_soft s = false /\ g_slacks s = false /\
  (forall a b e f, g_lag s a b e f = 0) /\
  is_poly (cP (g_cas s)) q /\ derivative_of q q' /\ (forall j, (j <= cP (g_cas s))%nat -> q (gtime s 0 j) = tx (physical s x) j 0%nat) /\
  derivative_of F (fun t => q' t ^ 2) /\
  n_f (gen_nlp s) x (lval d) <> g_may s [tx (physical s x) 0%nat 0%nat] [] d + (F (g_tf s) - F (g_t0 s)).
Proof.
  set (x := pt4 4 0 0 0).
  assert (Hp : proper gnd).
  { assert (D : dims_ok (mkCas 1 1 1 1 0 1)) by (repeat split; cbn; lia).
    split; [exact D|]. split; [cbn; lra|]. split; [intros l [E|[E|E]]; discriminate|].
    - apply C84_setup; [exact D|cbn; lra|]. cbn. split; [intro; discriminate|]. split; [discriminate|]. split; intros [K _]; discriminate. }
  assert (T : gtime gnd 0 0 = 4 /\ gtime gnd 0 1 = 0).
  { destruct (seg_ends (mkCas 1 1 1 1 0 1) 0 4 0) as [Z0 Z1]; [cbn; lia|]. cbn [cP] in Z1. unfold gtime. cbn [g_cas g_t0 g_tf gnd]. rewrite Z0, Z1. unfold seg_len. cbn. split; field. }
  destruct T as [T0 T1].
  assert (X0 : tx (physical gnd x) 0%nat 0%nat = 4) by (cbn; field). assert (X1 : tx (physical gnd x) 1%nat 0%nat = 0) by (cbn; field).
  exists gnd, x, [0], (fun t => 1 * t + 0), (fun _ => 1), (fun t => 1 * t + 0). split; [exact Hp|]. split; [exists (fun _ _ => 1); split; reflexivity|]. do 5 (split; [reflexivity|]). split; [reflexivity|].
  split; [exact (lin_poly 1 0)|]. split; [exact (lin_deriv 1 0)|]. split; [|split].
  - intros j Hj. cbn in Hj. destruct j as [|[|]]; [rewrite T0|rewrite T1|lia]; rewrite ?X0, ?X1; ring.
  - intro t. replace (1 ^ 2) with 1 by ring. exact (lin_deriv 1 0 t).
  - destruct (C85_cost gnd x [0] (fun _ t => 0 * t + 0) (fun _ t => 0 * t + 0) Hp eq_refl eq_refl) as (e & n1 & n2 & E & He & Hn1 & Hn2).
    + intros sg Hsg. split; [exact (lin_poly 0 0)|]. split.
      * intro t. replace (0 * t + 0) with 0 by ring. exact (lin_deriv 0 0 t).
      * intros k Hk. cbn. ring.
    + rewrite E. change (e = 0) in He. inversion Hn2.
      assert (K : norms gnd [0] (physical gnd x) 1 (g_nd gnd) (rsum (last gnd + 1) (fun k => rsum 1 (fun i => 2 ^ 2)) + 0)).
      { apply (no_cons gnd [0] (physical gnd x) 1 (mkW 1 one_x (fun _ _ => 1)) [] 0 (fun _ _ => 2)); [constructor|].
        intros i Hi. exists (fun k => tx (physical gnd x) k 0%nat). split.
        - intros k Hk. cbn in Hk. cbn [w_n w_W w_f]. change (rsum 1) with (@ssum R R_scalar 1). cbn [ssum]. cbn [R_scalar sadd s0]. rewrite sqrt_1.
          change (at_node gnd (physical gnd x) [0] one_x k 0%nat) with (tx (physical gnd x) k 0%nat). ring.
        - intros sg Hsg. cbn in Hsg. assert (sg = 0)%nat as -> by lia. exists (fun t => 1 * t + 0), (fun _ => 1). split; [exact (lin_poly 1 0)|]. split; [exact (lin_deriv 1 0)|]. split.
          + intros j Hj. cbn in Hj. cbn [Nat.mul Nat.add]. destruct j as [|[|]]; [rewrite T0|rewrite T1|lia]; [change (1 * 4 + 0 = tx (physical gnd x) 0%nat 0%nat)|change (1 * 0 + 0 = tx (physical gnd x) 1%nat 0%nat)]; rewrite ?X0, ?X1; ring.
          + intros l Hl Ho. unfold seg_len. cbn. field. }
      destruct (C85_norms gnd [0] (physical gnd x) 1 (g_nd gnd) n1 _ Hp Hn1 K) as [En _]. rewrite En, He. change (map (tx (physical gnd x) 0%nat) (seq 0 (cX (g_cas gnd)))) with [tx (physical gnd x) 0%nat 0%nat].
      rewrite X0. cbn. lra.
Qed.
Print Assumptions C85_norm_refuted.
