(** Specification vocabulary for GenericOCP (Gen_Model.v). *)
Require Import Arith List Bool Reals String.
From Verif Require Import Scal RSum Poly_Spec Cas_Model Cas_Spec Pso_Model Pso_Spec Nmpc_Model Gen_Model.
Import ListNotations.
Local Open Scope R_scope.

(** the scaling factors in use: 1 unless scaling is on and factors are given *)
Definition factor (s : gocp) (o : option (list R)) (i : nat) : R :=
  match g_scaling s, o with true, Some l => nth i l 0 | _, _ => 1 end.
(** order, segments and states at least one, a positive horizon, positive factors, an accepted set-up *)
Definition proper (s : gocp) : Prop :=
  dims_ok (g_cas s) /\ g_t0 s < g_tf s /\
  (forall l, g_sx s = Some l \/ g_su s = Some l \/ g_sp s = Some l -> forall i, (i < List.length l)%nat -> 0 < nth i l 0) /\
  gen_new s <> None.
(** number of the initial node; node 0 is the final one *)
Definition last (s : gocp) : nat := (cP (g_cas s) * cS (g_cas s))%nat.
Definition gtime (s : gocp) (sg j : nat) : R := node_time (g_cas s) (g_t0 s) (g_tf s) sg j.

(** [V] is the [n]-th derivative, on the grid, of the node values [W]: on each segment differentiate the
    interpolating polynomial, in the time that runs from -1 to 1 over a segment; n times *)
Fixpoint nder (s : gocp) (n : nat) (W V : nat -> R) : Prop :=
  match n with
  | O => forall k, (k <= last s)%nat -> V k = W k
  | S m => exists D, nder s m W D /\
      forall sg, (sg < cS (g_cas s))%nat -> exists q q', is_poly (cP (g_cas s)) q /\ derivative_of q q' /\
        (forall j, (j <= cP (g_cas s))%nat -> q (gtime s sg j) = D (sg * cP (g_cas s) + j)%nat) /\
        (forall l, (l <= cP (g_cas s))%nat -> (l < cP (g_cas s) \/ sg = cS (g_cas s) - 1)%nat ->
           V (sg * cP (g_cas s) + l)%nat = seg_len (g_cas s) (g_t0 s) (g_tf s) / 2 * q' (gtime s sg l))
  end.

(** a candidate solution in physical units: states, controls, parameters *)
Record traj := mkT { tx : nat -> nat -> R; tu : nat -> nat -> R; tp : nat -> R }.
(** a user function at node k *)
Definition at_node {A} (s : gocp) (w : traj) (d : list R) (F : ufun A) (k : nat) : A :=
  F (map (tx w k) (seq 0 (cX (g_cas s)))) (map (tu w k) (seq 0 (cU (g_cas s)))) (map (tp w) (seq 0 (cNP (g_cas s)))) d.
(** collocation of the dynamics at all the nodes (also the initial one); the parameters reach the
    dynamics multiplied by their scaling factors *)
Definition dynamics_ok (s : gocp) (d : list R) (w : traj) : Prop :=
  forall sg i, (sg < cS (g_cas s))%nat -> (i < cX (g_cas s))%nat -> exists q q', is_poly (cP (g_cas s)) q /\ derivative_of q q' /\
    (forall j, (j <= cP (g_cas s))%nat -> q (gtime s sg j) = tx w (sg * cP (g_cas s) + j)%nat i) /\
    (forall l, (l <= cP (g_cas s))%nat -> (l < cP (g_cas s) \/ sg = cS (g_cas s) - 1)%nat ->
       q' (gtime s sg l) =
       at_node s (mkT (tx w) (tu w) (fun i => factor s (g_sp s) i * tp w i)) d (g_dyn s) (sg * cP (g_cas s) + l)%nat i).
(** path constraints: [ok v] for every constraint value (v <= 0: satisfied) *)
Definition path_all (s : gocp) (d : list R) (w : traj) (ok : R -> Prop) : Prop :=
  (g_nic s <> 0%nat ->
     (forall k i, (k <= last s)%nat -> (i < g_nic s)%nat -> ok (at_node s w d (g_ic s) k i)) /\
     (forall e, In e (g_df s) -> forall i, (i < e_n e)%nat ->
        exists v, nder s 1 (fun k => at_node s w d (e_f e) k i) v /\ forall k, (k <= last s)%nat -> ok (v k - e_c e i)) /\
     (forall e, In e (g_ddf s) -> forall i, (i < e_n e)%nat ->
        exists v, nder s 2 (fun k => at_node s w d (e_f e) k i) v /\ forall k, (k <= last s)%nat -> ok (v k - e_c e i))) /\
  (g_nfc s <> 0%nat -> ok (at_node s w d (g_fc s) 0%nat 0%nat)).

Record boxes := mkB { b_lx : vec (option R); b_ux : vec (option R); b_lu : vec (option R); b_uu : vec (option R); b_lp : vec (option R); b_up : vec (option R) }.
Definition inside (lo up : vec (option R)) (i : nat) (v : R) : Prop := above (lo i) v /\ below (up i) v.
Definition nobox : boxes := mkB (fun _ => None) (fun _ => None) (fun _ => None) (fun _ => None) (fun _ => None) (fun _ => None).
(** initial state in [lb0, ub0], boxes, dynamics (not with SoftChebyshev), path constraints *)
Definition solution (s : gocp) (d : list R) (lb0 ub0 : vec (option R)) (b : boxes) (w : traj) : Prop :=
  (forall i, (i < cX (g_cas s))%nat -> inside lb0 ub0 i (tx w (last s) i)) /\
  (forall k i, (k < last s)%nat -> (i < cX (g_cas s))%nat -> inside (b_lx b) (b_ux b) i (tx w k i)) /\
  (forall k i, (k <= last s)%nat -> (i < cU (g_cas s))%nat -> inside (b_lu b) (b_uu b) i (tu w k i)) /\
  (forall i, (i < cNP (g_cas s))%nat -> inside (b_lp b) (b_up b) i (tp w i)) /\
  (g_soft s = false -> dynamics_ok s d w) /\
  path_all s d w (fun v => v <= 0).

(** an NLP point in physical units: states, then controls, then parameters *)
Definition physical (s : gocp) (x : vec R) : traj :=
  let n := (last s + 1)%nat in
  mkT (fun k i => / factor s (g_sx s) i * x (k * cX (g_cas s) + i)%nat)
      (fun k i => / factor s (g_su s) i * x (n * cX (g_cas s) + (k * cU (g_cas s) + i))%nat)
      (fun i => / factor s (g_sp s) i * x (n * cX (g_cas s) + n * cU (g_cas s) + i)%nat).
(** the bounds and the constraints of the NLP *)
Definition gfeasible (l : gnlp) (lbx ubx : vec (option R)) (d x : vec R) : Prop :=
  (forall i, (i < n_nx l)%nat -> inside lbx ubx i (x i)) /\
  (forall i, (i < n_ng l)%nat -> inside (n_lbg l) (n_ubg l) i (n_g l x d i)).

(** the states that the public functions can produce, with the boxes set last *)
Inductive grun (ipopt : gnlp -> vec (option R) -> vec (option R) -> vec (option R) -> list R -> option (vec R) -> option (vec R) ->
                 option (vec R * vec R * vec R)) (s : gocp) : gst -> boxes -> Prop :=
| gr_new : forall t, gen_new s = Some t -> grun ipopt s t nobox
| gr_x : forall t b lb ub, grun ipopt s t b -> grun ipopt s (set_state_box s t lb ub) (mkB lb ub (b_lu b) (b_uu b) (b_lp b) (b_up b))
| gr_u : forall t b lb ub, grun ipopt s t b -> grun ipopt s (set_control_box s t lb ub) (mkB (b_lx b) (b_ux b) lb ub (b_lp b) (b_up b))
| gr_p : forall t b lb ub, grun ipopt s t b -> grun ipopt s (set_parameters_box s t lb ub) (mkB (b_lx b) (b_ux b) (b_lu b) (b_uu b) lb ub)
| gr_data : forall t b v t', grun ipopt s t b -> set_parameters t v = Some t' -> grun ipopt s t' b
| gr_name : forall t b n v t', grun ipopt s t b -> set_parameters_name t n v = Some t' -> grun ipopt s t' b
| gr_map : forall t b m, grun ipopt s t b -> grun ipopt s (set_map t m) b
| gr_mapping : forall t b n ab, grun ipopt s t b -> grun ipopt s (set_mapping t n ab) b
| gr_solve : forall t b lb ub X0 LX LG, grun ipopt s t b -> grun ipopt s (fst (gsolve s ipopt t lb ub X0 LX LG)) b.

(** sum over the expressions [l] of the squares of the weighted derivatives of order [n] at all the nodes *)
Inductive norms (s : gocp) (d : list R) (w : traj) (n : nat) : list wexpr -> R -> Prop :=
| no_nil : norms s d w n nil 0
| no_cons : forall e l r (v : nat -> nat -> R), norms s d w n l r ->
    (forall i, (i < w_n e)%nat ->
       nder s n (fun k => rsum (w_n e) (fun j => sqrt (w_W e i j) * at_node s w d (w_f e) k j)) (v i)) ->
    norms s d w n (e :: l) (rsum (last s + 1) (fun k => rsum (w_n e) (fun i => v i k ^ 2)) + r).

(** the squared defects of the dynamics in scaled units, integrated with the weights of the grid *)
Definition soft_defect (s : gocp) (d : list R) (w : traj) (e : R) : Prop :=
  let P := cP (g_cas s) in
  let h := seg_len (g_cas s) (g_t0 s) (g_tf s) / 2 in
  exists V : nat -> nat -> R, (forall i, (i < cX (g_cas s))%nat -> nder s 1 (fun k => tx w k i) (V i)) /\
    e = rsum (cS (g_cas s)) (fun sg => h * rsum (S P) (fun j => cas_w P j * rsum (cX (g_cas s)) (fun i =>
      (factor s (g_sx s) i * (V i (sg * P + j)%nat -
         h * at_node s (mkT (tx w) (tu w) (fun i => factor s (g_sp s) i * tp w i)) d (g_dyn s) (sg * P + j)%nat i)) ^ 2))).

(** number of path constraint rows *)
Definition total (l : list dexpr) : nat := fold_right (fun e a => e_n e + a)%nat 0%nat l.
Definition path_count (s : gocp) : nat :=
  ((if (g_nic s =? 0)%nat then 0 else (last s + 1) * (g_nic s + total (g_df s) + total (g_ddf s))) + (if (g_nfc s =? 0)%nat then 0 else 1))%nat.

(** the same problem with mpc.use_slacks switched to [b] *)
Definition with_slacks (s : gocp) (b : bool) : gocp :=
  mkOcp (g_cas s) (g_soft s) (g_t0 s) (g_tf s) (g_dyn s) (g_lag s) (g_may s) (g_nic s) (g_ic s) (g_nfc s) (g_fc s) (g_nd s) (g_ndd s) (g_df s) (g_ddf s)
    (g_zero s) (g_scaling s) (g_sx s) (g_su s) (g_sp s) b (g_penaly s) (g_penalty s) (g_rho s).
