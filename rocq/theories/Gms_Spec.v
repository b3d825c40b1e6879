(** Specification vocabulary for GenericOCP with MSChebyshev (Gms_Model.v). *)
Require Import Arith List Bool Reals String.
From Verif Require Import Scal RSum Poly_Spec Cas_Model Cas_Spec Pso_Model Pso_Spec Nmpc_Model Gen_Model Gen_Spec Gms_Model.
Import ListNotations.
Local Open Scope R_scope.

(** the order, segments and states at least one, a positive horizon, positive factors; the test of dependence on the state is
    right for the constraints; the expressions in diff and ddiff are not empty, those of the control alone are of the size of the control; an
    accepted set-up *)
Definition m_proper (dep : ufun (vec R) -> bool) (s : gocp) : Prop :=
  dims_ok (g_cas s) /\ g_t0 s < g_tf s /\
  (forall l, g_sx s = Some l \/ g_su s = Some l \/ g_sp s = Some l -> forall i, (i < List.length l)%nat -> 0 < nth i l 0) /\
  (forall F, F = g_ic s \/ F = g_fc s -> dep F = false -> forall x x' u p d, F x u p d = F x' u p d) /\
  (forall e, In e (g_df s) \/ In e (g_ddf s) -> e_n e <> 0%nat /\ (dep (e_f e) = false -> e_n e = cU (g_cas s))) /\
  gms_new dep s <> None.

(** a candidate solution in physical units: state component i at node j of segment sg, control i of segment sg, parameters *)
Record mtraj := mkMT { mx : nat -> nat -> nat -> R; mu : nat -> nat -> R; mp : nat -> R }.
Definition m_at {A} (s : gocp) (w : mtraj) (d : list R) (F : ufun A) (sg j : nat) : A :=
  F (map (mx w sg j) (seq 0 (cX (g_cas s)))) (map (mu w sg) (seq 0 (cU (g_cas s)))) (map (mp w) (seq 0 (cNP (g_cas s)))) d.

(** on every segment the state is a polynomial that obeys the dynamics with the constant control of the segment, at all the
    nodes; the segments are joined (segment 0 is the last one in time).  The parameters reach the dynamics multiplied by
    their scaling factors. *)
Definition m_dynamics_ok (s : gocp) (d : list R) (w : mtraj) : Prop :=
  (forall sg i, (sg < cS (g_cas s))%nat -> (i < cX (g_cas s))%nat -> exists q q', is_poly (cP (g_cas s)) q /\ derivative_of q q' /\
    (forall j, (j <= cP (g_cas s))%nat -> q (gtime s sg j) = mx w sg j i) /\
    (forall l, (l <= cP (g_cas s))%nat ->
       q' (gtime s sg l) = m_at s (mkMT (mx w) (mu w) (fun i => factor s (g_sp s) i * mp w i)) d (g_dyn s) sg l i)) /\
  (forall sg i, (S sg < cS (g_cas s))%nat -> (i < cX (g_cas s))%nat -> mx w sg (cP (g_cas s)) i = mx w (S sg) 0%nat i).

(** [V] is the [n]-th derivative of the node values [W] on every segment, in the time that runs from -1 to 1 over it *)
Fixpoint mder (s : gocp) (n : nat) (W V : nat -> nat -> R) : Prop :=
  match n with
  | O => forall sg j, (sg < cS (g_cas s))%nat -> (j <= cP (g_cas s))%nat -> V sg j = W sg j
  | S m => exists D, mder s m W D /\
      forall sg, (sg < cS (g_cas s))%nat -> exists q q', is_poly (cP (g_cas s)) q /\ derivative_of q q' /\
        (forall j, (j <= cP (g_cas s))%nat -> q (gtime s sg j) = D sg j) /\
        (forall l, (l <= cP (g_cas s))%nat -> V sg l = seg_len (g_cas s) (g_t0 s) (g_tf s) / 2 * q' (gtime s sg l))
  end.
(** a bound on a derivative.  An expression of the control alone: the scaled control of a segment minus that of the next
    segment in time, whatever the expression. *)
Definition m_rate_ok (dep : ufun (vec R) -> bool) (s : gocp) (d : list R) (w : mtraj) (n : nat) (ok : R -> Prop) (e : dexpr) : Prop :=
  if dep (e_f e)
  then forall i, (i < e_n e)%nat -> exists v, mder s n (fun sg j => m_at s w d (e_f e) sg j i) v /\
         forall sg j, (sg < cS (g_cas s))%nat -> (j <= cP (g_cas s))%nat -> ok (v sg j - e_c e i)
  else forall sg i, (S sg < cS (g_cas s))%nat -> (i < cU (g_cas s))%nat ->
         ok (factor s (g_su s) i * (mu w (S sg) i - mu w sg i) - e_c e i).
(** path constraints: [ok v] for every constraint value (v <= 0: satisfied) *)
Definition m_path_all (dep : ufun (vec R) -> bool) (s : gocp) (d : list R) (w : mtraj) (ok : R -> Prop) : Prop :=
  (g_nic s <> 0%nat ->
     (forall sg j i, (sg < cS (g_cas s))%nat -> (j <= cP (g_cas s))%nat -> (i < g_nic s)%nat -> ok (m_at s w d (g_ic s) sg j i)) /\
     (forall e, In e (g_df s) -> m_rate_ok dep s d w 1 ok e) /\ (forall e, In e (g_ddf s) -> m_rate_ok dep s d w 2 ok e)) /\
  (g_nfc s <> 0%nat -> ok (m_at s w d (g_fc s) 0 0 0%nat)).
(** initial state in [lb0, ub0]; boxes, for the state except at the initial node; dynamics; path constraints *)
Definition m_solution (dep : ufun (vec R) -> bool) (s : gocp) (d : list R) (lb0 ub0 : vec (option R)) (b : boxes) (w : mtraj) : Prop :=
  let c := g_cas s in
  (forall i, (i < cX c)%nat -> inside lb0 ub0 i (mx w (cS c - 1) (cP c) i)) /\
  (forall sg j i, (sg < cS c)%nat -> (j <= cP c)%nat -> ~ (sg = cS c - 1 /\ j = cP c)%nat -> (i < cX c)%nat -> inside (b_lx b) (b_ux b) i (mx w sg j i)) /\
  (forall sg i, (sg < cS c)%nat -> (i < cU c)%nat -> inside (b_lu b) (b_uu b) i (mu w sg i)) /\
  (forall i, (i < cNP c)%nat -> inside (b_lp b) (b_up b) i (mp w i)) /\
  m_dynamics_ok s d w /\ m_path_all dep s d w (fun v => v <= 0).

(** the norm terms of the expressions [l] for derivatives of order [n]: the sum of the squares of the weighted derivatives at
    all the nodes of all the segments; for an expression of the control alone, of the scaled changes of the control, whatever
    the expression and the weight *)
Inductive m_norms_of (dep : ufun (vec R) -> bool) (s : gocp) (d : list R) (w : mtraj) (n : nat) : list wexpr -> R -> Prop :=
| mn_nil : m_norms_of dep s d w n nil 0
| mn_dep : forall e l r (v : nat -> nat -> nat -> R), m_norms_of dep s d w n l r -> 
    dep (fun x u p d i => rsum (w_n e) (fun k => sqrt (w_W e i k) * w_f e x u p d k)) = true ->
    (forall i, (i < w_n e)%nat -> mder s n (fun sg j => rsum (w_n e) (fun k => sqrt (w_W e i k) * m_at s w d (w_f e) sg j k)) (v i)) ->
    m_norms_of dep s d w n (e :: l) (rsum (cS (g_cas s)) (fun sg => rsum (S (cP (g_cas s))) (fun j => rsum (w_n e) (fun i => v i sg j ^ 2))) + r)
| mn_ctl : forall e l r, m_norms_of dep s d w n l r -> 
    dep (fun x u p d i => rsum (w_n e) (fun k => sqrt (w_W e i k) * w_f e x u p d k)) = false ->
    m_norms_of dep s d w n (e :: l)
      (rsum (cS (g_cas s) - 1) (fun sg => rsum (cU (g_cas s)) (fun i => (factor s (g_su s) i * (mu w (S sg) i - mu w sg i)) ^ 2)) + r).

(** an NLP point in physical units: the states of segment 0, of segment 1, ..., then the controls, then the parameters *)
Definition m_physical (s : gocp) (x : vec R) : mtraj :=
  let c := g_cas s in let n := (cS c * (cP c + 1))%nat in
  mkMT (fun sg j i => / factor s (g_sx s) i * x ((sg * (cP c + 1) + j) * cX c + i)%nat)
       (fun sg i => / factor s (g_su s) i * x (n * cX c + (sg * cU c + i))%nat)
       (fun i => / factor s (g_sp s) i * x (n * cX c + cS c * cU c + i)%nat).

(** the states that the public functions can produce, with the boxes set last; a box for the parameters only if there
    are as many data (otherwise see C103_parameter_box_refuted) *)
Inductive mrun (ipopt : gnlp -> vec (option R) -> vec (option R) -> vec (option R) -> list R -> option (vec R) -> option (vec R) ->
                 option (vec R * vec R * vec R)) (dep : ufun (vec R) -> bool) (s : gocp) : gst -> boxes -> Prop :=
| mr_new : forall t, gms_new dep s = Some t -> mrun ipopt dep s t nobox
| mr_x : forall t b lb ub, mrun ipopt dep s t b -> mrun ipopt dep s (m_state_box s t lb ub) (mkB lb ub (b_lu b) (b_uu b) (b_lp b) (b_up b))
| mr_u : forall t b lb ub, mrun ipopt dep s t b -> mrun ipopt dep s (m_control_box s t lb ub) (mkB (b_lx b) (b_ux b) lb ub (b_lp b) (b_up b))
| mr_p : forall t b lb ub t', mrun ipopt dep s t b -> cNP (g_cas s) = cND (g_cas s) -> m_parameters_box dep s t lb ub = Some t' ->
    mrun ipopt dep s t' (mkB (b_lx b) (b_ux b) (b_lu b) (b_uu b) lb ub)
| mr_data : forall t b v t', mrun ipopt dep s t b -> set_parameters t v = Some t' -> mrun ipopt dep s t' b
| mr_name : forall t b n v t', mrun ipopt dep s t b -> set_parameters_name t n v = Some t' -> mrun ipopt dep s t' b
| mr_map : forall t b m, mrun ipopt dep s t b -> mrun ipopt dep s (set_map t m) b
| mr_mapping : forall t b n ab, mrun ipopt dep s t b -> mrun ipopt dep s (set_mapping t n ab) b
| mr_solve : forall t b lb ub X0 LX LG, mrun ipopt dep s t b -> mrun ipopt dep s (fst (m_solve dep s ipopt t lb ub X0 LX LG)) b.
