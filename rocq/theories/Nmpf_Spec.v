(** Specification vocabulary for the CasADi path following controller (Nmpf_Model.v). *)
Require Import Arith List Bool Reals.
From Verif Require Import Scal RSum Poly_Spec Cas_Model Cas_Spec Pso_Model Pso_Spec Nmpc_Model Nmpc_Spec Nmpf_Model.
Import ListNotations.
Local Open Scope R_scope.

(** orders, segments and states at least one, positive horizon, dynamics of state and control, a path of theta and the path
    parameters, if there are any, positive scaling factors and reset length, nonnegative flexibility *)
Definition pf_regular (s : pf) : Prop :=
  (1 <= h_P s)%nat /\ (1 <= h_S s)%nat /\ (1 <= h_nx s)%nat /\ 0 < h_tf s /\ f_nin (h_dyn s) = 2%nat /\
  f_nin (h_path s) = (if (0 <? h_npp s)%nat then 2 else 1)%nat /\ length (h_pp0 s) = h_npp s /\
  (forall d, h_sx s = Some d -> forall i, 0 < d i) /\ (forall d, h_su s = Some d -> forall i, 0 < d i) /\ 0 < h_reset s /\ 0 <= h_flex s.
Definition pf_nodes (s : pf) : nat := (h_P s * h_S s)%nat.
(** node [j] of segment [sg], counted from the end of [0, tf] *)
Definition pf_time (s : pf) (sg j : nat) : R := node_time (mkCas (h_P s) (h_S s) (h_nx s + 2) (h_nu s + 1) 0 0) 0 (h_tf s) sg j.
(** the node l of segment sg is not an interior end point, which belongs to the next segment *)
Definition own (s : pf) (sg l : nat) : Prop := (l <= h_P s /\ (l < h_P s \/ sg = h_S s - 1))%nat.

(** on every segment component [i] is a polynomial of degree at most P with the values [W] at the nodes, whose derivative
    there is [F] *)
Definition solves (s : pf) (W F : nat -> R) : Prop :=
  forall sg, (sg < h_S s)%nat -> exists q q', is_poly (h_P s) q /\ derivative_of q q' /\
    (forall j, (j <= h_P s)%nat -> q (pf_time s sg j) = W (sg * h_P s + j)%nat) /\
    (forall l, own s sg l -> q' (pf_time s sg l) = F (sg * h_P s + l)%nat).

(** [W k i] state, theta (row nx) and its velocity (row nx + 1), [V k i] control and virtual control (row nu), at node k:
    - the system starts at X0; theta and velocity start near [th] and the last entry of X0;
    - bounds at all the nodes, for the state except the initial one;
    - the system dynamics, theta' = velocity, velocity' = virtual control *)
Definition pf_feasible (s : pf) (X0 : list R) (th : R) (lbx ubx lbu ubu : vec (option R)) (W V : nat -> nat -> R) : Prop :=
  (forall i, (i < h_nx s)%nat -> W (pf_nodes s) i = nth i X0 0) /\
  Rabs (W (pf_nodes s) (h_nx s) - th) <= h_flex s /\
  Rabs (W (pf_nodes s) (h_nx s + 1)%nat - nth (h_nx s + 1) X0 0) <= h_flex s /\
  (forall k i, (k < pf_nodes s)%nat -> (i < h_nx s + 2)%nat -> above (lbx i) (W k i) /\ below (ubx i) (W k i)) /\
  (forall k i, (k <= pf_nodes s)%nat -> (i < h_nu s + 1)%nat -> above (lbu i) (V k i) /\ below (ubu i) (V k i)) /\
  (forall i, (i < h_nx s)%nat -> solves s (fun k => W k i)
     (fun k => f_val (h_dyn s) [map (W k) (seq 0 (h_nx s)); map (V k) (seq 0 (h_nu s))] i)) /\
  solves s (fun k => W k (h_nx s)) (fun k => W k (h_nx s + 1)%nat) /\
  solves s (fun k => W k (h_nx s + 1)%nat) (fun k => V k (h_nu s)).

(** physical states and controls of an NLP point *)
Definition pf_states (s : pf) (x : vec R) (k i : nat) : R := / pf_sx s i * x (k * (h_nx s + 2) + i)%nat.
Definition pf_controls (s : pf) (x : vec R) (k i : nat) : R :=
  / pf_su s i * x ((h_P s * h_S s + 1) * (h_nx s + 2) + k * (h_nu s + 1) + i)%nat.

(** theta of a warm start: one reset length towards zero when it is farther away than that *)
Definition wrapped (s : pf) (warm : bool) (th : R) : R :=
  if warm then if Rlt_dec (h_reset s) th then th - h_reset s
               else if Rlt_dec th (- h_reset s) then th + h_reset s else th
  else th.

(** the states that the public functions, the two scaling setters excepted (see C86_scaling_setter_refuted), can produce, with the bounds, the reference
    velocity and the path parameters set last *)
Inductive pf_run (ipopt : nlp -> narg -> vec R -> vec R -> option (vec R * vec R * vec R)) (s : pf) :
  nst -> vec (option R) -> vec (option R) -> vec (option R) -> vec (option R) -> R -> list R -> Prop :=
| pf_run_new : forall t, pf_new s = Some t -> pf_run ipopt s t free free free free 1 (h_pp0 s)
| pf_run_lbx : forall t a b c d v q z, pf_run ipopt s t a b c d v q -> pf_run ipopt s (pf_setLBX s t z) z b c d v q
| pf_run_ubx : forall t a b c d v q z, pf_run ipopt s t a b c d v q -> pf_run ipopt s (pf_setUBX s t z) a z c d v q
| pf_run_lbu : forall t a b c d v q z, pf_run ipopt s t a b c d v q -> pf_run ipopt s (pf_setLBU s t z) a b z d v q
| pf_run_ubu : forall t a b c d v q z, pf_run ipopt s t a b c d v q -> pf_run ipopt s (pf_setUBU s t z) a b c z v q
| pf_run_vel : forall t a b c d v q z, pf_run ipopt s t a b c d v q -> pf_run ipopt s (setReferenceVelocity s t z) a b c d z q
| pf_run_par : forall t a b c d v q z, pf_run ipopt s t a b c d v q -> length z = h_npp s -> pf_run ipopt s (setPathParameters t z) a b c d v z
| pf_run_warm : forall t a b c d v q w, pf_run ipopt s t a b c d v q -> pf_run ipopt s (setWarm t w) a b c d v q
| pf_run_comp : forall t a b c d v q X0, pf_run ipopt s t a b c d v q -> length X0 = (h_nx s + 2)%nat ->
    pf_run ipopt s (fst (pf_compute ipopt s t X0)) a b c d v q.

(** the point of the path for theta and the path parameters q *)
Definition path_point (s : pf) (th : R) (q : list R) (i : nat) : R :=
  f_val (h_path s) (if (0 <? h_npp s)%nat then [[th]; q] else [[th]]) i.
(** distance of the output from the path point, for the augmented state x *)
Definition path_error (s : pf) (q : list R) (x : nat -> R) (i : nat) : R :=
  path_point s (x (h_nx s)) q i - h_out s (map x (seq 0 (h_nx s))) i.
(** squared distance of the position [pos] from the path point for theta *)
Definition path_dist2 (s : pf) (q : list R) (pos : nat -> R) (th : R) : R := rsum (h_ny s) (fun i => (path_point s th q i - pos i) ^ 2).
(** column sums of a weight matrix: the weights of the squares in sum1(M v^2) *)
Definition colsum (n : nat) (M : mat R) (j : nat) : R := rsum n (fun i => M i j).
Definition wsquares (n : nat) (M : mat R) (v : nat -> R) : R := rsum n (fun j => colsum n M j * (v j) ^ 2).
(** running cost at node k for reference velocity v and path parameters q *)
Definition running (s : pf) (v : R) (q : list R) (W V : nat -> nat -> R) (k : nat) : R :=
  wsquares (h_ny s) (h_Q s) (path_error s q (W k)) + h_W s * (v - W k (h_nx s + 1)%nat) ^ 2 + wsquares (h_nu s + 1) (h_R s) (V k).
(** the same controller with another scaling *)
Definition rescaled (s : pf) (sc : bool) (sx su : option (vec R)) : pf :=
  mkPf (h_S s) (h_P s) (h_nx s) (h_nu s) (h_ny s) (h_tf s) (h_dyn s) (h_out s) (h_path s) (h_dpath s) (h_Q s) (h_R s) (h_W s)
       sc sx su (h_reset s) (h_npp s) (h_pp0 s) (h_flex s).
(** a Gauss-Newton step for the distance of [pos] from the path, [dp] the derivative of the path *)
Definition gn_step (n : nat) (p dp : R -> nat -> R) (pos : nat -> R) (th : R) : R :=
  th - rsum n (fun i => dp th i * (p th i - pos i)) / rsum n (fun i => dp th i * dp th i).
