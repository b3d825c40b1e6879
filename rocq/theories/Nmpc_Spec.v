(** Specification vocabulary for the CasADi tracking controller (Nmpc_Model.v). *)
Require Import Arith List Bool Reals.
From Verif Require Import Scal RSum Poly_Spec Cas_Model Cas_Spec Pso_Model Pso_Spec Nmpc_Model.
Import ListNotations.
Local Open Scope R_scope.

(** orders, segments and states at least one, positive horizon, dynamics of state and control with NX
    outputs, positive scaling factors, a reference whose size the constructor accepts *)
Definition regular (s : nmpc) : Prop :=
  (1 <= m_P s)%nat /\ (1 <= m_S s)%nat /\ (1 <= m_nx s)%nat /\ 0 < m_tf s /\ f_nin (m_dyn s) = 2%nat /\ f_out (m_dyn s) = m_nx s /\
  (forall d, m_sx s = Some d -> forall i, 0 < d i) /\ (forall d, m_su s = Some d -> forall i, 0 < d i).
Definition nodes (s : nmpc) : nat := (m_P s * m_S s)%nat.
(** node [j] of segment [sg], counted from the end of [0, tf] *)
Definition nmpc_time (s : nmpc) (sg j : nat) : R := node_time (mkCas (m_P s) (m_S s) (m_nx s) (m_nu s) 0 0) 0 (m_tf s) sg j.

(** [W k i] state and [V k i] control at node k: from X0, inside the bounds (states: at every node but the
    initial one), and piecewise polynomial solutions of the dynamics at every node but the initial one *)
Definition ocp_feasible (s : nmpc) (X0 : list R) (lbx ubx lbu ubu : vec (option R)) (W V : nat -> nat -> R) : Prop :=
  (forall i, (i < m_nx s)%nat -> W (nodes s) i = nth i X0 0) /\
  (forall k i, (k < nodes s)%nat -> (i < m_nx s)%nat -> above (lbx i) (W k i) /\ below (ubx i) (W k i)) /\
  (forall k i, (k <= nodes s)%nat -> (i < m_nu s)%nat -> above (lbu i) (V k i) /\ below (ubu i) (V k i)) /\
  (forall sg i, (sg < m_S s)%nat -> (i < m_nx s)%nat -> exists q q', is_poly (m_P s) q /\ derivative_of q q' /\
     (forall j, (j <= m_P s)%nat -> q (nmpc_time s sg j) = W (sg * m_P s + j)%nat i) /\
     (forall l, (l < m_P s)%nat -> q' (nmpc_time s sg l) =
        f_val (m_dyn s) [map (W (sg * m_P s + l)%nat) (seq 0 (m_nx s)); map (V (sg * m_P s + l)%nat) (seq 0 (m_nu s))] i)).

Definition free : vec (option R) := fun _ => None.
(** the states that the public functions, the two scaling setters excepted, can produce, with the bounds set last *)
Inductive run (ipopt : nlp -> narg -> vec R -> vec R -> option (vec R * vec R * vec R)) (s : nmpc) :
  nst -> vec (option R) -> vec (option R) -> vec (option R) -> vec (option R) -> Prop :=
| run_new : forall t, nmpc_new s = Some t -> run ipopt s t free free free free
| run_lbx : forall t a b c d v, run ipopt s t a b c d -> run ipopt s (setLBX s t v) v b c d
| run_ubx : forall t a b c d v, run ipopt s t a b c d -> run ipopt s (setUBX s t v) a v c d
| run_lbu : forall t a b c d v, run ipopt s t a b c d -> run ipopt s (setLBU s t v) a b v d
| run_ubu : forall t a b c d v, run ipopt s t a b c d -> run ipopt s (setUBU s t v) a b c v
| run_warm : forall t a b c d w, run ipopt s t a b c d -> run ipopt s (setWarm t w) a b c d
| run_comp : forall t a b c d X0, run ipopt s t a b c d -> length X0 = m_nx s -> run ipopt s (fst (computeControl ipopt s t X0)) a b c d.

Definition diagonal (n : nat) (M : mat R) : Prop := forall i j, (i < n)%nat -> (j < n)%nat -> i <> j -> M i j = 0.
(** tracking error of the state [x] *)
Definition error (s : nmpc) (x : list R) (i : nat) : R := m_ref s i - m_out s x i.
(** weighted sum of squares *)
Definition wsq (n : nat) (M : mat R) (v : nat -> R) : R := rsum n (fun i => M i i * (v i) ^ 2).
