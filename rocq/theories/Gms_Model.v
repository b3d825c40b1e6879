(** Model of GenericOCP (src/generic_ocp.hpp) with the approximation MSChebyshev (src/chebyshev_ms.hpp): the states of every
    segment are variables of their own, and there is one control per segment.

    The simplifications are those of Gen_Model.v.  In addition:
    - SX::depends_on(res_test, x_test) (chebyshev_ms.hpp:431, 514) is a test of the symbolic expression: the argument
      [dep], applied to the user's function;
    - the expressions passed to diff and ddiff are not empty (generic_ocp.hpp:430, 446 divide by their sizes);
    - line 375 (a single row of dynamics) never applies: there are at least two rows for every order and state size >= 1. *)
Require Import Arith List Bool Reals String.
From Verif Require Import Scal Blk Cas_Model Pso_Model Nmpc_Model Gen_Model.
Import ListNotations.
Local Open Scope R_scope.

Section Gms.
Variable dep : ufun (vec R) -> bool.
Variable s : gocp.
Local Notation c := (g_cas s).
Local Notation nx := (cX c).
Local Notation nu := (cU c).
Local Notation np := (cNP c).
Local Notation nd := (cND c).
Local Notation Sg := (cS c).
Local Notation N := (ms_N c).

(** indices: chebyshev_ms.hpp 58-66.  The end of the parameters (:66) is computed with _ND, not with _NP as in
    chebyshev.hpp:72; [m_VARS] is the size of vertcat(varx, varu, varp): generic_ocp.hpp:508 *)
Definition m_U_START : nat := N * nx.
Definition m_P_START : nat := m_U_START + Sg * nu.
Definition m_P_END : nat := m_P_START + nd.
Definition m_VARS : nat := m_P_START + np.
Definition mU (x : vec R) : vec R := fun i => x (m_U_START + i)%nat.
Definition mP (x : vec R) : vec R := fun i => x (m_P_START + i)%nat.

(** the collocated objects at an NLP point [x] for the data [d]: generic_ocp.hpp 360, 372, 390, 402, 420, 428, 444, 482 *)
Definition m_diff_rows (x d : vec R) : option (vec R) := ms_dynamics c (dyn_func s) (g_t0 s) (g_tf s) x (mU x) (mP x) d.
Definition m_ndiff : nat := N * nx + (Sg - 1) * nx.
Definition m_base_cost (x d : vec R) : option R :=
  ms_pcost c (Some (mayer_func s)) (Some (gfun s 1 (fun x u p d _ => g_lag s x u p d))) (g_t0 s) (g_tf s) x (mU x) (mP x) d.
Definition m_fun_rows (n : nat) (F : ufun (vec R)) (x d : vec R) : option (vec R) :=
  ms_function c (dep F) (gfun s n F) x (mU x) (mP x) d.
Definition m_fun_size (n : nat) (F : ufun (vec R)) : nat := (if dep F then N else Sg) * n.
Definition m_der_rows (order n : nat) (F : ufun (vec R)) (x d : vec R) : option (vec R) :=
  ms_differentiate c (dep F) (gfun s n F) order x (mU x) (mP x) d.
Definition m_der_size (n : nat) (F : ufun (vec R)) : nat := if dep F then N * n else (Sg - 1) * nu.

(** dot(tmp, tmp) added for every expression: generic_ocp.hpp 384-406 *)
Fixpoint m_norms (order : nat) (l : list wexpr) (x d : vec R) (cost : R) : option R :=
  match l with
  | nil => Some cost
  | e :: r => match m_der_rows order (w_n e) (weighted e) x d with
              | Some v => m_norms order r x d (cost + ssum (m_der_size (w_n e) (weighted e)) (fun i => v i * v i))
              | None => None
              end
  end.
(** the cost without the slack penalty: generic_ocp.hpp 372-406 *)
Definition m_cost (x d : vec R) : option R :=
  match m_base_cost x d with
  | None => None
  | Some v => if g_zero s then Some v
              else match m_norms 1 (g_nd s) x d v with
                   | Some v => m_norms 2 (g_ndd s) x d v
                   | None => None
                   end
  end.

(** derivative rows minus the repeated bound: generic_ocp.hpp 423-453.  [m] rows; the bound is repeated m / e_n times
    (:430, 446).  If that does not give m entries the subtraction (:431, 447) throws, unless m = 1: a scalar minus an
    empty vector is empty. *)
Fixpoint m_diff_blocks (order : nat) (l : list dexpr) (x d : vec R) : option (list (nat * vec R)) :=
  match l with
  | nil => Some nil
  | e :: r => match m_der_rows order (e_n e) (e_f e) x d, m_diff_blocks order r x d with
              | Some v, Some b =>
                  let m := m_der_size (e_n e) (e_f e) in
                  if (m / e_n e * e_n e =? m)%nat then Some ((m, fun i => v i - e_c e (i mod e_n e)%nat) :: b)
                  else if (m =? 1)%nat then Some b else None
              | _, _ => None
              end
  end.
(** ineq_constraints: generic_ocp.hpp 412-453 *)
Definition m_ineq_blocks (x d : vec R) : option (list (nat * vec R)) :=
  if (g_nic s =? 0)%nat then Some nil
  else match m_fun_rows (g_nic s) (g_ic s) x d, m_diff_blocks 1 (g_df s) x d, m_diff_blocks 2 (g_ddf s) x d with
       | Some v, Some a, Some b => Some ((m_fun_size (g_nic s) (g_ic s), v) :: a ++ b)
       | _, _, _ => None
       end.
(** final_ineq_constraints: generic_ocp.hpp 477-483: the first n_out() = 1 row *)
Definition m_final_blocks (x d : vec R) : option (list (nat * vec R)) :=
  if (g_nfc s =? 0)%nat then Some nil
  else match m_fun_rows (g_nfc s) (g_fc s) x d with Some v => Some [(1%nat, v)] | None => None end.
Definition m_path_blocks (x d : vec R) : list (nat * vec R) := oget nil (m_ineq_blocks x d) ++ oget nil (m_final_blocks x d).
Definition m_npath : nat := size (m_path_blocks z z).
Definition m_use : bool := g_slacks s && negb (m_npath =? 0)%nat.

(** setup: generic_ocp.hpp 287-566, as in Gen_Model.v *)
Definition gms_nlp : gnlp :=
  let ns := if m_use then m_npath else 0%nat in
  mkG (m_VARS + ns) (m_ndiff + m_npath) nd
    (fun x d => oget 0 (m_cost x d) +
       if m_use then
         match penalty_type s with
         | Some EXACT => ssum ns (fun i => x (m_VARS + i)%nat * x (m_VARS + i)%nat) + 10 * x m_VARS
         | _ => 10 * ssum ns (fun i => x (m_VARS + i)%nat * x (m_VARS + i)%nat)
         end
       else 0)
    (fun x d i => if (i <? m_ndiff)%nat then oget z (m_diff_rows x d) i
                  else cat (m_path_blocks x d) (i - m_ndiff)%nat + if m_use then x (m_VARS + (i - m_ndiff))%nat else 0)
    (fun i => if (i <? m_ndiff)%nat then Some 0 else if m_use then Some 0 else None)
    (fun _ => Some 0).
Definition m_setup_ok : bool :=
  scales_ok s &&
  match penalty_type s with
  | None => false
  | Some pt =>
      match m_diff_rows z z, m_cost z z, m_ineq_blocks z z, m_final_blocks z z with
      | Some _, Some _, Some _, Some _ =>
          if m_use then match pt with QUADRATIC => true | EXACT => (m_npath =? 1)%nat | UNKNOWN => false end else true
      | _, _, _, _ => false
      end
  end.
(** constructor: generic_ocp.hpp 28-39, 545-565 *)
Definition gms_new : option gst :=
  if m_setup_ok then
    Some (mkSt (fun i => if m_use && (m_VARS <=? i)%nat then Some 0 else None) (fun _ => None) (fun _ => Some 0)
               (map (fun _ => 0) (seq 0 nd)) None None (fun _ => None) None)
  else None.

(** set_state_box_constraints, set_control_box_constraints: generic_ocp.hpp 105-117 *)
Definition m_state_box (t : gst) (lb ub : vec (option R)) : gst :=
  set_bounds t (gput 0 nx N (g_SX s) lb (s_lbx t)) (gput 0 nx N (g_SX s) ub (s_ubx t)).
Definition m_control_box (t : gst) (lb ub : vec (option R)) : gst :=
  set_bounds t (gput m_U_START nu Sg (g_SU s) lb (s_lbx t)) (gput m_U_START nu Sg (g_SU s) ub (s_ubx t)).
(** set_parameters_box_constraints: generic_ocp.hpp 119-124: the NP scaled bounds are written to the ND entries from P_START
    on.  It throws if these are not in the vector, or if the sizes differ and NP <> 1; for NP = 1 the bound is repeated. *)
Definition m_parameters_box (t : gst) (lb ub : vec (option R)) : option gst :=
  if (m_P_END <=? n_nx gms_nlp)%nat && ((np =? nd) || (np =? 1))%nat
  then let w (b old : vec (option R)) : vec (option R) :=
         fun i => if in_seg m_P_START nd i then sbound (g_SP s) b (if (np =? 1)%nat then 0 else i - m_P_START)%nat else old i in
       Some (set_bounds t (w lb (s_lbx t)) (w ub (s_ubx t)))
  else None.

Variable ipopt : gnlp -> vec (option R) -> vec (option R) -> vec (option R) -> list R -> option (vec R) -> option (vec R) ->
                 option (vec R * vec R * vec R).
(** the arguments at the call of the NLP solver: generic_ocp.hpp 620-636 *)
Definition m_prepare (t : gst) (lb ub : vec (option R)) (X0 LX LG : option (vec R)) : gst :=
  let ini (b old : vec (option R)) : vec (option R) :=
    fun i => if in_seg (m_U_START - nx) nx i then sbound (g_SX s) b (i - (m_U_START - nx)) else old i in
  let mid : vec (option R) := fun i =>
    match lb i, ub i with Some a, Some b => Some (g_SX s i * (/ 2 * (a + b))) | _, _ => None end in
  mkSt (ini lb (s_lbx t)) (ini ub (s_ubx t))
       (match X0 with
        | Some x => fun i => Some (x i)
        | None => fun i => if in_seg 0 m_U_START i then mid (i mod nx)%nat else s_x0 t i
        end)
       (s_p t) (match LX with Some l => Some l | None => s_lamx t end) (match LG with Some l => Some l | None => s_lamg t end)
       (s_map t) (s_res t).
(** solve: generic_ocp.hpp 616-645 *)
Definition m_solve (t : gst) (lb ub : vec (option R)) (X0 LX LG : option (vec R)) : gst * bool :=
  let t := m_prepare t lb ub X0 LX LG in
  match ipopt gms_nlp (s_x0 t) (s_lbx t) (s_ubx t) (s_p t) (s_lamx t) (s_lamg t) with
  | Some r => (mkSt (s_lbx t) (s_ubx t) (s_x0 t) (s_p t) (s_lamx t) (s_lamg t) (s_map t) (Some r), true)
  | None => (t, false)
  end.

(** getters: generic_ocp.hpp 128-154; column k (node, segment), row i *)
Definition m_get_trajectory (t : gst) : option (nat -> nat -> R) :=
  match s_res t with Some (x, _, _) => Some (fun k i => dinv (g_SX s) i * x (k * nx + i)%nat) | None => None end.
Definition m_get_control (t : gst) : option (nat -> nat -> R) :=
  match s_res t with Some (x, _, _) => Some (fun k i => dinv (g_SU s) i * x (m_U_START + k * nu + i)%nat) | None => None end.
(** the ND entries from P_START on, times the inverse factors: a vector if NP = ND or NP = 1; otherwise [None] (an exception,
    or a matrix for ND = 1) *)
Definition m_get_parameters (t : gst) : option (list R) :=
  match s_res t with
  | Some (x, _, _) =>
      if (np =? nd)%nat then Some (map (fun i => dinv (g_SP s) i * x (m_P_START + i)%nat) (seq 0 nd))
      else if (np =? 1)%nat && (m_P_END <=? n_nx gms_nlp)%nat then Some (map (fun i => dinv (g_SP s) 0%nat * x (m_P_START + i)%nat) (seq 0 nd))
      else None
  | None => None
  end.
Definition m_get_slacks (t : gst) : option (list R) :=
  match s_res t with Some (x, _, _) => Some (slice x m_P_END (n_nx gms_nlp - m_P_END)) | None => None end.

End Gms.
