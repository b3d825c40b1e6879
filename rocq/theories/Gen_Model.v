(** Model of GenericOCP (src/generic_ocp.hpp) with the approximations Chebyshev and SoftChebyshev.

    Simplifications (see also Cas_Model.v, Pso_Model.v and Nmpc_Model.v):
    - the user's functions are functions of the values of state, control, parameters and data, with
      results of the right sizes; the expressions passed to norm_diff, norm_ddiff, diff and ddiff are
      listed in the record, those of diff and ddiff not empty (:430, 446 divide by their sizes; norm_diff and norm_ddiff return the constant 5 (:19), which is then part of the
      user's Lagrange function); a weight matrix is square and of the size of its expression (:249, 259);
    - an empty result of inequality_constraints or final_inequality_constraints is the size 0;
    - cost.is_zero() (:384, 396) is a test of the symbolic expression: the field [g_zero];
    - nlpsol (IPOPT) is the argument [ipopt], [None] if it throws; nlpsol throws at construction if the
      objective is not a scalar (:541);
    - bounds are [None] when infinite; a guess from an infinite bound (:628) is [None];
    - the lower and the upper bounds passed to the functions have the sizes asserted (:107, 114, 121),
      and so have lbx0, ubx0 and the guess X0;
    - MSChebyshev (see Gms_Model.v), solver options, statistics and generate_nlp_code are left out. *)
Require Import Arith List Bool Reals String.
From Verif Require Import Scal Blk Cas_Model Pso_Model Nmpc_Model.
Import ListNotations.
Local Open Scope R_scope.

(** x, u, p, d *)
Definition ufun (A : Type) := list R -> list R -> list R -> list R -> A.
(** an expression of size [e_n] with a bound (diff, ddiff) or with a weight matrix (norm_diff, norm_ddiff) *)
Record dexpr := mkD { e_n : nat; e_f : ufun (vec R); e_c : vec R }.
Record wexpr := mkW { w_n : nat; w_f : ufun (vec R); w_W : mat R }.
Inductive penalty := QUADRATIC | EXACT | UNKNOWN.

Record gocp := mkOcp {
  g_cas : cas; g_soft : bool; g_t0 : R; g_tf : R;
  g_dyn : ufun (vec R); g_lag : ufun R; g_may : list R -> list R -> list R -> R;
  g_nic : nat; g_ic : ufun (vec R);
  g_nfc : nat; g_fc : ufun (vec R);
  g_nd : list wexpr; g_ndd : list wexpr;         (* m_norm_diff, m_norm_ddiff *)
  g_df : list dexpr; g_ddf : list dexpr;         (* m_diff, m_ddiff *)
  g_zero : bool;
  (* MPC_OPTS: mpc.scaling, scale_x, scale_u, scale_p, use_slacks, slack_penaly_type, slack_penalty_type, soft_rho *)
  g_scaling : bool; g_sx : option (list R); g_su : option (list R); g_sp : option (list R);
  g_slacks : bool; g_penaly : bool; g_penalty : option penalty; g_rho : option R }.

(** vertcat of blocks *)
Fixpoint cat (l : list (nat * vec R)) : vec R :=
  match l with
  | nil => fun _ => 0
  | (n, v) :: r => fun i => if (i <? n)%nat then v i else cat r (i - n)%nat
  end.
Fixpoint size (l : list (nat * vec R)) : nat := match l with nil => 0 | (n, _) :: r => n + size r end.

(** an NLP with bounds on the constraints *)
Record gnlp := mkG { n_nx : nat; n_ng : nat; n_np : nat; n_f : vec R -> vec R -> R; n_g : vec R -> vec R -> vec R;
                     n_lbg : vec (option R); n_ubg : vec (option R) }.

Section Gen.
Variable s : gocp.
Local Notation c := (g_cas s).
Local Notation nx := (cX c).
Local Notation nu := (cU c).
Local Notation np := (cNP c).
Local Notation nd := (cND c).
Local Notation N := (cas_N c).

(** ScX, ScU, ScP: :296-301, 311-336 *)
Definition diag_of (o : option (list R)) : vec R :=
  match g_scaling s, o with true, Some l => lval l | _, _ => fun _ => 1 end.
Definition g_SX : vec R := diag_of (g_sx s).
Definition g_SU : vec R := diag_of (g_su s).
Definition g_SP : vec R := diag_of (g_sp s).
(** the assertions :314, 323, 332 and the solve of :334, whose right-hand side is eye(NU) *)
Definition len_ok (o : option (list R)) (n : nat) : bool :=
  match g_scaling s, o with true, Some l => (List.length l =? n)%nat | _, _ => true end.
Definition scales_ok : bool :=
  len_ok (g_sx s) nx && len_ok (g_su s) nu && len_ok (g_sp s) np &&
  match g_scaling s, g_sp s with true, Some _ => (np =? nu)%nat | _, _ => true end.
(** slack_penalty_type: :342-343; the key that is looked up differs from the key that is read, and a
    missing key gives a value that cannot be converted *)
Definition penalty_type : option penalty :=
  if g_scaling s && g_penaly s then g_penalty s else Some QUADRATIC.
Definition rho : R := match g_rho s with Some r => r | None => 1000000 end.

(** indices: :218-223, chebyshev.hpp 67-72 *)
Definition U_START : nat := N * nx.
Definition P_START : nat := U_START + N * nu.
Definition P_END : nat := P_START + np.
Definition gU (x : vec R) : vec R := fun i => x (U_START + i)%nat.
Definition gP (x : vec R) : vec R := fun i => x (P_START + i)%nat.

(** dyn_func: :351-358; the parameters are not unscaled *)
Definition dyn_func : cfun :=
  mkFun (if ((np =? 0) && (nd =? 0))%nat then 2 else 4) nx (fun l =>
    match l with
    | x :: u :: rest => fun i => g_SX i * g_dyn s (dmul (dinv g_SX) x) (dmul (dinv g_SU) u) (nth 0 rest []) (nth 1 rest []) i
    | _ => fun _ => 0
    end).
(** Function(.., {x,u,p,d}, ..) of an expression in unscaled variables: :369-370, 389, 415-419, 427, 477-481 *)
Definition gfun (n : nat) (F : ufun (vec R)) : cfun :=
  mkFun 4 n (fun l =>
    match l with
    | [x; u; p; d] => F (dmul (dinv g_SX) x) (dmul (dinv g_SU) u) (dmul (dinv g_SP) p) d
    | _ => fun _ => 0
    end).
Definition mayer_func : cfun :=
  mkFun 3 1 (fun l => match l with [x; p; d] => fun _ => g_may s (dmul (dinv g_SX) x) (dmul (dinv g_SP) p) d | _ => fun _ => 0 end).
(** mtimes(sqrt(W), expr), the square root entry by entry: :250, 260 *)
Definition weighted (e : wexpr) : ufun (vec R) :=
  fun x u p d i => ssum (w_n e) (fun j => sqrt (w_W e i j) * w_f e x u p d j).

(** the three collocated objects at an NLP point [x] for the data [d] *)
Definition diff_rows (x d : vec R) : option (vec R) := cas_dynamics c dyn_func (g_t0 s) (g_tf s) x (gU x) (gP x) d.
Definition soft_error (x d : vec R) : option R := soft_dynamics c dyn_func (g_t0 s) (g_tf s) x (gU x) (gP x) d.
Definition base_cost (x d : vec R) : option R :=
  cas_pcost c (Some mayer_func) (Some (gfun 1 (fun x u p d _ => g_lag s x u p d))) (g_t0 s) (g_tf s) x (gU x) (gP x) d.
Definition fun_rows (n : nat) (F : ufun (vec R)) (x d : vec R) : option (vec R) := cas_function c (gfun n F) x (gU x) (gP x) d.
Definition der_rows (order n : nat) (F : ufun (vec R)) (x d : vec R) : option (vec R) :=
  cas_differentiate c (gfun n F) order x (gU x) (gP x) d.

(** dot(tmp, tmp) added for every expression: :384-406 *)
Fixpoint add_norms (order : nat) (l : list wexpr) (x d : vec R) (cost : R) : option R :=
  match l with
  | nil => Some cost
  | e :: r => match der_rows order (w_n e) (weighted e) x d with
              | Some v => add_norms order r x d (cost + ssum (N * w_n e) (fun i => v i * v i))
              | None => None
              end
  end.
(** the cost without the slack penalty: :372-406 *)
Definition cost_rows (x d : vec R) : option R :=
  match base_cost x d with
  | None => None
  | Some v =>
      match (if g_soft s then match soft_error x d with Some e => Some (v + rho * e) | None => None end else Some v) with
      | None => None
      | Some v => if g_zero s then Some v
                  else match add_norms 1 (g_nd s) x d v with
                       | Some v => add_norms 2 (g_ndd s) x d v
                       | None => None
                       end
      end
  end.

(** derivative rows minus the repeated bound: :423-453 *)
Fixpoint diff_blocks (order : nat) (l : list dexpr) (x d : vec R) : option (list (nat * vec R)) :=
  match l with
  | nil => Some nil
  | e :: r => match der_rows order (e_n e) (e_f e) x d, diff_blocks order r x d with
              | Some v, Some b => Some ((N * e_n e, fun i => (v i - e_c e (i mod e_n e))%R) :: b)
              | _, _ => None
              end
  end%nat.
(** ineq_constraints: :412-453; nothing at all when the function returns an empty expression (:417) *)
Definition ineq_blocks (x d : vec R) : option (list (nat * vec R)) :=
  if (g_nic s =? 0)%nat then Some nil
  else match fun_rows (g_nic s) (g_ic s) x d, diff_blocks 1 (g_df s) x d, diff_blocks 2 (g_ddf s) x d with
       | Some v, Some a, Some b => Some ((N * g_nic s, v)%nat :: a ++ b)
       | _, _, _ => None
       end.
(** final_ineq_constraints: :477-483: the first n_out() = 1 row *)
Definition final_blocks (x d : vec R) : option (list (nat * vec R)) :=
  if (g_nfc s =? 0)%nat then Some nil
  else match fun_rows (g_nfc s) (g_fc s) x d with Some v => Some [(1%nat, v)] | None => None end.
(** rows of the dynamics: none with SoftChebyshev, whose CollocateDynamics returns a scalar (:375-381) *)
Definition diff_block (x d : vec R) : option (list (nat * vec R)) :=
  if g_soft s then match soft_error x d with Some _ => Some nil | None => None end
  else match diff_rows x d with Some v => Some [(N * nx, v)%nat] | None => None end.

Definition oget {A} (a : A) (o : option A) : A := match o with Some b => b | None => a end.
Definition path_blocks (x d : vec R) : list (nat * vec R) := oget nil (ineq_blocks x d) ++ oget nil (final_blocks x d).
Definition z : vec R := fun _ => 0.
(** numbers of rows *)
Definition n_diff : nat := size (oget nil (diff_block z z)).
Definition n_path : nat := size (path_blocks z z).
Definition use : bool := g_slacks s && negb (n_path =? 0)%nat.

(** setup: :287-566.  Without slacks path rows are in [-inf, 0] (:467-468, 497-498); with slacks the slack
    is added and the row is zero (:455-463, 485-493), the penalty is :513-525. *)
Definition gen_nlp : gnlp :=
  let ns := if use then n_path else 0%nat in
  mkG (P_END + ns) (n_diff + n_path) nd
    (fun x d => oget 0 (cost_rows x d) +
       if use then
         match penalty_type with
         | Some EXACT => ssum ns (fun i => x (P_END + i)%nat * x (P_END + i)%nat) + 10 * x P_END
         | _ => 10 * ssum ns (fun i => x (P_END + i)%nat * x (P_END + i)%nat)
         end
       else 0)
    (fun x d i => if (i <? n_diff)%nat then cat (oget nil (diff_block x d)) i
                  else cat (path_blocks x d) (i - n_diff)%nat + if use then x (P_END + (i - n_diff))%nat else 0)
    (fun i => if (i <? n_diff)%nat then Some 0 else if use then Some 0 else None)
    (fun _ => Some 0).
Definition setup_ok : bool :=
  scales_ok &&
  match penalty_type with
  | None => false
  | Some pt =>
      match diff_block z z, cost_rows z z, ineq_blocks z z, final_blocks z z with
      | Some _, Some _, Some _, Some _ =>
          if use then match pt with QUADRATIC => true | EXACT => (n_path =? 1)%nat | UNKNOWN => false end else true
      | _, _, _, _ => false
      end
  end.

(** members: :201-239 *)
Record gst := mkSt { s_lbx : vec (option R); s_ubx : vec (option R); s_x0 : vec (option R); s_p : list R;
                     s_lamx : option (vec R); s_lamg : option (vec R);
                     s_map : string -> option (nat * nat);
                     s_res : option (vec R * vec R * vec R) }.
(** constructor: :28-39, 545-565 *)
Definition gen_new : option gst :=
  if setup_ok then
    Some (mkSt (fun i => if use && (P_END <=? i)%nat then Some 0 else None) (fun _ => None) (fun _ => Some 0)
               (map (fun _ => 0) (seq 0 nd)) None None (fun _ => None) None)
  else None.

(** repmat(S * b, m) written from [o] on: :108-123 *)
Definition gput (o n m : nat) (d : vec R) (b old : vec (option R)) : vec (option R) :=
  fun i => if in_seg o (m * n) i then sbound d b ((i - o) mod n) else old i.
Definition set_bounds (t : gst) (lb ub : vec (option R)) : gst :=
  mkSt lb ub (s_x0 t) (s_p t) (s_lamx t) (s_lamg t) (s_map t) (s_res t).
Definition set_state_box (t : gst) (lb ub : vec (option R)) : gst :=
  set_bounds t (gput 0 nx N g_SX lb (s_lbx t)) (gput 0 nx N g_SX ub (s_ubx t)).
Definition set_control_box (t : gst) (lb ub : vec (option R)) : gst :=
  set_bounds t (gput U_START nu N g_SU lb (s_lbx t)) (gput U_START nu N g_SU ub (s_ubx t)).
Definition set_parameters_box (t : gst) (lb ub : vec (option R)) : gst :=
  set_bounds t (gput P_START np 1 g_SP lb (s_lbx t)) (gput P_START np 1 g_SP ub (s_ubx t)).

Definition set_p (t : gst) (p : list R) : gst :=
  mkSt (s_lbx t) (s_ubx t) (s_x0 t) p (s_lamx t) (s_lamg t) (s_map t) (s_res t).
(** set_parameters(vector): :160-164; [None] if the assertion fails *)
Definition set_parameters (t : gst) (v : list R) : option gst :=
  if (List.length v =? List.length (s_p t))%nat then Some (set_p t v) else None.
(** p(Slice(a, b)) = v: the indices have to be in range and the sizes equal, unless v is a scalar *)
Definition assign (p : list R) (a b : nat) (v : list R) : option (list R) :=
  if (b <=? List.length p)%nat && ((List.length v =? b - a) || (List.length v =? 1))%nat
  then Some (map (fun i => if in_seg a (b - a) i then nth (if (List.length v =? 1)%nat then 0 else i - a) v 0 else nth i p 0) (seq 0 (List.length p)))
  else None.
(** set_parameters(name, value): :166-175 *)
Definition set_parameters_name (t : gst) (n : string) (v : list R) : option gst :=
  match s_map t n with
  | Some (a, b) => match assign (s_p t) a b v with Some p => Some (set_p t p) | None => None end
  | None => None
  end.
(** set_parameter_mapping: :177-185 *)
Definition set_map (t : gst) (m : string -> option (nat * nat)) : gst :=
  mkSt (s_lbx t) (s_ubx t) (s_x0 t) (s_p t) (s_lamx t) (s_lamg t) m (s_res t).
Definition set_mapping (t : gst) (n : string) (ab : nat * nat) : gst :=
  set_map t (fun m => if String.eqb m n then Some ab else s_map t m).

Variable ipopt : gnlp -> vec (option R) -> vec (option R) -> vec (option R) -> list R -> option (vec R) -> option (vec R) ->
                 option (vec R * vec R * vec R).

(** the arguments at the call of the NLP solver: :620-636 *)
Definition gprepare (t : gst) (lb ub : vec (option R)) (X0 LX LG : option (vec R)) : gst :=
  let ini (b old : vec (option R)) : vec (option R) := fun i => if in_seg (U_START - nx) nx i then sbound g_SX b (i - (U_START - nx)) else old i in
  let mid : vec (option R) := fun i =>
    match lb i, ub i with Some a, Some b => Some (g_SX i * (/ 2 * (a + b))) | _, _ => None end in
  mkSt (ini lb (s_lbx t)) (ini ub (s_ubx t))
       (match X0 with
        | Some x => fun i => Some (x i)
        | None => fun i => if in_seg 0 U_START i then mid (i mod nx)%nat else s_x0 t i
        end)
       (s_p t) (match LX with Some l => Some l | None => s_lamx t end) (match LG with Some l => Some l | None => s_lamg t end)
       (s_map t) (s_res t).
(** solve: :616-645 *)
Definition gsolve (t : gst) (lb ub : vec (option R)) (X0 LX LG : option (vec R)) : gst * bool :=
  let t := gprepare t lb ub X0 LX LG in
  match ipopt gen_nlp (s_x0 t) (s_lbx t) (s_ubx t) (s_p t) (s_lamx t) (s_lamg t) with
  | Some r => (mkSt (s_lbx t) (s_ubx t) (s_x0 t) (s_p t) (s_lamx t) (s_lamg t) (s_map t) (Some r), true)
  | None => (t, false)
  end.

(** getters: :128-154; column k, row i *)
Definition get_trajectory (t : gst) : option (nat -> nat -> R) :=
  match s_res t with Some (x, _, _) => Some (fun k i => dinv g_SX i * x (k * nx + i)%nat) | None => None end.
Definition get_control (t : gst) : option (nat -> nat -> R) :=
  match s_res t with Some (x, _, _) => Some (fun k i => dinv g_SU i * x (U_START + k * nu + i)%nat) | None => None end.
Definition get_parameters (t : gst) : option (vec R) :=
  match s_res t with Some (x, _, _) => Some (fun i => dinv g_SP i * x (P_START + i)%nat) | None => None end.
Definition get_slacks (t : gst) : option (vec R) :=
  match s_res t with Some (x, _, _) => Some (fun i => x (P_END + i)%nat) | None => None end.

End Gen.
