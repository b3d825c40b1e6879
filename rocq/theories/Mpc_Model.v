(** Model of src/control/mpc_wrapper.hpp: the MPC controller wrapper around an optimal control
    problem and a nonlinear programming solver.

    Simplifications:
    - of the solver only the members the wrapper reads or writes are present (sqp_base.hpp:131-139,
      :162-181: m_x, m_lam, m_p, m_lbx, m_ubx, m_lbg, m_ubg); solve() is not part of this file;
    - bounds, guesses and parameters passed to a setter do not alias the members being written;
    - settings(), qp_settings(), info(), solver(), the norm getters and cost() are plain member
      accesses and are left out; ocp() is present through the call that changes the time limits
      behind the back of the wrapper. *)
Require Import Arith ZArith List Bool Reals.
From Verif Require Import Scal Blk Legendre_Model Spline_Model Ocp_Model.

Section Mpc.
Context {T : Type} {sc : Scalar T}.
Local Open Scope S_scope.

(** mpc_wrapper.hpp:64-71 with the members of the solver *)
Record mpc := mkMpc {
  prob : ocp T;                       (* ocp() *)
  m_x : vec T; m_lam : vec T; m_par : vec T;
  m_lbx : vec T; m_ubx : vec T; m_lbg : vec T; m_ubg : vec T;
  time_grid : vec T;
  seg_nodes : vec T;                  (* time_nodes of the wrapper *)
  basis : option (mat T);             (* None: the basis of a single node is undefined *)
  sgm_length : T;
  nodes_per_segm : nat }.

(** continuous_ocp.hpp:146-159 *)
Definition with_times (o : ocp T) (t0 tf : T) : ocp T :=
  mkOcp (NX o) (NU o) (NP o) (NG o) (PO o) (SG o) (m_D o) (m_nodes o) (m_w o) t0 tf
        (o_dyn o) (o_dyn_jac o) (o_dyn_hes o) (o_ine o) (o_ine_jac o) (o_ine_hes o) (o_lag o) (o_may o).

(** mpc_wrapper.hpp:47-48 and :80-81: time_nodes.reverse() and its head *)
Definition grid_of (o : ocp T) : vec T := fun k => time_nodes o (NUM_NODES o - 1 - k)%nat.

(** mpc_wrapper.hpp:44-54; the solver members keep the values their constructor gave them *)
Definition mpc_init (o : ocp T) (x lam par lbx ubx lbg ubg : vec T) : mpc :=
  let tg := grid_of o in
  {| prob := o; m_x := x; m_lam := lam; m_par := par; m_lbx := lbx; m_ubx := ubx; m_lbg := lbg; m_ubg := ubg;
     time_grid := tg; seg_nodes := seg tg 0; basis := lagrange_basis (PO o + 1) (seg tg 0);
     sgm_length := (t_stop o - t_start o) / snat (SG o);
     nodes_per_segm := NUM_NODES o / SG o |}.

(** the calls a user can make *)
Inductive call :=
| set_time_limits (t0 tf : T)
| ocp_set_time_limits (t0 tf : T)                  (* ocp().set_time_limits(t0, tf) *)
| initial_conditions (x0 : vec T)
| initial_conditions2 (lb ub : vec T)
| x_lower_bound (lb : vec T) | x_upper_bound (ub : vec T) | state_bounds (lb ub : vec T)
| state_trajectory_bounds (lb ub : vec T)
| x_final_lower_bound (lb : vec T) | x_final_upper_bound (ub : vec T) | final_state_bounds (lb ub : vec T)
| u_lower_bound (lb : vec T) | u_upper_bound (ub : vec T) | control_trajecotry_bounds (lb ub : vec T)
| control_bounds (lb ub : vec T)
| constraints_trajectory_bounds (lb ub : vec T) | constraints_bounds (lb ub : vec T)
| parameters_bounds (lb ub : vec T)
| set_static_parameters (p : vec T)
| x_guess (x : vec T) | u_guess (u : vec T) | lam_guess (l : vec T) | p_guess (p : vec T).

(** v.replicate(_, 1) for a column of n entries *)
Definition replicate (n : nat) (v : vec T) : vec T := fun i => v (i mod n)%nat.

Definition set_lbx (s : mpc) (v : vec T) : mpc :=
  mkMpc (prob s) (m_x s) (m_lam s) (m_par s) v (m_ubx s) (m_lbg s) (m_ubg s) (time_grid s) (seg_nodes s) (basis s) (sgm_length s) (nodes_per_segm s).
Definition set_ubx (s : mpc) (v : vec T) : mpc :=
  mkMpc (prob s) (m_x s) (m_lam s) (m_par s) (m_lbx s) v (m_lbg s) (m_ubg s) (time_grid s) (seg_nodes s) (basis s) (sgm_length s) (nodes_per_segm s).
Definition set_g (s : mpc) (l u : vec T) : mpc :=
  mkMpc (prob s) (m_x s) (m_lam s) (m_par s) (m_lbx s) (m_ubx s) l u (time_grid s) (seg_nodes s) (basis s) (sgm_length s) (nodes_per_segm s).
Definition set_sol (s : mpc) (x lam par : vec T) : mpc :=
  mkMpc (prob s) x lam par (m_lbx s) (m_ubx s) (m_lbg s) (m_ubg s) (time_grid s) (seg_nodes s) (basis s) (sgm_length s) (nodes_per_segm s).

(** mpc_wrapper.hpp:74-205 *)
Definition exec (s : mpc) (c : call) : mpc :=
  let o := prob s in
  let nx := NX o in let nu := NU o in let np := NP o in
  let vx := VARX o in let vu := VARU o in
  match c with
  | set_time_limits t0 tf =>                                        (* :74-83 *)
    let o' := with_times o t0 tf in
    let tg := grid_of o' in
    mkMpc o' (m_x s) (m_lam s) (m_par s) (m_lbx s) (m_ubx s) (m_lbg s) (m_ubg s)
      tg (seg tg 0) (lagrange_basis (PO o + 1) (seg tg 0)) ((tf - t0) / snat (SG o)) (nodes_per_segm s)
  | ocp_set_time_limits t0 tf =>                                    (* :221 *)
    mkMpc (with_times o t0 tf) (m_x s) (m_lam s) (m_par s) (m_lbx s) (m_ubx s) (m_lbg s) (m_ubg s)
      (time_grid s) (seg_nodes s) (basis s) (sgm_length s) (nodes_per_segm s)
  | initial_conditions x0 =>                                        (* :86-90 *)
    let s := set_ubx s (vset (m_ubx s) (vx - nx) nx x0) in
    set_lbx s (vset (m_lbx s) (vx - nx) nx x0)
  | initial_conditions2 lb ub =>                                    (* :91-96 *)
    let s := set_ubx s (vset (m_ubx s) (vx - nx) nx ub) in
    set_lbx s (vset (m_lbx s) (vx - nx) nx lb)
  | x_lower_bound lb => set_lbx s (vset (m_lbx s) 0 (vx - nx) (replicate nx lb))   (* :100-103 *)
  | x_upper_bound ub => set_ubx s (vset (m_ubx s) 0 (vx - nx) (replicate nx ub))   (* :104-107 *)
  | state_bounds lb ub =>                                           (* :108-113 *)
    let s := set_lbx s (vset (m_lbx s) 0 (vx - nx) (replicate nx lb)) in
    set_ubx s (vset (m_ubx s) 0 (vx - nx) (replicate nx ub))
  | state_trajectory_bounds lb ub =>                                (* :114-119 *)
    let s := set_lbx s (vset (m_lbx s) 0 vx lb) in set_ubx s (vset (m_ubx s) 0 vx ub)
  | x_final_lower_bound lb => set_lbx s (vset (m_lbx s) 0 nx lb)    (* :121-124 *)
  | x_final_upper_bound ub => set_ubx s (vset (m_ubx s) 0 nx ub)    (* :125-128 *)
  | final_state_bounds lb ub =>                                     (* :129-134 *)
    let s := set_lbx s (vset (m_lbx s) 0 nx lb) in set_ubx s (vset (m_ubx s) 0 nx ub)
  | u_lower_bound lb => set_lbx s (vset (m_lbx s) vx vu (replicate nu lb))         (* :137-140 *)
  | u_upper_bound ub => set_ubx s (vset (m_ubx s) vx vu (replicate nu ub))         (* :141-144 *)
  | control_trajecotry_bounds lb ub =>                              (* :145-150 *)
    let s := set_lbx s (vset (m_lbx s) vx vu lb) in set_ubx s (vset (m_ubx s) vx vu ub)
  | control_bounds lb ub =>                                         (* :151-156 *)
    let s := set_lbx s (vset (m_lbx s) vx vu (replicate nu lb)) in
    set_ubx s (vset (m_ubx s) vx vu (replicate nu ub))
  | constraints_trajectory_bounds lb ub => set_g s lb ub            (* :159-164 *)
  | constraints_bounds lb ub => set_g s (replicate (NG o) lb) (replicate (NG o) ub)  (* :166-171 *)
  | parameters_bounds lb ub =>                                      (* :174-178 *)
    let s := set_lbx s (vset (m_lbx s) (VAR o - np) np lb) in
    set_ubx s (vset (m_ubx s) (VAR o - np) np ub)
  | set_static_parameters p => set_sol s (m_x s) (m_lam s) p        (* :181-184 *)
  | x_guess x => set_sol s (vset (m_x s) 0 vx x) (m_lam s) (m_par s)               (* :187-190 *)
  | u_guess u => set_sol s (vset (m_x s) vx vu u) (m_lam s) (m_par s)              (* :191-194 *)
  | lam_guess l => set_sol s (m_x s) l (m_par s)                    (* :195-198 *)
  | p_guess p => set_sol s (vset (m_x s) (VAR o - np) np p) (m_lam s) (m_par s)    (* :199-202 *)
  end.
Definition run_calls (s : mpc) (l : list call) : mpc := fold_left exec l s.

(** * getters *)
(** mpc_wrapper.hpp:231-235, :262-265, :287-290, :293-296 *)
Definition solution_x (s : mpc) : vec T := m_x s.
Definition solution_u (s : mpc) : vec T := seg (m_x s) (VARX (prob s)).
Definition solution_p (s : mpc) : vec T := seg (m_x s) (VAR (prob s) - NP (prob s)).
Definition solution_dual (s : mpc) : vec T := m_lam s.
(** :237-241 column-major view with nx rows, columns reversed; :266-270 *)
Definition solution_x_reshaped (s : mpc) : mat T :=
  fun c j => m_x s (c + (NUM_NODES (prob s) - 1 - j) * NX (prob s))%nat.
Definition solution_u_reshaped (s : mpc) : mat T :=
  fun c j => solution_u s (c + (NUM_NODES (prob s) - 1 - j) * NU (prob s))%nat.
(** :242-245, :271-274: segment outside of the vector is undefined ([None]) *)
Definition segmentZ (size : nat) (v : vec T) (start : Z) (n : nat) : option (vec T) :=
  if ((0 <=? start)%Z && (start + Z.of_nat n <=? Z.of_nat size)%Z)%bool
  then Some (seg v (Z.to_nat start)) else None.
Definition solution_x_node (s : mpc) (k : Z) : option (vec T) :=
  let o := prob s in
  segmentZ (VAR o) (m_x s) (Z.of_nat (VARX o) - (k + 1) * Z.of_nat (NX o)) (NX o).
Definition solution_u_node (s : mpc) (k : Z) : option (vec T) :=
  let o := prob s in
  segmentZ (VAR o) (m_x s) (Z.of_nat (VARX o) + Z.of_nat (VARU o) - (k + 1) * Z.of_nat (NU o)) (NU o).
End Mpc.
Arguments mpc : clear implicits.
Arguments call : clear implicits.

Section Interp.
Local Open Scope R_scope.
(** (Eigen::Index)std::floor(x): values outside of the 64-bit range are undefined *)
Definition floor_index (x : R) : option Z :=
  let z := Int_part x in
  if ((- 2 ^ 63 <=? z)%Z && (z <=? 2 ^ 63 - 1)%Z)%bool then Some z else None.
(** mpc_wrapper.hpp:246-257 and :275-285; a block that does not fit, an undefined basis or a
    division by a zero segment length is [None] *)
Definition interp_at (s : mpc R) (reshaped : mat R) (t : R) : option (vec R) :=
  let o := prob s in
  if Req_EM_T (sgm_length s) 0 then None else
  match floor_index (t / sgm_length s), basis s with
  | Some z, Some B =>
    let idx := Z.max 0 (Z.min z (Z.of_nat (SG o) - 1)) in
    let col := (Z.to_nat idx * nodes_per_segm s)%nat in
    if (col + (PO o + 1) <=? NUM_NODES o)%nat
    then Some (lagrange_eval (PO o + 1) (t - IZR idx * sgm_length s) (fun c j => reshaped c (col + j)%nat) B)
    else None
  | _, _ => None
  end.
Definition solution_x_at (s : mpc R) (t : R) : option (vec R) := interp_at s (solution_x_reshaped s) t.
Definition solution_u_at (s : mpc R) (t : R) : option (vec R) := interp_at s (solution_u_reshaped s) t.
End Interp.
