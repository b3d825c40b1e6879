(** Model of the CasADi tracking controller polympc::nmpc, src/nmpc.hpp.

    Simplifications (see also Cas_Model.v and Pso_Model.v):
    - the scaling matrices are diagonal ([vec], entry i on the diagonal), DM::solve(S, eye) is the
      reciprocal diagonal, off-diagonal entries are structural zeros; an infinite bound stays infinite under scaling (positive entries);
    - the sizes of reference, weights, bounds and X0 are right (assertions :152-159, 173-210);
    - nlpsol (IPOPT) is the argument [ipopt]: a function of the problem, the arguments and the
      multipliers; it returns x, lam_x, lam_g, or [None] if it throws;
    - solver options, statistics and messages are left out. *)
Require Import Arith List Bool Reals.
From Verif Require Import Scal Blk Cas_Model Pso_Model.
Import ListNotations.
Local Open Scope R_scope.

(** template arguments and constructor arguments: :39-43, 144-212 *)
Record nmpc := mkNmpc {
  m_S : nat; m_P : nat; m_nx : nat; m_nu : nat; m_ny : nat; m_tf : R;
  m_dyn : cfun;                 (* system.getDynamics() *)
  m_out : list R -> vec R;      (* system.getOutputMapping() *)
  m_ref : vec R;
  m_Q : mat R; m_R : mat R; m_PW : mat R;   (* mpc.Q, mpc.R, mpc.P *)
  m_scale : bool;               (* mpc.scaling *)
  m_sx : option (vec R);        (* mpc.scale_x *)
  m_su : option (vec R) }.      (* mpc.scale_u *)

(** diagonal matrix times column *)
Definition dmul (d : vec R) (l : list R) : list R := map (fun i => d i * nth i l 0) (seq 0 (length l)).
Definition dinv (d : vec R) : vec R := fun i => / d i.

Section Nmpc.
Variable ipopt : nlp -> narg -> vec R -> vec R -> option (vec R * vec R * vec R).
Variable s : nmpc.
Local Notation nx := (m_nx s).
Local Notation nu := (m_nu s).
Local Notation N := (m_P s * m_S s)%nat.   (* NUM_COLLOCATION_POINTS: :262 *)

(** Scale_X and Scale_U after the constructor: :165-169, 194-212 *)
Definition ini_sx : vec R := match m_scale s, m_sx s with true, Some d => d | _, _ => fun _ => 1 end.
Definition ini_su : vec R := match m_scale s, m_su s with true, Some d => d | _, _ => fun _ => 1 end.
(** Without mpc.scale_x the matrix is eye(ny) (:165) although it multiplies states: the products of
    :270 and :322 throw unless ny = NX or ny = 1 (a scalar); the slice of invSX (:287) needs NX rows. *)
Definition sizes_ok : bool :=
  match m_scale s, m_sx s with
  | true, Some _ => true
  | true, None => (m_ny s =? nx)%nat
  | false, _ => (m_ny s =? nx)%nat || (m_ny s =? 1)%nat
  end.

Definition nmpc_cas : cas := mkCas (m_P s) (m_S s) nx nu 0 0.
(** the collocated function: :268-279 *)
Definition nmpc_fun : cfun :=
  if m_scale s then
    mkFun 2 (f_out (m_dyn s)) (fun l =>
      match l with
      | x :: u :: _ => fun i => ini_sx i * f_val (m_dyn s) [dmul (dinv ini_sx) x; dmul (dinv ini_su) u] i
      | _ => fun _ => 0
      end)
  else m_dyn s.
(** residual: :287-288, 294, 302 *)
Definition residual (x : list R) : vec R :=
  fun i => m_ref s i - m_out s (if m_scale s then dmul (dinv ini_sx) x else x) i.
(** sum1(mtimes(M, pow(v, 2))) *)
Definition wsum (n : nat) (M : mat R) (v : vec R) : R := ssum n (fun i => ssum n (fun j => M i j * (v j) ^ 2)).
(** LagrangeTerm: :289-290, 295-299 *)
Definition nmpc_lag : cfun :=
  mkFun 2 1 (fun l => match l with
                      | x :: u :: _ => fun _ => wsum (m_ny s) (m_Q s) (residual x) + wsum nu (m_R s) (lval u)
                      | _ => fun _ => 0
                      end).
(** MayerTerm: :304-305 *)
Definition nmpc_may : cfun :=
  mkFun 1 1 (fun l => match l with x :: _ => fun _ => wsum (m_ny s) (m_PW s) (residual x) | _ => fun _ => 0 end).

(** the NLP: :281 (the rows of the initial node are dropped), 306-336.  The variable is the states followed by
    the controls. *)
Definition nmpc_U (x : vec R) : vec R := fun i => x ((N + 1) * nx + i)%nat.
Definition nmpc_Gv (x : vec R) : vec R :=
  match cas_dynamics nmpc_cas nmpc_fun 0 (m_tf s) x (nmpc_U x) (fun _ => 0) (fun _ => 0) with
  | Some G => G | None => fun _ => 0 end.
Definition nmpc_cost (x : vec R) : R :=
  match cas_cost nmpc_cas (Some nmpc_may) (Some nmpc_lag) 0 (m_tf s) x (nmpc_U x) with
  | Some v => v | None => 0 end.
Definition nmpc_nlp : nlp :=
  mkNlp ((N + 1) * nx + (N + 1) * nu) (N * nx) 0 (fun x _ => nmpc_cost x) (fun x _ => nmpc_Gv x).

(** members: :93-130 *)
Record nst := mkNst { t_sx : vec R; t_su : vec R; t_arg : narg; t_lamx : vec R; t_lamg : vec R;
                      t_nlpx : option (vec R); t_nlamx : vec R; t_nlamg : vec R;
                      t_warm : bool; t_init : bool;
                      t_traj : option (nat -> nat -> R);     (* column k, row i *)
                      t_ctrl : option (nat -> nat -> R) }.

(** constructor: :144-225, 238-364: infinite bounds, zero guess *)
Definition nmpc_new : option nst :=
  if sizes_ok then
    match cas_dynamics nmpc_cas nmpc_fun 0 (m_tf s) (fun _ => 0) (fun _ => 0) (fun _ => 0) (fun _ => 0) with
    | Some _ => Some (mkNst ini_sx ini_su (mkArg (fun _ => 0) (fun _ => None) (fun _ => None) []) (fun _ => 0) (fun _ => 0)
                            None (fun _ => 0) (fun _ => 0) false false None None)
    | None => None
    end
  else None.

Definition sbound (d : vec R) (b : vec (option R)) (i : nat) : option R :=
  match b i with Some v => Some (d i * v) | None => None end.
Definition set_arg (t : nst) (a : narg) : nst :=
  mkNst (t_sx t) (t_su t) a (t_lamx t) (t_lamg t) (t_nlpx t) (t_nlamx t) (t_nlamg t) (t_warm t) (t_init t) (t_traj t) (t_ctrl t).
(** repmat(S * b, N + 1, 1) written at the rows from [o] on: :47-70 *)
Definition put (o n : nat) (d : vec R) (b : vec (option R)) (old : vec (option R)) : vec (option R) :=
  fun i => if in_seg o ((N + 1) * n) i then sbound d b ((i - o) mod n) else old i.
Definition setLBX (t : nst) (b : vec (option R)) : nst :=
  let a := t_arg t in set_arg t (mkArg (a_x0 a) (put 0 nx (t_sx t) b (a_lbx a)) (a_ubx a) (a_p a)).
Definition setUBX (t : nst) (b : vec (option R)) : nst :=
  let a := t_arg t in set_arg t (mkArg (a_x0 a) (a_lbx a) (put 0 nx (t_sx t) b (a_ubx a)) (a_p a)).
Definition setLBU (t : nst) (b : vec (option R)) : nst :=
  let a := t_arg t in set_arg t (mkArg (a_x0 a) (put ((N + 1) * nx) nu (t_su t) b (a_lbx a)) (a_ubx a) (a_p a)).
Definition setUBU (t : nst) (b : vec (option R)) : nst :=
  let a := t_arg t in set_arg t (mkArg (a_x0 a) (a_lbx a) (put ((N + 1) * nx) nu (t_su t) b (a_ubx a)) (a_p a)).
(** setStateScaling, setControlScaling: :72-75 *)
Definition setStateScaling (t : nst) (d : vec R) : nst :=
  mkNst d (t_su t) (t_arg t) (t_lamx t) (t_lamg t) (t_nlpx t) (t_nlamx t) (t_nlamg t) (t_warm t) (t_init t) (t_traj t) (t_ctrl t).
Definition setControlScaling (t : nst) (d : vec R) : nst :=
  mkNst (t_sx t) d (t_arg t) (t_lamx t) (t_lamg t) (t_nlpx t) (t_nlamx t) (t_nlamg t) (t_warm t) (t_init t) (t_traj t) (t_ctrl t).
(** enableWarmStart, disableWarmStart: :80-81 *)
Definition setWarm (t : nst) (w : bool) : nst :=
  mkNst (t_sx t) (t_su t) (t_arg t) (t_lamx t) (t_lamg t) (t_nlpx t) (t_nlamx t) (t_nlamg t) w (t_init t) (t_traj t) (t_ctrl t).

(** the state when NLP_Solver is called: :369-396.  The guess of a warm start before the first solution is the
    empty NLP_X, which CasADi reads as zeros.  (If the solver then throws, ARG["x0"] stays empty and a later cold start
    throws at :388; the model keeps zeros.) *)
Definition prepare (t : nst) (X0 : list R) : nst :=
  let X0 := dmul (t_sx t) X0 in
  let a := t_arg t in
  let ini (b : vec (option R)) : vec (option R) := fun i => if in_seg (N * nx) nx i then Some (lval X0 (i - N * nx)%nat) else b i in
  let x0 : vec R := if t_warm t then match t_nlpx t with Some x => x | None => fun _ => 0 end
                    else fun i => if in_seg 0 ((N + 1) * nx) i then repv X0 i else a_x0 a i in
  mkNst (t_sx t) (t_su t) (mkArg x0 (ini (a_lbx a)) (ini (a_ubx a)) (a_p a))
        (if t_warm t then t_nlamx t else t_lamx t) (if t_warm t then t_nlamg t else t_lamg t)
        (t_nlpx t) (t_nlamx t) (t_nlamg t) (t_warm t) (t_init t) (t_traj t) (t_ctrl t).
(** computeControl: :367-425 *)
Definition computeControl (t : nst) (X0 : list R) : nst * bool :=
  let t := prepare t X0 in
  match ipopt nmpc_nlp (t_arg t) (t_lamx t) (t_lamg t) with
  | None => (t, false)
  | Some (x, lx, lg) =>
      (mkNst (t_sx t) (t_su t) (t_arg t) (t_lamx t) (t_lamg t) (Some x) lx lg true (t_init t)
             (Some (fun k i => dinv (t_sx t) i * x (k * nx + i)%nat))
             (Some (fun k i => dinv (t_su t) i * x ((N + 1) * nx + k * nu + i)%nat)), true)
  end.
(** getPathError: :428-440 *)
Definition getPathError (t : nst) : R :=
  match t_traj t with
  | None => 0
  | Some w => let state := dmul (t_sx t) (map (fun i => w N i) (seq 0 nx)) in
              sqrt (ssum (m_ny s) (fun i => (residual state i) ^ 2))
  end.

End Nmpc.
