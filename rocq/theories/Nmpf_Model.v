(** Model of the CasADi path following controller polympc::nmpf, src/nmpf.hpp.

    Simplifications (see also Cas_Model.v, Pso_Model.v and Nmpc_Model.v):
    - the scaling matrices are diagonal, as in Nmpc_Model.v; the members of the two classes are the same, so the record
      [nst] of that file is used (t_init is _initialized: :124), and setStateScaling and setControlScaling (:53-56) are the
      functions of that file;
    - the sizes of weights, bounds, path parameters and X0 are right and the path has as many outputs as the system
      (assertions :147-148, 172-229); default path parameters are given if there are path parameters;
    - the cost functions contain the symbols of the reference velocity and of the path parameters as free
      variables (:355, 358); the model evaluates them with the parameters p of the NLP;
    - nlpsol (IPOPT) is the argument [ipopt], as in Nmpc_Model.v;
    - solver options, statistics, messages, AugJacobian and the functions without a definition (setPath) are left out. *)
Require Import Arith List Bool Reals.
From Verif Require Import Scal Blk Cas_Model Pso_Model Nmpc_Model.
Import ListNotations.
Local Open Scope R_scope.

(** template arguments and constructor arguments: :19-23, 137-234 *)
Record pf := mkPf {
  h_S : nat; h_P : nat; h_nx : nat; h_nu : nat; h_ny : nat; h_tf : R;
  h_dyn : cfun;                        (* system.getDynamics() *)
  h_out : list R -> vec R;             (* system.getOutputMapping() *)
  h_path : cfun;                       (* Path: of theta, or of theta and the path parameters *)
  h_dpath : list (list R) -> vec R;    (* SX::jacobian of the path with respect to theta *)
  h_Q : mat R; h_R : mat R; h_W : R;   (* mpc.Q, mpc.R, mpc.W *)
  h_scale : bool;                      (* mpc.scaling *)
  h_sx : option (vec R);               (* mpc.scale_x *)
  h_su : option (vec R);               (* mpc.scale_u *)
  h_reset : R;                         (* mpc.reset_path_after *)
  h_npp : nat;                         (* mpc.num_path_params *)
  h_pp0 : list R;                      (* mpc.default_path_params *)
  h_flex : R }.                        (* mpc.flexibility *)

Section Nmpf.
Variable ipopt : nlp -> narg -> vec R -> vec R -> option (vec R * vec R * vec R).
Variable s : pf.
Local Notation nx := (h_nx s).
Local Notation nu := (h_nu s).
Local Notation dx := (h_nx s + 2)%nat.     (* dimx: :296 *)
Local Notation du := (h_nu s + 1)%nat.     (* dimu: :297 *)
Local Notation N := (h_P s * h_S s)%nat.   (* NUM_COLLOCATION_POINTS: :301 *)

(** Scale_X and Scale_U after the constructor: :161-183 *)
Definition pf_sx : vec R := match h_scale s, h_sx s with true, Some d => d | _, _ => fun _ => 1 end.
Definition pf_su : vec R := match h_scale s, h_su s with true, Some d => d | _, _ => fun _ => 1 end.

(** aug_dynamo: :267-286.  The entries nx and nx + 1 of the state are theta and its velocity. *)
Definition aug_dyn (x u : list R) : vec R := fun i =>
  if (i <? nx)%nat then f_val (h_dyn s) [firstn nx x; firstn nu u] i
  else if (i =? nx)%nat then nth (nx + 1) x 0 else nth nu u 0.
(** the collocated function: :307-318 *)
Definition pf_fun : cfun :=
  mkFun 2 dx (fun l =>
    match l with
    | x :: u :: _ => if h_scale s then fun i => pf_sx i * aug_dyn (dmul (dinv pf_sx) x) (dmul (dinv pf_su) u) i
                     else aug_dyn x u
    | _ => fun _ => 0
    end).

(** the arguments of PathFunc: :329-332, 343-346 *)
Definition path_args (th : R) (p : list R) : list (list R) :=
  if (0 <? h_npp s)%nat then [[th]; tl p] else [[th]].
(** residual: :329-335, 343-348; [p] = (reference velocity, path parameters) *)
Definition pf_residual (p : list R) (x : list R) : vec R := fun i =>
  if h_scale s
  then f_val (h_path s) (path_args (dinv pf_sx nx * nth nx x 0) p) i - h_out s (dmul (dinv pf_sx) (firstn nx x)) i
  else f_val (h_path s) (path_args (nth nx x 0) p) i - h_out s (firstn nx x) i.
(** VelError: :324, 375 *)
Definition pf_velerr (p : list R) (x : list R) : R := dinv pf_sx (nx + 1)%nat * (nth 0 p 0 - nth (nx + 1) x 0).
(** LagrangeTerm: :336-338, 349-355 *)
Definition pf_lag (p : list R) : cfun :=
  mkFun 2 1 (fun l => match l with
    | x :: u :: _ => fun _ =>
        if h_scale s
        then wsum (h_ny s) (h_Q s) (pf_residual p x) + h_W s * (pf_velerr p x) ^ 2 + wsum du (h_R s) (lval (dmul (dinv pf_su) u))
        else wsum (h_ny s) (h_Q s) (pf_residual p x) + h_W s * (nth 0 p 0 - nth (nx + 1) x 0) ^ 2 + wsum du (h_R s) (lval u)
    | _ => fun _ => 0
    end).
(** MayerTerm: :357-358 *)
Definition pf_may (p : list R) : cfun :=
  mkFun 1 1 (fun l => match l with x :: _ => fun _ => wsum (h_ny s) (h_Q s) (pf_residual p x) | _ => fun _ => 0 end).

(** the NLP: :303-375, 394-397.  The variable is the states followed by the controls; the rows of all the nodes are kept
    (:320 is commented out). *)
Definition pf_cas : cas := mkCas (h_P s) (h_S s) dx du 0 0.
Definition pf_U (x : vec R) : vec R := fun i => x ((N + 1) * dx + i)%nat.
Definition pf_Gv (x : vec R) : vec R :=
  match cas_dynamics pf_cas pf_fun 0 (h_tf s) x (pf_U x) (fun _ => 0) (fun _ => 0) with
  | Some G => G | None => fun _ => 0 end.
Definition pf_cost (p : list R) (x : vec R) : R :=
  match cas_cost pf_cas (Some (pf_may p)) (Some (pf_lag p)) 0 (h_tf s) x (pf_U x) with
  | Some v => v | None => 0 end.
Definition pf_nlp : nlp :=
  mkNlp ((N + 1) * dx + (N + 1) * du) ((N + 1) * dx) (h_npp s + 1)
        (fun x p => pf_cost (map p (seq 0 (h_npp s + 1))) x) (fun x _ => pf_Gv x).

(** setReferenceVelocity, setPathParameters: :58-59 *)
Definition setReferenceVelocity (t : nst) (v : R) : nst :=
  let a := t_arg t in set_arg t (mkArg (a_x0 a) (a_lbx a) (a_ubx a) (t_sx t (nx + 1)%nat * v :: tl (a_p a))).
Definition setPathParameters (t : nst) (q : list R) : nst :=
  let a := t_arg t in set_arg t (mkArg (a_x0 a) (a_lbx a) (a_ubx a) (nth 0 (a_p a) 0 :: q)).

(** constructor: :138-246, 258-430: infinite bounds, zero guess, reference velocity 1.  A path with the wrong number of
    arguments throws (:330, 332, 344, 346). *)
Definition pf_new : option nst :=
  if (f_nin (h_path s) =? length (path_args 0 []))%nat && (f_nin (h_dyn s) =? 2)%nat then
    Some (setPathParameters (setReferenceVelocity
           (mkNst pf_sx pf_su (mkArg (fun _ => 0) (fun _ => None) (fun _ => None) (repeat 0 (h_npp s + 1)))
                  (fun _ => 0) (fun _ => 0) None (fun _ => 0) (fun _ => 0) false false None None) 1) (h_pp0 s))
  else None.

(** repmat(S * b, N + 1, 1) written at the rows from [o] on: :27-53 *)
Definition pf_put (o n : nat) (d : vec R) (b : vec (option R)) (old : vec (option R)) : vec (option R) :=
  fun i => if in_seg o ((N + 1) * n) i then sbound d b ((i - o) mod n) else old i.
Definition pf_setLBX (t : nst) (b : vec (option R)) : nst :=
  let a := t_arg t in set_arg t (mkArg (a_x0 a) (pf_put 0 dx (t_sx t) b (a_lbx a)) (a_ubx a) (a_p a)).
Definition pf_setUBX (t : nst) (b : vec (option R)) : nst :=
  let a := t_arg t in set_arg t (mkArg (a_x0 a) (a_lbx a) (pf_put 0 dx (t_sx t) b (a_ubx a)) (a_p a)).
Definition pf_setLBU (t : nst) (b : vec (option R)) : nst :=
  let a := t_arg t in set_arg t (mkArg (a_x0 a) (pf_put ((N + 1) * dx) du (t_su t) b (a_lbx a)) (a_ubx a) (a_p a)).
Definition pf_setUBU (t : nst) (b : vec (option R)) : nst :=
  let a := t_arg t in set_arg t (mkArg (a_x0 a) (a_lbx a) (pf_put ((N + 1) * dx) du (t_su t) b (a_ubx a)) (a_p a)).

(** NLP_X(Slice(nx, (N + 1) * (nx + 2), nx + 2)) += c: :448, 453 *)
Definition shift (c : R) (x : vec R) : vec R :=
  fun i => if (i <? (N + 1) * dx)%nat && (i mod dx =? nx)%nat then x i + c else x i.
(** the change of theta of a warm start, in scaled coordinates: :443-454 *)
Definition theta_change (t : nst) (th : R) : R :=
  let critical := t_sx t nx * h_reset s in
  if t_warm t then
    if Rlt_dec critical th then - critical
    else if Rlt_dec th (- critical) then critical else 0
  else 0.
(** the bounds of the initial node: :456-467, 476-487 *)
Definition ini_bound (sgn : R) (t : nst) (X0 : list R) (b : vec (option R)) : vec (option R) := fun i =>
  if in_seg (N * dx) dx i then
    let k := (i - N * dx)%nat in
    Some (if (k <? nx)%nat then nth k X0 0 else nth k X0 0 + sgn * (t_sx t k * h_flex s))
  else b i.
(** the state when NLP_Solver is called: :435-488.  Warm start before the first solution: the assignment to the
    empty NLP_X throws; without it the guess is the empty NLP_X, which CasADi reads as zeros. *)
Definition pf_prepare (t : nst) (X : list R) : option nst :=
  let X0 := dmul (t_sx t) X in
  let c := theta_change t (nth nx X0 0) in
  let X0 := map (fun i => if (i =? nx)%nat then nth i X0 0 + c else nth i X0 0) (seq 0 (length X0)) in
  let a := t_arg t in
  let lb := ini_bound (-1) t X0 (a_lbx a) in
  let ub := ini_bound 1 t X0 (a_ubx a) in
  if t_warm t then
    match t_nlpx t with
    | Some x => Some (mkNst (t_sx t) (t_su t) (mkArg (shift c x) lb ub (a_p a)) (t_nlamx t) (t_nlamg t)
                            (Some (shift c x)) (t_nlamx t) (t_nlamg t) true (t_init t) (t_traj t) (t_ctrl t))
    | None => if Req_EM_T c 0 then
                Some (mkNst (t_sx t) (t_su t) (mkArg (fun _ => 0) lb ub (a_p a)) (t_nlamx t) (t_nlamg t)
                            None (t_nlamx t) (t_nlamg t) true (t_init t) (t_traj t) (t_ctrl t))
              else None
    end
  else
    Some (mkNst (t_sx t) (t_su t)
                (mkArg (fun i => if in_seg 0 ((N + 1) * dx) i then repv X0 i else a_x0 a i) lb ub (a_p a))
                (t_lamx t) (t_lamg t) (t_nlpx t) (t_nlamx t) (t_nlamg t) false (t_init t) (t_traj t) (t_ctrl t)).
(** computeControl: :432-515.  [false]: an exception. *)
Definition pf_compute (t : nst) (X0 : list R) : nst * bool :=
  match pf_prepare t X0 with
  | None => (t, false)
  | Some t =>
      match ipopt pf_nlp (t_arg t) (t_lamx t) (t_lamg t) with
      | None => (t, false)
      | Some (x, lx, lg) =>
          (mkNst (t_sx t) (t_su t) (t_arg t) (t_lamx t) (t_lamg t) (Some x) lx lg true (t_init t)
                 (Some (fun k i => dinv (t_sx t) i * x (k * dx + i)%nat))
                 (Some (fun k i => dinv (t_su t) i * x ((N + 1) * dx + k * du + i)%nat)), true)
      end
  end.

(** OptimalTrajectory(all, last), scaled: :524-525, 539-540 *)
Definition last_state (t : nst) (w : nat -> nat -> R) : list R := dmul (t_sx t) (map (fun i => w N i) (seq 0 dx)).
(** getPathError: :518-530 *)
Definition pf_getPathError (t : nst) : R :=
  match t_traj t with
  | None => 0
  | Some w => sqrt (ssum (h_ny s) (fun i => (pf_residual (a_p (t_arg t)) (last_state t w) i) ^ 2))
  end.
(** getVelocityError: :533-545 *)
Definition pf_getVelocityError (t : nst) : R :=
  match t_traj t with
  | None => 0
  | Some w => sqrt ((pf_velerr (a_p (t_arg t)) (last_state t w)) ^ 2)
  end.
(** getVirtState: :548-557; [None]: row 13 does not exist *)
Definition pf_getVirtState (t : nst) : option R :=
  match t_traj t with
  | None => Some 0
  | Some w => if (13 <? dx)%nat then Some (w N 13%nat) else None
  end.
(** getCost: :560-565 *)
Definition pf_getCost (t : nst) : R := pf_cost (a_p (t_arg t)) (a_x0 (t_arg t)).

(** findClosestPointOnPath: :568-602.  [None]: an exception (:580 always passes two arguments) or a division by
    zero (not a number in the code). *)
Definition res_fun (p : list R) (pos : vec R) (th : R) : vec R := fun i => f_val (h_path s) (path_args th p) i - pos i.
Definition grad_fun (p : list R) (th : R) : vec R := fun i => h_dpath s [[th]; tl p] i.
Definition dot (u v : vec R) : R := ssum (h_ny s) (fun i => u i * v i).
Definition newton (p : list R) (pos : vec R) (th : R) : option (R * R) :=
  let g := grad_fun p th in
  let r := res_fun p pos th in
  if Req_EM_T (dot g g) 0 then None else Some (th + - dot g r / dot g g, dot r g).
(** the loop: :584-600; [n] iterations are left *)
Fixpoint closest_loop (n : nat) (p : list R) (pos : vec R) (th orth : R) : option R :=
  match n with
  | O => Some th
  | S n => if Rle_dec (1 / 10) (Rabs orth) then
             match newton p pos th with
             | Some (th', orth') => closest_loop n p pos th' orth'
             | None => None
             end
           else Some th
  end.
Definition findClosestPointOnPath (t : nst) (pos : vec R) (init : R) : option R :=
  if (f_nin (h_path s) =? 2)%nat then closest_loop 11 (a_p (t_arg t)) pos init 1 else None.

End Nmpf.
