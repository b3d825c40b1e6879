(** Model of the pseudospectral ODE solver of the CasADi interface: PSODESolver in
    src/integration/chebyshev_integrator.hpp (165-487).  The first class of that file
    (eig_chebyshev_solver, 17-161) consists of comments only.

    Simplifications:
    - numbers are real numbers, an infinite bound is [None]; see Cas_Model.v for symbolic expressions;
    - nlpsol (IPOPT) is the argument [ipopt]: any function of the problem and its arguments; [None] if
      it throws.  DM::inv is the argument [inv];
    - DM arguments X0, U, P are columns (lists); the default P = DM() is the empty list;
    - an operation that throws inside CasADi (size mismatch) gives [None] for the call;
    - messages, statistics and the solver options are left out. *)
Require Import Arith List Bool Reals.
From Verif Require Import Scal Blk Cas_Model.
Import ListNotations.
Local Open Scope R_scope.

(** a CasADi NLP: sizes, objective and constraints as functions of x and p *)
Record nlp := mkNlp { l_nx : nat; l_ng : nat; l_np : nat; l_f : vec R -> vec R -> R; l_g : vec R -> vec R -> vec R }.
(** the dictionary ARG; [a_p] is a column of any length *)
Record narg := mkArg { a_x0 : vec R; a_lbx : vec (option R); a_ubx : vec (option R); a_p : list R }.

(** template arguments and properties: :167-168, 196-206 *)
Record pso := mkPso { p_order : nat; p_segs : nat; p_nx : nat; p_nu : nat; p_np : nat;
                      p_scale : bool; p_P : mat R; p_R : mat R; p_dt : R; p_ode : cfun }.

Definition lval (l : list R) : vec R := fun i => nth i l 0.
(** product of a square matrix of size [n] with a column *)
Definition lmul (n : nat) (M : mat R) (l : list R) : list R :=
  map (fun i => ssum n (fun j => M i j * nth j l 0)) (seq 0 n).
(** DM::mtimes(P, X0) for columns P and X0: a scalar factor multiplies all the entries, otherwise the
    inner sizes (1 for a column, 0 for DM()) have to agree *)
Definition pmul (P X0 : list R) : option (list R) :=
  match P, X0 with
  | [p], _ => Some (map (fun x => p * x) X0)
  | _, [x] => Some (map (fun p => p * x) P)
  | [], [] => Some []
  | _, _ => None
  end.
(** the value that a function with [n] parameters receives for the column [P]: empty gives zeros, a
    scalar is copied, other sizes have to agree *)
Definition pvalue (n : nat) (P : list R) : option (vec R) :=
  match P with
  | [] => Some (fun _ => 0)
  | [p] => Some (fun _ => p)
  | _ => if (length P =? n)%nat then Some (lval P) else None
  end.
(** repmat(l, N, 1) *)
Definition repv (l : list R) : vec R := fun i => nth (i mod length l) l 0.

Section Pso.
Variable inv : nat -> mat R -> mat R.
Variable ipopt : nlp -> narg -> option (vec R).
Variable s : pso.
Local Notation nx := (p_nx s).
Local Notation nu := (p_nu s).

(** number of nodes, NumSegments * PolyOrder + 1 *)
Definition pso_N : nat := p_segs s * p_order s + 1.
(** Chebyshev<SX, PolyOrder, NumSegments, NX, NU, NP> with the default ND = 0: :208 *)
Definition pso_cas : cas := mkCas (p_order s) (p_segs s) nx nu (p_np s) 0.

(** the function passed to CollocateDynamics: :211-236 (scaled), 240-250 *)
Definition pso_fun : cfun :=
  if p_scale s then
    mkFun (if (0 <? p_np s)%nat then 3 else 2) (f_out (p_ode s)) (fun l =>
      match l with
      | z :: r :: rest =>
          fun i => ssum nx (fun j => p_P s i j *
            f_val (p_ode s) (lmul nx (inv nx (p_P s)) z :: lmul nu (inv nu (p_R s)) r ::
                             (if (0 <? p_np s)%nat then firstn 1 rest else [])) j)
      | _ => fun _ => 0
      end)
  else
    mkFun (if (0 <? p_np s)%nat then 4 else 2) (f_out (p_ode s)) (fun l =>
      match l with
      | x :: u :: rest => f_val (p_ode s) (x :: u :: (if (0 <? p_np s)%nat then firstn 1 rest else []))
      | _ => fun _ => 0
      end).

(** the NLP: :254-289.  The last NX rows of G are dropped (:254); [None] if CollocateDynamics throws. *)
Definition pso_G (x p : vec R) : option (vec R) :=
  cas_dynamics pso_cas pso_fun 0 (p_dt s) x (fun i => x (pso_N * nx + i)%nat) p (fun _ => 0).
Definition pso_ng : nat := pso_N * nx - nx.
Definition pso_Gv (x p : vec R) : vec R := match pso_G x p with Some G => G | None => fun _ => 0 end.
Definition pso_nlp : nlp :=
  mkNlp (pso_N * nx + pso_N * nu) pso_ng (p_np s)
        (fun x p => / 1000 * ssum pso_ng (fun i => pso_Gv x p i * pso_Gv x p i)) pso_Gv.
(** construction: :192-317.  [None] if the collocation throws.  All the bounds are infinite (:265-279), the
    initial guess is (inf - inf) / 2 and overwritten before every use: here 0. *)
Definition pso_init : option narg :=
  match pso_G (fun _ => 0) (fun _ => 0) with
  | Some _ => Some (mkArg (fun _ => 0) (fun _ => None) (fun _ => None) (repeat 0 (p_np s)))
  | None => None
  end.

(** the assignments before the solver call: :337-371 and 417-453; [z0] and [w] are the (scaled) initial
    state and the stack of the (scaled) controls *)
Definition pso_set (a : narg) (z0 : list R) (w : vec R) (P : list R) : narg :=
  let nX := (pso_N * nx)%nat in
  let idx := (p_segs s * p_order s * nx)%nat in
  let bnd (b : vec (option R)) : vec (option R) := fun i =>
        if in_seg nX (pso_N * nu) i then Some (w (i - nX)%nat)
        else if in_seg idx nx i then Some (lval z0 (i - idx)%nat) else b i in
  mkArg (fun i => if in_seg nX (pso_N * nu) i then w (i - nX)%nat
                  else if in_seg 0 nX i then repv z0 i else a_x0 a i)
        (bnd (a_lbx a)) (bnd (a_ubx a)) P.

(** NLP_Solver(ARG): :373 *)
Definition pso_call (a : narg) : option (vec R) :=
  match pvalue (p_np s) (a_p a) with Some _ => ipopt pso_nlp a | None => None end.

(** DM::inv(P) of the column P times the columns of the solution: [None] if P is not 1 x 1 *)
Definition pso_unscale (P : list R) (l : list R) : option (list R) :=
  match P with
  | [p] => Some (map (fun x => inv 1 (fun _ _ => p) 0%nat 0%nat * x) l)
  | _ => None
  end.

(** the scaled initial state: :339 uses the parameter P of the call, which hides the member P *)
Definition pso_z0 (X0 P : list R) : option (list R) :=
  match (if p_scale s then pmul P X0 else Some X0) with
  | Some z => if (length z =? nx)%nat then Some z else None
  | None => None
  end.

(** solve: :320-394.  The pair is the new ARG and the result. *)
Definition pso_solve (a : narg) (X0 U P : list R) (full : bool) : narg * option (list R) :=
  if negb (length U =? nu)%nat then (a, Some X0)
  else match pso_z0 X0 P with
  | None => (a, None)
  | Some z0 =>
      let a' := pso_set a z0 (repv (if p_scale s then lmul nu (p_R s) U else U)) P in
      (a', match pso_call a' with
           | None => None
           | Some x =>
               if full then
                 if p_scale s
                 then if (nu =? 0)%nat then pso_unscale P (slice x 0 (pso_N * nx)) else None
                 else Some (slice x 0 (pso_N * nx))
               else if p_scale s then pso_unscale P (slice x 0 nx) else Some (slice x 0 nx)
           end)
  end.
(** solve(X0, U, full): the third argument is P, so the flag becomes the 1 x 1 matrix P: :172 *)
Definition pso_solve_flag (a : narg) (X0 U : list R) (full : bool) : narg * option (list R) :=
  pso_solve a X0 U [if full then 1 else 0] false.

(** solve_trajectory: :397-481, the entry "x" of the result *)
Definition pso_trajectory (a : narg) (X0 U P : list R) (full : bool) : narg * option (list R) :=
  if negb (length U =? pso_N * nu)%nat then (a, Some X0)
  else match pso_z0 X0 P with
  | None => (a, None)
  | Some z0 =>
      let w := if p_scale s
               then fun i => ssum nu (fun j => p_R s (i mod nu) j * lval U (i / nu * nu + j)%nat)
               else lval U in
      let a' := pso_set a z0 w P in
      (a', match pso_call a' with
           | None => None
           | Some x =>
               let xt := slice x 0 (if full then pso_N * nx else nx) in
               if p_scale s then pso_unscale P xt else Some xt
           end)
  end.

End Pso.
