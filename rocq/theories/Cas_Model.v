(** Model of the collocation classes of the CasADi interface: src/chebyshev.hpp (Chebyshev),
    src/chebyshev_ms.hpp (MSChebyshev) and src/chebyshev_soft.hpp (SoftChebyshev).

    Simplifications common to all definitions:
    - a symbolic expression (SX) is the function from the values of its symbols m_X, m_U, m_P, m_DT to
      its value; the numbers are real numbers and M_PI is the real number pi;
    - a casadi::Function has a number of inputs [f_nin], a dense column of [f_out] outputs (nnz_out)
      and a value.  CasADi throws when the number of arguments differs from the number of inputs:
      [None].  The sizes of the arguments are right by construction;
    - PolyOrder, NumSegments and NX are at least 1 (theorems ask for it).
    range() (chebyshev.hpp 139-152, not used) is left out; CollocateIdCost is in Hlp_Model.v. *)
Require Import Arith List Bool Reals.
From Verif Require Import Scal Blk.
Import ListNotations.
Local Open Scope R_scope.

(** template arguments: chebyshev.hpp 13-22 *)
Record cas := mkCas { cP : nat; cS : nat; cX : nat; cU : nat; cNP : nat; cND : nat }.

Record cfun := mkFun { f_nin : nat; f_out : nat; f_val : list (list R) -> vec R }.
Definition call (f : cfun) (args : list (list R)) : option (vec R) :=
  if (length args =? f_nin f)%nat then Some (f_val f args) else None.
(** v(Slice(a, a + n)) *)
Definition slice (v : vec R) (a n : nat) : list R := map (fun i => v (a + i)%nat) (seq 0 n).

(** * Nodes, differentiation matrix, weights (the same code in the three classes) *)
(** CollocPoints: chebyshev.hpp 160-168 *)
Definition cas_points (P i : nat) : R := cos (INR i * (PI / INR P)).
(** c: chebyshev.hpp 187-188 *)
Definition cas_c (P i : nat) : R :=
  (-1) ^ i * (if (i =? 0)%nat then 2 else if (i <? P)%nat then 1 else 2).
(** Dn: chebyshev.hpp 189-191 *)
Definition cas_Dn (P i j : nat) : R :=
  (cas_c P i * (1 / cas_c P j)) / ((cas_points P i - cas_points P j) + (if (i =? j)%nat then 1 else 0)).
(** DiffMatrix: chebyshev.hpp 193 *)
Definition cas_D (P i j : nat) : R :=
  cas_Dn P i j - (if (i =? j)%nat then ssum (P + 1) (fun k => cas_Dn P i k) else 0).
(** one entry of v after the loop over k: chebyshev.hpp 220-223, 230-233 *)
Definition cas_v (K : nat) (theta : R) : R :=
  loop K (fun k v => v - 2 * cos (2 * INR (S k) * theta) / (4 * INR (S k) ^ 2 - 1)) 1.
(** QuadWeights: chebyshev.hpp 204-237 *)
Definition cas_w (P i : nat) : R :=
  let theta := INR i * (PI / INR P) in
  let w0 := if (P mod 2 =? 0)%nat then 1 / (INR P ^ 2 - 1) else 1 / INR P ^ 2 in
  let v := if (P mod 2 =? 0)%nat
           then cas_v (P / 2 - 1) theta - cos (INR P * theta) / (INR P ^ 2 - 1)
           else cas_v ((P - 1) / 2) theta in
  if (i =? 0)%nat then w0 else if (i =? P)%nat then w0 else 2 * v / INR P.

Section Cas.
Variable c : cas.
Local Notation P := (cP c).
Local Notation Sg := (cS c).
Local Notation nx := (cX c).
Local Notation nu := (cU c).

(** number of collocation points: chebyshev.hpp 64-65 *)
Definition cas_N : nat := P * Sg + 1.

(** kron(M, E) with E the identity of size [dim] *)
Definition kron (dim : nat) (M : mat R) : mat R :=
  fun i j => M (i / dim)%nat (j / dim)%nat * (if (i mod dim =? j mod dim)%nat then 1 else 0).
(** mtimes of a square matrix of size [n] *)
Definition mtimes (n : nat) (M : mat R) (v : vec R) : vec R := fun i => ssum n (fun j => M i j * v j).

(** * Chebyshev *)
(** CompDiffMatrix: chebyshev.hpp 247-276, before the Kronecker product *)
Definition cas_comp : mat R :=
  if (Sg <? 2)%nat then cas_D P
  else loop (Sg - 1) (fun k M => mset M (k * P) (k * P) P (P + 1) (cas_D P))
         (mset (fun _ _ => 0) (cas_N - (P + 1)) (cas_N - (P + 1)) (P + 1) (P + 1) (cas_D P)).

(** t_scale: chebyshev.hpp 294 *)
Definition cas_ts (t0 tf : R) : R := (tf - t0) / INR (2 * Sg).

(** the parameters and the data are passed if one of the two vectors is not empty: chebyshev.hpp 298-309 *)
Definition extra (Pv Dv : vec R) : list (list R) :=
  if ((cNP c =? 0) && (cND c =? 0))%nat then [] else [slice Pv 0 (cNP c); slice Dv 0 (cND c)].
(** arguments at node [k]; the counters i and j of chebyshev.hpp 296-313 are k*NX and k*NU *)
Definition node_args (X U Pv Dv : vec R) (k : nat) : list (list R) :=
  slice X (k * nx) nx :: slice U (k * nu) nu :: extra Pv Dv.

(** F_XU(Slice(i, i + n)) = y: the sizes agree or y is a scalar; otherwise CasADi throws *)
Definition fit (n : nat) (f : cfun) (y : vec R) : option (vec R) :=
  if (f_out f =? n)%nat then Some y else if (f_out f =? 1)%nat then Some (fun _ => y 0%nat) else None.

(** CollocateDynamics: chebyshev.hpp 286-317 *)
Definition cas_dynamics (f : cfun) (t0 tf : R) (X U Pv Dv : vec R) : option (vec R) :=
  match oloop cas_N (fun k F =>
          match call f (node_args X U Pv Dv k) with
          | Some y => match fit nx f y with
                      | Some y => Some (vset F (k * nx) nx (fun i => cas_ts t0 tf * y i))
                      | None => None
                      end
          | None => None
          end) (fun _ => 0) with
  | Some F => Some (fun i => mtimes (cas_N * nx) (kron nx cas_comp) X i - F i)
  | None => None
  end.

(** sum over the segments and their nodes of weight * value: chebyshev.hpp 346-361 *)
Definition quad (t_scale : R) (val : nat -> nat -> option R) : option R :=
  oloop Sg (fun k acc =>
    match oloop (P + 1) (fun m l => match val k m with Some y => Some (l + cas_w P m * y) | None => None end) 0 with
    | Some local_int => Some (acc + t_scale * local_int)
    | None => None
    end) 0.
(** the scalar output of a function *)
Definition sval (f : cfun) (args : list (list R)) : option R :=
  match call f args with Some y => Some (y 0%nat) | None => None end.

(** CollocateCost: chebyshev.hpp 327-365.  [None] for a term is a null function. *)
Definition cas_cost (mayer lagrange : option cfun) (t0 tf : R) (X U : vec R) : option R :=
  match (match mayer with Some f => sval f [slice X 0 nx] | None => Some 0 end),
        (match lagrange with
         | Some f => quad (cas_ts t0 tf) (fun k m => sval f [slice X ((k * P + m) * nx) nx; slice U ((k * P + m) * nu) nu])
         | None => Some 0 end) with
  | Some M, Some L => Some (M + L)
  | _, _ => None
  end.
(** CollocateParametricCost: chebyshev.hpp 375-413 *)
Definition cas_pcost (mayer lagrange : option cfun) (t0 tf : R) (X U Pv Dv : vec R) : option R :=
  let pd := [slice Pv 0 (cNP c); slice Dv 0 (cND c)] in
  match (match mayer with Some f => sval f (slice X 0 nx :: pd) | None => Some 0 end),
        (match lagrange with
         | Some f => quad (cas_ts t0 tf)
             (fun k m => sval f (slice X ((k * P + m) * nx) nx :: slice U ((k * P + m) * nu) nu :: pd))
         | None => Some 0 end) with
  | Some M, Some L => Some (M + L)
  | _, _ => None
  end.

(** CollocateFunction: chebyshev.hpp 528-556 *)
Definition cas_function (f : cfun) (X U Pv Dv : vec R) : option (vec R) :=
  oloop cas_N (fun k v =>
    match call f (node_args X U Pv Dv k) with
    | Some y => Some (vset v (k * f_out f) (f_out f) y)
    | None => None
    end) (fun _ => 0).
(** DifferentiateFunction: chebyshev.hpp 567-578 *)
Definition cas_differentiate (f : cfun) (order : nat) (X U Pv Dv : vec R) : option (vec R) :=
  match cas_function f X U Pv Dv with
  | Some v => Some (loop order (fun _ v => mtimes (cas_N * f_out f) (kron (f_out f) cas_comp) v) v)
  | None => None
  end.

(** CollocateDynamics2 and collocate_dynamics: chebyshev.hpp 469-508.  The result is a function of
    the arguments X, U, P, and also of the member m_X: the product (line 506) is m_ComD * m_X. *)
Definition cas_dynamics2 (ode : list R -> list R -> vec R -> vec R) (t0 tf : R) (m_X : vec R) (X U Pv : vec R) : vec R :=
  let F := loop cas_N (fun k F => vset F (k * nx) nx
             (fun i => cas_ts t0 tf * ode (slice X (k * nx) nx) (slice U (k * nu) nu) Pv i)) (fun _ => 0) in
  fun i => mtimes (cas_N * nx) (kron nx cas_comp) m_X i - F i.

(** * SoftChebyshev *)
(** CollocateDynamics: chebyshev_soft.hpp 284-328; DX = m_ComD * m_X (:291) *)
Definition soft_dynamics (f : cfun) (t0 tf : R) (X U Pv Dv : vec R) : option R :=
  let DX := mtimes (cas_N * nx) (kron nx cas_comp) X in
  quad (cas_ts t0 tf) (fun k m =>
    match call f (node_args X U Pv Dv (k * P + m)) with
    | Some y => match fit nx f y with
        | Some y => Some (ssum nx (fun i => (DX ((k * P + m) * nx + i)%nat - cas_ts t0 tf * y i)
                                            * (DX ((k * P + m) * nx + i)%nat - cas_ts t0 tf * y i)))
        | None => None
        end
    | None => None
    end).

(** * MSChebyshev *)
(** number of points: chebyshev_ms.hpp 58 (59: one control per segment) *)
Definition ms_N : nat := Sg * (P + 1).
(** CompDiffMatrix: chebyshev_ms.hpp 241-263: D for one segment, diagcat(D, ..., D) otherwise *)
Definition ms_comp : mat R :=
  if (Sg <? 2)%nat then cas_D P
  else fun i j => if (i / (P + 1) =? j / (P + 1))%nat then cas_D P (i mod (P + 1)) (j mod (P + 1)) else 0.
(** arguments at node [i] of segment [j] *)
Definition ms_args (X U Pv Dv : vec R) (j i : nat) : list (list R) :=
  slice X ((j * (P + 1) + i) * nx) nx :: slice U (j * nu) nu :: extra Pv Dv.
(** CollocateDynamics: chebyshev_ms.hpp 271-307.  The rows of the continuity conditions (:298-304)
    follow the NX * _NUM_COLLOC_PTS_X rows of the dynamics. *)
Definition ms_dynamics (f : cfun) (t0 tf : R) (X U Pv Dv : vec R) : option (vec R) :=
  match oloop Sg (fun j F => oloop (P + 1) (fun i F =>
          match call f (ms_args X U Pv Dv j i) with
          | Some y => match fit nx f y with
                      | Some y => Some (vset F ((j * (P + 1) + i) * nx) nx (fun r => cas_ts t0 tf * y r))
                      | None => None
                      end
          | None => None
          end) F) (fun _ => 0) with
  | Some F =>
      let G0 := fun i => mtimes (ms_N * nx) (kron nx ms_comp) X i - F i in
      Some (loop (Sg - 1) (fun j G =>
              let start := (j * (P + 1) * nx + P * nx)%nat in
              vset G (ms_N * nx + j * nx) nx (fun r => X (start + r)%nat - X (start + nx + r)%nat)) G0)
  | None => None
  end.
(** CollocateCost and CollocateParametricCost: chebyshev_ms.hpp 317-401 *)
Definition ms_cost (mayer lagrange : option cfun) (t0 tf : R) (X U : vec R) : option R :=
  match (match mayer with Some f => sval f [slice X 0 nx] | None => Some 0 end),
        (match lagrange with
         | Some f => quad (cas_ts t0 tf) (fun j i => sval f [slice X ((j * (P + 1) + i) * nx) nx; slice U (j * nu) nu])
         | None => Some 0 end) with
  | Some M, Some L => Some (M + L)
  | _, _ => None
  end.
Definition ms_pcost (mayer lagrange : option cfun) (t0 tf : R) (X U Pv Dv : vec R) : option R :=
  let pd := [slice Pv 0 (cNP c); slice Dv 0 (cND c)] in
  match (match mayer with Some f => sval f (slice X 0 nx :: pd) | None => Some 0 end),
        (match lagrange with
         | Some f => quad (cas_ts t0 tf)
             (fun j i => sval f (slice X ((j * (P + 1) + i) * nx) nx :: slice U (j * nu) nu :: pd))
         | None => Some 0 end) with
  | Some M, Some L => Some (M + L)
  | _, _ => None
  end.
(** CollocateFunction: chebyshev_ms.hpp 412-484.  [dep] is SX::depends_on(res_test, x_test): the
    expression contains the state.  Without it there is one value per segment. *)
Definition ms_function (dep : bool) (f : cfun) (X U Pv Dv : vec R) : option (vec R) :=
  if dep
  then oloop Sg (fun j v => oloop (P + 1) (fun i v =>
         match call f (ms_args X U Pv Dv j i) with
         | Some y => Some (vset v ((j * (P + 1) + i) * f_out f) (f_out f) y)
         | None => None
         end) v) (fun _ => 0)
  else oloop Sg (fun j v =>
         match call f (slice X 0 nx :: slice U (j * nu) nu :: extra Pv Dv) with
         | Some y => Some (vset v (j * f_out f) (f_out f) y)
         | None => None
         end) (fun _ => 0).
(** DifferentiateFunction: chebyshev_ms.hpp 495-585.  The assertion on the order is line 576.  Without
    the state the result (577-581) is made of the differences of the controls, whatever the function:
    [None] also for a failing call. *)
Definition ms_differentiate (dep : bool) (f : cfun) (order : nat) (X U Pv Dv : vec R) : option (vec R) :=
  match ms_function dep f X U Pv Dv with
  | Some v =>
      if dep then Some (loop order (fun _ v => mtimes (ms_N * f_out f) (kron (f_out f) ms_comp) v) v)
      else if (order =? 1)%nat
      then Some (loop (Sg - 1) (fun i D => vset D (i * nu) nu (fun r => U ((i + 1) * nu + r)%nat - U (i * nu + r)%nat)) (fun _ => 0))
      else None
  | None => None
  end.

End Cas.
