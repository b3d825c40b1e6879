(** Model of small helpers of the CasADi interface: heaviside, deg2rad, mat_func, mat_dynamics, range (src/polymath.h,
    src/polymath.cpp) and Chebyshev::CollocateIdCost (src/chebyshev.hpp).

    Simplifications:
    - symbolic expressions are their values, real numbers (range: any scalar type), M_PI is the real number pi; a matrix
      is the list of its columns;
    - CasADi conventions: Slice(a, b) with b <= a selects nothing; an empty argument of a function stands for zeros. *)
Require Import ZArith Arith List Bool Reals.
From Verif Require Import Scal Blk Cas_Model.
Import ListNotations.
Local Open Scope R_scope.

(** heaviside: polymath.cpp 52-55 *)
Definition heaviside (x K : R) : R := K / (1 + exp (-4 * x)).
(** deg2rad: polymath.h 38 *)
Definition deg2rad (deg : R) : R := PI / 180 * deg.

(** mat_func: polymath.cpp 98-110; [func] returns the list of its outputs, [None] if it throws *)
Definition mat_func (matrix_in : list (list R)) (func : list R -> option (list (list R))) : option (list R) :=
  fold_left (fun output_vec col =>
    match output_vec, func col with
    | Some v, Some res => Some (v ++ concat res)
    | _, _ => None
    end) matrix_in (Some nil).

(** the loop of mat_dynamics: polymath.cpp 118-122; [None] also for x[i] out of range *)
Fixpoint eval_columns (x u : list (list R)) (func : list R -> list R -> option (list R)) : option (list (list R)) :=
  match u, x with
  | nil, _ => Some nil
  | ui :: u', xi :: x' =>
      match func xi ui, eval_columns x' u' func with
      | Some e, Some r => Some (e :: r)
      | _, _ => None
      end
  | _ :: _, nil => None
  end.
(** mat_dynamics: polymath.cpp 112-126; [None] also for back() of an empty vector *)
Definition mat_dynamics (arg_x arg_u : list (list R)) (func : list R -> list R -> option (list R)) : option (list R) :=
  match eval_columns arg_x arg_u func, rev arg_x with
  | Some xdot, last :: _ => Some (concat (xdot ++ [last]))
  | _, _ => None
  end.

(** range: polymath.h 53-62; [None]: the loop has not ended after [fuel] passes *)
Fixpoint range {T : Type} {ST : Scalar T} (fuel : nat) (first last step : T) : option (list T) :=
  if sleb first last then
    match fuel with
    | O => None
    | S f => match range f (sadd first step) last step with Some r => Some (first :: r) | None => None end
    end
  else Some nil.

(** v(Slice(a, b)) for indices in range *)
Definition cslice (v : list R) (a b : nat) : list R := firstn (b - a) (skipn a v).
(** an argument of size [n] *)
Definition pad (n : nat) (l : list R) : list R := match l with nil => repeat 0 n | _ => l end.

(** CollocateIdCost: chebyshev.hpp 423-459.  [data] is the list of the columns; the second argument of IdCost has NX rows.
    The counter i of the inner loop is (k * PolyOrder + m) * NX; [None] for IdCost is a null function. *)
Definition id_cost (c : cas) (IdCost : option cfun) (data : list (list R)) (t0 tf : R) (X : vec R) : option R :=
  if negb (forallb (fun col => (length col =? cX c)%nat) data) || negb (length data =? cS c * cP c + 1)%nat
  then Some 0
  else
    let size_x := (cas_N c * cX c)%nat in
    match IdCost with
    | None => Some 0
    | Some f =>
        quad c (cas_ts c t0 tf) (fun k m =>
          let i := ((k * cP c + m) * cX c)%nat in
          let idx := (size_x - i)%nat in
          sval f [slice X i (cX c); pad (cX c) (cslice (concat data) idx (idx - cX c))])
    end.
