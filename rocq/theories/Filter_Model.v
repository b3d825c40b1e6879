(** Line-search filter: src/solvers/line_search.hpp (LSFilter). *)
Require Import ZArith List Bool.
Require Import Verif.Scal.
Import ListNotations.

Section Filter.
Context {T : Type} {ST : Scalar T}.
Local Open Scope S_scope.

(** line_search.hpp:36-39: the list of (cost, constraint violation) pairs; max_depth is an [int],
    beta a scalar.  Both are public members the user may change. *)
Definition filter := list (T * T).

(** line_search.hpp:24-27, dominated_by::operator(): candidate.first >= cost && candidate.second >= constraint *)
Definition dominated_by (cost constr : T) (cand : T * T) : bool :=
  (cost <=? fst cand) && (constr <=? snd cand).

(** line_search.hpp:53-63 *)
Fixpoint is_dominated (m : filter) (cost constr : T) : bool :=
  match m with
  | [] => false
  | (c, v) :: r => if (c <=? cost) && (v <=? constr) then true else is_dominated r cost constr
  end.

(** line_search.hpp:65-74 *)
Fixpoint is_acceptable (beta : T) (m : filter) (cost constr : T) : bool :=
  match m with
  | [] => true
  | (c, v) :: r =>
      if ((c - beta * v) <=? cost) && ((v - beta * v) <=? constr) then false
      else is_acceptable beta r cost constr
  end.

(** std::list::pop_back; undefined on an empty list *)
Definition pop_back (m : filter) : option filter :=
  match m with [] => None | _ => Some (removelast m) end.

(** line_search.hpp:78: [m_filter.size() < max_depth]: the int is converted to size_t (64 bit) *)
Definition below_depth (m : filter) (depth : Z) : bool :=
  (Z.of_nat (length m) <? depth mod 2 ^ 64)%Z.

(** line_search.hpp:76-91; [None] is undefined behaviour *)
Definition add (depth : Z) (m : filter) (cost constr : T) : option filter :=
  if below_depth m depth
  then Some ((cost, constr) :: List.filter (fun e => negb (dominated_by cost constr e)) m)
  else match pop_back m with
       | Some m' => Some ((cost, constr) :: m')
       | None => None
       end.

(** operations a user performs on the filter; [Offer] is the use in
    tests/control/valet_parking_mpc_test.cpp:124-125 and 145-147: add if acceptable *)
Inductive op := Add (c v : T) | Offer (c v : T) | RemoveOne | Clear.

Definition step (beta : T) (depth : Z) (m : filter) (o : op) : option filter :=
  match o with
  | Add c v => add depth m c v
  | Offer c v => if is_acceptable beta m c v then add depth m c v else Some m
  | RemoveOne => pop_back m   (* line_search.hpp:93-96 *)
  | Clear => Some []          (* line_search.hpp:51 *)
  end.

Fixpoint run (beta : T) (depth : Z) (m : filter) (os : list op) : option filter :=
  match os with
  | [] => Some m
  | o :: r => match step beta depth m o with Some m' => run beta depth m' r | None => None end
  end.

End Filter.
Arguments filter T : clear implicits.
Arguments op T : clear implicits.
