(** Specification vocabulary for the mathematical helpers. *)
Require Import Arith ZArith List Reals.
From Verif Require Import Scal RSum PolyR Pm_Model.
Import ListNotations.
Local Open Scope R_scope.

(** quaternion norm squared, unit quaternions, the identity *)
Definition qnorm2 (q : quat) : R := qs q * qs q + qx q * qx q + qy q * qy q + qz q * qz q.
Definition unit_quat (q : quat) : Prop := qnorm2 q = 1.
Definition q_one : quat := Q4 1 0 0 0.
Definition q_scale (c : R) (q : quat) : quat := Q4 (c * qs q) (c * qx q) (c * qy q) (c * qz q).
Definition v_add (u v : vec3) : vec3 := V3 (vx u + vx v) (vy u + vy v) (vz u + vz v).
Definition v_scale (c : R) (u : vec3) : vec3 := V3 (c * vx u) (c * vy u) (c * vz u).

(** matrix times vector, and its k-th iterate *)
Definition mv (n : nat) (A : nat -> nat -> R) (v : nat -> R) : nat -> R := fun i => rsum n (fun j => A i j * v j).
Fixpoint mvpow (n : nat) (A : nat -> nat -> R) (k : nat) (v : nat -> R) : nat -> R :=
  match k with O => v | S m => mv n A (mvpow n A m v) end.
(** the right-hand sides of the higher derivatives of a solution of y' = f(y), f a polynomial: the k-th one is
    differentiated along f *)
Fixpoint lie (f : list R) (k : nat) : list R :=
  match k with O => f | S m => pmul (pder (lie f m)) f end.
(** the integration method in force after a sequence of parameter updates: the last one named *)
Fixpoint chosen (us : list param) (m : method) : method :=
  match us with
  | [] => m
  | PMethod m' :: us => chosen us m'
  | _ :: us => chosen us m
  end.
(** the Chebyshev points of an interval, from the right end to the left end *)
Definition cgl_interval (N : nat) (a b : R) (i : nat) : R := (a + b) / 2 + (b - a) / 2 * cos (INR i * PI / INR N).

(** the interpolation data a sequence of calls leaves behind: the current nodes, and the nodes and values of the
    polynomial that was formed last *)
Definition ndata := (nat * (nat -> R))%type.
Definition ipdata := (nat * (nat -> R) * (nat -> R))%type.
Definition track (g : option ndata * option ipdata) (c : icall) : option ndata * option ipdata :=
  match c with
  | IInit n nodes values => (Some (n, nodes), Some (n, nodes, values))
  | IUpdate n nodes => (Some (n, nodes), snd g)
  | IEval _ => g
  | IEvalV _ m values => (fst g, match fst g with Some (n, nodes) => Some (n, nodes, values) | None => snd g end)
  end.
Definition tracked (cs : list icall) := fold_left track cs (None, None).
(** a whole sequence of calls *)
Fixpoint irun (s : interp) (cs : list icall) : option (interp * option R) :=
  match cs with
  | [] => Some (s, None)
  | [c] => iexec s c
  | c :: cs => match iexec s c with Some (s', _) => irun s' cs | None => None end
  end.
(** the nodes of every call are pairwise distinct *)
Definition nodes_ok (c : icall) : Prop :=
  match c with
  | IInit n nodes _ | IUpdate n nodes => forall i j, (i < n)%nat -> (j < n)%nat -> i <> j -> nodes i <> nodes j
  | _ => True
  end.
