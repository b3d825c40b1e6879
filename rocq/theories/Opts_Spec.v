(** Specification of option handling (property C111): the documented defaults. *)
From Coq Require Import List String QArith.
From Verif Require Import Opts_Model.
Import ListNotations.
Local Open Scope string_scope.

Definition keys (d : dict) : list string := map fst d.

Definition nmpc_table : dict :=
  [("ipopt.linear_solver", Str "mumps"); ("ipopt.print_level", Num 1); ("ipopt.tol", Num (1 # 10000));
   ("ipopt.acceptable_tol", Num (1 # 10000)); ("ipopt.max_iter", Num 150); ("ipopt.warm_start_init_point", Str "yes")].
Definition nmpf_table : dict :=
  [("ipopt.linear_solver", Str "mumps"); ("ipopt.print_level", Num 0); ("ipopt.tol", Num (1 # 10000));
   ("ipopt.acceptable_tol", Num (1 # 10000)); ("ipopt.max_iter", Num 40); ("ipopt.warm_start_init_point", Str "yes")].
Definition generic_table : dict :=
  [("ipopt.linear_solver", Str "mumps"); ("ipopt.print_level", Num 0); ("ipopt.tol", Num (1 # 10000));
   ("ipopt.acceptable_tol", Num (1 # 10000)); ("ipopt.warm_start_init_point", Str "yes")].
Definition pso_table : dict :=
  [("ipopt.linear_solver", Str "mumps"); ("ipopt.print_level", Num 5); ("ipopt.tol", Num (1 # 10000));
   ("ipopt.acceptable_tol", Num (1 # 10000)); ("ipopt.max_iter", Num 3000); ("ipopt.hessian_approximation", Str "limited-memory")].

(** [d] has for every key the value of [user], else that of [table], and no other key. *)
Definition user_over_table (user table d : dict) : Prop :=
  (forall k v, In (k, v) user -> get d k = Some v) /\
  (forall k, ~ In k (keys user) -> forall v, get d k = Some v <-> In (k, v) table).

(** The dictionary of a call, and the latest value of a key in a sequence of dictionaries. *)
Definition given (c : call) : dict := match c with UpdateParams p => p | CreateNLP u => u end.
Fixpoint latest (ds : list dict) (k : string) : option value :=
  match ds with
  | [] => None
  | d :: r => match latest r k with Some v => Some v | None => get d k end
  end.

(** The classes with their defaults and tables. *)
Inductive class_of : (dict -> dict) -> dict -> Prop :=
| c_nmpc : class_of nmpc_defaults nmpc_table
| c_nmpf : class_of nmpf_defaults nmpf_table
| c_generic : class_of generic_defaults generic_table.
