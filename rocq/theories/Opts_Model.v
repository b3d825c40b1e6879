(** Option dictionaries of the CasADi based classes (property C111). *)
From Coq Require Import List String Bool QArith.
Import ListNotations.
Local Open Scope string_scope.

(** casadi::GenericType, as far as the options use it *)
Inductive value := Num (q : Q) | Str (s : string).

(** casadi::Dict = std::map<std::string, GenericType>: pairs with different keys; the
    iteration of the classes visits every key once. *)
Definition dict := list (string * value).

(** find / count / operator[] for reading *)
Fixpoint get (d : dict) (k : string) : option value :=
  match d with
  | [] => None
  | (k', v) :: d => if k' =? k then Some v else get d k
  end.

(** d[k] = v *)
Fixpoint set (d : dict) (k : string) (v : value) : dict :=
  match d with
  | [] => [(k, v)]
  | (k', v') :: d => if k' =? k then (k, v) :: d else (k', v') :: set d k v
  end.

(** nmpc.hpp 229-235 and nmpf.hpp 250-256 (updateParams), generic_ocp.hpp 187-193
    (update_solver_params): the loop over the dictionary *)
Definition update (o params : dict) : dict :=
  fold_left (fun o p => set o (fst p) (snd p)) params o.

(** nmpc.hpp 339-344 *)
Definition nmpc_defaults (o : dict) : dict :=
  let o := set o "ipopt.linear_solver" (Str "mumps") in
  let o := set o "ipopt.print_level" (Num 1) in
  let o := set o "ipopt.tol" (Num (1 # 10000)) in
  let o := set o "ipopt.acceptable_tol" (Num (1 # 10000)) in
  let o := set o "ipopt.max_iter" (Num 150) in
  set o "ipopt.warm_start_init_point" (Str "yes").

(** nmpf.hpp 401-406 *)
Definition nmpf_defaults (o : dict) : dict :=
  let o := set o "ipopt.linear_solver" (Str "mumps") in
  let o := set o "ipopt.print_level" (Num 0) in
  let o := set o "ipopt.tol" (Num (1 # 10000)) in
  let o := set o "ipopt.acceptable_tol" (Num (1 # 10000)) in
  let o := set o "ipopt.max_iter" (Num 40) in
  set o "ipopt.warm_start_init_point" (Str "yes").

(** generic_ocp.hpp 533-537 *)
Definition generic_defaults (o : dict) : dict :=
  let o := set o "ipopt.linear_solver" (Str "mumps") in
  let o := set o "ipopt.print_level" (Num 0) in
  let o := set o "ipopt.tol" (Num (1 # 10000)) in
  let o := set o "ipopt.acceptable_tol" (Num (1 # 10000)) in
  set o "ipopt.warm_start_init_point" (Str "yes").

(** The member OPTS and the options with which NLP_Solver was created; computeControl
    and solve call NLP_Solver and do not read OPTS. *)
Record ctrl := mkCtrl { c_opts : dict; c_solver : dict }.

(** nmpc.hpp 338-351, nmpf.hpp 400-412 (end of createNLP) and generic_ocp.hpp 532-541
    (end of setup, where the dictionary is USER_OPTS) *)
Definition create (defaults : dict -> dict) (t : ctrl) (user : dict) : ctrl :=
  let o := defaults (c_opts t) in
  let o := match user with [] => o | _ => update o user end in
  mkCtrl o o.

(** constructors: the members are empty before *)
Definition construct (defaults : dict -> dict) (user : dict) : ctrl :=
  create defaults (mkCtrl [] []) user.

(** public calls of nmpc and nmpf after the constructor *)
Inductive call := UpdateParams (params : dict) | CreateNLP (user : dict).
Definition exec (defaults : dict -> dict) (t : ctrl) (c : call) : ctrl :=
  match c with
  | UpdateParams p => mkCtrl (update (c_opts t) p) (c_solver t)
  | CreateNLP u => create defaults t u
  end.

(** chebyshev_integrator.hpp 289-300: PSODESolver; the options of its NLP solver *)
Definition pso_options (user : dict) : dict :=
  let o := set [] "ipopt.linear_solver" (Str "mumps") in
  let o := set o "ipopt.print_level" (Num 5) in
  let o := set o "ipopt.tol" (Num (1 # 10000)) in
  let o := set o "ipopt.acceptable_tol" (Num (1 # 10000)) in
  let o := set o "ipopt.max_iter" (Num 3000) in
  let o := set o "ipopt.hessian_approximation" (Str "limited-memory") in
  match get user "ipopt.linear_solver" with
  | Some v => set o "ipopt.linear_solver" v
  | None => o
  end.

(** ** ODESolver: integrator.cpp *)

(** integrator.cpp 82-91 (updateParams): unknown keys are reported and skipped *)
Definition ode_update (o params : dict) : dict :=
  fold_left (fun o p => match get o (fst p) with
                        | Some _ => set o (fst p) (snd p)
                        | None => o
                        end) params o.

(** integrator.h 7: enum IntType; conversion of the parameter to int ([None]: the
    conversion throws) *)
Inductive method := RK4 | CVODES | OtherMethod.
Definition as_method (v : value) : option method :=
  match v with
  | Num q => Some (if Qeq_bool q 0 then RK4 else if Qeq_bool q 1 then CVODES else OtherMethod)
  | Str _ => None
  end.

(** the member Parameters, and the options abstol and max_num_steps of the member
    cvodes_integrator if it was created *)
Record ode := mkOde { ode_params : dict; ode_cvodes : option (value * value) }.

(** integrator.cpp 9-17 *)
Definition ode_defaults : dict :=
  [("method", Num 1); ("tf", Num 1); ("max_iter", Num 300); ("tol", Num (1 # 100000000))].

(** integrator.cpp 6-65 (constructor): opts is built from the members Tolerance and
    MaxIter, which have the values of lines 9-10.  The conversion of the parameter tf to a
    number (line 30), which throws for a string, is not modelled. *)
Definition ode_construct (params : dict) : option ode :=
  let o := match params with [] => ode_defaults | _ => ode_update ode_defaults params end in
  let opts := (Num (1 # 100000000), Num 300) in
  match get o "method" with
  | Some v => match as_method v with
              | Some CVODES => Some (mkOde o (Some opts))
              | Some _ => Some (mkOde o None)
              | None => None
              end
  | None => None
  end.

(** integrator.cpp 113-130 (solve) with 93-111: how a call is answered.  A call of an
    integrator that was never created throws inside the try block of cvodes_solve, and
    the empty result is returned. *)
Inductive answer := ByRk4 | ByCvodes (abstol max_num_steps : value) | Empty.
Definition ode_solve (s : ode) : option answer :=
  match get (ode_params s) "method" with
  | Some v => match as_method v with
              | Some RK4 => Some ByRk4
              | Some CVODES => match ode_cvodes s with
                               | Some (a, m) => Some (ByCvodes a m)
                               | None => Some Empty
                               end
              | Some OtherMethod => Some Empty
              | None => None
              end
  | None => None
  end.
