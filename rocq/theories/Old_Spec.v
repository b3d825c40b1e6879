(** Specification vocabulary for the older collocation layer (Old_Model.v). *)
Require Import Arith Reals.
From Verif Require Import Scal RSum Ocp_Model Ocp_Spec.
Local Open Scope R_scope.

(** a direction that does not change the parameters *)
Definition param_free (o : ocp R) (v : nat -> R) : Prop := forall c, (c < NP o)%nat -> v (ip o c) = 0.

(** running cost at a node and terminal cost, for user functions without a time argument (the
    terminal cost only depends on the state) *)
Definition running_cost0 (o : ocp R) (var : nat -> R) (k : nat) : R :=
  match o_lag o with
  | Some g => get_val g (state o var k) (control o var k) (params o var) 0
  | None => 0
  end.
Definition terminal_cost0 (o : ocp R) (var : nat -> R) : R :=
  match o_may o with
  | Some g => get_val g (state o var 0%nat) (fun _ => 0) (fun _ => 0) 0
  | None => 0
  end.
