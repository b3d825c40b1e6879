(** The KKT system ADMM has to solve in every iteration, written down directly. *)
Require Import ZArith List.
From Verif Require Import Scal Qp_Model Qp_Spec.
Local Open Scope S_scope.

Section Spec.
Context {T : Type} {ST : Scalar T}.

(** the stacked constraint matrix [A; I] *)
Definition stacked (m : nat) (A : mat T) : mat T :=
  fun i j => if Nat.ltb i m then A i j else if Nat.eqb (i - m) j then 1 else 0.

(**  [ H + sigma I    Ae'          ]
     [ Ae             -diag(1/rho) ]      with Ae = [A; I] *)
Definition admm_kkt (full : bool) (s : qp_settings T) (p : qp_data T) (rho : vec T) : mat T :=
  fun i j =>
    let n := qn p in
    match Nat.ltb i n, Nat.ltb j n with
    | true, true => if Nat.eqb i j then qH p i j + sigma s else as_read full (qH p) i j
    | true, false => stacked (qm p) (qA p) (j - n)%nat i
    | false, true => stacked (qm p) (qA p) (i - n)%nat j
    | false, false => if Nat.eqb i j then - (1 / rho (i - n)%nat) else 0
    end.

(** the boxADMM system
     [ H + sigma I + diag(rho_box)    A'           ]
     [ A                              -diag(1/rho) ] *)
Definition box_kkt (full : bool) (s : qp_settings T) (p : qp_data T) (rho rho_box : vec T) : mat T :=
  fun i j =>
    let n := qn p in
    match Nat.ltb i n, Nat.ltb j n with
    | true, true => if Nat.eqb i j then (qH p i j + sigma s) + rho_box i else as_read full (qH p) i j
    | true, false => qA p (j - n)%nat i
    | false, true => qA p (i - n)%nat j
    | false, false => if Nat.eqb i j then - (1 / rho (i - n)%nat) else 0
    end.
End Spec.
