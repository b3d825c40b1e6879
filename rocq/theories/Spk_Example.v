(** Small sparse problems used as witnesses. *)
Require Import ZArith List Bool Floats.SpecFloat.
From Verif Require Import Scal Sparse Qp_Model Spk_Model.
Local Open Scope S_scope.

Section E.
Context {T : Type} {ST : Scalar T}.
(** min x0^2/2 + x1^2/2 - x0 - x1, x0 + x1 <= b, x >= 0; a full 2x2 Hessian pattern *)
Definition exs_H (pt : nat -> nat -> bool) : spmat T := SpMat 2 2 pt (fun i j => if Nat.eqb i j then 1 else 0) (fun _ => O).
Definition exs_A : spmat T := SpMat 1 2 (fun _ _ => true) (fun _ _ => 1) (fun _ => O).
Definition exs_qp (pt : nat -> nat -> bool) (b : T) : sqp_data T :=
  SQP 2 1 (Arg (exs_H pt) false) (fun _ => - s1) (Arg exs_A false)
      (fun _ => MInf) (fun _ => Fin b) (fun _ => Fin s0) (fun _ => PInf).
(** min x1^2/2 - x0 - x1, x0 + x1 <= b, x >= 0; the zero (0, 0) of the Hessian is not stored *)
Definition exs_lp (b : T) : sqp_data T := exs_qp (fun i j => Nat.eqb i 1 && Nat.eqb j 1) b.
(** a square constraint matrix: x0 <= b, x1 <= b *)
Definition exs_sq (b : T) : sqp_data T :=
  SQP 2 2 (Arg (exs_H Nat.eqb) false) (fun _ => - s1) (Arg (SpMat 2 2 Nat.eqb (fun _ _ => 1) (fun _ => O)) false)
      (fun _ => MInf) (fun _ => Fin b) (fun _ => Fin s0) (fun _ => PInf).
End E.
