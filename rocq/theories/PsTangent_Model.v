(** The tangent system of the pseudo-arclength continuation as solved by psarc_math::solve
    (property C112). *)
From Coq Require Import List Reals.
From Verif Require Import Scal Psa_Model PsMath_Model.
Import ListNotations.
Local Open Scope R_scope.

(** psarc.hpp:262-264: b = -Hl(x0_num), A = Hx(x0_num), r = solve(A, b, EIGEN_SPARSE).
    [J] and [B] are the matrices in which CasADi returns the values of Hx and -Hl, with the
    pattern of its choice; a failed call gives [None]. *)
Definition tangent_lin (cas : dm -> dm -> dm) (dlu : nat -> (nat -> nat -> R) -> (nat -> R) -> nat -> R)
    (slu : nat -> (nat -> nat -> R) -> option ((nat -> R) -> nat -> R))
    (J : nat -> mat R -> dm) (B : nat -> vec R -> dm) : lin_solver :=
  fun n A b =>
    match solve cas dlu slu EIGEN_SPARSE (J n A) (B n b) with
    | Returns x => Some (stored (nth 0 (d_columns x) []))
    | _ => None
    end.
