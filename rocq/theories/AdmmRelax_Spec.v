(** Quantities in which the convergence of ADMM with over-relaxation is stated. *)
Require Import Reals.
From Verif Require Import Scal RSum Qp_Model Qp_Spec Admm_Model Admm_Spec Admm_SpecR.
Local Open Scope R_scope.

(** squared weighted distance with the cross term of the relaxation alpha; for alpha = 1 it is dist2 *)
Definition rdist2 (s : qp_settings R) (p : qp_data R) (rho : vec R) (x z y x' z' y' : vec R) : R :=
  dist2 s p rho x z y x' z' y' + 2 * (1 - alpha s) * rsum (qm p + qn p) (fun i => (y i - y' i) * (z i - z' i)).

(** size of the Hessian, and the step length below which both residuals are within e *)
Definition hess_mass (p : qp_data R) : R := rsum (qn p) (fun i => rsum (qn p) (fun j => Rabs (qH p i j))).
Definition relaxed_step (e : R) (s : qp_settings R) (p : qp_data R) : R :=
  e / (3 + col_mass p + hess_mass p + 3 * rho_high s * col_mass p + sigma s).
Definition relaxed_threshold (e : R) (s : qp_settings R) (p : qp_data R) : R :=
  alpha s * (2 - alpha s) * (Rmin (sigma s) (rho_low s) * (relaxed_step e s p * relaxed_step e s p)).
