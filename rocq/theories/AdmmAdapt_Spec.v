(** Quantities in which the behaviour of ADMM / boxADMM with adaptive step sizes is stated. *)
Require Import Reals.
From Verif Require Import Scal RSum Qp_Model Qp_Spec Admm_Model Admm_Spec Admm_SpecR AdmmRelax_Spec.
Local Open Scope R_scope.

(** every row has a step size in [rho_low s, adapt_high s] (rho_low is the smaller of rho and RHO_MIN = 1e-6) *)
Definition adapt_high (s : qp_settings R) : R := 1000 * Rmax (rho0 s) 1000000.
(** what one change of the step sizes can do to the weighted distance *)
Definition adapt_factor (s : qp_settings R) : R :=
  Rmax (alpha s) (2 - alpha s) / Rmin (alpha s) (2 - alpha s) * (adapt_high s / rho_low s).
(** step length below which both residuals are within e, and the progress of a longer step *)
Definition adapt_step (e : R) (s : qp_settings R) (p : qp_data R) : R :=
  e / (3 + col_mass p + hess_mass p + 3 * adapt_high s * col_mass p + sigma s).
Definition adapt_threshold (e : R) (s : qp_settings R) (p : qp_data R) : R :=
  alpha s * (2 - alpha s) * (Rmin (sigma s) (rho_low s) * (adapt_step e s p * adapt_step e s p)).
