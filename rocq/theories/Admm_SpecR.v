(** Quantities in which the properties of ADMM / boxADMM over the reals are stated. *)
Require Import ZArith List Reals.
From Verif Require Import Scal RSum Qp_Model Qp_Spec Admm_Model Admm_Spec.
Local Open Scope R_scope.

(** A x stacked over x *)
Definition stackv (p : qp_data R) (x : vec R) : vec R :=
  fun i => if Nat.ltb i (qm p) then rmv (qn p) (qA p) x i else x (i - qm p)%nat.

(** what the relative tolerances are relative to *)
Definition admm_prim_scale (p : qp_data R) (x z : vec R) : R :=
  Rmax (Rmax (rnorminf (qm p) (rmv (qn p) (qA p) x)) (rnorminf (qn p) x)) (rnorminf (qm p + qn p) z).
Definition box_prim_scale (p : qp_data R) (x z : vec R) : R :=
  Rmax (rnorminf (qm p) (rmv (qn p) (qA p) x)) (Rmax (rnorminf (qm p) z) (rnorminf (qn p) x)).
Definition qp_dual_scale (p : qp_data R) (x y : vec R) : R :=
  Rmax (rnorminf (qn p) (rmv (qn p) (qH p) x))
    (Rmax (rnorminf (qn p) (fun j => rsum (qm p) (fun i => qA p i j * y i)))
      (Rmax (rnorminf (qn p) (qh p)) (rnorminf (qn p) (fun j => y (qm p + j)%nat)))).

(** squared weighted distance between two triples *)
Definition wsq (n : nat) (w f : vec R) : R := rsum n (fun i => w i * (f i * f i)).
Definition dist2 (s : qp_settings R) (p : qp_data R) (rho : vec R) (x z y x' z' y' : vec R) : R :=
  wsq (qn p) (fun _ => sigma s) (fun j => x j - x' j) +
  wsq (qm p + qn p) rho (fun i => z i - z' i) +
  wsq (qm p + qn p) (fun i => / rho i) (fun i => y i - y' i).

(** the step sizes of the rows when they are not adapted (see C09 for the classification) *)
Definition rho_fix (s : qp_settings R) (p : qp_data R) : vec R :=
  fun i => rho_of_type (parse_constraints_bounds p i) (rho0 s).

(** step length below which both residuals are within eps_abs *)
Definition rho_low (s : qp_settings R) : R := Rmin RHO_MIN (rho0 s).
Definition rho_high (s : qp_settings R) : R := Rmax RHO_MIN (1000 * rho0 s).
Definition col_mass (p : qp_data R) : R :=
  rsum (qn p) (fun j => rsum (qm p + qn p) (fun i => Rabs (stacked (qm p) (qA p) i j))).
Definition threshold (sig e : R) (s : qp_settings R) (p : qp_data R) : R :=
  let tau := e / (1 + col_mass p) in
  Rmin (rho_low s * (e * e)) (tau * tau / Rmax sig (rho_high s)).
