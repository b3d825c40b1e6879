(** Model of src/solvers/qp_base.hpp (parts shared by ADMM and boxADMM). *)
Require Import ZArith List Bool.
From Verif Require Import Scal.
Local Open Scope S_scope.

(** qp_base.hpp 17-53, only the settings used by the native ADMM solvers.
    C++ [int] is modelled by [Z] (no overflow). *)
Record qp_settings (T : Type) := mkSettings {
  eps_rel : T;
  eps_abs : T;
  max_iter : Z;
  rho0 : T;                      (* settings.rho *)
  sigma : T;
  alpha : T;
  check_termination : Z;
  adaptive_rho : bool;
  adaptive_rho_tolerance : T;
  adaptive_rho_interval : Z
}.
Arguments mkSettings {T}.
Arguments eps_rel {T}. Arguments eps_abs {T}. Arguments max_iter {T}. Arguments rho0 {T}.
Arguments sigma {T}. Arguments alpha {T}. Arguments check_termination {T}.
Arguments adaptive_rho {T}. Arguments adaptive_rho_tolerance {T}. Arguments adaptive_rho_interval {T}.

(** qp_base.hpp 55-62 *)
Inductive qp_status := SOLVED | MAX_ITER_EXCEEDED | UNSOLVED | UNINITIALIZED | INFEASIBLE | INCONSISTENT.

(** qp_base.hpp 132-136 *)
Inductive constraint_type := INEQUALITY_CONSTRAINT | EQUALITY_CONSTRAINT | LOOSE_BOUNDS.

(** The data of one call to solve(H, h, A, Alb, Aub, xlb, xub): [n] variables (template
    parameter N), [m] general constraints (M). Bounds may be infinite ([ext]). *)
Record qp_data (T : Type) := mkQP {
  qn : nat;
  qm : nat;
  qH : mat T;
  qh : vec T;
  qA : mat T;
  qAlb : nat -> ext T;
  qAub : nat -> ext T;
  qxlb : nat -> ext T;
  qxub : nat -> ext T
}.
Arguments mkQP {T}. Arguments qn {T}. Arguments qm {T}. Arguments qH {T}. Arguments qh {T}.
Arguments qA {T}. Arguments qAlb {T}. Arguments qAub {T}. Arguments qxlb {T}. Arguments qxub {T}.

Section Model.
Context {T : Type} {ST : Scalar T}.

(** qp_base.hpp 124-126; 10e-10 is 1e-9 (double specialisation, 80-82) *)
Definition LOOSE_BOUNDS_THRESH : T := sofZ 10000000000.
Definition EQ_TOL : T := scst 1 10000.
Definition DIV_BY_ZERO_REGUL : T := scst 1 1000000000.

(** admm.hpp 88-91, box_admm.hpp 56-59 *)
Definition RHO_MIN : T := scst 1 1000000.
Definition RHO_MAX : T := sofZ 1000000.
Definition RHO_EQ_FACTOR : T := sofZ 1000.

(** qp_base.hpp 195-222 (and 179-193), one row; the eigen_assert on the bounds is only active in
    debug builds and is not modelled. *)
Definition parse_row (lb ub : ext T) : constraint_type :=
  if ext_lt_s lb (- LOOSE_BOUNDS_THRESH) && s_lt_ext LOOSE_BOUNDS_THRESH ub then LOOSE_BOUNDS
  else if ext_sub_lt ub lb EQ_TOL then EQUALITY_CONSTRAINT
  else INEQUALITY_CONSTRAINT.

(** admm.hpp 409-420, 426-437; box_admm.hpp 361-372, 380-391: step size of one row *)
Definition rho_of_type (c : constraint_type) (r0 : T) : T :=
  match c with
  | LOOSE_BOUNDS => RHO_MIN
  | EQUALITY_CONSTRAINT => RHO_EQ_FACTOR * r0
  | INEQUALITY_CONSTRAINT => r0
  end.

(** qp_base.hpp 240-244 *)
Definition primal_residual (n m : nat) (A : mat T) (x b : vec T) : T :=
  norminf m (fun i => mv n A x i - b i).
(** qp_base.hpp 247-252; [y] has the m multipliers of A followed by the n box multipliers *)
Definition dual_residual (n m : nat) (H : mat T) (h : vec T) (A : mat T) (x y : vec T) : T :=
  norminf n (fun j => ((mv n H x j + h j) + mv m (mtr A) y j) + y (m + j)%nat).

(** admm.hpp 397-403, box_admm.hpp 135, 139: x.cwiseMax(lb).cwiseMin(ub) *)
Definition proj_row (v : T) (lb ub : ext T) : T := clampU (clampL v lb) ub.

(** admm.hpp 164-167, box_admm.hpp 149-152; C++ % is Z.rem *)
Definition is_check_iter (s : qp_settings T) (iter : Z) : bool :=
  negb (check_termination s =? 0)%Z && (Z.rem iter (check_termination s) =? 0)%Z.

(** residual data kept in the object: info.res_prim, info.res_dual, m_max_Ax_z_norm,
    m_max_Hx_ATy_h_norm *)
Record residuals := mkRes { res_prim : T; res_dual : T; max_Ax_z : T; max_Hx : T }.

(** admm.hpp 469-483, box_admm.hpp 417-431 *)
Definition eps_prim (s : qp_settings T) (r : residuals) : T := eps_abs s + eps_rel s * max_Ax_z r.
Definition eps_dual (s : qp_settings T) (r : residuals) : T := eps_abs s + eps_rel s * max_Hx r.
Definition termination_criteria (s : qp_settings T) (r : residuals) : bool :=
  (res_prim r <=? eps_prim s r) && (res_dual r <=? eps_dual s r).

(** admm.hpp 485-493, box_admm.hpp 433-445 *)
Definition estimate_rho (r : residuals) (rho : T) : T :=
  let rp_norm := res_prim r / (max_Ax_z r + DIV_BY_ZERO_REGUL) in
  let rd_norm := res_dual r / (max_Hx r + DIV_BY_ZERO_REGUL) in
  rho * ssqrt (rp_norm / (rd_norm + DIV_BY_ZERO_REGUL)).

(** admm.hpp 187-188 *)
Definition clamp_rho (r : T) : T := sfmax RHO_MIN (sfmin r RHO_MAX).

(** admm.hpp 191-192 *)
Definition rho_change_needed (s : qp_settings T) (new_rho rho : T) : bool :=
  (new_rho <? rho / adaptive_rho_tolerance s) || (rho * adaptive_rho_tolerance s <? new_rho).

(** What one pass through the loop body does. *)
Inductive pass (O : Type) := Stop (o : O) | Cont (o : O) | Undef.
Arguments Stop {O}. Arguments Cont {O}. Arguments Undef {O}.

(** for (iter = 1; iter <= max_iter; iter++) body;   the result carries the value of
    [iter] at loop exit.  [None]: undefined behaviour inside the body.  The fuel is
    [S (Z.to_nat max_iter)] and is never exhausted (lemma [qp_loop_fuel]). *)
Fixpoint qp_loop {O : Type} (body : Z -> O -> pass O) (mx : Z) (fuel : nat) (iter : Z) (o : O)
  : option (O * Z) :=
  match fuel with
  | O => None
  | S k =>
      if (iter <=? mx)%Z then
        match body iter o with
        | Stop o' => Some (o', iter)
        | Cont o' => qp_loop body mx k (iter + 1)%Z o'
        | Undef => None
        end
      else Some (o, iter)
  end.

(** The states the loop passes through: [visits body o0 k o] when [o] is the state at the
    beginning of the pass with counter [k]. *)
Inductive visits {O : Type} (body : Z -> O -> pass O) (mx : Z) (o0 : O) : Z -> O -> Prop :=
| visits_first : visits body mx o0 1 o0
| visits_next : forall k o o', visits body mx o0 k o -> (k <= mx)%Z -> body k o = Cont o' ->
    visits body mx o0 (k + 1) o'.

End Model.
Arguments residuals T : clear implicits.
Arguments Stop {O}. Arguments Cont {O}. Arguments Undef {O}.
