(** Model of src/solvers/sqp_base.hpp (SQPBase with its default *_impl methods). *)
Require Import ZArith List Bool.
Require Import Verif.Scal Verif.Qp_Model.
Import ListNotations.
Local Open Scope S_scope.

(** sqp_base.hpp 24-33; [iteration_callback] is only "set or not": a callback that modifies the solver
    through its void* argument is not modelled. *)
Record sqp_settings (T : Type) := mkSqpSettings {
  tau : T; eta : T; srho : T; eps_prim : T; eps_dual : T;
  smax_iter : Z; ls_max_iter : Z; has_callback : bool
}.
Arguments mkSqpSettings {T}. Arguments tau {T}. Arguments eta {T}. Arguments srho {T}.
Arguments eps_prim {T}. Arguments eps_dual {T}. Arguments smax_iter {T}. Arguments ls_max_iter {T}.
Arguments has_callback {T}.

(** sqp_base.hpp 49-55 *)
Inductive sqp_status := SqpSolved | SqpMaxIter | SqpInvalidSettings.

(** The NLP as the solver sees it (Problem, nlproblem.hpp / continuous_ocp.hpp); static parameters are fixed.
    [p_lag_full x lam] = lagrangian_gradient_hessian: (Lagrangian gradient, Hessian, cost gradient,
    constraint values, Jacobian); [p_lag x lam] = lagrangian_gradient, the same without the Hessian.
    The constraint values are the equalities followed by the inequalities. *)
Record problem (T : Type) := mkProblem {
  nx : nat; ne : nat; ni : nat;
  p_cost : vec T -> T;
  p_eq : vec T -> vec T;
  p_ineq : vec T -> vec T;
  p_lag_full : vec T -> vec T -> vec T * mat T * vec T * vec T * mat T;
  p_lag : vec T -> vec T -> vec T * vec T * vec T * mat T;
  lbx : nat -> ext T; ubx : nat -> ext T; lbg : nat -> ext T; ubg : nat -> ext T
}.
Arguments mkProblem {T}. Arguments nx {T}. Arguments ne {T}. Arguments ni {T}. Arguments p_cost {T}.
Arguments p_eq {T}. Arguments p_ineq {T}. Arguments p_lag_full {T}. Arguments p_lag {T}.
Arguments lbx {T}. Arguments ubx {T}. Arguments lbg {T}. Arguments ubg {T}.

Section Sqp.
Context {T : Type} {ST : Scalar T}.

(** sqp_base.hpp 35-46, validate(); nothing in the library calls it *)
Definition validate (s : sqp_settings T) : bool :=
  (0 <? tau s) && (tau s <? 1) && (0 <? eta s) && (eta s <? 1) && (0 <? srho s) && (srho s <? 1) &&
  (0 <? eps_prim s) && (0 <? eps_dual s) && (0 <? smax_iter s)%Z && (0 <? ls_max_iter s)%Z.

Variable P : problem T.
Variable st : sqp_settings T.

(** ** constraint violation *)

(** (lb - t).cwiseMax(0), (t - ub).cwiseMax(0) for one coefficient.  A lower bound +inf or an upper bound
    -inf (an empty constraint) would give +inf; that is not represented, theorems assume proper bounds. *)
Definition viol_lo (lb : ext T) (t : T) : T :=
  match lb with Fin l => smax (l - t) 0 | MInf => 0 | PInf => 0 end.
Definition viol_up (ub : ext T) (t : T) : T :=
  match ub with Fin u => smax (t - u) 0 | PInf => 0 | MInf => 0 end.

(** std::numeric_limits<scalar_t>::epsilon(), double (sqp_base.hpp 155) *)
Definition sqp_eps : T := scst 1 (2 ^ 52).

(** sqp_base.hpp 421-444 constraints_violation_impl *)
Definition l1_violation (x : vec T) : T :=
  let c := p_eq P x in
  let g := p_ineq P x in
  ((((sqp_eps + norm1 (ne P) c)
     + ssum (ni P) (fun i => viol_lo (lbg P i) (g i)))
    + ssum (ni P) (fun i => viol_up (ubg P i) (g i)))
   + ssum (nx P) (fun j => viol_lo (lbx P j) (x j)))
  + ssum (nx P) (fun j => viol_up (ubx P j) (x j)).

(** a < b on extended values *)
Definition ext_ltb (a b : ext T) : bool :=
  match a, b with
  | Fin u, Fin v => u <? v
  | MInf, MInf => false | MInf, _ => true
  | _, MInf => false
  | PInf, _ => false | _, PInf => true
  end.
(** maxCoeff of the first [n] coefficients; -inf for an empty vector (never used then by the C++ code) *)
Fixpoint ext_maxcoeff (n : nat) (f : nat -> ext T) : ext T :=
  match n with
  | O => MInf
  | S k => let a := ext_maxcoeff k f in if ext_ltb a (f k) then f k else
             match k with O => f k | _ => a end
  end.
Definition ext_isnan (v : ext T) : bool := match v with Fin t => isnan t | _ => false end.
(** fmax(c, v): a NaN argument is dropped *)
Definition ext_fmax (c v : ext T) : ext T :=
  if ext_isnan c then v else if ext_isnan v then c else if ext_ltb c v then v else c.
(** t - b for a bound *)
Definition ext_rsub (t : T) (b : ext T) : ext T :=
  match b with Fin u => Fin (t - u) | PInf => MInf | MInf => PInf end.

(** sqp_base.hpp 446-474 max_constraints_violation_impl *)
Definition max_violation (x : vec T) : ext T :=
  let c0 := if Nat.ltb 0 (ne P) then Fin (norminf (ne P) (p_eq P x)) else Fin 0 in
  let c1 := if Nat.ltb 0 (ni P) then
              let g := p_ineq P x in
              ext_fmax (ext_fmax c0 (ext_maxcoeff (ni P) (fun i => ext_sub (lbg P i) (g i))))
                       (ext_maxcoeff (ni P) (fun i => ext_rsub (g i) (ubg P i)))
            else c0 in
  ext_fmax (ext_fmax c1 (ext_maxcoeff (nx P) (fun j => ext_sub (lbx P j) (x j))))
           (ext_maxcoeff (nx P) (fun j => ext_rsub (x j) (ubx P j))).

(** v <= t *)
Definition ext_leb_s (v : ext T) (t : T) : bool :=
  match v with Fin u => u <=? t | MInf => true | PInf => false end.

(** ** line search, sqp_base.hpp 378-419 *)
Section LineSearch.
Variables (x p : vec T) (mu phi dphi : T).

(** sqp_base.hpp 405-406: x_step = alpha * p; x_step += m_x *)
Definition trial_point (a : T) : vec T := tab (nx P) (fun j => a * p j + x j).
(** sqp_base.hpp 407-412 *)
Definition accept (a : T) : bool :=
  (p_cost P (trial_point a) + mu * l1_violation (trial_point a)) <=? (phi + (a * eta st) * dphi).

(** sqp_base.hpp 403-418: at most [fuel] trials; returns the step size, the logged cost (m_cost) and the
    number of trials (cost evaluations) *)
Fixpoint ls_loop (fuel : nat) (a : T) (cost : T) (evals : nat) : T * T * nat :=
  match fuel with
  | O => (a, cost, evals)
  | S k =>
      let cost' := p_cost P (trial_point a) in
      if accept a then (a, cost', S evals)
      else ls_loop k (tau st * a) cost' (S evals)
  end.
End LineSearch.

(** for (int i = 1; i < line_search_max_iter; i++) runs at most line_search_max_iter - 1 times *)
Definition ls_budget : nat := Z.to_nat (ls_max_iter st - 1).

(** sqp_base.hpp 378-419; [h] = m_h (cost gradient), [lamk] = m_lam_k (DUAL_SIZE multipliers),
    [cost] = previous value of m_cost *)
Definition step_size_selection (x p h lamk : vec T) (cost : T) : T * T * nat :=
  let constr_l1 := l1_violation x in
  let mu := norminf (ne P + ni P + nx P) lamk in
  let cost_1 := p_cost P x in
  let phi := cost_1 + mu * constr_l1 in
  let dphi := dot (nx P) h p - mu * constr_l1 in
  ls_loop x p mu phi dphi ls_budget 1 cost 0.

(** ** the QP subproblem *)
(** sqp_base.hpp 588-593, 652-657: bounds of the QP from the constraint values [b] at [x] *)
Definition sub_qp (H : mat T) (h : vec T) (A : mat T) (b : vec T) (x : vec T) : qp_data T :=
  {| qn := nx P; qm := ne P + ni P; qH := H; qh := h; qA := A;
     qAlb := fun i => if Nat.ltb i (ne P) then Fin (- b i) else ext_add (- b i) (lbg P (i - ne P));
     qAub := fun i => if Nat.ltb i (ne P) then Fin (- b i) else ext_add (- b i) (ubg P (i - ne P));
     qxlb := fun j => ext_sub (lbx P j) (x j);
     qxub := fun j => ext_sub (ubx P j) (x j) |}.

(** External behaviour.  [hupd] = hessian_update (default: BFGS_update, sqp_base.hpp 344-348), [hreg] =
    hessian_regularisation (default: identity).  [Q] is the state of the QP solver, [W] of the
    preconditioner (m_preconditioner). *)
Variables Q W : Type.
Variable hupd : mat T -> vec T -> vec T -> mat T.
Variable hreg : mat T -> mat T.
(** compute(H,h,A,al,au,lx,ux); unscale(x,y); unscale(H,h,A,al,au,lx,ux) *)
Variable pc_compute : W -> qp_data T -> W * qp_data T.
Variable pc_unscale_sol : W -> vec T * vec T -> vec T * vec T.
Variable pc_unscale : W -> qp_data T -> qp_data T.
(** m_qp_solver.solve: new solver state, primal, dual (DUAL_SIZE), info().iter; the status is ignored by
    the SQP solver (sqp_base.hpp 550-555).  [qp_mark] sets reuse_pattern and warm_start (614-615). *)
Variable qp_solve : Q -> qp_data T -> Q * (vec T * vec T * Z).
Variable qp_mark : Q -> Q.

(** members of SQPBase that change during solve(); [seen] records the iterates, newest first, [calls] the
    iterates at which the callback ran, [steps] the QP subproblems with the step and multipliers obtained for
    them (after unscaling); these three only record what happened. *)
Record sqp_state := mkSqp {
  m_x : vec T; m_lam : vec T; m_lag_gradient : vec T; m_H : mat T; m_step_prev : vec T;
  m_primal_norm : T; m_dual_norm : T; m_max_violation : ext T; m_cost : T;
  m_status : sqp_status; m_iter : Z; m_qp_iter : Z; m_q : Q; m_w : W;
  seen : list (vec T * vec T); calls : list (vec T);
  steps : list (qp_data T * (vec T * vec T))
}.

(** sqp_base.hpp 523-529 *)
Definition termination (pn dn : T) (mv : ext T) : bool :=
  (pn <=? eps_prim st) && (dn <=? eps_dual st) && ext_leb_s mv (eps_prim st).

(** sqp_base.hpp 588-632 / 652-683: from the linearisation (H,h,A,b) at the current point to the termination
    test (the callback, 685-686, sits between the step and the test and is recorded by the caller).
    [lagg] is the new m_lag_gradient. *)
Definition sqp_step (mark : Q -> Q) (s : sqp_state) (lagg : vec T) (H : mat T) (h : vec T) (A : mat T) (b : vec T)
  : sqp_state :=
  let d := sub_qp H h A b (m_x s) in
  let '(w, d1) := pc_compute (m_w s) d in
  let '(q, (p0, l0, it)) := qp_solve (m_q s) d1 in
  let '(p, lk) := pc_unscale_sol w (p0, l0) in
  let d2 := pc_unscale w d1 in
  let nd := (ne P + ni P + nx P)%nat in
  let pl := tab nd (fun i => lk i - m_lam s i) in
  let '(alpha, cost, _) := step_size_selection (m_x s) p (qh d2) lk (m_cost s) in
  let x' := tab (nx P) (fun j => m_x s j + alpha * p j) in
  let lam' := tab nd (fun i => m_lam s i + alpha * pl i) in
  {| m_x := x'; m_lam := lam'; m_lag_gradient := lagg; m_H := qH d2;
     m_step_prev := tab (nx P) (fun j => alpha * p j);
     m_primal_norm := alpha * norminf (nx P) p;
     m_dual_norm := alpha * norminf nd pl;
     m_max_violation := max_violation x';
     m_cost := cost; m_status := m_status s; m_iter := m_iter s; m_qp_iter := (m_qp_iter s + it)%Z;
     m_q := mark q; m_w := w; seen := (x', lam') :: seen s; calls := calls s;
     steps := (d, (p, lk)) :: steps s |}.

Definition set_status (v : sqp_status) (s : sqp_state) : sqp_state :=
  mkSqp (m_x s) (m_lam s) (m_lag_gradient s) (m_H s) (m_step_prev s) (m_primal_norm s) (m_dual_norm s)
        (m_max_violation s) (m_cost s) v (m_iter s) (m_qp_iter s) (m_q s) (m_w s) (seen s) (calls s) (steps s).
Definition set_iter (k : Z) (s : sqp_state) : sqp_state :=
  mkSqp (m_x s) (m_lam s) (m_lag_gradient s) (m_H s) (m_step_prev s) (m_primal_norm s) (m_dual_norm s)
        (m_max_violation s) (m_cost s) (m_status s) k (m_qp_iter s) (m_q s) (m_w s) (seen s) (calls s) (steps s).
Definition callback (s : sqp_state) : sqp_state :=
  if has_callback st then
    mkSqp (m_x s) (m_lam s) (m_lag_gradient s) (m_H s) (m_step_prev s) (m_primal_norm s) (m_dual_norm s)
        (m_max_violation s) (m_cost s) (m_status s) (m_iter s) (m_qp_iter s) (m_q s) (m_w s) (seen s)
        (m_x s :: calls s) (steps s)
  else s.

Definition terminated (s : sqp_state) : bool :=
  termination (m_primal_norm s) (m_dual_norm s) (m_max_violation s).

(** sqp_base.hpp 489-521 update_linearisation followed by the rest of the loop body 641-691 *)
Definition sqp_iteration (s : sqp_state) : sqp_state :=
  let s := set_iter (m_iter s + 1)%Z s in
  let '(lagg, h, b, A) := p_lag P (m_x s) (m_lam s) in
  let H := hupd (m_H s) (m_step_prev s) (tab (nx P) (fun j => lagg j - m_lag_gradient s j)) in
  callback (sqp_step (fun q => q) s lagg H h A b).

(** sqp_base.hpp 639-692; [fuel] bounds the number of iterations (max_iter - 1 suffices) *)
Fixpoint sqp_loop (fuel : nat) (s : sqp_state) : sqp_state :=
  match fuel with
  | O => s
  | S k =>
      if (m_iter s <? smax_iter st)%Z then
        let s' := sqp_iteration s in
        if terminated s' then set_status SqpSolved s' else sqp_loop k s'
      else s
  end.

(** sqp_base.hpp 569-637, the first iteration *)
Definition sqp_first (s : sqp_state) : sqp_state :=
  let s := mkSqp (m_x s) (m_lam s) (m_lag_gradient s) (m_H s) (m_step_prev s) (m_primal_norm s) (m_dual_norm s)
        (m_max_violation s) (m_cost s) SqpMaxIter 1 0 (m_q s) (m_w s) [(m_x s, m_lam s)] [] [] in
  let '(lagg, H, h, b, A) := p_lag_full P (m_x s) (m_lam s) in
  sqp_step qp_mark s lagg (hreg H) h A b.

(** sqp_base.hpp 569-696 solve() *)
Definition sqp_solve (s : sqp_state) : sqp_state :=
  let s1 := sqp_first s in
  if terminated s1 then set_status SqpSolved s1
  else sqp_loop (Z.to_nat (smax_iter st - 1)) s1.

End Sqp.
Arguments mkSqp {T Q W}. Arguments m_x {T Q W}. Arguments m_lam {T Q W}. Arguments m_lag_gradient {T Q W}.
Arguments m_H {T Q W}. Arguments m_step_prev {T Q W}. Arguments m_primal_norm {T Q W}.
Arguments m_dual_norm {T Q W}. Arguments m_max_violation {T Q W}. Arguments m_cost {T Q W}.
Arguments m_status {T Q W}. Arguments m_iter {T Q W}. Arguments m_qp_iter {T Q W}. Arguments m_q {T Q W}.
Arguments m_w {T Q W}. Arguments seen {T Q W}. Arguments calls {T Q W}. Arguments steps {T Q W}.
