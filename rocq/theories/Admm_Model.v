(** Model of src/solvers/admm.hpp, dense matrices (class ADMM). *)
Require Import ZArith List Bool.
From Verif Require Import Scal Qp_Model.
Local Open Scope S_scope.

Section Model.
Context {T : Type} {ST : Scalar T}.

(** The linear solver (admm.hpp 100, 378, 147): [lsolve K rhs] is what solve(rhs) returns after
    compute(K).  An arbitrary function of the factorised matrix and the right-hand side. *)
Variable lsolve : nat -> mat T -> vec T -> vec T.
(** template argument LinearSolver_UpLo: [true] for Upper|Lower, [false] for Lower *)
Variable uplo_full : bool.

(** Data members of the object (admm.hpp 77-100, qp_base.hpp 128-142).  [Fact] is the matrix
    last passed to linear_solver.compute.  Scratch members that are always written before being
    read in a solve (m_A, m_x_tilde, m_z_tilde, m_z_prev, iter) are local in the model. *)
Record admm_obj := mkAdmm {
  a_x : vec T;
  a_y : vec T;
  a_z : vec T;
  a_rho_vec : vec T;
  a_rho_inv : vec T;
  a_rho : T;
  a_K : mat T;
  a_Fact : mat T;
  a_ctype : nat -> constraint_type;      (* rows of A, then variables *)
  a_res : residuals T;
  a_status : qp_status;
  a_iter : Z;
  a_rho_updates : Z;
  a_rho_estimate : T
}.

(** admm.hpp 216-222: m_A = [A; I] *)
Definition construct_A (n m : nat) (A : mat T) : mat T :=
  tab2 (m + n) n (fun i j => if Nat.ltb i m then A i j else if Nat.eqb (i - m) j then 1 else 0).

(** admm.hpp 397-403 *)
Definition box_projection (p : qp_data T) (v : vec T) : vec T :=
  tab (qm p + qn p) (fun i =>
    if Nat.ltb i (qm p) then proj_row (v i) (qAlb p i) (qAub p i)
    else proj_row (v i) (qxlb p (i - qm p)%nat) (qxub p (i - qm p)%nat)).

(** qp_base.hpp 195-222: constr_type then box_constr_type *)
Definition parse_constraints_bounds (p : qp_data T) : nat -> constraint_type :=
  let l := map (fun i => if Nat.ltb i (qm p) then parse_row (qAlb p i) (qAub p i)
                         else parse_row (qxlb p (i - qm p)%nat) (qxub p (i - qm p)%nat))
               (seq 0 (qm p + qn p)) in
  fun i => nth i l INEQUALITY_CONSTRAINT.

(** admm.hpp 405-444 *)
Definition rho_vec_update (p : qp_data T) (r0 : T) (o : admm_obj) : admm_obj :=
  let rv := tab (qm p + qn p) (fun i => rho_of_type (a_ctype o i) r0) in
  let ri := tab (qm p + qn p) (fun i => 1 / rv i) in
  mkAdmm (a_x o) (a_y o) (a_z o) rv ri r0 (a_K o) (a_Fact o) (a_ctype o) (a_res o)
         (a_status o) (a_iter o) (a_rho_updates o + 1)%Z (a_rho_estimate o).

(** admm.hpp 249-264; [K] is the old content of m_K (the upper right block is left alone when
    only the lower triangle is used) *)
Definition construct_kkt_matrix (s : qp_settings T) (p : qp_data T) (Ae : mat T) (rinv : vec T) (K : mat T) : mat T :=
  let n := qn p in
  tab2 (n + (qm p + n)) (n + (qm p + n)) (fun i j =>
    if Nat.ltb i n then
      if Nat.ltb j n then (if Nat.eqb i j then qH p i j + sigma s else qH p i j)
      else (if uplo_full then Ae (j - n)%nat i else K i j)
    else
      if Nat.ltb j n then Ae (i - n)%nat j
      else (if Nat.eqb i j then - (rinv (i - n)%nat) else 0)).

(** admm.hpp 495-499 *)
Definition update_kkt_rho (p : qp_data T) (rinv : vec T) (K : mat T) : mat T :=
  let n := qn p in
  tab2 (n + (qm p + n)) (n + (qm p + n)) (fun i j =>
    if Nat.eqb i j && Nat.leb n i then - (rinv (i - n)%nat) else K i j).

Definition set_K (K : mat T) (o : admm_obj) : admm_obj :=
  mkAdmm (a_x o) (a_y o) (a_z o) (a_rho_vec o) (a_rho_inv o) (a_rho o) K (a_Fact o) (a_ctype o) (a_res o)
         (a_status o) (a_iter o) (a_rho_updates o) (a_rho_estimate o).
(** admm.hpp 374-380 *)
Definition factorise_kkt_matrix (o : admm_obj) : admm_obj :=
  mkAdmm (a_x o) (a_y o) (a_z o) (a_rho_vec o) (a_rho_inv o) (a_rho o) (a_K o) (a_K o) (a_ctype o) (a_res o)
         (a_status o) (a_iter o) (a_rho_updates o) (a_rho_estimate o).
Definition set_status (st : qp_status) (o : admm_obj) : admm_obj :=
  mkAdmm (a_x o) (a_y o) (a_z o) (a_rho_vec o) (a_rho_inv o) (a_rho o) (a_K o) (a_Fact o) (a_ctype o) (a_res o)
         st (a_iter o) (a_rho_updates o) (a_rho_estimate o).
Definition set_iter (k : Z) (o : admm_obj) : admm_obj :=
  mkAdmm (a_x o) (a_y o) (a_z o) (a_rho_vec o) (a_rho_inv o) (a_rho o) (a_K o) (a_Fact o) (a_ctype o) (a_res o)
         (a_status o) k (a_rho_updates o) (a_rho_estimate o).
Definition set_rho_estimate (r : T) (o : admm_obj) : admm_obj :=
  mkAdmm (a_x o) (a_y o) (a_z o) (a_rho_vec o) (a_rho_inv o) (a_rho o) (a_K o) (a_Fact o) (a_ctype o) (a_res o)
         (a_status o) (a_iter o) (a_rho_updates o) r.

(** admm.hpp 391-395 *)
Definition compute_kkt_rhs (s : qp_settings T) (p : qp_data T) (o : admm_obj) : vec T :=
  let n := qn p in
  tab (n + (qm p + n)) (fun i =>
    if Nat.ltb i n then sigma s * a_x o i - qh p i
    else a_z o (i - n)%nat - a_rho_inv o (i - n)%nat * a_y o (i - n)%nat).

(** admm.hpp 143-162: one ADMM iteration *)
Definition admm_update (s : qp_settings T) (p : qp_data T) (o : admm_obj) : admm_obj :=
  let n := qn p in
  let mn := (qm p + n)%nat in
  let z_prev := a_z o in
  let rhs := compute_kkt_rhs s p o in
  let x_tilde_nu := tab (n + mn) (lsolve (n + mn) (a_Fact o) rhs) in
  let x_tilde := tab n (fun i => x_tilde_nu i) in
  let z_tilde := tab mn (fun i => z_prev i + a_rho_inv o i * (x_tilde_nu (n + i)%nat - a_y o i)) in
  let x' := tab n (fun i => alpha s * x_tilde i + (1 - alpha s) * a_x o i) in
  let z1 := tab mn (fun i => alpha s * z_tilde i) in
  let z2 := tab mn (fun i => z1 i + ((1 - alpha s) * z_prev i + a_rho_inv o i * a_y o i)) in
  let z' := box_projection p z2 in
  let y' := tab mn (fun i => a_y o i + a_rho_vec o i * ((alpha s * z_tilde i + (1 - alpha s) * z_prev i) - z' i)) in
  mkAdmm x' y' z' (a_rho_vec o) (a_rho_inv o) (a_rho o) (a_K o) (a_Fact o) (a_ctype o) (a_res o)
         (a_status o) (a_iter o) (a_rho_updates o) (a_rho_estimate o).

(** admm.hpp 446-467 *)
Definition compute_residuals (p : qp_data T) (x y z : vec T) : residuals T :=
  let n := qn p in let m := qm p in
  let norm_Ax := sfmax (norminf m (mv n (qA p) x)) (norminf n x) in
  let norm_z := norminf (m + n) z in
  let norm_Hx := norminf n (mv n (qH p) x) in
  let norm_ATy := norminf n (mv m (mtr (qA p)) y) in
  let norm_h := norminf n (qh p) in
  let norm_y_box := norminf n (fun j => y (m + j)%nat) in
  let rp := primal_residual n m (qA p) x z in
  let box_norm := norminf n (fun j => x j - z (m + j)%nat) in
  mkRes (sfmax rp box_norm)
        (dual_residual n m (qH p) (qh p) (qA p) x y)
        (sfmax norm_Ax norm_z)
        (sfmax norm_Hx (sfmax norm_ATy (sfmax norm_h norm_y_box))).
Definition residuals_update (p : qp_data T) (o : admm_obj) : admm_obj :=
  mkAdmm (a_x o) (a_y o) (a_z o) (a_rho_vec o) (a_rho_inv o) (a_rho o) (a_K o) (a_Fact o) (a_ctype o)
         (compute_residuals p (a_x o) (a_y o) (a_z o))
         (a_status o) (a_iter o) (a_rho_updates o) (a_rho_estimate o).

(** admm.hpp 186-198 *)
Definition adapt_rho (s : qp_settings T) (p : qp_data T) (o : admm_obj) : admm_obj :=
  let new_rho := clamp_rho (estimate_rho (a_res o) (a_rho o)) in
  let o := set_rho_estimate new_rho o in
  if rho_change_needed s new_rho (a_rho o) then
    let o := rho_vec_update p new_rho o in
    let o := set_K (update_kkt_rho p (a_rho_inv o) (a_K o)) o in
    factorise_kkt_matrix o
  else o.

(** admm.hpp 141-204: the loop body.  % by zero (adaptive_rho_interval = 0) is undefined. *)
Definition admm_body (s : qp_settings T) (p : qp_data T) (iter : Z) (o : admm_obj) : pass admm_obj :=
  let o1 := admm_update s p o in
  let chk := is_check_iter s iter in
  let o2 := if chk then residuals_update p o1 else o1 in
  if chk && termination_criteria s (a_res o2) then Stop (set_status SOLVED o2)
  else if adaptive_rho s then
    if (adaptive_rho_interval s =? 0)%Z then Undef
    else if (Z.rem iter (adaptive_rho_interval s) =? 0)%Z then
      let o3 := if chk then o2 else residuals_update p o2 in
      Cont (adapt_rho s p o3)
    else Cont o2
  else Cont o2.

(** admm.hpp 117-138: setup; [o] is the object before the call *)
Definition admm_setup (s : qp_settings T) (p : qp_data T) (x_guess y_guess : vec T) (o : admm_obj) : admm_obj :=
  let n := qn p in let mn := (qm p + n)%nat in
  let x := tab n x_guess in
  let y := tab mn y_guess in
  let Ae := construct_A n (qm p) (qA p) in
  let z := tab mn (mv n Ae x_guess) in
  let o := mkAdmm x y z (a_rho_vec o) (a_rho_inv o) (a_rho o) (a_K o) (a_Fact o)
                  (parse_constraints_bounds p) (a_res o)
                  (a_status o) (a_iter o) (a_rho_updates o) (a_rho_estimate o) in
  let o := rho_vec_update p (rho0 s) o in
  let o := set_K (construct_kkt_matrix s p Ae (a_rho_inv o) (a_K o)) o in
  let o := factorise_kkt_matrix o in
  set_status UNSOLVED o.

(** admm.hpp 112-213 *)
Definition admm_solve (s : qp_settings T) (p : qp_data T) (x_guess y_guess : vec T) (o : admm_obj) : option admm_obj :=
  match qp_loop (admm_body s p) (max_iter s) (S (Z.to_nat (max_iter s))) 1 (admm_setup s p x_guess y_guess o) with
  | None => None
  | Some (o, iter) =>
      let o := if (max_iter s <? iter)%Z then set_status MAX_ITER_EXCEEDED o else o in
      Some (set_iter iter o)
  end.

(** admm.hpp 104-109: solve without a guess *)
Definition admm_solve_cold (s : qp_settings T) (p : qp_data T) (o : admm_obj) : option admm_obj :=
  admm_solve s p (fun _ => 0) (fun _ => 0) o.

(** admm.hpp 62-73 with qp_base.hpp 64-72: the freshly constructed object.  m_K is zeroed by
    allocate_kkt_matrix; the other vectors are uninitialised in C++ (zero here, never read
    before being written). *)
Definition admm_new (r0 : T) : admm_obj :=
  mkAdmm (fun _ => 0) (fun _ => 0) (fun _ => 0) (fun _ => r0) (fun _ => 1 / r0) r0
         (fun _ _ => 0) (fun _ _ => 0) (fun _ => INEQUALITY_CONSTRAINT)
         (mkRes 1 1 0 0) UNINITIALIZED 0 0 0.

End Model.
Arguments admm_obj T : clear implicits.
