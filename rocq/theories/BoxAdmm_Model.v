(** Model of src/solvers/box_admm.hpp, dense matrices (class boxADMM). *)
Require Import ZArith List Bool.
From Verif Require Import Scal Qp_Model Admm_Model.
Local Open Scope S_scope.

Section Model.
Context {T : Type} {ST : Scalar T}.

(** box_admm.hpp 68, 118: as in Admm_Model *)
Variable lsolve : nat -> mat T -> vec T -> vec T.
Variable uplo_full : bool.

(** Data members (box_admm.hpp 44-69, qp_base.hpp 128-142).  [Fact] is the matrix last passed to
    linear_solver.compute.  Members always written before being read in a solve (m_x_tilde,
    m_z_tilde, m_z_prev, m_rho_vec_box_prev, iter) are local. *)
Record box_obj := mkBox {
  b_x : vec T;
  b_y : vec T;                          (* m multipliers of A, then n of the box *)
  b_z : vec T;
  b_q : vec T;
  b_rho_vec : vec T;
  b_rho_inv : vec T;
  b_rho_box : vec T;
  b_rho_box_inv : vec T;
  b_rho : T;
  b_K : mat T;
  b_Fact : mat T;
  b_ctype : nat -> constraint_type;     (* rows of A, then variables *)
  b_res : residuals T;
  b_status : qp_status;
  b_iter : Z;
  b_rho_updates : Z;
  b_rho_estimate : T
}.

(** box_admm.hpp 357-396 *)
Definition box_rho_vec_update (p : qp_data T) (r0 : T) (o : box_obj) : box_obj :=
  let rv := tab (qm p) (fun i => rho_of_type (b_ctype o i) r0) in
  let ri := tab (qm p) (fun i => 1 / rv i) in
  let rb := tab (qn p) (fun i => rho_of_type (b_ctype o (qm p + i)%nat) r0) in
  let rbi := tab (qn p) (fun i => 1 / rb i) in
  mkBox (b_x o) (b_y o) (b_z o) (b_q o) rv ri rb rbi r0 (b_K o) (b_Fact o) (b_ctype o) (b_res o)
        (b_status o) (b_iter o) (b_rho_updates o + 1)%Z (b_rho_estimate o).

(** box_admm.hpp 207-223; [K] is the old content of m_K: the upper right block is left alone when
    only the lower triangle is used, and of the lower right block only the diagonal is written *)
Definition box_construct_kkt_matrix (s : qp_settings T) (p : qp_data T) (rinv rbox : vec T) (K : mat T) : mat T :=
  let n := qn p in
  tab2 (n + qm p) (n + qm p) (fun i j =>
    if Nat.ltb i n then
      if Nat.ltb j n then (if Nat.eqb i j then (qH p i j + sigma s) + rbox i else qH p i j)
      else (if uplo_full then qA p (j - n)%nat i else K i j)
    else
      if Nat.ltb j n then qA p (i - n)%nat j
      else (if Nat.eqb i j then - (rinv (i - n)%nat) else K i j)).

(** box_admm.hpp 447-452 *)
Definition box_update_kkt_rho (p : qp_data T) (rinv rbox rbox_prev : vec T) (K : mat T) : mat T :=
  let n := qn p in
  tab2 (n + qm p) (n + qm p) (fun i j =>
    if Nat.eqb i j then
      if Nat.ltb i n then K i j + (rbox i - rbox_prev i) else - (rinv (i - n)%nat)
    else K i j).

Definition bset_K (K : mat T) (o : box_obj) : box_obj :=
  mkBox (b_x o) (b_y o) (b_z o) (b_q o) (b_rho_vec o) (b_rho_inv o) (b_rho_box o) (b_rho_box_inv o) (b_rho o)
        K (b_Fact o) (b_ctype o) (b_res o) (b_status o) (b_iter o) (b_rho_updates o) (b_rho_estimate o).
(** box_admm.hpp 332-338 *)
Definition box_factorise (o : box_obj) : box_obj :=
  mkBox (b_x o) (b_y o) (b_z o) (b_q o) (b_rho_vec o) (b_rho_inv o) (b_rho_box o) (b_rho_box_inv o) (b_rho o)
        (b_K o) (b_K o) (b_ctype o) (b_res o) (b_status o) (b_iter o) (b_rho_updates o) (b_rho_estimate o).
Definition bset_status (st : qp_status) (o : box_obj) : box_obj :=
  mkBox (b_x o) (b_y o) (b_z o) (b_q o) (b_rho_vec o) (b_rho_inv o) (b_rho_box o) (b_rho_box_inv o) (b_rho o)
        (b_K o) (b_Fact o) (b_ctype o) (b_res o) st (b_iter o) (b_rho_updates o) (b_rho_estimate o).
Definition bset_iter (k : Z) (o : box_obj) : box_obj :=
  mkBox (b_x o) (b_y o) (b_z o) (b_q o) (b_rho_vec o) (b_rho_inv o) (b_rho_box o) (b_rho_box_inv o) (b_rho o)
        (b_K o) (b_Fact o) (b_ctype o) (b_res o) (b_status o) k (b_rho_updates o) (b_rho_estimate o).
Definition bset_rho_estimate (r : T) (o : box_obj) : box_obj :=
  mkBox (b_x o) (b_y o) (b_z o) (b_q o) (b_rho_vec o) (b_rho_inv o) (b_rho_box o) (b_rho_box_inv o) (b_rho o)
        (b_K o) (b_Fact o) (b_ctype o) (b_res o) (b_status o) (b_iter o) (b_rho_updates o) r.

(** box_admm.hpp 351-355 *)
Definition box_kkt_rhs (s : qp_settings T) (p : qp_data T) (o : box_obj) : vec T :=
  let n := qn p in
  tab (n + qm p) (fun i =>
    if Nat.ltb i n then ((sigma s * b_x o i - qh p i) + b_rho_box o i * b_q o i) - b_y o (qm p + i)%nat
    else b_z o (i - n)%nat - b_rho_inv o (i - n)%nat * b_y o (i - n)%nat).

(** box_admm.hpp 120-147: one iteration *)
Definition box_update (s : qp_settings T) (p : qp_data T) (o : box_obj) : box_obj :=
  let n := qn p in let m := qm p in
  let z_prev := b_z o in
  let rhs := box_kkt_rhs s p o in
  let x_tilde_nu := tab (n + m) (lsolve (n + m) (b_Fact o) rhs) in
  let x_tilde := tab n (fun i => x_tilde_nu i) in
  let z_tilde := tab m (fun i => z_prev i + b_rho_inv o i * (x_tilde_nu (n + i)%nat - b_y o i)) in
  (* 129-130: the second statement reads the value just assigned *)
  let x1 := tab n (fun i => alpha s * x_tilde i) in
  let x' := tab n (fun i => x1 i + (1 - alpha s) * x1 i) in
  let z1 := tab m (fun i => alpha s * z_tilde i) in
  let z2 := tab m (fun i => z1 i + ((1 - alpha s) * z_prev i + b_rho_inv o i * b_y o i)) in
  let z' := tab m (fun i => proj_row (z2 i) (qAlb p i) (qAub p i)) in
  let q1 := tab n (fun i => x' i + b_rho_box_inv o i * b_y o (m + i)%nat) in
  let q' := tab n (fun i => proj_row (q1 i) (qxlb p i) (qxub p i)) in
  let y' := tab (m + n) (fun i =>
    if Nat.ltb i m then b_y o i + b_rho_vec o i * ((alpha s * z_tilde i + (1 - alpha s) * z_prev i) - z' i)
    else b_y o i + b_rho_box o (i - m)%nat * (x' (i - m)%nat - q' (i - m)%nat)) in
  mkBox x' y' z' q' (b_rho_vec o) (b_rho_inv o) (b_rho_box o) (b_rho_box_inv o) (b_rho o)
        (b_K o) (b_Fact o) (b_ctype o) (b_res o) (b_status o) (b_iter o) (b_rho_updates o) (b_rho_estimate o).

(** box_admm.hpp 398-415 *)
Definition box_compute_residuals (p : qp_data T) (x y z q : vec T) : residuals T :=
  let n := qn p in let m := qm p in
  let norm_Ax := norminf m (mv n (qA p) x) in
  let norm_z := norminf m z in
  let norm_Hx := norminf n (mv n (qH p) x) in
  let norm_ATy := norminf n (mv m (mtr (qA p)) y) in
  let norm_h := norminf n (qh p) in
  let norm_y_box := norminf n (fun j => y (m + j)%nat) in
  mkRes (primal_residual n m (qA p) x z + norminf n (fun j => x j - q j))
        (dual_residual n m (qH p) (qh p) (qA p) x y)
        (sfmax norm_Ax (sfmax norm_z (norminf n x)))
        (sfmax norm_Hx (sfmax norm_ATy (sfmax norm_h norm_y_box))).
Definition box_residuals_update (p : qp_data T) (o : box_obj) : box_obj :=
  mkBox (b_x o) (b_y o) (b_z o) (b_q o) (b_rho_vec o) (b_rho_inv o) (b_rho_box o) (b_rho_box_inv o) (b_rho o)
        (b_K o) (b_Fact o) (b_ctype o) (box_compute_residuals p (b_x o) (b_y o) (b_z o) (b_q o))
        (b_status o) (b_iter o) (b_rho_updates o) (b_rho_estimate o).

(** box_admm.hpp 172-186 *)
Definition box_adapt_rho (s : qp_settings T) (p : qp_data T) (o : box_obj) : box_obj :=
  let new_rho := clamp_rho (estimate_rho (b_res o) (b_rho o)) in
  let o := bset_rho_estimate new_rho o in
  if rho_change_needed s new_rho (b_rho o) then
    let prev := b_rho_box o in
    let o := box_rho_vec_update p new_rho o in
    let o := bset_K (box_update_kkt_rho p (b_rho_inv o) (b_rho_box o) prev (b_K o)) o in
    box_factorise o
  else o.

(** box_admm.hpp 115-197: the loop body; % by zero is undefined *)
Definition box_body (s : qp_settings T) (p : qp_data T) (iter : Z) (o : box_obj) : pass box_obj :=
  let o1 := box_update s p o in
  let chk := is_check_iter s iter in
  let o2 := if chk then box_residuals_update p o1 else o1 in
  if chk && termination_criteria s (b_res o2) then Stop (bset_status SOLVED o2)
  else if adaptive_rho s then
    if (adaptive_rho_interval s =? 0)%Z then Undef
    else if (Z.rem iter (adaptive_rho_interval s) =? 0)%Z then
      let o3 := if chk then o2 else box_residuals_update p o2 in
      Cont (box_adapt_rho s p o3)
    else Cont o2
  else Cont o2.

(** box_admm.hpp 93-111 *)
Definition box_setup (s : qp_settings T) (p : qp_data T) (x_guess y_guess : vec T) (o : box_obj) : box_obj :=
  let n := qn p in let m := qm p in
  let x := tab n x_guess in
  let y := tab (m + n) y_guess in
  let z := tab m (mv n (qA p) x_guess) in
  let o := mkBox x y z x (b_rho_vec o) (b_rho_inv o) (b_rho_box o) (b_rho_box_inv o) (b_rho o) (b_K o) (b_Fact o)
                 (parse_constraints_bounds p) (b_res o) (b_status o) (b_iter o) (b_rho_updates o) (b_rho_estimate o) in
  let o := box_rho_vec_update p (rho0 s) o in
  let o := bset_K (box_construct_kkt_matrix s p (b_rho_inv o) (b_rho_box o) (b_K o)) o in
  let o := box_factorise o in
  bset_status UNSOLVED o.

(** box_admm.hpp 85-205 *)
Definition box_solve (s : qp_settings T) (p : qp_data T) (x_guess y_guess : vec T) (o : box_obj) : option box_obj :=
  match qp_loop (box_body s p) (max_iter s) (S (Z.to_nat (max_iter s))) 1 (box_setup s p x_guess y_guess o) with
  | None => None
  | Some (o, iter) =>
      let o := if (max_iter s <? iter)%Z then bset_status MAX_ITER_EXCEEDED o else o in
      Some (bset_iter iter o)
  end.

(** box_admm.hpp 78-83: solve without a guess *)
Definition box_solve_cold (s : qp_settings T) (p : qp_data T) (o : box_obj) : option box_obj :=
  box_solve s p (fun _ => 0) (fun _ => 0) o.

(** box_admm.hpp 33-41, 70-74 with qp_base.hpp 64-72: the freshly constructed object, m_K is zero;
    the vectors are uninitialised in C++ (never read before being written) *)
Definition box_new (r0 : T) : box_obj :=
  mkBox (fun _ => 0) (fun _ => 0) (fun _ => 0) (fun _ => 0) (fun _ => r0) (fun _ => 1 / r0) (fun _ => r0) (fun _ => 1 / r0) r0
        (fun _ _ => 0) (fun _ _ => 0) (fun _ => INEQUALITY_CONSTRAINT)
        (mkRes 1 1 0 0) UNINITIALIZED 0 0 0.

(** Objects a program can hold: constructed, then used for any sequence of solves with the fixed
    template sizes N, M (a solve may also have been undefined, then the program is over). *)
Inductive box_reachable (N M : nat) : box_obj -> Prop :=
| reach_new : forall r0, box_reachable N M (box_new r0)
| reach_solve : forall s p xg yg o o', box_reachable N M o -> qn p = N -> qm p = M ->
    box_solve s p xg yg o = Some o' -> box_reachable N M o'.

End Model.
Arguments box_obj T : clear implicits.
