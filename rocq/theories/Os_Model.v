(** Model of src/solvers/osqp_interface.hpp (class OSQP, N variables, M general constraints) and
    src/solvers/qpmad_interface.hpp (class QPMAD).

    The third-party solvers are outside the library.  What the model assumes about them:
    - OsqpEigen::Data::setHessianMatrix and setLinearConstraintsMatrix refuse a second call (until the
      matrix is cleared, which the interface never does); setGradient and the bound setters keep
      pointers to the members m_h, x_lower_bound, x_upper_bound and may be called again;
      OsqpEigen::Solver::initSolver copies the data into a workspace and refuses a second call;
      the update functions replace the data of an existing workspace and otherwise fail;
    - without a workspace, reading the solution or workspace()->info is undefined: [None];
    - the minimisation itself is a parameter: any function of the workspace problem and the initial guess;
    - qpmad::Solver::solve is a parameter.

    Simplifications: return codes of the third-party calls are ignored (as the interface does);
    scalar R; settings other than warm_start and reuse_pattern do not affect the interface's own code. *)
Require Import Arith Bool List Reals.
From Verif Require Import Scal Blk RSum Sparse.
Import ListNotations.
Local Open Scope R_scope.

(** qp_base.hpp:54-72 *)
Inductive status_t := SOLVED | MAX_ITER_EXCEEDED | UNSOLVED | UNINITIALIZED | INFEASIBLE | INCONSISTENT.
Record info_t := Info { status : status_t; iter : nat; rho_updates : nat; rho_estimate : R; res_prim : R; res_dual : R }.
Definition info0 : info_t := Info UNINITIALIZED 0 0 0 1 1.

(** ** constraint matrix *)
(** the rows stored in column k, in storage order; the value array of a column *)
Definition rows_of (A : spmat R) (k : nat) : list nat := filter (fun i => pat A i k) (seq 0 (sp_r A)).
Definition value_of (A : spmat R) (k q : nat) : R := val A (nth q (rows_of A k) O) k.
(** dst.insert(i, j) = v over a list of entries *)
Fixpoint insert_list (es : list (nat * nat)) (v : nat -> nat -> R) (D : spmat R) : option (spmat R) :=
  match es with
  | [] => Some D
  | (i, j) :: es => match insert D i j (v i j) with None => None | Some D => insert_list es v D end
  end.
(** dst.coeffRef(i, j) = v: changes a stored entry, inserts otherwise *)
Definition set_coeff (D : spmat R) (i j : nat) (v : R) : option (spmat R) :=
  if pat D i j then upd D (pos D i j) (fun _ => v) else insert D i j v.
(** a matrix argument: Eigen's compressed mode has no innerNonZeroPtr (it is null) *)
Record sparse_arg := Arg { am : spmat R; compressed : bool }.
(** construct_A, :174-198; block_insert_sparse, :200-211 *)
Definition build_A (N M : nat) (A : spmat R) : option (spmat R) :=
  let D := reserve (sp_empty (N + M) N) (fun k => (1 + ncol A k)%nat) in
  match insert_list (flat_map (fun k => map (fun i => (i, k)) (rows_of A k)) (seq 0 (sp_c A))) (val A) D with
  | None => None
  | Some D => oloop N (fun i D => set_coeff D (i + M) i 1) D
  end.
Definition refresh_A (N : nat) (A D : spmat R) : option (spmat R) :=
  oloop N (fun k D => copy_n D (ncol A k) (value_of A k) (outer D k)) D.
Definition construct_A (N M : nat) (reuse_pattern : bool) (A : sparse_arg) (mA : spmat R) : option (spmat R) :=
  if compressed A then None
  else if reuse_pattern then refresh_A N (am A) mA else build_A N M (am A).

(** ** OsqpEigen *)
Record oqp := Oqp { oP : nat -> nat -> R; oq : nat -> R; oA : nat -> nat -> R; ol : nat -> ext R; ou : nat -> ext R }.
(** what the minimisation leaves in the workspace *)
Inductive oval := OSQP_SOLVED | OSQP_SOLVED_INACCURATE | OSQP_PRIMAL_INFEASIBLE | OSQP_DUAL_INFEASIBLE
  | OSQP_MAX_ITER_REACHED | OSQP_UNSOLVED | OSQP_OTHER.
Record ores := Ores { ox : nat -> R; oy : nat -> R; oiter : nat; oprim : R; odua : R; orho : nat; oest : R; ostat : oval }.
(** data()->..., workspace *)
Record osqp := Osqp { dP : option (nat -> nat -> R); dA : option (nat -> nat -> R); ws : option oqp }.
Definition keep {X} (o : option X) (x : X) : option X := match o with Some y => Some y | None => Some x end.

Section Osqp.
Variables N M : nat.
Variable minimise : oqp -> option ((nat -> R) * (nat -> R)) -> ores.

(** the members of class OSQP *)
Record iface := Iface { solver : osqp; mA : spmat R; mx : nat -> R; my : nat -> R; minfo : info_t }.
Definition fresh : iface := Iface (Osqp None None None) (sp_empty 0 0) (fun _ => 0) (fun _ => 0) info0.

Record problem_t := Prob { H : nat -> nat -> R; h : nat -> R; A : sparse_arg; Alb : nat -> ext R; Aub : nat -> ext R; xlb : nat -> ext R; xub : nat -> ext R }.
Record settings_t := Settings { warm_start : bool; reuse_pattern : bool }.

(** :53-56 the stacked bounds *)
Definition stack (a b : nat -> ext R) : nat -> ext R := fun i => if (i <? M)%nat then a i else b (i - M)%nat.
(** :91-99 and :153-161 *)
Definition status_of (v : oval) : status_t :=
  match v with
  | OSQP_SOLVED => SOLVED | OSQP_SOLVED_INACCURATE => SOLVED
  | OSQP_PRIMAL_INFEASIBLE => INFEASIBLE | OSQP_DUAL_INFEASIBLE => INFEASIBLE
  | OSQP_MAX_ITER_REACHED => MAX_ITER_EXCEEDED | OSQP_UNSOLVED => UNSOLVED | OSQP_OTHER => UNSOLVED
  end.
(** solve_impl :46-100 (guess = None) and :102-162 (guess = Some (x_guess, y_guess)) *)
Definition solve (s : settings_t) (st : iface) (p : problem_t) (guess : option ((nat -> R) * (nat -> R))) : option (iface * status_t) :=
  match construct_A N M (reuse_pattern s) (A p) (mA st) with
  | None => None
  | Some mA' =>
    let new := Oqp (H p) (h p) (coeff mA') (stack (Alb p) (xlb p)) (stack (Aub p) (xub p)) in
    let o := solver st in
    let o := if warm_start s
             then (* :62-65 *) Osqp (dP o) (dA o) (match ws o with Some _ => Some new | None => None end)
             else (* :73-79 *)
               let P := keep (dP o) (H p) in let Am := keep (dA o) (coeff mA') in
               Osqp P Am (match ws o with
                          | Some w => Some w
                          | None => match P, Am with Some P, Some Am => Some (Oqp P (h p) Am (ol new) (ou new)) | _, _ => None end
                          end) in
    match ws o with
    | None => None
    | Some w =>
      let r := minimise w guess in
      (* :83-89: res_prim is set from dua_res, res_dual is not set *)
      let i := Info (status_of (ostat r)) (oiter r) (orho r) (oest r) (odua r) (res_dual (minfo st)) in
      Some (Iface o mA' (ox r) (oy r) i, status_of (ostat r))
    end
  end.

(** a sequence of calls *)
Fixpoint session (st : iface) (calls : list (settings_t * problem_t * option ((nat -> R) * (nat -> R)))) : option iface :=
  match calls with
  | [] => Some st
  | (s, p, g) :: calls => match solve s st p g with None => None | Some (st, _) => session st calls end
  end.
End Osqp.

(** ** QPMAD *)
Inductive qret := Q_OK | Q_MAX_ITER | Q_OTHER.
Section Qpmad.
Context {problem : Type}.
(** qpmad::Solver::solve(primal, ...): the new primal and the return status *)
Variable qpmad_solve : problem -> (nat -> R) -> (nat -> R) * qret.
Record qface := Qface { qx : nat -> R; qy : nat -> R; qinfo : info_t }.
Definition qfresh : qface := Qface (fun _ => 0) (fun _ => 0) info0.
Definition set_status (i : info_t) (s : status_t) : info_t := Info s (iter i) (rho_updates i) (rho_estimate i) (res_prim i) (res_dual i).
(** :50-89, and :91-112 with an initial guess *)
Definition qsolve (st : qface) (p : problem) (guess : option (nat -> R)) : qface * status_t :=
  let x0 := match guess with Some x => x | None => qx st end in
  let '(x, r) := qpmad_solve p x0 in
  match r with
  | Q_OK => (Qface x (qy st) (set_status (qinfo st) SOLVED), SOLVED)
  | Q_MAX_ITER => (Qface x (qy st) (set_status (qinfo st) MAX_ITER_EXCEEDED), MAX_ITER_EXCEEDED)
  | Q_OTHER => (Qface x (qy st) (qinfo st), UNSOLVED)
  end.
End Qpmad.
