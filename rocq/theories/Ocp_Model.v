(** Model of src/control/continuous_ocp.hpp: direct transcription of a continuous-time
    optimal control problem (values, dense Jacobians, cost, gradient, dense Hessian,
    Lagrangian).  The sparse variants are in Ocp_Sparse_Model.v.

    Simplifications common to all definitions:
    - the static parameters [p] ([ND] of them) are constant during an evaluation and are
      folded into the user functions;
    - the user functions evaluated on AutoDiff scalars are represented by the value
      function together with a derivative function ([o_dyn_jac], ...).  The correctness
      of the AutoDiff arithmetic is a separate property (see AutoDiff_Model.v);
    - the members t_start, t_stop and time_nodes are set together by set_time_limits, so
      time_nodes is a function of t_start and t_stop;
    - an Eigen size or range assertion that fails is [None]. *)
Require Import Arith List Bool ZArith.
Require Import Verif.Scal Verif.Blk.

Section OCP.
Context {T : Type} {ST : Scalar T}.
Local Open Scope S_scope.

(** user function: state, control, parameters, time *)
Definition ufun (B : Type) := vec T -> vec T -> vec T -> T -> B.

(** continuous_ocp.hpp:69-98 (dimensions), :146-159 (times), :203-260 (user callbacks).
    [o_lag] / [o_may] are [None] when the problem class does not define
    lagrange_term_impl / mayer_term_impl: the default implementation leaves its output
    argument untouched. *)
Record ocp := mkOcp {
  NX : nat; NU : nat; NP : nat; NG : nat;      (* polympc_traits *)
  PO : nat; SG : nat;                          (* POLY_ORDER, NUM_SEGMENTS *)
  m_D : mat T;                                 (* Approximation::compute_diff_matrix() *)
  m_nodes : vec T;                             (* Approximation::compute_nodes() *)
  m_w : vec T;                                 (* Approximation::compute_int_weights() *)
  t_start : T; t_stop : T;
  o_dyn : ufun (vec T);                        (* dynamics *)
  o_dyn_jac : ufun (mat T);                    (* derivatives of the AD evaluation *)
  o_dyn_hes : ufun (nat -> mat T);             (* second derivatives, per component *)
  o_ine : ufun (vec T);                        (* inequality_constraints *)
  o_ine_jac : ufun (mat T);
  o_ine_hes : ufun (nat -> mat T);
  o_lag : option (ufun T * ufun (vec T) * ufun (mat T));   (* lagrange_term: value, gradient, Hessian *)
  o_may : option (ufun T * ufun (vec T) * ufun (mat T))    (* mayer_term *)
}.

Variable o : ocp.
Local Notation nx := (NX o).
Local Notation nu := (NU o).
Local Notation np := (NP o).
Local Notation ng := (NG o).
Local Notation P := (PO o).
Local Notation Sg := (SG o).

(** continuous_ocp.hpp:77-93, splines.hpp:34 *)
Definition NUM_NODES : nat := P * Sg + 1.
Definition VARX : nat := nx * NUM_NODES.
Definition VARU : nat := nu * NUM_NODES.
Definition VAR : nat := VARX + VARU + np.
Definition NUM_EQ : nat := VARX.
Definition NUM_INEQ : nat := ng * NUM_NODES.
(** length of the per-node argument (x, u, p) of the AD evaluation *)
Definition NZ : nat := nx + nu + np.

Definition snat (n : nat) : T := sofZ (Z.of_nat n).

(** continuous_ocp.hpp:49-55 and :151-158: time_nodes after the constructor or
    set_time_limits.  reverseInPlace on NUM_NODES entries. *)
Definition time_raw : vec T :=
  let t_length := (t_stop o - t_start o) / snat Sg in
  let t_shift := t_length / sofZ 2 in
  loop Sg (fun i tn =>
    vset tn (i * P) (P + 1)
      (fun k => (t_length / sofZ 2) * m_nodes o (P - k)%nat
                + (t_start o + t_shift + snat i * t_length) * 1)) (fun _ => 0).
Definition time_nodes : vec T := fun k => time_raw (NUM_NODES - 1 - k)%nat.

(** continuous_ocp.hpp:743 (and the same line in every evaluation) *)
Definition t_scale : T := (t_stop o - t_start o) / snat (2 * Sg).

(** segments of the optimisation variable at node [k]: var.segment<NX>(k*NX),
    var.segment<NU>(k*NU + VARX_SIZE), var.segment<NP>(VARX_SIZE + VARU_SIZE) *)
Definition xk (var : vec T) (k : nat) : vec T := seg var (k * nx).
Definition uk (var : vec T) (k : nat) : vec T := seg var (k * nu + VARX).
Definition pk (var : vec T) : vec T := seg var (VARX + VARU).

(** a user callback evaluated at node [k] *)
Definition at_node {B} (f : ufun B) (var : vec T) (k : nat) : B :=
  f (xk var k) (uk var k) (pk var) (time_nodes k).

(** continuous_ocp.hpp:746-750: DX.block<POLY_ORDER+1, NX>(i*POLY_ORDER, 0) =
    m_D * lox.block<NX, POLY_ORDER+1>(0, i*POLY_ORDER)^T with lox(c, j) = var(j*NX + c) *)
Definition DX (var : vec T) : mat T :=
  loop Sg (fun i M =>
    mset M (i * P) 0 (P + 1) nx
      (fun r c => ssum (P + 1) (fun j => m_D o r j * var ((i * P + j) * nx + c)%nat)))
    (fun _ _ => 0).

(** continuous_ocp.hpp:738-766.  The three loop counters k, n, t advance together
    (k = t*NX, n = t*NU). *)
Definition equalities (var : vec T) : vec T :=
  loop NUM_NODES (fun t con =>
    let f_res := at_node (o_dyn o) var t in
    let con1 := vset con (t * nx) nx (fun c => DX var t c) in
    vdec con1 (t * nx) nx (fun c => t_scale * f_res c)) (fun _ => 0).

(** continuous_ocp.hpp:769-782 *)
Definition inequalities (var : vec T) : vec T :=
  loop NUM_NODES (fun k con => vset con (k * ng) ng (at_node (o_ine o) var k)) (fun _ => 0).

(** continuous_ocp.hpp:784-792 *)
Definition constraints (var : vec T) : vec T :=
  fun i => if (i <? NUM_EQ)%nat then equalities var i else inequalities var (i - NUM_EQ)%nat.

(** continuous_ocp.hpp:815-826: m_D(i,j) * I blocks *)
Definition jac_diff : mat T :=
  loop Sg (fun s J =>
    loop P (fun i J =>
      loop (P + 1) (fun j J =>
        mset J (s * P * nx + i * nx) (s * P * nx + j * nx) nx nx
          (fun r c => if (r =? c)%nat then m_D o i j else 0)) J) J)
    (fun _ _ => 0).

(** continuous_ocp.hpp:842-843: last NX rows = - (first block row).reverse() *)
Definition jac_last (J : mat T) : mat T :=
  mset J (VARX - nx) (VARX - nx * (P + 1)) nx (nx * (P + 1))
    (fun r c => - J (nx - 1 - r)%nat (nx * (P + 1) - 1 - c)%nat).

(** continuous_ocp.hpp:794-878, dense: constraint values and Jacobian *)
Definition equalities_linearised (var : vec T) : vec T * mat T :=
  loop NUM_NODES (fun t cj =>
    let '(con, J) := cj in
    let y := at_node (o_dyn o) var t in
    let jac := at_node (o_dyn_jac o) var t in
    let con1 := vset con (t * nx) nx (fun i => (- t_scale) * y i) in
    let con2 := vacc con1 (t * nx) nx (fun c => DX var t c) in
    let J1 := mdec J (t * nx) (t * nx) nx nx (fun r c => t_scale * jac r c) in
    let J2 := mdec J1 (t * nx) (t * nu + VARX) nx nu (fun r c => t_scale * jac r (nx + c)%nat) in
    let J3 := mdec J2 (t * nx) (VARX + VARU) nx np (fun r c => t_scale * jac r (nx + nu + c)%nat) in
    (con2, J3)) ((fun _ => 0), jac_last jac_diff).

(** continuous_ocp.hpp:546-575, dense *)
Definition inequalities_linearised (var : vec T) : vec T * mat T :=
  loop NUM_NODES (fun k cj =>
    let '(con, J) := cj in
    let g := at_node (o_ine o) var k in
    let jac := at_node (o_ine_jac o) var k in
    let con1 := vset con (k * ng) ng g in
    let J1 := mset J (k * ng) (k * nx) ng nx jac in
    let J2 := mset J1 (k * ng) (k * nu + VARX) ng nu (fun r c => jac r (nx + c)%nat) in
    let J3 := mset J2 (k * ng) (VARX + VARU) ng np (fun r c => jac r (nx + nu + c)%nat) in
    (con1, J3)) ((fun _ => 0), (fun _ _ => 0)).

(** continuous_ocp.hpp:1134-1146, dense: values head/tail, Jacobian topRows/bottomRows *)
Definition constraints_linearised (var : vec T) : vec T * mat T :=
  let '(ce, Je) := equalities_linearised var in
  let '(ci, Ji) := inequalities_linearised var in
  ((fun i => if (i <? NUM_EQ)%nat then ce i else ci (i - NUM_EQ)%nat),
   (fun i j => if (i <? NUM_EQ)%nat then Je i j else Ji (i - NUM_EQ)%nat j)).

(** a callback that assigns a scalar output; without an implementation the output keeps its
    previous value *)
Definition call {B C} (f : option (ufun T * ufun (vec T) * ufun (mat T)))
  (get : ufun T * ufun (vec T) * ufun (mat T) -> ufun B) (post : B -> C) (prev : C)
  (var : vec T) (k : nat) : C :=
  match f with Some g => post (at_node (get g) var k) | None => prev end.
Definition get_val (g : ufun T * ufun (vec T) * ufun (mat T)) : ufun T := fst (fst g).
Definition get_grad (g : ufun T * ufun (vec T) * ufun (mat T)) : ufun (vec T) := snd (fst g).
Definition get_hes (g : ufun T * ufun (vec T) * ufun (mat T)) : ufun (mat T) := snd g.

(** continuous_ocp.hpp:1180-1207.  State of the loop: (cost, cost_i).  The Mayer term is
    evaluated at node 0, whose segments are head<NX> and segment<NU>(VARX_SIZE). *)
Definition cost (var : vec T) : T :=
  let '(c, _) :=
    loop Sg (fun s cc =>
      loop (P + 1) (fun k cc =>
        let '(c, ci) := cc in
        let ci1 := call (o_lag o) get_val (fun v => v) ci var (k + s * P) in
        (c + t_scale * m_w o k * ci1, ci1)) cc) (0, 0) in
  let ci := call (o_may o) get_val (fun v => v) 0 var 0 in
  c + ci.

(** the three segments of the gradient written at node [k] with the derivatives [g] of the
    per-node argument: continuous_ocp.hpp:1229-1234 *)
Definition grad_add (v : vec T) (k : nat) (g : vec T) : vec T :=
  let v1 := vacc v (k * nx) nx g in
  let v2 := vacc v1 (k * nu + VARX) nu (fun i => g (nx + i)%nat) in
  vacc v2 (VARX + VARU) np (fun i => g (nx + nu + i)%nat).

(** continuous_ocp.hpp:1209-1249.  [ad] is the member m_ad_cost (value, derivatives) left
    by the previous call; line 1222 only resets its value.  Result: cost, gradient and the
    new m_ad_cost. *)
Definition cost_gradient (ad : T * vec T) (var : vec T) : T * vec T * (T * vec T) :=
  let '(c, grad, ad1) :=
    loop Sg (fun s st =>
      loop (P + 1) (fun k st =>
        let '(c, grad, a) := st in
        let a1 := match o_lag o with
                  | Some g => (at_node (get_val g) var (k + s * P), at_node (get_grad g) var (k + s * P))
                  | None => a
                  end in
        (c + t_scale * m_w o k * fst a1,
         grad_add grad (k + s * P) (fun i => t_scale * m_w o k * snd a1 i), a1)) st)
      (0, (fun _ => 0), (0, snd ad)) in
  let a2 := match o_may o with
            | Some g => (at_node (get_val g) var 0, at_node (get_grad g) var 0)
            | None => (0, fun _ => 0)
            end in
  (c + fst a2, grad_add grad 0 (snd a2), a2).

(** the nine blocks of the Hessian added at node [k]: continuous_ocp.hpp:1306-1327 *)
Definition hes_add (H : mat T) (k : nat) (h : mat T) : mat T :=
  let X := (k * nx)%nat in
  let U := (k * nu + VARX)%nat in
  let Q := (VARX + VARU)%nat in
  let H1 := macc H X X nx nx h in
  let H2 := macc H1 X U nx nu (blk h 0 nx) in
  let H3 := macc H2 U X nu nx (blk h nx 0) in
  let H4 := macc H3 U U nu nu (blk h nx nx) in
  let H5 := macc H4 X Q nx np (blk h 0 (nx + nu)) in
  let H6 := macc H5 U Q nu np (blk h nx (nx + nu)) in
  let H7 := macc H6 Q X np nx (blk h (nx + nu) 0) in
  let H8 := macc H7 Q U np nu (blk h (nx + nu) nx) in
  macc H8 Q Q np np (blk h (nx + nu) (nx + nu)).

(** continuous_ocp.hpp:1352-1366: the Mayer blocks.  Line 1354 uses bottomLeftCorner<NP,NP>
    of both matrices where bottomRightCorner was meant. *)
Definition hes_mayer (H : mat T) (h : mat T) : mat T :=
  let Q := (VARX + VARU)%nat in
  let H1 := macc H 0 0 nx nx h in
  let H2 := macc H1 VARX VARX nu nu (blk h nx nx) in
  let H3 := macc H2 (VAR - np) 0 np np (blk h (NZ - np) 0) in
  let H4 := macc H3 0 VARX nx nu (blk h 0 nx) in
  let H5 := macc H4 VARX 0 nu nx (blk h nx 0) in
  let H6 := macc H5 0 Q nx np (blk h 0 (nx + nu)) in
  let H7 := macc H6 Q 0 np nx (blk h (nx + nu) 0) in
  let H8 := macc H7 VARX Q nu np (blk h nx (nx + nu)) in
  macc H8 Q VARX np nu (blk h (nx + nu) nx).

(** continuous_ocp.hpp:1334-1335: m_ad2_u(i) = var.segment<NX>(VARX_SIZE)(i) for i < NU;
    the segment must lie in [var] and i must be below NX *)
Definition mayer_u_ok : bool :=
  (nu =? 0)%nat || ((VARX + nx <=? VAR)%nat && (nu <=? nx)%nat).

(** continuous_ocp.hpp:1253-1367, dense.  The derivatives of m_ad2_cost are zero-seeded
    (:700-735) and only overwritten by lagrange_term, so a missing term contributes zero.
    hes.col(i) = derivatives of the i-th derivative, i.e. hes(r, i) = d/dz_r d/dz_i. *)
Definition cost_gradient_hessian (var : vec T) : option (T * vec T * mat T) :=
  let '(c, grad, H) :=
    loop Sg (fun s st =>
      loop (P + 1) (fun k st =>
        let '(c, grad, H) := st in
        let n := (k + s * P)%nat in
        let v := call (o_lag o) get_val (fun v => v) 0 var n in
        let g := call (o_lag o) get_grad (fun v => v) (fun _ => 0) var n in
        let h := call (o_lag o) get_hes (fun v => v) (fun _ _ => 0) var n in
        let coeff := t_scale * m_w o k in
        (c + coeff * v, grad_add grad n (fun i => coeff * g i),
         hes_add H n (fun i j => coeff * h i j))) st)
      (0, (fun _ => 0), (fun _ _ => 0)) in
  if mayer_u_ok then
    let v := call (o_may o) get_val (fun v => v) 0 var 0 in
    let g := call (o_may o) get_grad (fun v => v) (fun _ => 0) var 0 in
    let h := call (o_may o) get_hes (fun v => v) (fun _ _ => 0) var 0 in
    Some (c + v, grad_add grad 0 g, hes_mayer H h)
  else None.

(** continuous_ocp.hpp:1909-1940: lagrangian = cost + constraints . lam + var . lam.tail *)
Definition lagrangian (var lam : vec T) : T :=
  cost var + dot (NUM_EQ + NUM_INEQ) lam (constraints var)
  + dot VAR (seg lam (NUM_EQ + NUM_INEQ)) var.

(** continuous_ocp.hpp:1957-1975, dense: the output called _lagrangian (which only receives
    the cost, :1968 is commented out), gradient of the Lagrangian, cost gradient, constraints
    and Jacobian; m_ad_cost as in [cost_gradient] *)
Definition lagrangian_gradient (ad : T * vec T) (var lam : vec T)
  : T * vec T * vec T * vec T * mat T * (T * vec T) :=
  let '(c, g, ad1) := cost_gradient ad var in
  let '(con, J) := constraints_linearised var in
  let lag_grad := fun j => ssum (NUM_EQ + NUM_INEQ) (fun i => J i j * lam i)
                           + g j + lam (NUM_EQ + NUM_INEQ + j)%nat in
  (c, lag_grad, g, con, J, ad1).

End OCP.
Arguments ocp T : clear implicits.
Arguments ufun T B : clear implicits.
