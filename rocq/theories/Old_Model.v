(** Model of the older collocation layer, which continuous_ocp.hpp replaces:
    src/control/ode_collocation.hpp, sparse_ode_collocation.hpp, cost_collocation.hpp and
    constraints_collocation.hpp.

    The problem data are those of the record [ocp] (Ocp_Model.v).  In this layer
    - the user functions have no time argument; the model passes 0 for it;
    - the horizon is an argument (t0, tf) of every call; here t0 = t_start o, tf = t_stop o;
    - o_lag / o_may must be present (the template arguments LagrangeTerm and MayerTerm have no
      default, HAS_LAGRANGE = HAS_MAYER = 1); a missing term stands for the zero function;
    - the Mayer term only receives the state.
    AutoDiff evaluation of a user function: the derivative vectors of the result are the exact
    derivatives of the function applied to the derivative vectors of the arguments (chain rule,
    see C38); the latter are members of the object, called seeds here. *)
Require Import Arith List Bool ZArith.
Require Import Verif.Scal Verif.Blk Verif.Sparse Verif.Ocp_Model Verif.Ocp_Sparse_Model.

Section Old.
Context {T : Type} {ST : Scalar T}.
Local Open Scope S_scope.
Variable o : ocp T.
Local Notation nx := (NX o).
Local Notation nu := (NU o).
Local Notation np := (NP o).
Local Notation P := (PO o).
Local Notation Sg := (SG o).
Local Notation N := (NUM_NODES o).
Local Notation vx := (VARX o).
Local Notation vu := (VARU o).

(** a user function at node [k]: var.segment<NX>(k*NX), var.segment<NU>(k*NU + VARX_SIZE),
    var.segment<NP>(VARX_SIZE + VARU_SIZE) *)
Definition old_at {B} (f : ufun T B) (var : vec T) (k : nat) : B :=
  f (xk o var k) (uk o var k) (pk o var) 0.

(** * ode_collocation.hpp *)

(** ode_collocation.hpp:92-115 (compute_diff_matrix), node by node *)
Definition old_DM : mat T :=
  if (Sg <? 2)%nat then m_D o
  else loop (Sg - 1) (fun k M => mset M (k * P) (k * P) P (P + 1) (m_D o))
         (mset (fun _ _ => 0) (N - (P + 1)) (N - (P + 1)) (P + 1) (P + 1) (m_D o)).
(** :100, :111 kroneckerProduct(DM, E) with E the NX x NX identity *)
Definition old_kron : mat T :=
  fun i j => old_DM (i / nx)%nat (j / nx)%nat * (if (i mod nx =? j mod nx)%nat then 1 else 0).

(** the members that the methods read: m_DiffMat (:77) and the derivative vectors of m_ADx, m_ADu
    (:65-66), row i = seed of the i-th of the NX + NU variables *)
Record old_ode := { oo_diff : mat T; oo_seed : mat T }.
(** :84-89 and :140-156 *)
Definition ode_default : old_ode :=
  {| oo_diff := old_kron; oo_seed := fun i j => if (i =? j)%nat then 1 else 0 |}.
(** :47 the constructor with an argument has an empty body: m_DiffMat keeps its default member
    initialiser (:77), the seeds are uninitialised ([junk]).  The argument is dropped and m_f is
    default-constructed. *)
Definition ode_from (junk : mat T) : old_ode := {| oo_diff := fun _ _ => 0; oo_seed := junk |}.

(** :118-138 operator().  value = f at every node; constr = -t_scale * value; constr += m_DiffMat * x *)
Definition old_residual (s : old_ode) (var : vec T) : vec T :=
  let value := loop N (fun k v => vset v (k * nx) nx (old_at (o_dyn o) var k)) (fun _ => 0) in
  fun i => (- t_scale o) * value i + ssum vx (fun j => oo_diff s i j * var j).

(** :182-190 derivatives of m_ADy: chain rule through the seeds; the parameters are passed as
    plain scalars *)
Definition old_ad_jac (s : old_ode) (var : vec T) (k : nat) : mat T :=
  fun i j => ssum (nx + nu) (fun m => old_at (o_dyn_jac o) var k i m * oo_seed s m j).

(** :159-201 linearized: (b, A) *)
Definition old_linearized (s : old_ode) (var : vec T) : vec T * mat T :=
  let '(value, A) :=
    loop N (fun k va =>
      let '(value, A) := va in
      let jac := old_ad_jac s var k in
      (vset value (k * nx) nx (old_at (o_dyn o) var k),
       mset (mset A (k * nx) (k * nx) nx nx (fun r c => (- t_scale o) * jac r c))
         (k * nx) (k * nu + vx) nx nu (fun r c => (- t_scale o) * jac r (nx + c)%nat)))
      ((fun _ => 0), (fun _ _ => 0)) in
  ((fun i => ssum vx (fun j => oo_diff s i j * var j) - t_scale o * value i),
   (fun i j => if (j <? vx)%nat then A i j + oo_diff s i j else A i j)).

(** * constraints_collocation.hpp *)

(** constraints_collocation.hpp:147-165 and :168-188 (generic_function, both overloads): a function
    with [ny] outputs at every node *)
Definition old_generic (ny : nat) (f : ufun T (vec T)) (var : vec T) : vec T :=
  loop N (fun k v => vset v (k * ny) ny (old_at f var k)) (fun _ => 0).

(** * cost_collocation.hpp *)

(** a cost term (value, gradient, Hessian); see the header for missing terms *)
Definition ol_val (var : vec T) (k : nat) : T :=
  match o_lag o with Some g => old_at (get_val g) var k | None => 0 end.
Definition ol_grad (var : vec T) (k : nat) : vec T :=
  match o_lag o with Some g => old_at (get_grad g) var k | None => fun _ => 0 end.
Definition ol_hes (var : vec T) (k : nat) : mat T :=
  match o_lag o with Some g => old_at (get_hes g) var k | None => fun _ _ => 0 end.
(** the Mayer term sees the state of node 0 (head<NX>) and nothing else *)
Definition om_val (var : vec T) : T :=
  match o_may o with Some g => get_val g (xk o var 0) (fun _ => 0) (fun _ => 0) 0 | None => 0 end.
Definition om_grad (var : vec T) : vec T :=
  match o_may o with Some g => get_grad g (xk o var 0) (fun _ => 0) (fun _ => 0) 0 | None => fun _ => 0 end.
Definition om_hes (var : vec T) : mat T :=
  match o_may o with Some g => get_hes g (xk o var 0) (fun _ => 0) (fun _ => 0) 0 | None => fun _ _ => 0 end.

(** members: m_weights (:120) and the seeds of m_ADx, m_ADu (:91-92).  The seeds of m_outADx,
    m_outADu (:103-104) are set together with them and are the same numbers. *)
Record old_cost := { oc_w : vec T; oc_seed : mat T }.
(** :124-130, :311-359 *)
Definition cost_default : old_cost :=
  {| oc_w := m_w o; oc_seed := fun i j => if (i =? j)%nat then 1 else 0 |}.
(** :112 empty body *)
Definition cost_from (w : vec T) (junk : mat T) : old_cost := {| oc_w := w; oc_seed := junk |}.

(** :157, :201, :274 node shared by two segments *)
Definition junction (k : nat) : bool :=
  (k mod P =? 0)%nat && negb (k =? 0)%nat && (k <? Sg * P)%nat.

(** :133-164 operator() *)
Definition old_cost_value (s : old_cost) (var : vec T) : T :=
  loop N (fun k c =>
    let L := ol_val var k in
    let c1 := c + t_scale o * oc_w s (k mod P)%nat * L in
    if junction k then c1 + t_scale o * oc_w s (k mod P)%nat * L else c1)
    (0 + om_val var).

(** derivatives of the AD result through the seeds: only the NX + NU state and control variables
    carry derivatives; [nact] of them are AD arguments of the call *)
Definition old_ad_grad (s : old_cost) (nact : nat) (g : vec T) : vec T :=
  fun j => ssum nact (fun m => g m * oc_seed s m j).
Definition old_ad_hes (s : old_cost) (nact : nat) (h : mat T) : mat T :=
  fun i j => ssum nact (fun a => ssum nact (fun b => h a b * oc_seed s a i * oc_seed s b j)).

(** two segments of the gradient at node [k], assigned and then doubled at a junction: :197-206 *)
Definition old_grad_node (v : vec T) (k : nat) (g : vec T) : vec T :=
  let v1 := vset v (k * nx) nx g in
  let v2 := vset v1 (k * nu + vx) nu (fun i => g (nx + i)%nat) in
  if junction k then
    let v3 := vset v2 (k * nx) nx (fun i => v2 (k * nx + i)%nat * sofZ 2) in
    vset v3 (k * nu + vx) nu (fun i => v3 (k * nu + vx + i)%nat * sofZ 2)
  else v2.

(** :167-225 value_gradient.  The Mayer gradient, a vector of length NX + NU, is added to
    head<NX+NU>() *)
Definition old_value_gradient (s : old_cost) (var : vec T) : T * vec T :=
  let '(c, g) :=
    loop N (fun k cg =>
      let '(c, g) := cg in
      let coeff := t_scale o * oc_w s (k mod P)%nat in
      let L := ol_val var k in
      let c1 := c + coeff * L in
      let c2 := if junction k then c1 + coeff * L else c1 in
      (c2, old_grad_node g k (fun i => coeff * old_ad_grad s (nx + nu) (ol_grad var k) i)))
      (0, (fun _ => 0)) in
  (c + om_val var, vacc g 0 (nx + nu) (old_ad_grad s nx (om_grad var))).

(** the four blocks of the Hessian at node [k], assigned and then doubled at a junction: :268-284 *)
Definition old_hes_node (H : mat T) (k : nat) (h : mat T) : mat T :=
  let X := (k * nx)%nat in
  let U := (k * nu + vx)%nat in
  let H1 := mset H X X nx nx h in
  let H2 := mset H1 X U nx nu (blk h 0 nx) in
  let H3 := mset H2 U X nu nx (blk h nx 0) in
  let H4 := mset H3 U U nu nu (blk h nx nx) in
  if junction k then
    let H5 := mset H4 X X nx nx (fun i j => H4 (X + i)%nat (X + j)%nat * sofZ 2) in
    let H6 := mset H5 X U nx nu (fun i j => H5 (X + i)%nat (U + j)%nat * sofZ 2) in
    let H7 := mset H6 U X nu nx (fun i j => H6 (U + i)%nat (X + j)%nat * sofZ 2) in
    mset H7 U U nu nu (fun i j => H7 (U + i)%nat (U + j)%nat * sofZ 2)
  else H4.

(** :228-308 value_gradient_hessian.  The Mayer Hessian is added to topLeftCorner<NX+NU, NX+NU>() *)
Definition old_value_gradient_hessian (s : old_cost) (var : vec T) : T * vec T * mat T :=
  let '(c, g, H) :=
    loop N (fun k st =>
      let '(c, g, H) := st in
      let coeff := t_scale o * oc_w s (k mod P)%nat in
      let L := ol_val var k in
      let c1 := c + coeff * L in
      let c2 := if junction k then c1 + coeff * L else c1 in
      (c2, old_grad_node g k (fun i => coeff * old_ad_grad s (nx + nu) (ol_grad var k) i),
       old_hes_node H k (fun i j => coeff * old_ad_hes s (nx + nu) (ol_hes var k) i j)))
      (0, (fun _ => 0), (fun _ _ => 0)) in
  (c + om_val var, vacc g 0 (nx + nu) (old_ad_grad s nx (om_grad var)),
   macc H 0 0 (nx + nu) (nx + nu) (old_ad_hes s nx (om_hes var))).

(** * sparse_ode_collocation.hpp (object built by the default constructor) *)

(** sparse_ode_collocation.hpp:101-131.  One segment: the Kronecker product of the dense D, every
    entry is stored (:110).  Several segments: DM.sparseView() (:121) drops the entries that
    are zero. *)
Definition old_node_pat (t k : nat) : bool :=
  if (Sg <? 2)%nat then true else negb (sabs (old_DM t k) <=? 0).
Definition old_diff_pat (i j : nat) : bool :=
  (i <? vx)%nat && (j <? vx)%nat && (i mod nx =? j mod nx)%nat && old_node_pat (i / nx) (j / nx).
Definition old_diff_val (i j : nat) : T := old_DM (i / nx)%nat (j / nx)%nat.

(** :133-153 operator(): the product with the sparse matrix only visits stored entries *)
Definition old_sp_residual (var : vec T) : vec T :=
  let value := loop N (fun k v => vset v (k * nx) nx (old_at (o_dyn o) var k)) (fun _ => 0) in
  fun i => ssum vx (fun j => if old_diff_pat i j then old_diff_val i j * var j else 0) - t_scale o * value i.

(** :173-182 compute_inner_nnz.  m_DiffMat is in uncompressed mode after the Kronecker product
    (KroneckerProductSparse::evalTo reserves and inserts), so innerNonZeroPtr() is valid. *)
Definition old_est (j : nat) : nat :=
  if (j <? vx)%nat then cnt (fun i => old_diff_pat i j) vx + (nx - 1)
  else if (j <? vx + vu)%nat then nx else 0.

(** makeCompressed() *)
Definition compress (M : spmat T) : spmat T := SpMat (sp_r M) (sp_c M) (pat M) (val M) (fun _ => O).

(** :195-244 _linearized, the matrix *)
Definition old_asm (var : vec T) (M : spmat T) : option (spmat T) :=
  obind (oloop N (fun t M =>
    let jac := old_ad_jac ode_default var t in
    oloop nx (fun j M =>
      obind (oloop nx (fun m M => insert M (t * nx + j) (t * nx + m) ((- t_scale o) * jac j m)) M) (fun M =>
      oloop nu (fun m M => insert M (t * nx + j) (t * nu + vx + m) ((- t_scale o) * jac j (nx + m)%nat)) M)) M)
    (reserve M old_est))
  (fun M => Some (compress (add_left M vx old_diff_pat old_diff_val))).

(** :247-301 _linearized_same_pattern, the matrix; state of the loop: nnz_count and the matrix *)
Definition old_upd (var : vec T) (M : spmat T) : option (spmat T) :=
  obind (oloop N (fun t st =>
    let '(nnz, M) := st in
    let jac := old_ad_jac ode_default var t in
    let nnz := if (P <? nnz)%nat then 1%nat else nnz in
    obind (oloop nx (fun j M => copy_n M nx (fun m => (- t_scale o) * jac m j) (outer M (t * nx + j) + nnz)) M) (fun M =>
    obind (oloop nu (fun j M => copy_n M nx (fun m => (- t_scale o) * jac m (nx + j)%nat) (outer M (t * nu + vx + j))) M) (fun M =>
    Some (S nnz, M)))) (O, M))
  (fun st => add_diag (snd st) vx (fun i => if old_diff_pat i i then old_diff_val i i else 0)).

(** :184-193 linearized; the residual b is old_sp_residual *)
Definition old_lin_sparse (var : vec T) (M : spmat T) : option (spmat T) :=
  if (nonzeros M =? nsum (VAR o) old_est)%nat then old_upd var M else old_asm var M.

End Old.
