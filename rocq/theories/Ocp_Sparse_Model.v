(** Model of the sparse variants of src/control/continuous_ocp.hpp: Jacobians, cost Hessian,
    Lagrangian gradient and Hessian.  Values of constraints, cost and gradient are computed by
    the same statements as in the dense variants (Ocp_Model.v) and are not repeated here.
    Matrices are in Eigen's uncompressed mode (Sparse.v): every function calls reserve(sizes)
    before the first insertion and nothing calls makeCompressed afterwards. *)
Require Import Arith List Bool ZArith.
Require Import Verif.Scal Verif.Blk Verif.Sparse Verif.Ocp_Model.

Definition obind {A B : Type} (x : option A) (f : A -> option B) : option B :=
  match x with Some a => f a | None => None end.

Section OCP.
Context {T : Type} {ST : Scalar T}.
Local Open Scope S_scope.
Variable o : ocp T.
Local Notation nx := (NX o).
Local Notation nu := (NU o).
Local Notation np := (NP o).
Local Notation ng := (NG o).
Local Notation P := (PO o).
Local Notation Sg := (SG o).
Local Notation N := (NUM_NODES o).
Local Notation vx := (VARX o).
Local Notation vu := (VARU o).

(** * composite differentiation matrix, continuous_ocp.hpp:312-339 *)
(** :327-330, the dense node-by-node matrix (for one segment it is m_D itself) *)
Definition comp_DM : mat T :=
  loop (Sg - 1) (fun s M => mset M (s * P) (s * P) P (P + 1) (m_D o))
    (mset (fun _ _ => 0) (N - (P + 1)) (N - (P + 1)) (P + 1) (P + 1) (m_D o)).
(** :332 pruned(epsilon): entries with |v| <= epsilon * dummy_precision are dropped;
    2^-52 * 10^-12 *)
Definition prune_thr : T := 1 / sofZ (4503599627370496 * 1000000000000).
Definition comp_pat (t k : nat) : bool :=
  if (Sg <? 2)%nat then true else sltb prune_thr (sabs (comp_DM t k)).
(** :321, :335 Kronecker product with the NX x NX identity *)
Definition diff_pat (i j : nat) : bool :=
  (i <? vx)%nat && (j <? vx)%nat && (i mod nx =? j mod nx)%nat && comp_pat (i / nx) (j / nx).
Definition diff_val (i j : nat) : T := comp_DM (i / nx)%nat (j / nx)%nat.

(** * numbers of non-zeros per column *)
Definition nacc (v : nat -> nat) (a n c : nat) : nat -> nat :=
  fun j => if in_seg a n j then (v j + c)%nat else v j.
(** continuous_ocp.hpp:341-359 *)
Definition eq_est : nat -> nat :=
  let v0 := fun j => if (j <? vx + vu)%nat then nx else vx in
  let v1 := loop N (fun i v =>
              let v' := nacc v (i * nx) nx (P - 1) in
              if negb (i =? 0)%nat && negb (i =? N - 1)%nat && (i mod P =? 0)%nat
              then nacc v' (i * nx) nx P else v') v0 in
  nacc v1 ((N - (P + 1)) * nx) ((P + 1) * nx) 1.
(** continuous_ocp.hpp:370-376 *)
Definition ineq_est : nat -> nat := fun j => if (j <? vx + vu)%nat then ng else NUM_INEQ o.
(** continuous_ocp.hpp:361-368 *)
Definition hes_est : nat -> nat := fun j => if (j <? vx + vu)%nat then (nx + nu + np)%nat else VAR o.

(** continuous_ocp.hpp:379-385 and :388-394 *)
Definition nnz_jacobian : nat := nsum (VAR o) eq_est + nsum (VAR o) ineq_est.
Definition nnz_lag_hessian : nat := (nsum (VAR o) hes_est + VAR o) / 2.

(** * equality Jacobian *)
(** continuous_ocp.hpp:895-954 *)
Definition eq_asm (var : vec T) (M : spmat T) : option (spmat T) :=
  obind (oloop N (fun t M =>
    let jac := at_node o (o_dyn_jac o) var t in
    oloop nx (fun j M =>
      obind (oloop nx (fun m M => insert M (t * nx + j) (t * nx + m) ((- t_scale o) * jac j m)) M) (fun M =>
      obind (oloop nu (fun m M => insert M (t * nx + j) (t * nu + vx + m) ((- t_scale o) * jac j (nx + m)%nat)) M) (fun M =>
      oloop np (fun m M => insert M (t * nx + j) (vx + vu + m) ((- t_scale o) * jac j (nx + nu + m)%nat)) M))) M)
    (reserve M eq_est))
  (fun M => Some (add_left M vx diff_pat diff_val)).

(** continuous_ocp.hpp:957-1022.  State of the loop: nnz_count and the matrix.  The block of
    control sensitivities is copied as one run of NX*NU values from the column-major matrix
    jac with NX rows. *)
Definition eq_upd (var : vec T) (M : spmat T) : option (spmat T) :=
  obind (oloop N (fun t st =>
    let '(nnz, M) := st in
    let jac := fun r c => at_node o (o_dyn_jac o) var t r c * (- t_scale o) in
    let nnz := if (P <? nnz)%nat then 1%nat else nnz in
    obind (oloop nx (fun j M => copy_n M nx (fun i => jac i j) (outer M (t * nx + j) + nnz)) M) (fun M =>
    obind (copy_n M (nx * nu) (fun q => jac (q mod nx)%nat (nx + q / nx)%nat) (outer M (t * nu + vx))) (fun M =>
    obind (oloop np (fun j M => copy_n M nx (fun i => jac i (nx + nu + j)%nat) (outer M (vx + vu + j) + t * nx)) M) (fun M =>
    Some (S nnz, M))))) (O, M))
  (fun st => add_diag (snd st) vx (fun i => if diff_pat i i then diff_val i i else 0)).

(** continuous_ocp.hpp:882-892 *)
Definition eq_lin_sparse (var : vec T) (M : spmat T) : option (spmat T) :=
  if (nonzeros M =? nsum (VAR o) eq_est)%nat then eq_upd var M else eq_asm var M.

(** * inequality Jacobian *)
(** continuous_ocp.hpp:1049-1091 *)
Definition ineq_asm (var : vec T) (M : spmat T) : option (spmat T) :=
  oloop N (fun k M =>
    let jac := at_node o (o_ine_jac o) var k in
    oloop ng (fun j M =>
      obind (oloop nx (fun m M => insert M (k * ng + j) (k * nx + m) (jac j m)) M) (fun M =>
      obind (oloop nu (fun m M => insert M (k * ng + j) (k * nu + vx + m) (jac j (nx + m)%nat)) M) (fun M =>
      oloop np (fun m M => insert M (k * ng + j) (vx + vu + m) (jac j (nx + nu + m)%nat)) M))) M)
    (reserve M ineq_est).

(** continuous_ocp.hpp:1093-1130.  The local matrix jac is declared with NX rows (:1102) and is
    not initialised; [junk] are the values found there.  Writing row i needs i < NX.  The NG x NX
    and NG x NU blocks are copied as one run starting at their first entry, so consecutive values
    are consecutive rows of the NX-row matrix. *)
Definition ineq_upd (junk : nat -> mat T) (var : vec T) (M : spmat T) : option (spmat T) :=
  if (ng <=? nx)%nat then
  oloop N (fun k M =>
    let jac := fun r c => if (r <? ng)%nat then at_node o (o_ine_jac o) var k r c else junk k r c in
    obind (copy_n M (ng * nx) (fun q => jac (q mod nx)%nat (q / nx)%nat) (outer M (k * nx))) (fun M =>
    obind (copy_n M (ng * nu) (fun q => jac (q mod nx)%nat (nx + q / nx)%nat) (outer M (k * nu + vx))) (fun M =>
    oloop np (fun j M => copy_n M ng (fun i => jac i (nx + nu + j)%nat) (outer M (vx + vu + j) + k * ng)) M))) M
  else None.

(** continuous_ocp.hpp:1036-1047 (for NG = 0 both functions do nothing, :503-514, :522-533) *)
Definition ineq_lin_sparse (junk : nat -> mat T) (var : vec T) (M : spmat T) : option (spmat T) :=
  if (ng =? 0)%nat then Some M else
  if (nonzeros M =? nsum (VAR o) ineq_est)%nat then ineq_upd junk var M else ineq_asm var M.

(** * stacked constraint Jacobian *)
(** continuous_ocp.hpp:407-416 *)
Definition block_insert_sparse (dst : spmat T) (r0 : nat) (src : spmat T) : option (spmat T) :=
  oloop (sp_c src) (fun k D =>
    oloop (sp_r src) (fun i D => if pat src i k then insert D (r0 + i) k (val src i k) else Some D) D) dst.

(** continuous_ocp.hpp:1168-1170, :1172-1175: column by column, the stored values of [src] are
    copied behind the first [off k] values of column k of [dst].  The copied run of
    innerNonZeroPtr()[k] values is the list of stored entries of column k in row order. *)
Definition col_copy (dst : spmat T) (off : nat -> nat) (src : spmat T) : option (spmat T) :=
  oloop (VAR o) (fun k D =>
    oloop (sp_r src) (fun i D =>
      if pat src i k then upd D (outer D k + off k + cnt (fun q => pat src q k) i) (fun _ => val src i k)
      else Some D) D) dst.

(** continuous_ocp.hpp:1156-1176 (the same statements in lagrangian_gradient :1991-2011 and
    lagrangian_gradient_hessian :2191-2211) *)
Definition stack_jac (Je Ji J : spmat T) : option (spmat T) :=
  if negb (nonzeros J =? nsum (VAR o) eq_est + nsum (VAR o) ineq_est)%nat then
    obind (block_insert_sparse (reserve (sp_empty (NUM_EQ o + NUM_INEQ o) (VAR o))
             (fun j => (eq_est j + ineq_est j)%nat)) 0 Je) (fun J =>
    block_insert_sparse J (NUM_EQ o) Ji)
  else
    obind (if (0 <? NUM_EQ o)%nat then col_copy J (fun _ => O) Je else Some J) (fun J =>
    if (0 <? NUM_INEQ o)%nat then col_copy J (ncol Je) Ji else Some J).

(** continuous_ocp.hpp:1148-1178: members m_Je, m_Ji and the output matrix are the state *)
Definition con_lin_sparse (junk : nat -> mat T) (var : vec T) (st : spmat T * spmat T * spmat T)
  : option (spmat T * spmat T * spmat T) :=
  let '(Je, Ji, J) := st in
  obind (eq_lin_sparse var Je) (fun Je =>
  obind (ineq_lin_sparse junk var Ji) (fun Ji =>
  obind (stack_jac Je Ji J) (fun J => Some (Je, Ji, J)))).

(** continuous_ocp.hpp:2013-2016: jac_g^T * lam.head + cost_gradient + lam.tail *)
Definition lag_grad_of (J : spmat T) (g lam : vec T) : vec T :=
  fun j => ssum (NUM_EQ o + NUM_INEQ o) (fun i => coeff J i j * lam i) + g j
           + lam (NUM_EQ o + NUM_INEQ o + j)%nat.

(** continuous_ocp.hpp:1977-2017: outputs lag_gradient, cost_gradient and the new state *)
Definition lag_gradient_sparse (junk : nat -> mat T) (ad : T * vec T) (var lam : vec T)
  (st : spmat T * spmat T * spmat T)
  : option (T * vec T * vec T * (T * vec T) * (spmat T * spmat T * spmat T)) :=
  let '(c, g, ad1) := cost_gradient o ad var in
  obind (con_lin_sparse junk var st) (fun st =>
  Some (c, lag_grad_of (snd st) g lam, g, ad1, st)).

(** * cost Hessian *)
(** continuous_ocp.hpp:1437-1519 (and :1739-1819): node n, eight std::transform blocks *)
Definition hes_glue (M : spmat T) (n : nat) (h : mat T) : option (spmat T) :=
  obind (oloop nx (fun j M => add_n M nx (fun r => h r j) (outer M (n * nx + j))) M) (fun M =>
  obind (oloop nu (fun j M => add_n M nx (fun r => h r (nx + j)%nat) (outer M (n * nu + vx + j))) M) (fun M =>
  obind (oloop np (fun j M => add_n M nx (fun r => h r (nx + nu + j)%nat) (outer M (vx + vu + j) + n * nx)) M) (fun M =>
  obind (oloop nu (fun j M => add_n M nu (fun r => h (nx + r)%nat (nx + j)%nat) (outer M (n * nu + vx + j) + nx)) M) (fun M =>
  obind (oloop nx (fun j M => add_n M nu (fun r => h (nx + r)%nat j) (outer M (n * nx + j) + nx)) M) (fun M =>
  obind (oloop np (fun j M => add_n M nu (fun r => h (nx + r)%nat (nx + nu + j)%nat) (outer M (vx + vu + j) + vx + n * nu)) M) (fun M =>
  obind (oloop nx (fun j M => add_n M np (fun r => h (nx + nu + r)%nat j) (outer M (n * nx + j) + nx + nu)) M) (fun M =>
  oloop nu (fun j M => add_n M np (fun r => h (nx + nu + r)%nat (nx + j)%nat) (outer M (n * nu + vx + j) + nx + nu)) M))))))).

(** the dp^2 block: continuous_ocp.hpp:1656-1663, :1896-1900, :2293-2297 *)
Definition hes_pp_add (M : spmat T) (h : mat T) : option (spmat T) :=
  oloop np (fun j M => add_n M np (fun r => h (nx + nu + r)%nat (nx + nu + j)%nat) (outer M (vx + vu + j) + vx + vu)) M.

(** continuous_ocp.hpp:1521-1583: insertion of the blocks of node n.  dxdp (:1541) reads column
    j + NX + NP and dpdu (:1579) reads column j + NU of the node Hessian; reading outside the
    NZ x NZ matrix is an assertion. *)
Definition rd (h : mat T) (r c : nat) : option T :=
  if (r <? NZ o)%nat && (c <? NZ o)%nat then Some (h r c) else None.
Definition hes_insert (M : spmat T) (n : nat) (h : mat T) : option (spmat T) :=
  let X := (n * nx)%nat in
  let U := (n * nu + vx)%nat in
  let Q := (vx + vu)%nat in
  obind (oloop nx (fun j M => oloop nx (fun r M => insert M (X + r) (X + j) (h r j)) M) M) (fun M =>
  obind (oloop nu (fun j M => oloop nx (fun r M => insert M (X + r) (U + j) (h r (nx + j)%nat)) M) M) (fun M =>
  obind (oloop np (fun j M => oloop nx (fun r M =>
           obind (rd h r (j + nx + np)) (fun v => insert M (X + r) (Q + j) v)) M) M) (fun M =>
  obind (oloop nu (fun j M => oloop nu (fun r M => insert M (U + r) (U + j) (h (nx + r)%nat (nx + j)%nat)) M) M) (fun M =>
  obind (oloop nx (fun j M => oloop nu (fun r M => insert M (U + r) (X + j) (h (nx + r)%nat j)) M) M) (fun M =>
  obind (oloop np (fun j M => oloop nu (fun r M => insert M (U + r) (Q + j) (h (nx + r)%nat (nx + nu + j)%nat)) M) M) (fun M =>
  obind (oloop nx (fun j M => oloop np (fun r M => insert M (Q + r) (X + j) (h (nx + nu + r)%nat j)) M) M) (fun M =>
  oloop nu (fun j M => oloop np (fun r M =>
           obind (rd h (nx + nu + r) (j + nu)) (fun v => insert M (Q + r) (U + j) v)) M) M))))))).

(** running-cost Hessian of node n scaled by the quadrature weight *)
Definition node_hes (var : vec T) (k n : nat) : mat T :=
  fun i j => (t_scale o * m_w o k) * call o (o_lag o) get_hes (fun v => v) (fun _ _ => 0) var n i j.

(** continuous_ocp.hpp:1383-1684, Hessian part.  State of the loop: hes_pp and the matrix *)
Definition hes_asm (var : vec T) (M : spmat T) : option (spmat T) :=
  obind (oloop Sg (fun s st =>
    oloop (P + 1) (fun k st =>
      let '(pp, M) := st in
      let n := (k + s * P)%nat in
      let h := node_hes var k n in
      let pp := fun i j => pp i j + h (nx + nu + i)%nat (nx + nu + j)%nat in
      obind (if (0 <? s)%nat && (k =? 0)%nat then hes_glue M n h else hes_insert M n h) (fun M =>
      Some (pp, M))) st) ((fun _ _ => 0), reserve M hes_est)) (fun st =>
  let '(pp, M) := st in
  obind (oloop np (fun j M => oloop np (fun r M => insert M (vx + vu + r) (vx + vu + j) (pp r j)) M) M) (fun M =>
  if mayer_u_ok o then
    let h := call o (o_may o) get_hes (fun v => v) (fun _ _ => 0) var 0 in
    obind (hes_glue M 0 h) (fun M => hes_pp_add M h)
  else None)).

(** continuous_ocp.hpp:1821-1838: node n, copied by columns where possible *)
Definition hes_copy_cols (M : spmat T) (n : nat) (h : mat T) : option (spmat T) :=
  obind (oloop nx (fun j M => copy_n M (nx + nu + np) (fun r => h r j) (outer M (n * nx + j))) M) (fun M =>
  obind (oloop nu (fun j M => copy_n M (nx + nu + np) (fun r => h r (nx + j)%nat) (outer M (n * nu + vx + j))) M) (fun M =>
  oloop np (fun j M =>
    obind (copy_n M nx (fun r => h r (nx + nu + j)%nat) (outer M (vx + vu + j) + n * nx)) (fun M =>
    copy_n M nu (fun r => h (nx + r)%nat (nx + nu + j)%nat) (outer M (vx + vu + j) + vx + n * nu))) M)).

(** continuous_ocp.hpp:1864-1901 (node 0) and :2259-2298: added by columns where possible *)
Definition hes_add_cols (M : spmat T) (n : nat) (h : mat T) : option (spmat T) :=
  obind (oloop nx (fun j M => add_n M (nx + nu + np) (fun r => h r j) (outer M (n * nx + j))) M) (fun M =>
  obind (oloop nu (fun j M => add_n M (nx + nu + np) (fun r => h r (nx + j)%nat) (outer M (n * nu + vx + j))) M) (fun M =>
  oloop np (fun j M =>
    obind (add_n M nx (fun r => h r (nx + nu + j)%nat) (outer M (vx + vu + j) + n * nx)) (fun M =>
    obind (add_n M nu (fun r => h (nx + r)%nat (nx + nu + j)%nat) (outer M (vx + vu + j) + vx + n * nu)) (fun M =>
    add_n M np (fun r => h (nx + nu + r)%nat (nx + nu + j)%nat) (outer M (vx + vu + j) + vx + vu)))) M)).

(** continuous_ocp.hpp:1687-1903, Hessian part *)
Definition hes_upd (var : vec T) (M : spmat T) : option (spmat T) :=
  obind (oloop Sg (fun s st =>
    oloop (P + 1) (fun k st =>
      let '(pp, M) := st in
      let n := (k + s * P)%nat in
      let h := node_hes var k n in
      let pp := fun i j => pp i j + h (nx + nu + i)%nat (nx + nu + j)%nat in
      obind (if (0 <? s)%nat && (k =? 0)%nat then hes_glue M n h else hes_copy_cols M n h) (fun M =>
      Some (pp, M))) st) ((fun _ _ => 0), M)) (fun st =>
  let '(pp, M) := st in
  obind (oloop np (fun j M => copy_n M np (fun r => pp r j) (outer M (vx + vu + j) + vx + vu)) M) (fun M =>
  if mayer_u_ok o then
    hes_add_cols M 0 (call o (o_may o) get_hes (fun v => v) (fun _ _ => 0) var 0)
  else None)).

(** continuous_ocp.hpp:1371-1381 *)
Definition hes_sparse (var : vec T) (M : spmat T) : option (spmat T) :=
  if (nonzeros M =? nsum (VAR o) hes_est)%nat then hes_upd var M else hes_asm var M.

(** * Lagrangian Hessian *)
(** continuous_ocp.hpp:2228-2257 (dense: :2124-2155): multiplier-weighted second derivatives of
    the constraints of node k *)
Definition con_hes (var lam : vec T) (k : nat) : mat T :=
  fun i j =>
    ssum nx (fun n => (- lam (n + k * nx)%nat * t_scale o) * at_node o (o_dyn_hes o) var k n i j)
    + ssum ng (fun n => lam (n + k * ng + NUM_EQ o)%nat * at_node o (o_ine_hes o) var k n i j).

(** continuous_ocp.hpp:2177-2300, Hessian part; [scale] is cost_scale (multiplying a sparse matrix
    by a scalar keeps its pattern; lag_hessian has no free slots at that point) *)
Definition sp_scale (a : T) (M : spmat T) : spmat T :=
  SpMat (sp_r M) (sp_c M) (pat M) (fun i j => a * val M i j) (slack M).
Definition lag_hes_sparse (scale : T) (var lam : vec T) (M : spmat T) : option (spmat T) :=
  obind (hes_sparse var M) (fun M =>
  let M := if sleb scale 1 && sleb 1 scale then M else sp_scale scale M in
  oloop N (fun k M => hes_add_cols M k (con_hes var lam k)) M).

(** continuous_ocp.hpp:2097-2175, dense, Hessian part *)
Definition lag_hes_dense (scale : T) (var lam : vec T) : option (mat T) :=
  obind (cost_gradient_hessian o var) (fun r =>
  let H := snd r in
  let H := if sleb scale 1 && sleb 1 scale then H else (fun i j => scale * H i j) in
  Some (loop N (fun k H => hes_add o H k (con_hes var lam k)) H)).

(** * block BFGS *)
(** continuous_ocp.hpp:2303-2431, hessian_update_impl.  The Hessian is passed by reference to a
    sparse matrix with the pattern of hes_est. *)
Definition spmv (M : spmat T) (s : vec T) : vec T := fun i => ssum (VAR o) (fun j => coeff M i j * s j).
Definition bfgs_r (v s y : vec T) : vec T :=
  let scaling := dot (VAR o) s v in
  let sy := dot (VAR o) s y in
  if sleb ((sofZ 2 / sofZ 10) * scaling) sy then y
  else let theta := (sofZ 8 / sofZ 10) * scaling / (scaling - sy) in
       fun i => theta * y i + (1 - theta) * v i.
(** entry (a, b) of the rank-two correction -v v'/s'v + r r'/s'r *)
Definition bfgs_corr (v s y : vec T) (a b : nat) : T :=
  let scaling_inv := 1 / dot (VAR o) s v in
  let r := bfgs_r v s y in
  let sr_inv := 1 / dot (VAR o) s r in
  - scaling_inv * v a * v b + sr_inv * r a * r b.
Definition block_bfgs (M : spmat T) (s y : vec T) : option (spmat T) :=
  let v := tab (VAR o) (spmv M s) in
  let X := fun k c => (k * nx + c)%nat in
  let U := fun k c => (k * nu + vx + c)%nat in
  let c := bfgs_corr v s y in
  obind (oloop N (fun k M =>
    obind (oloop nx (fun j M =>
      obind (add_n M nx (fun r => c (X k r) (X k j)) (outer M (k * nx + j))) (fun M =>
      add_n M nu (fun r => c (U k r) (X k j)) (outer M (k * nx + j) + nx))) M) (fun M =>
    oloop nu (fun j M =>
      obind (add_n M nx (fun r => c (U k j) (X k r)) (outer M (k * nu + vx + j))) (fun M =>
      add_n M nu (fun r => c (U k r) (U k j)) (outer M (k * nu + vx + j) + nx))) M)) M) (fun M =>
  obind (oloop np (fun j M =>
    obind (add_n M (vx + vu) (fun r => c r (vx + vu + j)%nat) (outer M (vx + vu + j))) (fun M =>
    add_n M np (fun r => c (vx + vu + r)%nat (vx + vu + j)%nat) (outer M (vx + vu + j) + vx + vu))) M) (fun M =>
  if (np =? 0)%nat then Some M else
  oloop (vx + vu) (fun j M => add_n M np (fun r => c j (vx + vu + r)%nat) (outer M j + nx + nu)) M)).

End OCP.
