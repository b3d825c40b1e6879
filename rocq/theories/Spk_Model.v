(** Model of the MatrixType = SPARSE specialisations of src/solvers/admm.hpp and
    src/solvers/box_admm.hpp: assembly of the sparse KKT matrix, its update when the sparsity pattern is
    declared unchanged (settings().reuse_pattern), factorisation, and the solves that use them.

    The statements of the two solvers that do not depend on MatrixType are those of Admm_Model and
    BoxAdmm_Model and are used from there; in their state the fields m_K and "matrix last factorised" hold
    the entries of the sparse matrix.
    Simplifications: products of H and A with vectors are those of the dense matrices with the same entries
    (Eigen sums over the stored entries only); the sizes N and M are positive. *)
Require Import ZArith Arith List Bool.
From Verif Require Import Scal Blk Sparse Qp_Model Admm_Model BoxAdmm_Model.
Import ListNotations.
Local Open Scope S_scope.

Section Model.
Context {T : Type} {ST : Scalar T}.

(** sequencing of steps that may be undefined *)
Definition obind {X Y : Type} (o : option X) (f : X -> option Y) : option Y := match o with Some x => f x | None => None end.

(** ** Eigen *)
(** a matrix argument; in Eigen's compressed mode innerNonZeroPtr() is null *)
Record sparse_arg := Arg { am : spmat T; compressed : bool }.
(** the rows stored in column k, in storage order; the q-th value of the column, i.e.
    valuePtr()[outerIndexPtr()[k] + q] *)
Definition rows_of (B : spmat T) (k : nat) : list nat := filter (fun i => pat B i k) (seq 0 (sp_r B)).
Definition value_of (B : spmat T) (k q : nat) : T := val B (nth q (rows_of B k) O) k.
(** the entries in the order of the InnerIterator loops over a matrix and over its transpose *)
Definition entries (B : spmat T) : list (nat * nat) :=
  flat_map (fun k => map (fun i => (i, k)) (rows_of B k)) (seq 0 (sp_c B)).
Definition tentries (B : spmat T) : list (nat * nat) :=
  flat_map (fun k => map (fun i => (i, k)) (filter (fun i => pat B k i) (seq 0 (sp_c B)))) (seq 0 (sp_r B)).
(** coeffRef(i, j) = f(coeffRef(i, j)): a missing entry is inserted with value 0 first *)
Definition coeff_ref (D : spmat T) (i j : nat) (f : T -> T) : option (spmat T) :=
  if pat D i j then upd D (pos D i j) f else insert D i j (f 0).
(** diagonal()(i) = f(diagonal()(i)) on a sparse matrix: the entry must exist *)
Definition diag_ref (D : spmat T) (i : nat) (f : T -> T) : option (spmat T) :=
  if pat D i i then upd D (pos D i i) f else None.

(** admm.hpp 341-350, box_admm.hpp 312-321, block_insert_sparse (and the identical block_set_sparse,
    admm.hpp 352-361, box_admm.hpp 323-332); [es] are the entries of the source, [v] their values *)
Fixpoint block_insert (dst : spmat T) (ro co : nat) (es : list (nat * nat)) (v : nat -> nat -> T) : option (spmat T) :=
  match es with
  | [] => Some dst
  | (i, j) :: es =>
      match insert dst (ro + i) (co + j) (v i j) with None => None | Some dst => block_insert dst ro co es v end
  end.

(** ** KKT matrix.  [N] variables, [R] rows of the constraint matrix [A] (M + N in admm.hpp, M in
    box_admm.hpp); [full]: LinearSolver_UpLo is Upper|Lower.  [d] is added to the diagonal of H when the
    matrix is built (sigma; sigma + m_rho_vec_box), [ds] are the vectors added one after the other when the
    pattern is reused (sigma; sigma, then m_rho_vec_box). *)
Section Kkt.
Variables (N R : nat) (full : bool).

(** _kkt_mat_nnz, admm.hpp 288-301, box_admm.hpp 246-258; _estimate_nnz_in_row, admm.hpp 363-371,
    box_admm.hpp 280-287 *)
Definition kkt_nnz (H A : spmat T) (k : nat) : nat :=
  if (k <? N)%nat then (1 + ncol H k + ncol A k)%nat
  else if full then (1 + cnt (fun j => pat A (k - N) j) (sp_c A))%nat
  else 1%nat.

(** construct_kkt_matrix_sparse, admm.hpp 280-318, box_admm.hpp 239-277 *)
Definition kkt_build (H A : spmat T) (d rinv : vec T) : option (spmat T) :=
  let K := reserve (sp_empty (N + R) (N + R)) (kkt_nnz H A) in
  obind (block_insert K 0 0 (entries H) (val H)) (fun K =>
  obind (block_insert K N 0 (entries A) (val A)) (fun K =>
  obind (if full then block_insert K 0 N (tentries A) (fun i j => val A j i) else Some K) (fun K =>
  obind (oloop N (fun i K => coeff_ref K i i (fun v => v + d i)) K) (fun K =>
  oloop R (fun i K => coeff_ref K (N + i) (N + i) (fun _ => - rinv i)) K)))).

(** m_K.diagonal().head<N>() += d;  m_K.diagonal().tail<R>() = -rinv *)
Definition kkt_head (d : vec T) (K : spmat T) : option (spmat T) :=
  oloop N (fun i K => diag_ref K i (fun v => v + d i)) K.
Definition kkt_tail (rinv : vec T) (K : spmat T) : option (spmat T) :=
  oloop R (fun i K => diag_ref K (N + i) (fun _ => - rinv i)) K.

(** construct_kkt_matrix_same_pattern, admm.hpp 320-339, box_admm.hpp 290-310 *)
Definition kkt_refresh (H A : spmat T) (ds : list (vec T)) (rinv : vec T) (K : spmat T) : option (spmat T) :=
  obind (oloop N (fun k K =>
    obind (copy_n K (ncol H k) (value_of H k) (outer K k)) (fun K =>
    copy_n K (ncol A k) (value_of A k) (outer K k + ncol H k))) K) (fun K =>
  obind (if full then block_insert K N 0 (tentries A) (fun i j => val A j i) else Some K) (fun K =>
  obind (fold_left (fun K d => obind K (kkt_head d)) ds (Some K)) (kkt_tail rinv))).

(** construct_kkt_matrix, admm.hpp 267-278, box_admm.hpp 225-237.  The result is the matrix and the matrix
    last passed to analyzePattern. *)
Definition kkt_construct (reuse : bool) (H A : spmat T) (d : vec T) (ds : list (vec T)) (rinv : vec T)
  (K : spmat T) (an : option (spmat T)) : option (spmat T * option (spmat T)) :=
  if reuse then obind (kkt_refresh H A ds rinv K) (fun K => Some (K, an))
  else obind (kkt_build H A d rinv) (fun K => Some (K, Some K)).
End Kkt.

(** linear_solver.factorize(m_K), admm.hpp 382-388, box_admm.hpp 344-349: requires a preceding
    analyzePattern of a matrix with the same pattern.  The result is the matrix the solver then knows. *)
Definition same_pattern (A B : spmat T) : bool :=
  (sp_r A =? sp_r B)%nat && (sp_c A =? sp_c B)%nat &&
  forallb (fun i => forallb (fun j => Bool.eqb (pat A i j) (pat B i j)) (seq 0 (sp_c A))) (seq 0 (sp_r A)).
Definition factorize (an : option (spmat T)) (K : spmat T) : option (mat T) :=
  match an with
  | Some K0 => if same_pattern K0 K then Some (tab2 (sp_r K) (sp_c K) (coeff K)) else None
  | None => None
  end.

(** ** the extended constraint matrix of admm.hpp *)
(** construct_A, admm.hpp 224-247 *)
Definition build_A (N M : nat) (A : spmat T) : option (spmat T) :=
  obind (block_insert (reserve (sp_empty (N + M) N) (fun k => (1 + ncol A k)%nat)) 0 0 (entries A) (val A)) (fun D =>
  oloop N (fun i D => coeff_ref D (i + M) i (fun _ => 1)) D).
Definition refresh_A (N : nat) (A D : spmat T) : option (spmat T) :=
  oloop N (fun k D => copy_n D (ncol A k) (value_of A k) (outer D k)) D.

(** ** problems *)
Record sqp_data := SQP {
  sn : nat; sm : nat; sH : sparse_arg; sh : vec T; sA : sparse_arg;
  sAlb : nat -> ext T; sAub : nat -> ext T; sxlb : nat -> ext T; sxub : nat -> ext T }.
(** the same problem with dense matrices *)
Definition dense (p : sqp_data) : qp_data T :=
  mkQP (sn p) (sm p) (coeff (am (sH p))) (sh p) (coeff (am (sA p))) (sAlb p) (sAub p) (sxlb p) (sxub p).

Variable lsolve : nat -> mat T -> vec T -> vec T.
Variable full : bool.
Definition of_option {X} (o : option X) : pass X := match o with Some x => Cont x | None => Undef end.

(** ** class boxADMM, MatrixType = SPARSE *)
Record sbox := SBox { sb_o : box_obj T; sb_K : spmat T; sb_an : option (spmat T) }.

(** the new sparse matrix, its factorisation and the state of the object *)
Definition sbox_set (o : box_obj T) (K : spmat T) (an : option (spmat T)) : option sbox :=
  obind (factorize an K) (fun F => Some (SBox (box_factorise (bset_K F o)) K an)).

(** box_admm.hpp 93-111 *)
Definition sbox_setup (s : qp_settings T) (reuse : bool) (p : sqp_data) (xg yg : vec T) (so : sbox) : option sbox :=
  let n := sn p in let m := sm p in let q := dense p in let o := sb_o so in
  let o := mkBox (tab n xg) (tab (m + n) yg) (tab m (mv n (qA q) xg)) (tab n xg)
                 (b_rho_vec o) (b_rho_inv o) (b_rho_box o) (b_rho_box_inv o) (b_rho o) (b_K o) (b_Fact o)
                 (parse_constraints_bounds q) (b_res o) (b_status o) (b_iter o) (b_rho_updates o) (b_rho_estimate o) in
  let o := box_rho_vec_update q (rho0 s) o in
  if compressed (sH p) || compressed (sA p) then None else
  obind (kkt_construct n m full reuse (am (sH p)) (am (sA p))
           (fun i => sigma s + b_rho_box o i) [fun _ => sigma s; b_rho_box o] (b_rho_inv o) (sb_K so) (sb_an so)) (fun KA =>
  obind (sbox_set o (fst KA) (snd KA)) (fun so =>
  Some (SBox (bset_status UNSOLVED (sb_o so)) (sb_K so) (sb_an so)))).

(** box_admm.hpp 172-186 with update_kkt_rho, 454-459 *)
Definition sbox_adapt_rho (s : qp_settings T) (p : sqp_data) (so : sbox) : option sbox :=
  let q := dense p in let o := sb_o so in
  let new_rho := clamp_rho (estimate_rho (b_res o) (b_rho o)) in
  let o := bset_rho_estimate new_rho o in
  if rho_change_needed s new_rho (b_rho o) then
    let prev := b_rho_box o in
    let o := box_rho_vec_update q new_rho o in
    obind (kkt_head (sn p) (fun i => b_rho_box o i - prev i) (sb_K so)) (fun K =>
    obind (kkt_tail (sn p) (sm p) (b_rho_inv o) K) (fun K =>
    sbox_set o K (sb_an so)))
  else Some (SBox o (sb_K so) (sb_an so)).

(** box_admm.hpp 115-197 *)
Definition sbox_body (s : qp_settings T) (p : sqp_data) (iter : Z) (so : sbox) : pass sbox :=
  let q := dense p in
  let o1 := box_update lsolve s q (sb_o so) in
  let chk := is_check_iter s iter in
  let o2 := if chk then box_residuals_update q o1 else o1 in
  if chk && termination_criteria s (b_res o2) then Stop (SBox (bset_status SOLVED o2) (sb_K so) (sb_an so))
  else if adaptive_rho s then
    if (adaptive_rho_interval s =? 0)%Z then Undef
    else if (Z.rem iter (adaptive_rho_interval s) =? 0)%Z then
      let o3 := if chk then o2 else box_residuals_update q o2 in
      of_option (sbox_adapt_rho s p (SBox o3 (sb_K so) (sb_an so)))
    else Cont (SBox o2 (sb_K so) (sb_an so))
  else Cont (SBox o2 (sb_K so) (sb_an so)).

(** box_admm.hpp 85-205 *)
Definition sbox_solve (s : qp_settings T) (reuse : bool) (p : sqp_data) (xg yg : vec T) (so : sbox) : option sbox :=
  obind (sbox_setup s reuse p xg yg so) (fun so =>
  obind (qp_loop (sbox_body s p) (max_iter s) (S (Z.to_nat (max_iter s))) 1 so) (fun r =>
  let '(so, iter) := r in
  let o := if (max_iter s <? iter)%Z then bset_status MAX_ITER_EXCEEDED (sb_o so) else sb_o so in
  Some (SBox (bset_iter iter o) (sb_K so) (sb_an so)))).

(** box_admm.hpp 33-41, 76-79: m_K is not allocated *)
Definition sbox_new (r0 : T) : sbox := SBox (box_new r0) (sp_empty 0 0) None.

(** ** class ADMM, MatrixType = SPARSE *)
Record sadmm := SAdmm { sa_o : admm_obj T; sa_A : spmat T; sa_K : spmat T; sa_an : option (spmat T) }.
Definition sadmm_set (o : admm_obj T) (A K : spmat T) (an : option (spmat T)) : option sadmm :=
  obind (factorize an K) (fun F => Some (SAdmm (factorise_kkt_matrix (set_K F o)) A K an)).

(** admm.hpp 117-138 *)
Definition sadmm_setup (s : qp_settings T) (reuse : bool) (p : sqp_data) (xg yg : vec T) (so : sadmm) : option sadmm :=
  let n := sn p in let m := sm p in let q := dense p in let o := sa_o so in
  if compressed (sH p) || compressed (sA p) then None else
  obind (if reuse then refresh_A n (am (sA p)) (sa_A so) else build_A n m (am (sA p))) (fun A =>
  let o := mkAdmm (tab n xg) (tab (m + n) yg) (tab (m + n) (mv n (tab2 (m + n) n (coeff A)) xg))
                  (a_rho_vec o) (a_rho_inv o) (a_rho o) (a_K o) (a_Fact o)
                  (parse_constraints_bounds q) (a_res o)
                  (a_status o) (a_iter o) (a_rho_updates o) (a_rho_estimate o) in
  let o := rho_vec_update q (rho0 s) o in
  obind (kkt_construct n (m + n) full reuse (am (sH p)) A
           (fun _ => sigma s) [fun _ => sigma s] (a_rho_inv o) (sa_K so) (sa_an so)) (fun KA =>
  obind (sadmm_set o A (fst KA) (snd KA)) (fun so =>
  Some (SAdmm (set_status UNSOLVED (sa_o so)) (sa_A so) (sa_K so) (sa_an so))))).

(** admm.hpp 186-198 with update_kkt_rho, 495-499 *)
Definition sadmm_adapt_rho (s : qp_settings T) (p : sqp_data) (so : sadmm) : option sadmm :=
  let q := dense p in let o := sa_o so in
  let new_rho := clamp_rho (estimate_rho (a_res o) (a_rho o)) in
  let o := set_rho_estimate new_rho o in
  if rho_change_needed s new_rho (a_rho o) then
    let o := rho_vec_update q new_rho o in
    obind (kkt_tail (sn p) (sm p + sn p) (a_rho_inv o) (sa_K so)) (fun K =>
    sadmm_set o (sa_A so) K (sa_an so))
  else Some (SAdmm o (sa_A so) (sa_K so) (sa_an so)).

(** admm.hpp 141-204 *)
Definition sadmm_body (s : qp_settings T) (p : sqp_data) (iter : Z) (so : sadmm) : pass sadmm :=
  let q := dense p in
  let o1 := admm_update lsolve s q (sa_o so) in
  let chk := is_check_iter s iter in
  let o2 := if chk then residuals_update q o1 else o1 in
  if chk && termination_criteria s (a_res o2) then Stop (SAdmm (set_status SOLVED o2) (sa_A so) (sa_K so) (sa_an so))
  else if adaptive_rho s then
    if (adaptive_rho_interval s =? 0)%Z then Undef
    else if (Z.rem iter (adaptive_rho_interval s) =? 0)%Z then
      let o3 := if chk then o2 else residuals_update q o2 in
      of_option (sadmm_adapt_rho s p (SAdmm o3 (sa_A so) (sa_K so) (sa_an so)))
    else Cont (SAdmm o2 (sa_A so) (sa_K so) (sa_an so))
  else Cont (SAdmm o2 (sa_A so) (sa_K so) (sa_an so)).

(** admm.hpp 112-213 *)
Definition sadmm_solve (s : qp_settings T) (reuse : bool) (p : sqp_data) (xg yg : vec T) (so : sadmm) : option sadmm :=
  obind (sadmm_setup s reuse p xg yg so) (fun so =>
  obind (qp_loop (sadmm_body s p) (max_iter s) (S (Z.to_nat (max_iter s))) 1 so) (fun r =>
  let '(so, iter) := r in
  let o := if (max_iter s <? iter)%Z then set_status MAX_ITER_EXCEEDED (sa_o so) else sa_o so in
  Some (SAdmm (set_iter iter o) (sa_A so) (sa_K so) (sa_an so)))).

(** admm.hpp 62-73: m_A and m_K are not allocated *)
Definition sadmm_new (r0 : T) : sadmm := SAdmm (admm_new r0) (sp_empty 0 0) (sp_empty 0 0) None.

(** ** sequences of calls on one object; a call consists of the settings, reuse_pattern, the problem and the guess *)
Definition call : Type := qp_settings T * bool * sqp_data * vec T * vec T.
Definition sbox_session (so : sbox) (cs : list call) : option sbox :=
  fold_left (fun so c => let '(s, reuse, p, xg, yg) := c in obind so (sbox_solve s reuse p xg yg)) cs (Some so).
Definition sadmm_session (so : sadmm) (cs : list call) : option sadmm :=
  fold_left (fun so c => let '(s, reuse, p, xg, yg) := c in obind so (sadmm_solve s reuse p xg yg)) cs (Some so).
(** the same calls on the dense solvers *)
Definition box_session (o : box_obj T) (cs : list call) : option (box_obj T) :=
  fold_left (fun o c => let '(s, _, p, xg, yg) := c in obind o (box_solve lsolve full s (dense p) xg yg)) cs (Some o).
Definition admm_session (o : admm_obj T) (cs : list call) : option (admm_obj T) :=
  fold_left (fun o c => let '(s, _, p, xg, yg) := c in obind o (admm_solve lsolve full s (dense p) xg yg)) cs (Some o).

End Model.
Arguments sparse_arg T : clear implicits.
Arguments sqp_data T : clear implicits.
Arguments sbox T : clear implicits.
Arguments sadmm T : clear implicits.
Arguments call T : clear implicits.
