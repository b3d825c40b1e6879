(** Model of src/solvers/ipopt_interface.hpp: IpoptAdapter, the callbacks through which Ipopt reads
    the problem and hands back the solution.

    A buffer owned by Ipopt is a list whose length is the memory that may be accessed; an access
    outside it is [None].  The adapter's own vectors are functions on indices.

    Simplifications:
    - the problem's functions are parameters (dense problems: Nlp_Model.v); a sparse problem keeps
      the pattern of its matrices, only the values change;
    - asserts on n and m are satisfied, since Ipopt passes back what get_nlp_info announced;
    - IpoptInterface (:380-497) only forwards to IpoptApplication and is not modelled, except that
      solve(x_guess, lam_guess) stores both guesses first (:491-496);
    - bounds are real numbers. *)
Require Import Arith Bool List Reals.
From Verif Require Import RSum Scal Sparse.
Import ListNotations.
Local Open Scope R_scope.

(** data[ind] = v *)
Fixpoint store {X} (buf : list X) (ind : nat) (v : X) : option (list X) :=
  match buf, ind with
  | [], _ => None
  | _ :: t, O => Some (v :: t)
  | a :: t, S i => option_map (cons a) (store t i v)
  end.
(** a loop that visits the entries [es] and writes [f e] at ind, ind + 1, ... *)
Fixpoint fill {X E} (f : E -> X) (es : list E) (ind : nat) (buf : list X) : option (list X) :=
  match es with
  | [] => Some buf
  | e :: es => match store buf ind (f e) with None => None | Some buf => fill f es (S ind) buf end
  end.
(** Eigen::Map<...>(buf + off, n, 1) = v and reading v = Eigen::Map<...>(buf) with n entries *)
Definition map_write (off n : nat) (v : nat -> R) (buf : list R) : option (list R) := fill v (seq 0 n) off buf.
Definition map_read (n : nat) (buf : list R) : option (nat -> R) :=
  if (length buf <? n)%nat then None else Some (fun i => nth i buf 0).

(** for j < cols, for i < rows; InnerIterator visits the stored ones in the same order *)
Definition col_major (r c : nat) : list (nat * nat) := flat_map (fun j => map (fun i => (i, j)) (seq 0 r)) (seq 0 c).
Definition stored (M : spmat R) : list (nat * nat) :=
  filter (fun e => pat M (fst e) (snd e)) (col_major (sp_r M) (sp_c M)).
Definition lower (es : list (nat * nat)) : list (nat * nat) := filter (fun e => (snd e <=? fst e)%nat) es.

(** get_data: :112-139 dense, :92-110 sparse. In the unsymmetric sparse case the assignment
    data = mat.valuePtr() changes the local pointer only *)
Definition get_data_dense (r c : nat) (A : nat -> nat -> R) (symmetric : bool) (data : list R) : option (list R) :=
  fill (fun e => A (fst e) (snd e)) (if symmetric then lower (col_major r c) else col_major r c) 0 data.
Definition get_data_sparse (M : spmat R) (symmetric : bool) (data : list R) : option (list R) :=
  if symmetric then fill (fun e => val M (fst e) (snd e)) (lower (stored M)) 0 data else Some data.
(** get_sparsity: :172-208 dense, :141-170 sparse *)
Definition write_indices (es : list (nat * nat)) (irow jcol : list nat) : option (list nat * list nat) :=
  match fill fst es 0 irow, fill snd es 0 jcol with Some r, Some c => Some (r, c) | _, _ => None end.
Definition get_sparsity_dense (r c : nat) (symmetric : bool) (irow jcol : list nat) : option (list nat * list nat) :=
  write_indices (if symmetric then lower (col_major r c) else col_major r c) irow jcol.
Definition get_sparsity_sparse (M : spmat R) (symmetric : bool) (irow jcol : list nat) : option (list nat * list nat) :=
  write_indices (if symmetric then lower (stored M) else stored M) irow jcol.

(** VAR_SIZE, NUM_EQ, NUM_INEQ; num_constraints (:59-60), DUAL_SIZE of the problem *)
Record dims := Dims { nx : nat; ne : nat; ni : nat }.
Definition ncon (d : dims) : nat := (ne d + ni d)%nat.
Definition ndual (d : dims) : nat := (ne d + ni d + nx d)%nat.

(** the members the callbacks use (:77-89) *)
Record adapter := Adapter { m_x : nat -> R; m_lam : nat -> R; m_lbx : nat -> R; m_ubx : nat -> R; m_lbg : nat -> R; m_ubg : nat -> R }.

(** :228-253 get_bounds_info: (x_l, x_u, g_l, g_u) *)
Definition get_bounds_info (d : dims) (a : adapter) (xl xu gl gu : list R) : option (list R * list R * list R * list R) :=
  match map_write 0 (nx d) (m_lbx a) xl, map_write 0 (nx d) (m_ubx a) xu with
  | Some xl, Some xu =>
    match (if (0 <? ne d)%nat then map_write 0 (ne d) (fun _ => 0) gl else Some gl),
          (if (0 <? ne d)%nat then map_write 0 (ne d) (fun _ => 0) gu else Some gu) with
    | Some gl, Some gu =>
      match (if (0 <? ni d)%nat then map_write (ne d) (ni d) (m_lbg a) gl else Some gl),
            (if (0 <? ni d)%nat then map_write (ne d) (ni d) (m_ubg a) gu else Some gu) with
      | Some gl, Some gu => Some (xl, xu, gl, gu)
      | _, _ => None end
    | _, _ => None end
  | _, _ => None end.

(** :255-275 get_starting_point with every init flag set: (x, z_L, z_U, lambda) *)
Definition get_starting_point (d : dims) (a : adapter) (x zl zu lambda : list R) : option (list R * list R * list R * list R) :=
  match map_write 0 (nx d) (m_x a) x,
        map_write 0 (nx d) (fun i => Rabs (Rmin (m_lam a (ncon d + i)%nat) 0)) zl,
        map_write 0 (nx d) (fun i => Rmax (m_lam a (ncon d + i)%nat) 0) zu,
        map_write 0 (ncon d) (m_lam a) lambda with
  | Some x, Some zl, Some zu, Some l => Some (x, zl, zu, l)
  | _, _, _, _ => None end.

(** :296-311 eval_g: equalities into the head, inequalities into the tail *)
Definition eval_g (d : dims) (eqs ineqs : (nat -> R) -> nat -> R) (x g : list R) : option (list R) :=
  match map_read (nx d) x with
  | None => None
  | Some v => match map_write 0 (ne d) (eqs v) g with
              | None => None
              | Some g => map_write (ne d) (ni d) (ineqs v) g end
  end.

(** :314-339 eval_jac_g for a value request: [lin x] is m_A after constraints_linearised *)
Definition eval_jac_g_dense (d : dims) (lin : (nat -> R) -> nat -> nat -> R) (x values : list R) : option (list R) :=
  match map_read (nx d) x with None => None | Some v => get_data_dense (ncon d) (nx d) (lin v) false values end.
Definition eval_jac_g_sparse (d : dims) (lin : (nat -> R) -> spmat R) (x values : list R) : option (list R) :=
  match map_read (nx d) x with None => None | Some v => get_data_sparse (lin v) false values end.
(** :341-371 eval_h for a value request: lambda is mapped as a vector of DUAL_SIZE entries;
    [hess x lam obj_factor] is m_H after lagrangian_gradient_hessian, which reads all of lam *)
Definition eval_h_dense (d : dims) (hess : (nat -> R) -> (nat -> R) -> R -> nat -> nat -> R)
    (x lambda : list R) (obj_factor : R) (values : list R) : option (list R) :=
  match map_read (nx d) x, map_read (ndual d) lambda with
  | Some v, Some lam => get_data_dense (nx d) (nx d) (hess v lam obj_factor) true values
  | _, _ => None end.
Definition eval_h_sparse (d : dims) (hess : (nat -> R) -> (nat -> R) -> R -> spmat R)
    (x lambda : list R) (obj_factor : R) (values : list R) : option (list R) :=
  match map_read (nx d) x, map_read (ndual d) lambda with
  | Some v, Some lam => get_data_sparse (hess v lam obj_factor) true values
  | _, _ => None end.

(** :373-383 finalize_solution *)
Definition finalize_solution (d : dims) (a : adapter) (x lambda : list R) : option adapter :=
  match map_read (nx d) x, map_read (ndual d) lambda with
  | Some v, Some lam => Some (Adapter v lam (m_lbx a) (m_ubx a) (m_lbg a) (m_ubg a))
  | _, _ => None end.
(** :491-494 the guesses of solve(x_guess, lam_guess) *)
Definition set_guess (a : adapter) (x lam : nat -> R) : adapter := Adapter x lam (m_lbx a) (m_ubx a) (m_lbg a) (m_ubg a).
