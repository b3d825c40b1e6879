(** Model of src/solvers/qp_preconditioners.hpp. *)
Require Import ZArith List Bool.
Require Import Verif.Scal Verif.Qp_Model.
Local Open Scope S_scope.

(** qp_preconditioners.hpp 120-122, 146-149: the accumulated scalings D, E, c and the members m_D, m_E *)
Record ruiz (T : Type) := mkRuiz { rD : vec T; rE : vec T; rc : T; wD : vec T; wE : vec T }.
Arguments mkRuiz {T}. Arguments rD {T}. Arguments rE {T}. Arguments rc {T}. Arguments wD {T}. Arguments wE {T}.

Section Precond.
Context {T : Type} {ST : Scalar T}.

(** IdentityPreconditioner, 29-111: compute, scale, unscale do nothing *)
Definition id_compute (w : unit) (d : qp_data T) : unit * qp_data T := (w, d).
Definition id_unscale (w : unit) (d : qp_data T) : qp_data T := d.
Definition id_unscale_sol (w : unit) (s : vec T * vec T) : vec T * vec T := s.

(** 137-142 *)
Definition ruiz_new : ruiz T := mkRuiz (fun _ => 1) (fun _ => 1) 1 (fun _ => 1) (fun _ => 1).

(** numeric_limits<double>::epsilon(), the tolerance 1e-3, 10 * tolerance, sparse threshold 1e-4 (250) *)
Definition ruiz_eps : T := scst 1 (2 ^ 52).
Definition ruiz_tol : T := scst 1 1000.
Definition ruiz_norm0 : T := sofZ 10 * ruiz_tol.
Definition ruiz_eps_sparse : T := scst 1 10000.
(** numeric_limits<double>::lowest() *)
Definition lowest : T := sofZ (- (2 ^ 1024 - 2 ^ 971)).

(** maxCoeff of a vector of size n >= 1 *)
Definition vmax (n : nat) (f : vec T) : T := maxcoeff (n - 1) f.
(** 180-184: entries below the threshold become 1; the preceding minCoeff test only skips a loop that would change nothing *)
Definition unzero (eps : T) (n : nat) (f : vec T) : vec T := tab n (fun k => if f k <? eps then 1 else f k).
(** v.cwiseSqrt().cwiseInverse() *)
Definition inv_sqrt (n : nat) (f : vec T) : vec T := tab n (fun k => 1 / ssqrt (f k)).

(** 169-207 / 256-290: one sweep.  [colH], [rowA], [colA] are the norms of the columns of H, of the rows and the columns of A; [guard] is the h_inf guard
    (dense compute only); [pre] is the factor applied to H and h in the sweep (1 in compute, m_c in update, 454-456).
    Returns the new scalings, the scaled (H, h, A) and scaling_norm. *)
Definition sweep (eps : T) (guard : bool) (n m : nat) (colH : mat T -> nat -> T) (rowA colA : mat T -> nat -> T)
  (mc : bool) (w : ruiz T) (H : mat T) (h : vec T) (A : mat T)
  : ruiz T * (mat T * vec T * mat T) * T :=
  let e0 := tab m (rowA A) in
  let d0 := tab n (fun j => smax (colH H j) (colA A j)) in
  let norm := let a := vmax n d0 in let b := vmax m e0 in smax a b in
  let dd := inv_sqrt n (unzero eps n d0) in
  let ee := inv_sqrt m (unzero eps m e0) in
  let H1 := tab2 n n (fun i j => if mc then rc w * dd i * H i j * dd j else dd i * H i j * dd j) in
  let A1 := tab2 m n (fun i j => ee i * A i j * dd j) in
  let h1 := tab n (fun j => if mc then rc w * (h j * dd j) else h j * dd j) in
  let wd := tab n (colH H1) in
  let hinf := norminf n h1 in
  let hinf := if guard then (if ruiz_eps <? hinf then hinf else 1) else hinf in
  let gamma := 1 / smax (ssum n wd / sofZ (Z.of_nat n)) hinf in
  (mkRuiz (tab n (fun j => rD w j * dd j)) (tab m (fun i => rE w i * ee i)) (rc w * gamma) wd ee,
   (tab2 n n (fun i j => H1 i j * gamma), tab n (fun j => h1 j * gamma), A1), norm).

(** at most [fuel] sweeps while [go] holds for the last scaling_norm *)
Fixpoint sweeps (go : T -> bool) (sw : ruiz T -> mat T -> vec T -> mat T -> ruiz T * (mat T * vec T * mat T) * T)
  (fuel : nat) (w : ruiz T) (H : mat T) (h : vec T) (A : mat T) (norm : T) : ruiz T * (mat T * vec T * mat T) :=
  match fuel with
  | O => (w, (H, h, A))
  | S k => if go norm then
             let '(w', (H', h', A'), norm') := sw w H h A in sweeps go sw k w' H' h' A' norm'
           else (w, (H, h, A))
  end.

(** (1 - scaling_norm) >= tolerance *)
Definition go_compute (norm : T) : bool := ruiz_tol <=? (1 - norm).
(** update, 441: (1 - scaling_norm) <= tolerance *)
Definition go_update (norm : T) : bool := (1 - norm) <=? ruiz_tol.

(** 209-218: bounds of the scaled problem *)
Definition finish (w : ruiz T) (d : qp_data T) (r : mat T * vec T * mat T) : qp_data T :=
  let '(H, h, A) := r in
  {| qn := qn d; qm := qm d; qH := H; qh := h; qA := A;
     qAlb := fun i => ext_scale (rE w i) (qAlb d i); qAub := fun i => ext_scale (rE w i) (qAub d i);
     qxlb := fun j => ext_scale (1 / rD w j) (qxlb d j); qxub := fun j => ext_scale (1 / rD w j) (qxub d j) |}.

(** dense column / row norms *)
Definition dense_colH (n : nat) (H : mat T) (j : nat) : T := norminf n (fun i => H i j).
Definition dense_rowA (n : nat) (A : mat T) (i : nat) : T := norminf n (A i).
Definition dense_colA (m : nat) (A : mat T) (j : nat) : T := norminf m (fun i => A i j).

(** 151-220 dense compute; maxCoeff of an empty vector (n = 0 or m = 0) violates an eigen_assert: None *)
Definition dense_compute (d : qp_data T) : option (ruiz T * qp_data T) :=
  if Nat.eqb (qn d) 0 || Nat.eqb (qm d) 0 then None else
  let '(w, r) := sweeps go_compute
    (sweep ruiz_eps true (qn d) (qm d) (dense_colH (qn d)) (dense_rowA (qn d)) (dense_colA (qm d)) false)
    4 ruiz_new (qH d) (qh d) (qA d) ruiz_norm0 in
  Some (w, finish w d r).

(** 424-480 dense update of an existing object *)
Definition dense_update (w : ruiz T) (d : qp_data T) : option (ruiz T * qp_data T) :=
  if Nat.eqb (qn d) 0 || Nat.eqb (qm d) 0 then None else
  let '(w, r) := sweeps go_update
    (sweep ruiz_eps false (qn d) (qm d) (dense_colH (qn d)) (dense_rowA (qn d)) (dense_colA (qm d)) true)
    4 w (qH d) (qh d) (qA d) (smax (vmax (qn d) (wD w)) (vmax (qm d) (wE w))) in
  Some (w, finish w d r).

(** ** sparse matrices: values together with the set of stored entries *)
(** 222-233 maxxCoeff of the absolute values of the stored entries among the first [n] *)
Fixpoint maxx (n : nat) (nz : nat -> bool) (f : vec T) : T :=
  match n with
  | O => lowest
  | S k => let a := maxx k nz f in if nz k then (if sabs (f k) <? a then a else sabs (f k)) else a
  end.
(** 235-307 sparse compute; [nzH], [nzA] are the stored entries (the pattern is not changed by the scaling).
    Entries that are not stored are scaled like stored zeros, which differs only if a factor is infinite or NaN.
    H.uncompress() only changes the storage mode. *)
Definition sparse_compute (nzH nzA : nat -> nat -> bool) (d : qp_data T) : option (ruiz T * qp_data T) :=
  if Nat.eqb (qn d) 0 || Nat.eqb (qm d) 0 then None else
  let n := qn d in let m := qm d in
  let '(w, r) := sweeps go_compute
    (sweep ruiz_eps_sparse false n m
       (fun H j => maxx n (fun i => nzH i j) (fun i => H i j))
       (fun A i => maxx n (nzA i) (A i))
       (fun A j => maxx m (fun i => nzA i j) (fun i => A i j)) false)
    4 ruiz_new (qH d) (qh d) (qA d) ruiz_norm0 in
  Some (w, finish w d r).

(** 311-350 scale with the existing factors (dense and sparse) *)
Definition ruiz_scale (w : ruiz T) (d : qp_data T) : qp_data T :=
  {| qn := qn d; qm := qm d;
     qH := tab2 (qn d) (qn d) (fun i j => rc w * rD w i * qH d i j * rD w j);
     qh := tab (qn d) (fun j => rc w * (qh d j * rD w j));
     qA := tab2 (qm d) (qn d) (fun i j => rE w i * qA d i j * rD w j);
     qAlb := fun i => ext_scale (rE w i) (qAlb d i); qAub := fun i => ext_scale (rE w i) (qAub d i);
     qxlb := fun j => ext_scale (1 / rD w j) (qxlb d j); qxub := fun j => ext_scale (1 / rD w j) (qxub d j) |}.

(** 367-406 unscale *)
Definition ruiz_unscale (w : ruiz T) (d : qp_data T) : qp_data T :=
  {| qn := qn d; qm := qm d;
     qH := tab2 (qn d) (qn d) (fun i j => (1 / rc w) * (1 / rD w i) * qH d i j * (1 / rD w j));
     qh := tab (qn d) (fun j => (1 / rc w) * (qh d j * (1 / rD w j)));
     qA := tab2 (qm d) (qn d) (fun i j => (1 / rE w i) * qA d i j * (1 / rD w j));
     qAlb := fun i => ext_scale (1 / rE w i) (qAlb d i); qAub := fun i => ext_scale (1 / rE w i) (qAub d i);
     qxlb := fun j => ext_scale (rD w j) (qxlb d j); qxub := fun j => ext_scale (rD w j) (qxub d j) |}.
(** 408-422 unscale_hessian *)
Definition ruiz_unscale_hessian (w : ruiz T) (n : nat) (H : mat T) : mat T :=
  tab2 n n (fun i j => (1 / rc w) * (1 / rD w i) * H i j * (1 / rD w j)).

(** 352-365 scale / unscale of a primal-dual pair *)
Definition ruiz_scale_sol (n m : nat) (w : ruiz T) (s : vec T * vec T) : vec T * vec T :=
  let '(x, y) := s in
  (tab n (fun j => x j * (1 / rD w j)),
   tab (m + n) (fun i => if Nat.ltb i m then rc w * (y i * (1 / rE w i)) else rc w * (y i * rD w (i - m)%nat))).
Definition ruiz_unscale_sol (n m : nat) (w : ruiz T) (s : vec T * vec T) : vec T * vec T :=
  let '(x, y) := s in
  (tab n (fun j => x j * rD w j),
   tab (m + n) (fun i => if Nat.ltb i m then (1 / rc w) * (y i * rE w i) else (1 / rc w) * (y i * (1 / rD w (i - m)%nat)))).

(** the preconditioner as the SQP solver calls it (sqp_base.hpp 605-611); the None case is the eigen_assert *)
Definition ruiz_pc_compute (w : ruiz T) (d : qp_data T) : ruiz T * qp_data T :=
  match dense_compute d with Some r => r | None => (w, d) end.
End Precond.
