(** The functions of the namespace psarc_math in src/experimental/psarc.hpp (property C112).

    Values are real numbers.  casadi::DM is a matrix in compressed columns.  The direct
    solvers of CasADi and Eigen, the determinant of CasADi and SparseLU::logAbsDeterminant
    are arbitrary functions.  The narrowing of casadi_int to int in the triplets and the
    console output are left out. *)
From Coq Require Import Arith Bool List Reals.
Import ListNotations.
Local Open Scope R_scope.

(** casadi::DM: number of rows; for every column the row indices and the values of its
    stored elements. *)
Record dm := mkDm { d_rows : nat; d_columns : list (list (nat * R)) }.
Definition d_cols (A : dm) : nat := length (d_columns A).

(** DM::get_nonzeros, Sparsity::get_triplet as used at psarc.hpp:27-30 *)
Definition nonzeros (A : dm) : list R := concat (map (map snd) (d_columns A)).
Definition triplet_rows (A : dm) : list nat := concat (map (map fst) (d_columns A)).
Fixpoint column_indices (j : nat) (cs : list (list (nat * R))) : list nat :=
  match cs with [] => [] | c :: r => repeat j (length c) ++ column_indices (S j) r end.
Definition triplet_cols (A : dm) : list nat := column_indices 0 (d_columns A).

(** DM::densify: elements that are not stored become zeros *)
Fixpoint stored (c : list (nat * R)) (i : nat) : R :=
  match c with [] => 0 | (k, v) :: r => if (k =? i)%nat then v else stored r i end.
Definition densify (A : dm) : dm :=
  mkDm (d_rows A) (map (fun c => map (fun i => (i, stored c i)) (seq 0 (d_rows A))) (d_columns A)).

(** Eigen matrices: sizes and coefficients *)
Record emat := mkE { e_rows : nat; e_cols : nat; e_coeff : nat -> nat -> R }.

(** MatrixXd::Map of a std::vector, stored by columns (psarc.hpp:54, 105) *)
Definition map_matrix (data : list R) (rows cols : nat) : emat :=
  mkE rows cols (fun i j => nth (j * rows + i) data 0).
(** VectorXd::Map (psarc.hpp:55, 68) *)
Definition map_vector (data : list R) (i : nat) : R := nth i data 0.

(** The loop that fills the triplets (psarc.hpp:32-36); an index outside of a vector is
    undefined behaviour ([None]). *)
Definition triplet_at (rs cs : list nat) (vs : list R) (k : nat) : option (nat * nat * R) :=
  match nth_error rs k, nth_error cs k, nth_error vs k with
  | Some r, Some c, Some v => Some (r, c, v)
  | _, _, _ => None
  end.
Fixpoint collect {T} (l : list (option T)) : option (list T) :=
  match l with
  | [] => Some []
  | Some x :: r => match collect r with Some y => Some (x :: y) | None => None end
  | None :: _ => None
  end.

(** SparseMatrix::setFromTriplets: duplicates are added up; an index out of range is an
    assertion failure ([None]). *)
Fixpoint add_up (ts : list (nat * nat * R)) (i j : nat) : R :=
  match ts with
  | [] => 0
  | (r, c, v) :: rest => (if (r =? i)%nat && (c =? j)%nat then v else 0) + add_up rest i j
  end.
Definition set_from_triplets (rows cols : nat) (ts : list (nat * nat * R)) : option emat :=
  if forallb (fun t => (fst (fst t) <? rows)%nat && (snd (fst t) <? cols)%nat) ts
  then Some (mkE rows cols (add_up ts)) else None.

(** C2ESparse: psarc.hpp:24-42 *)
Definition c2esparse (A : dm) : option emat :=
  let rs := triplet_rows A in
  let cs := triplet_cols A in
  let vs := nonzeros A in
  match collect (map (triplet_at rs cs vs) (seq 0 (length vs))) with
  | Some ts => set_from_triplets (d_rows A) (d_cols A) ts
  | None => None
  end.

(** DM(std::vector<double>): a dense column *)
Definition column (n : nat) (x : nat -> R) : dm := mkDm n [map (fun i => (i, x i)) (seq 0 n)].

Inductive mat_type := CASADI | EIGEN_DENSE | EIGEN_SPARSE.

(** What a call of solve does: return a matrix, return DM(), or fail an assertion of Eigen
    (undefined behaviour when assertions are off). *)
Inductive result := Returns (x : dm) | ReturnsEmpty | Undefined.

Section Math.
(** casadi::DM::solve and casadi::DM::det *)
Variable casadi_solve : dm -> dm -> dm.
Variable casadi_det : dm -> R.
(** PartialPivLU: always gives some vector *)
Variable dense_lu : nat -> (nat -> nat -> R) -> (nat -> R) -> nat -> R.
(** SparseLU::compute: the solution operator, or [None] when info() is not Success *)
Variable sparse_lu : nat -> (nat -> nat -> R) -> option ((nat -> R) -> nat -> R).
(** SparseLU::logAbsDeterminant after a successful compute *)
Variable log_abs_det : nat -> (nat -> nat -> R) -> R.

(** solve: psarc.hpp:44-96.  partialPivLu asserts a square matrix, both solve functions of
    Eigen assert that the right-hand side has as many rows as the matrix.  SparseLU::solve
    asserts that the factorisation succeeded (the return at :75 is commented out); it does not change
    info(), so info() at :78 is that of compute. *)
Definition solve (t : mat_type) (A b : dm) : result :=
  match t with
  | CASADI => Returns (casadi_solve A b)
  | EIGEN_DENSE =>
      let M := map_matrix (nonzeros (densify A)) (d_rows A) (d_cols A) in
      let v := map_vector (nonzeros (densify b)) in
      if negb (e_rows M =? e_cols M)%nat then Undefined
      else if negb (d_rows b =? e_rows M)%nat then Undefined
      else if (d_cols b =? 0)%nat && negb (d_rows b =? 0)%nat then Undefined
      else Returns (column (e_cols M) (dense_lu (e_rows M) (e_coeff M) v))
  | EIGEN_SPARSE =>
      match c2esparse A with
      | None => Undefined
      | Some M =>
          let v := map_vector (nonzeros (densify b)) in
          if negb (e_rows M =? e_cols M)%nat then Undefined
          else if negb (d_rows b =? e_rows M)%nat then Undefined
          else if (d_cols b =? 0)%nat && negb (d_rows b =? 0)%nat then Undefined
          else
            let info := sparse_lu (e_rows M) (e_coeff M) in
            match info with
            | None => Undefined
            | Some f =>
                let x := f v in
                match info with
                | None => ReturnsEmpty
                | Some _ => Returns (column (e_cols M) x)
                end
            end
      end
  end.

(** determinant: psarc.hpp:98-132.  logAbsDeterminant asserts a successful factorisation. *)
Definition determinant (t : mat_type) (A : dm) : option R :=
  match t with
  | CASADI => Some (casadi_det A)
  | EIGEN_DENSE => Some 0
  | EIGEN_SPARSE =>
      match c2esparse A with
      | None => None
      | Some M =>
          if negb (e_rows M =? e_cols M)%nat then None
          else match sparse_lu (e_rows M) (e_coeff M) with
               | None => None
               | Some _ => Some (log_abs_det (e_rows M) (e_coeff M))
               end
      end
  end.
End Math.
