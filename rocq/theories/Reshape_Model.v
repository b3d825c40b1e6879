(** The expression Reshaped of src/utils/Reshaped.h (property C110).

    Coefficients are represented by their locations in a memory: a nested expression maps
    row and column to a location, and so does the reshaped expression.  For a computed
    expression (a sum, say) the "memory" holds its values.  Packet access is disabled in
    the source (#if 0) and is not modelled; alignment is not modelled. *)
From Coq Require Import Arith Bool List.
Import ListNotations.

Inductive order := ColMajor | RowMajor.

Definition same_order (a b : order) : bool :=
  match a, b with ColMajor, ColMajor | RowMajor, RowMajor => true | _, _ => false end.

(** The nested expression: either with direct access (a matrix, a Map, a Block: data(),
    innerStride(), outerStride()) or an arbitrary function of row and column.
    [x_order] is XpxStorageOrder, [x_linear] the bit LinearAccessBit of its evaluator
    (Reshaped.h 65, 78). *)
Inductive access :=
| Direct (data inner outer : nat)
| Function (loc : nat -> nat -> nat).

Record expr := mkExpr {
  x_rows : nat; x_cols : nat; x_order : order; x_linear : bool; x_access : access
}.

(** Location of a coefficient of the nested expression; for direct access as in Eigen's
    MapBase and mapbase_evaluator (row stride and column stride by storage order). *)
Definition strided (o : order) (data inner outer i j : nat) : nat :=
  match o with
  | ColMajor => data + i * inner + j * outer
  | RowMajor => data + j * inner + i * outer
  end.

Definition x_loc (x : expr) (i j : nat) : nat :=
  match x_access x with
  | Direct d inner outer => strided (x_order x) d inner outer i j
  | Function loc => loc i j
  end.

(** A reshaped expression: nested expression, template arguments Rows, Cols ([None] is
    Dynamic) and Order, and the sizes of the object. *)
Record reshaped := mkReshaped {
  r_xpr : expr; r_crows : option nat; r_ccols : option nat; r_ord : order;
  r_rows : nat; r_cols : nat
}.

Definition agrees (c : option nat) (k : nat) : bool :=
  match c with None => true | Some r => k =? r end.

(** Reshaped.h 120-130: dynamic-size constructor with its two assertions ([None] if one
    fails); the fixed-size constructor (110-118) is the case in which both sizes are
    given by the template arguments. *)
Definition reshape (x : expr) (crows ccols : option nat) (ord : order) (rows cols : nat)
    : option reshaped :=
  if agrees crows rows && agrees ccols cols && (rows * cols =? x_rows x * x_cols x)
  then Some (mkReshaped x crows ccols ord rows cols) else None.

Definition is_one (c : option nat) : bool :=
  match c with Some 1 => true | _ => false end.

(** Reshaped.h 66-68 (ReshapedStorageOrder) *)
Definition reshaped_order (r : reshaped) : order :=
  if is_one (r_crows r) && negb (is_one (r_ccols r)) then RowMajor
  else if is_one (r_ccols r) && negb (is_one (r_crows r)) then ColMajor
  else x_order (r_xpr r).

(** Reshaped.h 76-78 (HasDirectAccess) *)
Definition direct_access (r : reshaped) : option (nat * nat) :=
  match x_access (r_xpr r) with
  | Direct d inner _ =>
      if same_order (r_ord r) (x_order (r_xpr r)) && x_linear (r_xpr r)
      then Some (d, inner) else None
  | Function _ => None
  end.

(** Reshaped.h 253-258 (outerStride) *)
Definition outer_stride (r : reshaped) : nat :=
  match reshaped_order r with RowMajor => r_cols r | ColMajor => r_rows r end.

(** Reshaped.h 331-345 (index_remap) *)
Definition index_remap (r : reshaped) (i j : nat) : nat * nat :=
  match r_ord r with
  | ColMajor => let k := j * r_rows r + i in
                (k mod x_rows (r_xpr r), k / x_rows (r_xpr r))
  | RowMajor => let k := j + i * r_cols r in
                (k / x_cols (r_xpr r), k mod x_cols (r_xpr r))
  end.

(** coeff(row, col) and coeffRef(row, col): Reshaped.h 347-367 without direct access,
    else that of Eigen's mapbase_evaluator with data() and innerStride() of the nested
    expression (222-251) and the outer stride above *)
Definition r_loc (r : reshaped) (i j : nat) : nat :=
  match direct_access r with
  | Some (d, inner) => strided (reshaped_order r) d inner (outer_stride r) i j
  | None => let (i', j') := index_remap r i j in x_loc (r_xpr r) i' j'
  end.

(** coeff(index) and coeffRef(index): Reshaped.h 369-393 without direct access, else
    that of mapbase_evaluator *)
Definition r_loc_linear (r : reshaped) (k : nat) : nat :=
  match direct_access r with
  | Some (d, inner) => d + k * inner
  | None => let (i', j') := if is_one (r_crows r) then index_remap r 0 k
                            else index_remap r k 0 in
            x_loc (r_xpr r) i' j'
  end.

(** Assignment of one coefficient. *)
Definition store {T} (m : nat -> T) (l : nat) (v : T) : nat -> T :=
  fun l' => if l' =? l then v else m l'.

(** A reshaped expression as nested expression of another one: Reshaped.h 66-68 (storage
    order), 76-78 and 88 (direct access), 253-258 (outer stride).  [lin] is the bit
    LinearAccessBit of its evaluator. *)
Definition as_expr (r : reshaped) (lin : bool) : expr :=
  mkExpr (r_rows r) (r_cols r) (reshaped_order r) lin
    match direct_access r with
    | Some (d, inner) => Direct d inner (outer_stride r)
    | None => Function (r_loc r)
    end.
