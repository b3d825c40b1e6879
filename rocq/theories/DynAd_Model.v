(** Model of src/autodiff/AutoDiffScalar.h with derivative vectors of dynamic size
    (AutoDiffScalar<VectorXd>, as in tests/autodiff/auto_diff_test2.cpp): evaluation of
    expressions and programs, with the expression templates that are evaluated lazily, the
    resizing of operands by make_coherent, and Eigen's checks of sizes.

    Simplifications: real arithmetic; one level of active scalars; expressions that
    are assigned at once, so that all temporaries live until their end; the overloads of min and max for two
    active scalars of the same type. *)
From Coq Require Import List Arith Bool Reals.
From Verif Require Import Ad_Model Ad_Spec.
Import ListNotations.
Local Open Scope R_scope.

(** Derivative vectors are members of the variables of the program or of temporaries. *)
Inductive loc := LVar (i : nat) | LTmp (j : nat).
Definition loc_eqb (a b : loc) : bool :=
  match a, b with
  | LVar i, LVar j | LTmp i, LTmp j => (i =? j)%nat
  | _, _ => false
  end.

Record mstate := mkM { next : nat; mem : loc -> list R }.

Definition write (m : loc -> list R) (l : loc) (x : list R) : loc -> list R :=
  fun l' => if loc_eqb l' l then x else m l'.

(** A new temporary active scalar with a derivative vector of its own. *)
Definition alloc (s : mstate) (x : list R) : mstate * loc :=
  (mkM (S (next s)) (write (mem s) (LTmp (next s)) x), LTmp (next s)).

(** Lazy expressions of derivatives.  Vectors are held by reference, expressions by
    value: AutoDiffScalar.h:39-41 and the return types of the operators. *)
Inductive dx :=
| DRef (l : loc)            (* Matrix<double, Dynamic, 1> *)
| DScale (d : dx) (r : R)   (* m_derivatives * scalar *)
| DNeg (d : dx)
| DSum (a b : dx)           (* CwiseBinaryOp of sums *)
| DDiff (a b : dx).

(** Number of rows of an expression now.  CwiseBinaryOp::rows() of Eigen returns the rows
    of the right operand if those of the left one are dynamic. *)
Fixpoint size (m : loc -> list R) (d : dx) : nat :=
  match d with
  | DRef l => length (m l)
  | DScale d _ | DNeg d => size m d
  | DSum _ b | DDiff _ b => size m b
  end.

Fixpoint map2 (f : R -> R -> R) (a b : list R) : list R :=
  match a, b with x :: a, y :: b => f x y :: map2 f a b | _, _ => [] end.

(** Evaluation of an expression into a vector.  [None]: an operand of a sum or
    difference is shorter than the other and memory outside of it is read. *)
Fixpoint materialise (m : loc -> list R) (d : dx) : option (list R) :=
  match d with
  | DRef l => Some (m l)
  | DScale d r => match materialise m d with
                  | Some x => Some (map (fun t => t * r) x) | None => None end
  | DNeg d => match materialise m d with
              | Some x => Some (map Ropp x) | None => None end
  | DSum a b =>
      match materialise m a, materialise m b with
      | Some x, Some y =>
          if (length x =? length y)%nat then Some (map2 Rplus x y) else None
      | _, _ => None end
  | DDiff a b =>
      match materialise m a, materialise m b with
      | Some x, Some y =>
          if (length x =? length y)%nat then Some (map2 Rminus x y) else None
      | _, _ => None end
  end.

(** make_coherent, AutoDiffScalar.h:20-30 and 458-500: three specialisations (vector and
    anything, anything and vector, two vectors) and the general case, which does
    nothing. *)
Definition make_coherent (m : loc -> list R) (a b : dx) : loc -> list R :=
  match a, b with
  | DRef la, DRef lb =>
      if (length (m la) =? 0)%nat then write m la (repeat 0 (length (m lb)))
      else if (length (m lb) =? 0)%nat then write m lb (repeat 0 (length (m la)))
      else m
  | DRef la, _ =>
      if (length (m la) =? 0)%nat then write m la (repeat 0 (size m b)) else m
  | _, DRef lb =>
      if (length (m lb) =? 0)%nat then write m lb (repeat 0 (size m a)) else m
  | _, _ => m
  end.

(** The scalar by which EIGEN_AUTODIFF_DECLARE_GLOBAL_UNARY functions multiply the
    derivatives (:592-684), taken from the model for fixed sizes: the derivative of the
    function of an active scalar with derivative 1. *)
Definition slope (u : unary) (x : R) : R := der (unary_fn u (Dual x (fun _ => 1))) 0%nat.
Definition pow_slope (x y : R) : R := y * std_pow x (y - 1).

Section Eval.
Variable ltr : bool.        (* order in which the operands of an operator are evaluated *)
Variable v : nat -> R.      (* values of the variables *)

Definition res : Type := mstate * (R * dx).

Definition both (fa fb : mstate -> option res) (s : mstate)
    (k : mstate -> R * dx -> R * dx -> option res) : option res :=
  if ltr then
    match fa s with
    | Some (s1, ra) => match fb s1 with Some (s2, rb) => k s2 ra rb | None => None end
    | None => None end
  else
    match fb s with
    | Some (s1, rb) => match fa s1 with Some (s2, ra) => k s2 ra rb | None => None end
    | None => None end.

Definition un1 (f : mstate -> option res) (s : mstate)
    (k : mstate -> R * dx -> option res) : option res :=
  match f s with Some (s1, r) => k s1 r | None => None end.

(** Operators +, -, *, / of two active scalars (:211-217, 247-253, 332-339, 345-351):
    make the operands coherent, build the expression; the constructor of CwiseBinaryOp
    checks that both operands have the same number of rows. *)
Definition combine (s : mstate) (da db : dx) (val : R) (d : dx) : option res :=
  let m := make_coherent (mem s) da db in
  if (size m da =? size m db)%nat then Some (mkM (next s) m, (val, d)) else None.

(** x + c, c + x, x - c (:183-191, 227-230): AutoDiffScalar<DerType&>, whose member
    m_derivatives (:381) is declared with the type without the reference: a copy.  The
    copy of a vector is a new vector, the copy of an expression is the expression. *)
Definition copy (s : mstate) (val : R) (d : dx) : option res :=
  match d with
  | DRef l => let (s', l') := alloc s (mem s l) in Some (s', (val, DRef l'))
  | _ => Some (s, (val, d))
  end.

(** An expression assigned to a new active scalar with a vector of its own: results of
    atan2 (:639-654), min and max (:582-589). *)
Definition plain_result (s : mstate) (val : R) (d : dx) : option res :=
  match materialise (mem s) d with
  | Some x => let (s', l) := alloc s x in Some (s', (val, DRef l))
  | None => None
  end.

Fixpoint evd (e : expr) (s : mstate) : option res :=
  match e with
  | Var i => Some (s, (v i, DRef (LVar i)))
  | Cst c => let (s', l) := alloc s [] in Some (s', (c, DRef l))      (* :99-104 *)
  | Add a b => both (evd a) (evd b) s (fun s ra rb =>
      combine s (snd ra) (snd rb) (fst ra + fst rb) (DSum (snd ra) (snd rb)))
  | Sub a b => both (evd a) (evd b) s (fun s ra rb =>
      combine s (snd ra) (snd rb) (fst ra - fst rb) (DDiff (snd ra) (snd rb)))
  | Mul a b => both (evd a) (evd b) s (fun s ra rb =>
      combine s (snd ra) (snd rb) (fst ra * fst rb)
        (DSum (DScale (snd ra) (fst rb)) (DScale (snd rb) (fst ra))))
  | Div a b => both (evd a) (evd b) s (fun s ra rb =>
      combine s (snd ra) (snd rb) (fst ra / fst rb)
        (DScale (DDiff (DScale (snd ra) (fst rb)) (DScale (snd rb) (fst ra)))
                (1 / (fst rb * fst rb))))
  | Opp a => un1 (evd a) s (fun s r => Some (s, (- fst r, DNeg (snd r))))
  | AddR a c => un1 (evd a) s (fun s r => copy s (fst r + c) (snd r))
  | RAdd c a => un1 (evd a) s (fun s r => copy s (c + fst r) (snd r))
  | SubR a c => un1 (evd a) s (fun s r => copy s (fst r - c) (snd r))
  | RSub c a => un1 (evd a) s (fun s r => Some (s, (c - fst r, DNeg (snd r))))
  | MulR a c => un1 (evd a) s (fun s r => Some (s, (fst r * c, DScale (snd r) c)))
  | RMul c a => un1 (evd a) s (fun s r => Some (s, (fst r * c, DScale (snd r) c)))
  | DivR a c => un1 (evd a) s (fun s r => Some (s, (fst r / c, DScale (snd r) (1 / c))))
  | RDiv c a => un1 (evd a) s (fun s r =>
      Some (s, (c / fst r, DScale (snd r) (- c / (fst r * fst r)))))
  | Un u a => un1 (evd a) s (fun s r =>
      Some (s, (unary_fn u (fst r), DScale (snd r) (slope u (fst r)))))
  | Pow a y => un1 (evd a) s (fun s r =>
      Some (s, (std_pow (fst r) y, DScale (snd r) (pow_slope (fst r) y))))
  | Atan2 a b => both (evd a) (evd b) s (fun s ra rb =>     (* no make_coherent *)
      if (size (mem s) (snd ra) =? size (mem s) (snd rb))%nat then
        plain_result s (std_atan2 (fst ra) (fst rb))
          (DScale (DDiff (DScale (snd ra) (fst rb)) (DScale (snd rb) (fst ra)))
                  (/ (fst ra * fst ra + fst rb * fst rb)))
      else None)
  | Min a b => both (evd a) (evd b) s (fun s ra rb =>
      if Rlt_dec (fst ra) (fst rb) then plain_result s (fst ra) (snd ra)
      else plain_result s (fst rb) (snd rb))
  | Max a b => both (evd a) (evd b) s (fun s ra rb =>
      if Rle_dec (fst rb) (fst ra) then plain_result s (fst ra) (snd ra)
      else plain_result s (fst rb) (snd rb))
  end.

(** [AutoDiffScalar<VectorXd> r = e;]: the derivative vectors of the variables before
    and after, the value and the derivative vector of r.  [None]: an assertion of Eigen
    fails, or (with NDEBUG) memory outside of a vector is read. *)
Definition run_dyn (d : nat -> list R) (e : expr) : option ((nat -> list R) * R * list R) :=
  match evd e (mkM 0 (fun l => match l with LVar i => d i | LTmp _ => [] end)) with
  | Some (s, (x, g)) =>
      match materialise (mem s) g with
      | Some y => Some ((fun i => mem s (LVar i)), x, y)
      | None => None end
  | None => None
  end.
End Eval.

(** Straight-line programs ([instr] of Ad_Spec).  Assignment of an expression (:132-144)
    evaluates it into the vector of the variable, which takes its size; the compound
    assignments with active operands (:221, 257, 360, 373) and *=, /= with numbers
    (:353, 366) are written as assignments in the code; the others (:146, 203, 239) change
    only the value.  A variable that occurs in an expression assigned to it is read and
    written element by element; [run_dyn] reads first, which is the same because an
    expression has the size of every vector in it whenever [run_dyn] succeeds with a
    disciplined expression. *)
Definition assign_dyn (ltr : bool) (v : nat -> R) (d : nat -> list R) (r : nat) (e : expr)
    : option ((nat -> R) * (nat -> list R)) :=
  match run_dyn ltr v d e with
  | Some (d', x, g) => Some (upd v r x, upd d' r g)
  | None => None
  end.

Definition step_dyn (ltr : bool) (v : nat -> R) (d : nat -> list R) (s : instr)
    : option ((nat -> R) * (nat -> list R)) :=
  match s with
  | Assign r e => assign_dyn ltr v d r e
  | AddTo r e => assign_dyn ltr v d r (Add (Var r) e)
  | SubFrom r e => assign_dyn ltr v d r (Sub (Var r) e)
  | MulBy r e => assign_dyn ltr v d r (Mul (Var r) e)
  | DivBy r e => assign_dyn ltr v d r (Div (Var r) e)
  | MulConst r c => assign_dyn ltr v d r (MulR (Var r) c)
  | DivConst r c => assign_dyn ltr v d r (DivR (Var r) c)
  | AssignConst r c => Some (upd v r c, d)
  | AddConst r c => Some (upd v r (v r + c), d)
  | SubConst r c => Some (upd v r (v r - c), d)
  end.

Fixpoint run_prog_dyn (ltr : bool) (v : nat -> R) (d : nat -> list R) (p : list instr)
    : option ((nat -> R) * (nat -> list R)) :=
  match p with
  | [] => Some (v, d)
  | s :: p => match step_dyn ltr v d s with
              | Some (v', d') => run_prog_dyn ltr v' d' p
              | None => None end
  end.
