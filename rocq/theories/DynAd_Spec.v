(** Vocabulary of the property of dynamic-size derivatives: the rule of the documentation
    and the expressions for which it is enough. *)
From Coq Require Import List Bool Reals.
From Verif Require Import Ad_Model Ad_Spec.
Import ListNotations.

(** tests/autodiff/auto_diff_test2.cpp:36-41: "All ActiveScalars which are used in one
    computation must have either a common derivative vector length or a zero-length
    derivative vector." *)
Definition common_length (n : nat) (d : nat -> list R) : Prop :=
  forall i, length (d i) = n \/ length (d i) = 0%nat.

(** The same variable with a derivative vector of fixed size, padded with zeros. *)
Definition padded (v : nat -> R) (d : nat -> list R) : nat -> dual R :=
  fun i => Dual (v i) (fun k => nth k (d i) 0%R).

(** The result of the operator is an object with a vector, not a lazy expression. *)
Fixpoint object (e : expr) : bool :=
  match e with
  | Var _ | Cst _ | Atan2 _ _ | Min _ _ | Max _ _ => true
  | AddR a _ | RAdd _ a | SubR a _ => object a
  | _ => false
  end.

(** The expression certainly contains derivatives, if [L] says which variables do. *)
Fixpoint active (L : nat -> bool) (e : expr) : bool :=
  match e with
  | Var i => L i
  | Cst _ => false
  | Add a b | Sub a b | Mul a b | Div a b => active L a || active L b
  | Atan2 a b | Min a b | Max a b => active L a && active L b
  | Opp a | AddR a _ | RAdd _ a | SubR a _ | RSub _ a | MulR a _ | RMul _ a | DivR a _
  | RDiv _ a | Un _ a | Pow a _ => active L a
  end.

(** Operands of the operators with two active scalars: a lazy expression only if it
    certainly contains derivatives, and at least one operand that does; atan2 takes only
    operands with derivatives. *)
Fixpoint disciplined (L : nat -> bool) (e : expr) : bool :=
  match e with
  | Var _ | Cst _ => true
  | Add a b | Sub a b | Mul a b | Div a b =>
      disciplined L a && disciplined L b && (object a || active L a)
      && (object b || active L b) && (active L a || active L b)
  | Atan2 a b => disciplined L a && disciplined L b && active L a && active L b
  | Min a b | Max a b => disciplined L a && disciplined L b
  | Opp a | AddR a _ | RAdd _ a | SubR a _ | RSub _ a | MulR a _ | RMul _ a | DivR a _
  | RDiv _ a | Un _ a | Pow a _ => disciplined L a
  end.

(** Programs: the variables that certainly have derivatives after a statement, and the
    condition for its expression. *)
Definition active_after (L : nat -> bool) (s : instr) : nat -> bool :=
  match s with
  | Assign r e => upd L r (active L e)
  | AddTo r e | SubFrom r e | MulBy r e | DivBy r e => upd L r (L r || active L e)
  | _ => L
  end.
Definition disciplined_step (L : nat -> bool) (s : instr) : bool :=
  match s with
  | Assign _ e => disciplined L e
  | AddTo r e | SubFrom r e | MulBy r e | DivBy r e =>
      disciplined L e && (object e || active L e) && (L r || active L e)
  | _ => true
  end.
Fixpoint disciplined_prog (L : nat -> bool) (p : list instr) : bool :=
  match p with
  | [] => true
  | s :: p => disciplined_step L s && disciplined_prog (active_after L s) p
  end.
