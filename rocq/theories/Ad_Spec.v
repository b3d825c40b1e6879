(** Numerical programs, written once and run with any scalar type. *)
Require Import Arith ZArith Bool List Reals.
From Verif Require Import Ad_Model.
Local Open Scope R_scope.

Inductive unary := UAbs | UAbs2 | USqrt | UCos | USin | UExp | ULog | UFloor | UTan | UAsin | UAcos | UTanh | USinh | UCosh.
Inductive expr :=
| Var (i : nat) | Cst (c : R)
| Add (a b : expr) | Sub (a b : expr) | Mul (a b : expr) | Div (a b : expr) | Opp (a : expr)
| AddR (a : expr) (c : R) | RAdd (c : R) (a : expr) | SubR (a : expr) (c : R) | RSub (c : R) (a : expr)
| MulR (a : expr) (c : R) | RMul (c : R) (a : expr) | DivR (a : expr) (c : R) | RDiv (c : R) (a : expr)
| Un (u : unary) (a : expr) | Pow (a : expr) (y : R) | Atan2 (a b : expr) | Min (a b : expr) | Max (a b : expr).

Definition unary_fn {T} {F : Fn T} (u : unary) : T -> T :=
  match u with
  | UAbs => fabs | UAbs2 => fabs2 | USqrt => fsqrt | UCos => fcos | USin => fsin | UExp => fexp | ULog => flog
  | UFloor => ffloor | UTan => ftan | UAsin => fasin | UAcos => facos | UTanh => ftanh | USinh => fsinh | UCosh => fcosh
  end.
Fixpoint ev {T} {F : Fn T} (x : nat -> T) (e : expr) : T :=
  match e with
  | Var i => x i | Cst c => cst c
  | Add a b => add (ev x a) (ev x b) | Sub a b => sub (ev x a) (ev x b)
  | Mul a b => mul (ev x a) (ev x b) | Div a b => div (ev x a) (ev x b) | Opp a => opp (ev x a)
  | AddR a c => addr (ev x a) c | RAdd c a => radd c (ev x a) | SubR a c => subr (ev x a) c | RSub c a => rsub c (ev x a)
  | MulR a c => mulr (ev x a) c | RMul c a => rmul c (ev x a) | DivR a c => divr (ev x a) c | RDiv c a => rdiv c (ev x a)
  | Un u a => unary_fn u (ev x a) | Pow a y => fpow (ev x a) y | Atan2 a b => fatan2 (ev x a) (ev x b)
  | Min a b => fmin (ev x a) (ev x b) | Max a b => fmax (ev x a) (ev x b)
  end.

(** the elementary functions are differentiable at the values the program feeds them *)
Definition smooth_un (u : unary) (v : R) : Prop :=
  match u with
  | UAbs => v <> 0 | USqrt | ULog => 0 < v | UFloor => False | UTan => cos v <> 0
  | UAsin | UAcos => -1 < v < 1 | _ => True
  end.
Fixpoint smooth (x : nat -> R) (e : expr) : Prop :=
  match e with
  | Var _ | Cst _ => True
  | Add a b | Sub a b | Mul a b => smooth x a /\ smooth x b
  | Div a b => smooth x a /\ smooth x b /\ ev x b <> 0
  | Opp a | AddR a _ | RAdd _ a | SubR a _ | RSub _ a | MulR a _ | RMul _ a => smooth x a
  | DivR a c => smooth x a /\ c <> 0
  | RDiv _ a => smooth x a /\ ev x a <> 0
  | Un u a => smooth x a /\ smooth_un u (ev x a)
  | Pow a y => smooth x a /\ (0 < ev x a \/ exists z : Z, y = IZR z /\ (ev x a <> 0 \/ (1 <= z)%Z))
  | Atan2 a b => smooth x a /\ smooth x b /\ (0 < ev x b \/ ev x a <> 0)
  | Min a b | Max a b => smooth x a /\ smooth x b /\ ev x a <> ev x b
  end.
(** programs the library can also run with nested active scalars *)
Fixpoint nestable (e : expr) : Prop :=
  match e with
  | Var _ | Cst _ => True
  | Add a b | Sub a b | Mul a b | Div a b | Min a b | Max a b => nestable a /\ nestable b
  | Opp a | AddR a _ | RAdd _ a | SubR a _ | RSub _ a | MulR a _ | RMul _ a | DivR a _ | RDiv _ a | Un _ a => nestable a
  | Pow _ _ | Atan2 _ _ => False
  end.

(** straight-line programs over numbered variables *)
Inductive instr :=
| Assign (r : nat) (e : expr)            (* x_r = e *)
| AssignConst (r : nat) (c : R)          (* x_r = c, c a plain number *)
| AddTo (r : nat) (e : expr) | SubFrom (r : nat) (e : expr) | MulBy (r : nat) (e : expr) | DivBy (r : nat) (e : expr)
| AddConst (r : nat) (c : R) | SubConst (r : nat) (c : R) | MulConst (r : nat) (c : R) | DivConst (r : nat) (c : R).
Definition upd {T} (x : nat -> T) (r : nat) (v : T) : nat -> T := fun i => if (i =? r)%nat then v else x i.
(** plain numbers *)
Definition step_R (x : nat -> R) (s : instr) : nat -> R :=
  match s with
  | Assign r e => upd x r (ev x e) | AssignConst r c => upd x r c
  | AddTo r e => upd x r (x r + ev x e) | SubFrom r e => upd x r (x r - ev x e)
  | MulBy r e => upd x r (x r * ev x e) | DivBy r e => upd x r (x r / ev x e)
  | AddConst r c => upd x r (x r + c) | SubConst r c => upd x r (x r - c)
  | MulConst r c => upd x r (x r * c) | DivConst r c => upd x r (x r / c)
  end.
(** active scalars *)
Definition step_ad {T} {F : Fn T} (x : nat -> dual T) (s : instr) : nat -> dual T :=
  match s with
  | Assign r e => upd x r (ev x e) | AssignConst r c => upd x r (assign_scalar (x r) (cst c))
  | AddTo r e => upd x r (add (x r) (ev x e)) | SubFrom r e => upd x r (sub (x r) (ev x e))
  | MulBy r e => upd x r (mul (x r) (ev x e)) | DivBy r e => upd x r (div (x r) (ev x e))
  | AddConst r c => upd x r (add_scalar (x r) (cst c)) | SubConst r c => upd x r (sub_scalar (x r) (cst c))
  | MulConst r c => upd x r (mulr (x r) c) | DivConst r c => upd x r (divr (x r) c)
  end.
Definition run_R (x : nat -> R) (p : list instr) : nat -> R := fold_left step_R p x.
Definition run_ad {T} {F : Fn T} (x : nat -> dual T) (p : list instr) : nat -> dual T := fold_left step_ad p x.
Definition smooth_step (x : nat -> R) (s : instr) : Prop :=
  match s with
  | Assign _ e | AddTo _ e | SubFrom _ e | MulBy _ e => smooth x e
  | DivBy _ e => smooth x e /\ ev x e <> 0
  | DivConst _ c => c <> 0
  | _ => True
  end.
Fixpoint smooth_prog (x : nat -> R) (p : list instr) : Prop :=
  match p with nil => True | s :: p => smooth_step x s /\ smooth_prog (step_R x s) p end.
Definition assigns_constant (s : instr) : Prop := match s with AssignConst _ _ => True | _ => False end.

(** the point moved along coordinate [j] *)
Definition shift (x : nat -> R) (j : nat) (s : R) : nat -> R := fun i => x i + (if (i =? j)%nat then s else 0).
(** every variable that receives a plain number has no derivatives at that moment *)
Fixpoint clean (k : nat) (y : nat -> dual R) (p : list instr) : Prop :=
  match p with
  | nil => True
  | s :: p => (forall r c, s = AssignConst r c -> der (y r) k = 0) /\ clean k (step_ad y s) p
  end.
