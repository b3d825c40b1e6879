(** Model of src/autodiff/AutoDiffScalar.h: forward-mode automatic differentiation.

    Simplifications:
    - the number of derivatives is fixed at compile time (as in every use inside the library), so
      make_coherent (:458-500) does nothing, and all derivative vectors have the same length;
    - expression templates are evaluated immediately; an expression that is assigned to one of its own
      operands is harmless because the library's expressions hold scalars by value and combine derivatives
      with equal indices only;
    - the scalar functions of <cmath> are the real functions; pow(x, y) is the integer power for
      integer y and exp(y log x) otherwise;
    - the overloads for complex scalars and the stream operator are left out, and of the six min/max
      overloads those taking two active scalars (:582-589) are present;
    - pow and atan2 of nested active scalars do not compile in the library (no overload of pow takes
      two active scalars; atan2 returns a vector of dynamic size); the instance below nevertheless
      gives them a meaning, which is not used. *)
Require Import Arith ZArith Bool Reals.
Local Open Scope R_scope.

(** the operations a scalar type offers to numerical code *)
Class Fn (T : Type) := mkFn {
  re : T -> R;                       (* the innermost value, used by comparisons: :162-181 *)
  cst : R -> T;                      (* conversion from a literal *)
  add : T -> T -> T; sub : T -> T -> T; mul : T -> T -> T; div : T -> T -> T; opp : T -> T;
  addr : T -> R -> T; radd : R -> T -> T; subr : T -> R -> T; rsub : R -> T -> T;
  mulr : T -> R -> T; rmul : R -> T -> T; divr : T -> R -> T; rdiv : R -> T -> T;
  fabs : T -> T; fabs2 : T -> T; fsqrt : T -> T; fcos : T -> T; fsin : T -> T; fexp : T -> T; flog : T -> T;
  ffloor : T -> T; fpow : T -> R -> T; fatan2 : T -> T -> T; ftan : T -> T; fasin : T -> T; facos : T -> T;
  ftanh : T -> T; fsinh : T -> T; fcosh : T -> T;
  fmin : T -> T -> T; fmax : T -> T -> T }.

(** <cmath> on real numbers *)
Definition std_pow (x y : R) : R :=
  if Req_EM_T (IZR (Int_part y)) y then powerRZ x (Int_part y) else Rpower x y.
Definition std_atan2 (y x : R) : R :=
  if Rlt_dec 0 x then atan (y / x)
  else if Rlt_dec 0 y then PI / 2 - atan (x / y)
  else if Rlt_dec y 0 then - (PI / 2) - atan (x / y)
  else if Rlt_dec x 0 then PI else 0.
Definition std_tanh (x : R) : R := sinh x / cosh x.
#[global] Instance Fn_R : Fn R := {|
  re := fun x => x; cst := fun x => x;
  add := Rplus; sub := Rminus; mul := Rmult; div := Rdiv; opp := Ropp;
  addr := Rplus; radd := Rplus; subr := Rminus; rsub := Rminus; mulr := Rmult; rmul := Rmult; divr := Rdiv; rdiv := Rdiv;
  fabs := Rabs; fabs2 := fun x => x * x; fsqrt := sqrt; fcos := cos; fsin := sin; fexp := exp; flog := ln;
  ffloor := fun x => IZR (Int_part x); fpow := std_pow; fatan2 := std_atan2; ftan := fun x => sin x / cos x;
  fasin := asin; facos := acos; ftanh := std_tanh; fsinh := sinh; fcosh := cosh;
  fmin := fun x y => if Rlt_dec x y then x else y; fmax := fun x y => if Rle_dec y x then x else y |}.

(** AutoDiffScalar: m_value, m_derivatives (:380-381) *)
Record dual (T : Type) := Dual { val : T; der : nat -> T }.
Arguments Dual {T}. Arguments val {T}. Arguments der {T}.

Section Ops.
Context {T : Type} {F : Fn T}.
(** the constructor from a constant, :99-104 *)
Definition d_cst (c : R) : dual T := Dual (cst c) (fun _ => cst 0).
(** :91-95 an active variable: value and unit derivative number [i] *)
Definition d_var (v : T) (i : nat) : dual T := Dual v (fun k => if (k =? i)%nat then cst 1 else cst 0).
(** EIGEN_AUTODIFF_DECLARE_GLOBAL_UNARY, :545-554 *)
Definition d_un (x : dual T) (v d : T) : dual T := Dual v (fun k => mul (der x k) d).

#[global] Instance Fn_dual : Fn (dual T) := {|
  re := fun x => re (val x); cst := d_cst;
  (* :211-217, :247-253, :345-351, :332-339, :264-269 *)
  add := fun x y => Dual (add (val x) (val y)) (fun k => add (der x k) (der y k));
  sub := fun x y => Dual (sub (val x) (val y)) (fun k => sub (der x k) (der y k));
  mul := fun x y => Dual (mul (val x) (val y)) (fun k => add (mul (der x k) (val y)) (mul (der y k) (val x)));
  div := fun x y => Dual (div (val x) (val y))
           (fun k => mul (sub (mul (der x k) (val y)) (mul (der y k) (val x))) (div (cst 1) (mul (val y) (val y))));
  opp := fun x => Dual (opp (val x)) (fun k => opp (der x k));
  (* :183-191, :227-237, :271-281, :299-309 *)
  addr := fun x c => Dual (add (val x) (cst c)) (der x);
  radd := fun c x => Dual (add (cst c) (val x)) (der x);
  subr := fun x c => Dual (sub (val x) (cst c)) (der x);
  rsub := fun c x => Dual (sub (cst c) (val x)) (fun k => opp (der x k));
  mulr := fun x c => Dual (mul (val x) (cst c)) (fun k => mul (der x k) (cst c));
  rmul := fun c x => Dual (mul (val x) (cst c)) (fun k => mul (der x k) (cst c));
  divr := fun x c => Dual (div (val x) (cst c)) (fun k => mul (der x k) (div (cst 1) (cst c)));
  rdiv := fun c x => Dual (div (cst c) (val x)) (fun k => mul (der x k) (div (cst (- c)) (mul (val x) (val x))));
  (* :592-626 *)
  fabs := fun x => d_un x (fabs (val x)) (if Rlt_dec (re (val x)) 0 then cst (-1) else cst 1);
  fabs2 := fun x => d_un x (fabs2 (val x)) (mul (cst 2) (val x));
  fsqrt := fun x => d_un x (fsqrt (val x)) (div (cst (1 / 2)) (fsqrt (val x)));
  fcos := fun x => d_un x (fcos (val x)) (opp (fsin (val x)));
  fsin := fun x => d_un x (fsin (val x)) (fcos (val x));
  fexp := fun x => d_un x (fexp (val x)) (fexp (val x));
  flog := fun x => d_un x (flog (val x)) (div (cst 1) (val x));
  ffloor := fun x => d_un x (ffloor (val x)) (cst 1);
  (* :628-636, :638-654 *)
  fpow := fun x y => d_un x (fpow (val x) y) (mul (cst y) (fpow (val x) (y - 1)));
  fatan2 := fun x y => Dual (fatan2 (val x) (val y))
              (fun k => div (sub (mul (der x k) (val y)) (mul (val x) (der y k)))
                            (add (mul (val x) (val x)) (mul (val y) (val y))));
  (* :656-684 *)
  ftan := fun x => d_un x (ftan (val x)) (div (cst 1) (fabs2 (fcos (val x))));
  fasin := fun x => d_un x (fasin (val x)) (div (cst 1) (fsqrt (rsub 1 (fabs2 (val x)))));
  facos := fun x => d_un x (facos (val x)) (div (cst (-1)) (fsqrt (rsub 1 (fabs2 (val x)))));
  ftanh := fun x => d_un x (ftanh (val x)) (div (cst 1) (fabs2 (fcosh (val x))));
  fsinh := fun x => d_un x (fsinh (val x)) (fcosh (val x));
  fcosh := fun x => d_un x (fcosh (val x)) (fsinh (val x));
  (* :582-589 *)
  fmin := fun x y => if Rlt_dec (re (val x)) (re (val y)) then x else y;
  fmax := fun x y => if Rle_dec (re (val y)) (re (val x)) then x else y |}.

(** operator=(const Scalar&), :146-150 *)
Definition assign_scalar (x : dual T) (c : T) : dual T := Dual c (der x).
(** operator+=(const Scalar&) and operator-=, :203-207, :239-243 *)
Definition add_scalar (x : dual T) (c : T) : dual T := Dual (add (val x) c) (der x).
Definition sub_scalar (x : dual T) (c : T) : dual T := Dual (sub (val x) c) (der x).
End Ops.
