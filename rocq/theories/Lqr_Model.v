(** Model of the Lyapunov, Riccati and LQR solvers: src/control/lqr.hpp and the namespace oc of src/polymath.cpp
    (the same functions with other constants).

    Simplifications: the scalar is the real numbers. The numerical kernels of Eigen are the fields of [extern]; what a
    correct kernel has to deliver is stated in Lqr_Spec.v. Console output is left out. Empty matrices (m = 0, which
    reads T(-1,-1)) are outside the model. *)
Require Import Arith Bool List Reals.
From Verif Require Import Scal.
Import ListNotations.
Local Open Scope R_scope.

Definition mx := nat -> nat -> R.
(** Eigen's matrix operations; [mmul k] has inner dimension k *)
Definition madd (A B : mx) : mx := fun i j => A i j + B i j.
Definition msub (A B : mx) : mx := fun i j => A i j - B i j.
Definition mscal (c : R) (A : mx) : mx := fun i j => c * A i j.
Definition mopp (A : mx) : mx := fun i j => - A i j.
Definition mmul (k : nat) (A B : mx) : mx := fun i j => ssum k (fun l => A i l * B l j).
Definition mtr (A : mx) : mx := fun i j => A j i.
Definition meye : mx := fun i j => if (i =? j)%nat then 1 else 0.
Definition mzero : mx := fun _ _ => 0.
Definition mtrace (n : nat) (A : mx) : R := ssum n (fun i => A i i).
(** Frobenius norm, MatrixBase::norm *)
Definition mnorm (n : nat) (A : mx) : R := sqrt (ssum n (fun i => ssum n (fun j => A i j * A i j))).

(** the external kernels: RealSchur (matrixT, matrixU), partialPivLu().solve, JacobiSVD (matrixU, singularValues,
    matrixV), the least real part of the eigenvalues of EigenSolver, the real parts of the roots PolynomialSolver
    finds for the cubic p0 + p1 x + p2 x^2 + p3 x^3, and the statement X.noalias() = (U * X) * U.transpose() of
    lqr.hpp 51 / polymath.cpp 359, whose right-hand side contains the assigned matrix. *)
Record extern := {
  schur : nat -> mx -> mx * mx;
  lu_solve : nat -> mx -> (nat -> R) -> nat -> R;
  svd : nat -> mx -> mx * (nat -> R) * mx;
  min_re_eig : nat -> mx -> R;
  cubic_roots : R -> R -> R -> R -> list R;
  noalias_sandwich : nat -> mx -> mx -> mx
}.
(** that statement in Eigen 3.3/3.4: products with rows + cols + depth < 20 are evaluated through a temporary of the
    inner product, larger ones set the destination to zero first *)
Definition eigen_noalias (m : nat) (U X : mx) : mx :=
  if (3 * m <? 20)%nat then mmul m (mmul m U X) (mtr U) else mmul m (mmul m U mzero) (mtr U).

Section Lqr.
Variable ext : extern.

(** pinv: lqr.hpp 11-26, polymath.cpp 438-453; square matrices (with more columns than rows the loop of line 19
    reads past the singular values) *)
Definition pinv (n : nat) (A : mx) : mx :=
  let '(U, sv, V) := svd ext n A in
  let inv := fun i => if Rlt_dec (1 / 1000000) (sv i) then 1 / sv i else 0 in
  mmul n (fun i j => V i j * inv j) (mtr U).

(** lyapunov, the columns of X from the last to the first: lqr.hpp 43-49, polymath.cpp 350-357. [lyap_cols T Q1 m k]
    is X after the last k columns were set; the first one (lines 43 / 350) is the case of an empty block. *)
Fixpoint lyap_cols (T Q1 : mx) (m k : nat) : mx :=
  match k with
  | O => mzero
  | S k' =>
      let X := lyap_cols T Q1 m k' in
      let i := (m - 1 - k')%nat in
      let v := fun r => Q1 r i - ssum (m - (i + 1)) (fun l => X r (i + 1 + l)%nat * T i (i + 1 + l)%nat) in
      let x := lu_solve ext m (madd T (mscal (T i i) meye)) v in
      fun r c => if (c =? i)%nat then x r else X r c
  end.
(** lyapunov: lqr.hpp 29-53, polymath.cpp 337-361 *)
Definition lyapunov (m : nat) (A Q : mx) : mx :=
  let '(T, U) := schur ext m A in
  let Q1 := mmul m (mmul m (mtr U) Q) U in
  noalias_sandwich ext m U (lyap_cols T Q1 m m).

(** line_search_care: lqr.hpp 55-90, polymath.cpp 462-497. The quartic is divided by c. For c = 0 all its leading
    coefficient is NaN, so are its values, every comparison is false and 2 is returned. *)
Definition quartic (a b c x : R) : R := a + -2 * a * x + (a - 2 * b) * x ^ 2 + 2 * b * x ^ 3 + c * x ^ 4.
Definition line_search_care (a b c : R) : R :=
  if Req_EM_T c 0 then 2 else
  let d := 1 / (4 * c) in
  let roots := cubic_roots ext (d * (-2 * a)) (d * (2 * (a - 2 * b))) (d * (6 * b)) (d * (4 * c)) in
  let poly := fun x => 1 / c * quartic a b c x in
  let argmin := if Rlt_dec (poly (1 / 100000)) (poly 2) then 1 / 100000 else 2 in
  fst (fold_left (fun s root =>
         if Rle_dec (1 / 100000) root then if Rle_dec root 2 then if Rlt_dec (poly root) (snd s) then (root, poly root) else s else s else s)
       roots (argmin, poly argmin)).

(** newton_ls_care: lqr.hpp 93-142, polymath.cpp 364-407 *)
(** RX: lqr.hpp 114-115, polymath.cpp 382-383 *)
Definition riccati (n : nat) (A B C X : mx) : mx :=
  madd C (msub (madd (mmul n X A) (mmul n (mtr A) X)) (mmul n (mmul n X B) X)).
(** the Newton direction: lqr.hpp 117, polymath.cpp 385 *)
Definition newton_dir (n : nat) (A B C X : mx) : mx :=
  lyapunov n (mtr (msub A (mmul n B X))) (mopp (riccati n A B C X)).
(** the loop body: lqr.hpp 114-132, polymath.cpp 382-397 *)
Definition newton_step (n : nat) (A B C X : mx) : mx :=
  let RX := riccati n A B C X in
  let H := newton_dir n A B C X in
  let V := mmul n (mmul n H B) H in
  let tk := line_search_care (mtrace n (mmul n RX RX)) (mtrace n (mmul n RX V)) (mtrace n (mmul n V V)) in
  madd X (mscal tk H).
(** the loop; [fuel] is kmax - k and [err] the last residual norm, [None] the initial numeric_limits::max() *)
Fixpoint newton_loop (fuel n : nat) (A B C : mx) (err : option R) (X : mx) : option R * mx :=
  match fuel with
  | O => (err, X)
  | S f =>
      if match err with None => true | Some e => if Rlt_dec (1 / 100000) e then true else false end
      then newton_loop f n A B C (Some (mnorm n (riccati n A B C X))) (newton_step n A B C X)
      else (err, X)
  end.
Definition newton_ls_care (kmax n : nat) (A B C X0 : mx) : mx := snd (newton_loop kmax n A B C None X0).

(** init_newton_care: lqr.hpp 144-175 ([shift] is 100), polymath.cpp 409-435 ([shift] is [cpp_shift]) *)
Definition cpp_shift (n : nat) (TA : mx) : R := Rmax (- min_re_eig ext n TA) 0 + 1 / 2.
Definition init_gain (shift : nat -> mx -> R) (n : nat) (A B : mx) : mx :=
  let '(TA, U) := schur ext n A in
  let TD := mmul n (mtr U) B in
  let Z := lyapunov n (madd TA (mscal (shift n TA) meye)) (mmul n (mscal 2 TD) (mtr TD)) in
  mmul n (mmul n (mtr TD) (pinv n Z)) (mtr U).
Definition init_newton_care (shift : nat -> mx -> R) (n : nat) (A B : mx) : mx :=
  let X := init_gain shift n A B in
  if Rlt_dec (1 / 10 ^ 12) (mnorm n (msub X (mtr X)))
  then lyapunov n (mtr (msub A (mmul n B X))) (mopp (madd (mmul n (mmul n (mtr X) B) X) (mscal (1 / 2) meye)))
  else X.

(** care: lqr.hpp 177-186 returns the initial guess, polymath.cpp 455-460 iterates *)
Definition care_hpp (n : nat) (A B C : mx) : mx := init_newton_care (fun _ _ => 100) n A B.
Definition care_cpp (n : nat) (A B C : mx) : mx := newton_ls_care 20 n A B C (init_newton_care cpp_shift n A B).

(** lqr: the outcome. A failed check gives an empty gain in polymath.cpp 511-515; in lqr.hpp 207-212 it assigns an
    empty matrix to a Ref of another size, which is undefined. *)
Inductive lqr_result := Gain (S K : mx) | Empty | Undefined.
(** lqr: lqr.hpp 193-229, polymath.cpp 499-534. F is nx by nx, G and M are nx by nu. *)
Definition lqr_equation (nx nu : nat) (F G Q R M : mx) : mx * mx * mx :=
  let invR := pinv nu R in
  (msub F (mmul nu (mmul nu M invR) (mtr G)), mmul nu (mmul nu G invR) (mtr G), madd (mmul nu (mmul nu M invR) (mtr M)) Q).
Definition lqr (care : nat -> mx -> mx -> mx -> mx) (failed : lqr_result) (nx nu : nat) (F G Q R M : mx) (check : bool) : lqr_result :=
  if (check && if Rlt_dec (min_re_eig ext nx (msub Q (mmul nu (mmul nu M (pinv nu R)) (mtr M)))) 0 then true else false)%bool
  then failed
  else
    let '(A, B, C) := lqr_equation nx nu F G Q R M in
    let S := care nx A B C in
    Gain S (mmul nu (pinv nu R) (madd (mmul nx (mtr G) S) (mtr M))).
Definition lqr_hpp := lqr care_hpp Undefined.
Definition lqr_cpp := lqr care_cpp Empty.
End Lqr.
