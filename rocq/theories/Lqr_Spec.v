(** Specification vocabulary for the Lyapunov, Riccati and LQR solvers. *)
Require Import Arith List Reals.
From Verif Require Import Scal RSum Lqr_Model.
Local Open Scope R_scope.

(** equality of n by m matrices *)
Definition meq (n m : nat) (A B : mx) : Prop := forall i j, (i < n)%nat -> (j < m)%nat -> A i j = B i j.
Definition orthogonal (n : nat) (U : mx) : Prop := meq n n (mmul n U (mtr U)) meye /\ meq n n (mmul n (mtr U) U) meye.
Definition upper_triangular (n : nat) (T : mx) : Prop := forall i j, (j < i)%nat -> (i < n)%nat -> T i j = 0.
(** at most one diagonal below the main one *)
Definition quasi_triangular (n : nat) (T : mx) : Prop := forall i j, (S j < i)%nat -> (i < n)%nat -> T i j = 0.

(** what correct kernels deliver *)
Definition schur_form (n : nat) (A T U : mx) : Prop := orthogonal n U /\ meq n n A (mmul n (mmul n U T) (mtr U)).
Definition real_spectrum (n : nat) (A : mx) : Prop := exists T U, schur_form n A T U /\ upper_triangular n T.
Definition schur_ok (ext : extern) (n : nat) (A : mx) : Prop :=
  let T := fst (schur ext n A) in let U := snd (schur ext n A) in
  schur_form n A T U /\ quasi_triangular n T /\ (real_spectrum n A -> upper_triangular n T).
Definition injective (n : nat) (M : mx) : Prop := forall x, (forall i, (i < n)%nat -> rmv n M x i = 0) -> forall i, (i < n)%nat -> x i = 0.
Definition lu_ok (ext : extern) (n : nat) : Prop := forall M v, injective n M ->
  forall i, (i < n)%nat -> rmv n M (lu_solve ext n M v) i = v i.
Definition svd_ok (ext : extern) (n : nat) (A : mx) : Prop :=
  let U := fst (fst (svd ext n A)) in let s := snd (fst (svd ext n A)) in let V := snd (svd ext n A) in
  orthogonal n U /\ orthogonal n V /\ (forall i, (i < n)%nat -> 0 <= s i) /\ meq n n A (mmul n (fun i j => U i j * s j) (mtr V)).
(** the product formed before the assignment *)
Definition noalias_ok (ext : extern) (n : nat) : Prop := forall U X,
  meq n n (noalias_sandwich ext n U X) (mmul n (mmul n U X) (mtr U)).
(** every real root is listed *)
Definition roots_ok (ext : extern) (p0 p1 p2 p3 : R) : Prop := forall x,
  p0 + p1 * x + p2 * x ^ 2 + p3 * x ^ 3 = 0 -> In x (cubic_roots ext p0 p1 p2 p3).

(** X solves A X + X A' = Q *)
Definition lyapunov_solution (n : nat) (A Q X : mx) : Prop := meq n n (madd (mmul n A X) (mmul n X (mtr A))) Q.
(** the equation has at most one solution for every right-hand side *)
Definition lyapunov_regular (n : nat) (A : mx) : Prop := forall Y, lyapunov_solution n A mzero Y -> meq n n Y mzero.
(** S solves A'S + S A - S B S + C = 0 *)
Definition care_residual (n : nat) (A B C S : mx) : mx :=
  madd (msub (madd (mmul n (mtr A) S) (mmul n S A)) (mmul n (mmul n S B) S)) C.
Definition care_solution (n : nat) (A B C S : mx) : Prop := meq n n (care_residual n A B C S) mzero.
(** squared Frobenius norm *)
Definition fro2 (n : nat) (A : mx) : R := rsum n (fun i => rsum n (fun j => A i j * A i j)).
(** the four coefficients of the derivative of the step-length polynomial, as handed to the root finder *)
Definition line_search_roots_ok (ext : extern) (a b c : R) : Prop :=
  roots_ok ext (1 / (4 * c) * (-2 * a)) (1 / (4 * c) * (2 * (a - 2 * b))) (1 / (4 * c) * (6 * b)) (1 / (4 * c) * (4 * c)).
(** X after k Newton steps *)
Definition newton_iterate (ext : extern) (n : nat) (A B C X0 : mx) (k : nat) : mx :=
  Nat.iter k (newton_step ext n A B C) X0.
(** a vector as a matrix with one column, and v'Mw *)
Definition form (n m : nat) (M : mx) (v w : nat -> R) : R := rsum n (fun i => rsum m (fun j => v i * M i j * w j)).
(** the matrices with one entry *)
Definition one (a : R) : mx := fun _ _ => a.
(** all kernels are correct in dimension n *)
Definition kernels_ok (ext : extern) (n : nat) : Prop :=
  (forall A, schur_ok ext n A) /\ lu_ok ext n /\ (forall A, svd_ok ext n A) /\ noalias_ok ext n.
(** two-sided inverse *)
Definition inverse (n : nat) (A B : mx) : Prop := meq n n (mmul n A B) meye /\ meq n n (mmul n B A) meye.

(** x' = F x + G u on [t0, t1] *)
Definition trajectory (nx nu : nat) (F G : mx) (x u : R -> nat -> R) (t0 t1 : R) : Prop :=
  forall t i, t0 <= t <= t1 -> (i < nx)%nat -> derivable_pt_lim (fun t => x t i) t (rmv nx F (x t) i + rmv nu G (u t) i).
(** J' = l on [t0, t1]: J(t1) - J(t0) is the integral of l *)
Definition accumulates (J l : R -> R) (t0 t1 : R) : Prop := forall t, t0 <= t <= t1 -> derivable_pt_lim J t (l t).

(** the solver's equation is the one of the regulator problem with cost x'Qx + 2x'Mu + u'Ru; Ri is the inverse of R *)
Definition regulator_equation (nx nu : nat) (F G Q Ri M S : mx) : Prop :=
  care_solution nx (msub F (mmul nu (mmul nu G Ri) (mtr M))) (mmul nu (mmul nu G Ri) (mtr G))
    (msub Q (mmul nu (mmul nu M Ri) (mtr M))) S.
(** one state, one input, u = -k x with g k > f: the cost from x(0) = 1 (feedback_cost_accumulates in Lqr_Case_Proofs.v) *)
Definition feedback_cost (f g q r m k : R) : R := (q - 2 * m * k + r * k * k) / (2 * (g * k - f)).
