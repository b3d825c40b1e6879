(** Quasi-Newton updates of the Hessian approximation: src/solvers/bfgs.hpp, src/solvers/sr1.hpp. *)
Require Import ZArith List.
Require Import Verif.Scal.
Import ListNotations.

Section Hess.
Context {T : Type} {ST : Scalar T}.
Local Open Scope S_scope.
Variable n : nat.

(** std::numeric_limits<double>::epsilon() = 2^-52 (bfgs.hpp:46) *)
Definition dbl_eps : T := scst 1 (2 ^ 52).

(** bfgs.hpp:30-44, BFGS_update: the vector [r] and the number [sr].
    [Bs] = B s, [sBs] = s.Bs, [sy] = s.y *)
Definition bfgs_r (y Bs : vec T) (sBs sy : T) : vec T * T :=
  if sy <? scst 2 10 * sBs then
    let theta := scst 8 10 * sBs / (sBs - sy) in
    (tab n (fun i => theta * y i + (1 - theta) * Bs i), theta * sy + (1 - theta) * sBs)
  else (y, sy).

(** bfgs.hpp:23-52, BFGS_update.  The two rank-one updates are applied one after the other, as in the
    source (:50, :51).  Eigen may associate the scalar factor of an outer product differently; the
    model divides every coefficient. *)
Definition bfgs_update (B : mat T) (s y : vec T) : mat T :=
  let Bs := tab n (mv n B s) in
  let sBs := dot n s Bs in
  let sy := dot n s y in
  let '(r, sr) := bfgs_r y Bs sBs sy in
  if sr <? dbl_eps then B
  else
    let B1 := tab2 n n (fun i j => B i j + (- Bs i * Bs j) / sBs) in
    tab2 n n (fun i j => B1 i j + (r i * r j) / sr).

(** Euclidean norm, Eigen lpNorm<2> *)
Definition norm2 (f : vec T) : T := ssqrt (dot n f f).

(** sr1.hpp:22-36, SR1_update *)
Definition sr1_update (B : mat T) (s y : vec T) : mat T :=
  let Bs := tab n (mv n B s) in
  let v := tab n (fun i => y i - Bs i) in
  let scaling := dot n v s in
  let eps := scst 1 1000000 in
  if (eps * norm2 s * norm2 v) <=? sabs scaling
  then tab2 n n (fun i j => B i j + (v i * v j) / scaling)
  else B.

(** repeated updates with a list of (step, gradient difference) pairs *)
Definition bfgs_run (B : mat T) (ps : list (vec T * vec T)) : mat T :=
  fold_left (fun B p => bfgs_update B (fst p) (snd p)) ps B.
Definition sr1_run (B : mat T) (ps : list (vec T * vec T)) : mat T :=
  fold_left (fun B p => sr1_update B (fst p) (snd p)) ps B.

End Hess.
