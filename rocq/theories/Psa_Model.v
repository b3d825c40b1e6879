(** Model of src/experimental/psarc.hpp: the pseudo-arclength continuation in the constructor of [symbolic_psarc].
    Values are real numbers (std::sqrtf in the code rounds to float).  IPOPT and the sparse LU solver are arbitrary
    functions.  The symbolic derivatives of CasADi are written out; [J] is the Jacobian of the user's equations.
    Console output and log files are left out. *)
Require Import Arith List Bool Reals.
From Verif Require Import Scal Pso_Model.
Import ListNotations.
Local Open Scope R_scope.

(** psarc_math::solve(A, b, EIGEN_SPARSE): psarc.hpp:66-93; [None]: the factorisation or the solution failed *)
Definition lin_solver : Type := nat -> mat R -> vec R -> option (vec R).
Definition nlp_solver : Type := nlp -> narg -> vec R -> vec R -> option (vec R * vec R * vec R).

(** the equations: number of unknowns, values, Jacobian; init_guess *)
Record eqs := mkEqs { e_n : nat; e_F : list R -> vec R; e_J : list R -> mat R; e_x0 : vec R }.

Section Psa.
Variable ipopt : nlp_solver.
Variable lin : lin_solver.
Variable s : eqs.
Let n := e_n s.

Definition unknowns (z : vec R) : list R := map z (seq 0 n).
(** homotopy, lambda is the last entry: :173 *)
Definition homotopy (z : vec R) : vec R := fun i => z n * (z i - e_x0 s i) + (1 - z n) * e_F s (unknowns z) i.
(** its derivatives: :176-177 *)
Definition jac_x (z : vec R) : mat R := fun i j => z n * (if (i =? j)%nat then 1 else 0) + (1 - z n) * e_J s (unknowns z) i j.
Definition jac_lam (z : vec R) : vec R := fun i => (z i - e_x0 s i) - e_F s (unknowns z) i.

Definition sqdist (u v : vec R) : R := ssum (n + 1) (fun i => (u i - v i) * (u i - v i)).
(** the corrector: :193-196 *)
Definition corrector : nlp := mkNlp (n + 1) n (n + 1) (fun x w => 1 / 2 * sqdist x w) (fun x _ => homotopy x).

(** lower bounds: :206-214; 501 blocks of 13 *)
Definition rows : nat := (501 * 13)%nat.
Definition low_bound (i : nat) : option R := if (i <? rows)%nat && (i mod 13 =? 0)%nat then Some 1 else None.
(** ARG with the bounds [lb], [ub] for lambda and the parameter [w]: :216-228, 308-312 *)
Definition arg (lb ub : option R) (x0 w : vec R) : narg :=
  mkArg x0 (fun i => if (i =? n)%nat then lb else low_bound i) (fun i => if (i =? n)%nat then ub else None) (map w (seq 0 (n + 1))).

(** the loop variables: corrected point x0_num with the multipliers of the corrector, direction t (none before the first
    iteration), bounds of lambda in ARG, lambda_val *)
Record pst := mkPst { s_z : vec R; s_lx : vec R; s_lg : vec R; s_t : option (vec R); s_lb : option R; s_ub : option R; s_lam : R }.

(** up to the loop: :206-252.  [None]: an exception; :210 needs a nonnegative size. *)
Definition start : option pst :=
  if (n + 1 <? rows)%nat then None
  else
    let z1 := fun i => if (i =? n)%nat then 1 else e_x0 s i in
    match ipopt corrector (arg (Some 1) (Some 1) z1 z1) (fun _ => 0) (fun _ => 0) with
    | None => None
    | Some (x, lx, lg) => Some (mkPst x lx lg None None None 1)
    end.

Definition dotn (k : nat) (u v : vec R) : R := ssum k (fun i => u i * v i).
(** rescaling: :266-272 *)
Definition rescale (r : vec R) : vec R :=
  if Rlt_dec 20 (norminf n r) then fun i => 20 / norminf n r * r i else r.
(** l_dot * r and l_dot: :274, 287-288 *)
Definition tau (r : vec R) : vec R :=
  let l := 1 / sqrt (1 + dotn n r r) in fun i => if (i =? n)%nat then l else l * r i.
(** the direction: :276-303 *)
Definition direction (t : option (vec R)) (r : vec R) : vec R :=
  match t with
  | None => fun i => - tau r i
  | Some t => if Rle_dec 0 (dotn (n + 1) t (tau r)) then tau r else fun i => - tau r i
  end.
(** the tangent system: :262-264; the result is rescaled *)
Definition slope (z : vec R) : option (vec R) :=
  match lin n (jac_x z) (fun i => - jac_lam z i) with Some r => Some (rescale r) | None => None end.

(** one iteration: :258-346.  [true]: left by break. *)
Definition iteration (p : pst) : option (pst * bool) :=
  match slope (s_z p) with
  | None => None
  | Some r =>
      let t := direction (s_t p) r in
      let w := fun i => s_z p i + 1 * t i in
      let brk := if Rlt_dec 1000000 (dotn n r r) then true else false in
      match ipopt corrector (arg (s_lb p) (s_ub p) (s_z p) w) (s_lx p) (s_lg p) with
      | None => None
      | Some (x, lx, lg) =>
          if Rlt_dec (x n) 0 then
            match ipopt corrector (arg (Some 0) (Some 0) (s_z p) w) (s_lx p) (s_lg p) with
            | None => None
            | Some (x, lx, lg) => Some (mkPst x lx lg (Some t) (Some 0) (Some 0) (x n), brk)
            end
          else Some (mkPst x lx lg (Some t) (s_lb p) (s_ub p) (x n), brk)
      end
  end.

(** [Ended]: the loop condition is false; [Left]: break; [Going]: still in the loop after [fuel] iterations *)
Inductive outcome := Failed | Ended (p : pst) | Left (p : pst) | Going (p : pst).
Fixpoint loop (fuel : nat) (p : pst) : outcome :=
  if Rlt_dec 0 (s_lam p) then
    match fuel with
    | O => Going p
    | S f => match iteration p with
             | None => Failed
             | Some (p', true) => Left p'
             | Some (p', false) => loop f p'
             end
    end
  else Ended p.
(** the constructor: :163-369, at most [fuel] iterations *)
Definition psarc (fuel : nat) : outcome := match start with None => Failed | Some p => loop fuel p end.

End Psa.
