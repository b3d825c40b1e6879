(** Model of the mathematical helpers: src/polymath.cpp, src/polymath.h, and of the Runge-Kutta solver
    src/integration/integrator.cpp.

    Simplifications: CasADi and Eigen matrices are functions of the indices over the real numbers, symbolic
    expressions (SX) are their values, M_PI is the real number pi. Unsigned integers are 32 bits wide.
    The functions mat_func, mat_dynamics, heaviside and range are in Hlp_Model.v; LinearSystem::is_controllable is in Ctr_Model.v. *)
Require Import Arith ZArith Bool List Reals.
From Verif Require Import Scal Legendre_Model Spline_Model.
Import ListNotations.
Local Open Scope R_scope.

(** * Quaternions: polymath.cpp 20-48 *)
Record quat := Q4 { qs : R; qx : R; qy : R; qz : R }.
Record vec3 := V3 { vx : R; vy : R; vz : R }.
(** T1quat, T2quat, T3quat: 20-22 *)
Definition T1quat (a : R) : quat := Q4 (cos (- a / 2)) (sin (- a / 2)) 0 0.
Definition T2quat (a : R) : quat := Q4 (cos (- a / 2)) 0 (sin (- a / 2)) 0.
Definition T3quat (a : R) : quat := Q4 (cos (- a / 2)) 0 0 (sin (- a / 2)).
(** SX::dot and SX::cross of the vector parts *)
Definition dot3 (u v : vec3) : R := vx u * vx v + vy u * vy v + vz u * vz v.
Definition cross3 (u v : vec3) : vec3 :=
  V3 (vy u * vz v - vz u * vy v) (vz u * vx v - vx u * vz v) (vx u * vy v - vy u * vx v).
Definition vpart (q : quat) : vec3 := V3 (qx q) (qy q) (qz q).
(** quat_multiply: 24-36 *)
Definition quat_multiply (q1 q2 : quat) : quat :=
  let s1 := qs q1 in let v1 := vpart q1 in let s2 := qs q2 in let v2 := vpart q2 in
  let c := cross3 v1 v2 in
  Q4 (s1 * s2 - dot3 v1 v2)
     (vx c + s1 * vx v2 + s2 * vx v1) (vy c + s1 * vy v2 + s2 * vy v1) (vz c + s1 * vz v2 + s2 * vz v1).
(** quat_inverse: 38-42 *)
Definition quat_inverse (q : quat) : quat := Q4 (qs q) (- qx q) (- qy q) (- qz q).
(** quat_transform: 44-48 *)
Definition quat_transform (q : quat) (a : vec3) : vec3 :=
  vpart (quat_multiply q (quat_multiply (Q4 0 (vx a) (vy a) (vz a)) (quat_inverse q))).

(** * Runge-Kutta *)
(** rk4_symbolic: polymath.cpp 57-72, and ODESolver::rk4_solve: integrator.cpp 68-80. The same formula; the
    controls and parameters are part of [f]. *)
Definition rk4 (f : (nat -> R) -> nat -> R) (x : nat -> R) (h : R) : nat -> R :=
  let k1 := f x in
  let k2 := f (fun i => x i + 1 / 2 * h * k1 i) in
  let k3 := f (fun i => x i + 1 / 2 * h * k2 i) in
  let k4 := f (fun i => x i + h * k3 i) in
  fun i => x i + h / 6 * (k1 i + 2 * k2 i + 2 * k3 i + k4 i).
(** the parameters of ODESolver that [solve] reads, and updateParams: integrator.cpp 82-91 (the other two,
    max_iter and tol, are stored but not used, see Opts_Model.v) *)
Inductive method := RK4 | CVODES | OtherMethod.
Record ode_params := { p_method : method; p_tf : R }.
Inductive param := PMethod (m : method) | PTf (tf : R) | PUnknown.
Definition update_param (p : ode_params) (u : param) : ode_params :=
  match u with
  | PMethod m => {| p_method := m; p_tf := p_tf p |}
  | PTf t => {| p_method := p_method p; p_tf := t |}
  | PUnknown => p
  end.
(** ODESolver::solve: integrator.cpp 113-136. [cvodes] stands for the CVODES integrator; [None] is the empty
    result of an unknown method. *)
Definition ode_solve (cvodes : (nat -> R) -> R -> nat -> R) (p : ode_params)
    (rhs : (nat -> R) -> (nat -> R) -> (nat -> R) -> nat -> R) (x0 u pr : nat -> R) (dt : R) : option (nat -> R) :=
  match p_method p with
  | RK4 => Some (rk4 (fun x => rhs x u pr) x0 dt)
  | CVODES => Some (cvodes x0 dt)
  | OtherMethod => None
  end.
(** the overload without parameters passes zeros: integrator.cpp 132-136 *)
Definition ode_solve_np cvodes p rhs x0 u dt := ode_solve cvodes p rhs x0 u (fun _ => 0) dt.

(** * Chebyshev points and differentiation matrix of an interval: polymath.cpp 74-96. N = 0 is outside the model. *)
(** X = cos(grid * (M_PI / N)): 78-82 *)
Definition pm_X (N i : nat) : R := cos (INR i * (PI / INR N)).
(** CollocPoints: 85 *)
Definition pm_points (N : nat) (a b : R) (i : nat) : R := (pm_X N i + a + 1) * ((b - a) / 2).
(** c: 88-89 *)
Definition pm_c (N i : nat) : R := (-1) ^ i * (if (i =? 0)%nat then 2 else if (i =? N)%nat then 2 else 1).
(** Dn: 91-93 *)
Definition pm_Dn (N : nat) (a b : R) (i j : nat) : R :=
  (pm_c N i * (1 / pm_c N j)) / ((pm_points N a b i - pm_points N a b j) + (if (i =? j)%nat then 1 else 0)).
(** DiffMatrix: 95 *)
Definition pm_D (N : nat) (a b : R) (i j : nat) : R :=
  pm_Dn N a b i j - (if (i =? j)%nat then ssum (S N) (fun k => pm_Dn N a b i k) else 0).

(** * Lagrange interpolation *)
(** lagrange_poly: polymath.cpp 128-145, entry k of the function's result *)
Definition lagrange_phi (n_degree : nat) (t : R) (nodes : nat -> R) (k : nat) : R :=
  fold_left (fun acc j => if (j =? k)%nat then acc else acc * ((t - nodes j) / (nodes k - nodes j))) (seq 0 (S n_degree)) 1.
(** lagrange_poly_basis: polymath.cpp 212-232 and polymath.h 176-196, the same construction as the one of splines.hpp *)
Definition pm_basis (n : nat) (nodes : nat -> R) : option (nat -> nat -> R) := lagrange_basis n nodes.
(** values.transpose() * basis *)
Definition pm_coeffs (n : nat) (basis : nat -> nat -> R) (values : nat -> R) : nat -> R :=
  tab n (fun k => ssum n (fun i => values i * basis i k)).
(** lagrange_interpolant: polymath.cpp 188-210 *)
Definition pm_interpolant (n : nat) (X Y : nat -> R) : option (nat -> R) :=
  match pm_basis n X with Some P => Some (pm_coeffs n P Y) | None => None end.
(** LagrangeInterpolator: polymath.h 154-173. [li_n] is the number of rows of the basis, [li_m] the length of
    the stored interpolant. *)
Record interp := { li_n : nat; li_basis : nat -> nat -> R; li_m : nat; li_coef : nat -> R }.
Inductive icall :=
| IInit (n : nat) (nodes values : nat -> R)           (* constructors and init: polymath.cpp 235-253, 260-278 *)
| IUpdate (n : nat) (nodes : nat -> R)                (* update_basis: 255-258 *)
| IEval (arg : R)                                     (* eval(arg): 280-283 *)
| IEvalV (arg : R) (m : nat) (values : nat -> R).     (* eval(arg, values): 285-290; the assertion of line 287
                                                         compares with the old interpolant *)
(** one call: the new object and the returned number. [None] is a failed assertion, a product of matrices whose
    sizes do not match, or the out-of-range access for fewer than two nodes. *)
Definition iexec (s : interp) (c : icall) : option (interp * option R) :=
  match c with
  | IInit n nodes values =>
      match pm_basis n nodes with
      | Some P => Some ({| li_n := n; li_basis := P; li_m := n; li_coef := pm_coeffs n P values |}, None)
      | None => None
      end
  | IUpdate n nodes =>
      match pm_basis n nodes with
      | Some P => Some ({| li_n := n; li_basis := P; li_m := li_m s; li_coef := li_coef s |}, None)
      | None => None
      end
  | IEval arg => Some (s, Some (poly_eval (li_m s) (li_coef s) arg))
  | IEvalV arg m values =>
      if ((m =? li_m s) && (m =? li_n s))%nat%bool then
        let cf := pm_coeffs (li_n s) (li_basis s) values in
        Some ({| li_n := li_n s; li_basis := li_basis s; li_m := li_n s; li_coef := cf |}, Some (poly_eval (li_n s) cf arg))
      else None
  end.
(** a fresh object: polymath.h 159 *)
Definition interp_empty : interp := {| li_n := 0; li_basis := fun _ _ => 0; li_m := 0; li_coef := fun _ => 0 |}.

(** * Chebyshev series: polymath.h *)
(** the basis values pushed by the loop, 78-88 *)
Fixpoint cheb_T (x : R) (k : nat) : R :=
  match k with
  | O => 1
  | S k' => match k' with O => x | S k'' => 2 * x * cheb_T x k' - cheb_T x k'' end
  end.
(** chebyshev_expansion: 71-96; the infinity returned for an empty series is [None] *)
Definition cheb_expansion (u : list R) (x : R) : option R :=
  match u with [] => None | _ => Some (fold_left (fun acc p => acc + cheb_T x (fst p) * snd p) (combine (seq 0 (length u)) u) 0) end.
(** chebyshev_expansion2: 98-114 *)
Definition cheb_expansion2 (u : list R) (x : R) : option R :=
  match u with [] => None | _ => Some (fold_left (fun acc p => acc + cos (INR (fst p) * acos x) * snd p) (combine (seq 0 (length u)) u) 0) end.
(** spheric2cart: 116-125 *)
Definition spheric2cart (az el r : R) : vec3 := V3 (r * cos el * cos az) (r * cos el * sin az) (r * sin el).

(** * factorial: polymath.cpp 325-332. The counter is an int, so arguments of 2^31 - 1 and more overflow it: [None]. *)
Definition factorial (n : Z) : option Z :=
  if (n <? 2 ^ 31 - 1)%Z
  then Some (fold_left (fun f i => (f * Z.of_nat i) mod 2 ^ 32)%Z (seq 1 (Z.to_nat n)) 1%Z)
  else None.

(** * flip: polymath.cpp 175-185. The slice (-1, 0, -1) lists the indices rows-1, ..., 1; row 0 of an empty
    matrix is an error. *)
Definition slice_rev {A} (m : list A) : list A := rev (tl m).
Definition flip1 {A} (m : list (list A)) : option (list (list A)) :=
  match m with [] => None | r :: _ => Some (slice_rev m ++ [r]) end.
Fixpoint all_some {A} (l : list (option A)) : option (list A) :=
  match l with
  | [] => Some []
  | Some a :: l => match all_some l with Some m => Some (a :: m) | None => None end
  | None :: _ => None
  end.
Definition flip2 {A} (m : list (list A)) : option (list (list A)) :=
  all_some (map (fun row => match row with [] => None | a :: _ => Some (slice_rev row ++ [a]) end) m).
Definition flip {A} (dim : nat) (m : list (list A)) : option (list (list A)) :=
  match dim with 1%nat => flip1 m | 2%nat => flip2 m | _ => Some m end.
