(** Model of src/solvers/nlproblem.hpp: ProblemBase, the default (dense) implementation of the
    functions a nonlinear programming solver calls, and its internal automatic differentiation.

    The user's class gives a cost, equality and inequality functions as templates over the scalar
    type; they are expressions (Ad_Spec.v) in the variables, which may depend on the static
    parameters p.  The scalar is R.

    Simplifications:
    - a user function assigns its output (a function that reads its output first would see the
      leftovers of the previous call);
    - lagrangian_gradient_impl with five arguments (:553-571) calls the misspelt
      equalities_linerised and cannot be instantiated, so it is left out;
    - with MatrixFormat = SPARSE the active scalars are void* and the derived class must bring its
      own functions (continuous_ocp.hpp does), so only DENSE is modelled. *)
Require Import Arith Bool List Reals.
From Verif Require Import RSum Ad_Model Ad_Spec.
Local Open Scope R_scope.

(** nlp_traits (:28-34) and the user's functions *)
Record problem := Problem {
  NX : nat; NE : nat; NI : nat;
  cost : (nat -> R) -> expr;
  ceq : (nat -> R) -> nat -> expr;
  cin : (nat -> R) -> nat -> expr }.

(** the members that live across calls: m_ad_var and m_ad2_var (:102, :106) *)
Record state := State { ad_var : nat -> dual R; ad2_var : nat -> dual (dual R) }.
(** the constructor and seed_derivatives (:52-55, :115-133); the values are still unset, here [junk] *)
Definition seed (junk : nat -> R) : state :=
  State (fun i => d_var (junk i) i) (fun i => Dual (d_var (junk i) i) (fun k => if (k =? i)%nat then d_cst 1 else d_cst 0)).

Section P.
Variable P : problem.
Variable p : nat -> R.

(** m_ad_var = var: every element through AutoDiffScalar::operator=(const Scalar&) *)
Definition set_ad (s : state) (x : nat -> R) : state :=
  State (fun i => assign_scalar (ad_var s i) (x i)) (ad2_var s).
(** m_ad2_var(i).value().value() = var(i) (:530-531, :637-638) *)
Definition set_ad2 (s : state) (x : nat -> R) : state :=
  State (ad_var s) (fun i => Dual (Dual (x i) (der (val (ad2_var s i)))) (der (ad2_var s i))).

(** :257-281, :682-705 evaluation *)
Definition equalities (x : nat -> R) : nat -> R := fun i => ev x (ceq P p i).
Definition inequalities (x : nat -> R) : nat -> R := fun i => ev x (cin P p i).
Definition constraints (x : nat -> R) : nat -> R :=
  fun i => if (i <? NE P)%nat then ev x (ceq P p i) else ev x (cin P p (i - NE P)%nat).

(** :497-509 cost_gradient_impl *)
Definition cost_gradient (s : state) (x : nat -> R) : state * R * (nat -> R) :=
  let s := set_ad s x in
  let c := ev (ad_var s) (cost P p) in
  (s, 0 + val c, fun k => 0 + der c k).
(** :512-537 cost_gradient_hessian_impl *)
Definition cost_gradient_hessian (s : state) (x : nat -> R) : state * R * (nat -> R) * (nat -> nat -> R) :=
  let s := set_ad2 s x in
  let c := ev (ad2_var s) (cost P p) in
  (s, val (val c), fun k => der (val c) k, fun k i => der (der c i) k).

(** :303-333 equalities_linearised_impl, :345-377 inequalities_linearised_impl *)
Definition equalities_linearised (s : state) (x : nat -> R) : state * (nat -> R) * (nat -> nat -> R) :=
  let s := set_ad s x in
  (s, fun i => val (ev (ad_var s) (ceq P p i)), fun i k => der (ev (ad_var s) (ceq P p i)) k).
Definition inequalities_linearised (s : state) (x : nat -> R) : state * (nat -> R) * (nat -> nat -> R) :=
  let s := set_ad s x in
  (s, fun i => val (ev (ad_var s) (cin P p i)), fun i k => der (ev (ad_var s) (cin P p i)) k).

(** writing the first NE and the last NI rows (:388-397): [g] and [J] hold what was there before *)
Definition put_top {A} (new old : nat -> A) : nat -> A := fun i => if (i <? NE P)%nat then new i else old i.
Definition put_bottom {A} (new old : nat -> A) : nat -> A :=
  fun i => if (NE P <=? i)%nat && (i <? NE P + NI P)%nat then new (i - NE P)%nat else old i.
(** :379-398 constraints_linearised_impl *)
Definition constraints_linearised (s : state) (x : nat -> R) (g : nat -> R) (J : nat -> nat -> R) :
    state * (nat -> R) * (nat -> nat -> R) :=
  let '(s, g, J) := if (0 <? NE P)%nat then
      let '(s, c, Je) := equalities_linearised s x in (s, put_top c g, put_top Je J) else (s, g, J) in
  if (0 <? NI P)%nat then
    let '(s, c, Ji) := inequalities_linearised s x in (s, put_bottom c g, put_bottom Ji J) else (s, g, J).

(** :538-550 lagrangian_impl *)
Definition lagrangian (x lam : nat -> R) : R :=
  ev x (cost P p) +
  (rsum (NE P) (fun i => equalities x i * lam i) +
   rsum (NI P) (fun i => inequalities x i * lam (NE P + i)%nat) +
   rsum (NX P) (fun i => x i * lam (NE P + NI P + i)%nat)).

(** :597-599, :631-633 jac_g' * lam.head + cost_gradient + lam.tail *)
Definition lag_grad (J : nat -> nat -> R) (cg lam : nat -> R) : nat -> R :=
  fun k => rsum (NE P + NI P) (fun i => J i k * lam i) + cg k + lam (NE P + NI P + k)%nat.

Record lag_out := LagOut {
  o_state : state; o_lagrangian : R; o_lag_gradient : nat -> R; o_hessian : nat -> nat -> R;
  o_cost_gradient : nat -> R; o_g : nat -> R; o_jac : nat -> nat -> R }.

(** :573-600 lagrangian_gradient_impl with eight arguments; [H] is not an argument of it *)
Definition lagrangian_gradient (s : state) (x lam g : nat -> R) (J H : nat -> nat -> R) : lag_out :=
  let '(s, c, cg) := cost_gradient s x in
  let '(s, g, J) := constraints_linearised s x g J in
  LagOut s c (lag_grad J cg lam) H cg g J.

(** :646-660, :665-676 one loop over constraints: hes is filled by columns, transposed in place, added *)
Fixpoint add_hessians (n : nat) (e : nat -> dual (dual R)) (w : nat -> R) (H : nat -> nat -> R) : nat -> nat -> R :=
  match n with
  | O => H
  | S m => let H := add_hessians m e w H in
           let hes := fun k i => der (der (e m) i) k in
           fun k i => H k i + w m * hes i k
  end.
(** :603-677 lagrangian_gradient_hessian_impl *)
Definition lagrangian_gradient_hessian (s : state) (x lam g : nat -> R) (J : nat -> nat -> R) (cost_scale : R) : lag_out :=
  let '(s, c, cg, H) := cost_gradient_hessian s x in
  let '(s, g, J) := constraints_linearised s x g J in
  let lg := lag_grad J cg lam in
  let H := if Req_EM_T cost_scale 1 then H else fun k i => cost_scale * H k i in
  let s := set_ad2 s x in
  let H := add_hessians (NE P) (fun n => ev (ad2_var s) (ceq P p n)) lam H in
  let H := add_hessians (NI P) (fun n => ev (ad2_var s) (cin P p n)) (fun n => lam (n + NE P)%nat) H in
  LagOut s c lg H cg g J.
End P.

(** the entry counts announced to Ipopt (:216-225) *)
Definition nnz_jacobian (P : problem) : nat := ((NE P + NI P) * NX P)%nat.
Definition nnz_lag_hessian (P : problem) : nat := (NX P * (NX P + 1) / 2)%nat.

(** a life of the object: construction, then any calls with any arguments *)
Inductive call :=
| KCost (x : nat -> R) | KCostH (x : nat -> R) | KEq (x : nat -> R) | KIn (x : nat -> R)
| KCons (x : nat -> R) | KLag (x : nat -> R) | KLagH (x : nat -> R).
Definition after (P : problem) (p : nat -> R) (s : state) (c : call) : state :=
  let z := fun _ : nat => 0 in let zz := fun _ _ : nat => 0 in
  match c with
  | KCost x => fst (fst (cost_gradient P p s x))
  | KCostH x => fst (fst (fst (cost_gradient_hessian P p s x)))
  | KEq x => fst (fst (equalities_linearised P p s x))
  | KIn x => fst (fst (inequalities_linearised P p s x))
  | KCons x => fst (fst (constraints_linearised P p s x z zz))
  | KLag x => o_state (lagrangian_gradient P p s x z z zz zz)
  | KLagH x => o_state (lagrangian_gradient_hessian P p s x z z zz 1)
  end.
Definition life (P : problem) (junk : nat -> R) (calls : list ((nat -> R) * call)) : state :=
  fold_left (fun s c => after P (fst c) s (snd c)) calls (seed junk).
