(** Scalars, vectors and matrices used by all models.

    The C++ code is templated over a [Scalar] type (float, double, ...).  The
    models are written over the record [Scalar T] of scalar operations below.
    Three instances are used:
    - [R_scalar]: the reals of the standard library (no rounding);
    - [SF_scalar]: IEEE-754 binary64 (inductive, axiom free), with NaN and
      infinities;
    - [Q_scalar]: rationals (no square root), only used to run small examples. *)
Require Import ZArith List Bool Lia.
Require Import Reals Lra.
Require Import QArith Qminmax Qabs Qreduction.
Require Import Floats.SpecFloat.
Import ListNotations.

Class Scalar (T : Type) := {
  s0 : T;
  s1 : T;
  sadd : T -> T -> T;
  ssub : T -> T -> T;
  smul : T -> T -> T;
  sdiv : T -> T -> T;
  sopp : T -> T;
  sabs : T -> T;
  ssqrt : T -> T;
  sofZ : Z -> T;
  sleb : T -> T -> bool;   (* C++ a <= b *)
  sltb : T -> T -> bool    (* C++ a < b  *)
}.

Declare Scope S_scope.
Delimit Scope S_scope with S.
Infix "+" := sadd : S_scope.
Infix "-" := ssub : S_scope.
Infix "*" := smul : S_scope.
Infix "/" := sdiv : S_scope.
Notation "- x" := (sopp x) : S_scope.
Notation "0" := s0 : S_scope.
Notation "1" := s1 : S_scope.
Infix "<=?" := sleb : S_scope.
Infix "<?" := sltb : S_scope.

Section Generic.
Context {T : Type} {ST : Scalar T}.
Local Open Scope S_scope.

(** decimal constants such as 1e-4, 0.2: numerator / denominator; for doubles the
    quotient of two exactly representable integers is the correctly rounded literal *)
Definition scst (num den : Z) : T := sofZ num / sofZ den.

(** C++ std::fmax / std::fmin: a NaN argument is dropped. *)
Definition isnan (a : T) : bool := negb (a <=? a).
Definition sfmax (a b : T) : T :=
  if isnan a then b else if a <? b then b else a.
Definition sfmin (a b : T) : T :=
  if isnan a then b else if b <? a then b else a.

(** Eigen coefficient-wise max/min ([cwiseMax], [maxCoeff]): (a < b) ? b : a.
    For NaN operands Eigen leaves the result unspecified; this is the scalar code path. *)
Definition smax (a b : T) : T := if a <? b then b else a.
Definition smin (a b : T) : T := if b <? a then b else a.

Definition vec := nat -> T.
Definition mat := nat -> nat -> T.

(** finite sum f 0 + ... + f (n-1), left to right *)
Fixpoint ssum (n : nat) (f : nat -> T) : T :=
  match n with
  | O => 0
  | S k => ssum k f + f k
  end.

Definition dot (n : nat) (u v : vec) : T := ssum n (fun i => u i * v i).
Definition mv (n : nat) (A : mat) (x : vec) : vec := fun i => dot n (A i) x.
Definition mtr (A : mat) : mat := fun i j => A j i.

(** infinity norm (Eigen lpNorm<Infinity>, 0 for an empty vector) *)
Fixpoint norminf (n : nat) (f : vec) : T :=
  match n with
  | O => 0
  | S k => smax (norminf k f) (sabs (f k))
  end.

(** l1 norm *)
Definition norm1 (n : nat) (f : vec) : T := ssum n (fun i => sabs (f i)).

(** maximum coefficient of a non-empty vector with [n+1] entries (Eigen maxCoeff) *)
Fixpoint maxcoeff (n : nat) (f : vec) : T :=
  match n with
  | O => f O
  | S k => smax (maxcoeff k f) (f (S k))
  end.

(** [tab n f] evaluates [f] once on 0..n-1; entries outside are [0].  It is what an
    assignment to an Eigen vector of size n does and it keeps the model executable. *)
Definition tab (n : nat) (f : vec) : vec :=
  let l := map f (seq 0 n) in fun i => nth i l s0.
Definition tab2 (m n : nat) (A : mat) : mat :=
  let l := map (fun i => map (A i) (seq 0 n)) (seq 0 m) in
  fun i j => nth j (nth i l []) s0.

Lemma tab_spec : forall n f i, (i < n)%nat -> tab n f i = f i.
Proof.
  intros n f i Hi. unfold tab.
  rewrite nth_indep with (d' := f O) by (rewrite map_length, seq_length; exact Hi).
  rewrite map_nth. rewrite seq_nth by exact Hi. reflexivity.
Qed.

Lemma tab2_spec : forall m n A i j, (i < m)%nat -> (j < n)%nat -> tab2 m n A i j = A i j.
Proof.
  intros m n A i j Hi Hj. unfold tab2.
  rewrite nth_indep with (d := []) (d' := (fun i => map (A i) (seq 0 n)) O)
    by (rewrite map_length, seq_length; exact Hi).
  rewrite (map_nth (fun i => map (A i) (seq 0 n))).
  rewrite seq_nth by exact Hi. simpl.
  rewrite nth_indep with (d' := A i O) by (rewrite map_length, seq_length; exact Hj).
  rewrite map_nth. rewrite seq_nth by exact Hj. reflexivity.
Qed.

Lemma ssum_ext : forall n f g, (forall i, (i < n)%nat -> f i = g i) -> ssum n f = ssum n g.
Proof.
  induction n as [|n IH]; intros f g H; simpl; [reflexivity|].
  rewrite (IH f g), (H n); auto; intros; apply H; lia.
Qed.

Lemma norminf_ext : forall n f g, (forall i, (i < n)%nat -> f i = g i) -> norminf n f = norminf n g.
Proof.
  induction n as [|n IH]; intros f g H; simpl; [reflexivity|].
  rewrite (IH f g), (H n); auto; intros; apply H; lia.
Qed.

Lemma norm1_ext : forall n f g, (forall i, (i < n)%nat -> f i = g i) -> norm1 n f = norm1 n g.
Proof. intros. unfold norm1. apply ssum_ext. intros; rewrite H; auto. Qed.

Lemma maxcoeff_ext : forall n f g, (forall i, (i <= n)%nat -> f i = g i) -> maxcoeff n f = maxcoeff n g.
Proof.
  induction n as [|n IH]; intros f g H; simpl; [apply H; lia|].
  rewrite (IH f g), (H (S n)); auto; intros; apply H; lia.
Qed.

Lemma dot_ext : forall n u v u' v', (forall i, (i < n)%nat -> u i = u' i) ->
  (forall i, (i < n)%nat -> v i = v' i) -> dot n u v = dot n u' v'.
Proof. intros. unfold dot. apply ssum_ext. intros; rewrite H, H0; auto. Qed.

(** ** Bounds that may be infinite *)
Inductive ext : Type := Fin (t : T) | PInf | MInf.

(** value < bound constants, on bounds *)
Definition ext_lt_s (b : ext) (t : T) : bool :=   (* b < t *)
  match b with Fin u => u <? t | PInf => false | MInf => true end.
Definition s_lt_ext (t : T) (b : ext) : bool :=   (* t < b *)
  match b with Fin u => t <? u | PInf => true | MInf => false end.
(** ub - lb < t, with the IEEE conventions inf - inf = NaN (comparison false) *)
Definition ext_sub_lt (ub lb : ext) (t : T) : bool :=
  match ub, lb with
  | Fin u, Fin l => (u - l) <? t
  | PInf, PInf => false
  | PInf, _ => false
  | MInf, MInf => false
  | MInf, _ => true
  | Fin _, PInf => true
  | Fin _, MInf => false
  end.
(** Eigen x.cwiseMax(lb), x.cwiseMin(ub) for one coefficient *)
Definition clampL (x : T) (lb : ext) : T :=
  match lb with Fin l => smax x l | MInf => x | PInf => x (* see note *) end.
Definition clampU (x : T) (ub : ext) : T :=
  match ub with Fin u => smin x u | PInf => x | MInf => x (* see note *) end.
(** Note: a lower bound +inf or an upper bound -inf describes an empty constraint; the C++
    result would be an infinite number, which the model does not represent for non-IEEE
    instances.  Theorems about the projection therefore assume proper bounds
    ([ext_proper]); with [SF_scalar] the IEEE value [Fin inf] covers the C++ behaviour. *)
Definition lower_proper (b : ext) : Prop := b <> PInf.
Definition upper_proper (b : ext) : Prop := b <> MInf.

(** b - t and t + b on bounds *)
Definition ext_sub (b : ext) (t : T) : ext :=
  match b with Fin u => Fin (u - t) | PInf => PInf | MInf => MInf end.
Definition ext_add (t : T) (b : ext) : ext :=
  match b with Fin u => Fin (t + u) | PInf => PInf | MInf => MInf end.
(** multiplication by a positive number, division by a positive number *)
Definition ext_scale (e : T) (b : ext) : ext :=
  match b with Fin u => Fin (e * u) | PInf => PInf | MInf => MInf end.

End Generic.

Arguments vec T : clear implicits.
Arguments mat T : clear implicits.
Arguments ext T : clear implicits.

(** ** Instances *)
Definition Rleb (a b : R) : bool := if Rle_dec a b then true else false.
Definition Rltb (a b : R) : bool := if Rlt_dec a b then true else false.

Global Instance R_scalar : Scalar R := {
  s0 := 0%R; s1 := 1%R; sadd := Rplus; ssub := Rminus; smul := Rmult; sdiv := Rdiv;
  sopp := Ropp; sabs := Rabs; ssqrt := sqrt; sofZ := IZR; sleb := Rleb; sltb := Rltb
}.

(** IEEE-754 binary64, round to nearest even, from the standard library *)
Definition prec64 := 53%Z.
Definition emax64 := 1024%Z.
Definition SF_ofZ (z : Z) : spec_float :=
  match z with
  | Z0 => S754_zero false
  | Zpos p => binary_normalize prec64 emax64 (Zpos p) 0 false
  | Zneg p => binary_normalize prec64 emax64 (Zneg p) 0 false
  end.
Definition SF_scalar : Scalar spec_float := {|
  s0 := S754_zero false; s1 := SF_ofZ 1;
  sadd := SFadd prec64 emax64; ssub := SFsub prec64 emax64; smul := SFmul prec64 emax64;
  sdiv := SFdiv prec64 emax64; sopp := SFopp; sabs := SFabs; ssqrt := SFsqrt prec64 emax64;
  sofZ := SF_ofZ; sleb := SFleb; sltb := SFltb
|}.

(** rationals, only to run examples; [ssqrt] is not available and returns its argument *)
Definition Q_scalar : Scalar Q := {|
  s0 := 0%Q; s1 := 1%Q;
  sadd a b := Qred (a + b); ssub a b := Qred (a - b); smul a b := Qred (a * b);
  sdiv a b := Qred (a / b); sopp a := Qopp a; sabs := Qabs; ssqrt a := a;
  sofZ z := inject_Z z; sleb := Qle_bool;
  sltb a b := negb (Qle_bool b a)
|}.

(** ** Facts about the real instance *)
Lemma Rleb_true : forall a b, Rleb a b = true <-> (a <= b)%R.
Proof. intros; unfold Rleb; destruct (Rle_dec a b); split; intros; auto; try discriminate; contradiction. Qed.
Lemma Rleb_false : forall a b, Rleb a b = false <-> (b < a)%R.
Proof. intros; unfold Rleb; destruct (Rle_dec a b); split; intros; auto; try discriminate; lra. Qed.
Lemma Rltb_true : forall a b, Rltb a b = true <-> (a < b)%R.
Proof. intros; unfold Rltb; destruct (Rlt_dec a b); split; intros; auto; try discriminate; contradiction. Qed.
Lemma Rltb_false : forall a b, Rltb a b = false <-> (b <= a)%R.
Proof. intros; unfold Rltb; destruct (Rlt_dec a b); split; intros; auto; try discriminate; lra. Qed.

Lemma smax_R : forall a b : R, smax a b = Rmax a b.
Proof. intros; unfold smax, Rmax; simpl; unfold Rltb. destruct (Rlt_dec a b), (Rle_dec a b); auto; lra. Qed.
Lemma smin_R : forall a b : R, smin a b = Rmin a b.
Proof. intros; unfold smin, Rmin; simpl; unfold Rltb. destruct (Rlt_dec b a), (Rle_dec a b); auto; lra. Qed.
Lemma isnan_R : forall a : R, isnan a = false.
Proof. intros; unfold isnan; simpl. rewrite (proj2 (Rleb_true a a)); auto; lra. Qed.
Lemma sfmax_R : forall a b : R, sfmax a b = Rmax a b.
Proof. intros; unfold sfmax. rewrite isnan_R. apply smax_R. Qed.
Lemma sfmin_R : forall a b : R, sfmin a b = Rmin a b.
Proof. intros; unfold sfmin. rewrite isnan_R. apply smin_R. Qed.
