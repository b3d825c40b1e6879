(** Proofs about the termination of the SQP solver with boxADMM (property C106). *)
Require Import Arith ZArith List Bool Lia Reals Lra.
From Verif Require Import Scal RSum RNorm Qp_Model Qp_Spec Qp_Proofs Gauss Admm_Model Admm_Spec Admm_SpecR Admm_Conv
  BoxAdmm_Model BoxUnif_Proofs Sqp_Model Sqp_Spec Sqp_Proofs Sqp_ProofsR SqpQp_Spec SqpQp_Proofs
  QpDist_Spec QpDist_Proofs SqpDist_Proofs SqpNear_Spec SqpNear_Proofs SqpNative_Model SqpNative_Proofs SqpTerm_Spec SqpExact_Model SqpExact_Proofs SqpTerm_Model.
Import ListNotations.
Local Open Scope R_scope.

(** ** linear algebra: injective maps are bounded below *)
Lemma inverse_bound : forall k K, nonsingular k K -> exists kap, 0 <= kap /\ forall v B,
  (forall i, (i < k)%nat -> Rabs (rmv k K v i) <= B) -> forall i, (i < k)%nat -> Rabs (v i) <= kap * B.
Proof.
  intros k K HN. set (inv := fun i j => gauss k K (fun l => if Nat.eqb l j then 1 else 0) i). exists (mass k k inv).
  split; [apply mass_nonneg|]. intros v B HB i Hi.
  set (u := fun i => rsum k (fun j => inv i j * rmv k K v j)).
  assert (E : forall i, (i < k)%nat -> rmv k K u i = rmv k K v i).
  { intros a Ha. rewrite (rmv_def k K u). unfold u.
    rewrite (rsum_ext k (fun j => K a j * rsum k (fun j0 => inv j j0 * rmv k K v j0)) (fun j => rsum k (fun l => K a j * (inv j l * rmv k K v l)))) by (intros; rewrite rsum_scal; reflexivity).
    rewrite rsum_swap.
    rewrite (rsum_ext k _ (fun l => (if Nat.eqb a l then 1 else 0) * rmv k K v l)).
    - rewrite (rsum_isolate k a) by exact Ha. rewrite Nat.eqb_refl, (rsum_zero k); [ring|]. intros l Hl. destruct (Nat.eqb_spec a l); subst; rewrite ?Nat.eqb_refl; [reflexivity|].
      destruct (Nat.eqb l a); ring.
    - intros l Hl. rewrite (rsum_ext k _ (fun j => (K a j * inv j l) * rmv k K v l)) by (intros; ring). rewrite rsum_scal_r. f_equal.
      rewrite <- (gauss_exact k K (fun l0 => if Nat.eqb l0 l then 1 else 0) HN a Ha). rewrite rmv_def. reflexivity. }
  assert (Ev : forall i, (i < k)%nat -> v i - u i = 0).
  { apply HN. intros a Ha. rewrite rmv_minus, E by exact Ha. ring. }
  specialize (Ev i Hi). replace (v i) with (u i) by lra. unfold u. eapply Rle_trans; [apply (lin_bound k (inv i) (rmv k K v) B HB)|].
  apply Rmult_le_compat_r; [|apply mass_row; exact Hi]. eapply Rle_trans; [apply Rabs_pos|apply (HB i Hi)].
Qed.

Lemma support_bound : forall n k (S : mat R) (act : nat -> bool),
  (forall v : vec R, (forall i, (i < k)%nat -> act i = false -> v i = 0) -> (forall j, (j < n)%nat -> rsum k (fun i => S i j * v i) = 0) ->
     forall i, (i < k)%nat -> v i = 0) ->
  exists kap, 0 <= kap /\ forall (v : vec R) B, 0 <= B -> (forall i, (i < k)%nat -> act i = false -> v i = 0) ->
    (forall j, (j < n)%nat -> Rabs (rsum k (fun i => S i j * v i)) <= B) -> forall i, (i < k)%nat -> Rabs (v i) <= kap * B.
Proof.
  intros n k S act HI. set (ind := fun i => if act i then 0 else 1).
  set (K := fun i l => rsum n (fun j => S i j * S l j) + (if Nat.eqb l i then ind i else 0)).
  assert (EK : forall v i, (i < k)%nat -> rmv k K v i = rsum n (fun j => S i j * rsum k (fun l => S l j * v l)) + ind i * v i).
  { intros v i Hi. rewrite rmv_def. unfold K.
    rewrite (rsum_ext k _ (fun l => rsum n (fun j => S i j * (S l j * v l)) + (if Nat.eqb l i then ind i * v l else 0))).
    - rewrite rsum_plus, rsum_swap. f_equal.
      + apply rsum_ext. intros j Hj. rewrite rsum_scal. reflexivity.
      + rewrite (rsum_isolate k i) by exact Hi. rewrite Nat.eqb_refl, (rsum_zero k); [ring|]. intros l Hl. destruct (Nat.eqb l i); reflexivity.
    - intros l Hl. rewrite Rmult_plus_distr_r, <- rsum_scal_r. f_equal; [apply rsum_ext; intros; ring|]. destruct (Nat.eqb l i); ring. }
  destruct (inverse_bound k K) as (kap & Hk & HB).
  { intros v Hv.
    assert (Z : rsum n (fun j => rsum k (fun i => S i j * v i) * rsum k (fun i => S i j * v i)) + rsum k (fun i => ind i * (v i * v i)) = 0).
    { assert (Z0 : rsum k (fun i => v i * rmv k K v i) = 0) by (apply rsum_zero; intros i Hi; rewrite Hv by exact Hi; ring).
      rewrite <- Z0. rewrite (rsum_ext k (fun i => v i * rmv k K v i) (fun i => rsum n (fun j => v i * (S i j * rsum k (fun l => S l j * v l))) + ind i * (v i * v i))).
      - rewrite rsum_plus, rsum_swap. f_equal. apply rsum_ext. intros j Hj. rewrite <- rsum_scal_r. apply rsum_ext. intros. ring.
      - intros i Hi. rewrite EK by exact Hi. rewrite rsum_scal. ring. }
    assert (P1 : 0 <= rsum n (fun j => rsum k (fun i => S i j * v i) * rsum k (fun i => S i j * v i))) by (apply rsum_nonneg; intros; apply Rle_0_sqr).
    assert (P2 : 0 <= rsum k (fun i => ind i * (v i * v i))).
    { apply rsum_nonneg; intros i _. apply Rmult_le_pos; [unfold ind; destruct (act i); lra|apply Rle_0_sqr]. }
    apply HI.
    - intros i Hi Ha. assert (Zi : ind i * (v i * v i) = 0).
      { apply (rsum_nonneg_zero k (fun i => ind i * (v i * v i))); [|lra|exact Hi]. intros a _. apply Rmult_le_pos; [unfold ind; destruct (act a); lra|apply Rle_0_sqr]. }
      unfold ind in Zi. rewrite Ha, Rmult_1_l in Zi. apply Rsqr_0_uniq. exact Zi.
    - intros j Hj. apply Rsqr_0_uniq. unfold Rsqr.
      apply (rsum_nonneg_zero n (fun j => rsum k (fun i => S i j * v i) * rsum k (fun i => S i j * v i))); [intros; apply Rle_0_sqr|lra|exact Hj]. }
  exists (kap * mass k n S). split; [apply Rmult_le_pos; [exact Hk|apply mass_nonneg]|].
  intros v B HB0 Hs Hj i Hi. rewrite Rmult_assoc. apply HB; [|exact Hi]. intros a Ha. rewrite EK by exact Ha.
  replace (ind a * v a) with 0 by (unfold ind; destruct (act a) eqn:E; [ring|rewrite (Hs a Ha E); ring]). rewrite Rplus_0_r.
  eapply Rle_trans; [apply (lin_bound n (S a) (fun j => rsum k (fun l => S l j * v l)) B Hj)|]. apply Rmult_le_compat_r; [exact HB0|apply mass_row; exact Ha].
Qed.

Lemma fin_min : forall k (f : nat -> R), (forall i, (i < k)%nat -> 0 < f i) -> exists g, 0 < g /\ forall i, (i < k)%nat -> g <= f i.
Proof.
  induction k as [|k IH]; intros f H; [exists 1; split; [lra|intros; lia]|]. destruct (IH f) as (g & Hg & Hf); [intros; apply H; lia|].
  exists (Rmin g (f k)). split; [apply Rmin_glb_lt; [exact Hg|apply H; lia]|]. intros i Hi. destruct (Nat.eq_dec i k); [subst; apply Rmin_r|].
  eapply Rle_trans; [apply Rmin_l|apply Hf; lia].
Qed.

(** ** gaps of the inactive bounds *)
Definition gap1 (b : ext R) (t : R) : R := match b with Fin l => if Req_EM_T l t then 1 else Rabs (l - t) | _ => 1 end.
Lemma gap1_pos : forall b t, 0 < gap1 b t.
Proof. intros [l| |] t; simpl; try lra. destruct (Req_EM_T l t); [lra|apply Rabs_pos_lt, Rminus_eq_contra; assumption]. Qed.
Definition gap (lb ub : ext R) (t : R) : R := Rmin (gap1 lb t) (gap1 ub t).
Lemma gap_pos : forall lb ub t, 0 < gap lb ub t.
Proof. intros. apply Rmin_glb_lt; apply gap1_pos. Qed.

Lemma row_support : forall lb ub gx a z l g e, sign_ok (ext_add (- gx) lb) (ext_add (- gx) ub) z l -> Rabs (a - z) <= e ->
  forall s, Rabs (gx + a - g) <= s -> e + s < gap lb ub g -> l <> 0 -> hits lb ub g.
Proof.
  intros lb ub gx a z l g e [S1 S2] Hz s Hs Hg Hl. unfold hits, gap in *. apply rabs_inv in Hz. apply rabs_inv in Hs.
  assert (G1 := Rmin_l (gap1 lb g) (gap1 ub g)). assert (G2 := Rmin_r (gap1 lb g) (gap1 ub g)).
  assert (H1 : e + s < gap1 lb g) by lra. assert (H2 : e + s < gap1 ub g) by lra. clear G1 G2 Hg.
  destruct (Rtotal_order l 0) as [Hn|[Hn|Hn]]; [left|elim Hl; exact Hn|right].
  - specialize (S2 Hn). destruct lb as [b| |]; simpl in S2; try discriminate. injection S2 as S2. rsimp. simpl in H1. destruct (Req_EM_T b g); [subst; reflexivity|].
    exfalso. assert (Rabs (b - g) <= e + s) by (apply Rabs_le; lra). lra.
  - specialize (S1 Hn). destruct ub as [b| |]; simpl in S1; try discriminate. injection S1 as S1. rsimp. simpl in H2. destruct (Req_EM_T b g); [subst; reflexivity|].
    exfalso. assert (Rabs (b - g) <= e + s) by (apply Rabs_le; lra). lra.
Qed.

Lemma hits_dec : forall lb ub t, {hits lb ub t} + {~ hits lb ub t}.
Proof.
  intros lb ub t. assert (D : forall b, {b = Fin t} + {b <> Fin t}).
  { intros [l| |]; try (right; discriminate). destruct (Req_EM_T l t); [left; subst; reflexivity|right; intro E; injection E; auto]. }
  destruct (D lb); [left; left; assumption|]. destruct (D ub); [left; right; assumption|]. right. intros [E|E]; auto.
Qed.

Lemma stacked_sum : forall m n A (v : vec R) j, (j < n)%nat -> rsum (m + n) (fun i => stacked m A i j * v i) = rsum m (fun i => A i j * v i) + v (m + j)%nat.
Proof.
  intros m n A v j Hj. rewrite rsum_split. f_equal.
  - apply rsum_ext. intros i Hi. unfold stacked. destruct (Nat.ltb_spec i m); [reflexivity|lia].
  - rewrite (rsum_isolate n j) by exact Hj. rewrite (rsum_zero n).
    + unfold stacked. destruct (Nat.ltb_spec (m + j) m); [lia|]. replace (m + j - m)%nat with j by lia. rewrite Nat.eqb_refl. rsimp. ring.
    + intros i Hi. destruct (Nat.eqb_spec i j); [reflexivity|]. unfold stacked. destruct (Nat.ltb_spec (m + i) m); [lia|]. replace (m + i - m)%nat with i by lia.
      destruct (Nat.eqb_spec i j); [contradiction|]. rsimp. ring.
Qed.

Section Term.
Variable P : problem R.
Variable grad : vec R -> vec R.
Variable jac : vec R -> mat R.
Variable G : mat R.
Variable c : vec R.
Variable c0 : R.
Variable A : mat R.
Variable b : vec R.
Hypothesis HQ : quadratic_nlp P grad jac G c c0 A b.
Variable mu : R.
Hypothesis Hmu : 0 < mu.
Hypothesis HM : curvature (nx P) G mu.
Variables xs ls : vec R.
Hypothesis HK : nlp_kkt P (grad xs) (jac xs) xs ls.
Notation n := (nx P).
Notation m := (ne P + ni P)%nat.
Notation nd := (ne P + ni P + nx P)%nat.

Definition act (i : nat) : bool :=
  if Nat.ltb i (ne P) then true
  else if Nat.ltb i m then (if hits_dec (lbg P (i - ne P)%nat) (ubg P (i - ne P)%nat) (p_ineq P xs (i - ne P)%nat) then true else false)
  else (if hits_dec (lbx P (i - m)%nat) (ubx P (i - m)%nat) (xs (i - m)%nat) then true else false).
Lemma act_spec : forall i, act i = false <-> ~ row_active P xs i.
Proof.
  intro i. unfold act, row_active. destruct (Nat.ltb i (ne P)); [split; [discriminate|intro H; elim H; exact I]|].
  destruct (Nat.ltb i m); [destruct (hits_dec (lbg P (i - ne P)%nat) (ubg P (i - ne P)%nat) (p_ineq P xs (i - ne P)%nat))|destruct (hits_dec (lbx P (i - m)%nat) (ubx P (i - m)%nat) (xs (i - m)%nat))];
    split; intro; try discriminate; try tauto; auto.
Qed.

Lemma licq_const : licq P (jac xs) xs -> exists kap, 0 <= kap /\ forall (v : vec R) B, 0 <= B ->
  (forall i, (i < nd)%nat -> ~ row_active P xs i -> v i = 0) ->
  (forall j, (j < n)%nat -> Rabs (rsum m (fun i => A i j * v i) + v (m + j)%nat) <= B) -> forall i, (i < nd)%nat -> Rabs (v i) <= kap * B.
Proof.
  intro HL. destruct HQ as (_ & _ & _ & _ & HJ). destruct (support_bound n nd (stacked m A) act) as (kap & Hk & HB).
  - intros v Hv Hz. apply HL.
    + intros i Hi Ha. apply Hv; [exact Hi|]. apply act_spec. exact Ha.
    + intros j Hj. rewrite <- (Hz j Hj), stacked_sum by exact Hj. f_equal. apply rsum_ext. intros i Hi. rewrite HJ by assumption. reflexivity.
  - exists kap. split; [exact Hk|]. intros v B HB0 Hs Hv. apply HB; [exact HB0| |].
    + intros i Hi Ha. apply Hs; [exact Hi|]. apply act_spec. exact Ha.
    + intros j Hj. rewrite stacked_sum by exact Hj. apply Hv. exact Hj.
Qed.

Lemma all_gap : exists g, 0 < g /\ (forall i, (i < ni P)%nat -> g <= gap (lbg P i) (ubg P i) (p_ineq P xs i)) /\
  (forall j, (j < n)%nat -> g <= gap (lbx P j) (ubx P j) (xs j)).
Proof.
  destruct (fin_min (ni P) (fun i => gap (lbg P i) (ubg P i) (p_ineq P xs i))) as (g1 & P1 & H1); [intros; apply gap_pos|].
  destruct (fin_min n (fun j => gap (lbx P j) (ubx P j) (xs j))) as (g2 & P2 & H2); [intros; apply gap_pos|].
  exists (Rmin g1 g2). split; [apply Rmin_glb_lt; assumption|]. split; intros i Hi.
  - eapply Rle_trans; [apply Rmin_l|apply H1; exact Hi].
  - eapply Rle_trans; [apply Rmin_r|apply H2; exact Hi].
Qed.

(** values near the optimum *)
Lemma row_near : forall y t i, (i < m)%nat -> (forall j, (j < n)%nat -> Rabs (y j - xs j) <= t) -> 0 <= t ->
  Rabs (constr_values P y i - constr_values P xs i) <= mass m n A * t.
Proof.
  intros y t i Hi Hy Ht. destruct HQ as (_ & _ & _ & HV & _). rewrite !HV by exact Hi.
  replace (rmv n A y i + b i - (rmv n A xs i + b i)) with (rmv n A (fun j => y j - xs j) i) by (rewrite rmv_minus; ring).
  rewrite rmv_def. eapply Rle_trans; [apply (lin_bound n (A i) (fun j => y j - xs j) t Hy)|]. apply Rmult_le_compat_r; [exact Ht|apply mass_row; exact Hi].
Qed.

Lemma near_within : forall y t, 0 <= t -> (forall j, (j < n)%nat -> Rabs (y j - xs j) <= t) -> within ((1 + mass m n A) * t) P y.
Proof.
  intros y t Ht Hy. destruct HK as ((F1 & F2 & F3) & _). pose proof (mass_nonneg m n A) as HM0.
  assert (T1 : mass m n A * t <= (1 + mass m n A) * t) by lra. assert (T2 : t <= (1 + mass m n A) * t) by (assert (0 <= mass m n A * t) by (apply Rmult_le_pos; assumption); lra).
  assert (B : forall lb ub u v s, in_bounds lb ub v -> Rabs (u - v) <= s -> above_by s lb u /\ below_by s ub u).
  { intros lb ub u v s [B1 B2] H. apply rabs_inv in H. split; [destruct lb; simpl in *; try exact I; try contradiction; lra|destruct ub; simpl in *; try exact I; try contradiction; lra]. }
  split; [|split].
  - intros i Hi. pose proof (row_near y t i ltac:(lia) Hy Ht) as V. unfold constr_values in V. destruct (Nat.ltb_spec i (ne P)); [|lia]. rewrite (F1 i Hi), Rminus_0_r in V. lra.
  - intros i Hi. pose proof (row_near y t (ne P + i)%nat ltac:(lia) Hy Ht) as V. unfold constr_values in V. destruct (Nat.ltb_spec (ne P + i) (ne P)); [lia|].
    replace (ne P + i - ne P)%nat with i in V by lia. apply (B _ _ _ (p_ineq P xs i)); [apply F2; exact Hi|lra].
  - intros j Hj. apply (B _ _ _ (xs j)); [apply F3; exact Hj|]. specialize (Hy j Hj). lra.
Qed.

(** the multipliers of a subproblem answered within small tolerances *)
Lemma dual_near : forall kap g H x p lk e t, 0 <= kap -> 0 <= e -> 0 <= t -> hess_ok P G H ->
  (forall (v : vec R) B, 0 <= B -> (forall i, (i < nd)%nat -> ~ row_active P xs i -> v i = 0) ->
    (forall j, (j < n)%nat -> Rabs (rsum m (fun i => A i j * v i) + v (m + j)%nat) <= B) -> forall i, (i < nd)%nat -> Rabs (v i) <= kap * B) ->
  (forall i, (i < ni P)%nat -> g <= gap (lbg P i) (ubg P i) (p_ineq P xs i)) -> (forall j, (j < n)%nat -> g <= gap (lbx P j) (ubx P j) (xs j)) ->
  inexact_step e e (sub_qp P H (grad x) (jac x) (constr_values P x) x, (p, lk)) -> (forall j, (j < n)%nat -> Rabs (x j + p j - xs j) <= t) ->
  e + (1 + mass m n A) * t < g ->
  forall i, (i < nd)%nat -> Rabs (lk i - ls i) <= kap * (e + mass n n G * t).
Proof.
  intros kap g H x p lk e t Hkap He Ht HH HC G1 G2 (za & zx & (Ca & Cx & Cd)) Hp Hg. cbn [fst snd] in *.
  pose proof (mass_nonneg m n A) as Ma. pose proof (mass_nonneg n n G) as Mg. assert (Mt : 0 <= mass m n A * t) by (apply Rmult_le_pos; assumption).
  set (y := fun j => x j + p j). destruct HK as (_ & K1 & K2 & K3). cbn [sub_qp qm qn qAlb qAub qA qxlb qxub] in Ca, Cx, Cd.
  assert (V : forall i, (i < m)%nat -> constr_values P y i = constr_values P x i + rmv n (jac x) p i) by (intros; apply (value_at P grad jac G c c0 A b HQ); [reflexivity|assumption]).
  assert (Z : forall lb ub t0 l, sign_ok lb ub t0 l -> ~ hits lb ub t0 -> l = 0).
  { intros lb ub t0 l [S1 S2] Hh. destruct (Rtotal_order l 0) as [Hl|[Hl|Hl]]; [exfalso; apply Hh; left; auto|exact Hl|exfalso; apply Hh; right; auto]. }
  apply HC.
  - apply Rplus_le_le_0_compat; [exact He|apply Rmult_le_pos; assumption].
  - intros i Hi Ha. unfold row_active in Ha. destruct (Nat.ltb_spec i (ne P)) as [L1|L1]; [elim Ha; exact I|]. destruct (Nat.ltb_spec i m) as [L2|L2].
    + set (k := (i - ne P)%nat) in *. assert (Hk : (k < ni P)%nat) by lia. specialize (K2 k Hk). replace (ne P + k)%nat with i in K2 by lia. rewrite (Z _ _ _ _ K2 Ha), Rminus_0_r.
      destruct (Req_EM_T (lk i) 0) as [E|E]; [exact E|]. exfalso. apply Ha. destruct (Ca i L2) as (_ & Cz & Cs). destruct (Nat.ltb_spec i (ne P)); [lia|]. fold k in Cs.
      apply (row_support _ _ (constr_values P x i) (rmv n (jac x) p i) (za i) (lk i) _ e Cs Cz (mass m n A * t)); [|specialize (G1 k Hk); lra|exact E].
      rewrite <- V by exact L2. pose proof (row_near y t i L2 Hp Ht) as W. unfold constr_values at 2 in W. destruct (Nat.ltb_spec i (ne P)); [lia|]. exact W.
    + set (k := (i - m)%nat) in *. assert (Hk : (k < n)%nat) by lia. specialize (K3 k Hk). replace (m + k)%nat with i in K3 by lia. rewrite (Z _ _ _ _ K3 Ha), Rminus_0_r.
      destruct (Req_EM_T (lk i) 0) as [E|E]; [exact E|]. exfalso. apply Ha. destruct (Cx k Hk) as (_ & Cz & Cs). replace (m + k)%nat with i in Cs by lia. rewrite !ext_sub_add in Cs.
      apply (row_support _ _ (x k) (p k) (zx k) (lk i) _ e Cs Cz t); [apply Hp; exact Hk|specialize (G2 k Hk); lra|exact E].
  - intros j Hj. specialize (Cd j Hj). specialize (K1 j Hj). unfold lag_grad in Cd. cbn [sub_qp qm qn qH qh qA] in Cd.
    pose proof (grad_at P grad jac G c c0 A b HQ H x p y j HH ltac:(reflexivity) Hj) as Eg. destruct HQ as (_ & _ & Hg0 & _ & HJ).
    rewrite (rsum_ext m (fun i => jac x i j * lk i) (fun i => A i j * lk i)) in Cd by (intros; rewrite HJ by assumption; reflexivity).
    rewrite (rsum_ext m (fun i => jac xs i j * ls i) (fun i => A i j * ls i)) in K1 by (intros; rewrite HJ by assumption; reflexivity).
    rewrite (rsum_ext m (fun i => A i j * (lk i - ls i)) (fun i => A i j * lk i - A i j * ls i)) by (intros; ring). rewrite rsum_minus.
    assert (Ed : grad y j = grad xs j + rmv n G (fun k => y k - xs k) j) by (rewrite !Hg0 by exact Hj; rewrite rmv_minus; ring).
    assert (Eb : Rabs (rmv n G (fun k => y k - xs k) j) <= mass n n G * t).
    { rewrite rmv_def. eapply Rle_trans; [apply (lin_bound n (G j) (fun k => y k - xs k) t Hp)|]. apply Rmult_le_compat_r; [exact Ht|apply mass_row; exact Hj]. }
    apply rabs_inv in Cd. apply rabs_inv in Eb. apply Rabs_le.
    set (u1 := rsum m (fun i => A i j * lk i)) in *. set (u2 := rsum m (fun i => A i j * ls i)) in *. set (r := rmv n G (fun k => y k - xs k) j) in *. lra.
Qed.

Lemma coord_near : forall y r, gdist n G y xs <= r -> forall j, (j < n)%nat -> Rabs (y j - xs j) <= r / sqrt mu.
Proof.
  intros y r Hr j Hj. assert (Sm : 0 < sqrt mu) by (apply sqrt_lt_R0; exact Hmu).
  apply (Rmult_le_reg_l (sqrt mu)); [exact Sm|]. replace (sqrt mu * (r / sqrt mu)) with r by (field; lra). eapply Rle_trans; [|exact Hr].
  rewrite <- (sqrt_Rsqr_abs (y j - xs j)), <- sqrt_mult by (try lra; apply Rle_0_sqr). unfold gdist. apply sqrt_le_1_alt. unfold gdist2. eapply Rle_trans; [|apply HM].
  apply Rmult_le_compat_l; [lra|]. rewrite rdot_def. apply (rsum_nonneg_term n (fun j => (y j - xs j) * (y j - xs j)) j); [intros; apply Rle_0_sqr|exact Hj].
Qed.

Section Run.
Variable st : sqp_settings R.
Variable hupd : mat R -> vec R -> vec R -> mat R.
Variable hreg : mat R -> mat R.
Variable lsolve : nat -> mat R -> vec R -> vec R.
Variable full : bool.
Variable qs : qp_settings R.
Hypothesis HL : linearised_by P grad jac.
Hypothesis Htau : 0 < tau st <= 1.
Hypothesis Heta : 0 <= eta st < / 2.
Variables Rb e Y : R.
Hypothesis He : 0 <= e.
Hypothesis HT : e * (INR n * e / mu + sqrt (INR n * e * Y / mu)) + e * Y <= Rb.
Hypothesis HS : forall H x ob, hess_ok P G H -> gdist2 n G x xs <= Rb -> box_reachable lsolve full n m ob ->
  exists o', box_solve_cold lsolve full qs (sub_qp P H (grad x) (jac x) (constr_values P x) x) ob = Some o' /\ b_status o' = SOLVED /\
    rnorm1 nd (fun i => b_y o' i - ls i) <= Y /\
    certificate (sub_qp P H (grad x) (jac x) (constr_values P x) x) (b_x o') (b_y o') (b_z o') (b_q o') e e e.
Variables rho tt del La : R.
Hypothesis Hrho : short_step n nd mu (eta st) e e (Y + rnorm1 nd ls) + target_error n mu e e Y <= rho * sqrt mu.
Hypothesis Htt : target_error n mu e e Y <= tt * sqrt mu.
Hypothesis Hdel : forall H x p lk, hess_ok P G H -> inexact_step e e (sub_qp P H (grad x) (jac x) (constr_values P x) x, (p, lk)) ->
  (forall j, (j < n)%nat -> Rabs (x j + p j - xs j) <= tt) -> forall i, (i < nd)%nat -> Rabs (lk i - ls i) <= del.
Hypothesis HLa : 0 <= La.
Hypothesis Hd0 : 0 <= del.
Notation state := (@sqp_state R (option (box_obj R)) unit).
Notation qp := (native_qp lsolve full qs).
Notation step := (sqp_step P st (option (box_obj R)) unit (fun w d => (w, d)) (fun _ v => v) (fun _ d => d) qp).
Notation fine := (fine P G xs ls lsolve full Rb e Y).
(** any iteration that linearises, steps and calls back *)
Variable it : state -> state.
Hypothesis Hiter : forall s, let s0 := set_iter (option (box_obj R)) unit (m_iter s + 1)%Z s in
  exists lagg H h AA bb, linearised P (option (box_obj R)) unit hupd hreg s0 H h AA bb /\
    it s = callback st (option (box_obj R)) unit (step (fun q => q) s0 lagg H h AA bb).
Notation first := (sqp_first P st (option (box_obj R)) unit hreg (fun w d => (w, d)) (fun _ v => v) (fun _ d => d) qp (fun q => q)).
Fixpoint loop (fuel : nat) (s : state) : state :=
  match fuel with
  | O => s
  | S k => if (m_iter s <? smax_iter st)%Z then
             if terminated st (option (box_obj R)) unit (it s) then set_status (option (box_obj R)) unit SqpSolved (it s) else loop k (it s)
           else s
  end.
Definition gsolve (s : state) : state :=
  if terminated st (option (box_obj R)) unit (first s) then set_status (option (box_obj R)) unit SqpSolved (first s)
  else loop (Z.to_nat (smax_iter st - 1)) (first s).
Definition amin : R := tau st ^ ls_budget st.
Lemma amin_range : 0 < amin <= 1.
Proof.
  unfold amin. split; [apply pow_lt; lra|]. induction (ls_budget st) as [|k IH]; [simpl; lra|]. cbn [pow].
  assert (0 < tau st ^ k) by (apply pow_lt; lra). assert (tau st * tau st ^ k <= 1 * tau st ^ k) by (apply Rmult_le_compat_r; lra). lra.
Qed.
Lemma pow_budget : forall i, (i <= ls_budget st)%nat -> amin <= spow (tau st) i <= 1.
Proof.
  assert (Ek : forall i, spow (tau st) i = tau st ^ i) by (induction i as [|i IH]; [reflexivity|cbn [spow pow]; rewrite IH; reflexivity]).
  intros i Hi. split; [|apply spow_range; lra]. rewrite Ek. unfold amin. replace (ls_budget st) with ((ls_budget st - i) + i)%nat by lia. rewrite pow_add.
  assert (0 < tau st ^ i) by (apply pow_lt; lra).
  assert (tau st ^ (ls_budget st - i) <= 1) by (rewrite <- Ek; apply spow_range; lra).
  assert (tau st ^ (ls_budget st - i) * tau st ^ i <= 1 * tau st ^ i) by (apply Rmult_le_compat_r; lra). lra.
Qed.

Definition dual_dist (s : state) (r : R) : Prop := forall i, (i < nd)%nat -> Rabs (m_lam s i - ls i) <= r.

Lemma one_step : forall (s : state) lagg H h AA bb B0, linearised P (option (box_obj R)) unit hupd hreg s H h AA bb ->
  fine s -> 0 <= B0 -> dual_dist s B0 -> let s' := step (fun q => q) s lagg H h AA bb in
  Forall (hessian_is n G) (steps s') ->
  dual_dist s' ((1 - amin) * B0 + del) /\ gdist n G (m_x s') xs <= rho * sqrt mu /\ (forall j, (j < n)%nat -> Rabs (m_x s' j - xs j) <= rho) /\
  m_dual_norm s' <= B0 + del /\
  (forall r, 0 <= r -> (forall j, (j < n)%nat -> Rabs (m_x s j - xs j) <= r) -> m_primal_norm s' <= r + tt) /\
  m_max_violation s' = max_violation P (m_x s') /\ m_iter s' = m_iter s.
Proof.
  intros s lagg H h AA bb B0 Hlin HF HB0 HD s' HG.
  pose proof (fine_step P grad jac G c c0 A b HQ mu Hmu HM xs ls HK st hupd hreg lsolve full qs HL ltac:(lra) Rb e Y He HT HS s lagg H h AA bb Hlin HF) as HF'. fold s' in HF'.
  destruct (HF' HG) as (F1 & _ & _).
  pose proof (step_spec P st (option (box_obj R)) unit (fun w d => (w, d)) (fun _ v => v) (fun _ d => d) qp (fun q => q) s lagg H h AA bb) as Hst. fold s' in Hst. clearbody s'.
  destruct (near_step P grad jac G c c0 A b HQ mu Hmu HM xs ls HK st (option (box_obj R)) unit hupd hreg (fun w d => (w, d)) (fun _ d => d)
     ltac:(intros w d0 w' d1 _ _ Ew j Hj; injection Ew as _ <-; reflexivity) HL ltac:(lra) Heta e e Y He He s s' H h AA bb Hlin Hst) as (_ & p & lk & Es & HN).
  destruct Hst as (p' & lk' & d2 & i & _ & Hi & _ & _ & Hx & Hl & _ & Hp & Hd & Hv & _ & _ & Hit & _ & _ & Hsteps).
  rewrite Es in Hsteps. injection Hsteps as <- <-. rewrite Es in F1. inversion F1 as [|? ? G1 _]. subst. specialize (HN G1).
  assert (E : h = grad (m_x s) /\ AA = jac (m_x s) /\ bb = constr_values P (m_x s)).
  { destruct HL as [L1 L2]. destruct Hlin as [(lg0 & H0 & E & _)|(lg0 & y & E & _)].
    - destruct (L1 (m_x s) (m_lam s)) as (lg & H1 & E'). rewrite E in E'. injection E' as _ _ -> -> ->. auto.
    - destruct (L2 (m_x s) (m_lam s)) as (lg & E'). rewrite E in E'. injection E' as _ -> -> ->. auto. }
  destruct E as (-> & -> & ->). destruct G1 as (GH & GI & GY). cbn [snd] in GY.
  pose proof (target_near P grad jac G c c0 A b HQ mu Hmu HM xs ls HK H (m_x s) p lk e e Y He He GH GI GY) as T.
  assert (Sm : 0 < sqrt mu) by (apply sqrt_lt_R0; exact Hmu).
  assert (Tc : forall j, (j < n)%nat -> Rabs (m_x s j + p j - xs j) <= tt).
  { intros j Hj. eapply Rle_trans; [apply (coord_near (fun j => m_x s j + p j) _ T j Hj)|]. apply (Rmult_le_reg_r (sqrt mu)); [exact Sm|].
    unfold Rdiv. rewrite Rmult_assoc, Rinv_l by lra. lra. }
  pose proof (Hdel H (m_x s) p lk GH GI Tc) as Dk.
  pose proof (pow_budget i Hi) as Ra. pose proof amin_range as Rm. set (a := spow (tau st) i) in *.
  assert (Dl : forall k, (k < nd)%nat -> Rabs (lk k - m_lam s k) <= B0 + del).
  { intros k Hk. replace (lk k - m_lam s k) with ((lk k - ls k) + - (m_lam s k - ls k)) by ring. eapply Rle_trans; [apply Rabs_triang|]. rewrite Rabs_Ropp.
    specialize (Dk k Hk). specialize (HD k Hk). lra. }
  split; [|split; [|split; [|split; [|split; [|split]]]]].
  - intros k Hk. rewrite Hl, tab_spec, tab_spec by auto. rsimp.
    replace (m_lam s k + a * (lk k - m_lam s k) - ls k) with ((1 - a) * (m_lam s k - ls k) + a * (lk k - ls k)) by ring.
    eapply Rle_trans; [apply Rabs_triang|]. rewrite !Rabs_mult, (Rabs_right (1 - a)), (Rabs_right a) by lra.
    specialize (Dk k Hk). specialize (HD k Hk).
    assert ((1 - a) * Rabs (m_lam s k - ls k) <= (1 - a) * B0) by (apply Rmult_le_compat_l; lra).
    assert (a * Rabs (lk k - ls k) <= a * del) by (apply Rmult_le_compat_l; lra).
    assert ((1 - a) * B0 <= (1 - amin) * B0) by (apply Rmult_le_compat_r; lra).
    assert (a * del <= 1 * del) by (apply Rmult_le_compat_r; lra). lra.
  - unfold reach in HN. lra.
  - intros j Hj. eapply Rle_trans; [apply (coord_near (m_x s') _ HN j Hj)|]. unfold reach. apply (Rmult_le_reg_r (sqrt mu)); [exact Sm|].
    unfold Rdiv. rewrite Rmult_assoc, Rinv_l by lra. lra.
  - rewrite Hd. rsimp. assert (X : rnorminf nd (tab nd (fun i0 => lk i0 - m_lam s i0)) <= B0 + del).
    { apply rnorminf_le; [lra|]. intros k Hk. rewrite tab_spec by exact Hk. apply Dl. exact Hk. }
    pose proof (rnorminf_nonneg nd (tab nd (fun i0 => lk i0 - m_lam s i0))) as X0.
    eapply Rle_trans; [|exact X]. rewrite <- (Rmult_1_l (rnorminf nd _)) at 2. apply Rmult_le_compat_r; [exact X0|lra].
  - intros r Hr Hx0. rewrite Hp. rsimp. destruct (Nat.eq_dec n 0) as [E0|E0].
    + replace (norminf n p) with 0 by (rewrite E0; reflexivity). rewrite Rmult_0_r.
      assert (0 <= tt) ; [|lra]. apply (Rmult_le_reg_r (sqrt mu)); [exact Sm|]. rewrite Rmult_0_l. eapply Rle_trans; [|exact Htt]. apply sqrt_pos.
    + assert (X : rnorminf n p <= r + tt).
      { assert (P0 : 0 <= tt) by (eapply Rle_trans; [apply Rabs_pos|apply (Tc O); lia]). apply rnorminf_le; [lra|]. intros j Hj.
        replace (p j) with ((m_x s j + p j - xs j) + - (m_x s j - xs j)) by ring. eapply Rle_trans; [apply Rabs_triang|]. rewrite Rabs_Ropp. specialize (Tc j Hj). specialize (Hx0 j Hj). lra. }
      pose proof (rnorminf_nonneg n p) as X0. eapply Rle_trans; [|exact X]. rewrite <- (Rmult_1_l (rnorminf n p)) at 2. apply Rmult_le_compat_r; [exact X0|lra].
  - exact Hv.
  - exact Hit.
Qed.

(** after k iterations *)
Definition lam_bound (k : nat) : R := (1 - amin) ^ k * La + del / amin.
Lemma lam_bound_S : forall k, (1 - amin) * lam_bound k + del = lam_bound (S k).
Proof. intro k. pose proof amin_range. unfold lam_bound. cbn [pow]. field. lra. Qed.
Lemma lam_bound_pos : forall k, 0 <= lam_bound k.
Proof.
  intro k. pose proof amin_range. unfold lam_bound. apply Rplus_le_le_0_compat; apply Rmult_le_pos; try assumption; [apply pow_le; lra|apply Rlt_le, Rinv_0_lt_compat; lra].
Qed.

Definition tight (s : state) : Prop := fine s /\ (1 <= m_iter s)%Z /\ steps s <> [] /\ (Forall (hessian_is n G) (steps s) ->
  dual_dist s (lam_bound (Z.to_nat (m_iter s))) /\ gdist n G (m_x s) xs <= rho * sqrt mu /\ (forall j, (j < n)%nat -> Rabs (m_x s j - xs j) <= rho) /\
  m_max_violation s = max_violation P (m_x s) /\
  ((2 <= m_iter s)%Z -> m_primal_norm s <= rho + tt /\ m_dual_norm s <= lam_bound (Z.to_nat (m_iter s - 1)) + del)).

Lemma first_tight : forall s ob, gdist2 n G (m_x s) xs <= Rb -> m_q s = Some ob -> box_reachable lsolve full n m ob -> dual_dist s La ->
  tight (first s) /\ m_iter (first s) = 1%Z.
Proof.
  intros s ob Hx Hq Hr HD. unfold sqp_first. fold (start (option (box_obj R)) unit s). destruct (p_lag_full P _ _) as [[[[lagg H] h] bb] AA] eqn:E.
  assert (Hlin : linearised P (option (box_obj R)) unit hupd hreg (start (option (box_obj R)) unit s) (hreg H) h AA bb) by (left; exists lagg, H; split; [exact E|reflexivity]).
  assert (F : fine (start (option (box_obj R)) unit s)).
  { intros _. split; [constructor|]. split; [exact Hx|]. exists ob. split; [exact Hq|]. split; [exact Hr|]. intro X. elim X. reflexivity. }
  pose proof (step_spec P st (option (box_obj R)) unit (fun w d => (w, d)) (fun _ v => v) (fun _ d => d) qp (fun q => q) (start (option (box_obj R)) unit s) lagg (hreg H) h AA bb)
    as (p & lk & _ & _ & _ & _ & _ & _ & _ & _ & _ & _ & _ & _ & _ & _ & Hit & _ & _ & Hsteps).
  assert (Hi : m_iter (step (fun q => q) (start (option (box_obj R)) unit s) lagg (hreg H) h AA bb) = 1%Z) by (rewrite Hit; reflexivity).
  split; [|exact Hi]. split; [|split; [|split]].
  - apply (fine_step P grad jac G c c0 A b HQ mu Hmu HM xs ls HK st hupd hreg lsolve full qs HL ltac:(lra) Rb e Y He HT HS _ lagg _ _ _ _ Hlin F).
  - rewrite Hi. lia.
  - rewrite Hsteps. discriminate.
  - intro HG. destruct (one_step _ lagg _ _ _ _ La Hlin F HLa HD HG) as (O1 & Og & O2 & _ & _ & O5 & _). rewrite Hi. split; [|split; [exact Og|split; [exact O2|split; [exact O5|intro; lia]]]].
    intros i Hi0. eapply Rle_trans; [apply (O1 i Hi0)|]. change (Z.to_nat 1) with 1%nat. rewrite <- lam_bound_S. apply Rplus_le_compat_r.
    pose proof amin_range. apply Rmult_le_compat_l; [lra|]. unfold lam_bound. cbn [pow]. assert (0 <= del / amin) by (apply Rmult_le_pos; [exact Hd0|apply Rlt_le, Rinv_0_lt_compat; lra]). lra.
Qed.

Lemma iteration_tight : forall s, tight s -> tight (it s) /\ m_iter (it s) = (m_iter s + 1)%Z /\ exists w, steps (it s) = w :: steps s.
Proof.
  intros s (F & I1 & _ & HI). destruct (Hiter s) as (lagg & H & h & AA & bb & Hlin & ->). set (s0 := set_iter (option (box_obj R)) unit (m_iter s + 1)%Z s) in *.
  assert (F0 : fine s0) by exact F.
  pose proof (step_spec P st (option (box_obj R)) unit (fun w d => (w, d)) (fun _ v => v) (fun _ d => d) qp (fun q => q) s0 lagg H h AA bb)
    as (p & lk & d2 & i & _ & _ & _ & _ & _ & _ & _ & _ & _ & _ & _ & _ & Hit' & _ & _ & Hsteps).
  pose proof (fine_step P grad jac G c c0 A b HQ mu Hmu HM xs ls HK st hupd hreg lsolve full qs HL ltac:(lra) Rb e Y He HT HS s0 lagg H h AA bb Hlin F0) as F2.
  set (s' := step (fun q => q) s0 lagg H h AA bb) in *. pose proof (one_step s0 lagg H h AA bb) as O. fold s' in O.
  assert (C : tight s' -> tight (callback st (option (box_obj R)) unit s') /\ m_iter (callback st (option (box_obj R)) unit s') = m_iter s' /\
    exists w, steps (callback st (option (box_obj R)) unit s') = w :: steps s).
  { intro X. split; [|split; [|eexists; transitivity (steps s'); [|exact Hsteps]]]; unfold callback; destruct (has_callback st); auto. }
  assert (Hi : m_iter s' = (m_iter s + 1)%Z) by (rewrite Hit'; reflexivity). rewrite <- Hi. apply C.
  clear C. split; [exact F2|]. split; [lia|]. split; [rewrite Hsteps; discriminate|]. intro HG. assert (HG2 : Forall (hessian_is n G) (steps s)) by (rewrite Hsteps in HG; inversion HG; assumption).
  destruct (HI HG2) as (D1 & _ & D2 & D3 & _).
  destruct (O (lam_bound (Z.to_nat (m_iter s))) Hlin F0 (lam_bound_pos _) D1 HG) as (O1 & Og & O2 & O3 & O4 & O5 & _).
  split; [|split; [exact Og|split; [exact O2|split; [exact O5|intros _]]]].
  - rewrite Hi, lam_bound_S in *. replace (Z.to_nat (m_iter s + 1)) with (S (Z.to_nat (m_iter s))) by lia. exact O1.
  - split.
    + apply O4; [|exact D2]. assert (Sm : 0 < sqrt mu) by (apply sqrt_lt_R0; exact Hmu). apply (Rmult_le_reg_r (sqrt mu)); [exact Sm|]. rewrite Rmult_0_l. eapply Rle_trans; [|exact Hrho].
      apply Rplus_le_le_0_compat; [|apply sqrt_pos]. unfold short_step. apply Rplus_le_le_0_compat; [|apply sqrt_pos]. apply Rmult_le_pos; [|apply Rlt_le, Rinv_0_lt_compat; lra].
      apply Rmult_le_pos; [exact He|apply sqrt_pos].
    + rewrite Hi. replace (Z.to_nat (m_iter s + 1 - 1)) with (Z.to_nat (m_iter s)) by lia. exact O3.
Qed.

Hypothesis Hpr : rho + tt <= eps_prim st.
Hypothesis Hvi : (1 + mass m n A) * rho <= eps_prim st.
Variable k0 : nat.
Hypothesis Hk0 : (1 <= k0)%nat.
Hypothesis Hdu : lam_bound k0 + del <= eps_dual st.
Hypothesis Hmx : (Z.of_nat k0 + 1 <= smax_iter st)%Z.

Definition done (r : state) : Prop := tight r /\ (Forall (hessian_is n G) (steps r) -> m_status r = SqpSolved /\ (m_iter r <= Z.of_nat k0 + 1)%Z).

Lemma late_stop : forall s, tight s -> Forall (hessian_is n G) (steps s) -> (Z.of_nat k0 + 1 <= m_iter s)%Z -> terminated st (option (box_obj R)) unit s = true.
Proof.
  intros s (_ & I1 & _ & HI) HG Hm. destruct (HI HG) as (_ & _ & D2 & D3 & D4). destruct (D4 ltac:(lia)) as [D5 D6].
  assert (R0 : 0 <= rho).
  { assert (Sm : 0 < sqrt mu) by (apply sqrt_lt_R0; exact Hmu). apply (Rmult_le_reg_r (sqrt mu)); [exact Sm|]. rewrite Rmult_0_l. eapply Rle_trans; [|exact Hrho].
    apply Rplus_le_le_0_compat; [|apply sqrt_pos]. unfold short_step. apply Rplus_le_le_0_compat; [|apply sqrt_pos]. apply Rmult_le_pos; [|apply Rlt_le, Rinv_0_lt_compat; lra].
    apply Rmult_le_pos; [exact He|apply sqrt_pos]. }
  unfold terminated, termination. apply andb_true_intro. split; [apply andb_true_intro; split|].
  - apply Rleb_true. lra.
  - apply Rleb_true. eapply Rle_trans; [exact D6|]. eapply Rle_trans; [|exact Hdu]. apply Rplus_le_compat_r. unfold lam_bound. apply Rplus_le_compat_r. apply Rmult_le_compat_r; [exact HLa|].
    pose proof amin_range. replace (Z.to_nat (m_iter s - 1)) with ((Z.to_nat (m_iter s - 1) - k0) + k0)%nat by lia. rewrite pow_add.
    assert (0 <= (1 - amin) ^ k0) by (apply pow_le; lra). rewrite <- (Rmult_1_l ((1 - amin) ^ k0)) at 2. apply Rmult_le_compat_r; [assumption|].
    eapply Rle_trans; [apply (pow_incr _ 1); lra|rewrite pow1; lra].
  - apply ext_leb_s_R. rewrite D3. apply max_violation_le; [eapply Rle_trans; [|exact Hvi]|].
    + apply Rmult_le_pos; [|exact R0]. pose proof (mass_nonneg m n A). lra.
    + eapply within_mono; [exact Hvi|]. apply near_within; assumption.
Qed.

Lemma loop_done : forall fuel s, tight s -> Z.to_nat (smax_iter st - m_iter s) = fuel -> terminated st (option (box_obj R)) unit s = false -> done (loop fuel s).
Proof.
  induction fuel as [|f IH]; intros s Ht Hf Et; cbn [loop].
  - split; [exact Ht|]. intro HG. rewrite (late_stop s Ht HG ltac:(lia)) in Et. discriminate.
  - destruct (Z.ltb_spec (m_iter s) (smax_iter st)); [|lia]. destruct (iteration_tight s Ht) as (Ht' & Hi & w & Hw). destruct (terminated st _ _ (it s)) eqn:E.
    + split; [exact Ht'|]. intro HG. split; [reflexivity|]. cbn [set_status m_iter steps] in *. rewrite Hw in HG. inversion HG as [|? ? _ HG2].
      destruct (Z_le_gt_dec (Z.of_nat k0 + 1) (m_iter s)) as [L0|L0]; [rewrite (late_stop s Ht HG2 L0) in Et; discriminate|]. rewrite Hi. lia.
    + apply IH; [exact Ht'|lia|exact E].
Qed.

Lemma solve_done : forall s ob, gdist2 n G (m_x s) xs <= Rb -> m_q s = Some ob -> box_reachable lsolve full n m ob -> dual_dist s La -> done (gsolve s).
Proof.
  intros s ob Hx Hq Hr HD. unfold gsolve. destruct (first_tight s ob Hx Hq Hr HD) as [Ht Hi]. destruct (terminated st _ _ (first s)) eqn:E.
  - split; [exact Ht|]. intros _. split; [reflexivity|]. cbn [set_status m_iter]. rewrite Hi. lia.
  - apply loop_done; [exact Ht|rewrite Hi; reflexivity|exact E].
Qed.
End Run.
End Term.

(** the constants *)
Lemma terminates_dual : forall (P : problem R) grad jac G c c0 A b mu xs ls lsolve full sg r0 D,
  let n := nx P in let m := (ne P + ni P)%nat in let nd := (ne P + ni P + nx P)%nat in
  quadratic_nlp P grad jac G c c0 A b -> 0 < mu -> curvature n G mu -> linearised_by P grad jac ->
  nlp_kkt P (grad xs) (jac xs) xs ls -> licq P (jac xs) xs -> exact_solver full lsolve -> 0 < sg -> 0 < r0 ->
  exists L C, 0 <= L /\ 0 <= C /\ forall ta et lsm epr edu, 0 < ta <= 1 -> 0 <= et < / 2 -> 0 < edu ->
  C * sqrt (L * (et * sqp_eps) / (/ 2 - et)) < epr ->
  forall d, 0 < d -> exists M tol, 0 < tol /\ forall ea, 0 < ea <= tol -> exists K : nat,
  forall st qs hupd hreg it ob s,
  tau st = ta -> eta st = et -> ls_max_iter st = lsm -> eps_prim st = epr -> eps_dual st = edu -> (M <= smax_iter st)%Z ->
  sigma qs = sg -> rho0 qs = r0 -> alpha qs = 1 -> adaptive_rho qs = false -> eps_abs qs = ea -> 0 <= eps_rel qs <= tol ->
  check_termination qs <> 0%Z -> (Z.abs (check_termination qs) * Z.of_nat K <= max_iter qs)%Z ->
  (forall s, let s0 := set_iter (option (box_obj R)) unit (m_iter s + 1)%Z s in
    exists lagg H h AA bb, linearised P (option (box_obj R)) unit hupd hreg s0 H h AA bb /\
    it s = callback st (option (box_obj R)) unit
      (sqp_step P st (option (box_obj R)) unit (fun w d => (w, d)) (fun _ v => v) (fun _ d => d) (native_qp lsolve full qs) (fun q => q) s0 lagg H h AA bb)) ->
  m_q s = Some ob -> box_reachable lsolve full n m ob -> gdist n G (m_x s) xs <= D -> (forall i, (i < nd)%nat -> Rabs (m_lam s i - ls i) <= D) ->
  let r := gsolve P st hreg lsolve full qs it s in
  Forall (hessian_is n G) (steps r) ->
  m_status r = SqpSolved /\ (m_iter r <= M)%Z /\
  (exists o, m_q r = Some o /\ box_reachable lsolve full n m o /\ b_status o = SOLVED) /\
  gdist n G (m_x r) xs <= d + sqrt (L * (et * sqp_eps) / (/ 2 - et)) /\
  (forall i, (i < nd)%nat -> Rabs (m_lam r i - ls i) <= (1 - ta ^ Z.to_nat (lsm - 1)) * Rabs D + edu / 2).
Proof.
  intros P grad jac G c c0 A b mu xs ls lsolve full sg r0 D n m nd HQ Hmu HM HL HK HLI Hex Hsg Hr0.
  set (Rb := D * D + 1). set (B := sqrt (Rb / mu)).
  assert (N1 : forall k (v : vec R), 0 <= rnorm1 k v) by (intros; rewrite rnorm1_def; apply rsum_nonneg; intros; apply Rabs_pos).
  assert (HB : 0 <= B) by apply sqrt_pos. assert (Hcs : 0 <= col_sum P A) by (unfold col_sum; apply rsum_nonneg; intros; apply rsum_nonneg; intros; apply Rabs_pos).
  assert (HMa : forall k l M, 0 <= mass k l M) by (intros; apply mass_nonneg).
  destruct (uniform n m B (rnorm1 nd ls) (mass m n A) (col_sum P A) (mass n n G) (rnorm1 n (grad xs) + mass n n G * B) sg r0) as (Y & S & HY & HS & HU); auto.
  { apply Rplus_le_le_0_compat; [apply N1|apply Rmult_le_pos; auto]. }
  destruct (licq_const P grad jac G c c0 A b HQ xs HLI) as (kap & Hkap & HLC). destruct (all_gap P xs) as (g & Hg & G1 & G2).
  pose proof (N1 nd ls) as N2. assert (Sm : 0 < sqrt mu) by (apply sqrt_lt_R0; exact Hmu). assert (Si : 0 < / sqrt mu) by (apply Rinv_0_lt_compat; exact Sm).
  set (am := mass m n A) in *. set (hm := mass n n G) in *. pose proof (HMa m n A) as Ham. fold am in Ham. pose proof (HMa n n G) as Hhm. fold hm in Hhm.
  set (L := Y + rnorm1 nd ls). assert (HL0 : 0 <= L) by (unfold L; lra).
  set (C := (2 + am) / sqrt mu). assert (HC : 0 < C) by (apply Rdiv_lt_0_compat; lra).
  exists L, C. split; [exact HL0|]. split; [lra|]. intros ta et lsm epr edu Hta Het Hedu Hepr d Hd.
  set (base := sqrt (L * (et * sqp_eps) / (/ 2 - et))) in *. assert (Hbase : 0 <= base) by apply sqrt_pos.
  set (a := ta ^ Z.to_nat (lsm - 1)). assert (Ha : 0 < a <= 1).
  { unfold a. split; [apply pow_lt; lra|]. rewrite <- (pow1 (Z.to_nat (lsm - 1))). apply pow_incr. lra. }
  assert (Hai : 0 < / a) by (apply Rinv_0_lt_compat; lra).
  set (q := kap * (1 + hm / sqrt mu) * (1 + / a)).
  assert (Hhs : 0 <= hm / sqrt mu) by (apply Rmult_le_pos; lra). assert (Has : 0 <= (1 + am) / sqrt mu) by (apply Rmult_le_pos; lra).
  assert (Hq : 0 <= q) by (unfold q; apply Rmult_le_pos; [apply Rmult_le_pos; lra|lra]).
  set (d1 := (epr - C * base) / C). assert (Hd1 : 0 < d1) by (apply Rdiv_lt_0_compat; lra).
  set (d2 := g / (2 * (1 + (1 + am) / sqrt mu))). assert (Hd2 : 0 < d2) by (apply Rdiv_lt_0_compat; lra).
  set (d3 := edu / (2 * (q + 1))). assert (Hd3 : 0 < d3) by (apply Rdiv_lt_0_compat; lra).
  set (dd := Rmin (Rmin d d1) (Rmin d2 d3)).
  assert (Hdd : 0 < dd) by (repeat apply Rmin_glb_lt; assumption).
  assert (L1 : dd <= d) by (unfold dd; eapply Rle_trans; [apply Rmin_l|apply Rmin_l]).
  assert (L2 : dd <= d1) by (unfold dd; eapply Rle_trans; [apply Rmin_l|apply Rmin_r]).
  assert (L3 : dd <= d2) by (unfold dd; eapply Rle_trans; [apply Rmin_r|apply Rmin_l]).
  assert (L4 : dd <= d3) by (unfold dd; eapply Rle_trans; [apply Rmin_r|apply Rmin_r]).
  assert (M1 : C * (dd + base) <= epr).
  { assert (C * dd <= C * d1) by (apply Rmult_le_compat_l; lra). replace (C * d1) with (epr - C * base) in H by (unfold d1; field; lra). lra. }
  assert (M2 : dd * (1 + (1 + am) / sqrt mu) < g).
  { assert (X : dd * (1 + (1 + am) / sqrt mu) <= d2 * (1 + (1 + am) / sqrt mu)) by (apply Rmult_le_compat_r; lra).
    replace (d2 * (1 + (1 + am) / sqrt mu)) with (g / 2) in X by (unfold d2; field; split; [lra|]; intro Z0; assert (sqrt mu + (1 + am) = sqrt mu * (1 + (1 + am) / sqrt mu)) by (field; lra); assert (0 < sqrt mu * (1 + (1 + am) / sqrt mu)) by (apply Rmult_lt_0_compat; lra); lra). lra. }
  set (del := kap * (dd * (1 + hm / sqrt mu))). assert (Hdel0 : 0 <= del) by (apply Rmult_le_pos; [exact Hkap|apply Rmult_le_pos; lra]).
  assert (M3 : del / a + del <= edu / 2).
  { replace (del / a + del) with (q * dd) by (unfold del, q; field; lra). assert (X : q * dd <= q * d3) by (apply Rmult_le_compat_l; assumption).
    assert (X2 : (q + 1) * d3 = edu / 2) by (unfold d3; field; lra). lra. }
  set (La := Rabs D). assert (HLa : 0 <= La) by apply Rabs_pos.
  destruct (pow_lt_1_zero (1 - a) ltac:(rewrite Rabs_right; lra) (edu / (2 * (La + 1))) ltac:(apply Rdiv_lt_0_compat; lra)) as (k1 & Hk1).
  set (k0 := Datatypes.S k1). exists (Z.of_nat k0 + 1)%Z.
  assert (M4 : (1 - a) ^ k0 * La + del / a + del <= edu).
  { specialize (Hk1 k0 ltac:(unfold k0; lia)). rewrite Rabs_right in Hk1 by (apply Rle_ge, pow_le; lra).
    assert (X : (1 - a) ^ k0 * La <= edu / (2 * (La + 1)) * La) by (apply Rmult_le_compat_r; lra).
    assert (X2 : edu / (2 * (La + 1)) * (La + 1) = edu / 2) by (field; lra). assert (0 < edu / (2 * (La + 1))) by (apply Rdiv_lt_0_compat; lra). lra. }
  destruct (small_tolerance n nd mu et L Y dd Hmu Het HL0 HY Hdd) as (e0 & He0 & HE).
  exists (e0 / (1 + S)). split; [apply Rdiv_lt_0_compat; lra|]. intros ea [Hea1 Hea2]. destruct (HU ea Hea1) as (K & HK2). exists K.
  intros st qs hupd hreg it ob s T1 T2 T3 T4 T5 T6 E1 E2 E3 E4 E5 [E6 E7] E8 E9 Hit Eq Hr HD HDl r HG.
  set (e := ea + eps_rel qs * S).
  assert (HES : 0 <= eps_rel qs * S) by (apply Rmult_le_pos; assumption).
  assert (Hee : 0 <= e <= e0).
  { split; [unfold e; lra|]. unfold e. assert (eps_rel qs * S <= e0 / (1 + S) * S) by (apply Rmult_le_compat_r; assumption).
    replace e0 with (e0 / (1 + S) + e0 / (1 + S) * S) by (field; lra). lra. }
  destruct (HE e Hee) as (R1 & R2 & R3 & R4).
  assert (HD2 : gdist2 n G (m_x s) xs <= Rb).
  { unfold gdist in HD. assert (Hp : 0 <= gdist2 n G (m_x s) xs) by (apply (curv_psd P G mu Hmu HM)).
    pose proof (sqrt_sqrt _ Hp) as Q. pose proof (sqrt_pos (gdist2 n G (m_x s) xs)) as Q2. unfold Rb. nra. }
  assert (HT : e * (INR n * e / mu + sqrt (INR n * e * Y / mu)) + e * Y <= Rb) by (unfold Rb; pose proof (Rle_0_sqr D) as Q; unfold Rsqr in Q; lra).
  set (rho := (dd + base) / sqrt mu). set (tt := dd / sqrt mu).
  assert (Erho : rho * sqrt mu = dd + base) by (unfold rho; field; lra). assert (Ett : tt * sqrt mu = dd) by (unfold tt; field; lra).
  assert (Htt0 : 0 <= tt) by (apply Rmult_le_pos; lra). assert (Hrho0 : 0 <= rho) by (apply Rmult_le_pos; lra).
  assert (Eam : amin st = a) by (unfold amin, ls_budget, a; rewrite T1, T3; reflexivity).
  pose proof (solve_done P grad jac G c c0 A b HQ mu Hmu HM xs ls HK st hupd hreg lsolve full qs HL) as SD.
  specialize (SD ltac:(rewrite T1; lra) ltac:(rewrite T2; lra) Rb e Y ltac:(lra) HT).
  assert (HSS : forall H x o, hess_ok P G H -> gdist2 n G x xs <= Rb -> box_reachable lsolve full n m o ->
    exists o', box_solve_cold lsolve full qs (sub_qp P H (grad x) (jac x) (constr_values P x) x) o = Some o' /\ b_status o' = SOLVED /\
    rnorm1 nd (fun i => b_y o' i - ls i) <= Y /\
    certificate (sub_qp P H (grad x) (jac x) (constr_values P x) x) (b_x o') (b_y o') (b_z o') (b_q o') e e e).
  { intros H x o HH Hx Ho. pose proof (subproblems P grad jac G c c0 A b HQ mu Hmu HM xs ls HK Rb H x HH Hx) as F. cbv zeta in F. fold B n m nd in F.
    exact (HK2 lsolve full qs _ _ _ o Hex E1 E2 E3 E4 E5 E6 E8 E9 F Ho). }
  specialize (SD HSS rho tt del La). rewrite T2, Erho, Ett in SD. fold n nd L in SD. specialize (SD R1 R3).
  assert (HDD : forall H x p lk, hess_ok P G H -> inexact_step e e (sub_qp P H (grad x) (jac x) (constr_values P x) x, (p, lk)) ->
    (forall j, (j < n)%nat -> Rabs (x j + p j - xs j) <= tt) -> forall i, (i < nd)%nat -> Rabs (lk i - ls i) <= del).
  { intros H x p lk HH HI Hp i Hi. eapply Rle_trans; [apply (dual_near P grad jac G c c0 A b HQ xs ls HK kap g H x p lk e tt Hkap ltac:(lra) Htt0 HH HLC G1 G2 HI Hp)|]; [|exact Hi|].
    - fold n m am. unfold tt. replace ((1 + am) * (dd / sqrt mu)) with (dd * ((1 + am) / sqrt mu)) by (field; lra). lra.
    - fold n hm. unfold del. apply Rmult_le_compat_l; [exact Hkap|]. unfold tt. replace (hm * (dd / sqrt mu)) with (dd * (hm / sqrt mu)) by (field; lra). lra. }
  specialize (SD HDD HLa Hdel0 it Hit).
  assert (B1 : rho + tt <= eps_prim st).
  { rewrite T4. eapply Rle_trans; [|exact M1]. unfold rho, tt, C. replace ((dd + base) / sqrt mu + dd / sqrt mu) with ((2 * dd + base) / sqrt mu) by (field; lra).
    replace ((2 + am) / sqrt mu * (dd + base)) with ((2 + am) * (dd + base) / sqrt mu) by (field; lra). apply Rmult_le_compat_r; [lra|].
    assert (0 <= am * (dd + base)) by (apply Rmult_le_pos; lra). lra. }
  assert (B2 : (1 + am) * rho <= eps_prim st).
  { rewrite T4. eapply Rle_trans; [|exact M1]. unfold rho, C. replace ((2 + am) / sqrt mu * (dd + base)) with ((1 + am) * ((dd + base) / sqrt mu) + rho) by (unfold rho; field; lra). lra. }
  specialize (SD B1 B2 k0 ltac:(unfold k0; lia)). rewrite T5 in SD. unfold lam_bound in SD. rewrite Eam in SD. specialize (SD M4 T6 s ob HD2 Eq Hr).
  destruct SD as [(S1 & S2 & S3 & S4) S5].
  { intros i Hi. eapply Rle_trans; [apply HDl; exact Hi|apply Rle_abs]. }
  fold r in S1, S2, S3, S4, S5. destruct (S5 HG) as [S6 S7]. destruct (S4 HG) as (S9 & S8 & _). destruct (S1 HG) as (_ & _ & o & O1 & O2 & O3).
  split; [exact S6|]. split; [exact S7|]. split; [exists o; auto|]. split; [rewrite Erho in S8; fold n in S8; lra|].
  intros i Hi. eapply Rle_trans; [apply (S9 i Hi)|]. unfold lam_bound. rewrite Eam. fold a. fold La. apply Rplus_le_compat.
  - apply Rmult_le_compat_r; [exact HLa|]. replace (Z.to_nat (m_iter r)) with (Datatypes.S (Z.to_nat (m_iter r - 1))) by lia. cbn [pow].
    assert (X : (1 - a) ^ Z.to_nat (m_iter r - 1) <= 1) by (eapply Rle_trans; [apply (pow_incr _ 1); lra|rewrite pow1; lra]).
    apply (Rle_trans _ ((1 - a) * 1)); [|lra]. apply Rmult_le_compat_l; [lra|exact X].
  - lra.
Qed.

Lemma terminates : forall (P : problem R) grad jac G c c0 A b mu xs ls lsolve full sg r0 D,
  let n := nx P in let m := (ne P + ni P)%nat in let nd := (ne P + ni P + nx P)%nat in
  quadratic_nlp P grad jac G c c0 A b -> 0 < mu -> curvature n G mu -> linearised_by P grad jac ->
  nlp_kkt P (grad xs) (jac xs) xs ls -> licq P (jac xs) xs -> exact_solver full lsolve -> 0 < sg -> 0 < r0 ->
  exists L C, 0 <= L /\ 0 <= C /\ forall ta et lsm epr edu, 0 < ta <= 1 -> 0 <= et < / 2 -> 0 < edu ->
  C * sqrt (L * (et * sqp_eps) / (/ 2 - et)) < epr ->
  forall d, 0 < d -> exists M tol, 0 < tol /\ forall ea, 0 < ea <= tol -> exists K : nat,
  forall st qs hupd hreg it ob s,
  tau st = ta -> eta st = et -> ls_max_iter st = lsm -> eps_prim st = epr -> eps_dual st = edu -> (M <= smax_iter st)%Z ->
  sigma qs = sg -> rho0 qs = r0 -> alpha qs = 1 -> adaptive_rho qs = false -> eps_abs qs = ea -> 0 <= eps_rel qs <= tol ->
  check_termination qs <> 0%Z -> (Z.abs (check_termination qs) * Z.of_nat K <= max_iter qs)%Z ->
  (forall s, let s0 := set_iter (option (box_obj R)) unit (m_iter s + 1)%Z s in
    exists lagg H h AA bb, linearised P (option (box_obj R)) unit hupd hreg s0 H h AA bb /\
    it s = callback st (option (box_obj R)) unit
      (sqp_step P st (option (box_obj R)) unit (fun w d => (w, d)) (fun _ v => v) (fun _ d => d) (native_qp lsolve full qs) (fun q => q) s0 lagg H h AA bb)) ->
  m_q s = Some ob -> box_reachable lsolve full n m ob -> gdist n G (m_x s) xs <= D -> (forall i, (i < nd)%nat -> Rabs (m_lam s i - ls i) <= D) ->
  let r := gsolve P st hreg lsolve full qs it s in
  Forall (hessian_is n G) (steps r) ->
  m_status r = SqpSolved /\ (m_iter r <= M)%Z /\
  (exists o, m_q r = Some o /\ box_reachable lsolve full n m o /\ b_status o = SOLVED) /\
  gdist n G (m_x r) xs <= d + sqrt (L * (et * sqp_eps) / (/ 2 - et)).
Proof.
  intros P grad jac G c c0 A b mu xs ls lsolve full sg r0 D n m nd HQ Hmu HM HL HK HLI Hex Hsg Hr0.
  destruct (terminates_dual P grad jac G c c0 A b mu xs ls lsolve full sg r0 D HQ Hmu HM HL HK HLI Hex Hsg Hr0) as (L & C & HL0 & HC & F).
  exists L, C. split; [exact HL0|]. split; [exact HC|]. intros ta et lsm epr edu H1 H2 H3 H4 d Hd.
  destruct (F ta et lsm epr edu H1 H2 H3 H4 d Hd) as (M & tol & Ht & F1). exists M, tol. split; [exact Ht|]. intros ea Hea.
  destruct (F1 ea Hea) as (K & F2). exists K. intros st qs hupd hreg it ob s T1 T2 T3 T4 T5 T6 E1 E2 E3 E4 E5 E6 E7 E8 Hit Eq Hr HD HDl r HG.
  destruct (F2 st qs hupd hreg it ob s T1 T2 T3 T4 T5 T6 E1 E2 E3 E4 E5 E6 E7 E8 Hit Eq Hr HD HDl HG) as (X1 & X2 & X3 & X4 & _). auto.
Qed.

Notation BO := (option (box_obj R)).
Lemma native_gsolve : forall P st hupd hreg lsolve full qs s,
  native_solve lsolve full qs P st hupd hreg s =
  gsolve P st hreg lsolve full qs (sqp_iteration P st BO unit hupd (fun w d => (w, d)) (fun _ v => v) (fun _ d => d) (native_qp lsolve full qs)) s.
Proof.
  intros. unfold native_solve, sqp_solve, gsolve. destruct (terminated _ _ _ _); [reflexivity|].
  generalize (sqp_first P st BO unit hreg (fun w d => (w, d)) (fun _ v => v) (fun _ d => d) (native_qp lsolve full qs) (fun q => q) s).
  induction (Z.to_nat (smax_iter st - 1)) as [|k IH]; intro s1; cbn [sqp_loop loop]; [reflexivity|].
  destruct (m_iter s1 <? smax_iter st)%Z; [|reflexivity]. destruct (terminated _ _ _ _); [reflexivity|apply IH].
Qed.
Lemma native_iteration : forall P st hupd hreg lsolve full qs s, let s0 := set_iter BO unit (m_iter s + 1)%Z s in
  exists lagg H h AA bb, linearised P BO unit hupd hreg s0 H h AA bb /\
    sqp_iteration P st BO unit hupd (fun w d => (w, d)) (fun _ v => v) (fun _ d => d) (native_qp lsolve full qs) s =
    callback st BO unit (sqp_step P st BO unit (fun w d => (w, d)) (fun _ v => v) (fun _ d => d) (native_qp lsolve full qs) (fun q => q) s0 lagg H h AA bb).
Proof.
  intros. unfold sqp_iteration. fold s0. destruct (p_lag P _ _) as [[[lagg h] bb] AA] eqn:E. exists lagg. eexists. exists h, AA, bb. split; [|reflexivity].
  right. exists lagg. eexists. split; [exact E|reflexivity].
Qed.
Lemma exact_gsolve : forall P st hreg lsolve full qs s,
  native_exact lsolve full qs P st hreg s =
  gsolve P st hreg lsolve full qs (exact_iteration P st BO unit hreg (fun w d => (w, d)) (fun _ v => v) (fun _ d => d) (native_qp lsolve full qs)) s.
Proof.
  intros. unfold native_exact, exact_solve, gsolve. destruct (terminated _ _ _ _); [reflexivity|].
  generalize (sqp_first P st BO unit hreg (fun w d => (w, d)) (fun _ v => v) (fun _ d => d) (native_qp lsolve full qs) (fun q => q) s).
  induction (Z.to_nat (smax_iter st - 1)) as [|k IH]; intro s1; cbn [exact_loop loop]; [reflexivity|].
  destruct (m_iter s1 <? smax_iter st)%Z; [|reflexivity]. destruct (terminated _ _ _ _); [reflexivity|apply IH].
Qed.
Lemma exact_iteration_step : forall P st hupd hreg lsolve full qs s, let s0 := set_iter BO unit (m_iter s + 1)%Z s in
  exists lagg H h AA bb, linearised P BO unit hupd hreg s0 H h AA bb /\
    exact_iteration P st BO unit hreg (fun w d => (w, d)) (fun _ v => v) (fun _ d => d) (native_qp lsolve full qs) s =
    callback st BO unit (sqp_step P st BO unit (fun w d => (w, d)) (fun _ v => v) (fun _ d => d) (native_qp lsolve full qs) (fun q => q) s0 lagg H h AA bb).
Proof.
  intros. unfold exact_iteration. fold s0. destruct (p_lag_full P _ _) as [[[[lagg H] h] bb] AA] eqn:E. exists lagg. eexists. exists h, AA, bb. split; [|reflexivity].
  left. exists lagg, H. split; [exact E|reflexivity].
Qed.
Lemma exact_hessians : forall P G st hreg lsolve full qs s,
  (forall x lam lagg H h bb AA, p_lag_full P x lam = (lagg, H, h, bb, AA) -> hess_ok P G (hreg H)) ->
  Forall (hessian_is (nx P) G) (steps (native_exact lsolve full qs P st hreg s)).
Proof.
  intros P G st hreg lsolve full qs s HH.
  apply (exact_solve_inv P st BO unit hreg (fun w d => (w, d)) (fun _ v => v) (fun _ d => d) (native_qp lsolve full qs) (fun q => q) (fun s => Forall (hessian_is (nx P) G) (steps s))).
  - intros s1 s2 (_ & _ & _ & _ & _ & _ & _ & _ & _ & E2) F. rewrite <- E2. exact F.
  - intros s1 s2 lagg H h AA bb E (p & lk & d2 & i & _ & _ & _ & _ & _ & _ & _ & _ & _ & _ & _ & _ & _ & _ & _ & Es) F. rewrite Es. constructor; [|exact F]. exact (HH _ _ _ _ _ _ _ E).
  - constructor.
Qed.
