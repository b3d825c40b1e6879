(** Proofs about the scaled pseudospectral ODE solver: a scaled problem without parameters is an unscaled one for the
    scaled right-hand side, and linear changes of the variables commute with collocation. *)
Require Import Arith List Bool Lia Reals Lra FunctionalExtensionality.
From Verif Require Import Scal RSum PolyR Poly_Spec Blk Ocp_Proofs Cas_Model Cas_Spec Cas_Proofs Pso_Model Pso_Spec Pso_Proofs PsoScale_Spec.
Import ListNotations.
Local Open Scope R_scope.

Lemma lin_colloc : forall P n (tm : nat -> R) (v w : nat -> nat -> R),
  (forall j, (j < n)%nat -> exists q q', is_poly P q /\ derivative_of q q' /\
     (forall t, (t <= P)%nat -> q (tm t) = v j t) /\ (forall l, (l < P)%nat -> q' (tm l) = w j l)) ->
  forall c : nat -> R, exists q q', is_poly P q /\ derivative_of q q' /\
     (forall t, (t <= P)%nat -> q (tm t) = rsum n (fun j => c j * v j t)) /\
     (forall l, (l < P)%nat -> q' (tm l) = rsum n (fun j => c j * w j l)).
Proof.
  intros P n tm v w H c. induction n as [|n IH].
  - exists (fun _ => 0), (fun _ => 0). split; [exists (fun _ => 0); intro x; rewrite rsum_zero; auto; intros; ring|].
    split; [intro x; apply derivable_pt_lim_const|]. split; intros; reflexivity.
  - destruct IH as (q & q' & [a Hq] & Hd & H1 & H2); [auto|]. destruct (H n ltac:(lia)) as (r & r' & [b Hr] & Hd' & H3 & H4).
    exists (fun x => q x + c n * r x), (fun x => q' x + c n * r' x). split; [|split; [|split]].
    + exists (fun k => a k + c n * b k). intro x. rewrite Hq, Hr, <- rsum_scal, <- rsum_plus. apply rsum_ext. intros. ring.
    + intro x. apply (derivable_pt_lim_plus q (fun x => c n * r x)); [apply Hd|]. apply (derivable_pt_lim_scal r (c n)). apply Hd'.
    + intros t Ht. rewrite rsum_S, H1, H3; auto.
    + intros l Hl. rewrite rsum_S, H2, H4; auto.
Qed.

Lemma inv_cancel : forall n A B (v : nat -> R) i, two_sided n A B -> (i < n)%nat ->
  rsum n (fun j => A i j * rsum n (fun k => B j k * v k)) = v i.
Proof.
  intros n A B v i [H _] Hi. transitivity (rsum n (fun k => (if (k =? i)%nat then v k else 0))).
  - transitivity (rsum n (fun j => rsum n (fun k => A i j * B j k * v k))).
    + apply rsum_ext. intros j _. rewrite <- rsum_scal. apply rsum_ext. intros. ring.
    + rewrite rsum_swap. apply rsum_ext. intros k Hk. rewrite rsum_scal_r. change (rsum n (fun j => A i j * B j k)) with (entry n A B i k). rewrite (H i k Hi Hk). destruct (Nat.eqb_spec i k), (Nat.eqb_spec k i); try lia; ring.
  - apply rsum_delta; auto.
Qed.
Lemma two_sym : forall n A B, two_sided n A B -> two_sided n B A.
Proof. intros n A B [H K]. split; auto. Qed.

(** the unscaled object with the scaled right-hand side *)
Definition bare (inv : nat -> mat R -> mat R) (s : pso) : pso :=
  mkPso (p_order s) (p_segs s) (p_nx s) (p_nu s) 0 false (p_P s) (p_R s) (p_dt s) (pso_fun inv s).

Section S.
Variable inv : nat -> mat R -> mat R.
Variable ipopt : nlp -> narg -> option (vec R).
Variable s : pso.
Local Notation nx := (p_nx s).
Local Notation nu := (p_nu s).
Local Notation N := (pso_N s).
Hypothesis Hs : scaled s.
Hypothesis HP : two_sided nx (p_P s) (inv nx (p_P s)).
Hypothesis HR : two_sided nu (p_R s) (inv nu (p_R s)).

Lemma bare_plain : plain (bare inv s).
Proof.
  destruct Hs as (A & B & C & D & E & F & G). repeat split; auto. cbn [bare p_ode p_nx]. unfold pso_fun. rewrite E. exact G.
Qed.
Lemma bare_nlp : pso_nlp inv s = pso_nlp inv (bare inv s).
Proof.
  assert (G : pso_Gv inv s = pso_Gv inv (bare inv s)).
  { extensionality x. extensionality p. unfold pso_Gv. rewrite (pso_G_some inv (bare inv s) bare_plain). unfold pso_G.
    destruct Hs as (_ & _ & _ & _ & E & F & O).
    rewrite cas_dynamics_some; [|unfold pso_fun; rewrite E; unfold num_args, pso_cas; cbn [f_nin cNP cND]; rewrite F; reflexivity|
                                 unfold pso_fun; rewrite E; exact O].
    unfold pso_cas. rewrite F. cbn [bare p_order p_segs p_nx p_nu p_np p_dt]. unfold pso_N. cbn [bare p_order p_segs].
    unfold dyn_res, dyn_rhs. extensionality i. f_equal. }
  unfold pso_nlp. rewrite G. assert (F : p_np s = 0%nat) by apply Hs. unfold pso_ng, pso_N. rewrite F. reflexivity.
Qed.
Lemma bare_set : forall a z0 w P, pso_set s a z0 w P = pso_set (bare inv s) a z0 w P.
Proof. reflexivity. Qed.

Lemma f_scaled : forall z r i, f_val (pso_fun inv s) [z; r] i = rsum nx (fun j => p_P s i j * f_val (p_ode s) [lmul nx (inv nx (p_P s)) z; lmul nu (inv nu (p_R s)) r] j).
Proof. intros. destruct Hs as (_ & _ & _ & _ & E & F & _). unfold pso_fun. rewrite E, F. reflexivity. Qed.

Definition unx (Z : nat -> nat -> R) (k i : nat) : R := rsum nx (fun j => inv nx (p_P s) i j * Z k j).
Lemma lmul_map : forall n M v, lmul n M (map v (seq 0 n)) = map (fun i => rsum n (fun j => M i j * v j)) (seq 0 n).
Proof.
  intros. unfold lmul. apply map_ext. intro i. apply rsum_ext. intros j Hj. f_equal. rewrite nth_indep with (d' := v 0%nat) by (rewrite map_length, seq_length; auto).
  rewrite (map_nth v). rewrite seq_nth; auto.
Qed.
Lemma scaled_discrete : forall z0 r pv Z, length z0 = nx ->
  (discrete_solution (bare inv s) z0 r pv Z <->
   discrete_solution s (lmul nx (inv nx (p_P s)) z0) (fun k => lmul nu (inv nu (p_R s)) (r k)) pv (unx Z)).
Proof.
  intros z0 r pv Z Hz. assert (F : p_np s = 0%nat) by apply Hs.
  assert (Rb : forall k i, rhs (bare inv s) (map (Z k) (seq 0 nx)) (r k) pv i =
    rsum nx (fun j => p_P s i j * rhs s (map (unx Z k) (seq 0 nx)) (lmul nu (inv nu (p_R s)) (r k)) pv j)).
  { intros k i. unfold rhs. cbn [bare p_np p_ode]. rewrite F. cbn [Nat.ltb Nat.leb]. rewrite f_scaled. apply rsum_ext. intros j _. rewrite lmul_map. reflexivity. }
  assert (Tm : forall sg j, pso_time (bare inv s) sg j = pso_time s sg j) by (intros; unfold pso_time; rewrite F; reflexivity).
  assert (Zn : forall i, (i < nx)%nat -> nth i (lmul nx (inv nx (p_P s)) z0) 0 = rsum nx (fun j => inv nx (p_P s) i j * nth j z0 0)).
  { intros i Hi. unfold lmul. match goal with |- nth i (map ?f _) 0 = _ => rewrite nth_indep with (d' := f 0%nat) by (rewrite map_length, seq_length; auto); rewrite (map_nth f) end. rewrite seq_nth by auto. reflexivity. }
  split; intros [A B].
  - split.
    + intros i Hi. rewrite Zn by auto. unfold unx. apply rsum_ext. intros j Hj. f_equal. apply (A j Hj).
    + intros sg i Hsg Hi.
      destruct (lin_colloc (p_order s) nx (pso_time s sg) (fun j t => Z (sg * p_order s + t)%nat j)
        (fun j l => rsum nx (fun m => p_P s j m * rhs s (map (unx Z (sg * p_order s + l)%nat) (seq 0 nx)) (lmul nu (inv nu (p_R s)) (r (sg * p_order s + l)%nat)) pv m))
        ) with (c := fun j => inv nx (p_P s) i j) as (q & q' & Q1 & Q2 & Q3 & Q4).
      { intros j Hj. destruct (B sg j Hsg Hj) as (q & q' & Q1 & Q2 & Q3 & Q4). exists q, q'. split; [exact Q1|]. split; [exact Q2|].
        split; [intros t Ht; rewrite <- Tm; apply (Q3 t Ht)|]. intros l Hl. rewrite <- Tm, (Q4 l Hl). apply Rb. }
      exists q, q'. split; [exact Q1|]. split; [exact Q2|]. split; [intros t Ht; rewrite Q3 by auto; reflexivity|].
      intros l Hl. rewrite Q4 by auto. exact (inv_cancel nx _ _ _ i (two_sym _ _ _ HP) Hi).
  - split.
    + intros i Hi. cbn [bare p_segs p_order p_nx] in *. specialize (fun j Hj => A j Hj) as A'. 
      rewrite <- (inv_cancel nx (p_P s) (inv nx (p_P s)) (fun k => Z (p_segs s * p_order s)%nat k) i HP Hi).
      rewrite <- (inv_cancel nx (p_P s) (inv nx (p_P s)) (fun k => nth k z0 0) i HP Hi).
      apply rsum_ext. intros j Hj. f_equal. rewrite <- Zn by auto. apply (A' j Hj).
    + intros sg i Hsg Hi. cbn [bare p_segs p_order p_nx] in *.
      destruct (lin_colloc (p_order s) nx (pso_time s sg) (fun j t => unx Z (sg * p_order s + t)%nat j)
        (fun j l => rhs s (map (unx Z (sg * p_order s + l)%nat) (seq 0 nx)) (lmul nu (inv nu (p_R s)) (r (sg * p_order s + l)%nat)) pv j)
        ) with (c := fun j => p_P s i j) as (q & q' & Q1 & Q2 & Q3 & Q4).
      { intros j Hj. destruct (B sg j Hsg Hj) as (q & q' & Q1 & Q2 & Q3 & Q4). exists q, q'. repeat split; auto. }
      exists q, q'. split; [exact Q1|]. split; [exact Q2|]. split.
      * intros t Ht. rewrite Tm, Q3 by auto. exact (inv_cancel nx (p_P s) (inv nx (p_P s)) (fun k => Z (sg * p_order s + t)%nat k) i HP Hi).
      * intros l Hl. rewrite Tm, Q4 by auto. symmetry. apply Rb.
Qed.

(** the feasible points of the scaled problem *)
Lemma scaled_feasible : forall a z0 w P pv x, clean s a -> length z0 = nx ->
  (feasible (pso_nlp inv s) (pso_set s a z0 w P) pv x <->
   (forall k i, (k < N)%nat -> (i < nu)%nat -> unscaled_control inv s x k i = rsum nu (fun j => inv nu (p_R s) i j * w (k * nu + j)%nat)) /\
   discrete_solution s (lmul nx (inv nx (p_P s)) z0) (fun k => map (unscaled_control inv s x k) (seq 0 nu)) pv (unscaled_states inv s x)).
Proof.
  intros a z0 w P pv x Hc Hz. rewrite bare_nlp, (bare_set a z0 w P).
  rewrite (feasible_iff inv (bare inv s) bare_plain a z0 w P pv x Hc Hz). rewrite scaled_discrete by auto.
  assert (Q : (forall i, (i < pso_N (bare inv s) * p_nu (bare inv s))%nat -> x (pso_N (bare inv s) * p_nx (bare inv s) + i)%nat = w i) <->
    (forall k i, (k < N)%nat -> (i < nu)%nat -> unscaled_control inv s x k i = rsum nu (fun j => inv nu (p_R s) i j * w (k * nu + j)%nat))).
  { cbn [bare p_nx p_nu]. change (pso_N (bare inv s)) with N. split.
    - intros H k i Hk Hi. unfold unscaled_control. apply rsum_ext. intros j Hj. f_equal. rewrite <- Nat.add_assoc. apply H. nia.
    - intros H i Hi. rewrite Nat.mul_comm in Hi. destruct (Ocp_Proofs.index_split nu N i Hi) as (k & j & -> & Hk & Hj).
      rewrite <- (inv_cancel nu (p_R s) (inv nu (p_R s)) (fun j => w (k * nu + j)%nat) j HR Hj).
      transitivity ((fun j => x (N * nx + (k * nu + j))%nat) j); [reflexivity|].
      rewrite <- (inv_cancel nu (p_R s) (inv nu (p_R s)) (fun j => x (N * nx + (k * nu + j))%nat) j HR Hj).
      apply rsum_ext. intros m Hm. f_equal. rewrite <- (H k m Hk Hm). unfold unscaled_control. apply rsum_ext. intros. f_equal. f_equal. lia. }
  rewrite Q. split; intros [A B]; (split; [exact A|]); revert B; apply discrete_ext; intros k Hk; [|symmetry]; unfold slice; cbn [bare p_nx p_nu]; change (pso_N (bare inv s)) with N;
    rewrite lmul_map; reflexivity.
Qed.
End S.
