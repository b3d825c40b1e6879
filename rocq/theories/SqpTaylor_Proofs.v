(** A Lipschitz Hessian gives the Taylor estimates of the Newton region. *)
Require Import Reals Lra Lia.
Require Import Verif.Scal Verif.RSum Verif.RNorm Verif.Qp_Model Verif.Qp_Spec Verif.Sqp_Model Verif.Sqp_Spec
  Verif.SqpGlob_Spec Verif.SqpGlob_Proofs Verif.SqpExact_Spec.
Local Open Scope R_scope.

Lemma grow f f' a b c : (forall u, 0 <= u <= 1 -> derivable_pt_lim f u (f' u)) ->
  (forall u, 0 < u < 1 -> f' u <= a + b * u + c * (u * u)) -> f 1 <= f 0 + a + b / 2 + c / 3.
Proof.
  intros HD Hb.
  destruct (MVT_cor2 (fun u => f u - a * u - b / 2 * (u * u) - c / 3 * (u * (u * u)))
     (fun u => f' u - a * 1 - b / 2 * (1 * u + u * 1) - c / 3 * (1 * (u * u) + u * (1 * u + u * 1))) 0 1) as (t & E & Ht); [lra| |].
  - intros u Hu. apply derivable_pt_lim_minus; [apply derivable_pt_lim_minus; [apply derivable_pt_lim_minus; [apply HD; auto|]|]|].
    + apply (derivable_pt_lim_scal (fun u => u) a u 1). apply derivable_pt_lim_id.
    + apply (derivable_pt_lim_scal (fun u => u * u) (b / 2) u). apply (derivable_pt_lim_mult id id); apply derivable_pt_lim_id.
    + apply (derivable_pt_lim_scal (fun u => u * (u * u)) (c / 3) u). apply (derivable_pt_lim_mult id (fun u => u * u)); [apply derivable_pt_lim_id|].
      apply (derivable_pt_lim_mult id id); apply derivable_pt_lim_id.
  - specialize (Hb t Ht). cbv beta in E. lra.
Qed.

Section Taylor.
Variable P : problem R.
Variable grad : vec R -> vec R.
Variable jac hess : vec R -> mat R.
Variables mm L rad : R.
Variable xs : vec R.
Notation n := (nx P).
Hypothesis HA : linear_constraints P jac.
Hypothesis HC : cost_derivative P grad.
Hypothesis HCr : reads_entries P.
Hypothesis HG : gradient_derivative P grad hess.
Hypothesis HGr : gradient_reads_entries P grad.
Hypothesis HL : lipschitz_hessian P hess L xs rad.
Hypothesis HL0 : 0 < L.
Hypothesis Hm : forall x, near P xs rad x -> forall v, mm * rdot n v v <= qf n (hess x) v.

Lemma near_segment x y u : near P xs rad x -> near P xs rad y -> 0 <= u <= 1 -> near P xs rad (fun j => x j + u * (y j - x j)).
Proof.
  intros [F1 D1] [F2 D2] Hu. split; [apply (segment_feasible P jac); auto|].
  unfold edist. rewrite (enorm_ext n _ (fun j => (1 - u) * (x j - xs j) + u * (y j - xs j))) by (intros; ring).
  eapply Rle_trans; [apply enorm_plus|]. rewrite !enorm_scal by lra. fold (edist n x xs) (edist n y xs). nra.
Qed.

Lemma gradient_taylor x y w : near P xs rad x -> near P xs rad y -> let d := fun j => y j - x j in
  rdot n (fun j => grad y j - grad x j - rmv n (hess x) d j) w <= L / 2 * (enorm n d * enorm n d) * enorm n w.
Proof.
  intros HX HY d.
  assert (G := grow (fun u => rdot n (grad (fun j => x j + u * d j)) w) (fun u => rdot n (rmv n (hess (fun j => x j + u * d j)) d) w)
    (rdot n (rmv n (hess x) d) w) (L * (enorm n d * enorm n d) * enorm n w) 0 (fun u _ => HG x d w u)).
  assert (E1 : rdot n (grad (fun j => x j + 1 * d j)) w = rdot n (grad y) w).
  { apply rdot_ext; auto. intros j Hj. apply HGr; auto. intros k Hk. unfold d. ring. }
  assert (E0 : rdot n (grad (fun j => x j + 0 * d j)) w = rdot n (grad x) w).
  { apply rdot_ext; auto. intros j Hj. apply HGr; auto. intros k Hk. unfold d. ring. }
  cbv beta in G. rewrite E1, E0 in G. rewrite !rdot_minus_l.
  assert (X : rdot n (grad y) w <= rdot n (grad x) w + rdot n (rmv n (hess x) d) w + L * (enorm n d * enorm n d) * enorm n w / 2 + 0 / 3).
  { apply G. intros u Hu. assert (Nz := near_segment x y u HX HY ltac:(lra)). change (near P xs rad (fun j => x j + u * d j)) in Nz.
    assert (A := HL x _ d w HX Nz). rewrite rdot_minus_l in A.
    assert (Ed : edist n (fun j => x j + u * d j) x = u * enorm n d).
    { unfold edist. rewrite (enorm_ext n _ (fun j => u * d j)) by (intros; ring). apply enorm_scal. lra. }
    rewrite Ed in A. lra. }
  lra.
Qed.
Lemma taylor_region : newton_region P grad hess mm L xs rad.
Proof.
  unfold newton_region. cbv zeta. intros x HX. split; [apply Hm; auto|]. intros y HY. set (d := fun j => y j - x j). split.
  - set (w := fun j => grad y j - grad x j - rmv n (hess x) d j). assert (A := gradient_taylor x y w HX HY). cbv zeta in A. fold d w in A.
    change (edist n y x) with (enorm n d). rewrite <- enorm_sq in A. assert (W0 := enorm_nonneg n w).
    destruct (Req_dec (enorm n w) 0) as [E|N].
    + rewrite E. apply Rmult_le_pos; [lra|apply Rle_0_sqr].
    + apply Rmult_le_reg_r in A; [exact A|lra].
  - assert (G := grow (fun u => p_cost P (fun j => x j + u * d j)) (fun u => rdot n (grad (fun j => x j + u * d j)) d)
      (rdot n (grad x) d) (qf n (hess x) d) (L / 2 * (enorm n d * (enorm n d * enorm n d))) (fun u _ => HC x d u)).
    cbv beta in G. rewrite (HCr (fun j => x j + 1 * d j) y) in G by (intros; unfold d; ring).
    rewrite (HCr (fun j => x j + 0 * d j) x) in G by (intros; ring). change (edist n y x) with (enorm n d).
    assert (X := G). clear G. eapply Rle_trans; [apply X|right; field].
    intros u Hu. assert (Nz := near_segment x y u HX HY ltac:(lra)). change (near P xs rad (fun j => x j + u * d j)) in Nz.
    assert (A := gradient_taylor x _ d HX Nz). cbv beta zeta in A.
    assert (Ed : enorm n (fun j => x j + u * d j - x j) = u * enorm n d).
    { rewrite (enorm_ext n _ (fun j => u * d j)) by (intros; ring). apply enorm_scal. lra. }
    rewrite Ed in A. rewrite !rdot_minus_l in A.
    assert (Eq : rdot n (rmv n (hess x) (fun j => x j + u * d j - x j)) d = u * qf n (hess x) d).
    { unfold qf. rewrite (rdot_comm n d), <- rdot_scal_l. apply rdot_ext; auto. intros i Hi. rewrite !rmv_def, <- rsum_scal. apply rsum_ext. intros; ring. }
    rewrite Eq in A. lra.
Qed.
End Taylor.
