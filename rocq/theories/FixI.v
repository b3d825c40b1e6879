(** Interval arithmetic on fixed-point numbers: an interval [(a, b)] of integers stands for [a / 2^128, b / 2^128].
    Used to follow a trajectory of real numbers rigorously by computation. *)
Require Import ZArith Lia Reals Lra Psatz Bool List.
Local Open Scope R_scope.

Definition FB : Z := 128.
Definition FS : Z := Eval vm_compute in (2 ^ FB)%Z.
Definition ival := (Z * Z)%type.
Definition inI (i : ival) (r : R) : Prop := IZR (fst i) <= r * IZR FS <= IZR (snd i).

Definition cdiv (a b : Z) : Z := (- ((- a) / b))%Z.
Definition i_cst (p q : Z) : ival := ((p * FS) / q, cdiv (p * FS) q)%Z.
Definition i_add (i j : ival) : ival := (fst i + fst j, snd i + snd j)%Z.
Definition i_sub (i j : ival) : ival := (fst i - snd j, snd i - fst j)%Z.
Definition i_mul (i j : ival) : ival :=
  let a := (fst i * fst j)%Z in let b := (fst i * snd j)%Z in let c := (snd i * fst j)%Z in let d := (snd i * snd j)%Z in
  (Z.min (Z.min a b) (Z.min c d) / FS, cdiv (Z.max (Z.max a b) (Z.max c d)) FS)%Z.
(* for a positive divisor *)
Definition i_div (i j : ival) : ival :=
  let lo := if (0 <=? fst i)%Z then snd j else fst j in
  let hi := if (0 <=? snd i)%Z then fst j else snd j in
  (fst i * FS / lo, cdiv (snd i * FS) hi)%Z.
Definition i_abs (i : ival) : ival :=
  (if (0 <=? fst i)%Z then fst i else if (snd i <=? 0)%Z then - snd i else 0, Z.max (Z.abs (fst i)) (Z.abs (snd i)))%Z.
Definition i_max (i j : ival) : ival := (Z.max (fst i) (fst j), Z.max (snd i) (snd j)).
Definition i_min (i j : ival) : ival := (Z.min (fst i) (fst j), Z.min (snd i) (snd j)).
Definition i_sqrt (i : ival) : ival := (Z.sqrt (fst i * FS), Z.sqrt (snd i * FS) + 1)%Z.
Definition i_pos (i : ival) : bool := (0 <? fst i)%Z.
Definition i_lt (i j : ival) : bool := (snd i <? fst j)%Z.
Definition i_sub_b (i j : ival) : bool := ((fst j <=? fst i) && (snd i <=? snd j))%Z.

Lemma FS_pos : (0 < FS)%Z.
Proof. reflexivity. Qed.
Lemma FSR_pos : 0 < IZR FS.
Proof. apply (IZR_lt 0), FS_pos. Qed.
Global Opaque FS.

Lemma div_le a b : (0 < b)%Z -> IZR (a / b) * IZR b <= IZR a.
Proof. intros. rewrite <- mult_IZR. apply IZR_le. rewrite Z.mul_comm. apply Z.mul_div_le. auto. Qed.
Lemma cdiv_ge a b : (0 < b)%Z -> IZR a <= IZR (cdiv a b) * IZR b.
Proof. intros. unfold cdiv. rewrite opp_IZR. assert (H1 := div_le (- a) b H). rewrite opp_IZR in H1. lra. Qed.

Lemma in_cst p q : (0 < q)%Z -> inI (i_cst p q) (IZR p / IZR q).
Proof.
  intros Hq. assert (HR : 0 < IZR q) by (apply (IZR_lt 0); auto). unfold inI, i_cst. cbn [fst snd].
  assert (A := div_le (p * FS) q Hq). assert (B := cdiv_ge (p * FS) q Hq). rewrite mult_IZR in A, B.
  split; apply Rmult_le_reg_r with (IZR q); auto; replace (IZR p / IZR q * IZR FS * IZR q) with (IZR p * IZR FS) by (field; lra); auto.
Qed.
Lemma in_add i j r s : inI i r -> inI j s -> inI (i_add i j) (r + s).
Proof. unfold inI, i_add. cbn [fst snd]. rewrite !plus_IZR. lra. Qed.
Lemma in_sub i j r s : inI i r -> inI j s -> inI (i_sub i j) (r - s).
Proof. unfold inI, i_sub. cbn [fst snd]. rewrite !minus_IZR. lra. Qed.

Lemma mul_box a b c d u v : a <= u <= b -> c <= v <= d ->
  Rmin (Rmin (a * c) (a * d)) (Rmin (b * c) (b * d)) <= u * v <= Rmax (Rmax (a * c) (a * d)) (Rmax (b * c) (b * d)).
Proof.
  intros [A B] [C D]. split.
  - assert (E : Rmin (a * v) (b * v) <= u * v).
    { destruct (Rle_dec 0 v). eapply Rle_trans; [apply Rmin_l|nra]. eapply Rle_trans; [apply Rmin_r|nra]. }
    eapply Rle_trans; [|exact E]. apply Rmin_glb.
    + eapply Rle_trans; [apply Rmin_l|]. destruct (Rle_dec 0 a). eapply Rle_trans; [apply Rmin_l|nra]. eapply Rle_trans; [apply Rmin_r|nra].
    + eapply Rle_trans; [apply Rmin_r|]. destruct (Rle_dec 0 b). eapply Rle_trans; [apply Rmin_l|nra]. eapply Rle_trans; [apply Rmin_r|nra].
  - assert (E : u * v <= Rmax (a * v) (b * v)).
    { destruct (Rle_dec 0 v). eapply Rle_trans; [|apply Rmax_r]; nra. eapply Rle_trans; [|apply Rmax_l]; nra. }
    eapply Rle_trans; [exact E|]. apply Rmax_lub.
    + eapply Rle_trans; [|apply Rmax_l]. destruct (Rle_dec 0 a). eapply Rle_trans; [|apply Rmax_r]; nra. eapply Rle_trans; [|apply Rmax_l]; nra.
    + eapply Rle_trans; [|apply Rmax_r]. destruct (Rle_dec 0 b). eapply Rle_trans; [|apply Rmax_r]; nra. eapply Rle_trans; [|apply Rmax_l]; nra.
Qed.
Lemma IZR_min a b : IZR (Z.min a b) = Rmin (IZR a) (IZR b).
Proof. destruct (Z.le_ge_cases a b). rewrite Z.min_l, Rmin_left; auto using IZR_le. rewrite Z.min_r, Rmin_right; auto using IZR_le. Qed.
Lemma IZR_max a b : IZR (Z.max a b) = Rmax (IZR a) (IZR b).
Proof. destruct (Z.le_ge_cases a b). rewrite Z.max_r, Rmax_right; auto using IZR_le. rewrite Z.max_l, Rmax_left; auto using IZR_le. Qed.

Lemma in_mul i j r s : inI i r -> inI j s -> inI (i_mul i j) (r * s).
Proof.
  unfold inI, i_mul. cbn [fst snd]. intros Hi Hj. assert (B := mul_box _ _ _ _ _ _ Hi Hj).
  assert (P := FSR_pos). rewrite <- !mult_IZR, <- !IZR_min, <- !IZR_max in B. destruct B as [B1 B2].
  match goal with |- IZR (?m / _) <= _ <= IZR (cdiv ?M _) => assert (A := div_le m FS FS_pos); assert (C := cdiv_ge M FS FS_pos) end.
  replace (r * IZR FS * (s * IZR FS)) with (r * s * IZR FS * IZR FS) in * by ring.
  split; apply Rmult_le_reg_r with (IZR FS); auto; lra.
Qed.
Lemma in_div i j r s : inI i r -> inI j s -> i_pos j = true -> inI (i_div i j) (r / s).
Proof.
  unfold inI, i_div, i_pos. cbn [fst snd]. intros [A B] [C D] Hp. apply Z.ltb_lt in Hp. assert (P := FSR_pos).
  assert (Hc : 0 < IZR (fst j)) by (apply (IZR_lt 0); auto).
  assert (Hv : 0 < s * IZR FS) by lra. assert (Hs : 0 < s) by nra.
  assert (Hd : (0 < snd j)%Z). { apply lt_IZR. lra. }
  split.
  - set (lo := if (0 <=? fst i)%Z then snd j else fst j).
    assert (L0 : (0 < lo)%Z) by (unfold lo; destruct (0 <=? fst i)%Z; auto).
    assert (Q := div_le (fst i * FS) lo L0). rewrite mult_IZR in Q.
    assert (LR : 0 < IZR lo) by (apply (IZR_lt 0); auto).
    assert (K : IZR (fst i) * (s * IZR FS) <= r * IZR FS * IZR lo).
    { unfold lo. destruct (Z.leb_spec 0 (fst i)) as [H|H].
      - assert (0 <= IZR (fst i)) by (apply (IZR_le 0); auto). nra.
      - assert (IZR (fst i) < 0) by (apply (IZR_lt _ 0); auto). nra. }
    apply Rmult_le_reg_r with (IZR lo); auto. eapply Rle_trans; [exact Q|].
    apply Rmult_le_reg_r with s; auto. replace (r / s * IZR FS * IZR lo * s) with (r * IZR FS * IZR lo) by (field; lra). lra.
  - set (hi := if (0 <=? snd i)%Z then fst j else snd j).
    assert (L0 : (0 < hi)%Z) by (unfold hi; destruct (0 <=? snd i)%Z; auto).
    assert (Q := cdiv_ge (snd i * FS) hi L0). rewrite mult_IZR in Q.
    assert (LR : 0 < IZR hi) by (apply (IZR_lt 0); auto).
    assert (K : r * IZR FS * IZR hi <= IZR (snd i) * (s * IZR FS)).
    { unfold hi. destruct (Z.leb_spec 0 (snd i)) as [H|H].
      - assert (0 <= IZR (snd i)) by (apply (IZR_le 0); auto). nra.
      - assert (IZR (snd i) < 0) by (apply (IZR_lt _ 0); auto). nra. }
    apply Rmult_le_reg_r with (IZR hi); auto. eapply Rle_trans; [|exact Q].
    apply Rmult_le_reg_r with s; auto. replace (r / s * IZR FS * IZR hi * s) with (r * IZR FS * IZR hi) by (field; lra). lra.
Qed.
Lemma in_abs i r : inI i r -> inI (i_abs i) (Rabs r).
Proof.
  unfold inI, i_abs. cbn [fst snd]. intros [A B]. assert (P := FSR_pos).
  assert (E : Rabs r * IZR FS = Rabs (r * IZR FS)) by (rewrite Rabs_mult, (Rabs_right (IZR FS)); lra). rewrite E. split.
  - destruct (Z.leb_spec 0 (fst i)); [|destruct (Z.leb_spec (snd i) 0)].
    + eapply Rle_trans; [exact A|apply Rle_abs].
    + rewrite opp_IZR. apply IZR_le in H0. rewrite Rabs_left1; lra.
    + apply Rabs_pos.
  - rewrite IZR_max, !abs_IZR. apply Rabs_le. split.
    + assert (- Rabs (IZR (fst i)) <= IZR (fst i)) by (generalize (Rle_abs (- IZR (fst i))); rewrite Rabs_Ropp; lra).
      assert (M := Rmax_l (Rabs (IZR (fst i))) (Rabs (IZR (snd i)))). lra.
    + eapply Rle_trans; [exact B|]. eapply Rle_trans; [apply Rle_abs|apply Rmax_r].
Qed.
Lemma Rmax_scal a b c : 0 < c -> Rmax a b * c = Rmax (a * c) (b * c).
Proof. intros. unfold Rmax. destruct (Rle_dec a b), (Rle_dec (a * c) (b * c)); auto; nra. Qed.
Lemma Rmin_scal a b c : 0 < c -> Rmin a b * c = Rmin (a * c) (b * c).
Proof. intros. unfold Rmin. destruct (Rle_dec a b), (Rle_dec (a * c) (b * c)); auto; nra. Qed.
Lemma in_max i j r s : inI i r -> inI j s -> inI (i_max i j) (Rmax r s).
Proof.
  unfold inI, i_max. cbn [fst snd]. intros [A B] [C D]. rewrite !IZR_max, Rmax_scal by apply FSR_pos. split.
  - apply Rmax_lub. eapply Rle_trans; [exact A|apply Rmax_l]. eapply Rle_trans; [exact C|apply Rmax_r].
  - apply Rmax_lub. eapply Rle_trans; [exact B|apply Rmax_l]. eapply Rle_trans; [exact D|apply Rmax_r].
Qed.
Lemma in_min i j r s : inI i r -> inI j s -> inI (i_min i j) (Rmin r s).
Proof.
  unfold inI, i_min. cbn [fst snd]. intros [A B] [C D]. rewrite !IZR_min, Rmin_scal by apply FSR_pos. split.
  - apply Rmin_glb. eapply Rle_trans; [apply Rmin_l|exact A]. eapply Rle_trans; [apply Rmin_r|exact C].
  - apply Rmin_glb. eapply Rle_trans; [apply Rmin_l|exact B]. eapply Rle_trans; [apply Rmin_r|exact D].
Qed.
Lemma in_sqrt i r : inI i r -> (0 <=? fst i)%Z = true -> inI (i_sqrt i) (sqrt r).
Proof.
  unfold inI, i_sqrt. cbn [fst snd]. intros [A B] H0. apply Z.leb_le in H0. assert (P := FSR_pos). assert (PZ := FS_pos).
  assert (HA : 0 <= IZR (fst i)) by (apply (IZR_le 0); auto).
  assert (Hr : 0 <= r) by nra.
  assert (HB : (0 <= snd i)%Z) by (apply le_IZR; lra).
  set (w := sqrt r * IZR FS). assert (Hw : 0 <= w) by (apply Rmult_le_pos; [apply sqrt_pos|lra]).
  assert (Ew : w * w = r * IZR FS * IZR FS).
  { unfold w. replace (sqrt r * IZR FS * (sqrt r * IZR FS)) with (sqrt r * sqrt r * IZR FS * IZR FS) by ring. rewrite sqrt_sqrt by auto. reflexivity. }
  split.
  - assert (S := Z.sqrt_spec (fst i * FS) ltac:(nia)). cbv zeta in S. destruct S as [S _]. apply IZR_le in S. rewrite !mult_IZR in S.
    assert (0 <= IZR (Z.sqrt (fst i * FS))) by (apply (IZR_le 0), Z.sqrt_nonneg).
    assert (K : IZR (Z.sqrt (fst i * FS)) * IZR (Z.sqrt (fst i * FS)) <= w * w).
    { rewrite Ew. eapply Rle_trans; [exact S|]. apply Rmult_le_compat_r; lra. }
    apply Rsqr_incr_0; auto.
  - assert (S := Z.sqrt_spec (snd i * FS) ltac:(nia)). cbv zeta in S. destruct S as [_ S]. apply IZR_lt in S. rewrite !mult_IZR in S.
    unfold Z.succ in S.
    assert (0 <= IZR (Z.sqrt (snd i * FS) + 1)) by (apply (IZR_le 0); generalize (Z.sqrt_nonneg (snd i * FS)); lia).
    assert (K : w * w <= IZR (Z.sqrt (snd i * FS) + 1) * IZR (Z.sqrt (snd i * FS) + 1)).
    { rewrite Ew. eapply Rle_trans; [|left; exact S]. apply Rmult_le_compat_r; lra. }
    apply Rsqr_incr_0; auto.
Qed.
Lemma in_lt i j r s : inI i r -> inI j s -> i_lt i j = true -> r < s.
Proof.
  unfold inI, i_lt. intros [_ A] [B _] H. apply Z.ltb_lt, IZR_lt in H. assert (P := FSR_pos). nra.
Qed.
Lemma in_pos i r : inI i r -> i_pos i = true -> 0 < r.
Proof. unfold inI, i_pos. intros [A _] H. apply Z.ltb_lt, (IZR_lt 0) in H. assert (P := FSR_pos). nra. Qed.
Lemma in_sub_b i j r : inI i r -> i_sub_b i j = true -> inI j r.
Proof.
  unfold inI, i_sub_b. intros [A B] H. apply andb_prop in H. destruct H as [H1 H2]. apply Z.leb_le, IZR_le in H1. apply Z.leb_le, IZR_le in H2. lra.
Qed.

(** x clipped to [lo, hi] (integers), and what is cut off *)
Definition clip (lo hi : R) (t : R) : R := Rmin (Rmax t lo) hi.
Definition zclip (lo hi t : Z) : Z := Z.min (Z.max t (lo * FS)) (hi * FS).
Definition i_clip (lo hi : Z) (i : ival) : ival := (zclip lo hi (fst i), zclip lo hi (snd i)).
Definition i_cut (lo hi : Z) (i : ival) : ival := (fst i - zclip lo hi (fst i), snd i - zclip lo hi (snd i))%Z.

Lemma zclip_R lo hi t : IZR (zclip lo hi t) = clip (IZR lo * IZR FS) (IZR hi * IZR FS) (IZR t).
Proof. unfold zclip, clip. rewrite IZR_min, IZR_max, !mult_IZR. reflexivity. Qed.
Lemma clip_scal lo hi t c : 0 < c -> clip lo hi t * c = clip (lo * c) (hi * c) (t * c).
Proof. intros. unfold clip. rewrite Rmin_scal, Rmax_scal by auto. reflexivity. Qed.
Lemma clip_mono lo hi t u : t <= u -> clip lo hi t <= clip lo hi u.
Proof. intros. unfold clip, Rmin, Rmax. destruct (Rle_dec t lo), (Rle_dec u lo); repeat match goal with |- context[Rle_dec ?a ?b] => destruct (Rle_dec a b) end; lra. Qed.
Lemma cut_mono lo hi t u : lo <= hi -> t <= u -> t - clip lo hi t <= u - clip lo hi u.
Proof. intros. unfold clip, Rmin, Rmax. destruct (Rle_dec t lo), (Rle_dec u lo); repeat match goal with |- context[Rle_dec ?a ?b] => destruct (Rle_dec a b) end; lra. Qed.
Lemma in_clip lo hi i r : inI i r -> inI (i_clip lo hi i) (clip (IZR lo) (IZR hi) r).
Proof.
  unfold inI, i_clip. cbn [fst snd]. intros [A B]. rewrite !zclip_R, clip_scal by apply FSR_pos. split; apply clip_mono; auto.
Qed.
Lemma in_cut lo hi i r : (lo <= hi)%Z -> inI i r -> inI (i_cut lo hi i) (r - clip (IZR lo) (IZR hi) r).
Proof.
  unfold inI, i_cut. cbn [fst snd]. intros Hl [A B]. rewrite !minus_IZR, !zclip_R, Rmult_minus_distr_r, clip_scal by apply FSR_pos.
  assert (IZR lo * IZR FS <= IZR hi * IZR FS) by (apply Rmult_le_compat_r; [left; apply FSR_pos|apply IZR_le; auto]).
  split; apply cut_mono; auto.
Qed.
