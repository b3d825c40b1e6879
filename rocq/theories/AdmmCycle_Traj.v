(** The trajectory of ADMM on one small problem with adaptive step sizes, as a recursion on real numbers, and a rigorous
    enclosure of it: eight sets of states, each of which is mapped into one of the eight by 25 iterations. *)
Require Import ZArith Lia Reals Lra Psatz Bool List.
From Verif Require Import FixI.
Import ListNotations.
Local Open Scope R_scope.

(** minimise x^2/2 + 100 x subject to -10 <= 2 x <= 10 and -1 <= x <= 3, with the default settings of the solver.
    [bx] selects the residual norms of the two solvers: ADMM (false) takes the maximum over the two kinds of constraints and includes the
    slack of the box in the scale, boxADMM (true) adds the two and does not. *)
Record cst := mkC { cx : R; cz1 : R; cz2 : R; cy1 : R; cy2 : R }.
Definition sig : R := 1 / 1000000.
Definition cstep (r : R) (s : cst) : cst :=
  let x := (sig * cx s - 100 + r * (2 * cz1 s + cz2 s) - (2 * cy1 s + cy2 s)) / (1 + sig + 5 * r) in
  let t1 := 2 * x + cy1 s / r in
  let t2 := x + cy2 s / r in
  mkC x (clip (-10) 10 t1) (clip (-1) 3 t2) (r * (t1 - clip (-10) 10 t1)) (r * (t2 - clip (-1) 3 t2)).
Section Flavour.
Variable bx : bool.
Definition both (a b : R) : R := if bx then a + b else Rmax a b.
Definition c_rp (s : cst) : R := both (Rabs (2 * cx s - cz1 s)) (Rabs (cx s - cz2 s)).
Definition c_rd (s : cst) : R := Rabs (cx s + 100 + 2 * cy1 s + cy2 s).
Definition c_mp (s : cst) : R :=
  if bx then Rmax (Rabs (2 * cx s)) (Rmax (Rabs (cz1 s)) (Rabs (cx s)))
  else Rmax (Rmax (Rabs (2 * cx s)) (Rabs (cx s))) (Rmax (Rabs (cz1 s)) (Rabs (cz2 s))).
Definition c_md (s : cst) : R := Rmax (Rabs (cx s)) (Rmax (Rabs (2 * cy1 s)) (Rmax 100 (Rabs (cy2 s)))).
Definition c_new (r : R) (s : cst) : R :=
  Rmax (1 / 1000000) (Rmin (r * sqrt (c_rp s / (c_mp s + 1 / 1000000000) / (c_rd s / (c_md s + 1 / 1000000000) + 1 / 1000000000))) 1000000).
Definition c_go (s : cst) : Prop := 1 / 1000 + 1 / 1000 * c_mp s < c_rp s \/ 1 / 1000 + 1 / 1000 * c_md s < c_rd s.
Definition c_change (r r' : R) : Prop := r' < r / 5 \/ r * 5 < r'.

(** the same on intervals *)
Record ist := mkI { ix : ival; iz1 : ival; iz2 : ival; iy1 : ival; iy2 : ival }.
Definition inS (i : ist) (s : cst) : Prop :=
  inI (ix i) (cx s) /\ inI (iz1 i) (cz1 s) /\ inI (iz2 i) (cz2 s) /\ inI (iy1 i) (cy1 s) /\ inI (iy2 i) (cy2 s).
Definition k_ (p : Z) : ival := i_cst p 1.
Definition isig : ival := i_cst 1 1000000.
(* two ways of writing the new x, for small and for large step sizes *)
Definition i_x (r : ival) (s : ist) : ival :=
  let f := i_sub (i_sub (i_mul isig (ix s)) (k_ 100)) (i_add (i_mul (k_ 2) (iy1 s)) (iy2 s)) in
  let z := i_add (i_mul (k_ 2) (iz1 s)) (iz2 s) in
  if i_lt (k_ 1) r then i_div (i_add z (i_div f r)) (i_add (k_ 5) (i_div (i_add (k_ 1) isig) r))
  else i_div (i_add f (i_mul r z)) (i_add (i_add (k_ 1) isig) (i_mul (k_ 5) r)).
Definition istep (r : ival) (s : ist) : ist :=
  let x := i_x r s in
  let t1 := i_add (i_mul (k_ 2) x) (i_div (iy1 s) r) in
  let t2 := i_add x (i_div (iy2 s) r) in
  mkI x (i_clip (-10) 10 t1) (i_clip (-1) 3 t2) (i_mul r (i_cut (-10) 10 t1)) (i_mul r (i_cut (-1) 3 t2)).
(* residuals of [n] = istep r [o] *)
Definition i_both (a b : ival) : ival := if bx then i_add a b else i_max a b.
Definition i_rp (r : ival) (o n : ist) : ival :=
  i_both (i_abs (i_div (i_sub (iy1 n) (iy1 o)) r)) (i_abs (i_div (i_sub (iy2 n) (iy2 o)) r)).
Definition i_rd (r : ival) (o n : ist) : ival :=
  i_abs (i_sub (i_mul isig (i_sub (ix o) (ix n))) (i_mul r (i_add (i_mul (k_ 2) (i_sub (iz1 n) (iz1 o))) (i_sub (iz2 n) (iz2 o))))).
Definition i_mp (s : ist) : ival :=
  if bx then i_max (i_abs (i_mul (k_ 2) (ix s))) (i_max (i_abs (iz1 s)) (i_abs (ix s)))
  else i_max (i_max (i_abs (i_mul (k_ 2) (ix s))) (i_abs (ix s))) (i_max (i_abs (iz1 s)) (i_abs (iz2 s))).
Definition i_md (s : ist) : ival := i_max (i_abs (ix s)) (i_max (i_abs (i_mul (k_ 2) (iy1 s))) (i_max (k_ 100) (i_abs (iy2 s)))).
Definition ireg : ival := i_cst 1 1000000000.
Definition i_quot (r : ival) (o n : ist) : ival :=
  i_div (i_div (i_rp r o n) (i_add (i_mp n) ireg)) (i_add (i_div (i_rd r o n) (i_add (i_md n) ireg)) ireg).
Definition i_new (r : ival) (o n : ist) : ival :=
  i_max (i_cst 1 1000000) (i_min (i_mul r (i_sqrt (i_quot r o n))) (k_ 1000000)).
Definition ieps : ival := i_cst 1 1000.
Definition i_go (r : ival) (o n : ist) : bool :=
  i_lt (i_add ieps (i_mul ieps (i_mp n))) (i_rp r o n) || i_lt (i_add ieps (i_mul ieps (i_md n))) (i_rd r o n).
Definition i_change (r r' : ival) : bool := i_lt r' (i_div r (k_ 5)) || i_lt (i_mul r (k_ 5)) r'.
Definition i_fine (r : ival) (o n : ist) : bool :=
  i_pos (i_add (i_mp n) ireg) && i_pos (i_add (i_md n) ireg) &&
  i_pos (i_add (i_div (i_rd r o n) (i_add (i_md n) ireg)) ireg) && (0 <=? fst (i_quot r o n))%Z.

Fixpoint isteps (k : nat) (r : ival) (s : ist) : ist := match k with O => s | S k => istep r (isteps k r s) end.
Fixpoint csteps (k : nat) (r : R) (s : cst) : cst := match k with O => s | S k => cstep r (csteps k r s) end.
(** 25 iterations and the change of the step size *)
Definition iphase (a : ival * ist) : option (ival * ist) :=
  let r := fst a in
  let o := isteps 24 r (snd a) in
  let n := istep r o in
  if i_pos r && i_pos (i_add (i_add (k_ 1) isig) (i_mul (k_ 5) r)) && i_pos (i_add (k_ 5) (i_div (i_add (k_ 1) isig) r)) && i_fine r o n && i_go r o n && i_change r (i_new r o n)
  then Some (i_new r o n, n) else None.
Definition inA (a : ival * ist) (r : R) (s : cst) : Prop := inI (fst a) r /\ inS (snd a) s.

Definition a_sub (a b : ival * ist) : bool :=
  i_sub_b (fst a) (fst b) && i_sub_b (ix (snd a)) (ix (snd b)) && i_sub_b (iz1 (snd a)) (iz1 (snd b)) && i_sub_b (iz2 (snd a)) (iz2 (snd b)) &&
  i_sub_b (iy1 (snd a)) (iy1 (snd b)) && i_sub_b (iy2 (snd a)) (iy2 (snd b)).
Definition start : ival * ist := (i_cst 1 10, mkI (k_ 0) (k_ 0) (k_ 0) (k_ 0) (k_ 0)).
Definition next (a : ival * ist) : ival * ist := match iphase a with Some b => b | None => a end.
(* the set of states with x near -0.818963 (boxADMM: -0.314491), both constraints inactive, both multipliers zero and the smallest step size *)
Definition hub : ival * ist :=
  let c := i_cst (if bx then -314491 else -818963) 1000000 in let w := i_cst 1 100000 in
  let x := (fst c - fst w, snd c + fst w)%Z in
  let z := (2 * fst c - 2 * fst w, 2 * snd c + 2 * fst w)%Z in
  (i_cst 1 1000000, mkI x z x (0, 0)%Z (0, 0)%Z).
Definition family : list (ival * ist) :=
  let a1 := next start in let a2 := next a1 in
  let h1 := next hub in let h2 := next h1 in
  [start; a1; a2; next a2; next (next a2); hub; h1; h2].
(* the optimum is x = -1 *)
Definition far (a : ival * ist) : bool := i_lt (i_cst 18 100) (i_abs (i_sub (ix (snd a)) (k_ (-1)))).
Definition closed (l : list (ival * ist)) : bool :=
  forallb (fun a => far a && match iphase a with Some b => existsb (a_sub b) l | None => false end) l.

Lemma in_k p : inI (k_ p) (IZR p).
Proof. unfold k_. replace (IZR p) with (IZR p / 1) by field. apply in_cst. lia. Qed.
Lemma in_sig : inI isig sig.
Proof. apply (in_cst 1 1000000). lia. Qed.

Lemma in_step ir r i s : inI ir r -> inS i s -> i_pos ir = true ->
  i_pos (i_add (i_add (k_ 1) isig) (i_mul (k_ 5) ir)) = true ->
  i_pos (i_add (k_ 5) (i_div (i_add (k_ 1) isig) ir)) = true -> inS (istep ir i) (cstep r s).
Proof.
  intros Hr (H1 & H2 & H3 & H4 & H5) P1 P2 P3.
  assert (HX : inI (ix (istep ir i)) (cx (cstep r s))).
  { unfold istep, cstep, i_x. cbn [ix cx]. assert (Hp : 0 < r) by (apply (in_pos ir); auto).
    assert (F : inI (i_sub (i_sub (i_mul isig (ix i)) (k_ 100)) (i_add (i_mul (k_ 2) (iy1 i)) (iy2 i))) (sig * cx s - 100 - (2 * cy1 s + cy2 s))).
    { apply in_sub. apply in_sub. apply in_mul; [apply in_sig|auto]. apply (in_k 100). apply in_add; auto. apply in_mul; auto. apply (in_k 2). }
    assert (Z : inI (i_add (i_mul (k_ 2) (iz1 i)) (iz2 i)) (2 * cz1 s + cz2 s)).
    { apply in_add; auto. apply in_mul; auto. apply (in_k 2). }
    assert (O : inI (i_add (k_ 1) isig) (1 + sig)) by (apply in_add; [apply (in_k 1)|apply in_sig]).
    destruct (i_lt (k_ 1) ir).
    - replace ((sig * cx s - 100 + r * (2 * cz1 s + cz2 s) - (2 * cy1 s + cy2 s)) / (1 + sig + 5 * r))
        with ((2 * cz1 s + cz2 s + (sig * cx s - 100 - (2 * cy1 s + cy2 s)) / r) / (5 + (1 + sig) / r))
        by (unfold sig; field; repeat split; lra).
      apply in_div; auto. apply in_add; auto. apply in_div; auto. apply in_add; [apply (in_k 5)|]. apply in_div; auto.
    - replace (sig * cx s - 100 + r * (2 * cz1 s + cz2 s) - (2 * cy1 s + cy2 s))
        with (sig * cx s - 100 - (2 * cy1 s + cy2 s) + r * (2 * cz1 s + cz2 s)) by ring.
      apply in_div; auto. apply in_add; auto. apply in_mul; auto. apply in_add; auto. apply in_mul; auto. apply (in_k 5). }
  assert (T1 : inI (i_add (i_mul (k_ 2) (ix (istep ir i))) (i_div (iy1 i) ir)) (2 * cx (cstep r s) + cy1 s / r)).
  { apply in_add. apply in_mul; auto. apply (in_k 2). apply in_div; auto. }
  assert (T2 : inI (i_add (ix (istep ir i)) (i_div (iy2 i) ir)) (cx (cstep r s) + cy2 s / r)).
  { apply in_add; auto. apply in_div; auto. }
  split; [exact HX|]. split; [apply (in_clip (-10) 10), T1|]. split; [apply (in_clip (-1) 3), T2|].
  split; apply in_mul; auto. apply (in_cut (-10) 10); [lia|exact T1]. apply (in_cut (-1) 3); [lia|exact T2].
Qed.

Lemma in_steps k ir r i s : inI ir r -> inS i s -> i_pos ir = true ->
  i_pos (i_add (i_add (k_ 1) isig) (i_mul (k_ 5) ir)) = true ->
  i_pos (i_add (k_ 5) (i_div (i_add (k_ 1) isig) ir)) = true -> inS (isteps k ir i) (csteps k r s).
Proof. intros. induction k; simpl; auto. apply in_step; auto. Qed.

(** the residuals after a step, without cancellation *)
Lemma step_rp r s : 0 < r -> c_rp (cstep r s) = both (Rabs ((cy1 (cstep r s) - cy1 s) / r)) (Rabs ((cy2 (cstep r s) - cy2 s) / r)).
Proof.
  intros Hr. unfold c_rp. f_equal; f_equal; unfold cstep; cbn [cx cz1 cz2 cy1 cy2];
  match goal with |- context[?n / (1 + sig + 5 * r)] => set (x := n / (1 + sig + 5 * r)) end.
  - set (c := clip _ _ _). field. lra.
  - set (c := clip _ _ _). field. lra.
Qed.
Lemma step_rd r s : 0 < r -> c_rd (cstep r s) =
  Rabs (sig * (cx s - cx (cstep r s)) - r * (2 * (cz1 (cstep r s) - cz1 s) + (cz2 (cstep r s) - cz2 s))).
Proof.
  intros Hr. unfold c_rd. f_equal. unfold cstep. cbn [cx cz1 cz2 cy1 cy2].
  assert (D : 0 < 1 + sig + 5 * r) by (unfold sig; lra).
  set (nu := sig * cx s - 100 + r * (2 * cz1 s + cz2 s) - (2 * cy1 s + cy2 s)).
  assert (E : (1 + sig + 5 * r) * (nu / (1 + sig + 5 * r)) = nu) by (field; lra).
  set (x := nu / (1 + sig + 5 * r)) in *. unfold nu in E. clearbody x. clear nu.
  set (c1 := clip _ _ _). set (c2 := clip (-1) 3 _). clearbody c1 c2.
  replace (r * (2 * x + cy1 s / r - c1)) with (2 * r * x + cy1 s - r * c1) by (field; lra).
  replace (r * (x + cy2 s / r - c2)) with (r * x + cy2 s - r * c2) by (field; lra). lra.
Qed.

Lemma in_phase a r s b : inA a r s -> iphase a = Some b ->
  let n := csteps 25 r s in
  inA b (c_new r n) n /\ c_go n /\ c_change r (c_new r n) /\ 0 < r.
Proof.
  intros [Hr Hs] E. cbv zeta. unfold iphase in E. set (ir := fst a) in *. set (o := isteps 24 ir (snd a)) in *. set (n := istep ir o) in *.
  destruct (i_pos ir && i_pos (i_add (i_add (k_ 1) isig) (i_mul (k_ 5) ir)) && i_pos (i_add (k_ 5) (i_div (i_add (k_ 1) isig) ir)) && i_fine ir o n && i_go ir o n && i_change ir (i_new ir o n)) eqn:Eb; [|discriminate].
  injection E as <-. repeat rewrite andb_true_iff in Eb. destruct Eb as [[[[[P1 P2] P3] PF] PG] PC].
  assert (Ho : inS o (csteps 24 r s)) by (apply in_steps; auto).
  assert (Hn : inS n (csteps 25 r s)) by (apply (in_step ir r o (csteps 24 r s)); auto).
  assert (Hp : 0 < r) by (apply (in_pos ir); auto).
  change (csteps 25 r s) with (cstep r (csteps 24 r s)) in *. set (so := csteps 24 r s) in *. clearbody so.
  clearbody ir o n. destruct Ho as (O1 & O2 & O3 & O4 & O5). destruct Hn as (N1 & N2 & N3 & N4 & N5).
  assert (RP : inI (i_rp ir o n) (c_rp (cstep r so))).
  { rewrite step_rp by auto. unfold i_rp, both, i_both. destruct bx; [apply in_add|apply in_max]; apply in_abs; apply in_div; auto; apply in_sub; auto. }
  assert (RD : inI (i_rd ir o n) (c_rd (cstep r so))).
  { rewrite step_rd by auto. apply in_abs. apply in_sub. apply in_mul. apply in_sig. apply in_sub; auto.
    apply in_mul; auto. apply in_add. apply in_mul. apply (in_k 2). apply in_sub; auto. apply in_sub; auto. }
  assert (MP : inI (i_mp n) (c_mp (cstep r so))).
  { unfold i_mp, c_mp. destruct bx.
    - apply in_max. apply in_abs, in_mul; auto. apply (in_k 2). apply in_max; apply in_abs; auto.
    - apply in_max; apply in_max; apply in_abs; auto. apply in_mul; auto. apply (in_k 2). }
  assert (MD : inI (i_md n) (c_md (cstep r so))).
  { apply in_max. apply in_abs; auto. apply in_max. apply in_abs, in_mul; auto. apply (in_k 2).
    apply in_max. apply (in_k 100). apply in_abs; auto. }
  assert (RG : inI ireg (1 / 1000000000)) by (apply (in_cst 1 1000000000); lia).
  assert (EP : inI ieps (1 / 1000)) by (apply (in_cst 1 1000); lia).
  unfold i_fine in PF. repeat rewrite andb_true_iff in PF. destruct PF as [[[F1 F2] F3] F4].
  assert (NW : inI (i_new ir o n) (c_new r (cstep r so))).
  { unfold i_new, c_new. apply in_max. apply (in_cst 1 1000000); lia. apply in_min; [|apply (in_k 1000000)].
    apply in_mul; auto. apply in_sqrt; auto. apply in_div; auto. apply in_div; auto. apply in_add; auto.
    apply in_add; auto. apply in_div; auto. apply in_add; auto. }
  split; [split; [exact NW|repeat split; auto; try apply N1; try apply N2; try apply N3; try apply N4; try apply N5]|].
  split.
  - unfold i_go in PG. apply orb_prop in PG. destruct PG as [G|G]; [left|right]; eapply in_lt; try exact G; auto;
    apply in_add; auto; apply in_mul; auto.
  - split; [|exact Hp]. unfold i_change in PC. apply orb_prop in PC. destruct PC as [G|G]; [left|right]; eapply in_lt; try exact G; auto.
    + apply in_div; auto. apply (in_k 5).
    + apply in_mul; auto. apply (in_k 5).
Qed.

Lemma in_a_sub a b r s : inA a r s -> a_sub a b = true -> inA b r s.
Proof.
  intros [H0 (H1 & H2 & H3 & H4 & H5)] E. unfold a_sub in E. repeat rewrite andb_true_iff in E. destruct E as [[[[[E0 E1] E2] E3] E4] E5].
  split; [|split; [|split; [|split; [|split]]]]; eapply in_sub_b; eauto.
Qed.

(** the state and the step size after q times 25 iterations *)
Fixpoint ctraj (q : nat) : R * cst :=
  match q with
  | O => (1 / 10, mkC 0 0 0 0 0)
  | S q => let a := ctraj q in let n := csteps 25 (fst a) (snd a) in (c_new (fst a) n, n)
  end.

End Flavour.

Lemma family_closed bx : closed bx (family bx) = true.
Proof. destruct bx; vm_cast_no_check (eq_refl true). Qed.

Section Flavour2.
Variable bx : bool.
Notation ctraj := (ctraj bx).
Notation family := (family bx).

Lemma ctraj_in q : exists a, In a family /\ inA a (fst (ctraj q)) (snd (ctraj q)).
Proof.
  induction q as [|q (a & Ha & Hin)].
  - exists start. split; [left; reflexivity|]. split; [apply (in_cst 1 10); lia|]. repeat split; apply (in_k 0).
  - assert (C := family_closed bx). unfold closed in C. rewrite forallb_forall in C. specialize (C a Ha).
    apply andb_prop in C. destruct C as [_ C]. destruct (iphase bx a) as [b|] eqn:E; [|discriminate].
    apply existsb_exists in C. destruct C as (a' & Ha' & Hs). exists a'. split; auto.
    destruct (in_phase bx a _ _ b Hin E) as [Hb _]. eapply in_a_sub; eauto.
Qed.
Lemma ctraj_goes q : c_go bx (snd (ctraj (S q))) /\ c_change (fst (ctraj q)) (fst (ctraj (S q))) /\ 0 < fst (ctraj q).
Proof.
  destruct (ctraj_in q) as (a & Ha & Hin).
  assert (C := family_closed bx). unfold closed in C. rewrite forallb_forall in C. specialize (C a Ha).
  apply andb_prop in C. destruct C as [_ C]. destruct (iphase bx a) as [b|] eqn:E; [|discriminate].
  destruct (in_phase bx a _ _ b Hin E) as (_ & H1 & H2 & H3). auto.
Qed.
Lemma ctraj_far q : 18 / 100 < Rabs (cx (snd (ctraj q)) - -1).
Proof.
  destruct (ctraj_in q) as (a & Ha & Hin).
  assert (C := family_closed bx). unfold closed in C. rewrite forallb_forall in C. specialize (C a Ha).
  apply andb_prop in C. destruct C as [C _]. eapply in_lt; [| |exact C]. apply (in_cst 18 100); lia.
  apply in_abs, in_sub. apply Hin. apply (in_k (-1)).
Qed.
End Flavour2.
