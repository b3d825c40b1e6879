Require Import ZArith Arith List Bool Reals Lra Lia Floats.SpecFloat.
Require Import FunctionalExtensionality.
From Verif Require Import Scal RSum Blk PolyR Poly_Spec Cas_Model Cas_Spec Cas_Proofs Hlp_Model Hlp_Spec Hlp_Proofs.
Import ListNotations.
Local Open Scope R_scope.

(** C90: helpers of polymath.  C91: the identification cost of the class Chebyshev. *)
(** * C90 *)
(** heaviside is within K exp(-4|x|) of the step of height K (away from the jump) *)
Theorem C90_heaviside_step : forall x K, Rabs (heaviside x K - step K x) <= Rabs K * exp (- 4 * Rabs x).
Proof.
  intros x K. unfold heaviside, step. pose proof (exp_pos (-4 * x)) as E.
  destruct (Rlt_dec 0 x) as [H|H].
  - replace (K / (1 + exp (-4 * x)) - K) with (- (K * (exp (-4 * x) / (1 + exp (-4 * x))))) by (field; lra).
    rewrite Rabs_Ropp, Rabs_mult, (Rabs_right x) by lra. apply Rmult_le_compat_l; [apply Rabs_pos|].
    rewrite Rabs_right; [|apply Rle_ge, Rlt_le, Rdiv_lt_0_compat; lra].
    apply (Rmult_le_reg_r (1 + exp (-4 * x))); [lra|]. unfold Rdiv. rewrite Rmult_assoc, Rinv_l by lra. nra.
  - assert (X : x <= 0) by lra. rewrite Rminus_0_r. unfold Rdiv. rewrite Rabs_mult. apply Rmult_le_compat_l; [apply Rabs_pos|].
    rewrite Rabs_right by (apply Rle_ge, Rlt_le, Rinv_0_lt_compat; lra). rewrite Rabs_left1 by lra.
    replace (-4 * - x) with (- (-4 * x)) by ring. rewrite exp_Ropp.
    apply Rinv_le_contravar; lra.
Qed.
Print Assumptions C90_heaviside_step.
(** it rises from 0 to K, antisymmetric about (0, K/2), with the logistic slope *)
Theorem C90_heaviside_shape : forall K, 0 < K ->
  (forall x, 0 < heaviside x K < K) /\ (forall x y, x < y -> heaviside x K < heaviside y K) /\
  (forall x, heaviside x K + heaviside (- x) K = K) /\
  (forall x, derivable_pt_lim (fun x => heaviside x K) x (4 * heaviside x K * (1 - heaviside x K / K))).
Proof.
  intros K HK. unfold heaviside. repeat split.
  - apply Rdiv_lt_0_compat; [lra|]. pose proof (exp_pos (-4 * x)). lra.
  - pose proof (exp_pos (-4 * x)). apply (Rmult_lt_reg_r (1 + exp (-4 * x))); [lra|]. unfold Rdiv. rewrite Rmult_assoc, Rinv_l by lra. nra.
  - intros x y H. pose proof (exp_pos (-4 * x)). pose proof (exp_pos (-4 * y)).
    assert (L : exp (-4 * y) < exp (-4 * x)) by (apply exp_increasing; lra).
    unfold Rdiv. apply Rmult_lt_compat_l; [lra|]. apply Rinv_lt_contravar; [nra|lra].
  - intros x. replace (-4 * - x) with (- (-4 * x)) by ring. rewrite exp_Ropp. pose proof (exp_pos (-4 * x)). field. split; lra.
  - intros x. pose proof (exp_pos (-4 * x)) as E.
    assert (D1 : derivable_pt_lim (fun x => exp (-4 * x)) x (exp (-4 * x) * -4)).
    { apply (derivable_pt_lim_comp (fun x => -4 * x) exp).
      - replace (-4) with (-4 * 1) at 1 by ring. apply (derivable_pt_lim_scal id (-4) x 1). apply derivable_pt_lim_id.
      - apply derivable_pt_lim_exp. }
    assert (D2 : derivable_pt_lim (fun x => 1 + exp (-4 * x)) x (0 + exp (-4 * x) * -4)).
    { apply (derivable_pt_lim_plus (fun _ => 1) (fun x => exp (-4 * x))); [apply derivable_pt_lim_const|exact D1]. }
    replace (4 * (K / (1 + exp (-4 * x))) * (1 - K / (1 + exp (-4 * x)) / K)) with
      ((0 * (1 + exp (-4 * x)) - (0 + exp (-4 * x) * -4) * K) / Rsqr (1 + exp (-4 * x))) by (unfold Rsqr; field; split; lra).
    apply (derivable_pt_lim_div (fun _ => K) (fun x => 1 + exp (-4 * x))); [apply derivable_pt_lim_const|exact D2|lra].
Qed.
Print Assumptions C90_heaviside_shape.
Example C90_heaviside_example : heaviside 0 10 = 5 /\ step 10 1 = 10 /\ step 10 (-1) = 0.
Proof.
  unfold heaviside, step. rewrite Rmult_0_r, exp_0. repeat split; [lra| |]; destruct (Rlt_dec _ _); lra.
Qed.

(** deg2rad: proportional, a half turn is pi *)
Theorem C90_deg2rad : deg2rad 180 = PI /\ forall a b s, deg2rad (s * a + b) = s * deg2rad a + deg2rad b.
Proof. unfold deg2rad. split; [field|intros; ring]. Qed.
Print Assumptions C90_deg2rad.
Example C90_deg2rad_example : cos (deg2rad 60) = 1 / 2.
Proof. unfold deg2rad. replace (PI / 180 * 60) with (PI / 3) by field. exact cos_PI3. Qed.

(** mat_func: every column is mapped, results are stacked; it throws exactly when the function throws for a column *)
Theorem C90_mat_func : forall (M : list (list R)) func r,
  (forall col res, In col M -> func col = Some res -> length (concat res) = r) ->
  (mat_func M func = None <-> exists col, In col M /\ func col = None) /\
  (forall v, mat_func M func = Some v -> length v = (length M * r)%nat /\
     forall k i, (k < length M)%nat -> (i < r)%nat -> exists res, func (nth k M nil) = Some res /\ nth (k * r + i) v 0 = nth i (concat res) 0).
Proof.
  induction M as [|col M IH]; intros func r H.
  - split; [split; [discriminate|intros (c & [] & _)]|]. intros v E. injection E as <-. split; [reflexivity|]. intros k i Hk. simpl in Hk. lia.
  - assert (H' : forall col res, In col M -> func col = Some res -> length (concat res) = r) by (intros; eapply H; simpl; eauto).
    destruct (IH func r H') as [N S]. rewrite mat_func_cons. destruct (func col) as [res|] eqn:E.
    + destruct (mat_func M func) as [w|] eqn:F.
      * split.
        -- split; [discriminate|]. intros (c & [->|Hc] & Hn); [congruence|]. exfalso. assert (Some w = None) by (apply N; eauto). discriminate.
        -- intros v Ev. injection Ev as <-. destruct (S w eq_refl) as [L Q]. assert (Lr : length (concat res) = r) by (eapply H; simpl; eauto).
           split; [rewrite app_length, L, Lr; simpl; lia|]. intros [|k] i Hk Hi.
           ++ exists res. split; [exact E|]. simpl. rewrite app_nth1 by lia. reflexivity.
           ++ simpl in Hk. destruct (Q k i ltac:(lia) Hi) as (res' & E' & V). exists res'. split; [exact E'|]. rewrite app_nth2 by (rewrite Lr; simpl; lia).
              rewrite Lr. replace (Datatypes.S k * r + i - r)%nat with (k * r + i)%nat by (simpl; lia). exact V.
      * split; [|discriminate]. split; [|reflexivity]. intros _. destruct (proj1 N eq_refl) as (c & Hc & Hn). exists c. simpl. auto.
    + split; [|discriminate]. split; [|reflexivity]. intros _. exists col. simpl. auto.
Qed.
Print Assumptions C90_mat_func.
Example C90_mat_func_example : mat_func [[1]; [2]] (fun c => match c with [x] => Some [[x]; [x * x]] | _ => None end) = Some [1; 1 * 1; 2; 2 * 2].
Proof. reflexivity. Qed.

(** mat_dynamics: one block f(x_k, u_k) for every control column, then the last column of x *)
Theorem C90_mat_dynamics : forall x u func, let m := length u in let p := length x in
  (mat_dynamics x u func = None <-> p = 0%nat \/ (p < m)%nat \/ exists k, (k < m)%nat /\ (k < p)%nat /\ func (nth k x nil) (nth k u nil) = None) /\
  (forall v, mat_dynamics x u func = Some v ->
     exists e, length e = m /\ (forall k, (k < m)%nat -> func (nth k x nil) (nth k u nil) = Some (nth k e nil)) /\ v = concat e ++ nth (p - 1) x nil).
Proof.
  intros x u func m p. unfold mat_dynamics. pose proof (eval_columns_spec func u x) as S. fold m p in S.
  assert (L : forall a l, rev x = a :: l -> nth (p - 1) x nil = a /\ (1 <= p)%nat).
  { intros a l H. assert (X : x = rev l ++ [a]) by (rewrite <- (rev_involutive x), H; reflexivity). unfold p. rewrite X. rewrite app_length. simpl length.
    split; [rewrite app_nth2 by lia; replace (length (rev l) + 1 - 1 - length (rev l))%nat with 0%nat by lia; reflexivity|lia]. }
  destruct (eval_columns x u func) as [e|].
  - destruct S as (A & B & C). destruct (rev x) as [|a l] eqn:E.
    + split; [|discriminate]. split; [|reflexivity]. intros _. left. unfold p. rewrite <- (rev_length x), E. reflexivity.
    + destruct (L a l eq_refl) as [N P]. split.
      * split; [discriminate|]. intros [H|[H|(k & Hk & _ & H)]]; [lia|lia|]. rewrite (C k Hk) in H. discriminate.
      * intros v Ev. injection Ev as <-. exists e. split; [exact B|]. split; [exact C|]. rewrite concat_app. simpl. rewrite app_nil_r, N. reflexivity.
  - split; [|discriminate]. split; [|reflexivity]. intros _. right. exact S.
Qed.
Print Assumptions C90_mat_dynamics.
Example C90_mat_dynamics_example : let f := fun x u => match x, u with [a], [b] => Some [a + b] | _, _ => None end in
  mat_dynamics [[1]; [2]; [3]] [[10]; [20]] f = Some [1 + 10; 2 + 20; 3].
Proof. reflexivity. Qed.

(** range in exact arithmetic: the multiples of the step up to [last], and nothing else *)
Theorem C90_range : forall first last step, 0 < step -> exists n, (forall k, (k < n)%nat <-> first + INR k * step <= last) /\
  forall fuel, (n <= fuel)%nat -> range fuel first last step = Some (map (fun k => first + INR k * step) (seq 0 n)).
Proof.
  intros first last step Hs.
  assert (E : exists n, forall k, (k < n)%nat <-> first + INR k * step <= last).
  { destruct (Rle_dec first last) as [H|H].
    - assert (exists N, (last - first) / step < INR N) as [N HN].
      { destruct (archimed ((last - first) / step)) as [U _]. exists (Z.to_nat (up ((last - first) / step))). rewrite INR_IZR_INZ.
        assert (0 <= (last - first) / step) by (apply Rmult_le_pos; [lra|apply Rlt_le, Rinv_0_lt_compat; lra]).
        rewrite Z2Nat.id; [lra|]. apply le_IZR. lra. }
      assert (Q : exists n, (n <= N)%nat /\ forall k, (k < n)%nat <-> (k < N)%nat /\ first + INR k * step <= last).
      { clear HN. induction N as [|N (n & Hn & IH)]; [exists 0%nat; split; [lia|intros; lia]|].
        destruct (Rle_dec (first + INR N * step) last) as [G|G].
        - exists (S N). split; [lia|]. intros k. split; [|lia]. intros Hk. split; [lia|].
          assert (INR k <= INR N) by (apply le_INR; lia). nra.
        - exists n. split; [lia|]. intros k. rewrite IH. split; intros [A B]; split; try lia; auto.
          destruct (Nat.eq_dec k N) as [->|]; [contradiction|lia]. }
      destruct Q as (n & Hn & Q). exists n. intros k. rewrite Q. split; [tauto|]. intros G. split; [|exact G].
      apply INR_lt. apply Rle_lt_trans with ((last - first) / step); [|lra].
      apply (Rmult_le_reg_r step); [lra|]. unfold Rdiv. rewrite Rmult_assoc, Rinv_l by lra. lra.
    - exists 0%nat. intros k. split; [lia|]. intros G. exfalso. pose proof (pos_INR k). nra. }
  destruct E as [n H]. exists n. split; [exact H|]. intros fuel Hf. apply range_some; auto.
Qed.
Print Assumptions C90_range.
(** a step that is not positive never reaches the end *)
Theorem C90_range_endless : forall first last step, step <= 0 -> first <= last -> forall fuel, range fuel first last step = None.
Proof.
  intros first last step Hs H fuel. revert first H. induction fuel; intros first H; simpl range; simpl;
    unfold Rleb; destruct (Rle_dec first last); try contradiction; try reflexivity.
  rewrite IHfuel; [reflexivity|]. simpl. lra.
Qed.
Print Assumptions C90_range_endless.
(** "the last value is included if it is first + k step": false in binary64, range(0, 0.3, 0.1) has three values *)
Theorem C90_range_refuted : exists k : nat,
  range 10 0 (3 / 10) (1 / 10) = Some (map (fun k => 0 + INR k * (1 / 10)) (seq 0 (S k))) /\ 0 + INR k * (1 / 10) = 3 / 10 /\
  let sc := SF_scalar in
  option_map (@length spec_float) (range 10 (sofZ 0) (scst 3 10) (scst 1 10)) = Some k.
Proof.
  exists 3%nat. split; [|split; [simpl; lra|vm_compute; reflexivity]].
  apply range_some; [|lia]. intros k. split.
  - intros Hk. do 4 (destruct k as [|k]; [simpl; lra|]). lia.
  - intros Hk. apply INR_lt. simpl (INR 4). lra.
Qed.
Print Assumptions C90_range_refuted.

(** * C91 *)
(** a table of the wrong size: the cost is 0, whatever the function and the states *)
Theorem C91_size : forall c f data t0 tf X, ~ table (cX c) (cS c * cP c + 1) data -> id_cost c f data t0 tf X = Some 0.
Proof.
  intros c f data t0 tf X H. unfold id_cost.
  destruct (negb _ || negb _) eqn:E; [reflexivity|]. exfalso. apply H. apply table_check.
  apply orb_false_iff in E. destruct E as [A B]. apply negb_false_iff in A, B. rewrite A, B. reflexivity.
Qed.
Print Assumptions C91_size.
(** the measurements have no effect *)
Theorem C91_data_ignored : forall c f data data' t0 tf X, dims_ok c ->
  table (cX c) (cS c * cP c + 1) data -> table (cX c) (cS c * cP c + 1) data' ->
  id_cost c f data t0 tf X = id_cost c f data' t0 tf X.
Proof.
  intros c [f|] data data' t0 tf X Hd HT HT'.
  - rewrite !id_cost_table by auto. reflexivity.
  - unfold id_cost. destruct (_ || _), (_ || _); reflexivity.
Qed.
Print Assumptions C91_data_ignored.
(** What the cost is: the integral of IdCost(x(t), 0), exact for polynomials of degree at most P on the segments.  Missing:
    the measurements in place of 0 (next theorem). *)
Theorem C91_integral_partial : forall c f data t0 tf X (r F : nat -> R -> R), dims_ok c -> f_nin f = 2%nat ->
  table (cX c) (cS c * cP c + 1) data ->
  (forall s, (s < cS c)%nat -> is_poly (cP c) (r s) /\ derivative_of (F s) (r s) /\
     forall k, (k <= cP c)%nat -> f_val f [block (cX c) X (s * cP c + k); repeat 0 (cX c)] 0%nat = r s (node_time c t0 tf s k)) ->
  id_cost c (Some f) data t0 tf X =
  Some (rsum (cS c) (fun s => F s (node_time c t0 tf s 0) - F s (node_time c t0 tf s (cP c)))).
Proof.
  intros c f data t0 tf X r F Hd Hn HT H. rewrite id_cost_table by auto. apply (quad_integral c Hd t0 tf _ r F).
  intros s Hs. destruct (H s Hs) as (A & B & C). split; [exact A|]. split; [exact B|]. intros k Hk.
  unfold sval, call. simpl length. rewrite Hn. cbn [Nat.eqb]. f_equal. exact (C k Hk).
Qed.
Print Assumptions C91_integral_partial.
(** "the cost is the integral of IdCost(x(t), measurement(t))": false.  A trajectory that is equal to the measurements
    has the cost 2 for the squared distance. *)
Theorem C91_fit_refuted : exists c f data t0 tf X, dims_ok c /\ t0 < tf /\ table (cX c) (cS c * cP c + 1) data /\ cX c = 1%nat /\
  (forall k, (k < cS c * cP c + 1)%nat -> nth k data nil = block (cX c) X k) /\ data = rev data /\
  (forall x d, f_val f [[x]; [d]] 0%nat = (x - d) ^ 2) /\ id_cost c (Some f) data t0 tf X = Some 2.
Proof.
  set (f := mkFun 2 1 (fun l => match l with [[x]; [d]] => fun _ => (x - d) ^ 2 | _ => fun _ => 0 end)).
  exists (mkCas 1 1 1 0 0 0), f, [[1]; [1]], 0, 2, (fun _ => 1).
  assert (D : dims_ok (mkCas 1 1 1 0 0 0)) by (repeat split; cbn; lia).
  assert (T : table 1 2 [[1]; [1]]) by (split; [reflexivity|intros col [<-|[<-|[]]]; reflexivity]).
  split; [exact D|]. split; [lra|]. split; [exact T|]. split; [reflexivity|].
  split; [intros [|[|k]] Hk; [reflexivity|reflexivity|cbn in Hk; lia]|]. split; [reflexivity|]. split; [reflexivity|].
  rewrite (C91_integral_partial (mkCas 1 1 1 0 0 0) f [[1]; [1]] 0 2 (fun _ => 1) (fun _ _ => 1) (fun _ t => 1 * t + 0) D eq_refl T).
  - f_equal. change (cS (mkCas 1 1 1 0 0 0)) with 1%nat. change (cP (mkCas 1 1 1 0 0 0)) with 1%nat.
    destruct (seg_ends (mkCas 1 1 1 0 0 0) 0 2 0) as [A B]; [cbn; lia|]. change (cP (mkCas 1 1 1 0 0 0)) with 1%nat in B.
    cbn [ssum]. rewrite A, B. unfold seg_len. simpl. lra.
  - intros s Hs. split; [|split].
    + exists (fun k => match k with 0 => 1 | _ => 0 end). intro x. simpl. ring.
    + intros x. assert (H : derivable_pt_lim (fun t => 1 * t + 0) x (1 * 1 + 0)).
      { apply (derivable_pt_lim_plus (fun t => 1 * t) (fun _ => 0)); [apply (derivable_pt_lim_scal id 1 x 1), derivable_pt_lim_id|apply derivable_pt_lim_const]. }
      replace (1 * 1 + 0) with 1 in H by ring. exact H.
    + intros k Hk. unfold f, block. simpl. ring.
Qed.
Print Assumptions C91_fit_refuted.
(** a state that moves: x(t) = t on [0, 2], IdCost = x - d, measurements 7: the cost is the integral of t *)
Example C91_integral_example : id_cost (mkCas 1 1 1 0 0 0) (Some (mkFun 2 1 (fun l => match l with [[x]; [d]] => fun _ => x - d | _ => fun _ => 0 end)))
  [[7]; [7]] 0 2 (fun i => match i with 0 => 2 | _ => 0 end) = Some 2.
Proof.
  set (X := fun i : nat => match i with 0%nat => 2 | _ => 0 end). set (f := mkFun 2 1 _).
  assert (D : dims_ok (mkCas 1 1 1 0 0 0)) by (repeat split; cbn; lia).
  destruct (seg_ends (mkCas 1 1 1 0 0 0) 0 2 0) as [A B]; [cbn; lia|]. change (cP (mkCas 1 1 1 0 0 0)) with 1%nat in B.
  rewrite (C91_integral_partial (mkCas 1 1 1 0 0 0) f [[7]; [7]] 0 2 X (fun _ t => t) (fun _ t => / 2 * (t * t)) D eq_refl).
  - f_equal. change (cS (mkCas 1 1 1 0 0 0)) with 1%nat. change (cP (mkCas 1 1 1 0 0 0)) with 1%nat.
    cbn [ssum]. rewrite A, B. unfold seg_len. simpl. field.
  - split; [reflexivity|intros col [<-|[<-|[]]]; reflexivity].
  - intros s Hs. cbn in Hs. assert (s = 0)%nat as -> by lia. split; [|split].
    + exists (fun k => match k with 1 => 1 | _ => 0 end). intro x. simpl. ring.
    + intros x. assert (H : derivable_pt_lim (fun t => / 2 * (t * t)) x (/ 2 * (1 * id x + id x * 1))).
      { apply (derivable_pt_lim_scal (fun t => id t * id t)). apply (derivable_pt_lim_mult id id); apply derivable_pt_lim_id. }
      replace (/ 2 * (1 * id x + id x * 1)) with x in H by (unfold id; field). exact H.
    + intros k Hk. cbn in Hk. destruct k as [|[|]]; [rewrite A|rewrite B|lia]; unfold block, X, seg_len; simpl; field.
Qed.
