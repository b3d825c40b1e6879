(** The sparse solvers run as the dense ones. *)
Require Import ZArith Arith Bool List Reals Lra Lia.
From Verif Require Import Scal Blk RSum Sparse Sparse_Proofs Qp_Model Admm_Model BoxAdmm_Model Gauss Spk_Model Spk_Spec Spk_Proofs.
Import ListNotations.
Local Open Scope R_scope.

Lemma qp_loop_sim {S O : Type} (f : S -> O) (I : S -> Prop) bs bo mx :
  (forall it s, I s -> match bo it (f s) with
     | Cont o => exists s', bs it s = Cont s' /\ f s' = o /\ I s'
     | Stop o => exists s', bs it s = Stop s' /\ f s' = o /\ I s'
     | Undef => bs it s = Undef end) ->
  forall fuel it s, I s -> match qp_loop bo mx fuel it (f s) with
     | Some (o, k) => exists s', qp_loop bs mx fuel it s = Some (s', k) /\ f s' = o /\ I s'
     | None => qp_loop bs mx fuel it s = None end.
Proof.
  intros HB. induction fuel as [|fuel IH]; intros it s HI; cbn [qp_loop]; [reflexivity|].
  destruct (it <=? mx)%Z; [|exists s; auto].
  pose proof (HB it s HI) as X. destruct (bo it (f s)).
  - destruct X as (s' & E & F & HI'). rewrite E. exists s'. auto.
  - destruct X as (s' & E & <- & HI'). rewrite E. apply IH, HI'.
  - rewrite X. reflexivity.
Qed.

Section S.
Variable lsolve : nat -> mat R -> vec R -> vec R.
Variable full : bool.
Variables N M : nat.
Implicit Types p : sqp_data R.

Lemma factorize_ok n r pH pA K0 K : kshape full n r pH pA K0 -> kshape full n r pH pA K ->
  factorize (Some K0) K = Some (tab2 (n + r) (n + r) (coeff K)).
Proof.
  intros H0 HK. unfold factorize. rewrite (same_pattern_ok _ _ _ _ _ _ _ H0 HK). destruct HK as (-> & -> & _). reflexivity.
Qed.
Lemma kshape_zero n r pH pA K i j : kshape full n r pH pA K -> (i < n + r)%nat -> (j < n + r)%nat ->
  ((i < n <= j)%nat /\ full = false \/ (n <= i)%nat /\ (n <= j)%nat /\ i <> j) -> coeff K i j = 0.
Proof.
  intros (_ & _ & KP) Hi Hj X. unfold coeff. rewrite KP by assumption. unfold kpat.
  destruct (Nat.ltb_spec i n); destruct (Nat.ltb_spec j n); try lia.
  - destruct X as [[_ ->]|X]; [reflexivity|lia].
  - destruct (Nat.eqb_spec i j); [lia|reflexivity].
Qed.

(** what a call needs of the matrices kept from the preceding call *)
Definition matching (prev : option (sqp_data R)) (r : nat) (PA : sqp_data R -> nat -> nat -> bool) (K : spmat R) (an : option (spmat R)) : Prop :=
  match prev with
  | None => True
  | Some p => kshape full N r (pat (am (sH p))) (PA p) K /\ exists K0, an = Some K0 /\ kshape full N r (pat (am (sH p))) (PA p) K0
  end.

Lemma kshape_ext n r pH pA pH' pA' (K : spmat R) :
  (forall i j, (i < n)%nat -> (j < n)%nat -> pH' i j = pH i j) -> (forall i j, (i < r)%nat -> (j < n)%nat -> pA' i j = pA i j) ->
  kshape full n r pH pA K -> kshape full n r pH' pA' K.
Proof.
  intros E1 E2 (a & b & c). split; [exact a|]. split; [exact b|]. intros i j Hi Hj. rewrite c by assumption. unfold kpat.
  destruct (Nat.ltb_spec i n); destruct (Nat.ltb_spec j n); auto.
  - rewrite E1 by assumption. reflexivity.
  - rewrite E2 by lia. reflexivity.
  - rewrite E2 by lia. reflexivity.
Qed.

(** construction in both modes *)
Lemma construct_ok r reuse H A A0 pH0 d ds rinv K an :
  sp_r H = N -> sp_c H = N -> sp_r A = r -> sp_c A = N ->
  (reuse = true -> full = false /\ (forall i, (i < N)%nat -> pat H i i = true) /\
    (forall i j, (i < N)%nat -> (j < N)%nat -> pat H i j = pH0 i j) /\
    (forall i j, (i < r)%nat -> (j < N)%nat -> pat A i j = A0 i j) /\
    kshape full N r pH0 A0 K /\ exists K0, an = Some K0 /\ kshape full N r pH0 A0 K0) ->
  (forall i v, (i < N)%nat -> fold_left (fun v d => v + d i) ds v = v + d i) ->
  exists K' K0, kkt_construct N r full reuse H A d ds rinv K an = Some (K', Some K0) /\
    kshape full N r (pat H) (pat A) K' /\ kshape full N r (pat H) (pat A) K0 /\
    (forall i j, (i < N + r)%nat -> (j < N + r)%nat -> coeff K' i j = kkt_entry full N (coeff H) (coeff A) d rinv i j).
Proof.
  intros HR HC AR AC HRe Hd. unfold kkt_construct. destruct reuse.
  - destruct (HRe eq_refl) as (Fe & Dg & EH & EA & SK & K0 & Ean & SK0).
    assert (kshape full N r (pat H) (pat A) K) as SK' by (eapply kshape_ext; [exact EH|exact EA|exact SK]).
    assert (kshape full N r (pat H) (pat A) K0) as SK0' by (eapply kshape_ext; [exact EH|exact EA|exact SK0]).
    rewrite Fe in SK' |- *.
    destruct (kkt_refresh_ok N r H A ds rinv K HR HC AR AC SK' Dg) as (K' & E & S & V).
    rewrite E. cbn [obind]. exists K', K0. rewrite Ean. split; [reflexivity|].
    split; [eapply kshape_same; eauto|]. split; [rewrite Fe in SK0'; exact SK0'|].
    intros i j Hi Hj. rewrite V by assumption. unfold kcoef, kkt_entry. rsimp.
    destruct (Nat.ltb_spec i N); destruct (Nat.ltb_spec j N); auto.
    destruct (Nat.eqb_spec i j); [|lra]. rewrite <- Hd by assumption. reflexivity.
  - destruct (kkt_build_ok full N r H A d rinv HR HC AR AC) as (K' & E & S & V).
    rewrite E. cbn [obind]. exists K', K'. split; [reflexivity|]. split; [exact S|]. split; [exact S|].
    intros i j Hi Hj. rewrite V by assumption. unfold kcoef, kkt_entry. rsimp.
    destruct (Nat.ltb_spec i N); destruct (Nat.ltb_spec j N); auto.
    destruct (Nat.eqb_spec i j); [reflexivity|lra].
Qed.

(** ** boxADMM *)
Definition PB (p : sqp_data R) := pat (am (sA p)).
Definition binv p (so : sbox R) : Prop :=
  matching (Some p) M PB (sb_K so) (sb_an so) /\ b_K (sb_o so) = tab2 (N + M) (N + M) (coeff (sb_K so)).
Definition bzero (K : mat R) : Prop := forall i j, (i < N + M)%nat -> (j < N + M)%nat ->
  ((i < N <= j)%nat /\ full = false \/ (N <= i)%nat /\ (N <= j)%nat /\ i <> j) -> K i j = 0.
Lemma binv_zero p so : binv p so -> bzero (b_K (sb_o so)).
Proof. intros ((SK & _) & ->) i j Hi Hj X. rewrite tab2_spec by assumption. eapply kshape_zero; eauto. Qed.

Lemma sbox_setup_sim s reuse p xg yg so prev :
  regular N M p -> (reuse = true -> full = false /\ diagonal_stored N p /\
    match prev with None => False | Some p0 => same_structure N M p p0 end) ->
  matching prev M PB (sb_K so) (sb_an so) -> bzero (b_K (sb_o so)) ->
  exists so', sbox_setup full s reuse p xg yg so = Some so' /\ sb_o so' = box_setup full s (dense p) xg yg (sb_o so) /\ binv p so'.
Proof.
  intros (En & Em & Hc & Ac & HR & HC & AR & AC) HRe HM HZ. unfold sbox_setup. cbv zeta. rewrite Hc, Ac, En, Em. cbn [orb].
  match goal with |- context [mkBox ?a ?b ?c ?d ?e ?f ?g ?h ?i ?j ?k ?l ?m ?n ?o ?q ?r] => set (o1 := mkBox a b c d e f g h i j k l m n o q r) end.
  set (o2 := box_rho_vec_update (dense p) (rho0 s) o1).
  destruct (construct_ok M reuse (am (sH p)) (am (sA p)) (match prev with Some p0 => PB p0 | None => fun _ _ => false end)
     (match prev with Some p0 => pat (am (sH p0)) | None => fun _ _ => false end)
     (fun i => (sigma s + b_rho_box o2 i)%S) [fun _ => sigma s; b_rho_box o2] (b_rho_inv o2) (sb_K so) (sb_an so) HR HC AR AC) as (K' & K0 & E & S1 & S2 & V).
  { intro Ht. destruct (HRe Ht) as (Fe & Dg & X). destruct prev as [p0|]; [|contradiction]. destruct X as [X1 X2].
    destruct HM as (SK & K0 & Ea & SK0). split; [exact Fe|]. split; [exact Dg|]. split; [exact X1|]. split; [exact X2|]. split; [exact SK|]. exists K0. auto. }
  { intros i v Hi. cbn. rsimp. lra. }
  rewrite E. cbn [obind fst snd]. unfold sbox_set. rewrite (factorize_ok N M _ _ _ _ S2 S1). cbn [obind].
  eexists. split; [reflexivity|]. cbn [sb_o sb_K sb_an].
  assert (tab2 (N + M) (N + M) (coeff K') = box_construct_kkt_matrix full s (dense p) (b_rho_inv o2) (b_rho_box o2) (b_K (sb_o so))) as EK.
  { unfold box_construct_kkt_matrix. cbn [qn qm dense]. rewrite En, Em. apply tab2_ext. intros i j Hi Hj. rewrite V by assumption.
    unfold kkt_entry. cbn [qH qA dense]. rsimp.
    destruct (Nat.ltb_spec i N); destruct (Nat.ltb_spec j N); auto.
    - destruct (Nat.eqb_spec i j); lra.
    - destruct full eqn:Ef; auto. symmetry. apply HZ; auto.
    - destruct (Nat.eqb_spec i j); auto. symmetry. apply HZ; auto. }
  split.
  - unfold box_setup. cbv zeta. cbn [qn qm dense]. rewrite En, Em. fold o1. fold o2. rewrite EK. reflexivity.
  - split; [|reflexivity]. cbn. split; [exact S1|]. exists K0. auto.
Qed.

Lemma sbox_adapt_sim s p so : sn p = N -> sm p = M -> binv p so ->
  exists so', sbox_adapt_rho s p so = Some so' /\ sb_o so' = box_adapt_rho s (dense p) (sb_o so) /\ binv p so'.
Proof.
  intros En Em ((SK & K0 & Ea & SK0) & EK). unfold sbox_adapt_rho, box_adapt_rho. cbv zeta.
  set (nr := clamp_rho (estimate_rho (b_res (sb_o so)) (b_rho (sb_o so)))).
  destruct (rho_change_needed s nr (b_rho (bset_rho_estimate nr (sb_o so)))).
  - rewrite En, Em. set (o2 := box_rho_vec_update (dense p) nr (bset_rho_estimate nr (sb_o so))).
    pose proof SK as (KR & KC & KP).
    destruct (kkt_head_ok N (sb_K so) (fun i => (b_rho_box o2 i - b_rho_box (bset_rho_estimate nr (sb_o so)) i)%S)) as (K1 & E1 & S1 & V1); try lia.
    { intros. eapply kshape_diag; [exact SK|]. lia. }
    rewrite E1. cbn [obind]. pose proof (kshape_same _ _ _ _ _ _ _ SK S1) as SK1. pose proof SK1 as (KR1 & KC1 & KP1).
    destruct (kkt_tail_ok N M K1 (b_rho_inv o2)) as (K2 & E2 & S2 & V2); try lia.
    { intros. eapply kshape_diag; [exact SK1|]. lia. }
    rewrite E2. cbn [obind]. pose proof (kshape_same _ _ _ _ _ _ _ SK1 S2) as SK2.
    unfold sbox_set. rewrite Ea, (factorize_ok N M _ _ _ _ SK0 SK2). cbn [obind].
    eexists. split; [reflexivity|]. cbn [sb_o sb_K sb_an]. split.
    + f_equal. f_equal. unfold box_update_kkt_rho. cbn [qn qm dense]. rewrite En, Em. apply tab2_ext. intros i j Hi Hj.
      rewrite V2, V1 by lia.
      change (b_K o2) with (b_K (sb_o so)). rewrite EK, tab2_spec by assumption.
      destruct (Nat.eqb_spec i j) as [<-|]; cbn [andb]; auto.
      destruct (Nat.leb_spec N i); destruct (Nat.ltb_spec i N); destruct (Nat.ltb_spec i (N + M)); try lia; reflexivity.
    + split; [|reflexivity]. cbn. split; [exact SK2|]. exists K0. auto.
  - eexists. split; [reflexivity|]. split; [reflexivity|]. split; [|exact EK]. cbn. split; [exact SK|]. exists K0. auto.
Qed.

Lemma sbox_body_sim s p : sn p = N -> sm p = M -> forall it so, binv p so ->
  match box_body lsolve s (dense p) it (sb_o so) with
  | Cont o => exists s', sbox_body lsolve s p it so = Cont s' /\ sb_o s' = o /\ binv p s'
  | Stop o => exists s', sbox_body lsolve s p it so = Stop s' /\ sb_o s' = o /\ binv p s'
  | Undef => sbox_body lsolve s p it so = Undef end.
Proof.
  intros En Em it so HI. unfold box_body, sbox_body. cbv zeta.
  set (o1 := box_update lsolve s (dense p) (sb_o so)).
  assert (forall o, b_K o = b_K (sb_o so) -> binv p (SBox o (sb_K so) (sb_an so))) as Keep.
  { intros o Eo. destruct HI as (X & Y). split; [exact X|]. cbn [sb_o sb_K]. rewrite Eo. exact Y. }
  set (o2 := if is_check_iter s it then box_residuals_update (dense p) o1 else o1).
  assert (b_K o2 = b_K (sb_o so)) as E2 by (unfold o2; destruct (is_check_iter s it); reflexivity).
  destruct (is_check_iter s it && termination_criteria s (b_res o2)).
  - eexists. split; [reflexivity|]. split; [reflexivity|]. apply Keep. exact E2.
  - destruct (adaptive_rho s).
    + destruct (adaptive_rho_interval s =? 0)%Z; [reflexivity|].
      destruct (Z.rem it (adaptive_rho_interval s) =? 0)%Z.
      * set (o3 := if is_check_iter s it then o2 else box_residuals_update (dense p) o2).
        assert (b_K o3 = b_K (sb_o so)) as E3 by (unfold o3; destruct (is_check_iter s it); exact E2).
        destruct (sbox_adapt_sim s p (SBox o3 (sb_K so) (sb_an so)) En Em (Keep o3 E3)) as (so' & E & F & I).
        rewrite E. cbn [of_option]. exists so'. split; [reflexivity|]. split; [exact F|exact I].
      * eexists. split; [reflexivity|]. split; [reflexivity|]. apply Keep. exact E2.
    + eexists. split; [reflexivity|]. split; [reflexivity|]. apply Keep. exact E2.
Qed.

Lemma sbox_solve_sim s reuse p xg yg so prev :
  regular N M p -> (reuse = true -> full = false /\ diagonal_stored N p /\
    match prev with None => False | Some p0 => same_structure N M p p0 end) ->
  matching prev M PB (sb_K so) (sb_an so) -> bzero (b_K (sb_o so)) ->
  match box_solve lsolve full s (dense p) xg yg (sb_o so) with
  | Some o => exists so', sbox_solve lsolve full s reuse p xg yg so = Some so' /\ sb_o so' = o /\ binv p so'
  | None => sbox_solve lsolve full s reuse p xg yg so = None end.
Proof.
  intros Rg HRe HM HZ. destruct (sbox_setup_sim s reuse p xg yg so prev Rg HRe HM HZ) as (s1 & E1 & F1 & I1).
  pose proof Rg as (En & Em & _).
  unfold box_solve, sbox_solve. rewrite E1. cbn [obind]. rewrite <- F1.
  pose proof (qp_loop_sim sb_o (binv p) _ _ (max_iter s) (sbox_body_sim s p En Em) (S (Z.to_nat (max_iter s))) 1 s1 I1) as X.
  destruct (qp_loop (box_body lsolve s (dense p)) _ _ _ _) as [[o k]|].
  - destruct X as (s2 & E2 & F2 & I2). rewrite E2. cbn [obind]. eexists. split; [reflexivity|].
    cbn [sb_o]. rewrite F2. split; [reflexivity|]. destruct I2 as (X & Y). split; [exact X|]. cbn [sb_o sb_K].
    rewrite <- F2. destruct (max_iter s <? k)%Z; exact Y.
  - rewrite X. reflexivity.
Qed.

Lemma box_fold_None (cs : list (call R)) : fold_left (fun o (c : call R) => let '(s, _, p, xg, yg) := c in obind o (box_solve lsolve full s (dense p) xg yg)) cs None = None.
Proof. induction cs as [|[[[[s r] p] xg] yg] cs IH]; cbn; auto. Qed.
Lemma sbox_fold_None (cs : list (call R)) : fold_left (fun so (c : call R) => let '(s, reuse, p, xg, yg) := c in obind so (sbox_solve lsolve full s reuse p xg yg)) cs None = None.
Proof. induction cs as [|[[[[s r] p] xg] yg] cs IH]; cbn; auto. Qed.

Lemma sbox_session_sim : forall cs prev so, proper full N M prev cs ->
  matching prev M PB (sb_K so) (sb_an so) -> bzero (b_K (sb_o so)) ->
  box_session lsolve full (sb_o so) cs = option_map sb_o (sbox_session lsolve full so cs).
Proof.
  induction cs as [|[[[[s reuse] p] xg] yg] cs IH]; intros prev so HP HM HZ; [reflexivity|].
  destruct HP as (Rg & HRe & HP). unfold box_session, sbox_session. cbn [fold_left obind].
  pose proof (sbox_solve_sim s reuse p xg yg so prev Rg HRe HM HZ) as X.
  destruct (box_solve lsolve full s (dense p) xg yg (sb_o so)) as [o|].
  - destruct X as (so' & E & F & I). rewrite E, <- F. apply (IH (Some p)); [exact HP|apply I|eapply binv_zero; exact I].
  - rewrite X. rewrite box_fold_None, sbox_fold_None. reflexivity.
Qed.

(** ** ADMM *)
Definition PE (p : sqp_data R) : nat -> nat -> bool := fun i j => if (i <? M)%nat then pat (am (sA p)) i j else (i =? M + j)%nat.
Definition ainv p (so : sadmm R) : Prop :=
  matching (Some p) (M + N) PE (sa_K so) (sa_an so) /\ ashape N M (pat (am (sA p))) (sa_A so) /\
  a_K (sa_o so) = tab2 (N + (M + N)) (N + (M + N)) (coeff (sa_K so)).
Definition azero (K : mat R) : Prop := forall i j, (i < N + (M + N))%nat -> (j < N + (M + N))%nat ->
  (i < N <= j)%nat -> full = false -> K i j = 0.
Lemma ainv_zero p so : ainv p so -> azero (a_K (sa_o so)).
Proof. intros ((SK & _) & _ & ->) i j Hi Hj X F. rewrite tab2_spec by assumption. eapply kshape_zero; eauto. Qed.

Definition amatch (prev : option (sqp_data R)) (so : sadmm R) : Prop :=
  matching prev (M + N) PE (sa_K so) (sa_an so) /\
  match prev with None => True | Some p => ashape N M (pat (am (sA p))) (sa_A so) end.

Lemma sadmm_setup_sim s reuse p xg yg so prev :
  regular N M p -> (reuse = true -> full = false /\ diagonal_stored N p /\
    match prev with None => False | Some p0 => same_structure N M p p0 end) ->
  amatch prev so -> azero (a_K (sa_o so)) ->
  exists so', sadmm_setup full s reuse p xg yg so = Some so' /\ sa_o so' = admm_setup full s (dense p) xg yg (sa_o so) /\ ainv p so'.
Proof.
  intros (En & Em & Hc & Ac & HR & HC & AR & AC) HRe [HM HA] HZ. unfold sadmm_setup. cbv zeta. rewrite Hc, Ac, En, Em. cbn [orb].
  assert (exists A, (if reuse then refresh_A N (am (sA p)) (sa_A so) else build_A N M (am (sA p))) = Some A /\
    ashape N M (pat (am (sA p))) A /\
    (forall i j, (i < N + M)%nat -> (j < N)%nat -> coeff A i j = if (i <? M)%nat then coeff (am (sA p)) i j else if (i - M =? j)%nat then 1%S else 0%S)) as (A & EA & SA & VA).
  { destruct reuse.
    - destruct (HRe eq_refl) as (_ & _ & X). destruct prev as [p0|]; [|contradiction]. destruct X as [X1 X2].
      apply (refresh_A_ok N M (am (sA p)) (sa_A so) AR AC). destruct HA as (a & b & c & d).
      split; [exact a|]. split; [exact b|]. split; [|exact d]. intros i j Hi Hj. rewrite c by assumption.
      destruct (Nat.ltb_spec i M); [symmetry; apply X2; assumption|reflexivity].
    - exact (build_A_ok N M (am (sA p)) AR AC). }
  rewrite EA. cbn [obind].
  assert (tab2 (M + N) N (coeff A) = Admm_Model.construct_A N M (qA (dense p))) as EE.
  { unfold Admm_Model.construct_A. apply tab2_ext. intros i j Hi Hj. rewrite VA by lia. reflexivity. }
  match goal with |- context [mkAdmm ?a ?b ?c ?d ?e ?f ?g ?h ?i ?j ?k ?l ?m ?n] => set (o1 := mkAdmm a b c d e f g h i j k l m n) end.
  set (o2 := rho_vec_update (dense p) (rho0 s) o1).
  pose proof SA as (SA1 & SA2 & SA3 & SA4).
  destruct (construct_ok (M + N) reuse (am (sH p)) A (match prev with Some p0 => PE p0 | None => fun _ _ => false end)
     (match prev with Some p0 => pat (am (sH p0)) | None => fun _ _ => false end)
     (fun _ => sigma s) [fun _ => sigma s] (a_rho_inv o2) (sa_K so) (sa_an so) HR HC) as (K' & K0 & E & S1 & S2 & V); try lia.
  { intro Ht. destruct (HRe Ht) as (Fe & Dg & X). destruct prev as [p0|]; [|contradiction]. destruct X as [X1 X2].
    destruct HM as (SK & K0 & Ea & SK0). split; [exact Fe|]. split; [exact Dg|]. split; [exact X1|]. split; [|split; [exact SK|exists K0; auto]].
    intros i j Hi Hj. rewrite SA3 by lia. unfold PE. destruct (Nat.ltb_spec i M); [apply X2; assumption|reflexivity]. }
  { intros i v Hi. cbn. rsimp. lra. }
  rewrite E. cbn [obind fst snd]. unfold sadmm_set. rewrite (factorize_ok N (M + N) _ _ _ _ S2 S1). cbn [obind].
  eexists. split; [reflexivity|]. cbn [sa_o sa_K sa_an sa_A].
  assert (tab2 (N + (M + N)) (N + (M + N)) (coeff K') = Admm_Model.construct_kkt_matrix full s (dense p) (Admm_Model.construct_A N M (qA (dense p))) (a_rho_inv o2) (a_K (sa_o so))) as EK.
  { rewrite <- EE. unfold Admm_Model.construct_kkt_matrix. cbn [qn qm dense]. rewrite En, Em. apply tab2_ext. intros i j Hi Hj. rewrite V by assumption.
    unfold kkt_entry. cbn [qH dense]. rsimp.
    destruct (Nat.ltb_spec i N); destruct (Nat.ltb_spec j N); auto.
    - destruct (Nat.eqb_spec i j); lra.
    - destruct full eqn:Ef; [symmetry; apply tab2_spec; lia|]. symmetry. apply HZ; auto.
    - symmetry; apply tab2_spec; lia. }
  assert (forall K : spmat R, kshape full N (M + N) (pat (am (sH p))) (pat A) K -> kshape full N (M + N) (pat (am (sH p))) (PE p) K) as Conv.
  { intros K. apply kshape_ext; [reflexivity|]. intros i j Hi Hj. rewrite SA3 by lia. reflexivity. }
  split.
  - unfold admm_setup. cbv zeta. cbn [qn qm dense]. rewrite En, Em, <- EE. fold o1. fold o2. rewrite EE, EK. reflexivity.
  - split; [|split; [exact SA|reflexivity]]. cbn. split; [apply Conv, S1|]. exists K0. split; [reflexivity|apply Conv, S2].
Qed.

Lemma sadmm_adapt_sim s p so : sn p = N -> sm p = M -> ainv p so ->
  exists so', sadmm_adapt_rho s p so = Some so' /\ sa_o so' = adapt_rho s (dense p) (sa_o so) /\ ainv p so'.
Proof.
  intros En Em ((SK & K0 & Ea & SK0) & HA & EK). unfold sadmm_adapt_rho, adapt_rho. cbv zeta.
  set (nr := clamp_rho (estimate_rho (a_res (sa_o so)) (a_rho (sa_o so)))).
  destruct (rho_change_needed s nr (a_rho (set_rho_estimate nr (sa_o so)))).
  - rewrite En, Em. set (o2 := rho_vec_update (dense p) nr (set_rho_estimate nr (sa_o so))).
    pose proof SK as (KR & KC & KP).
    destruct (kkt_tail_ok N (M + N) (sa_K so) (a_rho_inv o2)) as (K2 & E2 & S2 & V2); try lia.
    { intros. eapply kshape_diag; [exact SK|]. lia. }
    rewrite E2. cbn [obind]. pose proof (kshape_same _ _ _ _ _ _ _ SK S2) as SK2.
    unfold sadmm_set. rewrite Ea, (factorize_ok N (M + N) _ _ _ _ SK0 SK2). cbn [obind].
    eexists. split; [reflexivity|]. cbn [sa_o sa_K sa_an]. split.
    + f_equal. f_equal. unfold update_kkt_rho. cbn [qn qm dense]. rewrite En, Em. apply tab2_ext. intros i j Hi Hj.
      rewrite V2 by lia.
      change (a_K o2) with (a_K (sa_o so)). rewrite EK, tab2_spec by assumption.
      destruct (Nat.ltb_spec i (N + (M + N))); [|lia]. rewrite andb_true_r. reflexivity.
    + split; [|split; [exact HA|reflexivity]]. cbn. split; [exact SK2|]. exists K0. auto.
  - eexists. split; [reflexivity|]. split; [reflexivity|]. split; [|split; [exact HA|exact EK]]. cbn. split; [exact SK|]. exists K0. auto.
Qed.

Lemma sadmm_body_sim s p : sn p = N -> sm p = M -> forall it so, ainv p so ->
  match admm_body lsolve s (dense p) it (sa_o so) with
  | Cont o => exists s', sadmm_body lsolve s p it so = Cont s' /\ sa_o s' = o /\ ainv p s'
  | Stop o => exists s', sadmm_body lsolve s p it so = Stop s' /\ sa_o s' = o /\ ainv p s'
  | Undef => sadmm_body lsolve s p it so = Undef end.
Proof.
  intros En Em it so HI. unfold admm_body, sadmm_body. cbv zeta.
  set (o1 := admm_update lsolve s (dense p) (sa_o so)).
  assert (forall o, a_K o = a_K (sa_o so) -> ainv p (SAdmm o (sa_A so) (sa_K so) (sa_an so))) as Keep.
  { intros o Eo. destruct HI as (X & X' & Y). split; [exact X|]. split; [exact X'|]. cbn [sa_o sa_K]. rewrite Eo. exact Y. }
  set (o2 := if is_check_iter s it then residuals_update (dense p) o1 else o1).
  assert (a_K o2 = a_K (sa_o so)) as E2 by (unfold o2; destruct (is_check_iter s it); reflexivity).
  destruct (is_check_iter s it && termination_criteria s (a_res o2)).
  - eexists. split; [reflexivity|]. split; [reflexivity|]. apply Keep. exact E2.
  - destruct (adaptive_rho s).
    + destruct (adaptive_rho_interval s =? 0)%Z; [reflexivity|].
      destruct (Z.rem it (adaptive_rho_interval s) =? 0)%Z.
      * set (o3 := if is_check_iter s it then o2 else residuals_update (dense p) o2).
        assert (a_K o3 = a_K (sa_o so)) as E3 by (unfold o3; destruct (is_check_iter s it); exact E2).
        destruct (sadmm_adapt_sim s p (SAdmm o3 (sa_A so) (sa_K so) (sa_an so)) En Em (Keep o3 E3)) as (so' & E & F & I).
        rewrite E. cbn [of_option]. exists so'. split; [reflexivity|]. split; [exact F|exact I].
      * eexists. split; [reflexivity|]. split; [reflexivity|]. apply Keep. exact E2.
    + eexists. split; [reflexivity|]. split; [reflexivity|]. apply Keep. exact E2.
Qed.

Lemma sadmm_solve_sim s reuse p xg yg so prev :
  regular N M p -> (reuse = true -> full = false /\ diagonal_stored N p /\
    match prev with None => False | Some p0 => same_structure N M p p0 end) ->
  amatch prev so -> azero (a_K (sa_o so)) ->
  match admm_solve lsolve full s (dense p) xg yg (sa_o so) with
  | Some o => exists so', sadmm_solve lsolve full s reuse p xg yg so = Some so' /\ sa_o so' = o /\ ainv p so'
  | None => sadmm_solve lsolve full s reuse p xg yg so = None end.
Proof.
  intros Rg HRe HM HZ. destruct (sadmm_setup_sim s reuse p xg yg so prev Rg HRe HM HZ) as (s1 & E1 & F1 & I1).
  pose proof Rg as (En & Em & _).
  unfold admm_solve, sadmm_solve. rewrite E1. cbn [obind]. rewrite <- F1.
  pose proof (qp_loop_sim sa_o (ainv p) _ _ (max_iter s) (sadmm_body_sim s p En Em) (S (Z.to_nat (max_iter s))) 1 s1 I1) as X.
  destruct (qp_loop (admm_body lsolve s (dense p)) _ _ _ _) as [[o k]|].
  - destruct X as (s2 & E2 & F2 & I2). rewrite E2. cbn [obind]. eexists. split; [reflexivity|].
    cbn [sa_o]. rewrite F2. split; [reflexivity|]. destruct I2 as (X & X' & Y). split; [exact X|]. split; [exact X'|]. cbn [sa_o sa_K].
    rewrite <- F2. destruct (max_iter s <? k)%Z; exact Y.
  - rewrite X. reflexivity.
Qed.

Lemma admm_fold_None (cs : list (call R)) : fold_left (fun o (c : call R) => let '(s, _, p, xg, yg) := c in obind o (admm_solve lsolve full s (dense p) xg yg)) cs None = None.
Proof. induction cs as [|[[[[s r] p] xg] yg] cs IH]; cbn; auto. Qed.
Lemma sadmm_fold_None (cs : list (call R)) : fold_left (fun so (c : call R) => let '(s, reuse, p, xg, yg) := c in obind so (sadmm_solve lsolve full s reuse p xg yg)) cs None = None.
Proof. induction cs as [|[[[[s r] p] xg] yg] cs IH]; cbn; auto. Qed.

Lemma sadmm_session_sim : forall cs prev so, proper full N M prev cs ->
  amatch prev so -> azero (a_K (sa_o so)) ->
  admm_session lsolve full (sa_o so) cs = option_map sa_o (sadmm_session lsolve full so cs).
Proof.
  induction cs as [|[[[[s reuse] p] xg] yg] cs IH]; intros prev so HP HM HZ; [reflexivity|].
  destruct HP as (Rg & HRe & HP). unfold admm_session, sadmm_session. cbn [fold_left obind].
  pose proof (sadmm_solve_sim s reuse p xg yg so prev Rg HRe HM HZ) as X.
  destruct (admm_solve lsolve full s (dense p) xg yg (sa_o so)) as [o|].
  - destruct X as (so' & E & F & I). rewrite E, <- F. apply (IH (Some p)); [exact HP| |eapply ainv_zero; exact I].
    destruct I as (I1 & I2 & _). split; assumption.
  - rewrite X. rewrite admm_fold_None, sadmm_fold_None. reflexivity.
Qed.
End S.
