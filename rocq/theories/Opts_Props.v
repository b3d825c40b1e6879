(** C111: options given by the user reach the solvers. *)
From Coq Require Import List String Bool QArith.
From Verif Require Import Opts_Model Opts_Spec Opts_Proofs.
Import ListNotations.
Local Open Scope string_scope.

(** nmpc, nmpf and GenericOCP: the NLP solver made by the constructor has every option of
    the user and the defaults for the others. *)
Theorem C111_constructed : forall D T user, class_of D T -> NoDup (keys user) ->
  user_over_table user T (c_solver (construct D user)).
Proof.
  intros D T user C H. split.
  - intros k v Hi. unfold construct. rewrite (create_get D T _ _ _ C H). apply (get_some _ _ _ H) in Hi. rewrite Hi. reflexivity.
  - intros k Hk v. unfold construct. rewrite (create_get D T _ _ _ C H). apply get_none in Hk. rewrite Hk.
    rewrite <- (get_some T k v (class_nodup _ _ C)). destruct (get T k); reflexivity.
Qed.

(** Calls of updateParams (any number, any dictionaries) never change the options of the
    existing NLP solver ... *)
Theorem C111_update_ignored : forall D t ps,
  c_solver (fold_left (exec D) (map UpdateParams ps) t) = c_solver t.
Proof. intros D t ps. revert t. induction ps as [|p ps IH]; intro t; [reflexivity|]. cbn [map fold_left]. rewrite IH. reflexivity. Qed.

(** ... so an option set by updateParams is not used. *)
Theorem C111_update_refuted : exists v,
  let t := exec nmpc_defaults (construct nmpc_defaults []) (UpdateParams [("ipopt.tol", v)]) in
  get (c_opts t) "ipopt.tol" = Some v /\ get (c_solver t) "ipopt.tol" <> Some v.
Proof. exists (Num (1 # 100000000)). split; [reflexivity|]. cbn. intro E. discriminate E. Qed.

(** A later createNLP: the options of its argument, then the defaults, and only then what
    earlier calls have set. *)
Theorem C111_recreate : forall D T t user k, class_of D T -> NoDup (keys user) ->
  (forall v, In (k, v) user -> get (c_solver (exec D t (CreateNLP user))) k = Some v) /\
  (~ In k (keys user) -> forall v, In (k, v) T -> get (c_solver (exec D t (CreateNLP user))) k = Some v) /\
  (~ In k (keys user) -> ~ In k (keys T) -> get (c_solver (exec D t (CreateNLP user))) k = get (c_opts t) k).
Proof.
  intros D T t user k C H. cbn [exec]. rewrite (create_get D T _ _ _ C H). split; [|split].
  - intros v Hi. apply (get_some _ _ _ H) in Hi. rewrite Hi. reflexivity.
  - intros Hk v Hi. apply get_none in Hk. rewrite Hk. apply (get_some _ _ _ (class_nodup _ _ C)) in Hi. rewrite Hi. reflexivity.
  - intros Hk Hk'. apply get_none in Hk. apply get_none in Hk'. rewrite Hk, Hk'. reflexivity.
Qed.

(** So updateParams followed by createNLP loses an option that has a default and keeps one
    that has none. *)
Theorem C111_recreate_refuted : exists p,
  let t := fold_left (exec nmpf_defaults) [UpdateParams p; CreateNLP []] (construct nmpf_defaults []) in
  In ("ipopt.max_iter", Num 500) p /\ get (c_solver t) "ipopt.max_iter" = Some (Num 40) /\
  get (c_solver t) "ipopt.mu_strategy" = Some (Str "adaptive").
Proof. exists [("ipopt.max_iter", Num 500); ("ipopt.mu_strategy", Str "adaptive")]. split; [now left|split; reflexivity]. Qed.

(** Whole sessions: an option without default has, in the solver of the last createNLP, the
    latest value given in any call since the constructor. *)
Theorem C111_history : forall D T u0 cs u k, class_of D T -> NoDup (keys u0) -> NoDup (keys u) ->
  (forall c, In c cs -> NoDup (keys (given c))) -> ~ In k (keys T) ->
  get (c_solver (fold_left (exec D) (cs ++ [CreateNLP u]) (construct D u0))) k = latest (u0 :: map given cs ++ [u]) k.
Proof.
  intros D T u0 cs u k C H0 H Hcs Hk. pose proof Hk as GT. apply get_none in GT.
  assert (One : forall t w, NoDup (keys w) -> get (c_opts (create D t w)) k = match get w k with Some v => Some v | None => get (c_opts t) k end).
  { intros t w Hw. change (c_opts (create D t w)) with (c_solver (create D t w)). rewrite (create_get D T _ _ _ C Hw), GT. reflexivity. }
  assert (All : forall l t, (forall c, In c l -> NoDup (keys (given c))) ->
    get (c_opts (fold_left (exec D) l t)) k = match latest (map given l) k with Some v => Some v | None => get (c_opts t) k end).
  { induction l as [|c l IH]; intros t Hl; [reflexivity|]. cbn [fold_left map latest]. rewrite IH by (intros; apply Hl; now right).
    destruct (latest (map given l) k); [reflexivity|]. pose proof (Hl c ltac:(now left)) as Hc. destruct c as [p|w]; cbn [exec given] in *.
    - apply get_update. exact Hc.
    - apply One. exact Hc. }
  rewrite fold_left_app. cbn [fold_left exec]. change (c_solver (create D ?t u)) with (c_opts (exec D t (CreateNLP u))).
  change (exec D ?t (CreateNLP u)) with (fold_left (exec D) [CreateNLP u] t). rewrite <- fold_left_app, All.
  - rewrite map_app. cbn [map given latest]. destruct (latest (map given cs ++ [u]) k); [reflexivity|].
    unfold construct. rewrite One by exact H0. destruct (get u0 k); reflexivity.
  - intros c Hi. apply in_app_iff in Hi. destruct Hi as [Hi|[<-|[]]]; [apply Hcs; exact Hi|exact H].
Qed.
Example C111_history_example :
  get (c_solver (fold_left (exec nmpc_defaults) [UpdateParams [("ipopt.mu_strategy", Str "adaptive")]; CreateNLP []; CreateNLP [("ipopt.tol", Num 1)]]
    (construct nmpc_defaults [("ipopt.mu_strategy", Str "monotone"); ("ipopt.sb", Str "yes")]))) "ipopt.sb" = Some (Str "yes").
Proof.
  change [UpdateParams [("ipopt.mu_strategy", Str "adaptive")]; CreateNLP []; CreateNLP [("ipopt.tol", Num 1)]]
    with ([UpdateParams [("ipopt.mu_strategy", Str "adaptive")]; CreateNLP []] ++ [CreateNLP [("ipopt.tol", Num 1)]])%list.
  rewrite (C111_history nmpc_defaults nmpc_table); [reflexivity|constructor| | | |cbn; intuition discriminate].
  - cbn. repeat (constructor; [cbn; intuition discriminate|]). constructor.
  - repeat constructor; intros [].
  - intros c [<-|[<-|[]]]; repeat constructor; intros [].
Qed.

(** PSODESolver uses one option of the user only. *)
Theorem C111_pso : forall user, NoDup (keys user) ->
  (forall v, In ("ipopt.linear_solver", v) user -> get (pso_options user) "ipopt.linear_solver" = Some v) /\
  (forall k, k <> "ipopt.linear_solver" -> forall v, get (pso_options user) k = Some v <-> In (k, v) pso_table).
Proof.
  intros user H. unfold pso_options. set (o := set (set _ _ _) "ipopt.hessian_approximation" _).
  assert (HT : NoDup (keys pso_table)) by (cbn; repeat (constructor; [cbn; intuition discriminate|]); constructor).
  split.
  - intros v Hi. apply (get_some _ _ _ H) in Hi. rewrite Hi, get_set. reflexivity.
  - intros k Hk v. rewrite <- (get_some pso_table k v HT). change pso_table with o.
    destruct (get user "ipopt.linear_solver"); [|reflexivity]. rewrite get_set. destruct (String.eqb_spec "ipopt.linear_solver" k); [congruence|reflexivity].
Qed.
Theorem C111_pso_refuted : exists user k v, NoDup (keys user) /\ In (k, v) user /\ get (pso_options user) k <> Some v.
Proof.
  exists [("ipopt.tol", Num (1 # 100000000))], "ipopt.tol", (Num (1 # 100000000)). split; [repeat constructor; intros []|].
  split; [now left|]. cbn. intro E. discriminate E.
Qed.

(** ODESolver: the parameters that getParams returns are the defaults with the values of
    the user, keys without default are not taken ... *)
Theorem C111_ode : forall params s, NoDup (keys params) -> ode_construct params = Some s ->
  (forall k v, In k (keys ode_defaults) -> In (k, v) params -> get (ode_params s) k = Some v) /\
  (forall k, ~ In k (keys params) -> get (ode_params s) k = get ode_defaults k) /\
  (forall k, ~ In k (keys ode_defaults) -> get (ode_params s) k = None).
Proof.
  intros params s H E.
  assert (P : ode_params s = ode_update ode_defaults params).
  { unfold ode_construct in E. assert (X : match params with [] => ode_defaults | _ => ode_update ode_defaults params end = ode_update ode_defaults params) by (destruct params; reflexivity).
    rewrite X in E. destruct (get _ "method"); [|discriminate]. destruct (as_method _) as [[]|]; try discriminate; injection E as <-; reflexivity. }
  rewrite P. repeat split.
  - intros k v Hk Hi. rewrite ode_update_get by exact H. destruct (get ode_defaults k) as [w|] eqn:G.
    + apply (get_some _ _ _ H) in Hi. rewrite Hi. reflexivity.
    + apply get_none in G. contradiction.
  - intros k Hk. rewrite ode_update_get by exact H. apply get_none in Hk. rewrite Hk. destruct (get ode_defaults k); reflexivity.
  - intros k Hk. rewrite ode_update_get by exact H. apply get_none in Hk. rewrite Hk. reflexivity.
Qed.

(** ... but the tolerance and the number of steps of the user are never used: every answer
    of CVODES is computed with 1e-8 and 300, whatever the parameters are and were. *)
Theorem C111_ode_ignored : forall params s us a m, ode_construct params = Some s ->
  ode_solve (mkOde (fold_left ode_update us (ode_params s)) (ode_cvodes s)) = Some (ByCvodes a m) ->
  a = Num (1 # 100000000) /\ m = Num 300.
Proof.
  intros params s us a m E A. unfold ode_construct in E. unfold ode_solve in A. cbn [ode_params ode_cvodes] in A.
  destruct (get _ "method") as [v|] in E; [|discriminate]. destruct (get _ "method") as [w|] in A; [|discriminate].
  destruct (as_method v) as [[]|]; try discriminate; injection E as <-; destruct (as_method w) as [[]|]; try discriminate; cbn in A; try discriminate.
  injection A as <- <-. split; reflexivity.
Qed.
Theorem C111_ode_refuted : exists params s v, ode_construct params = Some s /\
  get (ode_params s) "tol" = Some v /\ exists a m, ode_solve s = Some (ByCvodes a m) /\ a <> v.
Proof.
  exists [("tol", Num (1 # 1000))]. eexists. exists (Num (1 # 1000)). split; [reflexivity|]. split; [reflexivity|].
  eexists. eexists. split; [reflexivity|]. discriminate.
Qed.

(** The method that answers: RK4 for 0, and an empty result for every number but 0 and 1; a
    string is an exception. *)
Theorem C111_ode_method : forall s v, get (ode_params s) "method" = Some v ->
  (forall q, v = Num q -> (q == 0)%Q -> ode_solve s = Some ByRk4) /\
  (forall q, v = Num q -> ~ (q == 0)%Q -> ~ (q == 1)%Q -> ode_solve s = Some Empty) /\
  (forall t, v = Str t -> ode_solve s = None).
Proof.
  intros s v E. unfold ode_solve. rewrite E. repeat split.
  - intros q -> Hq. cbn [as_method]. apply Qeq_bool_iff in Hq. rewrite Hq. reflexivity.
  - intros q -> H0 H1. cbn [as_method]. rewrite <- Qeq_bool_iff in H0, H1. destruct (Qeq_bool q 0); [congruence|]. destruct (Qeq_bool q 1); [congruence|reflexivity].
  - intros t ->. reflexivity.
Qed.
Example C111_ode_method_example : exists s, ode_construct [("method", Num 3)] = Some s /\ ode_solve s = Some Empty.
Proof.
  eexists. split; [reflexivity|]. destruct (C111_ode_method (mkOde (ode_update ode_defaults [("method", Num 3)]) None) (Num 3) eq_refl) as (_ & X & _).
  apply (X (3#1) eq_refl); intro E; discriminate E.
Qed.

(** An object made for RK4 and switched to CVODES by updateParams answers with an empty
    result; the other way round it integrates. *)
Theorem C111_method_refuted : exists s, ode_construct [("method", Num 0)] = Some s /\ ode_solve s = Some ByRk4 /\
  ode_solve (mkOde (ode_update (ode_params s) [("method", Num 1)]) (ode_cvodes s)) = Some Empty.
Proof. eexists. split; [reflexivity|]. split; reflexivity. Qed.

Example C111_example :
  user_over_table [("ipopt.max_iter", Num 500); ("ipopt.mu_strategy", Str "adaptive")] nmpf_table
    (c_solver (construct nmpf_defaults [("ipopt.max_iter", Num 500); ("ipopt.mu_strategy", Str "adaptive")])) /\
  get (c_solver (construct nmpf_defaults [("ipopt.max_iter", Num 500); ("ipopt.mu_strategy", Str "adaptive")])) "ipopt.tol" = Some (Num (1 # 10000)).
Proof.
  split; [|reflexivity]. apply C111_constructed; [constructor|]. cbn. repeat (constructor; [cbn; intuition discriminate|]). constructor.
Qed.
Example C111_recreate_example :
  get (c_solver (exec nmpc_defaults (mkCtrl [("ipopt.mu_strategy", Str "adaptive")] []) (CreateNLP [("ipopt.tol", Num 1)]))) "ipopt.mu_strategy" = Some (Str "adaptive").
Proof.
  destruct (C111_recreate nmpc_defaults nmpc_table (mkCtrl [("ipopt.mu_strategy", Str "adaptive")] []) [("ipopt.tol", Num 1)] "ipopt.mu_strategy") as (_ & _ & X);
    [constructor|repeat constructor; intros []|]. rewrite X; [reflexivity| |]; cbn; intuition discriminate.
Qed.
Example C111_ode_example : exists s, ode_construct [("method", Num 0); ("order", Num 5)] = Some s /\
  get (ode_params s) "method" = Some (Num 0) /\ get (ode_params s) "order" = None /\ get (ode_params s) "max_iter" = Some (Num 300) /\ ode_solve s = Some ByRk4.
Proof.
  eexists. split; [reflexivity|].
  destruct (C111_ode [("method", Num 0); ("order", Num 5)] _ ltac:(cbn; repeat (constructor; [cbn; intuition discriminate|]); constructor) eq_refl) as (X1 & X2 & X3).
  split; [apply X1; cbn; tauto|]. split; [apply X3; cbn; intuition discriminate|]. split; [rewrite X2; [reflexivity|cbn; intuition discriminate]|reflexivity].
Qed.

Print Assumptions C111_constructed.
Print Assumptions C111_update_ignored.
Print Assumptions C111_update_refuted.
Print Assumptions C111_recreate.
Print Assumptions C111_recreate_refuted.
Print Assumptions C111_history.
Print Assumptions C111_pso.
Print Assumptions C111_pso_refuted.
Print Assumptions C111_ode.
Print Assumptions C111_ode_ignored.
Print Assumptions C111_ode_refuted.
Print Assumptions C111_ode_method.
Print Assumptions C111_method_refuted.
