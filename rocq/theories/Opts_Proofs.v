(** Lemmas for property C111. *)
From Coq Require Import List String Bool QArith.
From Verif Require Import Opts_Model Opts_Spec.
Import ListNotations.
Local Open Scope string_scope.

Lemma get_set d k v k' : get (set d k v) k' = if k =? k' then Some v else get d k'.
Proof.
  induction d as [|[a b] d IH]; cbn; [reflexivity|]. destruct (String.eqb_spec a k) as [->|N]; cbn.
  - destruct (k =? k'); reflexivity.
  - rewrite IH. destruct (String.eqb_spec a k') as [->|]; [|reflexivity]. destruct (String.eqb_spec k k') as [->|]; [congruence|reflexivity].
Qed.

Lemma get_none d k : get d k = None <-> ~ In k (keys d).
Proof.
  induction d as [|[a b] d IH]; cbn; [tauto|]. destruct (String.eqb_spec a k) as [->|N]; [split; [discriminate|intros H; exfalso; apply H; now left]|].
  rewrite IH. tauto.
Qed.

Lemma get_some d k v : NoDup (keys d) -> (get d k = Some v <-> In (k, v) d).
Proof.
  induction d as [|[a b] d IH]; cbn; intro H; [split; [discriminate|intros []]|]. inversion H as [|? ? Ni Hd]; subst. destruct (String.eqb_spec a k) as [->|N].
  - split; [intros [= ->]; now left|]. intros [[= ->]|Hi]; [reflexivity|]. exfalso. apply Ni. apply in_map_iff. exists (k, v). auto.
  - rewrite IH by exact Hd. split; [tauto|]. intros [[= -> ->]|]; [congruence|assumption].
Qed.

Lemma get_update params : forall o k, NoDup (keys params) ->
  get (update o params) k = match get params k with Some v => Some v | None => get o k end.
Proof.
  induction params as [|[a b] p IH]; intros o k H; [reflexivity|]. inversion H as [|? ? Ni Hd]; subst. cbn [update fold_left fst snd].
  change (fold_left _ p (set o a b)) with (update (set o a b) p). rewrite IH by exact Hd. rewrite get_set. cbn. destruct (String.eqb_spec a k) as [->|]; [|reflexivity].
  apply get_none in Ni. rewrite Ni. reflexivity.
Qed.

Lemma class_update D T o : class_of D T -> D o = update o T.
Proof. intros []; reflexivity. Qed.
Lemma class_nodup D T : class_of D T -> NoDup (keys T).
Proof. intros []; cbn; repeat (constructor; [cbn; intuition discriminate|]); constructor. Qed.

Lemma create_get D T t user k : class_of D T -> NoDup (keys user) ->
  get (c_solver (create D t user)) k =
  match get user k with Some v => Some v | None => match get T k with Some v => Some v | None => get (c_opts t) k end end.
Proof.
  intros C H. pose proof (class_nodup _ _ C) as HT. unfold create. cbn [c_solver]. destruct user as [|p u].
  - rewrite (class_update _ _ _ C), get_update by exact HT. reflexivity.
  - rewrite (get_update (p :: u) (D (c_opts t)) k H). rewrite (class_update _ _ _ C), get_update by exact HT. reflexivity.
Qed.

Lemma ode_update_get params : forall o k, NoDup (keys params) ->
  get (ode_update o params) k = match get o k with None => None | Some w => match get params k with Some v => Some v | None => Some w end end.
Proof.
  induction params as [|[a b] p IH]; intros o k H; [cbn; destruct (get o k); reflexivity|]. inversion H as [|? ? Ni Hd]; subst. cbn [ode_update fold_left fst snd].
  change (fold_left _ p ?x) with (ode_update x p). rewrite IH by exact Hd. apply get_none in Ni. cbn [get].
  destruct (get o a) as [w|] eqn:E.
  - rewrite get_set. destruct (String.eqb_spec a k) as [->|]; [|reflexivity]. rewrite Ni, E. reflexivity.
  - destruct (String.eqb_spec a k) as [->|]; [|reflexivity]. rewrite E. reflexivity.
Qed.
