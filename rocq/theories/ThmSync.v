(** * ThmSync: the calls on condition variables, in the words of the properties. *)
From Verif Require Import Types Core State Ops Code Machine Base Spec SpecApi SpecWait SpecSync Rules Events Replay ReplayObj Contract ThmObj ApiSync.

Lemma each_mono : forall (P Q : tid -> call -> list event -> res -> Prop) tr,
  (forall t cl x r, P t cl x r -> Q t cl x r) -> each_return P tr -> each_return Q tr.
Proof. intros P Q tr H E a e b X. specialize (E a e b X). destruct e; auto. destruct E as (cl & rest & O & A & E). exists cl, rest. auto. Qed.

Theorem cv_waits : forall s, reachable s ->
  each_return (fun t cl tr r => match cl_api cl with
    | ACvWait c m => cv_spec t c m None cl tr r
    | ACvWaitFor c m d => cv_spec t c m (Some d) cl tr r
    | _ => True end) (trace s).
Proof.
  intros s R. eapply each_mono; [|apply sync_calls; exact R]. unfold sync_contract, sync_sel.
  intros t cl x r H. destruct (cl_api cl); auto.
Qed.
Theorem cv_notifies : forall s, reachable s ->
  each_return (fun t cl tr r => match cl_api cl with
    | ACvNotifyOne c => notify_spec t c false cl tr r
    | ACvNotifyAll c => notify_spec t c true cl tr r
    | _ => True end) (trace s).
Proof.
  intros s R. eapply each_mono; [|apply sync_calls; exact R]. unfold sync_contract, sync_sel.
  intros t cl x r H. destruct (cl_api cl); auto.
Qed.
Theorem user_locks : forall s, reachable s ->
  each_return (fun t cl tr r => match cl_api cl with
    | AULock m => r = RUnit /\ cl_acts cl = [EvLock t (LUser m)] /\ lock_holder (LUser m) tr = Some t
    | AUUnlock m => r = RUnit /\ cl_acts cl = [EvUnlock t (LUser m)] /\ sometime cl tr (fun x => lock_holder (LUser m) x = Some t)
    | _ => True end) (trace s).
Proof.
  intros s R. eapply each_mono; [|apply sync_calls; exact R]. unfold sync_contract, sync_sel.
  intros t cl x r H. destruct (cl_api cl); auto.
Qed.

Definition is_cv_wait (a : api) (c m : nat) (lim : option Z) : Prop :=
  a = match lim with None => ACvWait c m | Some d => ACvWaitFor c m d end.
Lemma cv_of : forall s, reachable s -> each_return (fun t cl tr r => forall c m lim, is_cv_wait (cl_api cl) c m lim -> cv_spec t c m lim cl tr r) (trace s).
Proof.
  intros s R. eapply each_mono; [|apply cv_waits; exact R]. intros t cl x r H c m lim E. cbv beta in H. unfold is_cv_wait in E. rewrite E in H.
  destruct lim; exact H.
Qed.
Theorem returns_locked : forall s, reachable s ->
  each_return (fun t cl tr r => forall c m, (cl_api cl = ACvWait c m \/ exists d, cl_api cl = ACvWaitFor c m d) ->
    lock_holder (LUser m) (cl_pre cl) = Some t -> lock_holder (LUser m) tr = Some t \/ exists e, r = RExn e) (trace s).
Proof.
  intros s R. eapply each_mono; [|apply cv_of; exact R]. intros t cl x r H c m A L.
  assert (exists lim, is_cv_wait (cl_api cl) c m lim) as [lim A'].
  { destruct A as [A|[d A]]; [exists None|exists (Some d)]; exact A. }
  destruct (H c m lim A') as (i & tk & f & l & _ & _ & [(lt & _ & _ & _ & E & _)|(e & _ & _ & _ & E & _)]); eauto.
Qed.
Theorem returns_for_reason : forall s, reachable s ->
  each_return (fun t cl tr r => forall c m, cl_api cl = ACvWait c m -> r = RUnit ->
    exists i tk f, In (EvWaiter t (SCv c) i tk f) (cl_acts cl) /\ (sometime cl tr (interrupted tk) \/ sometime cl tr (exit_seen t))) (trace s).
Proof.
  intros s R. eapply each_mono; [|apply cv_of; exact R]. intros t cl x r H c m A ->.
  destruct (H c m None A) as (i & tk & f & l & _ & _ & [(lt & E & Ea & _ & _ & F)|(e & _ & _ & _ & E & _)]); [|discriminate E].
  exists i, tk, f. split; [rewrite Ea; now left|]. destruct lt; [destruct F as (d & X & _); discriminate X|exact F].
Qed.
Theorem late_enough : forall s, reachable s ->
  each_return (fun t cl tr r => forall c m d, cl_api cl = ACvWaitFor c m d -> r = RCv true ->
    sometime cl tr (fun x => clock (cl_pre cl) + d < clock x + 1000)%Z) (trace s).
Proof.
  intros s R. eapply each_mono; [|apply cv_of; exact R]. intros t cl x r H c m d A ->.
  destruct (H c m (Some d) A) as (i & tk & f & l & _ & _ & [(lt & E & Ea & _ & _ & F)|(e & _ & _ & _ & E & _)]); [|discriminate E].
  cbn in E. injection E as <-. destruct F as (d' & X & F). now injection X as <-.
Qed.
