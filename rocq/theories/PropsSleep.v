(** * Properties of thread affinity and wakeups (C07, C08). *)
From Verif Require Import Types Core State Ops Code Machine Scenario Spec SpecState.
From Verif Require ThmSleep.

(** C07: tasks of [i] are started (and sleeping as [i] is done) only by the native
    thread for which [i] was created; if [i] is registered, it is for this thread. *)
Theorem C07_affinity : forall s, reachable s ->
  at_each (fun tr e => match e with
    | EvStart t i _ | EvSleep t i =>
        (exists u, In (EvReg u t i true) tr) /\ forall n, In (n, i) (registered tr) -> n = t
    | _ => True end) (trace s).
Proof. exact ThmSleep.affinity. Qed.
Print Assumptions C07_affinity.

(** Main (id 1), worker on native thread 5 (id 2); the worker starts a task. *)
Definition sc_work : list cmd :=
  [Call 0 AInit; Lb (LCall 0 (AThread 0 BLoop)); Rn 0 5 20; Rn 5 0 20;
   Call 0 (AInvoke 2 10 []); Rn 5 0 20].
Example C07_example : exists s, play st0 sc_work = Some s /\ In (EvStart 5 2 (TUser 10 [])) (trace s) /\
  In (EvReg 0 5 2 true) (trace s) /\ In (EvSleep 5 2) (trace s).
Proof. eexists. split; [vm_compute; reflexivity|]. vm_compute. intuition. Qed.

(** C08: a thread asleep with something to do is wakeable, and waking up starts its
    oldest pending task if there is one. *)
Theorem C08_no_lost_wakeup : forall s t i, reachable s -> ubs s = None -> asleep s t i -> In i (reg_ids (trace s)) ->
  accepted i (trace s) <> started i (trace s) \/ exit_requested i (trace s) ->
  cx_wakeup (h_ctxs (hp s) i) = true /\ cx_sig (h_ctxs (hp s) i) = true /\
  exists s', step s (LStep t 0) = Some s' /\ ubs s' = None /\ ~ asleep s' t i /\
    ((accepted i (trace s) = started i (trace s) /\ trace s' = trace s) \/
     exists k r, accepted i (trace s) = started i (trace s) ++ k :: r /\ trace s' = trace s ++ [EvStart t i k]).
Proof. exact ThmSleep.no_lost_wakeup. Qed.
Print Assumptions C08_no_lost_wakeup.
(** The worker sleeps and a task arrives; it sleeps and exit is requested. *)
Definition sc_wake (c : api) : list cmd :=
  [Call 0 AInit; Lb (LCall 0 (AThread 0 BLoop)); Rn 0 5 20; Rn 5 0 20; Call 0 c].
Example C08_example : exists s, play st0 (sc_wake (AInvoke 2 10 [])) = Some s /\ ubs s = None /\ asleep s 5 2 /\
  In 2 (reg_ids (trace s)) /\ accepted 2 (trace s) <> started 2 (trace s).
Proof.
  eexists. split; [vm_compute; reflexivity|]. split; [reflexivity|]. split; [do 3 eexists; vm_compute; reflexivity|].
  vm_compute. split; [auto|discriminate].
Qed.
Example C08_example_exit : exists s, play st0 (sc_wake (ANotifyExit 2)) = Some s /\ ubs s = None /\ asleep s 5 2 /\
  In 2 (reg_ids (trace s)) /\ exit_requested 2 (trace s).
Proof.
  eexists. split; [vm_compute; reflexivity|]. split; [reflexivity|]. split; [do 3 eexists; vm_compute; reflexivity|].
  split; [vm_compute; auto|]. exists 0. vm_compute. intuition.
Qed.
