(** * How an unlock of a tpp::mutex can miss a waiter (C66). *)
From Verif Require Import Types Core State Ops Code Machine Scenario Spec SpecApi SpecWait SpecState SpecSync SpecMutex SpecUb SpecLost.
From Verif Require InvLost PropsMutex.

(** C66: a thread registers as waiter of a mutex only inside lock, after it has found the mutex taken; *)
Theorem C66_registers : forall s, reachable s ->
  at_each (fun a e => match e with EvWaiter t (SMx m) i tk f => gave_up t m a | _ => True end) (trace s).
Proof. exact InvLost.registers_refused. Qed.
Print Assumptions C66_registers.
(** an unlock that follows the registration is not lost: as long as the waiter is
    neither interrupted nor gone, the thread that unlocks is on its way to it; *)
Theorem C66_unlock_seen : forall s a b t m i tk f u, reachable s -> trace s = a ++ EvWaiter t (SMx m) i tk f :: b ->
  still_waiting (SMx m) (i, tk) (trace s) b -> In (EvMxRel u m) b -> rousing m (i, tk) s.
Proof. exact InvLost.unlock_seen. Qed.
Print Assumptions C66_unlock_seen.
(** so a waiter left behind while the mutex is free has missed an unlock between its
    attempt and its registration, and nobody has used the mutex since. *)
Theorem C66_lost_before : forall s a b t m i tk f, reachable s -> trace s = a ++ EvWaiter t (SMx m) i tk f :: b ->
  still_waiting (SMx m) (i, tk) (trace s) b -> ~ rousing m (i, tk) s -> mx_holder m (trace s) = None ->
  (forall e, In e b -> on_mx m e = false) /\ exists a1 a2 u, found_taken t m a a1 a2 /\ In (EvMxRel u m) a2.
Proof. exact InvLost.unlock_lost. Qed.
Print Assumptions C66_lost_before.

(** The worker waits; main has released the mutex and not yet collected the waiters. *)
Definition sc66 : list cmd := PropsMutex.sc_two ++
  [Call 0 (AMLock 0); Call 0 (AInvoke 2 10 []); Rn 5 0 20; Lb (LCall 5 (AMLock 0)); Rn 5 0 40; Lb (LCall 0 (AMUnlock 0)); Rn 0 0 4].
Example C66_seen_example : exists s a b, reachable s /\ trace s = a ++ EvWaiter 5 (SMx 0) 2 0 true :: b /\
  still_waiting (SMx 0) (2, 0) (trace s) b /\ In (EvMxRel 0 0) b.
Proof.
  destruct (play st0 sc66) as [s|] eqn:E; [|vm_compute in E; discriminate E].
  exists s, (firstn (length (trace s) - 4) (trace s)), (skipn (length (trace s) - 3) (trace s)). split; [now apply (play_reachable sc66)|].
  vm_compute in E. injection E as <-. split; [vm_compute; reflexivity|]. split; [|vm_compute; auto].
  split; [discriminate|]. split; [intros u H|intros [u H]]; vm_compute in H; intuition discriminate.
Qed.
(** The execution of C27: main has unlocked before the worker registers. *)
Example C66_lost_example : exists s a b, reachable s /\ trace s = a ++ EvWaiter 5 (SMx 0) 2 0 true :: b /\
  still_waiting (SMx 0) (2, 0) (trace s) b /\ ~ rousing 0 (2, 0) s /\ mx_holder 0 (trace s) = None.
Proof.
  destruct (play st0 PropsMutex.sc27) as [s|] eqn:E; [|vm_compute in E; discriminate E].
  exists s, (firstn (length (trace s) - 2) (trace s)), (skipn (length (trace s) - 1) (trace s)). split; [now apply (play_reachable PropsMutex.sc27)|].
  vm_compute in E. injection E as <-. split; [vm_compute; reflexivity|]. split; [|split; [|reflexivity]].
  - split; [discriminate|]. split; [intros u H|intros [u H]]; vm_compute in H; intuition discriminate.
  - intros [(u & r & H)|(u & ws & H & _)]; cbn [stk] in H; do 6 (destruct u as [|u]; [cbn in H; intuition discriminate|]); cbn in H; [discriminate H|contradiction].
Qed.
