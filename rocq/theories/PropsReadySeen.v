(** * Waiting for a future and completing it (C73, C74). *)
From Verif Require Import Types Core State Ops Code Machine Scenario Spec SpecApi SpecWait SpecState SpecLock SpecUb SpecLost SpecReadySeen.
From Verif Require InvReadySeen PropsWhen.

(** C73: a thread registers as waiter of a state only while it holds the mutex of the state and the state is not ready; *)
Theorem C73_registers : forall s, reachable s ->
  at_each (fun a e => match e with EvWaiter t (SSt p) i tk f => ~ is_ready p a /\ lock_holder (LState p) a = Some t | _ => True end) (trace s).
Proof. exact InvReadySeen.registers_open. Qed.
Print Assumptions C73_registers.
(** once the state is ready, a waiter that is neither interrupted nor gone is about to be interrupted; *)
Theorem C73_seen : forall s a b t p i tk f, reachable s -> trace s = a ++ EvWaiter t (SSt p) i tk f :: b ->
  still_waiting (SSt p) (i, tk) (trace s) b -> is_ready p (trace s) -> alerting p (i, tk) s.
Proof. exact InvReadySeen.ready_seen. Qed.
Print Assumptions C73_seen.
(** and a waiter that sleeps is about to be interrupted, has a task to wake it (see C08), or a thread is about to queue one. *)
Theorem C73_wakes : forall s a b t p i tk f dl l e k r, reachable s -> trace s = a ++ EvWaiter t (SSt p) i tk f :: b ->
  i <> invalid_id -> (forall u, ~ In (EvUnwaiter u (SSt p) i) b) -> is_ready p (trace s) ->
  stk s t = FSleep i dl (WSem (SSt p) l i tk e k) :: r -> attached t (trace s) = Some i -> In i (reg_ids (trace s)) ->
  alerting p (i, tk) s \/ accepted i (trace s) <> started i (trace s) \/
  exists u f r', stk s u = f :: r' /\ (f = FDisp i TNop LkDisc \/ f = FInvoke i TNop LkDisc \/ f = FPush i TNop LkDisc).
Proof. exact InvReadySeen.ready_wakes. Qed.
Print Assumptions C73_wakes.

(** Main sleeps in wait; the worker has stored the value and not yet collected the waiters. *)
Definition sc73 : list cmd := PropsWhen.sc_two ++
  [Call 0 (APromise false); Call 0 (APGetFuture 0); Call 0 (AInvoke 2 10 []); Rn 5 0 20; Lb (LCall 0 (AFWait 0)); Rn 0 0 40;
   Lb (LCall 5 (APSet 0 (VNat 7))); Rn 5 0 3].
Example C73_example : exists s a b, reachable s /\ trace s = a ++ EvWaiter 0 (SSt 0) 1 0 true :: b /\
  still_waiting (SSt 0) (1, 0) (trace s) b /\ is_ready 0 (trace s) /\ (exists dl l e k r, stk s 0 = FSleep 1 dl (WSem (SSt 0) l 1 0 e k) :: r) /\
  attached 0 (trace s) = Some 1 /\ In 1 (reg_ids (trace s)).
Proof.
  destruct (play st0 sc73) as [s|] eqn:E; [|vm_compute in E; discriminate E].
  exists s, (firstn (length (trace s) - 6) (trace s)), (skipn (length (trace s) - 5) (trace s)). split; [now apply (play_reachable sc73)|].
  vm_compute in E. injection E as <-. split; [vm_compute; reflexivity|].
  split. { split; [discriminate|]. split; [intros u H|intros [u H]]; vm_compute in H; intuition discriminate. }
  split; [vm_compute; discriminate|]. split; [repeat eexists|]. split; [vm_compute; reflexivity|vm_compute; auto].
Qed.

(** C74 does not hold.  Main waits for a future, inside the wait it runs a task that waits with a zero limit for
    the same future; afterwards the worker completes the future, and main sleeps for ever: it is not registered,
    and nobody is about to wake it. *)
Definition sc74 : list cmd := PropsWhen.sc_two ++
  [Call 0 (APromise false); Call 0 (APGetFuture 0); Call 0 (AInvoke 2 10 []); Rn 5 0 20;
   Call 0 (AInvoke 1 11 []); Call 0 (AFWait 0); Call 0 (AFWaitFor 0 0); Lb (LRet 0 VUnit); Rn 0 0 40; Call 5 (APSet 0 (VNat 7)); Rn 0 0 40].
Theorem C74_nested_wait_refuted : exists s, reachable s /\ exists cl, open_calls 0 (trace s) = [cl] /\ cl_api cl = AFWait 0 /\
  outcome_of 0 (trace s) = Some (OVal (VNat 7)) /\ asleep s 0 1 /\ stuck s 0 /\ waiters (SSt 0) (trace s) = [] /\ open_calls 5 (trace s) = [] /\
  accepted 1 (trace s) = started 1 (trace s) /\ filter (fun e => match e with EvExitSet _ _ => true | _ => false end) (trace s) = [].
Proof. apply (witness_of (fun s => hd (mkCall AInit [] []) (open_calls 0 (trace s))) sc74). PropsWhen.refutes. Qed.
Print Assumptions C74_nested_wait_refuted.
