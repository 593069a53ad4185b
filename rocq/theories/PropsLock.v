(** * The lock of a shared state (C39). *)
From Verif Require Import Types Core State Ops Code Machine Scenario Spec SpecApi SpecLock PropsPool.
From Verif Require InvGuard.

(** C39: while a thread holds the lock of a state it does nothing but set the
    outcome, handle waiters and notify them; it starts no user code and takes no other
    lock, unless it destroys a task that was left in the queue of a thread context which
    went away in the meantime. *)
Theorem C39_guard_quiet_partial : forall s, reachable s ->
  at_each (fun tr e => forall t p, actor e = Some t -> lock_holder (LState p) tr = Some t ->
    guard_event p e \/ swept t p (tr ++ [e])) (trace s).
Proof. exact InvGuard.guard_quiet. Qed.
Print Assumptions C39_guard_quiet_partial.
(** In the same case only can it be blocked. *)
Theorem C39_guard_moves_partial : forall s t p, reachable s -> ubs s = None -> lock_holder (LState p) (trace s) = Some t ->
  swept t p (trace s) \/ exists s', step s (LStep t 0) = Some s'.
Proof. exact InvGuard.guard_moves. Qed.
Print Assumptions C39_guard_moves_partial.
(** A thread waits for the state; main sets it. *)
Definition sc39a : list cmd := [Call 0 AInit; Lb (LCall 0 (AThread 0 BLoop)); Rn 0 5 20; Rn 5 0 20;
  Call 0 (APromise true); Call 0 (APGetFuture 0); Call 0 (AInvoke 2 60 []); Rn 5 0 40; Call 5 (AFWait 0); Call 0 (APSet 0 VUnit); Rn 5 0 40].
Example C39_example : exists s, play st0 sc39a = Some s /\
  (filter (fun e => match e with EvLock _ _ | EvUnlock _ _ | EvReady _ _ _ | EvNotify _ _ _ _ | EvWaiter _ _ _ _ _ | EvUnwaiter _ _ _ => true | _ => false end) (trace s)) =
  [EvLock 5 (LState 0); EvWaiter 5 (SSt 0) 2 0 true; EvUnlock 5 (LState 0); EvLock 0 (LState 0); EvReady 0 0 (OVal VUnit);
   EvNotify 0 (SSt 0) true [(2, 0)]; EvUnlock 0 (LState 0); EvLock 5 (LState 0); EvUnwaiter 5 (SSt 0) 2; EvUnlock 5 (LState 0)].
Proof. eexists. split; vm_compute; reflexivity. Qed.

(** The exception happens: thread 5 left its wait by an exception and is still in the
    list of waiters; while main notifies it under the lock, it unregisters with a task in its
    queue.  Main destroys the task, a promise captured by it, and runs a continuation
    of that promise, which waits for the state: the lock is taken twice. *)
Definition sc39 : list cmd :=
  [Call 0 AInit; Call 0 (APromise true); Call 0 (APGetFuture 0); Call 0 (APromise true); Call 0 (APGetFuture 1); Call 0 (AFThen 1 1 LOther true 77 []);
   Lb (LCall 0 (AStdThread 50)); Rn 0 5 20; Rn 5 0 20; Call 5 ARegThis; Call 5 (AFWait 0);
   Call 0 (AInvoke 2 60 []); Rn 5 0 20; Lb (LThrow 5 (XUser 1)); Rn 5 0 20;
   Call 0 (AInvoke 2 61 [1]); Lb (LCall 0 (APSet 0 VUnit)); Rn 0 0 7; Call 5 AUnregThis; Rn 0 0 40; Call 0 (AFWait 0)].
Theorem C39_swept_refuted :
  exists s, reachable s /\ ubs s = Some (UbRelock (LState 0)) /\ lock_holder (LState 0) (trace s) = Some 0 /\
    (exists tr, trace s = tr ++ [EvUser 0 77 (Some 3) (Some 2); EvCall 0 (AFWait 0)] /\
       lock_holder (LState 0) tr = Some 0 /\ In (EvLock 0 (LState 1)) (since (LState 0) tr)).
Proof.
  destruct (play st0 sc39) as [s|] eqn:E; [|vm_compute in E; discriminate E]. exists s. split; [now apply (play_reachable sc39)|].
  vm_compute in E. injection E as <-. split; [reflexivity|]. split; [vm_compute; reflexivity|].
  match goal with |- exists tr, trace ?s = _ /\ _ => exists (firstn (length (trace s) - 2) (trace s)) end.
  split; [vm_compute; reflexivity|]. split; [vm_compute; reflexivity|]. vm_compute. repeat (try (left; reflexivity); right).
Qed.
Print Assumptions C39_swept_refuted.
