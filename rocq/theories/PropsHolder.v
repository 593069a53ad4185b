(** * The holders of the internal mutexes (C71). *)
From Verif Require Import Types Core State Ops Code Machine Scenario Spec SpecLock SpecPool SpecRelock SpecHolder PropsWhen.
From Verif Require InvHolder.

(** C71: a thread that holds a mutex of the library can make a step, unless it has destroyed a function
    of the user or, in a combinator, launched a continuation under it.  The only other exception is a thread in
    a combinator that waits for the mutex of a future state, and then the holder of that one moves. *)
Theorem C71_holder : forall s t l, reachable s -> ubs s = None -> of_library l = true -> lock_holder l (trace s) = Some t ->
  detour t l (trace s) \/ moves s t \/ ((exists w, l = LWhen w) /\ exists u, behind s t u).
Proof. exact InvHolder.holder_moves. Qed.
Print Assumptions C71_holder.

(** Without such detours the internal mutexes alone never make a deadlock: if one is held,
    then the holder of one can move. *)
Theorem C71_no_deadlock : forall s, reachable s -> ubs s = None ->
  (forall t l, of_library l = true -> lock_holder l (trace s) = Some t -> ~ detour t l (trace s)) ->
  forall t l, of_library l = true -> lock_holder l (trace s) = Some t -> exists u l', of_library l' = true /\ lock_holder l' (trace s) = Some u /\ moves s u.
Proof. exact InvHolder.some_holder_moves. Qed.
Print Assumptions C71_no_deadlock.

(** Main sets the input of a when_any and holds the mutex of the combinator; the worker has begun to
    wait for the result and holds the mutex of its state.  Main cannot move, the worker can. *)
Definition sc71 : list cmd := sc_two ++
  [Call 0 (APromise false); Call 0 (APGetFuture 0); Call 0 (APromise false); Call 0 (APGetFuture 1);
   Call 0 (AWhenAny true [0;1]); Call 0 (AInvoke 2 10 []); Rn 5 0 20;
   Lb (LCall 5 (AFWait 2)); Rn 5 0 2; Call 0 (APSet 0 (VNat 7))].
Example C71_example : exists s, play st0 sc71 = Some s /\ ubs s = None /\
  lock_holder (LWhen 0) (trace s) = Some 0 /\ ~ detour 0 (LWhen 0) (trace s) /\ ~ moves s 0 /\
  lock_holder (LState 2) (trace s) = Some 5 /\ ~ detour 5 (LState 2) (trace s) /\ moves s 5.
Proof.
  eexists. split; [vm_compute; reflexivity|]. split; [reflexivity|]. split; [vm_compute; reflexivity|].
  split. { intros [(p & cb & X)|(k & X & _)]; vm_compute in X; intuition discriminate. }
  split. { intros (s' & X); vm_compute in X; discriminate X. }
  split; [vm_compute; reflexivity|].
  split. { intros D. vm_compute in D. repeat match goal with H : _ \/ _ |- _ => destruct H | H : exists _, _ |- _ => destruct H | H : _ /\ _ |- _ => destruct H end; intuition discriminate. }
  eexists. vm_compute. reflexivity.
Qed.
