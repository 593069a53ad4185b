(** * Properties of mutex.hpp (C25-C27). *)
From Verif Require Import Types Core State Ops Code Machine Scenario Spec SpecApi SpecWait SpecState SpecSync SpecMutex.
From Verif Require ThmObj ApiMutex ThmMutex InvMutex.

Ltac shows := eexists; split; [vm_compute; reflexivity|]; vm_compute; intuition.
Ltac refutes := vm_compute; repeat (split || eexists); repeat first [left; reflexivity | right].
Definition sc_two : list cmd := [Call 0 AInit; Lb (LCall 0 (AThread 0 BLoop)); Rn 0 5 20; Rn 5 0 20].

(** C25: among threads that are registered while they use the mutex, one owns it at a time. *)
Theorem C25_mutual_exclusion : forall m s, reachable s -> steady m (trace s) ->
  forall t u, owns m t (trace s) = true -> owns m u (trace s) = true -> t = u.
Proof. exact ThmMutex.mutual_exclusion. Qed.
Print Assumptions C25_mutual_exclusion.
Theorem C25_owner_holds : forall m s, reachable s -> steady m (trace s) ->
  forall t, owns m t (trace s) = true -> mx_holder m (trace s) = Some t.
Proof. exact ThmMutex.owns_holder. Qed.
Print Assumptions C25_owner_holds.
(** C26: what lock, try_lock and unlock do. *)
Theorem C26_mutex_calls : forall s, reachable s ->
  each_return (fun t cl tr r => match cl_api cl with
    | AMLock m => steady m tr -> mlock_spec t m cl tr r
    | AMTry m => mtry_spec t m cl tr r
    | AMUnlock m => steady m tr -> munlock_spec t m cl tr r
    | _ => True end) (trace s).
Proof. exact ThmMutex.mutex_contracts. Qed.
Print Assumptions C26_mutex_calls.
(** Main owns the mutex, the worker waits, tries again after the unlock and gets it;
    then each of them uses it wrongly. *)
Definition sc25 : list cmd := sc_two ++
  [Call 0 (AMLock 0); Call 0 (AInvoke 2 10 []); Rn 5 0 20; Lb (LCall 5 (AMLock 0)); Rn 5 0 40; Call 0 (AMLock 0); Call 0 (AMUnlock 0); Rn 5 0 40;
   Call 0 (AMTry 0); Call 0 (AMUnlock 0); Call 5 (AMLock 0)].
Example C25_example : exists s, play st0 sc25 = Some s /\ steady 0 (trace s) /\
  owns 0 5 (trace s) = true /\ owns 0 0 (trace s) = false /\
  In (EvRet 0 (AMLock 0) (RExn XDeadlock)) (trace s) /\ In (EvNotify 0 (SMx 0) true [(2, 0)]) (trace s) /\ In (EvRet 5 (AMLock 0) RUnit) (trace s) /\
  In (EvRet 0 (AMTry 0) (RBool false)) (trace s) /\ In (EvRet 0 (AMUnlock 0) (RExn XNoLock)) (trace s) /\ In (EvRet 5 (AMLock 0) (RExn XDeadlock)) (trace s).
Proof. eexists. split; [vm_compute; reflexivity|]. split; [apply ThmMutex.steady_ok; vm_compute; reflexivity|]. vm_compute. intuition. Qed.
(** Without registration it does not hold: to the mutex all unregistered threads are
    one.  Thread 9 has got the mutex, thread 10 releases it and gets it as well. *)
Definition sc25u : list cmd := [Call 0 AInit; Lb (LCall 0 (AStdThread 0)); Rn 0 9 20; Rn 9 0 9; Lb (LCall 0 (AStdThread 1)); Rn 0 10 20; Rn 10 0 9;
   Call 9 (AMTry 0); Call 10 (AMUnlock 0); Call 10 (AMTry 0)].
Theorem C57_unregistered_share_refuted :
  exists s, reachable s /\ owns 0 9 (trace s) = true /\ owns 0 10 (trace s) = true /\
    attached 9 (trace s) = None /\ attached 10 (trace s) = None.
Proof. apply (witness sc25u). refutes. Qed.
Print Assumptions C57_unregistered_share_refuted.

(** C27 does not hold.  Main owns the mutex; the worker fails the test_and_set;
    main unlocks and finds no waiter; the worker registers and sleeps, although
    the mutex is free, and only another call can wake it up. *)
Definition sc27 : list cmd := sc_two ++
  [Call 0 (AMLock 0); Call 0 (AInvoke 2 10 []); Rn 5 0 20; Lb (LCall 5 (AMLock 0)); Rn 5 0 3; Call 0 (AMUnlock 0); Rn 5 0 40].
Theorem C27_unlock_lost_refuted :
  exists s, reachable s /\ exists cl, open_calls 5 (trace s) = [cl] /\ cl_api cl = AMLock 0 /\
    asleep s 5 2 /\ mx_holder 0 (trace s) = None /\ open_calls 0 (trace s) = [] /\
    step s (LStep 5 0) = None /\ step s (LStep 5 1) = None.
Proof. apply (witness_of (fun s => hd (mkCall AInit [] []) (open_calls 5 (trace s))) sc27). refutes. Qed.
Print Assumptions C27_unlock_lost_refuted.
