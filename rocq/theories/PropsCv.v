(** * Properties of condition_variable.hpp (C18-C24). *)
From Verif Require Import Types Core State Ops Code Machine Scenario Spec SpecApi SpecWait SpecState SpecSync.
From Verif Require ThmObj ThmSync InvCv.

Ltac shows := eexists; split; [vm_compute; reflexivity|]; vm_compute; intuition.
Ltac refutes := vm_compute; repeat (split || eexists); repeat first [left; reflexivity | right].

(** C18, C19: what a notification takes *)
Theorem C18_notify_takes : forall s, reachable s ->
  at_each (fun tr e => match e with
    | EvNotify _ sm false ws => ws = firstn 1 (waiters sm tr)
    | EvNotify _ sm true ws => ws = waiters sm tr
    | _ => True end) (trace s).
Proof. exact ThmObj.notify_takes'. Qed.
Print Assumptions C18_notify_takes.

(** Main (id 1) and the worker on native thread 5 (id 2); the worker and then main
    wait on condition variable 0; thread 9 is there to notify. *)
Definition sc_two : list cmd := [Call 0 AInit; Lb (LCall 0 (AThread 0 BLoop)); Rn 0 5 20; Rn 5 0 20].
Definition sc_wait : list cmd :=
  sc_two ++ [Lb (LCall 0 (AStdThread 0)); Rn 0 9 20; Rn 9 0 9;
   Call 0 (AInvoke 2 10 []); Rn 5 0 20; Call 5 (AULock 0); Call 5 (ACvWait 0 0);
   Call 0 (AULock 0); Call 0 (ACvWaitFor 0 0 5000)].
Example C18_example : exists s, play st0 (sc_wait ++ [Call 9 (ACvNotifyOne 0)]) = Some s /\
  In (EvNotify 9 (SCv 0) false [(2, 0)]) (trace s) /\ waiters (SCv 0) (trace s) = [(1, 1)].
Proof. shows. Qed.

(** C19, C18: what a notification does with the waiters it takes *)
Theorem C19_notify : forall s, reachable s ->
  each_return (fun t cl tr r => match cl_api cl with
    | ACvNotifyOne c => notify_spec t c false cl tr r
    | ACvNotifyAll c => notify_spec t c true cl tr r
    | _ => True end) (trace s).
Proof. exact ThmSync.cv_notifies. Qed.
Print Assumptions C19_notify.
Example C19_example : exists s, play st0 (sc_wait ++ [Call 9 (ACvNotifyAll 0)]) = Some s /\
  In (EvNotify 9 (SCv 0) true [(2, 0); (1, 1)]) (trace s) /\ In (EvInterrupt 9 0) (trace s) /\ In (EvInterrupt 9 1) (trace s) /\
  In (EvAccept 9 2 TNop) (trace s) /\ In (EvAccept 9 1 TNop) (trace s) /\ In (EvRet 9 (ACvNotifyAll 0) RUnit) (trace s).
Proof. shows. Qed.

(** C20: a registration that was neither ended nor interrupted is on the list, or
    in the hands of a notification that is about to interrupt it ... *)
Theorem C20_waiting_listed : forall s, reachable s -> forall a b t sm i tk f, trace s = a ++ EvWaiter t sm i tk f :: b ->
  i <> invalid_id -> (forall u, ~ In (EvUnwaiter u sm i) b) ->
  In (i, tk) (waiters sm (trace s)) \/ interrupted tk (trace s) \/ exists u ws, In (FNotifyL ws) (stk s u) /\ In (i, tk) ws.
Proof. exact InvCv.waiting_listed. Qed.
Print Assumptions C20_waiting_listed.
(** ... and a waiter that sleeps although it was interrupted has a task to wake it
    (see C08), or the notifying thread is about to queue one. *)
Theorem C20_interrupted_wakes : forall s, reachable s -> forall t i dl sm l tk e k r,
  stk s t = FSleep i dl (WSem sm l i tk e k) :: r -> attached t (trace s) = Some i -> In i (reg_ids (trace s)) -> interrupted tk (trace s) ->
  accepted i (trace s) <> started i (trace s) \/
  exists u f r', stk s u = f :: r' /\ (f = FDisp i TNop LkDisc \/ f = FInvoke i TNop LkDisc \/ f = FPush i TNop LkDisc).
Proof. exact InvCv.interrupted_wakes. Qed.
Print Assumptions C20_interrupted_wakes.
(** The notifier has interrupted the worker only; main is next. *)
Definition sc20 : list cmd := sc_wait ++ [Lb (LCall 9 (ACvNotifyAll 0)); Rn 9 0 2].
Example C20_example : exists s, play st0 sc20 = Some s /\
  (exists a b, trace s = a ++ EvWaiter 0 (SCv 0) 1 1 true :: b /\ forall u, ~ In (EvUnwaiter u (SCv 0) 1) b) /\
  (exists dl l e k r, stk s 5 = FSleep 2 dl (WSem (SCv 0) l 2 0 e k) :: r) /\ attached 5 (trace s) = Some 2 /\ In 2 (reg_ids (trace s)) /\
  interrupted 0 (trace s) /\ ~ In (1, 1) (waiters (SCv 0) (trace s)) /\ waiters (SCv 0) (trace s) = [].
Proof.
  eexists. split; [vm_compute; reflexivity|]. repeat split.
  - exists (firstn 34 (trace (match play st0 sc20 with Some s => s | None => st0 end))), (skipn 35 (trace (match play st0 sc20 with Some s => s | None => st0 end))).
    vm_compute. split; [reflexivity|]. intros u H. repeat (destruct H as [H|H]; [discriminate H|]). exact H.
  - vm_compute. repeat eexists.
  - vm_compute. auto.
  - exists 9. vm_compute. repeat first [left; reflexivity | right].
  - vm_compute. auto.
Qed.

(** C21 does not hold.  Main waits, inside the wait it runs a task that waits
    with a zero limit on the same condition variable; afterwards the outer wait
    sleeps unregistered although nothing was ever notified. *)
Definition sc21 : list cmd :=
  [Call 0 AInit; Call 0 (AInvoke 1 10 []); Call 0 (AULock 0); Call 0 (ACvWait 0 0);
   Call 0 (AULock 0); Call 0 (ACvWaitFor 0 0 0); Call 0 (AUUnlock 0); Lb (LRet 0 VUnit); Rn 0 0 40].
Theorem C21_nested_wait_refuted :
  exists s, reachable s /\ exists cl, open_calls 0 (trace s) = [cl] /\ cl_api cl = ACvWait 0 0 /\
    In (EvWaiter 0 (SCv 0) 1 0 true) (cl_acts cl) /\ asleep s 0 1 /\
    filter (fun e => match e with EvNotify _ _ _ _ | EvExitSet _ _ => true | _ => false end) (trace s) = [] /\
    waiters (SCv 0) (trace s) = [].
Proof. apply (witness_of (fun s => hd (mkCall AInit [] []) (open_calls 0 (trace s))) sc21). refutes. Qed.
Print Assumptions C21_nested_wait_refuted.

(** C22, C23, C24: what a wait does *)
Theorem C22_cv_wait : forall s, reachable s ->
  each_return (fun t cl tr r => match cl_api cl with
    | ACvWait c m => cv_spec t c m None cl tr r
    | ACvWaitFor c m d => cv_spec t c m (Some d) cl tr r
    | _ => True end) (trace s).
Proof. exact ThmSync.cv_waits. Qed.
Print Assumptions C22_cv_wait.
Theorem C22_returns_locked : forall s, reachable s ->
  each_return (fun t cl tr r => forall c m, (cl_api cl = ACvWait c m \/ exists d, cl_api cl = ACvWaitFor c m d) ->
    lock_holder (LUser m) (cl_pre cl) = Some t -> lock_holder (LUser m) tr = Some t \/ exists e, r = RExn e) (trace s).
Proof. exact ThmSync.returns_locked. Qed.
Print Assumptions C22_returns_locked.
(** C23: with C23_tokens, the token was interrupted by a notification that took this registration. *)
Theorem C23_returns_for_reason : forall s, reachable s ->
  each_return (fun t cl tr r => forall c m, cl_api cl = ACvWait c m -> r = RUnit ->
    exists i tk f, In (EvWaiter t (SCv c) i tk f) (cl_acts cl) /\ (sometime cl tr (interrupted tk) \/ sometime cl tr (exit_seen t))) (trace s).
Proof. exact ThmSync.returns_for_reason. Qed.
Print Assumptions C23_returns_for_reason.
Theorem C23_tokens : forall s, reachable s -> at_each (fun tr e => match e with
  | EvInterrupt u tk => exists i sm all ws, In (EvNotify u sm all ws) tr /\ In (i, tk) ws
  | EvWaiter _ _ _ tk true => ~ interrupted tk tr
  | _ => True end) (trace s).
Proof. exact InvCv.token_from_notify. Qed.
Print Assumptions C23_tokens.
Theorem C24_late_enough : forall s, reachable s ->
  each_return (fun t cl tr r => forall c m d, cl_api cl = ACvWaitFor c m d -> r = RCv true ->
    sometime cl tr (fun x => clock (cl_pre cl) + d < clock x + 1000)%Z) (trace s).
Proof. exact ThmSync.late_enough. Qed.
Print Assumptions C24_late_enough.
(** The worker is notified and comes back; main comes back late, when the worker lets it. *)
Example C22_example : exists s, play st0 (sc_wait ++ [Call 9 (ACvNotifyOne 0); Rn 5 0 20; Lb (LTick 6000); Rn 0 0 20; Call 5 (AUUnlock 0); Rn 0 0 20]) = Some s /\
  In (EvRet 5 (ACvWait 0 0) RUnit) (trace s) /\ In (EvRet 0 (ACvWaitFor 0 0 5000) (RCv true)) (trace s) /\ lock_holder (LUser 0) (trace s) = Some 0.
Proof. shows. Qed.
