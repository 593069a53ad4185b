(** * Properties of future.hpp (C28-C39). *)
From Verif Require Import Types Core State Ops Code Machine Scenario Spec SpecApi SpecWait SpecState SpecFut SpecObj SpecLaunch.
From Verif Require ThmObj ThmFut ThmCalls ThmLaunch.

Ltac shows := eexists; split; [vm_compute; reflexivity|]; vm_compute; intuition.
Ltac refutes := vm_compute; repeat (split || eexists); repeat first [left; reflexivity | right].

(** C28: a state becomes ready at most once, so its outcome never changes *)
Theorem C28_ready_once : forall s, reachable s ->
  at_each (fun tr e => match e with EvReady _ p _ => outcome_of p tr = None | _ => True end) (trace s).
Proof. exact ThmObj.ready_once'. Qed.
Print Assumptions C28_ready_once.
Example C28_once_example : exists s, play st0 [Call 0 AInit; Call 0 (APromise false); Call 0 (APSet 0 (VNat 3)); Call 0 (APSet 0 (VNat 4)); Call 0 (APSetExn 0 5)] = Some s /\
  filter (fun e => match e with EvReady _ _ _ | EvRet _ (APSet _ _) _ | EvRet _ (APSetExn _ _) _ => true | _ => false end) (trace s) =
  [EvReady 0 0 (OVal (VNat 3)); EvRet 0 (APSet 0 (VNat 3)) RUnit; EvRet 0 (APSet 0 (VNat 4)) (RExn XSatisfied); EvRet 0 (APSetExn 0 5) (RExn XSatisfied)].
Proof. eexists. split; vm_compute; reflexivity. Qed.

(** C29, C37, C24: what waiting for a future and get do *)
Theorem C37_fut_waits : forall s, reachable s ->
  each_return (fun t cl tr r => match cl_api cl with
    | AFWait h => fwait_spec t h cl tr r
    | AFWaitFor h d => fwaitfor_spec t h d cl tr r
    | AFGet h => fget_spec t h cl tr r
    | _ => True end) (trace s).
Proof. exact ThmFut.fut_waits. Qed.
Print Assumptions C37_fut_waits.
Theorem C37_wait_returns : forall s, reachable s ->
  each_return (fun t cl tr r => forall h,
    (cl_api cl = AFWait h -> r = RUnit -> exists p, refers h p cl tr /\ (is_ready p tr \/ sometime cl tr (exit_seen t))) /\
    (forall d, cl_api cl = AFWaitFor h d ->
      (r = RFs FsReady -> exists p, refers h p cl tr /\ is_ready p tr) /\
      (r = RFs FsDeferred -> sometime cl tr (exit_seen t)) /\
      (r = RFs FsTimeout -> sometime cl tr (fun x => clock (cl_pre cl) + d < clock x + 1000)%Z))) (trace s).
Proof. exact ThmFut.wait_returns. Qed.
Print Assumptions C37_wait_returns.
(** C29: a value is delivered only if it was stored; the last case is C30. *)
Theorem C29_get_returns : forall s, reachable s ->
  each_return (fun t cl tr r => forall h, cl_api cl = AFGet h ->
    match r with
    | RVal v => exists p, refers h p cl tr /\ does cl tr (EvGot t p r) (fun m =>
        match outcome_of p m with
        | Some (OVal w) => v = if void_state p m then VUnit else w
        | Some (OExn _) => False
        | None => void_state p m = true /\ v = VUnit /\ sometime cl tr (exit_seen t)
        end)
    | RExn e => invalid h cl tr r \/ threw t cl r \/ exists p, refers h p cl tr /\ does cl tr (EvGot t p r) (fun m =>
        match outcome_of p m with
        | Some (OVal _) => False
        | Some (OExn x) => e = x
        | None => void_state p m = false /\ e = XBroken /\ sometime cl tr (exit_seen t)
        end)
    | _ => False
    end) (trace s).
Proof. exact ThmFut.get_returns. Qed.
Print Assumptions C29_get_returns.
(** Main has two futures; the first wait times out, then the worker satisfies both
    promises, one while main waits in get. *)
Definition sc_two : list cmd := [Call 0 AInit; Lb (LCall 0 (AThread 0 BLoop)); Rn 0 5 20; Rn 5 0 20].
Definition sc29 : list cmd := sc_two ++
  [Call 0 (APromise false); Call 0 (APGetFuture 0); Call 0 (APromise false); Call 0 (APGetFuture 1); Call 0 (AInvoke 2 10 []); Rn 5 0 20;
   Call 0 (AFWaitFor 0 3000); Lb (LTick 4000); Rn 0 0 40; Call 0 (AFGet 0); Call 5 (APSet 0 (VNat 7)); Rn 0 0 40;
   Call 5 (APSetExn 1 3); Call 0 (AFWaitFor 1 3000); Call 0 (AFWait 1); Call 0 (AFGet 1); Call 0 (AFGet 1)].
Example C29_example : exists s, play st0 sc29 = Some s /\
  In (EvRet 0 (AFWaitFor 0 3000) (RFs FsTimeout)) (trace s) /\ In (EvRet 0 (AFGet 0) (RVal (VNat 7))) (trace s) /\
  In (EvRet 0 (AFWaitFor 1 3000) (RFs FsReady)) (trace s) /\ In (EvRet 0 (AFWait 1) RUnit) (trace s) /\ In (EvRet 0 (AFGet 1) (RExn (XUser 3))) (trace s) /\
  In (EvRet 0 (AFGet 1) (RExn XNoState)) (trace s).
Proof. shows. Qed.
(** On a thread notified for exit. *)
Definition sc37 : list cmd := [Call 0 AInit; Call 0 (APromise false); Call 0 (APGetFuture 0); Call 0 (ANotifyExit 1);
   Call 0 (AFWaitFor 0 3000); Call 0 (AFWait 0); Call 0 (AFGet 0)].
Example C37_example : exists s, play st0 sc37 = Some s /\
  In (EvRet 0 (AFWaitFor 0 3000) (RFs FsDeferred)) (trace s) /\ In (EvRet 0 (AFWait 0) RUnit) (trace s) /\ In (EvRet 0 (AFGet 0) (RExn XBroken)) (trace s).
Proof. shows. Qed.

(** C32: get_future *)
Theorem C32_get_future : forall s, reachable s ->
  each_return (fun t cl tr r => forall pr, cl_api cl = APGetFuture pr -> getfut_spec t pr cl tr r) (trace s).
Proof. exact ThmCalls.get_future. Qed.
Print Assumptions C32_get_future.
Theorem C32_retrieved_once : forall s, reachable s ->
  at_each (fun tr e => match e with EvRetr _ p false => ~ retrieved p tr | _ => True end) (trace s).
Proof. exact ThmCalls.retrieved_once. Qed.
Print Assumptions C32_retrieved_once.
Definition sc32 : list cmd := [Call 0 AInit; Call 0 (APromise false); Call 0 (APGetFuture 0); Call 0 (APGetFuture 0);
  Call 0 (APromise true); Call 0 (APAssign 0 1); Call 0 (APGetFuture 0); Call 0 (APGetFuture 1)].
Example C32_example : exists s, play st0 sc32 = Some s /\
  filter (fun e => match e with EvRet _ (APGetFuture _) _ | EvRetr _ _ _ => true | _ => false end) (trace s) =
  [EvRetr 0 0 false; EvRet 0 (APGetFuture 0) (RHnd 0); EvRetr 0 0 true; EvRet 0 (APGetFuture 0) (RExn XRetrieved);
   EvRetr 0 1 false; EvRet 0 (APGetFuture 0) (RHnd 1); EvRet 0 (APGetFuture 1) (RExn XNoState)].
Proof. eexists. split; vm_compute; reflexivity. Qed.
(** C32, C33: the other calls on promise and future objects that do not wait *)
Theorem C32_promise_calls : forall s, reachable s ->
  each_return (fun t cl tr r => match cl_api cl with
    | APromise v => exists n p, r = RProm n /\ cl_acts cl = [EvState t p v PuPromise; EvPrm t n (Some p)]
    | APAssign d s => passign_spec t d s cl tr r
    | _ => True end) (trace s).
Proof. exact ThmCalls.promise_calls. Qed.
Print Assumptions C32_promise_calls.
Theorem C33_future_calls : forall s, reachable s ->
  each_return (fun t cl tr r => match cl_api cl with
    | AFValid h => cl_acts cl = [] /\ at_end t cl tr (fun m => r = RBool (match snd (fut_of h m) with Some _ => true | None => false end))
    | AFReady h => fquery_spec h is_ready cl tr r
    | AFHasError h => fquery_spec h fails cl tr r
    | AFShare h => share_spec t h cl tr r
    | AFCopy h => exists n x, r = RHnd n /\ cl_acts cl = [EvHnd t n true x] /\ sometime cl tr (fun m => fut_of h m = (true, x))
    | AFMove h => r = RUnit /\ exists sh, cl_acts cl = [EvHnd t h sh None] /\ does cl tr (EvHnd t h sh None) (fun m => fst (fut_of h m) = sh)
    | AFFromVal p sh => exists n, r = RHnd n /\ cl_acts cl = [EvHnd t n sh (Some p)]
    | _ => True end) (trace s).
Proof. exact ThmCalls.future_calls. Qed.
Print Assumptions C33_future_calls.
Definition sc33 : list cmd := [Call 0 AInit; Call 0 (APromise false); Call 0 (APGetFuture 0); Call 0 (AFShare 0); Call 0 (AFCopy 1);
  Call 0 (AFValid 0); Call 0 (AFValid 2); Call 0 (AFReady 0); Call 0 (AFReady 2); Call 0 (APSetExn 0 4); Call 0 (AFHasError 1); Call 0 (AFMove 1); Call 0 (AFReady 1)].
Example C33_calls_example : exists s, play st0 sc33 = Some s /\
  map snd (flat_map (fun e => match e with EvRet _ (AFReady h) r | EvRet _ (AFValid h) r | EvRet _ (AFHasError h) r => [(h, r)] | _ => [] end) (trace s)) =
  [RBool false; RBool true; RExn XNoState; RBool false; RBool true; RExn XNoState].
Proof. eexists. split; vm_compute; reflexivity. Qed.

(** C33: operations on an invalid future object change nothing; get, then, share and moving make it invalid *)
Theorem C33_invalid_rejected : forall s, reachable s ->
  each_return (fun t cl tr r => forall h, fut_made h (cl_pre cl) -> snd (fut_of h (cl_pre cl)) = None ->
    match cl_api cl with
    | AFValid h' => h' = h -> r = RBool false /\ cl_acts cl = []
    | AFReady h' | AFHasError h' | AFWait h' | AFWaitFor h' _ | AFGet h' => h' = h -> r = RExn XNoState /\ cl_acts cl = []
    | AFThen h' _ _ _ u caps => h' = h -> r = RExn XNoState /\ drops (TUser u caps) cl [EvDrop t (TUser u caps)]
    | AFShare h' => h' = h -> exists n, r = RHnd n /\ cl_acts cl = [EvHnd t h false None; EvHnd t n true None]
    | AFCopy h' => h' = h -> exists n, r = RHnd n /\ cl_acts cl = [EvHnd t n true None]
    | _ => True
    end) (trace s).
Proof. exact ThmLaunch.invalid_rejected. Qed.
Print Assumptions C33_invalid_rejected.
Theorem C33_consumed : forall s, reachable s ->
  each_return (fun t cl tr r => forall h, fut_made h (cl_pre cl) -> fst (fut_of h (cl_pre cl)) = false ->
    match cl_api cl with
    | AFGet h' => h' = h -> threw t cl r \/ snd (fut_of h tr) = None
    | AFThen h' _ _ _ _ _ | AFThenNew h' _ _ _ _ | AFShare h' | AFMove h' => h' = h -> snd (fut_of h tr) = None
    | _ => True
    end) (trace s).
Proof. exact ThmLaunch.consumed. Qed.
Print Assumptions C33_consumed.
Definition sc33b : list cmd := [Call 0 AInit; Call 0 (APromise false); Call 0 (APGetFuture 0); Call 0 (APSet 0 (VNat 3)); Call 0 (AFGet 0);
  Call 0 (AFWait 0); Call 0 (AFWaitFor 0 5); Call 0 (AFGet 0); Call 0 (AFThen 0 1 LOther false 7 []); Call 0 (AFShare 0); Call 0 (AFReady 1)].
Example C33_example : exists s, play st0 sc33b = Some s /\
  flat_map (fun e => match e with EvRet _ _ r => [r] | _ => [] end) (skipn 9 (trace s)) =
  [RProm 0; RHnd 0; RUnit; RVal (VNat 3); RExn XNoState; RExn XNoState; RExn XNoState; RExn XNoState; RHnd 1; RExn XNoState].
Proof. eexists. split; vm_compute; reflexivity. Qed.

(** C38: async and then: where the function runs, and what is returned *)
Theorem C38_launch_policies : forall s, reachable s ->
  each_return (fun t cl tr r => match cl_api cl with
    | AAsync i pol v u caps => async_spec t i pol v u caps [] cl tr r
    | AAsyncNew pol v u caps => exists i pre, worker t i pre /\ async_spec t i pol v u caps pre cl tr r
    | AFThen h i pol v u caps => then_spec t h i pol v u caps [] cl tr r
    | AFThenNew h pol v u caps => exists i pre, worker t i pre /\ then_spec t h i pol v u caps pre cl tr r
    | _ => True end) (trace s).
Proof. exact ThmLaunch.launch_calls'. Qed.
Print Assumptions C38_launch_policies.
(** Called by the main thread (id 1): inline, queued for itself, inline by
    caller_id, queued for the worker, refused; then a continuation attached
    before and one attached after readiness. *)
Definition sc38 : list cmd := sc_two ++
  [Call 0 (AAsync 1 LOther false 10 []); Lb (LRet 0 (VNat 1)); Rn 0 0 40; Call 0 (AAsync 1 LAsync false 11 []);
   Call 0 (AAsync caller_id LOther false 12 []); Lb (LRet 0 (VNat 2)); Rn 0 0 40; Call 0 (AAsync 2 LOther false 13 []); Call 0 (AAsync 9 LOther false 14 []);
   Call 0 (APromise false); Call 0 (APGetFuture 0); Call 0 (AFThen 5 2 LOther false 15 []); Call 0 (APSet 0 (VNat 4)); Call 0 (AFThen 0 1 LOther false 16 [])].
Example C38_example : exists s, play st0 sc38 = Some s /\
  flat_map (fun e => match e with
    | EvUser _ u _ _ => [(u, 0)] | EvAccept _ j (TPack _ (BUser u _)) => [(u, j)] | EvAccept _ j (TPack _ (BThen _ _ u _)) => [(u, j)]
    | EvDrop _ (TPack _ (BUser u _)) => [(u, 99)] | EvAttach _ _ (mkCb _ _ (TPack _ (BThen _ _ u _))) => [(u, 77)] | _ => [] end) (trace s) =
  [(10, 0); (10, 99); (11, 1); (12, 0); (12, 99); (13, 2); (14, 99); (15, 77); (15, 2); (16, 77); (16, 0)].
Proof. eexists. split; vm_compute; reflexivity. Qed.

(** C30 does not hold: main is notified for exit, then gets a future<void> whose
    promise was never satisfied; get returns normally. *)
Definition sc30 : list cmd :=
  [Call 0 AInit; Call 0 (APromise true); Call 0 (APGetFuture 0); Call 0 (ANotifyExit 1); Call 0 (AFGet 0)].
Theorem C30_void_get_refuted :
  exists s, reachable s /\ exists tr, trace s = tr ++ [EvRet 0 (AFGet 0) (RVal VUnit)] /\
    In (EvHnd 0 0 false (Some 0)) tr /\ void_state 0 tr = true /\ prom_of 0 tr = Some 0 /\ outcome_of 0 tr = None.
Proof. apply (witness_of (fun s => firstn (length (trace s) - 1) (trace s)) sc30). refutes. Qed.
Print Assumptions C30_void_get_refuted.

(** C36 does not hold: after the assignment no promise refers to the first state,
    it is not ready, and its future still waits for it. *)
Definition sc36 : list cmd :=
  [Call 0 AInit; Call 0 (APromise false); Call 0 (APGetFuture 0); Call 0 (APromise false); Call 0 (APAssign 0 1)].
Theorem C36_assign_abandons_refuted :
  exists s, reachable s /\ exists tr, trace s = tr ++ [EvRet 0 (APAssign 0 1) RUnit] /\
    fut_of 0 tr = (false, Some 0) /\ prom_of 0 tr = Some 1 /\ prom_of 1 tr = None /\
    filter (fun e => match e with EvState _ _ _ _ => true | _ => false end) tr = [EvState 0 0 false PuPromise; EvState 0 1 false PuPromise] /\
    outcome_of 0 tr = None.
Proof. apply (witness_of (fun s => firstn (length (trace s) - 1) (trace s)) sc36). refutes. Qed.
Print Assumptions C36_assign_abandons_refuted.
