(** * Satisfying promises (C28) and launching continuations (C31). *)
From Verif Require Import Types Core State Ops Code Machine Scenario Spec SpecApi SpecFire.
From Verif Require ThmFire InvFire InvAttach.

(** C28: set_value, set_exception, abandon and the destructor either make the state
    ready, which it was not, or report no_state or promise_already_satisfied and do
    nothing but lock and unlock; *)
Theorem C28_setters : forall s, reachable s ->
  each_return (fun t cl tr r => match cl_api cl with
    | APSet pr v => set_spec t pr (OVal v) cl tr r
    | APSetExn pr n => set_spec t pr (OExn (XUser n)) cl tr r
    | APAbandon pr => set_spec t pr (OExn XBroken) cl tr r
    | APDtor pr => pdtor_spec t pr cl tr r
    | _ => True end) (trace s).
Proof. exact ThmFire.setters. Qed.
Print Assumptions C28_setters.
(** an outcome never changes. *)
Theorem C28_outcome_kept : forall s p o tr1 tr2, reachable s -> trace s = tr1 ++ tr2 -> outcome_of p tr1 = Some o -> outcome_of p (trace s) = Some o.
Proof. exact ThmFire.outcome_kept. Qed.
Print Assumptions C28_outcome_kept.
(** Three setters and the destructor: one succeeds. *)
Definition sc28 : list cmd := [Call 0 AInit; Call 0 (APromise false); Call 0 (APSetExn 0 5); Call 0 (APSet 0 (VNat 3)); Call 0 (APAbandon 0); Call 0 (APDtor 0); Call 0 (APSet 0 (VNat 4))].
Example C28_setters_example : exists s, play st0 sc28 = Some s /\
  filter (fun e => match e with EvReady _ _ _ | EvRet _ _ _ => true | _ => false end) (trace s) =
  [EvRet 0 AInit RUnit; EvRet 0 (APromise false) (RProm 0); EvReady 0 0 (OExn (XUser 5)); EvRet 0 (APSetExn 0 5) RUnit; EvRet 0 (APSet 0 (VNat 3)) (RExn XSatisfied);
   EvRet 0 (APAbandon 0) (RExn XSatisfied); EvRet 0 (APDtor 0) RUnit; EvRet 0 (APSet 0 (VNat 4)) (RExn XNoState)] /\
  outcome_of 0 (trace s) = Some (OExn (XUser 5)).
Proof. eexists. split; [vm_compute; reflexivity|]. vm_compute. auto. Qed.

(** C31: no continuation is attached twice *)
Theorem C31_attached_once : forall s, reachable s -> forall tr1 t p cb tr2 t' p' cb' tr3,
  trace s = tr1 ++ EvAttach t p cb :: tr2 ++ EvAttach t' p' cb' :: tr3 -> cb <> cb'.
Proof. exact InvAttach.attach_once. Qed.
Print Assumptions C31_attached_once.
(** or launched twice, *)
Theorem C31_launched_once : forall s, reachable s -> forall tr1 t p cb tr2 t' p' cb' tr3,
  trace s = tr1 ++ EvFire t p cb :: tr2 ++ EvFire t' p' cb' :: tr3 -> cb <> cb'.
Proof. exact InvAttach.fire_once. Qed.
Print Assumptions C31_launched_once.
(** each is launched for the state it was attached to, when that is ready, *)
Theorem C31_launched_after : forall s, reachable s ->
  at_each (fun tr e => match e with EvFire _ p cb => is_ready p tr /\ exists t, In (EvAttach t p cb) tr | _ => True end) (trace s).
Proof. exact InvFire.fire_after. Qed.
Print Assumptions C31_launched_after.
(** and those attached before are launched in the order of attachment by the time
    the thread that made the state ready is out of the function that did. *)
Theorem C31_launched_all : forall s, reachable s -> forall t p o, In (EvReady t p o) (trace s) -> firing t p s \/ all_fired p (trace s).
Proof. exact InvFire.fired_reachable. Qed.
Print Assumptions C31_launched_all.
(** Two continuations; when the function of the first is running the second has yet
    to be launched, afterwards it has been. *)
Definition sc31 : list cmd := [Call 0 AInit; Call 0 (APromise false); Call 0 (APGetFuture 0); Call 0 (AFShare 0);
  Call 0 (AFThen 1 1 LOther false 10 []); Call 0 (AFThen 1 1 LAsync false 11 []); Lb (LCall 0 (APSet 0 (VNat 3))); Rn 0 0 30].
Definition cb31 (n : nat) : callback :=
  mkCb 1 (match n with 0 => LOther | _ => LAsync end) (TPack (S n) (BThen 0 true (10 + n) [])).
Example C31_example : exists s s', play st0 sc31 = Some s /\ play s [Lb (LRet 0 VUnit); Rn 0 0 40] = Some s' /\
  early_cbs 0 (trace s) = [cb31 0; cb31 1] /\ fires 0 (trace s) = [cb31 0] /\ In (EvReady 0 0 (OVal (VNat 3))) (trace s) /\ firing 0 0 s /\
  fires 0 (trace s') = [cb31 0; cb31 1] /\ ~ firing 0 0 s' /\ In (EvRet 0 (APSet 0 (VNat 3)) RUnit) (trace s').
Proof.
  do 2 eexists. split; [vm_compute; reflexivity|]. split; [vm_compute; reflexivity|]. vm_compute. repeat split; try tauto.
  - first [eexists; split; [left; reflexivity|reflexivity]|eexists; split; [right; left; reflexivity|reflexivity]|eexists; split; [right; right; left; reflexivity|reflexivity]|eexists; split; [right; right; right; left; reflexivity|reflexivity]].
  - intros (f & J & F). repeat (destruct J as [<-|J]; try contradiction).
Qed.
